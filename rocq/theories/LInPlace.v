(** Accumulating in place agrees with computing first and storing then, when no
    operand touches the storage of the node. *)
From Coq Require Import FunctionalExtensionality Lia.
From Verif Require Import Base Num Expr Node Stat Machine Wf Session Pure LBase LSimDef LMem LUser Tape LTape LKind LFind InPlace.

Section IP.
Context {N : num}.
Notation T := (carrier N).
Notation E := (expr T (ann N)).

(** The ranges forward evaluation reads or writes. *)
Fixpoint fp (e : E) : list (ptr * nat) :=
  match e with
  | EVar sh o => [(Ptr 0 o, size sh)]
  | ECst _ _ => []
  | ECvw sh o => [(Ptr 4 o, size sh)]
  | EComp k an es => flat_map fp es ++ [(av an, size (shape_of e))]
  | EEq an sh o y => fp y ++ [(Ptr 0 o, size sh); (av an, size sh)]
  | EOpEq _ an sh o y => fp y ++ [(Ptr 0 o, size sh); (av an, size sh); (xv an, size sh)]
  | EGlue an l r => fp l ++ fp r ++ [(av an, size (shape_of e))]
  | EFor an s es => flat_map fp es ++ [(av an, size (shape_of e))]
  | EIf _ c t f => fp c ++ fp t ++ fp f
  end.
Definition refok (e : E) (r : vref N) : Prop :=
  match r with
  | RCst c => length c = size (shape_of e)
  | RMem p n => n = size (shape_of e) /\ In (p, n) (fp e)
  end.

Lemma rdn_len (m : mem T) b n : forall o l, rdn m b o n = Ok l -> length l = n.
Proof.
  induction n; cbn; intros o l H; [now inversion H|].
  apply bindR_ok in H. destruct H as [x [_ H]]. apply bindR_ok in H. destruct H as [y [H1 H]].
  inversion H; subst. cbn. f_equal. eauto.
Qed.
Lemma load_len (m : mem T) p n l : load m p n = Ok l -> length l = n.
Proof.
  destruct p; cbn.
  - destruct (Nat.eqb_spec n 0); [|discriminate]. intros H. inversion H; subst. reflexivity.
  - apply rdn_len.
Qed.
Lemma refok_len e r (m : mem T) v : refok e r -> rdref m r = Ok v -> length v = size (shape_of e).
Proof.
  destruct r; cbn; intros H1 H2; [|now inversion H2; subst].
  destruct H1 as [<- _]. eapply load_len; eauto.
Qed.
Lemma getref_ok e : wfs e = true -> gettable e = true -> refok e (getref e).
Proof.
  destruct e; cbn; intros H G; try discriminate; auto.
  - rewrite andb_true_iff, Nat.eqb_eq in H. tauto.
  - split; auto. apply in_or_app. right. now left.
  - split; auto. apply in_or_app. right. right. now left.
  - split; auto. apply in_or_app. right. right. now left.
  - split; auto. apply in_or_app. right. apply in_or_app. right. now left.
  - split; auto. apply in_or_app. right. now left.
Qed.

Section Frame.
Variable P : nat -> nat -> bool.
Variable w : mem T.
Definition off (p : ptr) (n : nat) : Prop :=
  match p with Null => True | Ptr b o => forall i, o <= i < o + n -> P b i = false end.
Definition ov (m : mem T) : mem T := fun b i => if P b i then w b i else m b i.
Definition kept (m m' : mem T) : Prop := forall b i, P b i = true -> m' b i = m b i.

Lemma load_ov m p n : off p n -> load (ov m) p n = load m p n.
Proof.
  destruct p as [|b o]; cbn; auto. revert o. induction n; cbn; intros o H; auto.
  unfold rd1, ov at 1. rewrite (H o) by lia. destruct (m b o); cbn; auto.
  rewrite IHn by (intros; apply H; lia). reflexivity.
Qed.
Lemma store_ov p l : forall m m1, off p (length l) -> store m p l = Ok m1 -> store (ov m) p l = Ok (ov m1) /\ kept m m1.
Proof.
  destruct p as [|b o]; cbn.
  - destruct l; [|discriminate]. intros m m1 _ H. inversion H; subst. split; auto. intros ? ?; auto.
  - revert o. induction l as [|x l IH]; cbn; intros o m m1 H HS.
    + inversion HS; subst. split; auto. intros ? ?; auto.
    + apply bindR_ok in HS. destruct HS as [m2 [H1 H2]]. unfold wr1 in *. unfold ov at 1.
      rewrite (H o) by lia. destruct (m b o); [|discriminate]. inversion H1; subst m2. clear H1. cbn [bindR].
      apply IH in H2; [|intros; apply H; lia]. destruct H2 as [H2 K]. split.
      * rewrite <- H2. f_equal. unfold ov. apply functional_extensionality; intros b'. apply functional_extensionality; intros o'.
        destruct (Nat.eqb_spec b' b), (Nat.eqb_spec o' o); cbn; auto. subst. rewrite H by lia. reflexivity.
      * intros b' i HP. rewrite K by auto. destruct (Nat.eqb_spec b' b), (Nat.eqb_spec i o); cbn; auto.
        subst. rewrite H in HP by lia. discriminate.
Qed.
Lemma rdref_ov e r m : refok e r -> (forall p n, In (p, n) (fp e) -> off p n) -> rdref (ov m) r = rdref m r.
Proof. destruct r; cbn; auto. intros [_ H] HO. apply load_ov; auto. Qed.

Definition FRs (e : E) : Prop := forall m e' m1 r, wfs e = true -> (forall p n, In (p, n) (fp e) -> off p n) ->
  feval e m = Ok (e', m1, r) ->
  feval e (ov m) = Ok (e', ov m1, r) /\ kept m m1 /\ (getref e' = getref e /\ shape_of e' = shape_of e) /\ refok e r.

Lemma kept_trans m1 m2 m3 : kept m1 m2 -> kept m2 m3 -> kept m1 m3.
Proof. intros H1 H2 b i HP. rewrite H2, H1; auto. Qed.

Lemma kgetf_kget k i : kgetf k i = true -> kget k = true.
Proof. destruct k; cbn; try discriminate; auto. Qed.

Lemma fevals_ov es : Forall FRs es -> forall m es' m1 rs im, forallb wfs es = true ->
  (forall p n, In (p, n) (flat_map fp es) -> off p n) ->
  fevals es m = Ok (es', m1, rs, im) ->
  fevals es (ov m) = Ok (es', ov m1, rs, im) /\ kept m m1 /\
  map getref es' = map getref es /\ map shape_of es' = map shape_of es /\ Forall2 refok es rs.
Proof.
  induction 1 as [|e es H1 H IH]; intros m es' m1 rs im HW HO HE.
  - cbn in *. inversion HE; subst. repeat split; auto.
  - cbn [forallb] in HW. apply andb_true_iff in HW. destruct HW as [W1 W2]. cbn [flat_map] in HO.
    assert (O1 : forall p n, In (p, n) (fp e) -> off p n) by (intros; apply HO, in_or_app; auto).
    cbn [fevals] in HE. apply bindR_ok in HE. destruct HE as [[[x' ma] r] [E1 HE]].
    apply bindR_ok in HE. destruct HE as [v [E2 HE]]. apply bindR_ok in HE. destruct HE as [[[[t' mb] rs0] im0] [E3 HE]].
    inversion HE; subst. clear HE. destruct (H1 _ _ _ _ W1 O1 E1) as [A1 [A2 [[A3 A4] A5]]].
    destruct (IH _ _ _ _ _ W2 (fun p n X => HO p n (in_or_app _ _ _ (or_intror X))) E3) as [B1 [B2 [B3 [B4 B5]]]].
    split; [|split; [eapply kept_trans; eauto|split; [cbn; congruence|split; [cbn; congruence|now constructor]]]].
    cbn [fevals]. rewrite A1. cbn [bindR]. rewrite (rdref_ov e) by auto. rewrite E2. cbn [bindR].
    change (match fevals es (ov ma) with Ok z => (fun '(t', m2, rs, im) => Ok (x' :: t', m2, r :: rs, v :: im)) z | Err b => Err b end
            = Ok (x' :: t', ov m1, r :: rs0, v :: im0)).
    rewrite B1. reflexivity.
Qed.
Lemma opvals_ov k m es es' rs im : Forall2 refok es rs -> map getref es' = map getref es ->
  forallb wfs es = true -> (negb (kget k) || forallb gettable es) = true ->
  (forall p n, In (p, n) (flat_map fp es) -> off p n) ->
  opvals k (ov m) es' rs im = opvals k m es' rs im.
Proof.
  intros HR HG HW HK HO. unfold opvals. destruct (kseq k); auto. generalize 0. revert es' HG HW HK HO.
  induction HR as [|e r es rs H1 H IH]; intros [|x' es'] HG HW HK HO i; try discriminate; cbn; auto.
  cbn in HG. inversion HG as [[G1 G2]]. cbn in HW. apply andb_true_iff in HW. destruct HW as [W1 W2]. cbn [flat_map] in HO.
  assert (O1 : forall p n, In (p, n) (fp e) -> off p n) by (intros; apply HO, in_or_app; auto).
  assert (Q : rdref (ov m) (if kgetf k i then getref x' else r) = rdref m (if kgetf k i then getref x' else r)).
  { destruct (kgetf k i) eqn:EK; [|now apply (rdref_ov e)]. apply kgetf_kget in EK. rewrite EK in HK. cbn in HK.
    apply andb_true_iff in HK. rewrite G1. apply (rdref_ov e); auto. apply getref_ok; tauto. }
  rewrite Q. destruct (rdref m (if kgetf k i then getref x' else r)); cbn; auto.
  specialize (IH es' G2 W2). rewrite <- IH; auto.
  - destruct (kget k); cbn in *; auto. now apply andb_true_iff in HK.
  - intros; apply HO, in_or_app; auto.
Qed.
Lemma fevalsf_ov es : Forall FRs es -> forall m es' m1, forallb wfs es = true ->
  (forall p n, In (p, n) (flat_map fp es) -> off p n) ->
  fevalsf es m = Ok (es', m1) ->
  fevalsf es (ov m) = Ok (es', ov m1) /\ kept m m1 /\
  map getref es' = map getref es /\ map shape_of es' = map shape_of es.
Proof.
  induction 1 as [|e es H1 H IH]; intros m es' m1 HW HO HE.
  - cbn in *. inversion HE; subst. repeat split; auto.
  - cbn [forallb] in HW. apply andb_true_iff in HW. destruct HW as [W1 W2]. cbn [flat_map] in HO.
    assert (O1 : forall p n, In (p, n) (fp e) -> off p n) by (intros; apply HO, in_or_app; auto).
    cbn [fevalsf] in HE. apply bindR_ok in HE. destruct HE as [[[x' ma] r] [E1 HE]].
    apply bindR_ok in HE. destruct HE as [[t' mb] [E3 HE]].
    inversion HE; subst. clear HE. destruct (H1 _ _ _ _ W1 O1 E1) as [A1 [A2 [[A3 A4] A5]]].
    destruct (IH _ _ _ W2 (fun p n X => HO p n (in_or_app _ _ _ (or_intror X))) E3) as [B1 [B2 [B3 B4]]].
    split; [|split; [eapply kept_trans; eauto|split; cbn; congruence]].
    cbn [fevalsf]. rewrite A1. cbn [bindR].
    change (match fevalsf es (ov ma) with Ok z => (fun '(t', m2) => Ok (x' :: t', m2)) z | Err b => Err b end = Ok (x' :: t', ov m1)).
    rewrite B1. reflexivity.
Qed.

Lemma chk_ok n (l v : list T) : chk n l = Ok v -> v = l /\ length l = n.
Proof. unfold chk. destruct (Nat.eqb_spec (length l) n); [|discriminate]. intros H. inversion H; subst; auto. Qed.
Ltac bd H := let x := fresh "q" in let A := fresh "A" in apply bindR_ok in H; destruct H as [x [A H]].
Ltac ina := intros; match goal with HO : forall p n, In _ _ -> off p n |- off _ _ => apply HO; rewrite ?in_app_iff; cbn [In]; tauto end.
Lemma FR_all e : FRs e.
Proof.
  induction e using expr_ind'; intros m e' m1 r HW HO HE.
  - cbn in *. inversion HE; subst. repeat split; auto. all: try (now left).
  - cbn in *. inversion HE; subst. repeat split; auto. all: cbn; rewrite andb_true_iff, Nat.eqb_eq in HW. tauto.
  - cbn in *. inversion HE; subst. repeat split; auto. all: try (now left).
  - cbn [wfs] in HW. rewrite !andb_true_iff in HW. destruct HW as [[[W1 W2] W3] W4].
    cbn [fp shape_of] in HO. rewrite feval_comp in HE. rewrite feval_comp.
    bd HE. destruct q as [[[es' ma] rs] im]. bd HE. rename q into vs. bd HE. bd HE. destruct q0 as [s' val].
    bd HE. rename q0 into val'. bd HE. rename q0 into mb. inversion HE; subst. clear HE.
    apply chk_ok in A3. destruct A3 as [-> L].
    destruct (fevals_ov es H _ _ _ _ _ W1 ltac:(ina) A) as [B1 [B2 [B3 [B4 B5]]]].
    rewrite B1. cbn [bindR]. rewrite (opvals_ov k ma es) by (auto; ina). rewrite A0. cbn [bindR]. rewrite A1. cbn [bindR].
    rewrite A2. cbn [bindR]. unfold chk. rewrite (proj2 (Nat.eqb_eq _ _) L). cbn [bindR].
    destruct (store_ov (av a) val ma m1) as [C1 C2]; [|exact A4|].
    { rewrite L. apply HO. rewrite in_app_iff. right. now left. }
    rewrite C1. cbn [bindR]. split; [reflexivity|]. split; [eapply kept_trans; eauto|].
    split; [|split; [reflexivity|cbn [fp shape_of]; rewrite in_app_iff; right; now left]].
    cbn [getref shape_of own]. rewrite B4. split; auto.
  - cbn [wfs] in HW. rewrite !andb_true_iff in HW. destruct HW as [[[W1 W2] W3] W4]. cbn [fp] in HO.
    cbn [feval] in HE |- *. bd HE. destruct q as [[x' ma] rr]. bd HE. bd HE. bd HE. bd HE. inversion HE; subst. clear HE.
    apply chk_ok in A1. destruct A1 as [-> L].
    destruct (IHe _ _ _ _ W1 ltac:(ina) A) as [B1 [B2 [B3 B4]]].
    rewrite B1. cbn [bindR]. rewrite (rdref_ov e) by (auto; ina). rewrite A0. cbn [bindR].
    unfold chk. rewrite (proj2 (Nat.eqb_eq _ _) L). cbn [bindR].
    destruct (store_ov (Ptr 0 o) q ma q1) as [C1 C2]; [rewrite L; ina|exact A2|]. rewrite C1. cbn [bindR].
    destruct (store_ov (av a) q q1 m1) as [C3 C4]; [rewrite L; ina|exact A3|]. rewrite C3. cbn [bindR].
    split; [reflexivity|]. split; [eauto using kept_trans|].
    split; [split; reflexivity|]. split; [reflexivity|]. cbn [fp]. rewrite in_app_iff. cbn. tauto.
  - rename q into qo. cbn [wfs] in HW. rewrite !andb_true_iff in HW. destruct HW as [[[W1 W2] W3] W4]. cbn [fp] in HO.
    cbn [feval] in HE |- *. bd HE. bd HE. bd HE. destruct q1 as [[x' ma] rr]. bd HE. bd HE. bd HE. bd HE. bd HE.
    inversion HE; subst. clear HE. apply chk_ok in A4. destruct A4 as [-> L].
    rewrite load_ov by ina. rewrite A. cbn [bindR]. pose proof (load_len _ _ _ _ A) as L0.
    destruct (store_ov (xv a) q m q0) as [C1 C2]; [rewrite L0; ina|exact A0|]. rewrite C1. cbn [bindR].
    destruct (IHe _ _ _ _ W1 ltac:(ina) A1) as [B1 [B2 [B3 B4]]].
    rewrite B1. cbn [bindR]. rewrite load_ov by ina. rewrite A2. cbn [bindR].
    rewrite (rdref_ov e) by (auto; ina). rewrite A3. cbn [bindR]. unfold chk. rewrite (proj2 (Nat.eqb_eq _ _) L). cbn [bindR].
    match goal with AA : store ma (Ptr 0 o) ?l = Ok ?mb |- _ =>
      destruct (store_ov (Ptr 0 o) l ma mb) as [C3 C4]; [rewrite L; ina|exact AA|]; rewrite C3; cbn [bindR];
      destruct (store_ov (av a) l mb m1) as [C5 C6]; [rewrite L; ina|assumption|]; rewrite C5; cbn [bindR] end.
    split; [reflexivity|]. split; [eauto 6 using kept_trans|].
    split; [split; reflexivity|]. split; [reflexivity|]. cbn [fp]. rewrite in_app_iff. cbn. tauto.
  - cbn [wfs] in HW. rewrite !andb_true_iff in HW. destruct HW as [[[W1 W2] W3] W4]. cbn [fp shape_of] in HO.
    cbn [feval] in HE |- *. bd HE. destruct q as [[l' ma] rl]. bd HE. destruct q as [[r' mb] rr]. bd HE. bd HE.
    inversion HE; subst. clear HE.
    destruct (IHe1 _ _ _ _ W1 ltac:(ina) A) as [B1 [B2 [B3 B4]]].
    destruct (IHe2 _ _ _ _ W2 ltac:(ina) A0) as [D1 [D2 [D3 D4]]].
    rewrite B1. cbn [bindR]. rewrite D1. cbn [bindR]. rewrite (rdref_ov e2) by (auto; ina). rewrite A1. cbn [bindR].
    pose proof (refok_len _ _ _ _ D4 A1) as L.
    destruct (store_ov (av a) q mb m1) as [C3 C4]; [rewrite L; ina|exact A2|]. rewrite C3. cbn [bindR].
    split; [reflexivity|]. split; [eauto using kept_trans|].
    split; [cbn [getref shape_of own]; destruct D3 as [_ ->]; auto|]. split; [reflexivity|]. cbn [fp shape_of]. rewrite !in_app_iff. cbn. tauto.
  - cbn [wfs] in HW. rewrite !andb_true_iff in HW. destruct HW as [[[W1 W2] W3] W4]. cbn [fp shape_of] in HO.
    rewrite feval_for in HE |- *. bd HE. destruct q as [es' ma].
    destruct (fevalsf_ov es H _ _ _ W1 ltac:(ina) A) as [B1 [B2 [B3 B4]]]. rewrite B1. cbn [bindR].
    assert (RF : refok (EFor a s es) (RMem (av a) (size (iter_shape s (map shape_of es))))).
    { split; [reflexivity|]. cbn [fp shape_of]. rewrite in_app_iff. cbn. tauto. }
    destruct (rev es') as [|x rest] eqn:ER.
    + inversion HE; subst. split; [reflexivity|]. split; [auto|]. split; [|exact RF]. cbn [getref shape_of own]. now rewrite B4.
    + bd HE. bd HE. bd HE. inversion HE; subst. clear HE. rewrite A0. cbn [bindR].
      assert (ES : exists y, In y es /\ getref x = getref y /\ shape_of x = shape_of y /\ gettable y = true).
      { assert (EE : es' = rev rest ++ [x]) by (rewrite <- (rev_involutive es'), ER; reflexivity).
        destruct es as [|z0 es0] eqn:EQ; [cbn in B3; destruct es'; [discriminate ER|discriminate B3]|]. rewrite <- EQ in *.
        assert (NE : es <> []) by (rewrite EQ; discriminate).
        assert (W4' : gettable (last es (EVar scl 0)) = true) by (rewrite EQ in *; exact W4).
        rewrite (app_removelast_last (EVar scl 0) NE) in B3, B4. rewrite EE, !map_app in B3, B4. cbn [map] in B3, B4.
        apply app_inj_tail in B3. apply app_inj_tail in B4.
        exists (last es (EVar scl 0)). split; [|tauto].
        rewrite (app_removelast_last (EVar scl 0) NE) at 2. rewrite in_app_iff. cbn. tauto. }
      destruct ES as [y [Y1 [Y2 [Y3 Y4]]]].
      assert (RY : refok y (getref x)).
      { rewrite Y2. apply getref_ok; auto. rewrite forallb_forall in W1. auto. }
      rewrite (rdref_ov y); [|exact RY|intros; apply HO; rewrite in_app_iff; left; apply in_flat_map; eauto].
      rewrite A1. cbn [bindR]. pose proof (refok_len _ _ _ _ RY A1) as L.
      assert (SH : shape_eqb (shape_of x) (iter_shape s (map shape_of es)) = true) by (unfold guard in A0; destruct (shape_eqb _ _); [reflexivity|discriminate]).
      apply shape_eqb_eq in SH. rewrite <- Y3, SH in L.
      destruct (store_ov (av a) q0 ma m1) as [C3 C4]; [rewrite L; ina|exact A2|]. rewrite C3. cbn [bindR].
      split; [reflexivity|]. split; [eauto using kept_trans|]. split; [|exact RF]. cbn [getref shape_of own]. now rewrite B4.
  - cbn [wfs] in HW. rewrite !andb_true_iff in HW. destruct HW as [[[[[W1 W2] W3] W4] W5] W6]. cbn [fp] in HO.
    cbn [feval] in HE |- *. bd HE. destruct q as [[c' ma] rc]. bd HE.
    destruct (IHe1 _ _ _ _ W1 ltac:(ina) A) as [B1 [B2 [B3 B4]]]. rewrite B1. cbn [bindR].
    rewrite (rdref_ov e1) by (auto; ina). rewrite A0. cbn [bindR]. apply shape_eqb_eq in W6.
    destruct (ntrue N (hd0 N q)).
    + bd HE. destruct q0 as [[t' mb] rt]. inversion HE; subst.
      destruct (IHe2 _ _ _ _ W2 ltac:(ina) A1) as [D1 [D2 [[D3 D3'] D4]]]. rewrite D1. cbn [bindR].
      split; [reflexivity|]. split; [eauto using kept_trans|]. split.
      * cbn [getref shape_of own]. rewrite D3'. auto.
      * destruct r; cbn [refok fp shape_of] in *; auto. rewrite !in_app_iff. tauto.
    + bd HE. destruct q0 as [[t' mb] rt]. inversion HE; subst.
      destruct (IHe3 _ _ _ _ W3 ltac:(ina) A1) as [D1 [D2 [D3 D4]]]. rewrite D1. cbn [bindR].
      split; [reflexivity|]. split; [eauto using kept_trans|]. split.
      * split; reflexivity.
      * destruct r; cbn [refok fp shape_of] in *; rewrite ?W6; auto. rewrite !in_app_iff. tauto.
Qed.
End Frame.

(** ** The node's own view *)
Definition apart (p : ptr) (n : nat) (l : list (ptr * nat)) : Prop :=
  forall q k, In (q, k) l ->
  match p, q with
  | Ptr b o, Ptr b' o' => forall i, ~ (b = b' /\ o <= i < o + n /\ o' <= i < o' + k)
  | _, _ => True
  end.
Fixpoint ip_ok (e : E) : Prop :=
  match e with
  | EVar _ _ | ECst _ _ | ECvw _ _ => True
  | EComp k an es =>
      (fix go es := match es with [] => True | y :: l => ip_ok y /\ go l end) es /\
      apart (av an) (size (shape_of e)) (flat_map fp es)
  | EEq _ _ _ y | EOpEq _ _ _ _ y => ip_ok y
  | EGlue _ l r => ip_ok l /\ ip_ok r
  | EFor _ _ es => (fix go es := match es with [] => True | y :: l => ip_ok y /\ go l end) es
  | EIf _ c t f => ip_ok c /\ ip_ok t /\ ip_ok f
  end.
Definition ip_oks (es : list E) : Prop := (fix go es := match es with [] => True | y :: l => ip_ok y /\ go l end) es.

Definition inr_ (p : ptr) (n : nat) (b i : nat) : bool :=
  match p with Null => false | Ptr b0 o => (b =? b0) && (o <=? i) && (i <? o + n) end.
Lemma inr_t p n b i : inr_ p n b i = true <-> exists o, p = Ptr b o /\ o <= i < o + n.
Proof.
  destruct p as [|b0 o]; unfold inr_; [split; [discriminate|intros [? [? _]]; discriminate]|].
  rewrite !andb_true_iff, Nat.eqb_eq, Nat.leb_le, Nat.ltb_lt. split.
  - intros [[-> ?] ?]. eauto.
  - intros [o' [HE ?]]. inversion HE; subst. lia.
Qed.
Lemma apart_off p n l : apart p n l -> forall q k, In (q, k) l -> off (inr_ p n) q k.
Proof.
  intros H q k HI. specialize (H q k HI). destruct q as [|b' o']; cbn; auto. intros i Hi.
  destruct (inr_ p n b' i) eqn:E1; auto. apply inr_t in E1. destruct E1 as [o [-> Ho]]. destruct (H i). auto.
Qed.

Lemma store_alc (m : mem T) b l : forall o m1, store m (Ptr b o) l = Ok m1 -> forall i, o <= i < o + length l -> m b i <> None.
Proof.
  cbn. revert m. induction l as [|x l IH]; cbn; intros m o m1 H i Hi; [lia|].
  apply bindR_ok in H. destruct H as [m2 [H1 H2]]. unfold wr1 in H1. destruct (m b o) eqn:EO; [|discriminate].
  inversion H1; subst. clear H1. destruct (Nat.eq_dec i o) as [->|NE]; [congruence|].
  specialize (IH _ _ _ H2 i ltac:(lia)). cbn in IH.
  destruct (Nat.eqb_spec i o); [lia|]. now rewrite andb_false_r in IH.
Qed.
Lemma store_upd (m : mem T) b o l m1 : store m (Ptr b o) l = Ok m1 -> updm m b o l m1.
Proof.
  intros H. destruct (store_ok m b o l (store_alc _ _ _ _ _ H)) as [m' [H1 H2]]. rewrite H1 in H. now inversion H; subst.
Qed.
Lemma load_own P w (m : mem T) p n : (forall b i, inr_ p n b i = true -> P b i = true) -> load (ov P w m) p n = load w p n.
Proof.
  destruct p as [|b o]; [reflexivity|]. cbn [load]. revert o. induction n; intros o H; [reflexivity|].
  assert (H0 : P b o = true) by (apply H, inr_t; exists o; split; [reflexivity|lia]). cbn [rdn].
  unfold rd1, ov at 1. rewrite H0. destruct (w b o); cbn; auto. rewrite IHn; auto.
  intros b' i HI. apply H. apply inr_t in HI. destruct HI as [o' [HE Ho]]. inversion HE; subst.
  apply inr_t. exists o. split; [reflexivity|lia].
Qed.
(** Storing into the view yields another overlay. *)
Lemma store_own p n w (m : mem T) new acc : load w p n = Ok acc -> length new = n ->
  exists w2, store (ov (inr_ p n) w m) p new = Ok (ov (inr_ p n) w2 m) /\ load w2 p n = Ok new.
Proof.
  intros HL HN. destruct p as [|b o].
  - cbn in *. destruct (Nat.eqb_spec n 0); [|discriminate]. destruct new; [|cbn in *; lia]. exists w. auto.
  - destruct (store_ok (ov (inr_ (Ptr b o) n) w m) b o new) as [m2 [S1 S2]].
    { intros i Hi. unfold ov. rewrite (proj2 (inr_t _ _ _ _)) by (exists o; split; [reflexivity|lia]).
      apply load_inv in HL. destruct HL as [_ HL]. rewrite HL by lia. discriminate. }
    exists m2. split.
    + rewrite S1. f_equal. apply functional_extensionality; intros b'. apply functional_extensionality; intros i.
      unfold ov at 1. destruct (inr_ (Ptr b o) n b' i) eqn:EI; auto.
      rewrite (updm_out _ _ _ _ _ b' i S2).
      * unfold ov. now rewrite EI.
      * intros [-> Hi]. assert (inr_ (Ptr b o) n b i = true) by (apply inr_t; exists o; split; [reflexivity|lia]). congruence.
    + rewrite <- HN. eapply updm_load; eauto.
Qed.
Lemma fold_len {A} (f : A -> A -> A) im : forall acc, length (fold_left (map2 f) im acc) <= length acc.
Proof.
  induction im; cbn; intros acc; auto. eapply Nat.le_trans; [apply IHim|]. rewrite map2_length. lia.
Qed.

Definition SIs (e : E) : Prop := forall m e' m1 r, wfs e = true -> ip_ok e -> feval e m = Ok (e', m1, r) -> feval_ip e m = Ok (e', m1, r).

Section Loop.
Variables (k : kd) (p : ptr) (n : nat).
Definition ips : list E -> mem T -> res (list E * mem T) :=
  fix go es m := match es with
                 | [] => Ok ([], m)
                 | x :: t => '(x', m1, r) <- feval_ip x m ;;
                             v <- rdref m1 r ;;
                             cur <- load m1 p n ;;
                             new <- chk n (map2 (acc1 k) cur v) ;;
                             m2 <- store m1 p new ;;
                             '(t', m3) <- go t m2 ;;
                             Ok (x' :: t', m3)
                 end.
Notation P := (inr_ p n).
Lemma loop es : Forall SIs es -> forall m es' m1 rs im w acc, forallb wfs es = true -> ip_oks es ->
  (forall q k, In (q, k) (flat_map fp es) -> off P q k) ->
  fevals es m = Ok (es', m1, rs, im) -> load w p n = Ok acc ->
  length (fold_left (map2 (acc1 k)) im acc) = n ->
  exists w2, ips es (ov P w m) = Ok (es', ov P w2 m1) /\ load w2 p n = Ok (fold_left (map2 (acc1 k)) im acc) /\ kept P m m1.
Proof.
  induction 1 as [|e es H1 H IH]; intros m es' m1 rs im w acc HW HI HO HE HL HF.
  - cbn in HE. inversion HE; subst. exists w. cbn. repeat split; auto.
  - cbn [forallb] in HW. apply andb_true_iff in HW. destruct HW as [W1 W2]. cbn [flat_map] in HO. destruct HI as [I1 I2].
    assert (O1 : forall p n, In (p, n) (fp e) -> off P p n) by (intros; apply HO, in_or_app; auto).
    cbn [fevals] in HE. apply bindR_ok in HE. destruct HE as [[[x' ma] r] [E1 HE]].
    apply bindR_ok in HE. destruct HE as [v [E2 HE]]. apply bindR_ok in HE. destruct HE as [[[[t' mb] rs0] im0] [E3 HE]].
    inversion HE; subst. clear HE. destruct (FR_all P w e _ _ _ _ W1 O1 E1) as [A1 [A2 [_ A5]]].
    apply (H1 _ _ _ _ W1 I1) in A1. cbn [fold_left] in HF.
    assert (LN : length (map2 (acc1 k) acc v) = n).
    { apply Nat.le_antisymm; [|rewrite <- HF at 1; apply fold_len].
      rewrite map2_length, (load_len _ _ _ _ HL). lia. }
    destruct (store_own p n w ma (map2 (acc1 k) acc v) acc HL LN) as [w1 [S1 S2]].
    destruct (IH _ _ _ _ _ w1 (map2 (acc1 k) acc v) W2 I2 (fun p n X => HO p n (in_or_app _ _ _ (or_intror X))) E3 S2 HF) as [w2 [B1 [B2 B3]]].
    exists w2. split; [|split; [exact B2|eapply kept_trans; eauto]].
    cbn [ips]. rewrite A1. cbn [bindR]. rewrite (rdref_ov P w e) by auto. rewrite E2. cbn [bindR].
    rewrite load_own by auto. rewrite HL. cbn [bindR]. unfold chk. rewrite (proj2 (Nat.eqb_eq _ _) LN). cbn [bindR].
    rewrite S1. cbn [bindR].
    change (match ips es (ov P w1 ma) with Ok z => (fun '(t', m3) => Ok (x' :: t', m3)) z | Err b => Err b end = Ok (x' :: t', ov P w2 m1)).
    rewrite B1. reflexivity.
Qed.
End Loop.
Definition fips : list E -> mem T -> res (list E * mem T * list (vref N) * list (list T)) :=
  fix go es m := match es with
                 | [] => Ok ([], m, [], [])
                 | x :: t => '(x', m1, r) <- feval_ip x m ;;
                             v <- rdref m1 r ;;
                             '(t', m2, rs, im) <- go t m1 ;;
                             Ok (x' :: t', m2, r :: rs, v :: im)
                 end.
Definition fipsf : list E -> mem T -> res (list E * mem T) :=
  fix go es m := match es with
                 | [] => Ok ([], m)
                 | x :: t => '(x', m1, _) <- feval_ip x m ;;
                             '(t', m2) <- go t m1 ;;
                             Ok (x' :: t', m2)
                 end.
Lemma ip_comp k an es m (n := size (kshape k (map shape_of es))) :
  feval_ip (EComp k an es) m =
  if kseq k then
    _ <- guard (kshape_ok k (map shape_of es)) ;;
    m0 <- store m (av an) (repeat (acc0 k) n) ;;
    '(es', m1) <- ips k (av an) n es m0 ;;
    Ok (EComp k an es', m1, RMem (av an) n)
  else
    '(es', m1, rs, im) <- fips es m ;;
    vs <- opvals k m1 es' rs im ;;
    _ <- guard (kshape_ok k (map shape_of es)) ;;
    _ <- guard (unaliased k (kshape k (map shape_of es)) (av an) rs) ;;
    '(s', val) <- kfwd k (map is_const es) (map shape_of es) (st an) vs ;;
    val <- chk n val ;;
    m2 <- store m1 (av an) val ;;
    Ok (EComp k (set_st an s') es', m2, RMem (av an) n).
Proof. reflexivity. Qed.
Lemma ip_for an s es m :
  feval_ip (EFor an s es) m =
  ('(es', m1) <- fipsf es m ;;
   match rev es' with
   | [] => Ok (EFor an s es', m1, RMem (av an) (size (iter_shape s (map shape_of es))))
   | x :: _ =>
       _ <- guard (shape_eqb (shape_of x) (iter_shape s (map shape_of es))) ;;
       v <- rdref m1 (getref x) ;;
       m2 <- store m1 (av an) v ;;
       Ok (EFor an s es', m2, RMem (av an) (size (iter_shape s (map shape_of es))))
   end).
Proof. reflexivity. Qed.
Lemma fips_ok es : Forall SIs es -> forall m x, forallb wfs es = true -> ip_oks es -> fevals es m = Ok x -> fips es m = Ok x.
Proof.
  induction 1 as [|e es H1 H IH]; intros m x HW HI HE; [exact HE|].
  cbn [forallb] in HW. apply andb_true_iff in HW. destruct HW as [W1 W2]. destruct HI as [I1 I2].
  cbn [fevals] in HE. cbn [fips]. apply bindR_ok in HE. destruct HE as [[[x' ma] r] [E1 HE]].
  rewrite (H1 _ _ _ _ W1 I1 E1). cbn [bindR]. apply bindR_ok in HE. destruct HE as [v [E2 HE]]. rewrite E2. cbn [bindR].
  apply bindR_ok in HE. destruct HE as [y [E3 HE]]. change (bindR (fips es ma) (fun '(t', m2, rs, im) => Ok (x' :: t', m2, r :: rs, v :: im)) = Ok x).
  rewrite (IH _ _ W2 I2 E3). exact HE.
Qed.
Lemma fipsf_ok es : Forall SIs es -> forall m x, forallb wfs es = true -> ip_oks es -> fevalsf es m = Ok x -> fipsf es m = Ok x.
Proof.
  induction 1 as [|e es H1 H IH]; intros m x HW HI HE; [exact HE|].
  cbn [forallb] in HW. apply andb_true_iff in HW. destruct HW as [W1 W2]. destruct HI as [I1 I2].
  cbn [fevalsf] in HE. cbn [fipsf]. apply bindR_ok in HE. destruct HE as [[[x' ma] r] [E1 HE]].
  rewrite (H1 _ _ _ _ W1 I1 E1). cbn [bindR].
  apply bindR_ok in HE. destruct HE as [y [E3 HE]]. change (bindR (fipsf es ma) (fun '(t', m2) => Ok (x' :: t', m2)) = Ok x).
  rewrite (IH _ _ W2 I2 E3). exact HE.
Qed.

Lemma set_st_id (an : ann N) : set_st an (st an) = an. Proof. destruct an; reflexivity. Qed.
Ltac bd H := let x := fresh "q" in let A := fresh "A" in apply bindR_ok in H; destruct H as [x [A H]].
Lemma size_pos s : (rows s <=? 1) || (cols s <=? 1) = false -> shape_ok s = true -> 1 <= size s.
Proof.
  intros H _. rewrite orb_false_iff, !Nat.leb_gt in H. unfold size. destruct H. destruct (rows s), (cols s); cbn; lia.
Qed.

Lemma SI_all e : SIs e.
Proof.
  induction e using expr_ind'; intros m e' m1 r HW HI HE; try exact HE.
  - cbn [wfs] in HW. rewrite !andb_true_iff in HW. destruct HW as [[[W1 W2] W3] W4]. destruct HI as [I1 I2]. cbn [shape_of] in I2.
    change (ip_oks es) in I1. set (n := size (kshape k (map shape_of es))) in *.
    rewrite feval_comp in HE. rewrite ip_comp. fold n. fold n in HE.
    bd HE. destruct q as [[[es' ma] rs] im]. bd HE. rename q into vs. bd HE. bd HE. destruct q0 as [s' val].
    bd HE. rename q0 into val'. bd HE. rename q0 into mb. inversion HE; subst. clear HE.
    apply chk_ok in A3. destruct A3 as [-> L]. pose proof (apart_off _ _ _ I2) as O1.
    destruct (kseq k) eqn:EK.
    + rewrite A1. cbn [bindR].
      assert (VV : vs = im) by (unfold opvals in A0; rewrite EK in A0; now inversion A0). subst vs.
      assert (KF : s' = st a /\ val = fold_left (map2 (acc1 k)) im (repeat (acc0 k) n)).
      { destruct k; try discriminate EK; cbn in A2; inversion A2; auto. }
      destruct KF as [-> ->]. rewrite set_st_id.
      destruct (fevals_ov (inr_ (av a) n) m es (Forall_impl _ (fun e _ => FR_all _ _ e) H) _ _ _ _ _ W1 O1 A) as [_ [KP _]].
      (* the view is allocated at the start *)
      assert (S0 : exists w0, store m (av a) (repeat (acc0 k) n) = Ok (ov (inr_ (av a) n) w0 m) /\ load w0 (av a) n = Ok (repeat (acc0 k) n)).
      { destruct (av a) as [|b o] eqn:EA.
        - cbn in A4. destruct (fold_left _ _ _) eqn:EF; [|discriminate]. cbn in L. exists m. rewrite <- L. cbn. split; reflexivity.
        - pose (g := fun i => match m b i with Some x => x | None => n0 N end).
          destruct (store_own (Ptr b o) n m m (repeat (acc0 k) n) (map g (seq o n))) as [w2 [Q1 Q2]].
          + apply (rdn_ok _ _ _ _ _ (n0 N)). split; [now rewrite map_length, seq_length|]. intros i Hi.
            rewrite (nth_indep _ _ (g 0)) by (rewrite map_length, seq_length; lia).
            rewrite map_nth, seq_nth by lia. unfold g. destruct (m b (o + i)) eqn:EM; auto.
            exfalso. apply (store_alc _ _ _ _ _ A4 (o + i)); [rewrite L; lia|].
            rewrite KP; [exact EM|]. apply inr_t. exists o. split; [reflexivity|lia].
          + apply repeat_length.
          + exists w2. split; [|exact Q2]. rewrite <- Q1. f_equal. apply functional_extensionality; intros b'.
            apply functional_extensionality; intros i. unfold ov. now destruct (inr_ _ _ _ _). }
      destruct S0 as [w0 [S1 S2]]. rewrite S1. cbn [bindR].
      destruct (loop k (av a) n es H m es' ma rs im w0 _ W1 I1 O1 A S2 L) as [w2 [B1 [B2 _]]].
      rewrite B1. cbn [bindR]. do 3 f_equal. apply functional_extensionality; intros b'.
      apply functional_extensionality; intros i. unfold ov. destruct (inr_ (av a) n b' i) eqn:EI.
      * apply inr_t in EI. destruct EI as [o [EA Ho]]. rewrite EA in *. apply store_upd in A4.
        rewrite (updm_in _ _ _ _ _ i A4) by (rewrite L; lia). apply load_inv in B2. destruct B2 as [_ B2]. now rewrite B2 by lia.
      * destruct (av a) as [|b o] eqn:EA.
        -- cbn in A4. destruct (fold_left _ _ _); [|discriminate]. now inversion A4.
        -- apply store_upd in A4. symmetry. apply (updm_out _ _ _ _ _ b' i A4). intros [-> Hi].
           assert (inr_ (Ptr b o) n b i = true) by (apply inr_t; exists o; split; [reflexivity|lia]). congruence.
    + rewrite (fips_ok es H _ _ W1 I1 A). cbn [bindR]. rewrite A0. cbn [bindR]. rewrite A1. cbn [bindR].
      destruct (fevals_ov (fun _ _ => false) m es (Forall_impl _ (fun e _ => FR_all _ _ e) H) _ _ _ _ _ W1
                  ltac:(intros [|? ?] ? ?; cbn; auto) A) as [_ [_ [_ [_ RO]]]].
      assert (UN : unaliased k (kshape k (map shape_of es)) (av a) rs = true).
      { destruct k; auto. inversion RO as [|y r1 es1 rs1 R1 R2]; subst; auto. destruct R2; [|now destruct r1].
        destruct r1 as [q0 k0|]; auto. cbn [unaliased]. cbn [map kshape nth_sh nth] in *.
        destruct ((_ <=? 1) || (_ <=? 1)) eqn:ES; auto. cbn [orb]. destruct R1 as [R1 R3].
        destruct (ptr_eqb q0 (av a)) eqn:EP; auto. exfalso. destruct q0 as [|b0 o0], (av a) as [|b1 o1]; cbn in EP; try discriminate.
        - assert (1 <= n) by (apply size_pos; [exact ES|reflexivity]). cbn in A4. destruct val; [change (0 = n) in L; lia|discriminate].
        - rewrite andb_true_iff, !Nat.eqb_eq in EP. destruct EP as [-> ->].
          apply (I2 (Ptr b1 o1) k0) with (i := o1); [cbn [flat_map]; rewrite in_app_iff; tauto|].
          assert (1 <= n) by (apply size_pos; [exact ES|reflexivity]).
          assert (1 <= k0). { rewrite R1. unfold n, size in *. cbn [rows cols] in *. destruct (rows (shape_of y)), (cols (shape_of y)); cbn in *; lia. }
          lia. }
      rewrite UN. cbn [guard bindR]. rewrite A2. cbn [bindR]. unfold chk. rewrite (proj2 (Nat.eqb_eq _ _) L). cbn [bindR]. rewrite A4. reflexivity.
  - cbn [wfs] in HW. rewrite !andb_true_iff in HW. destruct HW as [[[W1 W2] W3] W4]. cbn [ip_ok] in HI.
    cbn [feval] in HE. cbn [feval_ip]. bd HE. destruct q as [[x' ma] rr]. rewrite (IHe _ _ _ _ W1 HI A). exact HE.
  - rename q into qo. cbn [wfs] in HW. rewrite !andb_true_iff in HW. destruct HW as [[[W1 W2] W3] W4]. cbn [ip_ok] in HI.
    cbn [feval] in HE. cbn [feval_ip]. bd HE. rewrite A. cbn [bindR]. bd HE. rewrite A0. cbn [bindR].
    bd HE. destruct q1 as [[x' ma] rr]. rewrite (IHe _ _ _ _ W1 HI A1). exact HE.
  - cbn [wfs] in HW. rewrite !andb_true_iff in HW. destruct HW as [[[W1 W2] W3] W4]. destruct HI as [I1 I2].
    cbn [feval] in HE. cbn [feval_ip]. bd HE. destruct q as [[l' ma] rl]. rewrite (IHe1 _ _ _ _ W1 I1 A). cbn [bindR].
    bd HE. destruct q as [[r' mb] rr]. rewrite (IHe2 _ _ _ _ W2 I2 A0). exact HE.
  - cbn [wfs] in HW. rewrite !andb_true_iff in HW. destruct HW as [[[W1 W2] W3] W4].
    rewrite feval_for in HE. rewrite ip_for. bd HE. rewrite (fipsf_ok es H _ _ W1 HI A). exact HE.
  - cbn [wfs] in HW. rewrite !andb_true_iff in HW. destruct HW as [[[[[W1 W2] W3] W4] W5] W6]. destruct HI as [I1 [I2 I3]].
    cbn [feval] in HE. cbn [feval_ip]. bd HE. destruct q as [[c' ma] rc]. rewrite (IHe1 _ _ _ _ W1 I1 A). cbn [bindR].
    bd HE. rewrite A0. cbn [bindR]. destruct (ntrue N (hd0 N q)).
    + bd HE. destruct q0 as [[t' mb] rt]. rewrite (IHe2 _ _ _ _ W2 I2 A1). exact HE.
    + bd HE. destruct q0 as [[t' mb] rt]. rewrite (IHe3 _ _ _ _ W3 I3 A1). exact HE.
Qed.

(** ** Bound expressions *)
Section Bound.
Variables bv ba : nat.
Hypothesis HF : fresh bv ba.
Definition within (v v' : nat) (R : nat -> Prop) (p : ptr) (n : nat) : Prop :=
  match p with
  | Null => True
  | Ptr b o => forall i, o <= i < o + n -> (b = bv /\ v <= i < v') \/ (b = 0 /\ R i) \/ b = 4
  end.
Lemma within_weak v v' (R : nat -> Prop) w w' (S : nat -> Prop) p n : within v v' R p n -> w <= v -> v' <= w' ->
  (forall i, R i -> S i) -> within w w' S p n.
Proof. destruct p; cbn; auto. intros H H1 H2 H3 i Hi. destruct (H i Hi) as [?|[[? ?]|?]]; [left; lia|right; left; auto|auto]. Qed.
Definition R_ (x : option nat) (e : E) (i : nat) : Prop :=
  In i (refs e) \/ exists c, x = Some c /\ c <= i < c + size (shape_of e).
Definition LP (e : E) : Prop := forall x v a v' a', wfs e = true -> lay bv ba x e v a v' a' ->
  forall p n, In (p, n) (fp e) -> within v v' (R_ x e) p n.
Lemma lays_within es : Forall LP es -> forall v a v' a', forallb wfs es = true -> lays bv ba v' a' es v a ->
  forall p n, In (p, n) (flat_map fp es) -> within v v' (fun i => In i (flat_map refs es)) p n.
Proof.
  induction 1 as [|e es H1 H IH]; intros v a v' a' HW HL p n HI; [destruct HI|].
  cbn [forallb] in HW. apply andb_true_iff in HW. destruct HW as [W1 W2]. destruct HL as [v2 [a2 [L1 L2]]].
  pose proof (lay_le N bv ba e _ _ _ _ _ L1) as Q1.
  pose proof (lays_le N bv ba v' a' es v2 a2 (Forall_impl _ (fun e _ => lay_le N bv ba e) H) L2) as Q2.
  cbn [flat_map] in *. apply in_app_or in HI. destruct HI as [HI|HI].
  - eapply within_weak; [eapply H1; eauto|lia|lia|]. intros i [Hi|[c [? _]]]; [apply in_or_app; auto|discriminate].
  - eapply within_weak; [eapply IH; eauto|lia|lia|]. intros i Hi. apply in_or_app; auto.
Qed.
Lemma dptr_fp e : gettable e = true -> is_const e = false -> In (fst (dptr e), size (shape_of e)) (fp e).
Proof. destruct e; cbn; try discriminate; intros _ _; rewrite ?in_app_iff; cbn; tauto. Qed.
Lemma in_cells sh o i : In i (cells sh o) <-> o <= i < o + size sh.
Proof. apply in_seq. Qed.
Lemma LP_all e : LP e.
Proof.
  induction e using expr_ind'; intros x v a0 v' a' HW HL p n HI.
  - cbn in HI. destruct HI as [HI|[]]. inversion HI; subst. cbn. intros i Hi. right. left. split; auto. left. now apply in_cells.
  - destruct HI.
  - cbn in HI. destruct HI as [HI|[]]. inversion HI; subst. cbn. auto.
  - cbn [wfs] in HW. rewrite !andb_true_iff in HW. destruct HW as [[[W1 W2] W3] W4].
    rewrite lay_comp in HL. destruct HL as [v1 [a1 [L1 [_ L2]]]].
    pose proof (lays_le N bv ba v1 a1 es v a0 (Forall_impl _ (fun e _ => lay_le N bv ba e) H) L1) as Q1.
    cbn [fp] in HI. apply in_app_or in HI. destruct HI as [HI|[HI|[]]].
    + eapply within_weak; [eapply lays_within; eauto|lia| |intros i Hi; left; exact Hi].
      destruct x; [lia|]. destruct L2 as [_ [_ [-> _]]]. lia.
    + inversion HI; subst. destruct x as [c|].
      * destruct L2 as [_ [-> _]]. cbn. intros i Hi. right. left. split; auto. right. eauto.
      * destruct L2 as [-> [_ [-> _]]]. cbn. intros i Hi. left. cbn [shape_of] in Hi. lia.
  - cbn [wfs] in HW. rewrite !andb_true_iff in HW. destruct HW as [[[W1 W2] W3] W4]. apply shape_eqb_eq in W3.
    cbn [lay] in HL. destruct HL as [L1 L2]. cbn [fp] in HI. apply in_app_or in HI. destruct HI as [HI|[HI|[HI|[]]]].
    + eapply within_weak; [eapply IHe; eauto|lia|lia|]. intros i [Hi|[c [Hc Hi]]].
      * left. cbn. apply in_or_app. auto.
      * inversion Hc; subst c. left. cbn. apply in_or_app. left. apply in_cells. now rewrite W3.
    + inversion HI; subst. cbn. intros i Hi. right. left. split; auto. left. cbn. apply in_or_app. left. now apply in_cells.
    + inversion HI; subst. rewrite L2. cbn. intros i Hi. right. left. split; auto. destruct x as [c|]; cbn [root] in Hi.
      * right. exists c. auto.
      * left. cbn. apply in_or_app. left. now apply in_cells.
  - cbn [wfs] in HW. rewrite !andb_true_iff in HW. destruct HW as [[[W1 W2] W3] W4].
    cbn [lay] in HL. destruct HL as [v1 [a1 [L1 [L2 [L3 [L4 [-> ->]]]]]]]. cbn [fp] in HI. apply in_app_or in HI.
    pose proof (lay_le N bv ba e _ _ _ _ _ L1) as Q1. destruct HI as [HI|[HI|[HI|[HI|[]]]]].
    + eapply within_weak; [eapply IHe; eauto|lia|lia|]. intros i [Hi|[c [Hc Hi]]]; [|discriminate].
      left. cbn. apply in_or_app. auto.
    + inversion HI; subst. cbn. intros i Hi. right. left. split; auto. left. cbn. apply in_or_app. left. now apply in_cells.
    + inversion HI; subst. rewrite L2. cbn. intros i Hi. right. left. split; auto. destruct x as [c|]; cbn [root] in Hi.
      * right. exists c. auto.
      * left. cbn. apply in_or_app. left. now apply in_cells.
    + inversion HI; subst. rewrite L3. cbn. intros i Hi. left. lia.
  - cbn [wfs] in HW. rewrite !andb_true_iff in HW. destruct HW as [[[W1 W2] W3] W4]. apply negb_true_iff in W4.
    cbn [lay] in HL. destruct HL as [v1 [a1 [L1 [L2 L3]]]].
    pose proof (lay_le N bv ba e1 _ _ _ _ _ L1) as Q1. pose proof (lay_le N bv ba e2 _ _ _ _ _ L2) as Q2.
    cbn [fp] in HI. rewrite !in_app_iff in HI.
    assert (B2 : forall p n, In (p, n) (fp e2) -> within v v' (R_ x (EGlue a e1 e2)) p n).
    { intros p0 n1 HI2. eapply within_weak; [eapply IHe2; eauto|lia|lia|]. intros i [Hi|[c [Hc Hi]]]; [|discriminate].
      left. cbn. apply in_or_app. auto. }
    destruct HI as [HI|[HI|[HI|[]]]]; auto.
    + eapply within_weak; [eapply IHe1; eauto|lia|lia|]. intros i [Hi|[c [Hc Hi]]]; [|discriminate].
      left. cbn. apply in_or_app. auto.
    + inversion HI; subst. rewrite L3. destruct x as [c|].
      * cbn. intros i Hi. right. left. split; auto. right. eauto.
      * apply B2. now apply dptr_fp.
  - cbn [wfs] in HW. rewrite !andb_true_iff in HW. destruct HW as [[[W1 W2] W3] W4].
    rewrite lay_for in HL. destruct HL as [L1 L2]. cbn [fp] in HI. rewrite in_app_iff in HI.
    assert (B2 : forall p n, In (p, n) (flat_map fp es) -> within v v' (R_ x (EFor a s es)) p n).
    { intros p0 n1 HI2. eapply within_weak; [eapply lays_within; eauto|lia|lia|]. intros i Hi. left. exact Hi. }
    destruct HI as [HI|[HI|[]]]; auto. inversion HI; subst. destruct x as [c|].
    + rewrite L2. cbn. intros i Hi. right. left. split; auto. right. eauto.
    + destruct es as [|z0 es0] eqn:EQ.
      * destruct s; [discriminate W4| |]; destruct (av a); cbn; auto; intros; lia.
      * rewrite <- EQ in *. assert (NE : es <> []) by (rewrite EQ; discriminate).
        assert (W4' : gettable (last es (EVar scl 0)) = true) by (rewrite EQ in *; exact W4).
        assert (ER : rev es = last es (EVar scl 0) :: rev (removelast es)).
        { rewrite (app_removelast_last (EVar scl 0) NE) at 1. now rewrite rev_app_distr. }
        rewrite ER in L2. rewrite L2. apply B2. apply in_flat_map. exists (last es (EVar scl 0)).
        assert (IN : In (last es (EVar scl 0)) es).
        { rewrite (app_removelast_last (EVar scl 0) NE) at 2. rewrite in_app_iff. cbn. tauto. }
        split; auto.
        assert (SZ : shape_of (EFor a s es) = shape_of (last es (EVar scl 0))).
        { cbn [shape_of]. unfold for_shapes in W2. rewrite andb_true_iff in W2. destruct W2 as [F1 F2].
          assert (ML : last (map shape_of es) (shape_of z0) = shape_of (last es (EVar scl 0))).
          { rewrite (app_removelast_last (EVar scl 0) NE) at 1. rewrite map_app. cbn [map]. now rewrite last_last. }
          rewrite EQ in F2. cbn [map] in F2. rewrite EQ in ML. cbn [map] in ML. rewrite ML in F2. apply shape_eqb_eq in F2.
          rewrite EQ, F2. cbn [map iter_shape]. rewrite EQ in F1. cbn [map forallb] in F1. apply andb_true_iff in F1. destruct F1 as [F1 _].
          assert (W0 : wfs z0 = true) by (rewrite EQ in W1; cbn in W1; now apply andb_true_iff in W1).
          apply wfs_shape in W0. destruct (shape_of z0) as [k0 r0 c0]. cbn in *. destruct s, k0; try discriminate F1; cbn in *; auto.
          unfold shape_ok in W0. cbn in W0. rewrite andb_true_iff, !Nat.eqb_eq in W0. destruct W0 as [-> ->]. reflexivity. }
        cbn [shape_of] in SZ |- *. rewrite SZ. apply dptr_fp; auto. apply negb_true_iff in W3.
        destruct (is_const (last es (EVar scl 0))) eqn:EC; auto.
        exfalso. assert (existsb is_const es = true) by (apply existsb_exists; eauto). congruence.
  - cbn [wfs] in HW. rewrite !andb_true_iff in HW. destruct HW as [[[[[W1 W2] W3] W4] W5] W6].
    cbn [lay] in HL. destruct HL as [v1 [a1 [v2 [a2 [L1 [L2 L3]]]]]].
    pose proof (lay_le N bv ba e1 _ _ _ _ _ L1) as Q1. pose proof (lay_le N bv ba e2 _ _ _ _ _ L2) as Q2.
    pose proof (lay_le N bv ba e3 _ _ _ _ _ L3) as Q3.
    cbn [fp] in HI. rewrite !in_app_iff in HI. destruct HI as [HI|[HI|HI]];
      (eapply within_weak; [first [eapply IHe1; eassumption|eapply IHe2; eassumption|eapply IHe3; eassumption]|lia|lia|];
       intros i [Hi|[c [Hc Hi]]]; [|discriminate]; left; cbn; rewrite !in_app_iff; tauto).
Qed.

Lemma dj_in a b : dj a b = true -> forall x, In x a -> ~ In x b.
Proof.
  unfold dj. rewrite forallb_forall. intros H x Hx Hb. specialize (H x Hx). apply negb_true_iff in H.
  assert (existsb (Nat.eqb x) b = true) by (apply existsb_exists; exists x; split; [auto|apply Nat.eqb_refl]). congruence.
Qed.
Definition IL (e : E) : Prop := forall x v a v' a', wfs e = true -> noself e = true -> lay bv ba x e v a v' a' ->
  (forall c, x = Some c -> forall i, c <= i < c + size (shape_of e) -> ~ In i (refs e)) -> ip_ok e.
Lemma ils es : Forall IL es -> forall v a v' a', forallb wfs es = true -> forallb noself es = true -> lays bv ba v' a' es v a -> ip_oks es.
Proof.
  induction 1 as [|e es H1 H IH]; intros v a v' a' HW HD HL; [exact I|]. cbn [forallb] in *.
  apply andb_true_iff in HW. apply andb_true_iff in HD. destruct HL as [v2 [a2 [L1 L2]]]. split.
  - eapply H1; [apply HW|apply HD|exact L1|discriminate].
  - eapply IH; [apply HW|apply HD|exact L2].
Qed.
Lemma IL_all e : IL e.
Proof.
  destruct HF as [[F1 [F2 F3]] _].
  induction e using expr_ind'; intros x v a0 v' a' HW HD HL HX; try exact I.
  - cbn [wfs] in HW. rewrite !andb_true_iff in HW. destruct HW as [[[W1 W2] W3] W4].
    cbn [noself] in HD.
    rewrite lay_comp in HL. destruct HL as [v1 [a1 [L1 [_ L2]]]]. split; [eapply ils; eauto|].
    intros q k0 HI. pose proof (lays_within es (Forall_impl _ (fun e _ => LP_all e) H) _ _ _ _ W1 L1 q k0 HI) as HB.
    destruct x as [c|].
    + destruct L2 as [_ [-> _]]. destruct q as [|b' o']; auto. intros i [<- [H1 H2]]. cbn in HB.
      destruct (HB i H2) as [[? _]|[[_ ?]|?]]; [congruence| |discriminate]. eapply (HX c eq_refl i); eauto.
    + destruct L2 as [-> _]. destruct q as [|b' o']; auto. intros i [<- [H1 H2]]. cbn in HB.
      destruct (HB i H2) as [[_ ?]|[[? _]|?]]; [lia|congruence|congruence].
  - cbn [wfs] in HW. rewrite !andb_true_iff in HW. destruct HW as [[[W1 W2] W3] W4]. apply shape_eqb_eq in W3.
    cbn [noself] in HD. apply andb_true_iff in HD. destruct HD as [D1 D2]. destruct HL as [L1 _]. cbn [ip_ok].
    eapply IHe; eauto. intros c HC i Hi. inversion HC; subst c. apply (dj_in _ _ D2). apply in_cells. now rewrite W3.
  - cbn [wfs] in HW. rewrite !andb_true_iff in HW. destruct HW as [[[W1 W2] W3] W4].
    cbn [noself] in HD. destruct HL as [v1 [a1 [L1 _]]]. cbn [ip_ok].
    eapply IHe; eauto. discriminate.
  - cbn [wfs] in HW. rewrite !andb_true_iff in HW. destruct HW as [[[W1 W2] W3] W4].
    cbn [noself] in HD. rewrite !andb_true_iff in HD. destruct HD as [D1 D2]. destruct HL as [v1 [a1 [L1 [L2 _]]]].
    split; [eapply IHe1|eapply IHe2]; eauto; discriminate.
  - cbn [wfs] in HW. rewrite !andb_true_iff in HW. destruct HW as [[[W1 W2] W3] W4].
    cbn [noself] in HD. rewrite lay_for in HL. destruct HL as [L1 _].
    exact (ils es H _ _ _ _ W1 HD L1).
  - cbn [wfs] in HW. rewrite !andb_true_iff in HW. destruct HW as [[[[[W1 W2] W3] W4] W5] W6].
    cbn [noself] in HD. rewrite !andb_true_iff in HD. destruct HD as [[D1 D2] D3].
    destruct HL as [v1 [a1 [v2 [a2 [L1 [L2 L3]]]]]].
    split; [eapply IHe1|split; [eapply IHe2|eapply IHe3]]; eauto; discriminate.
Qed.
Lemma ip_feval u cv ca (e : E) m x : noself e = true -> inv bv ba u cv ca e m -> feval e m = Ok x -> feval_ip e m = Ok x.
Proof.
  intros HN [H1 [H2 [H3 [H4 _]]]] HE. destruct x as [[e' m1] r].
  assert (HW : wfs e = true) by (rewrite <- H1 in H2; unfold er in H2; now rewrite wfs_amap in H2).
  apply SI_all; auto. eapply IL_all; eauto. discriminate.
Qed.
Lemma noself_am {T1 A B} (f : A -> B) (e : expr T1 A) : noself (amap f e) = noself e.
Proof.
  induction e using expr_ind'; cbn [amap noself]; auto; rewrite ?refs_amap, ?IHe, ?IHe1, ?IHe2, ?IHe3; auto.
  all: induction H; cbn; auto; rewrite H, IHForall; reflexivity.
Qed.
Hypothesis LL : la_len N.
Theorem run_ip_ok u cv ca ops : noself u = true -> Forall (op_ok (size (shape_of u))) ops -> forall (e : E) m c,
  inv bv ba u cv ca e m -> run ops (e, m) = Ok c -> run_ip ops (e, m) = Ok c.
Proof.
  intros HN. induction 1 as [|o l HO H IH]; intros e m c HI HR; [exact HR|].
  cbn [run] in HR. cbn [run_ip]. apply bindR_ok in HR. destruct HR as [[e1 m1] [HS HR]].
  assert (I1 : inv bv ba u cv ca e1 m1).
  { destruct (run_ok LL bv ba HF u cv ca [o] (Forall_cons _ HO (Forall_nil _)) e m HI) as [e2 [m2 [R2 I2]]].
    cbn [run] in R2. rewrite HS in R2. cbn [bindR] in R2. inversion R2; subst. exact I2. }
  assert (NE : noself e = true) by (destruct HI as [<- _]; unfold er in HN; now rewrite noself_am in HN).
  assert (EV : forall x, evaluate e m = Ok x -> evaluate_ip e m = Ok x).
  { intros x HE. unfold evaluate in HE. unfold evaluate_ip. apply bindR_ok in HE. destruct HE as [y [H1 H2]].
    rewrite (ip_feval _ _ _ _ _ _ NE HI H1). exact H2. }
  assert (S1 : step_ip o (e, m) = Ok (e1, m1)).
  { destruct o as [|seed|f]; cbn [step step_ip] in *; auto.
    - apply bindR_ok in HS. destruct HS as [y [H1 H2]]. rewrite (EV _ H1). exact H2.
    - apply bindR_ok in HS. destruct HS as [y [H1 H2]]. unfold autodiff in H1. apply bindR_ok in H1. destruct H1 as [z [H1 H3]].
      unfold autodiff_ip. rewrite (EV _ H1). cbn [bindR]. rewrite H3. exact H2. }
  rewrite S1. cbn [bindR]. eauto.
Qed.
Lemma ip_session (u : expr T unit) (m : mem T) uv ua (e : E) m0 ops :
  wfs u = true -> noself u = true -> avail u m -> bound bv ba uv ua u m = Ok (e, m0) ->
  Forall (op_ok (size (shape_of u))) ops ->
  exists e1 m1, run ops (e, m0) = Ok (e1, m1) /\ run_ip ops (e, m0) = Ok (e1, m1) /\
    (exists r, evaluate e1 m1 = Ok r /\ evaluate_ip e1 m1 = Ok r) /\
    (forall s, length s = size (shape_of u) -> exists r, autodiff e1 s m1 = Ok r /\ autodiff_ip e1 s m1 = Ok r).
Proof.
  intros HW HN HA HB HO. destruct (inv_bound LL bv ba HF u m uv ua e m0 HW HA HB) as [HI _].
  destruct (run_ok LL bv ba HF u _ _ ops HO e m0 HI) as [e1 [m1 [R1 I1]]].
  exists e1, m1. split; [exact R1|]. split; [eapply run_ip_ok; eauto|].
  assert (NE : noself e1 = true) by (destruct I1 as [I1 _]; unfold er in I1; rewrite <- I1, noself_am in HN; exact HN).
  assert (EV : forall x, evaluate e1 m1 = Ok x -> evaluate_ip e1 m1 = Ok x).
  { intros x HE. unfold evaluate in HE. unfold evaluate_ip. apply bindR_ok in HE. destruct HE as [y [H1 H2]].
    rewrite (ip_feval _ _ _ _ _ _ NE I1 H1). exact H2. }
  split.
  - destruct (run_ok LL bv ba HF u _ _ [OpEval] (Forall_cons OpEval I (Forall_nil _)) e1 m1 I1) as [e2 [m2 [R2 _]]].
    cbn [run step] in R2. apply bindR_ok in R2. destruct R2 as [c [R2 _]]. apply bindR_ok in R2. destruct R2 as [x [R2 _]].
    exists x. auto.
  - intros s HS.
    destruct (run_ok LL bv ba HF u _ _ [OpDiff s] (Forall_cons (OpDiff s) HS (Forall_nil _)) e1 m1 I1) as [e2 [m2 [R2 _]]].
    cbn [run step] in R2. apply bindR_ok in R2. destruct R2 as [c [R2 _]]. apply bindR_ok in R2. destruct R2 as [x [R2 _]].
    exists x. split; [exact R2|]. unfold autodiff in R2. apply bindR_ok in R2. destruct R2 as [z [R2 R3]].
    unfold autodiff_ip. rewrite (EV _ R2). exact R3.
Qed.
End Bound.
End IP.

(** ** The target among its own operands *)
Section Wit.
Context (N : num).
Notation U := (expr (carrier N) unit).
Definition bind_eval_ip (u : U) (m : mem (carrier N)) :=
  c <- bound 2 3 (any N) (any N) u m ;; evaluate_ip (fst c) (snd c).
(** w = sum{w, x}, w = prod{w, x}, w = transpose(w); w in cell 0.., x in cell 1 *)
Definition u63s : U := EEq tt scl 0 (EComp (KSumI Scl) tt [EVar scl 0; EVar scl 1]).
Definition u63p : U := EEq tt scl 0 (EComp (KProdI Scl) tt [EVar scl 0; EVar scl 1]).
Definition m22 : shape := Sh Mat 2 2.
Definition u63t : U := EEq tt m22 0 (EComp KTrans tt [EVar m22 0]).
Lemma run63 f :
  (exists e m, bind_eval_ip u63s (mem8 N f) = Ok (e, m, [nadd N (nadd N (n0 N) (n0 N)) (f 1)])) /\
  (exists e m, bind_eval_ip u63p (mem8 N f) = Ok (e, m, [nmul N (nmul N (n1 N) (n1 N)) (f 1)])) /\
  bind_eval_ip u63t (mem8 N f) = Err UBshape.
Proof.
  split; [|split].
  - destruct (bind_eval_ip u63s (mem8 N f)) as [[[e m] v]|x] eqn:E; revert E; vm_compute; intros E; [|discriminate].
    inversion E; subst. eexists _, _. reflexivity.
  - destruct (bind_eval_ip u63p (mem8 N f)) as [[[e m] v]|x] eqn:E; revert E; vm_compute; intros E; [|discriminate].
    inversion E; subst. eexists _, _. reflexivity.
  - vm_compute. reflexivity.
Qed.
End Wit.
