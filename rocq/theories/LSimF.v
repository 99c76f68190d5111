(** Forward evaluation of the machine refines [pf]. *)
From Verif Require Import Base Num Expr Node Stat Machine Wf Pure LBase LKind LSimDef LMem.

Section SimF.
Context {N : num}.
Notation T := (carrier N).
Notation E := (expr T (ann N)).
Notation env := (nat -> T).
Context {bv ba : nat}.
Context {V W : nat -> Prop}.
Context {D : env}.
Notation lay := (lay bv ba).
Notation lays := (lays bv ba).
Notation MR := (MR V W D).
Notation refR := (refR bv V).
Notation K := (K bv ba V).
Notation Ks := (Ks bv ba V).

Implicit Types (m : mem T) (l : list T) (r : env).

Hypothesis Hbv : bv <> 0 /\ bv <> 1 /\ bv <> 4.
Hypothesis Hba : ba <> 0 /\ ba <> 1 /\ ba <> 4 /\ ba <> bv.
(** ** Statement *)
Definition FP (x : option nat) (e : E) v v' : nat -> nat -> Prop := fun b o =>
  (b = bv /\ v <= o < v') \/ (b = 0 /\ (In o (writes e) \/ xin x (size (shape_of e)) o)).
Definition FPs (es : list E) v v' : nat -> nat -> Prop := fun b o =>
  (b = bv /\ v <= o < v') \/ (b = 0 /\ In o (flat_map writes es)).
Definition pre (x : option nat) (e : E) : Prop :=
  wfs e = true /\ stok e /\ (forall o, In o (refs e) -> V o) /\
  (forall o, In o (drefs e) -> W o) /\ (forall o, xin x (size (shape_of e)) o -> V o) /\
  (x <> None -> rhs_ok e = true).
Definition alc (m : mem T) b v v' : Prop := forall o, v <= o < v' -> m b o <> None.

Definition FS (e : E) : Prop := forall x v a v' a' m r al,
  lay x e v a v' a' -> pre x e -> MR m r al -> alc m bv v v' ->
  exists e' m' q, feval e m = Ok (e', m', q) /\
    let '(t, r', p) := pf D x e r in
    strip e' = strip e /\ stok e' /\ MR m' r' al /\
    refR m' v v' (size (shape_of e)) q p /\ K x e' t m' v a v' a' /\
    (gettable e = true -> p = tp t /\ q = getref e') /\ fr (FP x e v v') m m'.

Inductive F3 {A B C} (R : A -> B -> C -> Prop) : list A -> list B -> list C -> Prop :=
| F3_nil : F3 R [] [] []
| F3_cons a b c la lb lc : R a b c -> F3 R la lb lc -> F3 R (a :: la) (b :: lb) (c :: lc).
Lemma F3_impl {A B C} (R R' : A -> B -> C -> Prop) la lb lc :
  (forall a b c, R a b c -> R' a b c) -> F3 R la lb lc -> F3 R' la lb lc.
Proof. induction 2; constructor; auto. Qed.

Lemma alc_fr P m m' b v v' : fr P m m' -> alc m b v v' -> alc m' b v v'.
Proof. intros [_ F] H o Ho. apply F, H, Ho. Qed.
Lemma alc_mono m b v v' w w' : alc m b v v' -> v <= w -> w' <= v' -> alc m b w w'.
Proof. clear. intros H H1 H2 o Ho. apply H. lia. Qed.

Lemma FSs (es : list E) : Forall FS es -> forall v a v' a' m r al,
  lays v' a' es v a -> Forall (pre None) es -> MR m r al -> alc m bv v v' ->
  exists es' m' qs im, fevals es m = Ok (es', m', qs, im) /\
    let '(ts, r', ps, im') := pfs D es r in
    im = im' /\ map strip es' = map strip es /\ stoks es' /\ MR m' r' al /\
    F3 (fun e q p => refR m' v v' (size (shape_of e)) q p) es' qs ps /\
    Ks m' v' a' es' ts v a /\ lens N im (map shape_of es) /\ fr (FPs es v v') m m'.
Proof.
  induction 1 as [|y l Hy Hl IH]; intros v a v' a' m r al HL HP HM HA.
  - cbn in HL. destruct HL as [-> ->]. exists [], m, [], []. split; [reflexivity|]. cbn.
    split; [reflexivity|]. split; [reflexivity|]. split; [exact I|]. split; [assumption|].
    split; [constructor|]. split; [auto|]. split; [constructor|]. apply fr_refl.
  - destruct HL as [v2 [a2 [L1 L2]]]. inv HP.
    pose proof (lay_le _ _ _ _ _ _ _ _ _ L1) as LE1.
    assert (LE2 : v2 <= v' /\ a2 <= a').
    { apply lays_le' in L2. exact L2. }
    destruct (Hy None v a v2 a2 m r al L1 H1 HM) as [y' [m1 [q [E1 Q]]]].
    { eapply alc_mono; eauto; lia. }
    cbn [fevals pfs]. rewrite E1. cbn [bindR].
    destruct (pf D None y r) as [[t r1] p]. destruct Q as [S1 [T1 [M1 [R1 [K1 [G1 F1]]]]]].
    destruct (refR_read _ _ _ _ _ _ _ _ M1 R1) as [RD LD]. rewrite RD. cbn [bindR].
    destruct (IH v2 a2 v' a' m1 r1 al L2 H2 M1) as [l' [m2 [qs [im [E2 Q]]]]].
    { eapply alc_fr; eauto. eapply alc_mono; eauto; lia. }
    change ((fix go (es : list E) (m : mem T) {struct es} := _) l m1) with (fevals l m1).
    rewrite E2. cbn [bindR].
    change ((fix go (es : list E) (r : env) {struct es} := _) l r1) with (pfs D l r1).
    destruct (pfs D l r1) as [[[ts r2] ps] im2]. destruct Q as [-> [S2 [T2 [M2 [R2 [K2 [L3 F2]]]]]]].
    assert (X1 : forall o, v <= o < v2 -> m2 bv o = m1 bv o).
    { intros o Ho. apply F2. unfold FPs. lia. }
    assert (X2 : forall o, m2 4 o = m1 4 o).
    { intros o. apply F2. unfold FPs. lia. }
    eexists _, _, _, _. split; [reflexivity|].
    split; [reflexivity|]. split; [cbn; congruence|]. split; [cbn; auto|]. split; [assumption|].
    split; [constructor|].
    + rewrite (strip_shape _ _ S1).
      apply refR_mono with v v2; try lia. apply refR_frame with m1; auto.
    + eapply F3_impl; [|exact R2]. intros; cbn in *. eapply refR_mono; [..|eassumption]; lia.
    + split; [exists v2, a2; split; [eapply K_frame; eauto|assumption]|].
      split; [constructor; auto|].
      eapply fr_weak; [|eapply fr_trans; [exact F1|exact F2]]. unfold FP, FPs. cbn. intros b o.
      rewrite in_app_iff. intuition lia.
Qed.

Lemma FSsf (es : list E) : Forall FS es -> forall v a v' a' m r al p0,
  lays v' a' es v a -> Forall (pre None) es -> MR m r al -> alc m bv v v' ->
  exists es' m', fevalsf es m = Ok (es', m') /\
    let '(ts, r', p) := pfsf D es r p0 in
    map strip es' = map strip es /\ stoks es' /\ MR m' r' al /\
    Ks m' v' a' es' ts v a /\ fr (FPs es v v') m m' /\
    (es = [] -> p = p0) /\
    (es <> [] -> gettable (last es (EVar scl 0)) = true ->
       exists y ty v1 ly lt a1, es' = ly ++ [y] /\ ts = lt ++ [ty] /\ p = tp ty /\ v <= v1 /\
         K None y ty m' v1 a1 v' a' /\ refR m' v1 v' (size (shape_of y)) (getref y) p).
Proof.
  induction 1 as [|y l Hy Hl IH]; intros v a v' a' m r al p0 HL HP HM HA.
  - cbn in HL. destruct HL as [-> ->]. exists [], m. split; [reflexivity|]. cbn.
    split; [reflexivity|]. split; [exact I|]. split; [assumption|]. split; [auto|].
    split; [apply fr_refl|]. split; [auto|congruence].
  - destruct HL as [v2 [a2 [L1 L2]]]. inv HP.
    pose proof (lay_le _ _ _ _ _ _ _ _ _ L1) as LE1.
    assert (LE2 : v2 <= v' /\ a2 <= a').
    { apply lays_le' in L2. exact L2. }
    destruct (Hy None v a v2 a2 m r al L1 H1 HM) as [y' [m1 [q [E1 Q]]]].
    { eapply alc_mono; eauto; lia. }
    cbn [fevalsf pfsf]. rewrite E1. cbn [bindR].
    destruct (pf D None y r) as [[t r1] p]. destruct Q as [S1 [T1 [M1 [R1 [K1 [G1 F1]]]]]].
    destruct (IH v2 a2 v' a' m1 r1 al p L2 H2 M1) as [l' [m2 [E2 Q]]].
    { eapply alc_fr; eauto. eapply alc_mono; eauto; lia. }
    change ((fix go (es : list E) (m : mem T) {struct es} := _) l m1) with (fevalsf l m1).
    rewrite E2. cbn [bindR].
    change ((fix go (es : list E) (r : env) p {struct es} := _) l r1 p) with (pfsf D l r1 p).
    destruct (pfsf D l r1 p) as [[ts r2] p2]. destruct Q as [S2 [T2 [M2 [K2 [F2 [N2 Z2]]]]]].
    assert (X1 : forall o, v <= o < v2 -> m2 bv o = m1 bv o).
    { intros o Ho. apply F2. unfold FPs. lia. }
    assert (X2 : forall o, m2 4 o = m1 4 o).
    { intros o. apply F2. unfold FPs. lia. }
    assert (K1' : K None y' t m2 v a v2 a2) by (eapply K_frame; eauto).
    eexists _, _. split; [reflexivity|].
    split; [cbn; congruence|]. split; [cbn; auto|]. split; [assumption|].
    split; [exists v2, a2; split; assumption|].
    split; [|split; [congruence|]].
    + eapply fr_weak; [|eapply fr_trans; [exact F1|exact F2]]. unfold FP, FPs. cbn. intros b o.
      rewrite in_app_iff. intuition lia.
    + intros _ G. destruct l as [|z l].
      * destruct l'; [|discriminate S2]. rewrite (N2 eq_refl).
        destruct ts; [|destruct K2]. destruct K2 as [-> ->]. destruct (G1 G) as [-> ->].
        exists y', t, v, [], [], a. repeat split; auto.
        rewrite (strip_shape _ _ S1). eapply refR_frame; eauto.
      * destruct Z2 as [y2 [ty [v1 [ly [lt [a1 [-> [-> [-> [Z3 [Z4 Z5]]]]]]]]]]]; [discriminate|exact G|].
        exists y2, ty, v1, (y' :: ly), (t :: lt), a1. repeat split; auto. lia. 
Qed.

Lemma kgetf_kget k i : kgetf k i = true -> kget k = true.
Proof. destruct k; cbn; congruence. Qed.

Lemma opvals_ok k m r al es qs ps ts im v a v' a' :
  MR m r al -> F3 (fun e q p => refR m v v' (size (shape_of e)) q p) es qs ps ->
  Ks m v' a' es ts v a -> (kget k = true -> forallb gettable es = true) ->
  lens N im (map shape_of es) ->
  opvals k m es qs im = Ok (pvals k r ts ps im) /\ lens N (pvals k r ts ps im) (map shape_of es).
Proof.
  intros HM HF HK HG HL. unfold opvals, pvals. destruct (kseq k); [auto|].
  clear HL im. generalize 0 as j. revert ts a HK HG.
  cut (forall ts v0 a, v <= v0 -> Ks m v' a' es ts v0 a -> (kget k = true -> forallb gettable es = true) ->
    forall j : nat,
      mapR (fun p => rdref m p)
        (map (fun '(i, (e, r0)) => if kgetf k i then getref e else r0)
           (combine (seq j (length es)) (combine es qs))) =
      Ok (map (rdp r) (map (fun '(i, (t, p)) => if kgetf k i then tp t else p)
           (combine (seq j (length ts)) (combine ts ps)))) /\
      lens N (map (rdp r) (map (fun '(i, (t, p)) => if kgetf k i then tp t else p)
           (combine (seq j (length ts)) (combine ts ps)))) (map shape_of es)).
  { intros H ts a HK HG j. eapply H; eauto. }
  induction HF as [|e q p es qs ps HR HF IH]; intros [|t ts] v0 a Hv HK HG j;
    try (cbn in HK; contradiction).
  - cbn. split; [reflexivity|constructor].
  - destruct HK as [v2 [a2 [K1 K2]]].
    pose proof (K_le _ _ _ _ _ _ _ _ K1).
    destruct (IH ts v2 a2 ltac:(lia) K2) with (j := S j) as [E1 L1].
    { intros G. specialize (HG G). cbn in HG. now apply andb_true_iff in HG. }
    pose proof (Ks_le _ _ _ _ _ _ _ K2).
    assert (HE : rdref m (if kgetf k j then getref e else q) =
                 Ok (rdp r (if kgetf k j then tp t else p)) /\
                 length (rdp r (if kgetf k j then tp t else p)) = size (shape_of e)).
    { destruct (kgetf k j) eqn:Ek.
      - specialize (HG (kgetf_kget _ _ Ek)). cbn in HG. apply andb_true_iff in HG. destruct HG as [HG _].
        assert (KR : refR m v0 v2 (size (shape_of e)) (getref e) (tp t)).
        { destruct e; cbn in K1; apply K1; auto. }
        eapply refR_read; eauto.
      - eapply refR_read; eauto. }
    cbn [length seq combine map mapR]. destruct HE as [-> HE]. cbn [bindR].
    rewrite E1. cbn [bindR]. split; [reflexivity|constructor; auto].
Qed.


Lemma pre_intro (e : E) : wfs e = true -> stok e -> (forall o, In o (refs e) -> V o) ->
  (forall o, In o (drefs e) -> W o) -> pre None e.
Proof.
  intros H1 H2 H3 H4. split; [auto|split; [auto|split; [auto|split; [auto|split]]]].
  - cbn. tauto.
  - intros Hx. now destruct Hx.
Qed.

Lemma pre_comp x k an es : pre x (EComp k an es) -> Forall (pre None) es.
Proof.
  intros [H1 [H2 [H3 [H4 [H5 H6]]]]]. cbn in H1, H2, H3, H4.
  rewrite !andb_true_iff in H1. destruct H1 as [[[H1 _] _] _]. destruct H2 as [_ H2].
  clear H5 H6. induction es as [|y es IH]; [constructor|]. cbn in *.
  apply andb_true_iff in H1. destruct H1 as [Y1 Y2]. destruct H2 as [Z1 Z2]. constructor.
  - apply pre_intro; auto; intros; first [apply H3; rewrite !in_app_iff; solve [auto] | apply H4; rewrite !in_app_iff; solve [auto]].
  - apply IH; auto; intros; [apply H3|apply H4]; apply in_or_app; auto.
Qed.
Lemma pre_for x an s es : pre x (EFor an s es) -> Forall (pre None) es.
Proof.
  intros [H1 [H2 [H3 [H4 [H5 H6]]]]]. cbn in H1, H2, H3, H4.
  rewrite !andb_true_iff in H1. destruct H1 as [[[H1 _] _] _].
  clear H5 H6. induction es as [|y es IH]; [constructor|]. cbn in *.
  apply andb_true_iff in H1. destruct H1 as [Y1 Y2]. destruct H2 as [Z1 Z2]. constructor.
  - apply pre_intro; auto; intros; first [apply H3; rewrite !in_app_iff; solve [auto] | apply H4; rewrite !in_app_iff; solve [auto]].
  - apply IH; auto; intros; [apply H3|apply H4]; apply in_or_app; auto.
Qed.

Lemma fr_pre x e v v' m m' : fr (FP x e v v') m m' -> forall o, ~ v <= o < v' -> m' bv o = m bv o.
Proof. intros [F _] o Ho. apply F. unfold FP. lia. Qed.
Lemma fr_4 x e v v' m m' : fr (FP x e v v') m m' -> forall o, m' 4 o = m 4 o.
Proof. intros [F _] o. apply F. unfold FP. lia. Qed.

Hypothesis LL : la_len N.

Theorem FS_all e : FS e.
Proof.
  induction e using expr_ind'; intros x v a' v' a0 m r al HL HP HM HA.
  - (* EVar *) cbn in HL. destruct HL as [-> ->]. exists (EVar sh o), m, (getref (EVar sh o)).
    split; [reflexivity|]. cbn.
    assert (HR : forall i, o <= i < o + size sh -> V i).
    { destruct HP as [_ [_ [W3 _]]]. intros i Hi. apply W3. cbn. unfold cells. apply in_seq. lia. }
    repeat split; auto; apply HM; auto.
  - (* ECst *) cbn in HL. destruct HL as [-> ->]. exists (ECst sh c), m, (RCst c).
    split; [reflexivity|]. cbn.
    assert (HR : length c = size sh).
    { destruct HP as [HP _]. cbn in HP. rewrite andb_true_iff, Nat.eqb_eq in HP. tauto. }
    repeat split; auto; apply HM; auto.
  - (* ECvw *) cbn in HL. destruct HL as [-> ->]. exists (ECvw sh o), m, (RMem (Ptr 4 o) (size sh)).
    split; [reflexivity|]. cbn -[load].
    assert (HR : load m (Ptr 4 o) (size sh) = Ok (rdv D o (size sh))).
    { destruct HP as [_ [_ [_ [W4 _]]]]. apply load_rdv. intros i Hi. apply HM. apply W4. cbn.
      unfold cells. apply in_seq. lia. }
    pose proof (rdv_length D o (size sh)) as HR2.
    repeat split; auto; apply HM; auto.
  - (* EComp *)
    rewrite lay_comp in HL. cbv zeta in HL. destruct HL as [v1 [a1 [L1 [HX L2]]]].
    pose proof (lays_le' _ _ _ _ _ L1) as LE.
    assert (LV : v1 <= v') by (destruct x; lia).
    destruct (FSs es H v a' v1 a1 m r al L1 (pre_comp _ _ _ _ HP) HM) as [es' [m1 [qs [im [E1 Q]]]]].
    { eapply alc_mono; eauto. }
    rewrite feval_comp, pf_comp, E1. cbn [bindR]. cbv zeta.
    destruct (pfs D es r) as [[[ts r1] ps] im'].
    destruct Q as [-> [S1 [T1 [M1 [R1 [K1 [LI F1]]]]]]].
    destruct HP as [W1 [W2 [W3 [W4 [W5 W6]]]]]. cbn [wfs] in W1. rewrite !andb_true_iff in W1.
    destruct W1 as [[[_ WS] WD] WG].
    pose proof (strips_shape _ _ S1) as SS.
    destruct (opvals_ok k m1 r1 al es' qs ps ts im' v a' v1 a1 M1 R1 K1) as [E2 L3].
    { intros G. rewrite G in WG. cbn in WG. now rewrite (strips_gettable _ _ S1). }
    { now rewrite SS. }
    rewrite E2. cbn [bindR]. rewrite SS in L3. rewrite WS. cbn [guard bindR].
    destruct (kfwd_ok N k (map is_const es) (map shape_of es) (st a) (pvals k r1 ts ps im') WS WD L3)
      as [s' [val [E3 LV3]]].
    rewrite E3. unfold kf. rewrite E3. cbn [bindR]. rewrite (chk_ok _ _ LV3). cbn [bindR].
    set (n := size (kshape k (map shape_of es))) in *.
    destruct W2 as [W2 _].
    assert (SP : stpost N k (map shape_of es) s') by (eapply kfwd_post; eauto).
    assert (ST : exists m2, store m1 (av a) val = Ok m2 /\ MR m2 (wx x r1 val) al /\
       refR m2 v v' n (RMem (av a) n) (px x n (PL val)) /\
       fr (fun b o => (x = None /\ b = bv /\ v1 <= o < v') \/ (b = 0 /\ xin x n o)) m1 m2).
    { destruct x as [c|]; cbn [wx px].
      - destruct L2 as [HK [AV [AA [-> ->]]]]. rewrite AV.
        destruct (store_ok m1 0 c val) as [m2 [E4 U]].
        { intros i Hi. eapply MR_alloc0; eauto. apply W5. cbn. fold n. lia. }
        exists m2. split; [exact E4|]. split; [eapply MR_upd0; eauto|]. split.
        + cbn. split; auto.
        + eapply fr_weak; [|eapply updm_fr; eauto]. cbn. intros b o. lia.
      - destruct L2 as [AV [AA [-> ->]]]. rewrite AV.
        destruct (store_ok m1 bv v1 val) as [m2 [E4 U]].
        { intros i Hi. destruct F1 as [_ F1]. apply F1. apply HA. lia. }
        exists m2. split; [exact E4|]. split; [|split].
        + eapply MR_fr; [eapply updm_fr; eauto| |assumption]. cbn. intros b o Hb. lia.
        + cbn [refR]. split; auto. split; [|right; left; lia].
          cbn [rdref]. rewrite <- LV3. eapply updm_load; eauto.
        + eapply fr_weak; [|eapply updm_fr; eauto]. cbn. intros b o Hb. left. split; [reflexivity|lia]. }
    destruct ST as [m2 [E4 [M2 [R2 F2]]]]. rewrite E4. cbn [bindR].
    eexists _, _, _. split; [reflexivity|].
    split; [unfold strip in S1 |- *; cbn [amap]; rewrite S1; reflexivity|].
    split; [cbn [stok]; split; [rewrite SS; now apply stpost_pre|exact T1]|].
    split; [assumption|]. split; [exact R2|]. split; [|split; [intros _; split; [reflexivity|]|]].
    + rewrite K_comp. cbv zeta. rewrite SS. fold n. cbn [tp tst tv tts set_st av st xa aa].
      split; [intros _; exact R2|]. split; [reflexivity|]. split; [assumption|].
      split; [assumption|]. split; [reflexivity|]. exists v1, a1.
      split; [|split; assumption].
      eapply Ks_frame; [| |exact K1].
      * intros o Ho. apply F2. lia.
      * intros o. apply F2. lia.
    + cbn. rewrite SS. reflexivity.
    + eapply fr_weak; [|eapply fr_trans; [exact F1|exact F2]]. unfold FP, FPs. cbn [shape_of writes].
      fold n. intros b o. intuition lia.
  - (* EEq *)
    cbn [LSimDef.lay] in HL. destruct HL as [L1 AV].
    destruct HP as [W1 [W2 [W3 [W4 [W5 W6]]]]]. cbn [wfs] in W1. rewrite !andb_true_iff in W1.
    destruct W1 as [[[W1 WS] WE] WR]. apply shape_eqb_eq in WE. cbn in W2, W3, W4, W5.
    assert (HV : forall i, o <= i < o + size sh -> V i).
    { intros i Hi. apply W3, in_or_app. left. unfold cells. apply in_seq. lia. }
    destruct (IHe (Some o) v a' v' a0 m r al L1) as [e' [m1 [q [E1 Q]]]]; auto.
    { split; [auto|split; [auto|split; [|split; [auto|split; [|auto]]]]]; intros i Hi.
      - apply W3, in_or_app; auto.
      - cbn in Hi. rewrite <- WE in Hi. auto. }
    cbn [feval pf]. rewrite E1. cbn [bindR].
    destruct (pf D (Some o) e r) as [[t r1] p]. destruct Q as [S1 [T1 [M1 [R1 [K1 [G1 F1]]]]]].
    destruct (refR_read _ _ _ _ _ _ _ _ M1 R1) as [RD LD]. rewrite RD. cbn [bindR].
    set (vl := rdp r1 p) in *. rewrite <- WE in LD. rewrite (chk_ok _ _ LD). cbn [bindR].
    destruct (store_ok m1 0 o vl) as [m2 [E2 U2]].
    { intros i Hi. eapply MR_alloc0; eauto. apply HV. lia. }
    rewrite E2. cbn [bindR]. rewrite AV.
    assert (HV2 : forall i, root x o <= i < root x o + size sh -> V i).
    { destruct x; cbn; auto. }
    pose proof (MR_upd0 _ _ _ _ _ _ U2 M1) as M2.
    destruct (store_ok m2 0 (root x o) vl) as [m3 [E3 U3]].
    { intros i Hi. eapply MR_alloc0; eauto. apply HV2. lia. }
    rewrite E3. cbn [bindR]. pose proof (MR_upd0 _ _ _ _ _ _ U3 M2) as M3.
    eexists _, _, _. split; [reflexivity|].
    split; [unfold strip in S1 |- *; cbn [amap]; now rewrite S1|]. split; [exact T1|]. split; [exact M3|].
    split; [cbn; auto|].
    assert (FF : fr (fun b i => b = 0 /\ (o <= i < o + size sh \/ root x o <= i < root x o + size sh)) m1 m3).
    { eapply fr_weak; [|eapply fr_trans; [eapply updm_fr; exact U2|eapply updm_fr; exact U3]].
      cbn. rewrite LD. intros; lia. }
    split; [|split; [cbn; intros _; split; [reflexivity|]; rewrite AV; reflexivity|]].
    + rewrite K_eq. split; [cbn; rewrite AV; auto|]. split; [reflexivity|]. exists t. split; [reflexivity|].
      eapply K_frame; [| |exact K1]; intros; apply FF; lia.
    + eapply fr_weak; [|eapply fr_trans; [exact F1|exact FF]]. unfold FP. cbn [writes shape_of xin].
      intros b i. rewrite in_app_iff. unfold cells. rewrite in_seq, <- WE.
      destruct x; cbn [xin root]; intuition lia.
  - (* EOpEq *)
    cbn [LSimDef.lay] in HL. destruct HL as [v1 [a1 [L1 [AV [XV [XA [-> ->]]]]]]].
    destruct HP as [W1 [W2 [W3 [W4 [W5 W6]]]]]. cbn [wfs] in W1. rewrite !andb_true_iff in W1.
    destruct W1 as [[[W1 WS] WE] WR]. cbn in W2, W3, W4, W5.
    assert (HV : forall i, o <= i < o + size sh -> V i).
    { intros i Hi. apply W3, in_or_app. left. unfold cells. apply in_seq. lia. }
    pose proof (lay_le _ _ _ _ _ _ _ _ _ L1) as LE.
    cbn [feval pf]. rewrite (MR_load0 _ _ _ _ _ HM HV). cbn [bindR]. rewrite XV.
    destruct (store_ok m bv v1 (rdv r o (size sh))) as [m0 [E0 U0]].
    { rewrite rdv_length. intros i Hi. apply HA. lia. }
    rewrite E0. cbn [bindR].
    pose proof (updm_fr _ _ _ _ _ U0) as F0. rewrite rdv_length in F0.
    assert (M0 : MR m0 r al). { eapply MR_fr; [exact F0| |assumption]. cbn; intros; lia. }
    destruct (IHe None v a' v1 a1 m0 r al L1) as [e' [m1 [p1 [E1 Q]]]]; auto.
    { apply pre_intro; auto; intros; first [apply W3; rewrite !in_app_iff; solve [auto] | apply W4; rewrite !in_app_iff; solve [auto]]. }
    { eapply alc_fr; [exact F0|]. eapply alc_mono; eauto; lia. }
    rewrite E1. cbn [bindR].
    destruct (pf D None e r) as [[t r1] p]. destruct Q as [S1 [T1 [M1 [R1 [K1 [G1 F1]]]]]].
    rewrite (MR_load0 _ _ _ _ _ M1 HV). cbn [bindR].
    destruct (refR_read _ _ _ _ _ _ _ _ M1 R1) as [RD LD]. rewrite RD. cbn [bindR].
    cbn [shape_of].
    set (vl := oe_fwd N q (shape_of e) (rdv r1 o (size sh)) (rdp r1 p)) in *.
    assert (LV : length vl = size sh).
    { unfold vl. rewrite oe_fwd_length; [apply rdv_length|].
      apply orb_true_iff in WE. destruct WE as [WE|WE]; auto. apply shape_eqb_eq in WE.
      right. rewrite rdv_length, LD. now subst. }
    rewrite (chk_ok _ _ LV). cbn [bindR].
    destruct (store_ok m1 0 o vl) as [m2 [E2 U2]].
    { intros i Hi. eapply MR_alloc0; eauto. apply HV. lia. }
    rewrite E2. cbn [bindR]. rewrite AV.
    assert (HV2 : forall i, root x o <= i < root x o + size sh -> V i).
    { destruct x; cbn; auto. }
    pose proof (MR_upd0 _ _ _ _ _ _ U2 M1) as M2.
    destruct (store_ok m2 0 (root x o) vl) as [m3 [E3 U3]].
    { intros i Hi. eapply MR_alloc0; eauto. apply HV2. lia. }
    rewrite E3. cbn [bindR]. pose proof (MR_upd0 _ _ _ _ _ _ U3 M2) as M3.
    eexists _, _, _. split; [reflexivity|].
    split; [unfold strip in S1 |- *; cbn [amap]; now rewrite S1|]. split; [exact T1|]. split; [exact M3|].
    split; [cbn; auto|].
    assert (FF : fr (fun b i => b = 0 /\ (o <= i < o + size sh \/ root x o <= i < root x o + size sh)) m1 m3).
    { eapply fr_weak; [|eapply fr_trans; [eapply updm_fr; exact U2|eapply updm_fr; exact U3]].
      cbn. rewrite LV. intros; lia. }
    split; [|split; [cbn; intros _; split; [reflexivity|]; rewrite AV; reflexivity|]].
    + rewrite K_opeq. split; [cbn; rewrite AV; auto|]. split; [reflexivity|]. exists t, v1, a1. split; [reflexivity|].
      split; [eapply K_frame; [| |exact K1]; intros; apply FF; lia|].
      split; [|auto]. rewrite XV. cbn [told].
      eapply (load_frame m0).
      * intros i Hi. destruct FF as [FF _]. rewrite FF by lia. eapply fr_pre; [exact F1|lia].
      * pose proof (updm_load _ _ _ _ _ U0) as UL. now rewrite rdv_length in UL.
    + eapply fr_weak; [|eapply fr_trans; [exact F0|eapply fr_trans; [exact F1|exact FF]]].
      unfold FP. cbn [writes shape_of xin].
      intros b i. rewrite in_app_iff. unfold cells. rewrite in_seq.
      destruct x; cbn [xin root]; intuition lia.
  - (* EGlue *)
    cbn [LSimDef.lay] in HL. destruct HL as [v1 [a1 [L1 [L2 AV]]]].
    destruct HP as [W1 [[W2 W2'] [W3 [W4 [W5 W6]]]]]. cbn [wfs] in W1. rewrite !andb_true_iff in W1.
    destruct W1 as [[[Wl Wr] WG] WC]. cbn in W3, W4, W5.
    pose proof (lay_le _ _ _ _ _ _ _ _ _ L1) as LE1. pose proof (lay_le _ _ _ _ _ _ _ _ _ L2) as LE2.
    destruct (IHe1 None v a' v1 a1 m r al L1) as [l' [m1 [q1 [E1 Q1]]]]; auto.
    { apply pre_intro; auto; intros; first [apply W3; rewrite !in_app_iff; solve [auto] | apply W4; rewrite !in_app_iff; solve [auto]]. }
    { eapply alc_mono; eauto; lia. }
    cbn [feval pf]. rewrite E1. cbn [bindR].
    destruct (pf D None e1 r) as [[t1 r1] p1]. destruct Q1 as [S1 [T1 [M1 [R1 [K1 [G1 F1]]]]]].
    destruct (IHe2 None v1 a1 v' a0 m1 r1 al L2) as [r' [m2 [q2 [E2 Q2]]]]; auto.
    { apply pre_intro; auto; intros; first [apply W3; rewrite !in_app_iff; solve [auto] | apply W4; rewrite !in_app_iff; solve [auto]]. }
    { eapply alc_fr; [exact F1|]. eapply alc_mono; eauto; lia. }
    rewrite E2. cbn [bindR].
    destruct (pf D None e2 r1) as [[t2 r2] p2]. destruct Q2 as [S2 [T2 [M2 [R2 [K2 [G2 F2]]]]]].
    destruct (refR_read _ _ _ _ _ _ _ _ M2 R2) as [RD LD]. rewrite RD. cbn [bindR].
    destruct (G2 WG) as [-> ->].
    cbn [shape_of]. set (vl := rdp r2 (tp t2)) in *. set (n := size (shape_of e2)) in *.
    assert (WC' : is_const r' = false) by (rewrite (strip_const _ _ S2); now destruct (is_const e2)).
    rewrite (getref_dptr _ WC'), (strip_shape _ _ S2), (strip_dptr _ _ S2) in RD, R2. fold n in RD, R2.
    assert (ST : exists m3, store m2 (av a) vl = Ok m3 /\ MR m3 (wx x r2 vl) al /\
       refR m3 v v' n (RMem (av a) n) (px x n (tp t2)) /\
       fr (fun b o => b = 0 /\ xin x n o) m2 m3).
    { destruct x as [c|]; rewrite AV; cbn [wx px].
      - destruct (store_ok m2 0 c vl) as [m3 [E4 U]].
        { intros i Hi. eapply MR_alloc0; eauto. apply W5. cbn. fold n. lia. }
        exists m3. split; [exact E4|]. split; [eapply MR_upd0; eauto|]. split.
        + cbn. split; auto.
        + eapply fr_weak; [|eapply updm_fr; eauto]. cbn. intros b o. lia.
      - cbn in RD. rewrite <- LD in RD at 1. destruct (store_same _ _ _ RD) as [m3 [E4 SM]].
        exists m3. split; [exact E4|]. split; [|split].
        + eapply MR_fr with (P := fun _ _ => False); [now apply fr_same|tauto|assumption].
        + eapply refR_mono with (v := v1) (v' := v'); try lia. eapply refR_frame; [| |exact R2]; auto.
        + now apply fr_same. }
    destruct ST as [m3 [E4 [M3 [R3 F3]]]]. rewrite E4. cbn [bindR].
    eexists _, _, _. split; [reflexivity|].
    split; [unfold strip in S1, S2 |- *; cbn [amap]; now rewrite S1, S2|]. split; [split; assumption|].
    split; [exact M3|]. split; [exact R3|].
    split; [|split; [cbn [getref own shape_of tp]; intros _; split; [reflexivity|]; now rewrite (strip_shape _ _ S2)|]].
    + rewrite K_glue. rewrite (strip_shape _ _ S2), (strip_dptr _ _ S2). fold n.
      split; [intros _; exact R3|]. exists t1, t2, v1, a1. split; [reflexivity|].
      split; [|split; [|split; [reflexivity|exact AV]]].
      * eapply K_frame; [| |exact K1]; intros.
        -- rewrite (proj1 F3) by lia. eapply fr_pre; [exact F2|lia].
        -- rewrite (proj1 F3) by lia. eapply fr_4; exact F2.
      * eapply K_frame; [| |exact K2]; intros; apply (proj1 F3); lia.
    + eapply fr_weak; [|eapply fr_trans; [exact F1|eapply fr_trans; [exact F2|exact F3]]].
      unfold FP. cbn [writes shape_of xin]. fold n. intros b i. rewrite in_app_iff. intuition lia.
  - (* EFor *)
    rewrite lay_for in HL. destruct HL as [L1 AV].
    pose proof (pre_for _ _ _ _ HP) as HP'.
    set (n := size (iter_shape s (map shape_of es))) in *.
    destruct (FSsf es H v a' v' a0 m r al (px x n (PL [])) L1 HP' HM HA) as [es' [m1 [E1 Q]]].
    rewrite feval_for, pf_for, E1. cbn [bindR]. cbv zeta. fold n.
    destruct (pfsf D es r (px x n (PL []))) as [[ts r1] p].
    destruct Q as [S1 [T1 [M1 [K1 [F1 [N1 Z1]]]]]].
    destruct HP as [W1 [W2 [W3 [W4 [W5 W6]]]]]. cbn [wfs] in W1. rewrite !andb_true_iff in W1.
    destruct W1 as [[[W1 WS] WC] WG].
    pose proof (strips_shape _ _ S1) as SS.
    destruct es as [|y0 es0].
    + destruct es'; [|discriminate S1]. cbn [rev]. rewrite (N1 eq_refl).
      assert (n = 0) as En. { unfold n. destruct s; [discriminate|reflexivity|reflexivity]. }
      assert (PX : px x n (px x n (@PL N [])) = px x n (PL [])) by (now destruct x).
      rewrite PX.
      assert (RR : refR m1 v v' n (RMem (av a) n) (px x n (PL []))).
      { rewrite En. destruct x as [c|]; cbn.
        - split; auto. split; [now rewrite AV|lia].
        - split; auto. destruct (av a); cbn; auto. }
      eexists _, _, _. split; [reflexivity|]. split; [reflexivity|]. split; [exact T1|].
      split; [exact M1|]. split; [exact RR|].
      split; [|split; [split; [reflexivity|reflexivity]|]].
      * rewrite K_for. cbv zeta. cbn [map]. fold n. split; [intros _; exact RR|].
        split; [exact K1|]. destruct ts; [|destruct K1]. split; [reflexivity|exact AV].
      * eapply fr_weak; [|exact F1]. unfold FP, FPs. intros b o. cbn [flat_map writes]. tauto.
    + destruct Z1 as [y [ty [v1 [ly [lt [a1 [-> [-> [-> [Z3 [Z4 Z5]]]]]]]]]]]; [discriminate|exact WG|].
      rewrite rev_unit.
      assert (X : exists (l1 : list E) (y1 : E), y0 :: es0 = l1 ++ [y1] /\ strip y = strip y1 /\ map strip ly = map strip l1).
      { assert (NE : y0 :: es0 <> []) by discriminate.
        destruct (exists_last NE) as [l1 [y1 Eq]]. exists l1, y1. split; auto.
        rewrite Eq, !map_app in S1. apply app_inj_tail in S1. tauto. }
      destruct X as [l1 [y1 [Eq [SY SL]]]].
      assert (SH1 : shape_of y1 = iter_shape s (map shape_of (y0 :: es0))).
      { rewrite <- (for_iter s (map shape_of (y0 :: es0))).
        - rewrite Eq, map_app. cbn [map]. now rewrite last_last.
        - rewrite forallb_map. rewrite forallb_forall. intros z Hz.
          rewrite forallb_forall in W1. apply wfs_shape, W1, Hz.
        - exact WS.
        - discriminate. }
      assert (CY : is_const y1 = false /\ size (shape_of y1) = n).
      { split.
        - rewrite Eq, existsb_app in WC. cbn in WC. rewrite orb_false_r in WC.
          destruct (is_const y1); auto. rewrite orb_true_r in WC. discriminate.
        - unfold n. now rewrite SH1. }
      destruct CY as [CY SZ].
      assert (CY' : is_const y = false) by (now rewrite (strip_const _ _ SY)).
      rewrite (getref_dptr _ CY'), (strip_shape _ _ SY), (strip_dptr _ _ SY), SZ in Z5.
      assert (GD : shape_eqb (shape_of y) (iter_shape s (map shape_of (y0 :: es0))) = true).
      { apply shape_eqb_eq. now rewrite (strip_shape _ _ SY), SH1. }
      rewrite GD. cbn [guard bindR]. clear GD.
      rewrite (getref_dptr _ CY'), (strip_shape _ _ SY), (strip_dptr _ _ SY), SZ.
      destruct (refR_read _ _ _ _ _ _ _ _ M1 Z5) as [RD LD]. rewrite RD. cbn [bindR].
      set (vl := rdp r1 (tp ty)) in *.
      assert (AV' : av a = match x with Some c => Ptr 0 c | None => fst (dptr y1) end).
      { destruct x; auto. rewrite Eq, rev_unit in AV. exact AV. }
      assert (ST : exists m3, store m1 (av a) vl = Ok m3 /\ MR m3 (wx x r1 vl) al /\
       refR m3 v v' n (RMem (av a) n) (px x n (tp ty)) /\
       fr (fun b o => b = 0 /\ xin x n o) m1 m3).
      { destruct x as [c|]; rewrite AV'; cbn [wx px].
        - destruct (store_ok m1 0 c vl) as [m3 [E4 U]].
          { intros i Hi. eapply MR_alloc0; eauto. apply W5. cbn [xin shape_of]. fold n. lia. }
          exists m3. split; [exact E4|]. split; [eapply MR_upd0; eauto|]. split.
          + cbn. split; auto.
          + eapply fr_weak; [|eapply updm_fr; eauto]. cbn. intros b o. lia.
        - cbn in RD. rewrite <- LD in RD at 1. destruct (store_same _ _ _ RD) as [m3 [E4 SM]].
          exists m3. split; [exact E4|]. split; [|split].
          + eapply MR_fr with (P := fun _ _ => False); [now apply fr_same|tauto|assumption].
          + eapply refR_mono with (v := v1) (v' := v'); try lia. eapply refR_frame; [| |exact Z5]; auto.
          + now apply fr_same. }
      destruct ST as [m3 [E4 [M3 [R3 F3]]]]. rewrite E4. cbn [bindR].
      eexists _, _, _. split; [reflexivity|].
      split; [unfold strip in *; cbn [amap]; f_equal; exact S1|]. split; [exact T1|].
      split; [exact M3|]. split; [exact R3|].
      split; [|split; [cbn [getref own shape_of tp]; intros _; split; [reflexivity|]; now rewrite SS|]].
      * rewrite K_for. cbv zeta. rewrite SS. fold n. cbn [tp tts].
        split; [intros _; exact R3|].
        split; [|split; [now rewrite rev_unit|]].
        -- eapply Ks_frame; [| |exact K1]; intros; apply (proj1 F3); lia.
        -- rewrite rev_unit, (strip_dptr _ _ SY). now destruct x.
      * eapply fr_weak; [|eapply fr_trans; [exact F1|exact F3]].
        unfold FP, FPs. cbn [writes shape_of]. fold n. intros b i. intuition lia.
  - (* EIf *)
    cbn [LSimDef.lay] in HL. destruct HL as [v1 [a1 [v2 [a2 [L1 [L2 L3]]]]]].
    destruct HP as [W1 [[W2 [W2' W2'']] [W3 [W4 [W5 W6]]]]]. cbn [wfs] in W1. rewrite !andb_true_iff in W1.
    destruct W1 as [[[[[Wc Wt] Wf] WS] WC] WE]. apply shape_eqb_eq in WE. cbn in W3, W4, W5.
    pose proof (lay_le _ _ _ _ _ _ _ _ _ L1) as LE1. pose proof (lay_le _ _ _ _ _ _ _ _ _ L2) as LE2.
    pose proof (lay_le _ _ _ _ _ _ _ _ _ L3) as LE3.
    destruct (IHe1 None v a' v1 a1 m r al L1) as [c' [m1 [q1 [E1 Q1]]]]; auto.
    { apply pre_intro; auto; intros; first [apply W3; rewrite !in_app_iff; solve [auto] | apply W4; rewrite !in_app_iff; solve [auto]]. }
    { eapply alc_mono; eauto; lia. }
    cbn [feval pf]. rewrite E1. cbn [bindR].
    assert (PC : exists l, snd (pf D None e1 r) = PL l).
    { destruct e1; try discriminate WC; try (eexists; reflexivity).
      rewrite pf_comp. cbv zeta. destruct (pfs D es r) as [[[? ?] ?] ?]. destruct (kf _ _ _ _ _).
      eexists; reflexivity. }
    destruct PC as [lc PC].
    destruct (pf D None e1 r) as [[t1 r1] p1]. cbn in PC. subst p1.
    destruct Q1 as [S1 [T1 [M1 [R1 [K1 [G1 F1]]]]]].
    assert (Gc : gettable e1 = true) by (destruct e1; try discriminate WC; reflexivity).
    destruct (G1 Gc) as [PT ->].
    destruct (refR_read _ _ _ _ _ _ _ _ M1 R1) as [RD LD]. rewrite RD. cbn [bindR rdp].
    destruct (ntrue N (hd0 N lc)) eqn:Eb.
    + destruct (IHe2 None v1 a1 v2 a2 m1 r1 al L2) as [e' [m2 [q2 [E2 Q2]]]]; auto.
      { apply pre_intro; auto; intros; first [apply W3; rewrite !in_app_iff; solve [auto] | apply W4; rewrite !in_app_iff; solve [auto]]. }
      { eapply alc_fr; [exact F1|]. eapply alc_mono; eauto; lia. }
      rewrite E2. cbn [bindR].
      destruct (pf D None e2 r1) as [[t2 r2] p2]. destruct Q2 as [S2 [T2 [M2 [R2 [K2 [G2 F2]]]]]].
      eexists _, _, _. split; [reflexivity|].
      split; [unfold strip in S1, S2 |- *; cbn [amap]; now rewrite S1, S2|].
      split; [split; [assumption|split; assumption]|].
      split; [exact M2|]. split; [eapply refR_mono; [..|exact R2]; lia|].
      split; [|split; [discriminate|]].
      * rewrite K_if. split; [discriminate|]. exists t1, t2, v1, a1, v2, a2.
        split; [reflexivity|]. split; [|split; [eapply lay_same; eauto|split; [assumption|]]].
        -- eapply K_frame; [| |exact K1]; intros; [eapply fr_pre; [exact F2|lia]|eapply fr_4; exact F2].
        -- rewrite <- PT, Eb. exact K2.
      * eapply fr_weak; [|eapply fr_trans; [exact F1|exact F2]]. unfold FP. cbn [writes xin].
        intros b i. rewrite !in_app_iff. intuition lia.
    + destruct (IHe3 None v2 a2 v' a0 m1 r1 al L3) as [e' [m2 [q2 [E2 Q2]]]]; auto.
      { apply pre_intro; auto; intros; first [apply W3; rewrite !in_app_iff; solve [auto] | apply W4; rewrite !in_app_iff; solve [auto]]. }
      { eapply alc_fr; [exact F1|]. eapply alc_mono; eauto; lia. }
      rewrite E2. cbn [bindR].
      destruct (pf D None e3 r1) as [[t2 r2] p2]. destruct Q2 as [S2 [T2 [M2 [R2 [K2 [G2 F2]]]]]].
      eexists _, _, _. split; [reflexivity|].
      split; [unfold strip in S1, S2 |- *; cbn [amap]; now rewrite S1, S2|].
      split; [split; [assumption|split; assumption]|].
      split; [exact M2|]. split; [cbn [shape_of]; rewrite WE; eapply refR_mono; [..|exact R2]; lia|].
      split; [|split; [discriminate|]].
      * rewrite K_if. split; [discriminate|]. exists t1, t2, v1, a1, v2, a2.
        split; [reflexivity|]. split; [|split; [assumption|split; [eapply lay_same; eauto|]]].
        -- eapply K_frame; [| |exact K1]; intros; [eapply fr_pre; [exact F2|lia]|eapply fr_4; exact F2].
        -- rewrite <- PT, Eb. exact K2.
      * eapply fr_weak; [|eapply fr_trans; [exact F1|exact F2]]. unfold FP. cbn [writes xin].
        intros b i. rewrite !in_app_iff. intuition lia.
Qed.

End SimF.
