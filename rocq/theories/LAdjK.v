(** Backward passes over iterated products that restore the rewritten caches. *)
From Verif Require Import Base Num Expr Node Stat Machine Wf Pure LBase LKind LSimDef LMem LSimF LSimB Session Tape LTape LTop LBind LUser Adj LAdj LAdjP.

Section Cn.
Context {N : num}.
Notation T := (carrier N).
Notation E := (expr T (ann N)).
Notation env := (nat -> T).

(** The factors multiply to the cached product, which is also what the target of an
    assignment holds, with [r] the variables. *)
Fixpoint Cn {A} (x : option nat) (e : expr T A) (t : tape N) (r : env) {struct e} : Prop :=
  match e with
  | EVar _ _ | ECst _ _ | ECvw _ _ => True
  | EComp k _ es =>
      (forall c, x = Some c -> rdv r c (size (kshape k (map shape_of es))) = tv t) /\
      match k with KProdI _ => prod_ok1 (map (fun t => rdp r (tp t)) (tts t)) (tv t) | _ => True end /\
      (fix go (l : list (expr T A)) (ts : list (tape N)) : Prop :=
         match l, ts with y :: l', ty :: ts' => (pin (tp ty) (refs y) /\ Cn None y ty r) /\ go l' ts' | [], [] => True | _, _ => False end) es (tts t)
  | EEq _ _ o y => match tts t with [ty] => Cn (Some o) y ty r | _ => True end
  | EOpEq _ _ _ _ y => match tts t with [ty] => Cn None y ty r | _ => True end
  | EGlue _ l r0 => match tts t with [tl; tr] => Cn None l tl r /\ Cn None r0 tr r | _ => True end
  | EFor _ _ es =>
      (fix go (l : list (expr T A)) (ts : list (tape N)) : Prop :=
         match l, ts with y :: l', ty :: ts' => Cn None y ty r /\ go l' ts' | [], [] => True | _, _ => False end) es (tts t)
  | EIf _ c t0 f =>
      match tts t with
      | [tc; tb] => match tp tc with PL l => if ntrue N (hd0 N l) then Cn None t0 tb r else Cn None f tb r | PV _ _ => True end
      | _ => True
      end
  end.
Definition Cns {A} (r : env) : list (expr T A) -> list (tape N) -> Prop :=
  fix go l ts := match l, ts with y :: l', ty :: ts' => (pin (tp ty) (refs y) /\ Cn None y ty r) /\ go l' ts' | [], [] => True | _, _ => False end.
Definition Cnf {A} (r : env) : list (expr T A) -> list (tape N) -> Prop :=
  fix go l ts := match l, ts with y :: l', ty :: ts' => Cn None y ty r /\ go l' ts' | [], [] => True | _, _ => False end.

Lemma Cn_amap {A B} (f : A -> B) (e : expr T A) : forall x t r, Cn x (amap f e) t r <-> Cn x e t r.
Proof.
  assert (RA : forall y : expr T A, refs (amap f y) = refs y) by (intros; apply refs_amap).
  induction e using expr_ind'; intros x t r; cbn [amap Cn]; try tauto.
  - assert (SS : map shape_of (map (amap f) es) = map shape_of es) by apply shapes_amap. rewrite SS.
    assert (X : Cns r (map (amap f) es) (tts t) <-> Cns r es (tts t)).
    { generalize (tts t). clear SS. induction H as [|y l HY H IH]; intros [|ty ts]; cbn; try tauto. rewrite RA, HY. specialize (IH ts). unfold Cns in IH. tauto. }
    unfold Cns in X. rewrite X. tauto.
  - destruct (tts t) as [|ty [|]]; try tauto. apply IHe.
  - destruct (tts t) as [|ty [|]]; try tauto. apply IHe.
  - destruct (tts t) as [|ty [|tz [|]]]; try tauto. rewrite IHe1, IHe2. tauto.
  - generalize (tts t). induction H as [|y l HY H IH]; intros [|ty ts]; cbn; try tauto. rewrite HY. specialize (IH ts). tauto.
  - destruct (tts t) as [|ty [|tz [|]]]; try tauto. destruct (tp ty); try tauto. destruct (ntrue _ _); [apply IHe2|apply IHe3].
Qed.

Lemma rdp_pin r r2 (p : pref N) l : pin p l -> (forall o, In o l -> r o = r2 o) -> rdp r p = rdp r2 p.
Proof. apply rdp_ext. Qed.

Lemma Cn_ext (e : E) : forall x t r r2, wfs e = true -> (forall o, In o (refs e) -> r o = r2 o) ->
  (forall o, xin x (size (shape_of e)) o -> r o = r2 o) -> Cn x e t r -> Cn x e t r2.
Proof.
  induction e using expr_ind'; intros x t r r2 HW HR HX HC; cbn [Cn] in *; auto.
  - cbn [wfs] in HW. rewrite !andb_true_iff in HW. destruct HW as [[[HW _] _] _]. cbn [refs] in HR.
    destruct HC as [H1 [H2 H3]]. change (Cns r es (tts t)) in H3. change (Cns r2 es (tts t)) with (Cns r2 es (tts t)).
    split; [|split].
    + intros c ->. rewrite <- (H1 c eq_refl). apply rdv_ext. intros i Hi. symmetry. apply HX. exact Hi.
    + destruct k; auto. replace (map (fun t0 => rdp r2 (tp t0)) (tts t)) with (map (fun t0 => rdp r (tp t0)) (tts t)); [exact H2|].
      clear H2 H1 HX. revert HR H3. generalize (tts t). clear H HW. induction es as [|y l IH]; intros [|ty ts] HR HC; cbn in *; try tauto.
      destruct HC as [[C1 _] C3]. f_equal; [eapply rdp_ext; [exact C1|]|apply IH; auto]; intros o Ho; apply HR, in_or_app; auto.
    + change (Cns r2 es (tts t)). revert HR H3. generalize (tts t). clear H1 H2 HX.
      induction H as [|y l HY H IH]; intros [|ty ts] HR HC; cbn in *; auto.
      apply andb_prop in HW. destruct HW as [WY WL]. destruct HC as [[C1 C2] C3]. split; [split; [exact C1|]|].
      * eapply HY; [exact WY| | |exact C2]; [|intros o []]. intros o Ho. apply HR, in_or_app. auto.
      * apply IH; auto. intros o Ho. apply HR, in_or_app. auto.
  - cbn [wfs] in HW. rewrite !andb_true_iff in HW. destruct HW as [[[HW1 HW2] HW3] HW4]. apply shape_eqb_eq in HW3. cbn [refs] in HR.
    destruct (tts t) as [|ty [|]]; auto. eapply IHe; [exact HW1| | |exact HC].
    + intros i Hi. apply HR, in_or_app. auto.
    + intros i Hi. apply HR, in_or_app. left. rewrite <- HW3 in Hi. cbn in Hi. now apply in_cells.
  - cbn [wfs] in HW. rewrite !andb_true_iff in HW. cbn [refs] in HR. destruct (tts t) as [|ty [|]]; auto.
    eapply IHe; [tauto| | |exact HC]; [|intros i []]. intros i Hi. apply HR, in_or_app. auto.
  - cbn [wfs] in HW. rewrite !andb_true_iff in HW. cbn [refs] in HR. destruct (tts t) as [|ty [|tz [|]]]; auto. destruct HC as [C1 C2].
    split; [eapply IHe1; [tauto| | |exact C1]|eapply IHe2; [tauto| | |exact C2]]; try (intros i []); intros i Hi; apply HR, in_or_app; auto.
  - cbn [wfs] in HW. rewrite !andb_true_iff in HW. destruct HW as [[[HW _] _] _]. cbn [refs] in HR.
    revert HR HC. generalize (tts t). clear HX. induction H as [|y l HY H IH]; intros [|ty ts] HR HC; cbn in *; auto.
    apply andb_prop in HW. destruct HW as [WY WL]. destruct HC as [C2 C3]. split.
    + eapply HY; [exact WY| | |exact C2]; [|intros o []]. intros o Ho. apply HR, in_or_app. auto.
    + apply IH; auto. intros o Ho. apply HR, in_or_app. auto.
  - cbn [wfs] in HW. rewrite !andb_true_iff in HW. cbn [refs] in HR. destruct (tts t) as [|ty [|tz [|]]]; auto. destruct (tp ty); auto.
    destruct (ntrue _ _); [eapply IHe2; [tauto| | |exact HC]|eapply IHe3; [tauto| | |exact HC]]; try (intros i []); intros i Hi; apply HR; rewrite !in_app_iff; auto.
Qed.

Lemma Cn_of (D : env) (e : E) : forall x t t' r, RT x e t t' r -> WT e t' -> prod_ok e t' -> opw e = [] -> Cn x e t r.
Proof.
  induction e using expr_ind'; intros x t t' r HR HW HP HO; cbn [Cn]; auto.
  - destruct HR as [R1 [R2 [R3 [R4 R5]]]]. destruct HW as [W1 [W2 W3]]. destruct HP as [P1 P2].
    change (RTs r es (tts t) (nts t')) in R5. change (WTs es (nts t')) in W3. change (prod_oks es (nts t')) in P2.
    split; [|split].
    + intros c ->. rewrite R4 in R1. cbn [px rdp] in R1. now rewrite R1, R2.
    + destruct k; auto. rewrite R2. rewrite (RTs_val _ _ _ _ R5). exact P1.
    + change (Cns r es (tts t)). cbn [opw] in HO. clear R1 R2 R3 R4 W1 W2 P1. revert R5 W3 P2 HO. generalize (tts t) (nts t').
      induction H as [|y l HY H IH]; intros [|ty ts] [|ty' ts'] HR HW HP HO; cbn in *; try tauto.
      apply app_eq_nil in HO. destruct HR as [R1 R2], HW as [W1 W2], HP as [P1 P2], HO as [O1 O2].
      split; [split|apply (IH ts ts'); auto].
      * destruct (RT_root _ _ _ _ _ R1 W1) as [Q|[c [Q _]]]; [exact Q|discriminate].
      * eapply HY; eauto.
  - destruct HR as [_ [_ [_ [ty [ty' [-> [E2 R]]]]]]]. destruct HW as [_ [tz [E3 [_ W]]]]. rewrite E2 in E3. inversion E3; subst tz.
    cbn [prod_ok] in HP. rewrite E2 in HP. eapply IHe; eauto.
  - destruct HR as [_ [_ [_ [ty [ty' [-> [E2 R]]]]]]]. destruct HW as [_ [LO [tz [E3 W]]]]. rewrite E2 in E3. inversion E3; subst tz.
    cbn [prod_ok] in HP. rewrite E2 in HP. cbn [opw] in HO. apply app_eq_nil in HO. destruct HO as [O1 O2].
    unfold cells in O1. destruct (size sh); [|discriminate]. destruct (no t'); [|discriminate].
    eapply IHe; [|exact W|exact HP|exact O2]. eapply RT_ext; [exact W| | |exact R]; [|intros c X; discriminate]. intros i _. apply upd_out. cbn. lia.
  - destruct HR as [_ [tl [tr [tl' [tr' [-> [E2 [_ [R1 R2]]]]]]]]]. destruct HW as [_ [tl2 [tr2 [E3 [_ [W1 W2]]]]]]. rewrite E2 in E3. inversion E3; subst tl2 tr2.
    cbn [prod_ok] in HP. rewrite E2 in HP. cbn [opw] in HO. apply app_eq_nil in HO. destruct HO as [O1 O2]. destruct HP as [P1 P2].
    split; [|eapply IHe2; eauto]. eapply IHe1; [|exact W1|exact P1|exact O1].
    eapply RT_ext; [exact W1| | |exact R2]; [|intros c X; discriminate]. intros i _. apply (rs_out D); [exact W2|]. rewrite O2. intros [].
  - destruct HR as [_ [_ R]]. destruct HW as [_ [_ W]]. cbn [prod_ok opw] in HP, HO.
    change (RTf r es (tts t) (nts t')) in R. change (WTs es (nts t')) in W. change (prod_oks es (nts t')) in HP. change (Cnf r es (tts t)).
    revert R W HP HO. generalize (tts t) (nts t').
    induction H as [|y l HY H IH]; intros [|ty ts] [|ty' ts'] HR HW HP HO; cbn in *; try tauto.
    apply app_eq_nil in HO. destruct HR as [R1 R2], HW as [W1 W2], HP as [P1 P2], HO as [O1 O2].
    split; [|apply (IH ts ts'); auto]. eapply HY; [|exact W1|exact P1|exact O1].
    eapply RT_ext; [exact W1| | |exact R1]; [|intros c X; discriminate]. intros i _. apply (rsl_out D); [exact W2|]. rewrite O2. intros [].
  - destruct HR as [_ [tc [tb [tc' [tb' [-> [E2 [TC [_ R]]]]]]]]]. destruct HW as [_ [c2 [b2 [E3 [_ [_ W]]]]]]. rewrite E2 in E3. inversion E3; subst c2 b2.
    cbn [prod_ok] in HP. rewrite E2 in HP. cbn [opw] in HO. apply app_eq_nil in HO. destruct HO as [_ HO]. apply app_eq_nil in HO. destruct HO as [O1 O2].
    rewrite TC. destruct (ntrue N (hd0 N (nv tc'))); [eapply IHe2|eapply IHe3]; eauto.
Qed.
End Cn.

Section Keep.
Context {N : num}.
Notation T := (carrier N).
Notation E := (expr T (ann N)).
Notation env := (nat -> T).
Variables bv ba : nat.
Variable V : nat -> Prop.
Hypothesis HF : fresh bv ba.
Notation K := (K bv ba V).
Notation Ks := (Ks bv ba V).
Notation kp := (@kp N ba false).

Definition R0 (m : mem T) (r : env) : Prop := forall o, V o -> m 0 o = Some (r o).
Lemma load0 m r o n : R0 m r -> (forall i, o <= i < o + n -> V i) -> load m (Ptr 0 o) n = Ok (rdv r o n).
Proof.
  intros H HV. apply (MR_load0 (V := V) (W := fun _ => False) (D := r) (fun b i => if b =? 1 then Some (r i) else m b i) r r o n) in HV as HL.
  - eapply load_frame; [|exact HL]. reflexivity.
  - split; [|intros i []]. intros i Hi. cbn. split; [now apply H|reflexivity].
Qed.
Lemma refR0 m r v v' n q p : R0 m r -> refR bv V m v v' n q p -> rdref m q = Ok (rdp r p).
Proof. intros HM H. destruct p; cbn in *; [destruct H as [-> [-> H]]; now apply load0|tauto]. Qed.
Lemma kp_bv m m' : kp m m' -> forall o, m' bv o = m bv o.
Proof. intros H o. destruct HF. apply H; (lia || discriminate). Qed.
Lemma kp_04 m m' : kp m m' -> (forall o, m' 0 o = m 0 o) /\ (forall o, m' 4 o = m 4 o).
Proof. intros H. destruct HF. split; intros o; apply H; (lia || discriminate). Qed.
Lemma K_kp m m' x e t v a v' a' : kp m m' -> K x e t m v a v' a' -> K x e t m' v a v' a'.
Proof. intros H. apply K_frame; intros; [now apply kp_bv|now apply kp_04]. Qed.
Lemma R0_kp m m' r : kp m m' -> R0 m r -> R0 m' r.
Proof. intros H HM o Ho. rewrite (proj1 (kp_04 _ _ H)). now apply HM. Qed.

Lemma wrn_upd b (l : list T) : forall o (m m' : mem T), wrn m b o l = Ok m' -> updm m b o l m'.
Proof.
  intros o m m' H. destruct (wrn_ok m b o l (n0 N)) as [m2 [H2 H3]].
  - revert o m m' H. induction l as [|x l IH]; intros o m m' H i Hi; cbn in *; [lia|].
    apply bindR_ok in H. destruct H as [m1 [H1 H2]]. unfold wr1 in H1. destruct (m b o) eqn:Q; [|discriminate]. inversion H1; subst m1.
    destruct i as [|i]; [rewrite Nat.add_0_r, Q; discriminate|]. specialize (IH (S o) _ _ H2 i ltac:(lia)).
    replace (S o + i) with (o + S i) in IH by lia. rewrite Nat.eqb_refl in IH. destruct (Nat.eqb_spec (o + S i) o); [lia|]. exact IH.
  - rewrite H in H2. inversion H2; subst m2. exact H3.
Qed.
Lemma updm_out m b o (l : list T) m' b' i : updm m b o l m' -> ~ (b' = b /\ o <= i < o + length l) -> m' b' i = m b' i.
Proof.
  intros H Hn. rewrite H. destruct (Nat.eqb_spec b' b), (Nat.leb_spec o i), (Nat.ltb_spec i (o + length l)); cbn; auto. exfalso. apply Hn. lia.
Qed.

Definition KR (e : E) : Prop := forall x t s m m' r v a v' a', wfs e = true -> (forall o, In o (refs e) -> V o) ->
  (forall o, xin x (size (shape_of e)) o -> V o /\ ~ In o (refs e)) -> disc e = true -> opw e = [] ->
  K x e t m v a v' a' -> R0 m r -> Cn x e t r -> beval e s m = Ok m' -> kp m m'.

(** Operands of a compute node, last first, from memory [m0] in which the node's
    value is [val] and its operands have the values [vs]. *)
Lemma bgo_R k an es n ss cs seed p0 x vs val m0 r v1 a1 :
  (forall m, kp m0 m -> forall vs' f ad, pack k an es n seed m = Ok (vs', f, ad) -> length f = n /\ match k with KProdI _ => vs' = vs | _ => True end) ->
  (match k with KProdI _ => prod_ok1 vs val /\ klazy k ss = true | _ => True end) ->
  length vs = length es -> length val = n -> load m0 (av an) n = Ok val ->
  (match x with Some c => av an = Ptr 0 c | None => av an = Ptr bv v1 end) -> (kaux k = true -> exists c, xa an = Ptr ba c) ->
  (forall o, xin x n o -> V o /\ ~ In o (flat_map refs es)) ->
  R0 m0 r ->
  forall l, Forall KR l -> forallb wfs l = true -> forallb disc l = true -> flat_map opw l = [] -> (forall o, In o (flat_map refs l) -> V o) ->
  forall pes, es = pes ++ l ->
  forall ts w b m m', Ks m0 v1 a1 l ts w b -> Cns r l ts -> (match k with KProdI _ => skipn (length pes) vs = map (fun t => rdp r (tp t)) ts /\ forallb gettable l = true | _ => True end) ->
  kp m0 m -> bgo k an es n ss cs seed p0 (length pes) l m = Ok m' -> kp m0 m'.
Proof.
  intros HPK HPO LV Lval HLD HAV HXA HXV HM l HK.
  induction HK as [|y l HY HK IH]; intros HW HD HO HR pes HE ts w b m m' HKs HC HV HKP HB; cbn [bgo] in HB.
  { inversion HB; subst. exact HKP. }
  cbn in HW, HD, HO. apply andb_prop in HW. apply andb_prop in HD. apply app_eq_nil in HO.
  destruct HW as [WY WL], HD as [DY DL], HO as [OY OL].
  destruct ts as [|ty ts]; [destruct HKs|]. destruct HKs as [w2 [b2 [KY KL]]]. change (Ks m0 v1 a1 l ts w2 b2) in KL.
  destruct HC as [[CP CY] CL]. change (Cns r l ts) in CL.
  assert (LE1 := K_le _ _ _ _ _ _ _ _ KY). assert (LE2 := Ks_le _ _ _ _ _ _ _ KL).
  assert (VY : forall o, In o (refs y) -> V o) by (intros o Ho; apply HR; cbn; apply in_or_app; auto).
  assert (IY : forall o, In o (refs y) -> In o (flat_map refs es)).
  { intros o Ho. rewrite HE, flat_map_app. apply in_or_app. right. cbn. apply in_or_app. auto. }
  apply bindR_ok in HB. destruct HB as [m1 [B1 HB]].
  assert (K1 : kp m0 m1).
  { refine (IH WL DL OL _ (pes ++ [y]) _ ts w2 b2 m m1 KL CL _ HKP _).
    - intros o Ho. apply HR. cbn. apply in_or_app. auto.
    - rewrite <- app_assoc. exact HE.
    - destruct k; auto. destruct HV as [HV1 HV2]. cbn in HV2. apply andb_prop in HV2. split; [|apply HV2].
      rewrite app_length. cbn [length]. rewrite Nat.add_comm. cbn [Nat.add].
      assert (Q : forall (i : nat) (u : list (list T)), skipn (S i) u = tl (skipn i u)) 
        by (clear; induction i as [|i IH]; intros [|z u]; try reflexivity; apply (IH u)).
      rewrite Q, HV1. reflexivity.
    - rewrite app_length. cbn [length]. rewrite Nat.add_comm. exact B1. }
  apply bindR_ok in HB. destruct HB as [[[vs' f] ad] [P HB]].
  apply bindR_ok in HB. destruct HB as [m2 [B2 HB]]. apply bindR_ok in HB. destruct HB as [m3 [B3 HB]].
  destruct (kpre k (length pes) vs' f) as [f1|] eqn:KP.
  - (* an operand with a zero *)
    destruct k; try discriminate KP. destruct HPO as [PO LZ]. rewrite LZ in P.
    destruct (HPK m1 K1 _ _ _ P) as [LF ->].
    destruct HV as [HV1 HV2]. cbn in HV2. apply andb_prop in HV2. destruct HV2 as [GY GL].
    assert (NI : nth (length pes) vs [] = rdp r (tp ty)).
    { rewrite <- (firstn_skipn (length pes) vs), HV1. rewrite app_nth2; rewrite firstn_length, LV, HE, app_length, Nat.min_l by lia; [|lia].
      rewrite Nat.sub_diag. reflexivity. }
    assert (W : map2 (nmul N) f1 (rdp r (tp ty)) = val).
    { cbn [kpre] in KP. destruct (anyzero (nth (length pes) vs [])) eqn:AZ; [|discriminate]. inversion KP; subst f1.
      rewrite <- NI. rewrite LF, <- Lval. apply PO; [|exact AZ]. rewrite LV, HE, app_length. cbn. lia. }
    assert (L1 : length f1 = n).
    { pose proof (kpre_len _ _ _ _ _ KP) as Q1. pose proof (map2_len f1 (rdp r (tp ty))) as Q2. rewrite W in Q2. lia. }
    set (c0 := match x with Some c => c | None => v1 end). set (b0 := match x with Some _ => 0 | None => bv end).
    assert (AV : av an = Ptr b0 c0) by (destruct x; exact HAV).
    rewrite AV in *. cbn [store] in B2. apply wrn_upd in B2.
    set (r2 := wx x r f1).
    assert (R2 : R0 m2 r2).
    { intros o Ho. rewrite B2. unfold r2, b0, c0. destruct x as [c|]; cbn [wx].
      - cbn [Nat.eqb andb]. unfold upd. destruct (Nat.leb_spec c o), (Nat.ltb_spec o (c + length f1)); cbn [andb]; auto; now apply (R0_kp _ _ _ K1 HM).
      - destruct HF as [F1 F2]. destruct (Nat.eqb_spec 0 bv); [lia|]. cbn. now apply (R0_kp _ _ _ K1 HM). }
    assert (EY : forall o, In o (refs y) -> r o = r2 o).
    { intros o Ho. unfold r2. destruct x as [c|]; cbn [wx]; [|reflexivity]. symmetry. apply upd_out. intros Hc. rewrite L1 in Hc.
      destruct (HXV o Hc) as [_ X]. apply X, IY, Ho. }
    assert (KY2 : K None y ty m2 w b w2 b2).
    { eapply K_frame; [| |exact (K_kp _ _ _ _ _ _ _ _ _ K1 KY)].
      - intros o Ho. apply (updm_out _ _ _ _ _ _ _ B2). intros [X1 X2]. unfold b0, c0 in *. destruct x; [destruct HF; lia|lia].
      - intros o. apply (updm_out _ _ _ _ _ _ _ B2). intros [X1 X2]. unfold b0 in *. destruct HF. destruct x; lia. }
    assert (CY2 : Cn None y ty r2) by (eapply Cn_ext; [exact WY|exact EY| |exact CY]; intros o []).
    assert (K3 : kp m2 m3).
    { destruct (kseed _ _ _ _ _ _ _ _) as [s2|]; [|inversion B3; apply kp_refl].
      apply bindR_ok in B3. destruct B3 as [s3 [_ B3]]. cbn [kaux] in B3. cbn [bindR] in B3.
      eapply (HY None ty s3 m2 m3 r2); eauto. intros o []. }
    apply bindR_ok in HB. destruct HB as [f2 [B4 HB]]. apply bindR_ok in HB. destruct HB as [v2 [B5 HB]].
    assert (F2 : f2 = f1).
    { assert (Q := updm_load _ _ _ _ _ B2). rewrite L1 in Q.
      assert (Q' : load m3 (Ptr b0 c0) n = Ok f1).
      { eapply load_frame; [|exact Q]. intros i _. apply K3; [| |discriminate]; unfold b0; destruct HF; destruct x; lia. }
      rewrite B4 in Q'. congruence. }
    assert (V2 : v2 = rdp r (tp ty)).
    { assert (Q := refR0 m3 r2 _ _ _ _ _ (R0_kp _ _ _ K3 R2) (K_get _ _ _ _ _ _ _ _ (K_kp _ _ _ _ _ _ _ _ _ K3 KY2) GY)).
      rewrite B5 in Q. inversion Q. symmetry. eapply rdp_ext; [exact CP|exact EY]. }
    subst f2 v2. rewrite W in HB. cbn [store] in HB. apply wrn_upd in HB.
    intros b' o' X1 X2 X3. destruct (Nat.eq_dec b' b0) as [->|NB].
    + destruct (le_lt_dec c0 o') as [G1|G1]; [destruct (le_lt_dec (c0 + n) o') as [G2|G2]|].
      * rewrite (updm_out _ _ _ _ _ _ _ HB), K3, (updm_out _ _ _ _ _ _ _ B2); auto; lia.
      * rewrite (updm_in _ _ _ _ _ _ HB) by lia. apply load_inv in HLD. symmetry. apply HLD. lia.
      * rewrite (updm_out _ _ _ _ _ _ _ HB), K3, (updm_out _ _ _ _ _ _ _ B2); auto; lia.
    + rewrite (updm_out _ _ _ _ _ _ _ HB), K3, (updm_out _ _ _ _ _ _ _ B2); auto; lia.
  - (* otherwise nothing is rewritten *)
    inversion B2; subst m2. inversion HB; subst m3. eapply kp_trans; [exact K1|].
    destruct (kseed _ _ _ _ _ _ _ _) as [s2|]; [|inversion B3; apply kp_refl].
    apply bindR_ok in B3. destruct B3 as [s3 [_ B3]]. apply bindR_ok in B3. destruct B3 as [m4 [B4 B5]].
    assert (K4 : kp m1 m4).
    { destruct (kaux k); [|inversion B4; apply kp_refl]. destruct (HXA eq_refl) as [c X]. rewrite X in B4. eapply store_kp; [exact B4|]. eauto 8. }
    eapply kp_trans; [exact K4|]. assert (K04 := kp_trans _ _ _ _ _ K1 K4).
    eapply (HY None ty s3 m4 m' r); [exact WY|exact VY|intros o []|exact DY|exact OY|exact (K_kp _ _ _ _ _ _ _ _ _ K04 KY)|exact (R0_kp _ _ _ K04 HM)|exact CY|exact B5].
Qed.

Lemma vals0 m r es : R0 m r -> forallb gettable es = true -> forall ts v1 a1 v a, Ks m v1 a1 es ts v a ->
  mapR (fun e => rdref m (getref e)) es = Ok (map (fun t => rdp r (tp t)) ts) /\ length ts = length es.
Proof.
  intros HM. induction es as [|y l IH]; intros HG ts v1 a1 v a H.
  - destruct ts; [split; reflexivity|destruct H].
  - destruct ts as [|ty ts]; [destruct H|]. cbn in HG. apply andb_prop in HG. destruct HG as [GY GL]. destruct H as [w2 [b2 [KY KL]]]. change (Ks m v1 a1 l ts w2 b2) in KL.
    destruct (IH GL _ _ _ _ _ KL) as [Q1 Q2]. cbn [mapR map length]. rewrite (refR0 m r _ _ _ _ _ HM (K_get _ _ _ _ _ _ _ _ KY GY)). cbn [bindR].
    rewrite Q1. cbn [bindR]. split; [reflexivity|lia].
Qed.
Lemma fgo_R r s l : Forall KR l -> forallb wfs l = true -> forallb disc l = true -> flat_map opw l = [] -> (forall o, In o (flat_map refs l) -> V o) ->
  forall ts v' a' w b m m', Ks m v' a' l ts w b -> R0 m r -> Cnf r l ts -> fgo s l m = Ok m' -> kp m m'.
Proof.
  intros HK. induction HK as [|y l HY HK IH]; intros HW HD HO HR ts v' a' w b m m' HKs HM HC HB; cbn [fgo] in HB.
  { inversion HB; apply kp_refl. }
  cbn in HW, HD, HO. apply andb_prop in HW. apply andb_prop in HD. apply app_eq_nil in HO.
  destruct HW as [WY WL], HD as [DY DL], HO as [OY OL].
  destruct ts as [|ty ts]; [destruct HKs|]. destruct HKs as [w2 [b2 [KY KL]]]. change (Ks m v' a' l ts w2 b2) in KL.
  destruct HC as [CY CL]. change (Cnf r l ts) in CL.
  assert (VY : forall o, In o (refs y) -> V o) by (intros o Ho; apply HR; cbn; apply in_or_app; auto).
  destruct l as [|y2 l].
  - eapply (HY None ty s m m' r); eauto. intros o [].
  - apply bindR_ok in HB. destruct HB as [m1 [B1 B2]]. change (fgo s (y2 :: l) m = Ok m1) in B1.
    assert (Q1 : kp m m1).
    { eapply IH; eauto. intros o Ho. apply HR. cbn. apply in_or_app. auto. }
    eapply kp_trans; [exact Q1|]. eapply (HY None ty _ m1 m' r); eauto; [intros o []|eapply K_kp; eauto|eapply R0_kp; eauto].
Qed.

Lemma KR_all (e : E) : KR e.
Proof.
  induction e using expr_ind'; intros x t s0 m m' r v a0 v' a' HW HR HX HD HO HK HM HC HE.
  - cbn [beval] in HE. eapply var_kp; exact HE.
  - cbn in HE. inversion HE. apply kp_refl.
  - cbn in HE. inversion HE. apply kp_refl.
  - destruct es as [|e0 es0]; [cbn in HE; inversion HE; apply kp_refl|].
    remember (e0 :: es0) as es eqn:EE. rewrite beval_comp in HE by (subst; discriminate). cbn zeta in HE. clear e0 es0 EE.
    rewrite K_comp in HK. cbn zeta in HK. destruct HK as [HG [_ [_ [Htv [Htp [v1 [a1 [HKs [HXA HA]]]]]]]]].
    specialize (HG eq_refl). cbn [shape_of] in HX. set (n := size (kshape k (map shape_of es))) in *.
    cbn [wfs] in HW. rewrite !andb_true_iff in HW. destruct HW as [[[HW _] _] HGT].
    cbn [disc] in HD. rewrite !andb_true_iff in HD. destruct HD as [[[HD _] _] _]. cbn [opw refs] in HO, HR, HX.
    destruct HC as [C1 [C2 C3]]. change (Cns r es (tts t)) in C3. fold n in C1.
    apply bindR_ok in HE. destruct HE as [s1 [_ HE]]. apply bindR_ok in HE. destruct HE as [m1 [HS HE]].
    assert (K1 : kp m m1).
    { destruct (kadj k); [|inversion HS; apply kp_refl]. eapply store_kp; [exact HS|].
      destruct x; [destruct HA as [_ [_ [HA _]]]|destruct HA as [_ [HA _]]; specialize (HA eq_refl)]; eauto 8. }
    eapply kp_trans; [exact K1|]. apply bindR_ok in HE. destruct HE as [p0 [_ HE]].
    assert (KS1 : Ks m1 v1 a1 es (tts t) v a0) by (eapply Ks_frame; [| |exact HKs]; intros; [now apply kp_bv|now apply kp_04]).
    assert (M1 := R0_kp _ _ _ K1 HM).
    assert (LD : load m1 (av a) n = Ok (tv t)).
    { rewrite Htp in HG. destruct x as [c|]; cbn [px refR] in HG.
      - destruct HG as [_ [HG HV]]. inversion HG as [HG']. rewrite HG', <- (C1 c eq_refl). now apply load0.
      - destruct HG as [_ [HG _]]. cbn [rdref] in HG. destruct HA as [HA _]. rewrite HA in *. eapply load_frame; [|exact HG]. intros; now apply kp_bv. }
    set (vs := match k with KProdI _ => map (fun t => rdp r (tp t)) (tts t) | _ => map (fun _ => []) es end).
    assert (GT : match k with KProdI _ => forallb gettable es = true | _ => True end) by (destruct k; auto).
    eapply (bgo_R k a es n _ _ s1 p0 x vs (tv t) m1 r v1 a1) with (pes := []) (l := es) (ts := tts t); eauto.
    + intros m2 K2 vs' f ad P. unfold pack in P. apply bindR_ok in P. destruct P as [vs2 [P0 P]]. apply bindR_ok in P. destruct P as [f2 [P1 P]].
      apply bindR_ok in P. destruct P as [? [_ P]]. inversion P; subst. split; [eapply load_len; eauto|].
      destruct k; auto. cbn [kget] in P0. unfold vs.
      assert (KS2 : Ks m2 v1 a1 es (tts t) v a0) by (eapply Ks_frame; [| |exact KS1]; intros; [now apply kp_bv|now apply kp_04]).
      rewrite (proj1 (vals0 m2 r es (R0_kp _ _ _ K2 M1) GT _ _ _ _ _ KS2)) in P0. congruence.
    + destruct k; auto.
    + unfold vs. destruct k; rewrite ?map_length; auto. exact (proj2 (vals0 m1 r es M1 GT _ _ _ _ _ KS1)).
    + destruct x; [tauto|tauto].
    + destruct k; auto; split; auto.
    + apply kp_refl.
  - rewrite K_eq in HK. destruct HK as [_ [_ [ty [Hts HK]]]]. cbn [wfs] in HW. rewrite !andb_true_iff in HW. destruct HW as [[[W1 W2] W3] W4].
    apply shape_eqb_eq in W3. cbn [disc] in HD. apply andb_prop in HD. destruct HD as [D1 D2].
    cbn [beval] in HE. apply bindR_ok in HE. destruct HE as [m1 [H1 HE]]. apply bindR_ok in HE. destruct HE as [s1 [_ HE]].
    assert (K1 : kp m m1) by (eapply var_kp; exact H1). eapply kp_trans; [exact K1|]. cbn [Cn] in HC. rewrite Hts in HC. cbn [refs opw] in HR, HO.
    eapply (IHe (Some o) ty s1 m1 m' r); [exact W1| | |exact D1|exact HO|exact (K_kp _ _ _ _ _ _ _ _ _ K1 HK)|exact (R0_kp _ _ _ K1 HM)|exact HC|exact HE].
    + intros i Hi. apply HR, in_or_app. auto.
    + intros i Hi. cbn [xin] in Hi. rewrite <- W3 in Hi. apply in_cells in Hi. split; [apply HR, in_or_app; auto|].
      intros X. unfold dj in D2. rewrite forallb_forall in D2. specialize (D2 i Hi). apply negb_true_iff in D2.
      assert (existsb (Nat.eqb i) (refs e) = true) by (apply existsb_exists; exists i; split; [exact X|apply Nat.eqb_refl]). congruence.
  - rewrite K_opeq in HK. destruct HK as [_ [_ [ty [v1 [a1 [Hts [HK [_ [XV [XA _]]]]]]]]]].
    cbn [wfs] in HW. rewrite !andb_true_iff in HW. cbn [disc] in HD. rewrite !andb_true_iff in HD. cbn [opw refs] in HO, HR. apply app_eq_nil in HO. destruct HO as [O1 O2].
    cbn [Cn] in HC. rewrite Hts in HC. unfold cells in O1. destruct (size sh) eqn:SZ; [|discriminate].
    cbn [beval] in HE. cbn zeta in HE. rewrite SZ in HE.
    repeat (let Q := fresh "Q" in apply bindR_ok in HE; destruct HE as [? [Q HE]]).
    assert (QA : kp m x5).
    { eapply kp_trans; [eapply var_kp; exact Q|]. eapply (kp_trans _ _ _ x2); [|eapply kp_trans].
      - assert (x1 = []) by (destruct (xv a); cbn in Q0; congruence). subst x1. cbn in Q1. inversion Q1. apply kp_refl.
      - eapply store_kp; [exact Q3|]. rewrite XA. eauto 8.
      - eapply store_kp; [exact Q4|]. eauto. }
    eapply kp_trans; [exact QA|]. eapply (kp_trans _ _ _ x8); [|eapply store_kp; [exact HE|]; eauto].
    eapply (IHe None ty _ x5 x8 r); [tauto| |intros i []|tauto|exact O2|exact (K_kp _ _ _ _ _ _ _ _ _ QA HK)|exact (R0_kp _ _ _ QA HM)|exact HC|exact Q7].
    intros i Hi. apply HR, in_or_app. auto.
  - rewrite K_glue in HK. destruct HK as [_ [tl [tr [v1 [a1 [Hts [HK1 [HK2 _]]]]]]]].
    cbn [wfs] in HW. rewrite !andb_true_iff in HW. cbn [disc] in HD. rewrite !andb_true_iff in HD. cbn [opw refs] in HO, HR. apply app_eq_nil in HO. destruct HO as [O1 O2].
    cbn [Cn] in HC. rewrite Hts in HC. destruct HC as [C1 C2].
    cbn [beval] in HE. apply bindR_ok in HE. destruct HE as [m1 [B1 B2]].
    assert (Q1 : kp m m1).
    { eapply (IHe2 None tr _ m m1 r); [tauto| |intros i []|tauto|exact O2|exact HK2|exact HM|exact C2|exact B1]. intros i Hi. apply HR, in_or_app. auto. }
    eapply kp_trans; [exact Q1|].
    eapply (IHe1 None tl _ m1 m' r); [tauto| |intros i []|tauto|exact O1|exact (K_kp _ _ _ _ _ _ _ _ _ Q1 HK1)|exact (R0_kp _ _ _ Q1 HM)|exact C1|exact B2].
    intros i Hi. apply HR, in_or_app. auto.
  - rewrite K_for in HK. cbv zeta in HK. destruct HK as [_ [HKs _]]. rewrite beval_for in HE.
    cbn [wfs] in HW. rewrite !andb_true_iff in HW. cbn [disc] in HD. rewrite !andb_true_iff in HD. cbn [opw refs] in HO, HR.
    eapply fgo_R; [exact H|tauto|tauto|exact HO|exact HR|exact HKs|exact HM|exact HC|exact HE].
  - rewrite K_if in HK. destruct HK as [_ [tc [tb [v1 [a1 [v2 [a2 [Hts [HKc [_ [_ HKb]]]]]]]]]]].
    cbn [wfs] in HW. rewrite !andb_true_iff in HW. destruct HW as [[[[[HW1 HW2] HW3] HW4] HW5] HW6].
    cbn [disc] in HD. rewrite !andb_true_iff in HD. cbn [opw refs] in HO, HR. apply app_eq_nil in HO. destruct HO as [_ HO]. apply app_eq_nil in HO. destruct HO as [O2 O3].
    assert (GC : gettable e1 = true) by now destruct e1.
    assert (GE := K_get _ _ _ _ _ _ _ _ HKc GC). cbn [Cn] in HC. rewrite Hts in HC.
    cbn [beval] in HE. apply bindR_ok in HE. destruct HE as [b [RB HE]].
    destruct (tp tc) as [|l] eqn:TC; [destruct HKb|]. cbn [refR] in GE. destruct GE as [_ [GE _]]. rewrite GE in RB. inversion RB; subst b.
    destruct (ntrue N (hd0 N l)); [eapply (IHe2 None tb s0 m m' r)|eapply (IHe3 None tb s0 m m' r)]; eauto; try tauto; try (intros i []);
      intros i Hi; apply HR; rewrite !in_app_iff; auto.
Qed.
End Keep.

Section Step.
Context {N : num}.
Notation T := (carrier N).
Notation E := (expr T (ann N)).
Notation U := (expr T unit).
Hypothesis LL : la_len N.
Variables bv ba : nat.
Hypothesis HF : fresh bv ba.

(** One backward pass leaves everything but the adjoints as it was, ready for the next. *)
Lemma adj_stepK (u : U) cv ca (e : E) t m D r al s : inv bv ba u cv ca e m -> K bv ba (vset u) None e t m 0 0 cv ca ->
  MR (vset u) (wset u) D m r al -> opw u = [] -> disc u = true -> Cn None e t r -> length s = size (shape_of u) ->
  exists m', let '(q, r2, al2) := pb None e t s r al in
    beval e s m = Ok m' /\ inv bv ba u cv ca e m' /\ K bv ba (vset u) None e t m' 0 0 cv ca /\
    MR (vset u) (wset u) D m' r al2.
Proof.
  intros HI HK HM HO HD HC HL. pose proof HI as [H1 [H2 [H3 [H4 [H5 [H6 H7]]]]]]. pose proof HF as [Fb Fa].
  destruct (inv_facts bv ba _ _ _ _ _ HI) as [F1 [F2 [F3 [F4 [F5 [F6 F7]]]]]].
  destruct (BS_all Fb Fa LL e None t s 0 0 cv ca m r al HK (inv_preB bv ba HF _ _ _ _ _ HI) HM H6) as [m' [E1 Q]]; [congruence|].
  exists m'. destruct (pb None e t s r al) as [[q r2] al2]. destruct Q as [Q1 [_ Q2]].
  assert (KP : kp ba false m m').
  { eapply (KR_all bv ba (vset u) HF e None t s m m' r); [exact F1| |intros o []|congruence|congruence|exact HK| |exact HC|exact E1].
    - intros o Ho. unfold vset. rewrite <- F3. exact Ho.
    - intros o Ho. now apply HM. }
  split; [exact E1|]. split; [eapply inv_keeps; [exact HI|apply Q2]|]. split.
  - eapply K_kp; eauto.
  - destruct Q1 as [Q3 Q4]. destruct HM as [M1 M2]. split; [|exact Q4].
    intros o Ho. split; [rewrite KP by (try congruence; lia); now apply M1|now apply Q3].
Qed.
End Step.
