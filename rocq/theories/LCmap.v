(** Lemmas: a program with its constants mapped, and two runs of it in related
    arithmetics. *)
From Verif Require Import Base Num Expr Node Stat Machine Wf Pure LBase LKind LSimDef LMem LSimF LSimB LBind Session LUser
  Tape LTape LState LNrm LTop Ieee LParam.

Section Cmap.
Context {T T' A : Type} (f : T -> T').
Implicit Types e : expr T A.
Lemma shape_of_cmap e : shape_of (cmap f e) = shape_of e.
Proof.
  induction e using expr_ind'; cbn; auto; rewrite map_map;
    now rewrite (map_ext_Forall (fun x => shape_of (cmap f x)) shape_of).
Qed.
Lemma shapes_cmap (es : list (expr T A)) : map shape_of (map (cmap f) es) = map shape_of es.
Proof. rewrite map_map. apply map_ext. apply shape_of_cmap. Qed.
Lemma is_const_cmap e : is_const (cmap f e) = is_const e.
Proof. now destruct e. Qed.
Lemma consts_cmap (es : list (expr T A)) : map is_const (map (cmap f) es) = map is_const es.
Proof. rewrite map_map. apply map_ext. apply is_const_cmap. Qed.
Lemma gettable_cmap e : gettable (cmap f e) = gettable e.
Proof. now destruct e. Qed.
Lemma cond_ok_cmap e : cond_ok (cmap f e) = cond_ok e.
Proof. now destruct e. Qed.
Lemma rhs_ok_cmap e : rhs_ok (cmap f e) = rhs_ok e.
Proof. now destruct e as [| | |[]| | | | |]. Qed.
Ltac am e := induction e using expr_ind'; cbn; auto; try congruence;
  rewrite flat_map_map; now apply flat_map_ext_Forall.
Lemma refs_cmap e : refs (cmap f e) = refs e. Proof. am e. Qed.
Lemma drefs_cmap e : drefs (cmap f e) = drefs e. Proof. am e. Qed.
Lemma writes_cmap e : writes (cmap f e) = writes e. Proof. am e. Qed.
Lemma eqw_cmap e : eqw (cmap f e) = eqw e. Proof. am e. Qed.
Lemma opw_cmap e : opw (cmap f e) = opw e. Proof. am e. Qed.
Lemma wfs_cmap e : wfs (cmap f e) = wfs e.
Proof.
  induction e using expr_ind'; cbn [cmap wfs]; rewrite ?shape_of_cmap, ?shapes_cmap,
    ?gettable_cmap, ?cond_ok_cmap, ?rhs_ok_cmap, ?is_const_cmap, ?map_length; auto; try congruence.
  - rewrite !forallb_map, (forallb_ext_Forall (fun x => wfs (cmap f x)) wfs) by assumption.
    rewrite (forallb_ext_Forall (fun x => gettable (cmap f x)) gettable); auto.
    apply Forall_forall; intros; apply gettable_cmap.
  - rewrite forallb_map, existsb_map, (forallb_ext_Forall (fun x => wfs (cmap f x)) wfs)
      by assumption.
    f_equal.
    + do 2 f_equal. clear; induction es; cbn; rewrite ?is_const_cmap; congruence.
    + destruct es as [|y es]; auto.
      change (gettable (last (map (cmap f) (y :: es)) (EVar scl 0)) =
              gettable (last (y :: es) (EVar scl 0))).
      rewrite last_map with (d := EVar scl 0) by discriminate. apply gettable_cmap.
Qed.
Lemma later_cmap (g : expr T A -> list nat) (g' : expr T' A -> list nat) es :
  (forall e, g' (cmap f e) = g e) -> later g' (map (cmap f) es) = later g es.
Proof.
  intros HG. induction es as [|y l IH]; cbn; auto. rewrite IH. f_equal. rewrite refs_cmap. f_equal.
  clear IH. induction l; cbn; auto. now rewrite HG, IHl.
Qed.
Lemma disc_cmap e : disc (cmap f e) = disc e.
Proof.
  induction e using expr_ind'; cbn [cmap disc];
    rewrite ?writes_cmap, ?refs_cmap, ?opw_cmap, ?eqw_cmap, ?shape_of_cmap, ?shapes_cmap; auto; try congruence.
  - rewrite forallb_map, (forallb_ext_Forall (fun x => disc (cmap f x)) disc) by assumption.
    rewrite (later_cmap writes writes) by (intros; apply writes_cmap).
    rewrite forallb_map, (forallb_ext_Forall (fun x => nilb (writes (cmap f x))) (fun x => nilb (writes x)))
      by (apply Forall_forall; intros; now rewrite writes_cmap).
    do 2 f_equal. destruct es as [|y l]; [reflexivity|]. cbn [map tl].
    rewrite forallb_map. apply forallb_ext_Forall. apply Forall_forall; intros; now rewrite opw_cmap.
  - rewrite forallb_map, (forallb_ext_Forall (fun x => disc (cmap f x)) disc) by assumption.
    rewrite (later_cmap eqw eqw) by (intros; apply eqw_cmap). reflexivity.
Qed.
End Cmap.
Lemma cmap_id {T A} (e : expr T A) : cmap (fun x => x) e = e.
Proof.
  induction e using expr_ind'; cbn; try congruence; f_equal; try apply map_id; auto.
  - rewrite <- (map_id es) at 2. now apply map_ext_Forall.
  - rewrite <- (map_id es) at 2. now apply map_ext_Forall.
Qed.
Lemma ctor_arith {N : num} (e : expr N unit) : arithx e = true -> ctor_ok e = true.
Proof.
  induction e using expr_ind'; cbn [arithx ctor_ok]; auto; intros HA; try discriminate.
  - apply andb_true_iff in HA. destruct HA as [HK HA]. apply andb_true_iff. split.
    + rewrite forallb_forall in *. rewrite Forall_forall in H. auto.
    + destruct k; try discriminate HK; destruct es as [|? [|? [|? [|]]]]; reflexivity.
  - apply andb_true_iff in HA. destruct HA. now rewrite IHe1, IHe2.
  - rewrite forallb_forall in *. rewrite Forall_forall in H. auto.
Qed.
Lemma arithx_cmap {T T' A} (f : T -> T') (e : expr T A) : arithx (cmap f e) = arithx e.
Proof.
  induction e using expr_ind'; cbn [cmap arithx]; auto; try congruence.
  - now rewrite forallb_map, (forallb_ext_Forall (fun x => arithx (cmap f x)) arithx).
  - now rewrite forallb_map, (forallb_ext_Forall (fun x => arithx (cmap f x)) arithx).
Qed.
Lemma arithx_amap {T A B} (f : A -> B) (e : expr T A) : arithx (amap f e) = arithx e.
Proof.
  induction e using expr_ind'; cbn [amap arithx]; auto; try congruence.
  - now rewrite forallb_map, (forallb_ext_Forall (fun x => arithx (amap f x)) arithx).
  - now rewrite forallb_map, (forallb_ext_Forall (fun x => arithx (amap f x)) arithx).
Qed.
Lemma prod_arithx {N : num} (e : expr N (ann N)) : forall t, arithx e = true -> prod_ok e t.
Proof.
  induction e using expr_ind'; intros t; cbn [arithx prod_ok]; auto; intros HA; try discriminate.
  - apply andb_true_iff in HA. destruct HA as [HK HA]. split; [destruct k; auto; discriminate|].
    revert HA. generalize (nts t). induction H as [|y l HY H IH]; intros [|ty ts] HA; auto.
    cbn [forallb] in HA. apply andb_true_iff in HA. destruct HA as [H1 H2]. split; [now apply HY|now apply IH].
  - destruct (nts t) as [|x [|]]; auto.
  - destruct (nts t) as [|x [|]]; auto.
  - apply andb_true_iff in HA. destruct HA. destruct (nts t) as [|x [|y [|]]]; auto.
  - revert HA. generalize (nts t). induction H as [|y l HY H IH]; intros [|ty ts] HA; auto.
    cbn [forallb] in HA. apply andb_true_iff in HA. destruct HA as [H1 H2]. split; [now apply HY|now apply IH].
Qed.

Lemma ER_cmap {C : Type} {N1 N2 : num} (R : N1 -> N2 -> Prop) (f : C -> N1) (g : C -> N2) (HC : forall c, R (f c) (g c))
    (u : expr C unit) : forall e e', arithx u = true -> er e = cmap f u -> er e' = cmap g u -> ER R e e'.
Proof.
  assert (LS : forall us, Forall (fun u : expr C unit => forall e e', arithx u = true -> er e = cmap f u -> er e' = cmap g u -> ER R e e') us ->
    forall es es', forallb arithx us = true -> map er es = map (cmap f) us -> map er es' = map (cmap g) us -> Forall2 (ER R) es es').
  { induction 1 as [|v us HU H IH]; intros [|e es] [|e' es'] HA Q1 Q2; try discriminate; [constructor|].
    cbn [forallb] in HA. apply andb_true_iff in HA. destruct HA as [H1 H2]. inversion Q1; inversion Q2. constructor; auto. }
  induction u using expr_ind'; intros e e' HA Q1 Q2; destruct e; try discriminate Q1; destruct e'; try discriminate Q2;
    unfold er in Q1, Q2; cbn [amap cmap] in Q1, Q2; cbn [arithx] in HA.
  - inversion Q1; inversion Q2; subst. cbn [ER]. auto.
  - inversion Q1; inversion Q2; subst. cbn [ER]. split; [reflexivity|]. apply F2_maps. auto.
  - inversion Q1; inversion Q2; subst. cbn [ER]. auto.
  - inversion Q1 as [[K1 L1]]. inversion Q2 as [[K2 L2]]. apply andb_true_iff in HA. destruct HA as [HK HA].
    cbn [ER]. split; [reflexivity|]. split; [exact HK|]. apply ER_list. eapply LS; eauto.
  - inversion Q1; inversion Q2; subst. cbn [ER]. auto.
  - inversion Q1; inversion Q2; subst. cbn [ER]. auto.
  - inversion Q1; inversion Q2; subst. apply andb_true_iff in HA. destruct HA. cbn [ER]. auto.
  - inversion Q1 as [[K1 L1]]. inversion Q2 as [[K2 L2]].
    cbn [ER]. split; [reflexivity|]. apply ER_list. eapply LS; eauto.
  - discriminate.
Qed.

Lemma used_inv {N : num} (LL : la_len N) cv ca (v : expr N unit) e m : wfs v = true -> used cv ca v e m ->
  fresh cv ca /\ exists kv ka, inv cv ca v kv ka e m.
Proof.
  intros HW [m0 [uv [ua [e0 [m1 [ops [F [HV [HB [HO HR]]]]]]]]]]. split; [exact F|].
  destruct (inv_bound LL cv ca F v m0 uv ua e0 m1 HW HV HB) as [HI _].
  destruct (run_ok LL cv ca F v _ _ ops HO e0 m1 HI) as [e1 [m2 [R1 I1]]]. rewrite R1 in HR. inversion HR; subst. eauto.
Qed.
Section Two.
Context {C : Type} {N1 N2 : num}.
Variables (LL1 : la_len N1) (LL2 : la_len N2).
Variable R : N1 -> N2 -> Prop.
Hypothesis HP : prel R.
Let R0 := pr_0 R HP.
Variables (f : C -> N1) (g : C -> N2).
Hypothesis HC : forall c, R (f c) (g c).
Variables bv ba bv' ba' : nat.
Hypothesis HF : fresh bv ba.
Hypothesis HF' : fresh bv' ba'.
Variable u : expr C unit.
Hypothesis HA : arithx u = true.
Hypothesis HD : disc u = true.
Notation crel := (crel R).
Notation mrel := (mrel R u).
Definition msk {N : num} (l : list nat) (m : mem N) (b : nat) : nat -> N :=
  fun o => if existsb (Nat.eqb o) l then renv m b o else n0 N.
Lemma msk_in {N : num} l (m : mem N) b o : In o l -> msk l m b o = renv m b o.
Proof. intros H. unfold msk. replace (existsb _ l) with true; [reflexivity|]. symmetry. apply existsb_exists. exists o. split; [exact H|apply Nat.eqb_refl]. Qed.
Lemma msk_rel l (m : mem N1) (m' : mem N2) b : (forall o, In o l -> crel (m b o) (m' b o)) -> er_env R (msk l m b) (msk l m' b).
Proof.
  intros H o. unfold msk. destruct (existsb _ l) eqn:Q; [|exact R0]. apply existsb_exists in Q. destruct Q as [x [Q1 Q2]].
  apply Nat.eqb_eq in Q2. subst x. destruct (H o Q1) as [x [y [E1 [E2 E3]]]]. unfold renv. now rewrite E1, E2.
Qed.
Lemma msk_MR {N : num} (v : expr N unit) (m : mem N) l l' : avail v m -> refs v = l -> drefs v = l' ->
  MR (vset v) (wset v) (msk l' m 4) m (msk l m 0) (msk l m 1).
Proof.
  intros HV <- <-. destruct (MR_renv v m HV) as [Q1 Q2]. split.
  - intros o Ho. rewrite !msk_in by exact Ho. now apply Q1.
  - intros o Ho. rewrite msk_in by exact Ho. now apply Q2.
Qed.
Lemma two_eval cv ca cv' ca' e e' m m' : inv bv ba (cmap f u) cv ca e m -> inv bv' ba' (cmap g u) cv' ca' e' m' -> mrel m m' ->
  exists e1 m1 v e1' m1' v', evaluate e m = Ok (e1, m1, v) /\ evaluate e' m' = Ok (e1', m1', v') /\
    Forall2 R v v' /\ mrel m1 m1'.
Proof.
  intros HI HI' [HM1 HM2].
  assert (HV : avail (cmap f u) m) by apply HI. assert (HV' : avail (cmap g u) m') by apply HI'.
  pose proof (msk_MR _ m (refs u) (drefs u) HV (refs_cmap f u) (drefs_cmap f u)) as M1.
  pose proof (msk_MR _ m' (refs u) (drefs u) HV' (refs_cmap g u) (drefs_cmap g u)) as M2.
  assert (D1 : disc (cmap f u) = true) by now rewrite disc_cmap.
  assert (D2 : disc (cmap g u) = true) by now rewrite disc_cmap.
  destruct (tf (msk (drefs u) m 4) e (msk (refs u) m 0)) as [t r] eqn:T1.
  destruct (tf (msk (drefs u) m' 4) e' (msk (refs u) m' 0)) as [t' r'] eqn:T2.
  destruct (top_eval LL1 bv ba HF _ cv ca e m _ _ _ t r HI D1 M1 T1) as [e1 [m1 [A1 [A2 [A3 _]]]]].
  destruct (top_eval LL2 bv' ba' HF' _ cv' ca' e' m' _ _ _ t' r' HI' D2 M2 T2) as [e1' [m1' [B1 [B2 [B3 _]]]]].
  assert (HE : ER R e e') by (eapply ER_cmap; [exact HC|exact HA|apply HI|apply HI']).
  destruct (pf_r R HP _ _ (msk_rel _ _ _ _ HM2) e e' _ _ _ _ _ _ HE
    (msk_rel _ _ _ _ (fun o Ho => proj1 (HM1 o Ho))) T1 T2) as [C1 C2].
  exists e1, m1, (nv t), e1', m1', (nv t'). split; [exact A1|]. split; [exact B1|]. split; [now apply tr_nv|].
  destruct A3 as [A3 A4], B3 as [B3 B4]. split.
  - intros o Ho. destruct (A3 o) as [A5 A6]; [unfold vset; now rewrite refs_cmap|].
    destruct (B3 o) as [B5 B6]; [unfold vset; now rewrite refs_cmap|]. split.
    + exists (r o), (r' o). auto.
    + eexists. eexists. split; [exact A6|]. split; [exact B6|]. apply msk_rel. intros; now apply HM1.
  - intros o Ho. eexists. eexists. split; [apply A4; unfold wset; now rewrite drefs_cmap|].
    split; [apply B4; unfold wset; now rewrite drefs_cmap|]. now apply msk_rel.
Qed.
Lemma two_diff cv ca cv' ca' e e' m m' s s' : inv bv ba (cmap f u) cv ca e m -> inv bv' ba' (cmap g u) cv' ca' e' m' -> mrel m m' ->
  length s = size (shape_of u) -> Forall2 R s s' ->
  exists e1 m1 v e1' m1' v', autodiff e s m = Ok (e1, m1, v) /\ autodiff e' s' m' = Ok (e1', m1', v') /\
    Forall2 R v v' /\ forall o, In o (refs u) -> crel (m1 1 o) (m1' 1 o) /\
      (~ In o (eqw u) \/ opw u = [] -> crel (m1 0 o) (m1' 0 o)).
Proof.
  intros HI HI' [HM1 HM2] HL HS.
  assert (HV : avail (cmap f u) m) by apply HI. assert (HV' : avail (cmap g u) m') by apply HI'.
  pose proof (msk_MR _ m (refs u) (drefs u) HV (refs_cmap f u) (drefs_cmap f u)) as M1.
  pose proof (msk_MR _ m' (refs u) (drefs u) HV' (refs_cmap g u) (drefs_cmap g u)) as M2.
  assert (D1 : disc (cmap f u) = true) by now rewrite disc_cmap.
  assert (D2 : disc (cmap g u) = true) by now rewrite disc_cmap.
  assert (AE : arithx e = true).
  { rewrite <- (arithx_amap (fun _ => tt) e). change (amap (fun _ => tt) e) with (er e).
    replace (er e) with (cmap f u) by (symmetry; apply HI). now rewrite arithx_cmap. }
  assert (AE' : arithx e' = true).
  { rewrite <- (arithx_amap (fun _ => tt) e'). change (amap (fun _ => tt) e') with (er e').
    replace (er e') with (cmap g u) by (symmetry; apply HI'). now rewrite arithx_cmap. }
  destruct (tf (msk (drefs u) m 4) e (msk (refs u) m 0)) as [t r] eqn:T1.
  destruct (tf (msk (drefs u) m' 4) e' (msk (refs u) m' 0)) as [t' r'] eqn:T2.
  destruct (top_diff LL1 bv ba HF _ cv ca e m _ _ _ t r s HI D1 M1 T1 (prod_arithx e t AE) ltac:(now rewrite shape_of_cmap))
    as [e1 [m1 [r2 [A1 [A2 [A3 [_ [_ [A7 A8]]]]]]]]].
  destruct (top_diff LL2 bv' ba' HF' _ cv' ca' e' m' _ _ _ t' r' s' HI' D2 M2 T2 (prod_arithx e' t' AE')
    ltac:(rewrite shape_of_cmap, <- (F2_len _ _ _ HS); exact HL))
    as [e1' [m1' [r2' [B1 [B2 [B3 [_ [_ [B7 B8]]]]]]]]].
  assert (HE : ER R e e') by (eapply ER_cmap; [exact HC|exact HA|apply HI|apply HI']).
  destruct (pf_r R HP _ _ (msk_rel _ _ _ _ HM2) e e' _ _ _ _ _ _ HE
    (msk_rel _ _ _ _ (fun o Ho => proj1 (HM1 o Ho))) T1 T2) as [C1 C2].
  pose proof (pb_r R HP e e' t t' s s' _ _ HE C1 HS
    (msk_rel _ _ _ _ (fun o Ho => proj2 (HM1 o Ho)))) as C3.
  exists e1, m1, (nv t), e1', m1', (nv t'). split; [exact A1|]. split; [exact B1|]. split; [now apply tr_nv|].
  destruct A3 as [A3 A4], B3 as [B3 B4].
  intros o Ho. destruct (A3 o) as [A5 A6]; [unfold vset; now rewrite refs_cmap|].
  destruct (B3 o) as [B5 B6]; [unfold vset; now rewrite refs_cmap|]. split.
  - eexists. eexists. split; [exact A6|]. split; [exact B6|]. apply C3.
  - intros Q. exists (r2 o), (r2' o). split; [exact A5|]. split; [exact B5|].
    destruct Q as [Q|Q].
    + rewrite A7, B7 by (now rewrite eqw_cmap). apply msk_rel. intros; now apply HM1.
    + rewrite A8, B8 by (now rewrite opw_cmap). apply C2.
Qed.

End Two.
Section Used.
Context {C : Type} {N1 N2 : num}.
Variables (LL1 : la_len N1) (LL2 : la_len N2).
Variable R : N1 -> N2 -> Prop.
Hypothesis HP : prel R.
Variables (f : C -> N1) (g : C -> N2).
Hypothesis HC : forall c, R (f c) (g c).
Variables (bv ba bv' ba' : nat) (u : expr C unit).
Hypothesis HA : arithx u = true.
Hypothesis HW : wfs u = true.
Hypothesis HD : disc u = true.
Lemma par_eval e e' m m' : used bv ba (cmap f u) e m -> used bv' ba' (cmap g u) e' m' -> mrel R u m m' ->
  exists e1 m1 v e1' m1' v', evaluate e m = Ok (e1, m1, v) /\ evaluate e' m' = Ok (e1', m1', v') /\
    Forall2 R v v' /\ mrel R u m1 m1'.
Proof.
  intros U1 U2 HM. destruct (used_inv LL1 bv ba (cmap f u) _ _ (eq_trans (wfs_cmap f u) HW) U1) as [F1 [kv [ka I1]]].
  destruct (used_inv LL2 bv' ba' (cmap g u) _ _ (eq_trans (wfs_cmap g u) HW) U2) as [F2 [kv' [ka' I2]]].
  exact (two_eval LL1 LL2 R HP f g HC bv ba bv' ba' F1 F2 u HA HD kv ka kv' ka' e e' m m' I1 I2 HM).
Qed.
Lemma par_diff e e' m m' s s' : used bv ba (cmap f u) e m -> used bv' ba' (cmap g u) e' m' -> mrel R u m m' ->
  length s = size (shape_of u) -> Forall2 R s s' ->
  exists e1 m1 v e1' m1' v', autodiff e s m = Ok (e1, m1, v) /\ autodiff e' s' m' = Ok (e1', m1', v') /\
    Forall2 R v v' /\ forall o, In o (refs u) -> crel R (m1 1 o) (m1' 1 o) /\
      (~ In o (eqw u) \/ opw u = [] -> crel R (m1 0 o) (m1' 0 o)).
Proof.
  intros U1 U2 HM HL HS. destruct (used_inv LL1 bv ba (cmap f u) _ _ (eq_trans (wfs_cmap f u) HW) U1) as [F1 [kv [ka I1]]].
  destruct (used_inv LL2 bv' ba' (cmap g u) _ _ (eq_trans (wfs_cmap g u) HW) U2) as [F2 [kv' [ka' I2]]].
  exact (two_diff LL1 LL2 R HP f g HC bv ba bv' ba' F1 F2 u HA HD kv ka kv' ka' e e' m m' s s' I1 I2 HM HL HS).
Qed.
End Used.
