(** Over the reals, what autodiff leaves in the variables is real, at cells
    assigned by = too. *)
From Coq Require Import Reals Lra FunctionalExtensionality.
From Coquelicot Require Import Coquelicot.
From Verif Require Import Base Num Expr Node Stat Machine Wf Pure LBase LKind LSimDef LMem LSimF LSimB LBind Session LUser
  Tape LTape LState LNrm LTop LRest XR Spec RSess LReal LScal LKA LKB LVal LGrad LDiff.
Open Scope R_scope.
Set Bullet Behavior "Strict Subproofs".

Section RestR.
Variable la : linalg xr.
Notation N := (XR la).
Notation E := (expr xr (ann N)).
Notation U := (expr xr unit).
Notation liftE := (liftE la).
Definition isfin (x : xr) : Prop := exists v : R, x = Fin v.
Lemma isfin_map l : Forall isfin (map Fin l).
Proof. apply Forall_forall. intros x H. apply in_map_iff in H. destruct H as [v [<- _]]. now exists v. Qed.

Section RQ.
Variable D : nat -> R.
Notation DX := (liftE D).
Hypothesis HKV : forall k, KV la k.
Notation RQf := (@RQ N isfin).
Definition LQ (e : E) : Prop := forall u rho t r', wfs e = true -> sg la D e -> dom D false u e rho ->
  @tf N DX e (liftE rho) = (t, r') -> RQf e t.
Lemma LQs es : Forall LQ es -> forall rho ts r', forallb wfs es = true -> sgs la D es -> domq la D es rho ->
  @tfs N DX es (liftE rho) = (ts, r') -> @RQs N isfin es ts.
Proof.
  induction 1 as [|y l HY H IH]; intros rho ts r' HW HG HD HE.
  - cbn in HE. inversion HE; subst. exact I.
  - cbn [tfs] in HE. cbn [forallb] in HW. apply andb_true_iff in HW. destruct HW as [W1 W2]. destruct HG as [G1 G2]. destruct HD as [[u D1] D2].
    destruct (@tf N DX y (liftE rho)) as [t1 r1] eqn:E1.
    destruct (LV_all la D HKV y u rho t1 r1 W1 G1 D1 E1) as [_ ->].
    fold (@tfs N DX) in HE. destruct (@tfs N DX l (liftE (fin_env D y rho))) as [ts2 r2] eqn:E2. inversion HE; subst.
    split; [eapply HY; eauto|eapply IH; eauto].
Qed.
Lemma LQ_all e : LQ e.
Proof.
  induction e using expr_ind'; intros u rho t r' HW HG HD HE;
    match goal with HE : tf _ ?e _ = _ |- _ =>
      pose proof (LV_all la D HKV e u rho t r' HW HG HD HE) as [VV _] end;
    assert (FV : Forall isfin (nv t)) by (change (carrier N) with xr in *; rewrite VV; apply isfin_map); clear VV.
  - split; [exact FV|exact I].
  - split; [exact FV|exact I].
  - split; [exact FV|exact I].
  - split; [exact FV|]. rewrite tfx_comp in HE. rewrite sg_comp in HG. rewrite dom_comp in HD. destruct HG as [G1 G2]. destruct HD as [D1 D2].
    cbn [wfs] in HW. rewrite !andb_true_iff in HW. destruct HW as [[[W1 W2] W3] W4].
    destruct (@tfs N DX es (liftE rho)) as [ts r1] eqn:E1.
    pose proof (LQs es H rho ts r1 W1 G2 (domq_s la D _ _ _ _ _ D1) E1) as P1.
    destruct (kf _ _ _ _ _) as [s' v]. inversion HE; subst t r'. exact P1.
  - split; [exact FV|]. cbn [tf] in HE. cbn [wfs] in HW. rewrite !andb_true_iff in HW. destruct HW as [[[W1 W2] W3] W4].
    destruct (@tf N DX e (liftE rho)) as [t1 r1] eqn:E1. inversion HE; subst. cbn [nts]. intros ty X. inversion X; subst. eapply IHe; eauto.
  - split; [exact FV|]. cbn [tf] in HE. cbn [wfs] in HW. rewrite !andb_true_iff in HW. destruct HW as [[[W1 W2] W3] W4]. destruct HD as [D1 D2].
    destruct (@tf N DX e (liftE rho)) as [t1 r1] eqn:E1. destruct (LV_all la D HKV e _ _ _ _ W1 HG D1 E1) as [_ ->].
    inversion HE; subst. cbn [nts no]. split; [rewrite rdv_lift; apply isfin_map|]. intros ty X. inversion X; subst. eapply IHe; eauto.
  - split; [exact FV|]. cbn [tf] in HE. cbn [wfs] in HW. rewrite !andb_true_iff in HW. destruct HW as [[[W1 W2] W3] W4].
    destruct HG as [G1 G2]. destruct HD as [D1 D2].
    destruct (@tf N DX e1 (liftE rho)) as [t1 r1] eqn:E1. destruct (LV_all la D HKV e1 _ _ _ _ W1 G1 D1 E1) as [_ ->].
    destruct (@tf N DX e2 (liftE (fin_env D e1 rho))) as [t2 r2] eqn:E2.
    inversion HE; subst. cbn [nts]. intros tl tr X. inversion X; subst. split; [eapply IHe1|eapply IHe2]; eauto.
  - split; [exact FV|]. rewrite tfx_for in HE. rewrite sg_for in HG. rewrite dom_for in HD.
    cbn [wfs] in HW. rewrite !andb_true_iff in HW. destruct HW as [[[W1 W2] W3] W4].
    destruct (@tfs N DX es (liftE rho)) as [ts r1] eqn:E1. inversion HE; subst.
    exact (LQs es H rho ts r' W1 HG (domq_f la D _ _ _ _ HD) E1).
  - split; [exact FV|]. cbn [tf] in HE. cbn [wfs] in HW. rewrite !andb_true_iff in HW. destruct HW as [[[[[W1 W2] W3] W4] W5] W6].
    destruct HG as [G1 [G2 G3]]. destruct HD as [D1 [_ D2]].
    destruct (@tf N DX e1 (liftE rho)) as [t1 r1] eqn:E1. destruct (LV_all la D HKV e1 _ _ _ _ W1 G1 D1 E1) as [V1 ->].
    assert (NT : ntrue N (hd0 N (nv t1)) = negb (reqb (el (val D e1 rho) 0) 0)).
    { rewrite V1. unfold ntrue, hd0. destruct (val D e1 rho); reflexivity. }
    rewrite NT in HE. destruct (reqb (el (val D e1 rho) 0) 0) eqn:EC; cbn [negb] in HE.
    + destruct (@tf N DX e3 (liftE (fin_env D e1 rho))) as [t2 r2] eqn:E2. inversion HE; subst. cbn [nts].
      intros tc tb X. inversion X; subst. rewrite NT. cbn [negb]. eapply IHe3; eauto.
    + destruct (@tf N DX e2 (liftE (fin_env D e1 rho))) as [t2 r2] eqn:E2. inversion HE; subst. cbn [nts].
      intros tc tb X. inversion X; subst. rewrite NT. cbn [negb]. eapply IHe2; eauto.
Qed.
End RQ.

Section Main.
Hypothesis LL : la_len N.
Hypothesis HKV : forall k, KV la k.
Variables bv ba : nat.
Lemma diff_real (u : U) D (e1 : E) m1 rho al d b seed e2 m2 v : okexpr la u -> session la bv ba u D e1 m1 ->
  mreal la u m1 D rho al -> dom D d b u rho -> length seed = size (shape_of u) ->
  @autodiff N e1 (map Fin seed) m1 = Ok (e2, m2, v) ->
  forall o, In o (refs u) -> exists x : R, m2 0%nat o = Some (Fin x).
Proof.
  intros HK HS HM HD HL HA o Ho. destruct (session_inv la LL bv ba u D e1 m1 HK HS) as [cv [ca [HF [HI [HG [HW HE]]]]]].
  assert (HD' : dom D d b e1 rho) by (rewrite <- HE in HD; unfold er in HD; now apply dom_amap in HD).
  apply dom_mono in HD'. change (carrier N) with xr in *.
  destruct (@tf N (liftE D) e1 (liftE rho)) as [t r'] eqn:ET.
  destruct (LV_all la D HKV e1 b rho t r' HW HG HD' ET) as [V1 ->].
  destruct (top_rest LL bv ba HF u cv ca e1 m1 (liftE D) (liftE rho) (liftE al) t _ (map Fin seed) HI (proj1 (proj2 HK)) HM ET
    ltac:(rewrite map_length; exact HL)) as [e3 [m3 [r2 [al2 [Q1 [Q2 [Q3 [Q4 [Q5 [Q6 Q7]]]]]]]]]].
  change (carrier N) with xr in *. rewrite HA in Q1. inversion Q1; subst e3 m3 v. destruct Q3 as [Q3 _]. destruct (Q3 o Ho) as [Z _].
  destruct (Q7 isfin) with (o := o) as [x X].
  - now exists 1.
  - intros y z [vy ->] [vz ->]. exists (vy * vz). reflexivity.
  - exact (LQ_all D HKV e1 b rho t _ HW HG HD' ET).
  - intros i. unfold liftE. eexists; reflexivity.
  - exists x. rewrite Z. now f_equal.
Qed.
End Main.
End RestR.
