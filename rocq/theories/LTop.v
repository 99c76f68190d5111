(** The captured-value evaluators at the level of client code. *)
From Verif Require Import Base Num Expr Node Stat Machine Wf Pure LBase LKind LSimDef LMem LSimF LSimB LBind
  Session LUser Tape LTape LState LNrm.

Section Strip.
Context {N : num}.
Notation T := (carrier N).
Notation E := (expr T (ann N)).
Notation env := (nat -> T).

(** ** Backward evaluation does not look at annotations *)
Lemma pb_strip (e : E) : forall x t s r a, pb x (strip e) t s r a = pb x e t s r a.
Proof.
  induction e using expr_ind'; intros x t s0 r a0; try reflexivity.
  - change (strip (EComp k a es)) with (EComp k (set_st a (sst0 N)) (map strip es)).
    destruct es as [|y0 l0]; [reflexivity|].
    rewrite !pb_comp by discriminate. cbv zeta.
    assert (SS : map shape_of (map strip (y0 :: l0)) = map shape_of (y0 :: l0)) by apply shapes_amap.
    assert (SC : map is_const (map strip (y0 :: l0)) = map is_const (y0 :: l0)) by (rewrite map_map; apply map_ext; intros []; reflexivity).
    rewrite SS, SC. generalize (map shape_of (y0 :: l0)) (map is_const (y0 :: l0)). intros ss cs.
    match goal with |- match ?A with _ => _ end = match ?B with _ => _ end => assert (X : A = B); [|now rewrite X] end.
    match goal with |- pgo _ _ _ _ _ _ _ ?P _ _ _ _ _ = _ => generalize P end.
    generalize (tts t), r, (if kadj k then wx x a0 s0 else a0), (@nil (pref N)).
    clear SS SC. revert H. generalize (y0 :: l0). clear. intros l H ts0 r0 a1 pre0 P0. revert ts0 r0 a1 pre0.
    induction H as [|y l HY H IH]; intros ts r a1 pre; [reflexivity|].
    destruct ts as [|ty ts]; [reflexivity|]. cbn [pgo map]. 
    change ((pgo k (size (kshape k ss)) ss cs s0 x t P0) (pre ++ [tp ty]) (map strip l) ts r a1)
      with (pgo k (size (kshape k ss)) ss cs s0 x t P0 (pre ++ [tp ty]) (map strip l) ts r a1).
    rewrite IH. destruct (pgo _ _ _ _ _ _ _ _ _ l _ _ _) as [[[qs f] r1] a2].
    destruct (if klazy k ss then _ else _) as [[vs fv] ad].
    destruct (match kpre k (length pre) vs fv with None => _ | _ => _ end) as [[f2 r2] fv2].
    destruct (kseed _ _ _ _ _ _ _ _); [|reflexivity]. now rewrite HY.
  - change (strip (EEq a sh o e)) with (EEq (set_st a (sst0 N)) sh o (strip e)). cbn [pb shape_of].
    destruct (tts t) as [|ty [|]]; auto. now rewrite IHe.
  - change (strip (EOpEq q a sh o e)) with (EOpEq q (set_st a (sst0 N)) sh o (strip e)). cbn [pb shape_of].
    destruct (tts t) as [|ty [|]]; auto. rewrite IHe. unfold strip. now rewrite shape_of_amap.
  - change (strip (EGlue a e1 e2)) with (EGlue (set_st a (sst0 N)) (strip e1) (strip e2)). cbn [pb shape_of].
    destruct (tts t) as [|ty [|tz [|]]]; auto. rewrite IHe2. destruct (pb None e2 tz s0 r a0) as [[q r1] a1].
    rewrite IHe1. unfold strip. now rewrite !shape_of_amap.
  - change (strip (EFor a s es)) with (EFor (set_st a (sst0 N)) s (map strip es)). rewrite !pb_for.
    assert (SS : map shape_of (map strip es) = map shape_of es) by apply shapes_amap. rewrite SS.
    match goal with |- match ?A with _ => _ end = match ?B with _ => _ end => assert (X : A = B); [|now rewrite X] end.
    generalize (tts t), r, a0. clear SS. generalize (tp t). intros d.
    induction H as [|y l HY H IH]; intros ts r1 a1; [reflexivity|].
    destruct ts as [|ty ts]; [reflexivity|]. destruct l as [|z l]; [cbn; apply HY|].
    change (pfgo d s0 (map strip (y :: z :: l)) (ty :: ts) r1 a1) with
     (let '(q, r1, a1) := pfgo d s0 (map strip (z :: l)) ts r1 a1 in
       let '(_, r2, a2) := pb None (strip y) ty (repeat (n0 N) (size (shape_of (strip y)))) r1 a1 in (q, r2, a2)).
    rewrite IH. change (pfgo d s0 (y :: z :: l) (ty :: ts) r1 a1) with
     (let '(q, r1, a1) := pfgo d s0 (z :: l) ts r1 a1 in
       let '(_, r2, a2) := pb None y ty (repeat (n0 N) (size (shape_of y))) r1 a1 in (q, r2, a2)).
    destruct (pfgo d s0 (z :: l) ts r1 a1) as [[q r2] a2]. rewrite HY. unfold strip. now rewrite shape_of_amap.
  - change (strip (EIf a e1 e2 e3)) with (EIf (set_st a (sst0 N)) (strip e1) (strip e2) (strip e3)). cbn [pb].
    destruct (tts t) as [|ty [|tz [|]]]; auto. now rewrite IHe2, IHe3.
Qed.
Lemma pb_same (e e' : E) x t s r a : strip e' = strip e -> pb x e' t s r a = pb x e t s r a.
Proof. intros H. now rewrite <- (pb_strip e'), <- (pb_strip e), H. Qed.
End Strip.

(** ** [disc] and friends ignore annotations *)
Section Amap.
Context {T A B : Type} (f : A -> B).
Notation am := (amap (T := T) f).
Lemma later_amap (g : expr T A -> list nat) (g' : expr T B -> list nat) es :
  (forall e, g' (am e) = g e) -> later g' (map am es) = later g es.
Proof.
  intros HG. induction es as [|y l IH]; cbn; auto. rewrite IH. f_equal. rewrite refs_amap. f_equal.
  clear IH. induction l; cbn; auto. now rewrite HG, IHl.
Qed.
Lemma forallb_map {X Y} (h : X -> Y) p l : forallb p (map h l) = forallb (fun x => p (h x)) l.
Proof. induction l; cbn; congruence. Qed.
Lemma opw_amap (e : expr T A) : opw (am e) = opw e.
Proof.
  induction e using expr_ind'; cbn; auto; try congruence.
  - induction H; cbn; auto. congruence.
  - induction H; cbn; auto. congruence.
Qed.
Lemma eqw_amap' (e : expr T A) : eqw (am e) = eqw e.
Proof.
  induction e using expr_ind'; cbn; auto; try congruence.
  - induction H; cbn; auto. congruence.
  - induction H; cbn; auto. congruence.
Qed.
Lemma forallb_extF {X} (p q : X -> bool) l : Forall (fun x => p x = q x) l -> forallb p l = forallb q l.
Proof. induction 1; cbn; congruence. Qed.
Lemma disc_amap (e : expr T A) : disc (am e) = disc e.
Proof.
  induction e using expr_ind'; try reflexivity.
  - cbn [amap disc]. rewrite forallb_map, (later_amap writes) by (intros; apply writes_amap).
    rewrite (forallb_extF _ disc es) by exact H.
    rewrite shapes_amap, forallb_map. f_equal; [f_equal|].
    + f_equal. apply forallb_extF, Forall_forall. intros. now rewrite writes_amap.
    + f_equal. destruct es as [|y l]; [reflexivity|]. cbn [tl map]. rewrite forallb_map.
      apply forallb_extF, Forall_forall. intros. now rewrite opw_amap.
  - cbn [amap disc]. now rewrite IHe, refs_amap.
  - cbn [amap disc]. now rewrite IHe, writes_amap, opw_amap, shape_of_amap.
  - cbn [amap disc]. now rewrite IHe1, IHe2, refs_amap, eqw_amap'.
  - cbn [amap disc]. rewrite forallb_map, (later_amap eqw) by apply eqw_amap'.
    now rewrite (forallb_extF _ disc es) by exact H.
  - cbn [amap disc]. now rewrite IHe1, IHe2, IHe3, refs_amap, !eqw_amap', writes_amap.
Qed.
End Amap.

Section Top.
Context {N : num}.
Notation T := (carrier N).
Notation E := (expr T (ann N)).
Notation U := (expr T unit).
Notation env := (nat -> T).
Hypothesis LL : la_len N.

(** ** What forward evaluation may change *)
Lemma tfs_asg D es : Forall (fun e : E => forall r t r', wfs e = true -> tf D e r = (t, r') ->
    forall o, ~ In o (asg e t) -> ~ In o (opw e) -> r' o = r o) es ->
  forall r ts r', forallb wfs es = true -> tfs D es r = (ts, r') ->
    forall o, ~ In o (asgs es ts) -> ~ In o (flat_map opw es) -> r' o = r o.
Proof.
  induction 1 as [|y l HY H IH]; intros r ts r' HW HE o HA HO; cbn in HE.
  - inversion HE; subst. reflexivity.
  - cbn in HW. apply andb_true_iff in HW. destruct HW as [W1 W2].
    destruct (tf D y r) as [t r1] eqn:E1. destruct (tfs D l r1) as [ts2 r2] eqn:E2.
    inversion HE; subst. cbn in HA, HO. rewrite in_app_iff in HA. rewrite in_app_iff in HO.
    rewrite (IH _ _ _ W2 E2) by tauto. eapply HY; eauto.
Qed.
Lemma tf_asg D (e : E) : forall r t r', wfs e = true -> tf D e r = (t, r') ->
  forall o, ~ In o (asg e t) -> ~ In o (opw e) -> r' o = r o.
Proof.
  induction e using expr_ind'; intros r t r' HW HE o' HA HO; try (now inversion HE; subst).
  - rewrite tf_comp in HE. destruct (tfs D es r) as [ts r1] eqn:E1.
    cbn [wfs] in HW. rewrite !andb_true_iff in HW. destruct HW as [[[W1 W2] W3] W4].
    destruct (kf _ _ _ _ _) as [s' v]. inversion HE; subst. eapply (tfs_asg D es); eauto.
  - pose proof (tf_len D (EEq a sh o e) r t r' HW HE) as HL.
    cbn [wfs] in HW. rewrite !andb_true_iff in HW. destruct HW as [[[W1 W2] W3] W4].
    cbn [tf] in HE. destruct (tf D e r) as [t1 r1] eqn:E1. inversion HE; subst. cbn [asg nts opw nv shape_of] in *.
    rewrite in_app_iff, in_cells in HA. rewrite upd_out by (rewrite HL; tauto). eapply IHe; eauto.
  - pose proof (tf_len D (EOpEq q a sh o e) r t r' HW HE) as HL.
    cbn [wfs] in HW. rewrite !andb_true_iff in HW. destruct HW as [[[W1 W2] W3] W4].
    cbn [tf] in HE. destruct (tf D e r) as [t1 r1] eqn:E1. inversion HE; subst. cbn [asg nts opw nv shape_of] in *.
    rewrite in_app_iff, in_cells in HO. rewrite upd_out by (rewrite HL; tauto). eapply IHe; eauto.
  - cbn [wfs] in HW. rewrite !andb_true_iff in HW. destruct HW as [[[W1 W2] W3] W4].
    cbn [tf] in HE. destruct (tf D e1 r) as [t1 r1] eqn:E1. destruct (tf D e2 r1) as [t2 r2] eqn:E2.
    inversion HE; subst. cbn [asg nts opw] in *. rewrite in_app_iff in HA. rewrite in_app_iff in HO.
    rewrite (IHe2 _ _ _ W2 E2) by tauto. eapply IHe1; eauto.
  - rewrite tf_for in HE. destruct (tfs D es r) as [ts r1] eqn:E1.
    cbn [wfs] in HW. rewrite !andb_true_iff in HW. destruct HW as [[[W1 W2] W3] W4].
    inversion HE; subst. eapply (tfs_asg D es); eauto.
  - cbn [wfs] in HW. rewrite !andb_true_iff in HW. destruct HW as [[[[[W1 W2] W3] W4] W5] W6].
    cbn [tf] in HE. destruct (tf D e1 r) as [t1 r1] eqn:E1.
    destruct (ntrue N (hd0 N (nv t1))) eqn:EB.
    + destruct (tf D e2 r1) as [t2 r2] eqn:E2. inversion HE; subst. cbn [asg nts opw] in *. rewrite EB in HA.
      rewrite !in_app_iff in HA. rewrite !in_app_iff in HO. rewrite (IHe2 _ _ _ W2 E2) by tauto. eapply IHe1; eauto.
    + destruct (tf D e3 r1) as [t2 r2] eqn:E2. inversion HE; subst. cbn [asg nts opw] in *. rewrite EB in HA.
      rewrite !in_app_iff in HA. rewrite !in_app_iff in HO. rewrite (IHe3 _ _ _ W3 E2) by tauto. eapply IHe1; eauto.
Qed.

(** ** Normal forms through sessions *)
Lemma evaluate_nrm (e : E) m e' m' v : evaluate e m = Ok (e', m', v) -> nrm e' = nrm e.
Proof.
  unfold evaluate. intros H. apply bindR_ok in H. destruct H as [[[e1 m1] r] [H1 H]].
  apply bindR_ok in H. destruct H as [w [_ H]]. inversion H; subst. eapply feval_nrm; eauto.
Qed.
Lemma autodiff_nrm (e : E) s m e' m' v : autodiff e s m = Ok (e', m', v) -> nrm e' = nrm e.
Proof.
  unfold autodiff. intros H. apply bindR_ok in H. destruct H as [[[e1 m1] r] [H1 H]].
  apply bindR_ok in H. destruct H as [w [_ H]]. inversion H; subst. eapply evaluate_nrm; eauto.
Qed.
Lemma run_nrm ops : forall (e : E) m e' m', run ops (e, m) = Ok (e', m') -> nrm e' = nrm e.
Proof.
  induction ops as [|o l IH]; intros e m e' m' H; cbn [run] in H; [now inversion H|].
  apply bindR_ok in H. destruct H as [[e1 m1] [H1 H]]. rewrite (IH _ _ _ _ H). clear H.
  destruct o; cbn [step] in H1.
  - apply bindR_ok in H1. destruct H1 as [[[e2 m2] v] [H1 H]]. inversion H; subst. eapply evaluate_nrm; eauto.
  - apply bindR_ok in H1. destruct H1 as [[[e2 m2] v] [H1 H]]. inversion H; subst. eapply autodiff_nrm; eauto.
  - now inversion H1.
Qed.
Lemma sk_nrm (e : E) : forall e', sk e' = sk e -> nrm e' = nrm e.
Proof.
  induction e using expr_ind'; intros e' HE; destruct e'; try discriminate HE;
    unfold sk in HE; cbn [amap] in HE; inversion HE; subst; auto.
  - match goal with HH : map _ es0 = map _ es |- _ => rename HH into HM end.
    assert (X : map nrm es0 = map nrm es).
    { clear - H HM. revert es0 HM. induction H; intros [|y' es']; try discriminate; cbn; auto.
      intros HM. inversion HM. f_equal; [eapply H; eauto|eapply IHForall; eauto]. }
    cbn [nrm]. rewrite X, (nrm_consts _ _ X). congruence.
  - cbn [nrm]. f_equal. auto.
  - cbn [nrm]. f_equal. auto.
  - cbn [nrm]. f_equal; auto.
  - cbn [nrm]. f_equal.
    match goal with HH : map _ es0 = map _ es |- _ => rename HH into HM end.
    clear - H HM. revert es0 HM. induction H; intros [|y' es']; try discriminate; cbn; auto.
    intros HM. inversion HM. f_equal; [eapply H; eauto|eapply IHForall; eauto].
  - cbn [nrm]. f_equal; auto.
Qed.
Lemma bound_nrm bv ba uv ua (u : U) m e m' : wfs u = true -> bound bv ba uv ua u m = Ok (e, m') ->
  exists e0, mk u m = Ok e0 /\ nrm e = nrm e0.
Proof.
  intros HW HB. unfold bound in HB. apply bindR_ok in HB. destruct HB as [e0 [HM HB]]. exists e0. split; [exact HM|].
  destruct (mk_inv LL u m e0 HM) as [HE HS].
  assert (HW0 : wfs e0 = true) by (rewrite <- HE in HW; unfold er in HW; now rewrite wfs_amap in HW).
  unfold ad_bind in HB. pose proof (BD_all bv ba e0 0 0 HW0) as B.
  destruct (bindc bv ba e0 0 0) as [[e1 v1] a1]. destruct B as [_ [_ [_ S1]]].
  inversion HB; subst. now apply sk_nrm.
Qed.

(** ** One call *)
Variables bv ba : nat.
Hypothesis HF : fresh bv ba.

Lemma MR_pt V W D (m : mem T) r al r' al' : MR V W D m r al -> (forall o, V o -> r o = r' o) ->
  (forall o, V o -> al o = al' o) -> MR V W D m r' al'.
Proof. intros [H1 H2] Hr Ha. split; [|exact H2]. intros o Ho. rewrite <- Hr, <- Ha by auto. auto. Qed.

Lemma inv_facts u cv ca (e : E) m : inv bv ba u cv ca e m ->
  wfs e = true /\ disc e = disc u /\ refs e = refs u /\ eqw e = eqw u /\ opw e = opw u /\ writes e = writes u /\
  shape_of e = shape_of u.
Proof.
  intros [H1 [H2 _]]. subst u. unfold er in *. rewrite wfs_amap in H2.
  rewrite disc_amap, refs_amap, eqw_amap', opw_amap, writes_amap, shape_of_amap. auto 10.
Qed.

Theorem top_eval u cv ca (e : E) m D r al t r' : inv bv ba u cv ca e m -> disc u = true ->
  MR (vset u) (wset u) D m r al -> tf D e r = (t, r') ->
  exists e' m', evaluate e m = Ok (e', m', nv t) /\ inv bv ba u cv ca e' m' /\
    MR (vset u) (wset u) D m' r' al /\ fr (EP bv u cv) m m' /\ nrm e' = nrm e.
Proof.
  intros HI HD HM HT. destruct (inv_facts _ _ _ _ _ HI) as [F1 [F2 [F3 [F4 [F5 [F6 F7]]]]]].
  destruct (evaluate_ok LL bv ba HF u cv ca e m D r al HI HM) as [e' [m' Q]]. exists e', m'.
  destruct (pf D None e r) as [[t0 r0] p] eqn:EP. destruct Q as [Q1 [Q2 [Q3 [Q4 _]]]].
  pose proof HI as [_ [_ [HS _]]]. rewrite <- F2 in HD.
  destruct (TF_all D LL e None r r t0 r0 p t r' F1 HD HS ltac:(intros X; congruence) ltac:(intros o X; destruct X)
     ltac:(auto) EP HT) as [-> [P1 [P2 [P3 _]]]].
  rewrite (RT_val _ _ _ _ _ P1) in Q1.
  split; [exact Q1|]. split; [exact Q2|]. split; [|split; [exact Q4|eapply evaluate_nrm; eauto]].
  eapply MR_pt; [exact Q3| |auto]. intros o _. apply P3. intros [].
Qed.

Theorem top_diff u cv ca (e : E) m D r al t r' seed : inv bv ba u cv ca e m -> disc u = true ->
  MR (vset u) (wset u) D m r al -> tf D e r = (t, r') -> prod_ok e t -> length seed = size (shape_of u) ->
  exists e' m' r2, autodiff e seed m = Ok (e', m', nv t) /\ inv bv ba u cv ca e' m' /\
    MR (vset u) (wset u) D m' r2 (tb e t seed al) /\ fr (DP bv ba u cv ca) m m' /\ nrm e' = nrm e /\
    (forall o, ~ In o (eqw u) -> r2 o = r o) /\ (opw u = [] -> forall o, r2 o = r' o).
Proof.
  intros HI HD HM HT HP HL. destruct (inv_facts _ _ _ _ _ HI) as [F1 [F2 [F3 [F4 [F5 [F6 F7]]]]]].
  destruct (autodiff_ok LL bv ba HF u cv ca e m D r al seed HI HM HL) as [e' [m' Q]]. exists e', m'.
  destruct (pf D None e r) as [[t0 r0] p] eqn:EP. destruct (pb None e' t0 seed r0 al) as [[q r2] al2] eqn:EB.
  destruct Q as [Q1 [Q2 [Q3 [Q4 Q5]]]].
  pose proof HI as [_ [_ [HS _]]]. rewrite <- F2 in HD.
  destruct (TF_all D LL e None r r t0 r0 p t r' F1 HD HS ltac:(intros X; congruence) ltac:(intros o X; destruct X)
     ltac:(auto) EP HT) as [-> [P1 [P2 [P3 [P4 P5]]]]].
  rewrite (RT_val _ _ _ _ _ P1) in Q1.
  rewrite (pb_same e e') in EB by exact Q5.
  destruct (TB_all D LL e None t0 t seed r0 al al q r2 al2 F1 HD ltac:(intros X; congruence) ltac:(intros o X; destruct X)
     P1 P2 HP ltac:(congruence) ltac:(auto) ltac:(intros c X; discriminate) EB) as [B1 [B2 [B3 [B4 _]]]].
  exists r2.
  split; [exact Q1|]. split; [exact Q2|]. split; [|split; [exact Q4|split; [eapply autodiff_nrm; eauto|split]]].
  - eapply MR_pt; [exact Q3|auto|]. intros o _. apply B2.
  - intros o Ho. rewrite <- F4 in Ho. rewrite B1; auto. rewrite <- P5 by auto.
    apply rs_pt. apply P3. intros [].
  - intros Ho o. rewrite <- F5 in Ho. destruct (B4 Ho) as [B5 _]. rewrite B5. apply P3. intros [].
Qed.
End Top.
