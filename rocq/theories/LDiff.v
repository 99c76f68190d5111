(** Evaluation and differentiation of bound expressions over the reals. *)
From Coq Require Import Reals Lra FunctionalExtensionality.
From Coquelicot Require Import Coquelicot.
From Verif Require Import Base Num Expr Node Stat Machine Wf Pure LBase LKind LSimDef LMem LSimF LSimB LBind Session LUser
  Tape LTape LState LNrm LTop XR Spec RSess LReal LScal LKA LKB LVal LGrad.
Open Scope R_scope.
Set Bullet Behavior "Strict Subproofs".

(** ** The denotation ignores annotations *)
Section Amap.
Context {A B : Type} (f : A -> B) (D : nat -> R).
Notation am := (amap (T := xr) f).
Lemma dens_amap es : Forall (fun e : expr xr A => forall r, den D (am e) r = den D e r) es ->
  forall r, dens D (map am es) r = dens D es r.
Proof.
  induction 1 as [|y l HY H IH]; intros r; [reflexivity|]. cbn [map]. rewrite !dens_cons. unfold val, fin_env. now rewrite HY, IH.
Qed.
Lemma shapes_am (es : list (expr xr A)) : map shape_of (map am es) = map shape_of es.
Proof. apply shapes_amap. Qed.
Lemma consts_am (es : list (expr xr A)) : map is_const (map am es) = map is_const es.
Proof. rewrite map_map. apply map_ext. intros []; reflexivity. Qed.
Lemma flats_am (es : list (expr xr A)) : map flat (map am es) = map flat es.
Proof. rewrite map_map. apply map_ext. intros []; reflexivity. Qed.
Lemma den_amap (e : expr xr A) : forall r, den D (am e) r = den D e r.
Proof.
  induction e using expr_ind'; intros r; try reflexivity.
  - cbn [amap]. rewrite !den_comp, shapes_am, (dens_amap es H). reflexivity.
  - cbn [amap den]. now rewrite IHe.
  - cbn [amap den]. rewrite IHe, shape_of_amap. reflexivity.
  - cbn [amap den]. rewrite IHe1. destruct (den D e1 r). apply IHe2.
  - cbn [amap]. rewrite !den_for, (dens_amap es H). reflexivity.
  - cbn [amap den]. rewrite IHe1. destruct (den D e1 r). destruct (reqb _ _); auto.
Qed.
Lemma dens_amap' es r : dens D (map am es) r = dens D es r.
Proof. apply dens_amap. apply Forall_forall. intros; apply den_amap. Qed.
Lemma val_amap (e : expr xr A) r : val D (am e) r = val D e r.
Proof. unfold val. now rewrite den_amap. Qed.
Lemma fin_amap (e : expr xr A) r : fin_env D (am e) r = fin_env D e r.
Proof. unfold fin_env. now rewrite den_amap. Qed.
Lemma doms_amap d us es : Forall (fun e : expr xr A => forall u r, dom D d u (am e) r <-> dom D d u e r) es ->
  forall i r, doms D d us i (map am es) r <-> doms D d us i es r.
Proof.
  induction 1 as [|y l HY H IH]; intros i r; [reflexivity|]. cbn [map doms]. rewrite HY, fin_amap, IH. reflexivity.
Qed.
Lemma dom_amap d (e : expr xr A) : forall u r, dom D d u (am e) r <-> dom D d u e r.
Proof.
  induction e using expr_ind'; intros u r; try reflexivity.
  - cbn [amap]. rewrite !dom_comp, shapes_am, consts_am, flats_am, dens_amap', (doms_amap d _ es H). reflexivity.
  - cbn [amap dom]. apply IHe.
  - cbn [amap dom]. rewrite IHe, shape_of_amap, val_amap. reflexivity.
  - cbn [amap dom]. rewrite IHe1, fin_amap, IHe2. reflexivity.
  - cbn [amap]. rewrite !dom_for. revert r. induction H as [|y l HY H IH]; intros r; [reflexivity|].
    cbn [map domf]. rewrite fin_amap, IH. destruct l; cbn [map]; rewrite HY; reflexivity.
  - cbn [amap dom]. rewrite IHe1, val_amap, fin_amap. replace (flat (am e1)) with (flat e1) by (now destruct e1).
    destruct (reqb _ _); [rewrite IHe3|rewrite IHe2]; reflexivity.
Qed.
End Amap.

Section Diff.
Variable la : linalg xr.
Notation N := (XR la).
Notation E := (expr xr (ann N)).
Notation U := (expr xr unit).
Notation liftE := (liftE la).

(** ** Products of finite factors *)
Section Prod.
Variable D : nat -> R.
Notation DX := (liftE D).
Hypothesis HKV : forall k, KV la k.
Definition prod_oksx : list E -> list (rec N) -> Prop :=
  fix go (l : list E) (ts : list (rec N)) : Prop :=
    match l, ts with y :: l', ty :: ts' => @prod_ok N y ty /\ go l' ts' | _, _ => True end.
Definition PO (e : E) : Prop := forall u rho t r', wfs e = true -> sg la D e -> dom D false u e rho ->
  @tf N DX e (liftE rho) = (t, r') -> @prod_ok N e t.
Lemma POs es : Forall PO es -> forall rho ts r', forallb wfs es = true -> sgs la D es -> domq la D es rho ->
  @tfs N DX es (liftE rho) = (ts, r') -> prod_oksx es ts.
Proof.
  induction 1 as [|y l HY H IH]; intros rho ts r' HW HG HD HE.
  - inversion HE; subst. exact I.
  - cbn in HW. apply andb_true_iff in HW. destruct HW as [W1 W2]. destruct HG as [G1 G2]. destruct HD as [[u D1] D2].
    cbn [tfs] in HE. destruct (@tf N DX y (liftE rho)) as [t r1] eqn:E1.
    destruct (LV_all la D HKV y u rho t r1 W1 G1 D1 E1) as [_ ->].
    destruct (@tfs N DX l (liftE (fin_env D y rho))) as [ts2 r2] eqn:E2. inversion HE; subst.
    cbn [prod_oksx]. split; [eapply HY; eauto|eapply IH; eauto].
Qed.
Lemma prod1_fin n vs : Forall (fun v => length v = n) vs ->
  @prod_ok1 N (FF vs) (map Fin (tab n (fun i => prodn (length vs) (fun p => el (nth p vs []) i)))).
Proof.
  intros HF p Hp _. assert (Hp' : (p < length vs)%nat) by (unfold FF in Hp; now rewrite map_length in Hp).
  assert (EN : nth p (FF vs) [] = map Fin (nth p vs [])) by apply (arg_fin la vs p). change (carrier N) with xr in *. rewrite EN.
  assert (Lp : length (nth p vs []) = n) by (apply (proj1 (Forall_forall _ _) HF), nth_In; auto).
  assert (EO : firstn p (FF vs) ++ skipn (S p) (FF vs) = FF (firstn p vs ++ skipn (S p) vs)).
  { unfold FF. now rewrite firstn_map, skipn_map, map_app. }
  rewrite EO, map_length, tab_len. change (n1 N) with (Fin 1). change (nmul N) with xmul.
  rewrite (tab_repeat (Fin 1)). rewrite (foldv_mul n _ (fun _ => 1)).
  2: { apply Forall_app. split.
       - rewrite <- (firstn_skipn p vs) in HF. apply Forall_app in HF. tauto.
       - rewrite <- (firstn_skipn (S p) vs) in HF. apply Forall_app in HF. tauto. }
  rewrite (fin_list _ _ Lp), tab_map2, tab_map. apply tab_ext. intros i Hi. cbn [xmul]. f_equal.
  rewrite (others_list (fun v => el v i) vs p) by auto. rewrite Rmult_1_l.
  apply (prodx_mul (length vs) p (fun r => el (nth r vs []) i)). auto.
Qed.
Lemma PO_all e : PO e.
Proof.
  induction e using expr_ind'; intros u rho t r' HW HG HD HE; try exact I.
  - rewrite tfx_comp in HE. rewrite sg_comp in HG. rewrite dom_comp in HD. destruct HG as [G1 G2]. destruct HD as [D1 D2].
    cbn [wfs] in HW. rewrite !andb_true_iff in HW. destruct HW as [[[W1 W2] W3] W4].
    destruct (@tfs N DX es (liftE rho)) as [ts r1] eqn:E1.
    pose proof (POs es H rho ts r1 W1 G2 (domq_s la D _ _ _ _ _ D1) E1) as P1.
    destruct (LVs la D es (proj2 (Forall_forall _ _) (fun y _ => LV_all la D HKV y)) rho ts r1 W1 G2 (domq_s la D _ _ _ _ _ D1) E1) as [V1 ->].
    rewrite V1 in HE.
    pose proof (HKV k (map is_const es) (map flat es) (map shape_of es) (st a) u (fst (dens D es rho)) W2 W3 (vals_len D es rho W1)
      (SGk_vals la D _ _ _ rho G1) D2) as KQ.
    destruct (kf _ _ _ _ _) as [s' v]. inversion HE; subst t r'. split; [|exact P1].
    destruct k; auto. cbn [nts nv]. cbn [snd] in KQ. rewrite V1, KQ. cbn [kden kshape].
    unfold kshape_ok in W2. apply andb_true_iff in W2. destruct W2 as [W2a W2b].
    apply prod1_fin. eapply iter_lens; [apply iter_facts; eauto|]. now apply vals_len.
  - cbn [tf] in HE. cbn [wfs] in HW. rewrite !andb_true_iff in HW. destruct HW as [[[W1 W2] W3] W4].
    destruct (@tf N DX e (liftE rho)) as [t1 r1] eqn:E1. inversion HE; subst. cbn [prod_ok nts]. eapply IHe; eauto.
  - cbn [tf] in HE. cbn [wfs] in HW. rewrite !andb_true_iff in HW. destruct HW as [[[W1 W2] W3] W4]. destruct HD as [D1 D2].
    destruct (@tf N DX e (liftE rho)) as [t1 r1] eqn:E1. inversion HE; subst. cbn [prod_ok nts]. eapply IHe; eauto.
  - cbn [tf] in HE. cbn [wfs] in HW. rewrite !andb_true_iff in HW. destruct HW as [[[W1 W2] W3] W4].
    destruct HG as [G1 G2]. destruct HD as [D1 D2].
    destruct (@tf N DX e1 (liftE rho)) as [t1 r1] eqn:E1. destruct (LV_all la D HKV e1 _ _ _ _ W1 G1 D1 E1) as [_ ->].
    destruct (@tf N DX e2 (liftE (fin_env D e1 rho))) as [t2 r2] eqn:E2.
    inversion HE; subst. cbn [prod_ok nts]. split; [eapply IHe1|eapply IHe2]; eauto.
  - rewrite tfx_for in HE. rewrite sg_for in HG. rewrite dom_for in HD.
    cbn [wfs] in HW. rewrite !andb_true_iff in HW. destruct HW as [[[W1 W2] W3] W4].
    destruct (@tfs N DX es (liftE rho)) as [ts r1] eqn:E1. inversion HE; subst.
    exact (POs es H rho ts r' W1 HG (domq_f la D _ _ _ _ HD) E1).
  - cbn [tf] in HE. cbn [wfs] in HW. rewrite !andb_true_iff in HW. destruct HW as [[[[[W1 W2] W3] W4] W5] W6].
    destruct HG as [G1 [G2 G3]]. destruct HD as [D1 [_ D2]].
    destruct (@tf N DX e1 (liftE rho)) as [t1 r1] eqn:E1. destruct (LV_all la D HKV e1 _ _ _ _ W1 G1 D1 E1) as [V1 ->].
    assert (NT : ntrue N (hd0 N (nv t1)) = negb (reqb (el (val D e1 rho) 0) 0)).
    { rewrite V1. unfold ntrue, hd0. destruct (val D e1 rho); reflexivity. }
    rewrite NT in HE. destruct (reqb (el (val D e1 rho) 0) 0) eqn:EC; cbn [negb] in HE.
    + destruct (@tf N DX e3 (liftE (fin_env D e1 rho))) as [t2 r2] eqn:E2. inversion HE; subst. cbn [prod_ok nts].
      rewrite NT. cbn [negb]. eapply IHe3; eauto.
    + destruct (@tf N DX e2 (liftE (fin_env D e1 rho))) as [t2 r2] eqn:E2. inversion HE; subst. cbn [prod_ok nts].
      rewrite NT. cbn [negb]. eapply IHe2; eauto.
Qed.
End Prod.

(** ** What the constructors captured *)
Section SG.
Variable D : nat -> R.
Notation nr := (@nrm N).
Lemma cvals_nrm (es es' : list E) : map nr es' = map nr es -> map (cval D) es' = map (cval D) es.
Proof.
  revert es'. induction es as [|y l IH]; intros [|y' l'] H; try discriminate; [reflexivity|].
  cbn [map] in *. injection H as H1 H2. f_equal; [|now apply IH]. destruct y, y'; try discriminate H1; try reflexivity; cbn in *; congruence.
Qed.
Lemma sg_nrm (e : E) : forall e', nr e' = nr e -> sg la D e -> sg la D e'.
Proof.
  assert (L1 : forall es, Forall (fun e : E => forall e', nr e' = nr e -> sg la D e -> sg la D e') es ->
    forall es', map nr es' = map nr es -> sgs la D es -> sgs la D es').
  { induction 1 as [|y l HY H IH]; intros [|y' l'] HN; try discriminate; [auto|]. cbn [map] in HN. injection HN as N1 N2.
    intros [G1 G2]. split; eauto. }
  induction e using expr_ind'; intros e' HN HG; destruct e'; try discriminate HN; try exact I.
  - cbn [nrm] in HN. injection HN as -> HK HE. rewrite sg_comp in *. destruct HG as [G1 G2]. split; [|eapply L1; eauto].
    assert (EC : map is_const es0 = map is_const es) by (now apply (@nrm_consts N)).
    assert (ES : map shape_of es0 = map shape_of es) by (now apply (@nrm_shapes N)).
    pose proof (cvals_nrm es es0 HE) as CV. change (carrier N) with xr in *. rewrite CV, EC, ES. rewrite EC in HK. destruct k; auto. cbn [SGk kn] in *.
    destruct G1 as [gs [s0 [Q1 [Q2 Q3]]]]. exists gs, s0. rewrite HK. auto.
  - cbn [nrm] in HN. injection HN as _ _ HN. cbn [sg] in *. eauto.
  - cbn [nrm] in HN. injection HN as _ _ _ HN. cbn [sg] in *. eauto.
  - cbn [nrm] in HN. injection HN as HN1 HN2. destruct HG. cbn [sg]. split; eauto.
  - cbn [nrm] in HN. injection HN as _ HN. rewrite sg_for in *. eapply L1; eauto.
  - cbn [nrm] in HN. injection HN as HN1 HN2 HN3. destruct HG as [? [? ?]]. cbn [sg]. split; [eauto|]. split; eauto.
Qed.

Definition ini (m : mem N) (u : U) : Prop := forall o, In o (sdrefs u) -> m 4%nat o = Some (Fin (D o)).
Lemma const_get (m : mem N) (y0 : E) : cfin (@er N y0 : U) -> (forall o, In o (vwcells y0) -> m 4%nat o = Some (Fin (D o))) ->
  is_const y0 = true -> @rdref N m (@getref N y0) = Ok (map Fin (cval D y0)).
Proof.
  destruct y0; try discriminate; intros HC HM _.
  - cbn. cbn in HC. f_equal. now apply fin_fval.
  - cbn [getref rdref]. cbn [vwcells] in HM. rewrite (load_rdv (N := N) m 4%nat o (size sh) (liftE D)).
    + now rewrite rdv_lift.
    + intros i Hi. apply HM. apply in_seq. lia.
Qed.
Lemma sg_mk (LL : la_len N) (u : U) (m : mem N) : forall e0, @mk N u m = Ok e0 -> cfin u -> ini m u -> sg la D e0.
Proof.
  assert (L1 : forall es : list U, Forall (fun u : U => forall e0, @mk N u m = Ok e0 -> cfin u -> ini m u -> sg la D e0) es ->
    forall es0, @mks N es m = Ok es0 -> (fix go es := match es with [] => True | y :: l => cfin y /\ go l end) es ->
      (forall o, In o (flat_map sdrefs es) -> m 4%nat o = Some (Fin (D o))) ->
      sgs la D es0 /\ map (@er N) es0 = es /\ Forall (fun y : E => cfin (@er N y : U)) es0).
  { induction 1 as [|y l HY H IH]; intros es0 HM HC HI; cbn in HM.
    - inversion HM. cbn. auto.
    - apply bindR_ok in HM. destruct HM as [y' [H1 HM]].
      apply bindR_ok in HM. destruct HM as [l' [H2 HM]]. inversion HM; subst es0. destruct HC as [C1 C2]. cbn [flat_map] in HI.
      destruct (IH l' H2 C2) as [Q1 [Q2 Q3]]; [intros; apply HI, in_app_iff; auto|].
      assert (EY : @er N y' = y) by (exact (proj1 (mk_inv LL y m y' H1))).
      split; [split; [|exact Q1]|split; [cbn [map]; f_equal; [exact EY|exact Q2]|constructor; [now rewrite EY|exact Q3]]].
      apply HY; auto. intros o Ho. apply HI, in_app_iff. auto. }
  induction u using expr_ind'; intros e0 HM HC HI.
  - cbn in HM. destruct (shape_ok sh); inversion HM. exact I.
  - cbn in HM. destruct (_ && _); inversion HM. exact I.
  - cbn in HM. destruct (shape_ok sh); inversion HM. exact I.
  - change (@mk N (EComp k a es) m) with (es' <- @mks N es m ;;
      (let ss := map shape_of es' in if kassert k ss then
        s <- match k with KStat q => stat_init N q (map is_const es') ss (map (fun x => @rdref N m (@getref N x)) es') | _ => Ok (sst0 N) end ;;
        Ok (EComp k (set_st (N := N) (ann0 N) s) es') else Err UBshape)) in HM.
    apply bindR_ok in HM. destruct HM as [es' [H1 HM]]. cbv zeta in HM. destruct (kassert k (map shape_of es')); [|discriminate].
    apply bindR_ok in HM. destruct HM as [s [H2 HM]]. inversion HM; subst e0.
    unfold ini in HI. cbn [sdrefs] in HI.
    destruct (L1 es H es' H1 HC) as [Q1 [Q2 Q3]]; [intros o Ho; apply HI, in_app_iff; auto|].
    rewrite sg_comp. split; [|exact Q1]. destruct k; try exact I. cbn [SGk].
    eexists _, s. split; [exact H2|]. split; [|reflexivity].
    intros i Hi. change (carrier N) with xr in *.
    assert (Hl : (i < length es')%nat).
    { destruct (Nat.lt_ge_cases i (length es')) as [X|X]; auto. rewrite nth_overflow in Hi; [discriminate|]. now rewrite map_length. }
    rewrite (nth_indep _ _ (@rdref N m (@getref N (EVar scl 0 : E)))) by (now rewrite map_length).
    rewrite (map_nth (fun x => @rdref N m (@getref N x)) es').
    rewrite (nth_indep (map (cval D) es') [] (cval D (EVar scl 0 : E))) by (now rewrite map_length). rewrite (map_nth (cval D) es').
    assert (HIn : In (nth i es' (EVar scl 0)) es') by (now apply nth_In).
    apply const_get.
    + exact (proj1 (Forall_forall _ _) Q3 _ HIn).
    + intros o Ho. apply HI, in_app_iff. left. apply in_flat_map. exists (@er N (nth i es' (EVar scl 0))). split.
      * rewrite <- Q2. now apply in_map.
      * now destruct (nth i es' (EVar scl 0)).
    + rewrite <- Hi. rewrite (nth_indep _ _ (is_const (EVar scl 0 : E))) by (now rewrite map_length). now rewrite (map_nth is_const es').
  - cbn in HM. apply bindR_ok in HM. destruct HM as [y' [H1 HM]]. destruct (_ && _); inversion HM. cbn [sg]. eapply IHu; eauto.
  - cbn in HM. apply bindR_ok in HM. destruct HM as [y' [H1 HM]]. destruct (_ && _); inversion HM. cbn [sg]. eapply IHu; eauto.
  - cbn in HM. apply bindR_ok in HM. destruct HM as [y1 [H1 HM]]. apply bindR_ok in HM. destruct HM as [y2 [H2 HM]].
    destruct (is_const y2); inversion HM. destruct HC. cbn [sg]. unfold ini in HI. cbn [sdrefs] in HI.
    split; [eapply IHu1|eapply IHu2]; eauto; intros o Ho; apply HI, in_app_iff; auto.
  - cbn [mk] in HM. apply bindR_ok in HM. destruct HM as [es' [H1 HM]].
    destruct (L1 es H es' H1 HC HI) as [Q1 _].
    match type of HM with (if ?c then _ else _) = _ => destruct c; inversion HM end. rewrite sg_for. exact Q1.
  - cbn in HM. apply bindR_ok in HM. destruct HM as [y1 [H1 HM]]. apply bindR_ok in HM. destruct HM as [y2 [H2 HM]].
    apply bindR_ok in HM. destruct HM as [y3 [H3 HM]]. destruct (_ && _); inversion HM. destruct HC as [? [? ?]]. cbn [sg].
    unfold ini in HI. cbn [sdrefs] in HI.
    repeat split; [eapply IHu1|eapply IHu2|eapply IHu3]; eauto; intros o Ho; apply HI; rewrite !in_app_iff; auto.
Qed.
End SG.

(** ** Bound expressions *)
Section Main.
Hypothesis LL : la_len N.
Hypothesis HKV : forall k, KV la k.
Hypothesis HKA : forall k, KA la k.
Variables bv ba : nat.

Lemma session_inv (u : U) D (e1 : E) m1 : okexpr la u -> session la bv ba u D e1 m1 ->
  exists cv ca, fresh bv ba /\ @inv N bv ba u cv ca e1 m1 /\ sg la D e1 /\ wfs e1 = true /\ @er N e1 = u.
Proof.
  intros [HW [HD HC]] [m [uv [ua [e [m0 [ops [HF [HA [HB [HO [HR HS]]]]]]]]]]].
  destruct (inv_bound LL bv ba HF u m uv ua e m0 HW HA HB) as [HI _].
  destruct (run_ok LL bv ba HF u _ _ ops HO e m0 HI) as [e1' [m1' [R I1]]]. rewrite R in HR.
  inversion HR; subst e1' m1'. exists (fst (csize e)), (snd (csize e)). split; [exact HF|]. split; [exact I1|]. split.
  - destruct (bound_nrm LL bv ba uv ua u m e m0 HW HB) as [e0 [HM HN]].
    apply (sg_nrm D e0).
    + rewrite <- HN. eapply run_nrm; eauto.
    + eapply sg_mk; eauto.
  - split; [|apply I1]. destruct (inv_facts _ _ _ _ _ _ _ I1) as [F1 _]. exact F1.
Qed.
Lemma mreal_MR (u : U) m D r al : mreal la u m D r al <-> MR (vset (N := N) u) (wset (N := N) u) (liftE D) m (liftE r) (liftE al).
Proof. reflexivity. Qed.
Lemma session_op u D (e1 : E) m1 o e2 m2 : session la bv ba u D e1 m1 -> op_ok (N := N) (size (shape_of u)) o ->
  @step N o (e1, m1) = Ok (e2, m2) -> session la bv ba u D e2 m2.
Proof.
  intros [m [uv [ua [e [m0 [ops [HF [HA [HB [HO [HR HS]]]]]]]]]]] Ho HE.
  exists m, uv, ua, e, m0, (ops ++ [o]). repeat (match goal with |- _ /\ _ => split end); auto.
  - apply Forall_app. auto.
  - clear - HR HE. revert e m0 HR. induction ops as [|p ops IH]; intros e m0 HR.
    + cbn in HR. inversion HR; subst. cbn [app run]. change (carrier N) with xr in *. rewrite HE. reflexivity.
    + cbn [run app] in *. apply bindR_ok in HR. destruct HR as [[e' m'] [H1 H2]]. rewrite H1. cbn [bindR]. now apply IH.
Qed.

(** *** Values *)
Lemma val_main (u : U) D (e1 : E) m1 rho al b : okexpr la u -> session la bv ba u D e1 m1 ->
  mreal la u m1 D rho al -> dom D false b u rho ->
  exists e2 m2, @evaluate N e1 m1 = Ok (e2, m2, map Fin (val D u rho)) /\ session la bv ba u D e2 m2 /\
    mreal la u m2 D (fin_env D u rho) al.
Proof.
  intros HK HS HM HD. destruct (session_inv u D e1 m1 HK HS) as [cv [ca [HF [HI [HG [HW HE]]]]]].
  assert (HD' : dom D false b e1 rho) by (rewrite <- HE in HD; unfold er in HD; now apply dom_amap in HD).
  destruct (@tf N (liftE D) e1 (liftE rho)) as [t r'] eqn:ET.
  destruct (LV_all la D HKV e1 b rho t r' HW HG HD' ET) as [V1 ->].
  destruct (top_eval LL bv ba HF u cv ca e1 m1 _ _ _ t _ HI (proj1 (proj2 HK)) HM ET) as [e2 [m2 [Q1 [Q2 [Q3 _]]]]].
  exists e2, m2. rewrite V1 in Q1. rewrite <- HE. unfold er. rewrite val_amap, fin_amap. split; [exact Q1|].
  split; [|].
  - change (amap (fun _ : ann N => tt) e1) with (@er N e1). rewrite HE.
    apply (session_op u D e1 m1 OpEval); auto; [exact I|]. cbn [step]. rewrite Q1. reflexivity.
  - apply mreal_MR. change (amap (fun _ : ann N => tt) e1) with (@er N e1). rewrite HE. exact Q3.
Qed.

(** *** Derivatives *)
Definition ind (o i : nat) : R := if (i =? o)%nat then 1 else 0.
Lemma set1_same r o : set1 r o (r o) = r.
Proof. apply functional_extensionality. intros i. unfold set1. destruct (i =? o)%nat eqn:Q; auto. apply Nat.eqb_eq in Q. now subst. Qed.
Lemma set1_der r o i : is_derive (fun t => set1 r o t i) (r o) (ind o i).
Proof.
  unfold set1, ind. destruct (i =? o)%nat.
  - apply (is_derive_id (r o)).
  - apply der_const.
Qed.
Lemma sumn_ind M o f : (o < M)%nat -> sumn M (fun i => f i * ind o i) = f o.
Proof.
  intros H. rewrite (sumn_one M o); auto.
  - unfold ind. rewrite Nat.eqb_refl. ring.
  - intros i Hi Hn. unfold ind. replace (i =? o)%nat with false; [ring|symmetry; now apply Nat.eqb_neq].
Qed.
Lemma sumn_ind' M o (X : nat -> bool) f : (o < M)%nat -> X o = false -> sumn M (fun i => if X i then 0 else f i * ind o i) = f o.
Proof.
  intros H HX. rewrite (sumn_one M o); auto.
  - rewrite HX. unfold ind. rewrite Nat.eqb_refl. ring.
  - intros i Hi Hn. destruct (X i); auto. unfold ind. replace (i =? o)%nat with false; [ring|symmetry; now apply Nat.eqb_neq].
Qed.

(** All partial derivatives of the value and of the final state with respect to
    one variable, and the adjoint it receives. *)
Definition adj_spec (u : U) D rho seed al al' (o : nat) : Prop :=
  exists g h : nat -> R,
    (forall k, is_derive (fun t => el (val D u (set1 rho o t)) k) (rho o) (g k)) /\
    (forall i, is_derive (fun t => fin_env D u (set1 rho o t) i) (rho o) (h i)) /\
    (forall i, ~ In i (writes u) -> h i = ind o i) /\
    forall M, (forall i, In i (refs u) -> (i < M)%nat) ->
      al' o = sumn (length seed) (fun k => el seed k * g k) + sumn M (fun i => al i * h i).

Lemma diff_main (u : U) D (e1 : E) m1 rho al b seed : okexpr la u -> session la bv ba u D e1 m1 ->
  mreal la u m1 D rho al -> dom D true b u rho -> length seed = size (shape_of u) ->
  (b = true -> forall j, (j < length seed)%nat -> el seed j = 1) ->
  exists e2 m2 al', @autodiff N e1 (map Fin seed) m1 = Ok (e2, m2, map Fin (val D u rho)) /\
    session la bv ba u D e2 m2 /\
    (forall o, In o (refs u) -> m2 1%nat o = Some (Fin (al' o))) /\
    (forall o, In o (refs u) -> ~ In o (eqw u) -> m2 0%nat o = Some (Fin (rho o))) /\
    (opw u = [] -> forall o, In o (refs u) -> m2 0%nat o = Some (Fin (fin_env D u rho o))) /\
    (forall o, In o (drefs u) -> m2 4%nat o = Some (Fin (D o))) /\
    (forall o, ~ In o (refs u) -> al' o = al o) /\
    (forall o, In o (refs u) -> ~ In o (eqw u) -> adj_spec u D rho seed al al' o).
Proof.
  intros HK HS HM HD HL HU. destruct (session_inv u D e1 m1 HK HS) as [cv [ca [HF [HI [HG [HW HE]]]]]].
  assert (HD' : dom D true b e1 rho) by (rewrite <- HE in HD; unfold er in HD; now apply dom_amap in HD).
  destruct (inv_facts _ _ _ _ _ _ _ HI) as [F1 [F2 [F3 [F4 [F5 [F6 F7]]]]]]. change (carrier N) with xr in *.
  destruct (@tf N (liftE D) e1 (liftE rho)) as [t r'] eqn:ET.
  destruct (LV_all la D HKV e1 b rho t r' HW HG (dom_mono D true e1 b rho HD') ET) as [V1 ->].
  pose proof (PO_all D HKV e1 b rho t _ HW HG (dom_mono D true e1 b rho HD') ET) as HP.
  assert (VU : forall r, val D u r = val D e1 r) by (intros; rewrite <- HE; apply val_amap).
  assert (FU : forall r, fin_env D u r = fin_env D e1 r) by (intros; rewrite <- HE; apply fin_amap).
  assert (DI : disc e1 = true) by (rewrite F2; apply HK).
  assert (HL1 : length seed = size (shape_of e1)) by (rewrite F7; exact HL).
  destruct (top_diff LL bv ba HF u cv ca e1 m1 (liftE D) (liftE rho) (liftE al) t _ (map Fin seed) HI (proj1 (proj2 HK)) HM ET HP
    ltac:(rewrite map_length; exact HL)) as [e2 [m2 [r2 [Q1 [Q2 [Q3 [Q4 [Q5 [Q6 Q7]]]]]]]]].
  assert (TBX : exists al', @tb N e1 t (map Fin seed) (liftE al) = liftE al' /\ (forall o, ~ In o (refs e1) -> al' o = al o) /\
    forall o, ~ In o (eqw e1) -> exists g h : nat -> R,
    (forall k, is_derive (fun t => el (val D e1 (set1 rho o t)) k) (rho o) (g k)) /\
    (forall i, is_derive (fun t => fin_env D e1 (set1 rho o t) i) (rho o) (h i)) /\
    (forall i, ~ In i (writes e1) -> h i = ind o i) /\
    forall M, (forall i, In i (refs e1) -> (i < M)%nat) -> (o < M)%nat ->
      al' o = sumn (length seed) (fun k => el seed k * g k) + sumn M (fun i => al i * h i)).
  { assert (GG : forall o M, (forall i, In i (refs e1) -> (i < M)%nat) -> exists dv dr', length dv = size (shape_of e1) /\
       (forall j, is_derive (fun x => el (val D e1 (set1 rho o x)) j) (rho o) (el dv j)) /\
       (forall i, is_derive (fun x => fin_env D e1 (set1 rho o x) i) (rho o) (dr' i)) /\
       BK la M e1 t b dv (ind o) dr').
    { intros o M HB. destruct (GR_all la D HKV HKA M e1 b (set1 rho o) (ind o) (rho o) t (liftE (fin_env D e1 rho)) HW DI HG HB) as [dv [dr' [A1 [A2 [A3 [_ A5]]]]]].
      - now rewrite set1_same.
      - intros i. apply set1_der.
      - now rewrite set1_same.
      - exists dv, dr'. auto. }
    set (M0 := S (list_max (refs e1))).
    assert (HM0 : forall i, In i (refs e1) -> (i < M0)%nat).
    { intros i Hi. unfold M0. pose proof (proj1 (list_max_le (refs e1) (list_max (refs e1))) (Nat.le_refl _)) as X.
      rewrite Forall_forall in X. specialize (X i Hi). lia. }
    destruct (GG 0%nat M0 HM0) as [dv0 [dr0 [_ [_ [_ BK0]]]]].
    destruct (BK0 seed al HL1 HU) as [al' [B1 [B2 _]]]. exists al'. split; [exact B1|]. split; [exact B2|].
    intros o Ho. destruct (GG o M0 HM0) as [dv [dr' [A1 [A2 [A3 A5]]]]]. exists (el dv), dr'. split; [exact A2|]. split; [exact A3|].
    split. { intros i Hi. exact (dr_keep la D e1 (set1 rho o) (ind o) dr' (rho o) i HW (set1_der rho o) A3 Hi). }
    intros M HMM HoM. destruct (GG o M HMM) as [dvM [drM [C1 [C2 [C3 C5]]]]].
    destruct (C5 seed al HL1 HU) as [al2 [P1 [P2 P3]]].
    assert (EA : al2 = al').
    { rewrite B1 in P1. apply functional_extensionality. intros i. apply (f_equal (fun f => f i)) in P1. unfold LVal.liftE in P1. congruence. }
    subst al2.
    assert (ED : forall k, el dvM k = el dv k) by (intros k; exact (der_unique _ _ _ _ (C2 k) (A2 k))).
    assert (EH : forall i, drM i = dr' i) by (intros i; exact (der_unique _ _ _ _ (C3 i) (A3 i))).
    rewrite (sumn_ind' M o (fun i => inb i (@asg N e1 t)) al') in P3; auto.
    - rewrite <- P3. unfold ip. f_equal; apply sumn_ext; intros; [now rewrite ED|now rewrite EH].
    - apply inb_f. intros X. apply Ho. eapply (@asg_eqw N e1 t), X. }
  destruct TBX as [al' [B1 [B2 B3]]].
  exists e2, m2, al'. rewrite VU.
  rewrite V1 in Q1. split; [exact Q1|]. destruct Q3 as [Q3a Q3b].
  split; [|split; [|split; [|split; [|split; [exact Q3b|split]]]]].
  - apply (session_op u D e1 m1 (@OpDiff N (map Fin seed))); auto; [cbn; now rewrite map_length|]. cbn [step].
    change (carrier N) with xr in *. rewrite Q1. reflexivity.
  - intros o Ho. destruct (Q3a o Ho) as [_ Z2]. rewrite B1 in Z2. exact Z2.
  - intros o Ho Hn. destruct (Q3a o Ho) as [Z1 _]. rewrite Z1, Q6 by exact Hn. reflexivity.
  - intros Hw o Ho. destruct (Q3a o Ho) as [Z1 _]. rewrite Z1, Q7, FU by exact Hw. reflexivity.
  - intros o Ho. apply B2. now rewrite F3.
  - intros o Ho Hn. destruct (B3 o) as [g [h [A1 [A2 [A3 A4]]]]]; [now rewrite F4|]. exists g, h.
    split; [intros k; eapply der_ext; [|apply A1]; intros x; cbn; now rewrite VU|].
    split; [intros k; eapply der_ext; [|apply A2]; intros x; cbn; now rewrite FU|].
    split; [intros i Hi; apply A3; now rewrite F6|].
    intros M HMM. apply A4; [now rewrite F3|]. apply HMM, Ho.
Qed.
End Main.
End Diff.
