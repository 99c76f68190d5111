(** Nodes at points outside the domain of their derivative. *)
From Coq Require Import Reals Lra Psatz FunctionalExtensionality.
From Coquelicot Require Import Coquelicot.
From Verif Require Import Base Num Expr Node Stat Machine Wf Pure LBase LKind LSimDef LMem LSimF LSimB LBind Session LUser
  Tape LTape LState LNrm LTop XR Spec RSess Grad Rules LReal LScal LKA LKB LKS LMx LMat LKM LVal LGrad LDiff LIndep LGrd LNode.
Open Scope R_scope.
Set Bullet Behavior "Strict Subproofs".

Lemma not_all_ex_lt n (P : nat -> Prop) : (forall j, P j \/ ~ P j) -> ~ (forall j, (j < n)%nat -> P j) -> exists j, (j < n)%nat /\ ~ P j.
Proof.
  intros HD H. induction n; [exfalso; apply H; intros; lia|]. destruct (HD n) as [Q|Q]; [|exists n; auto].
  destruct IHn as [j [A B]]; [|exists j; auto]. intros K. apply H. intros j Hj. destruct (Nat.eq_dec j n); [now subst|apply K; lia].
Qed.
Lemma not_all_pos n (f : nat -> R) : ~ (forall j, (j < n)%nat -> 0 < f j) -> exists j, (j < n)%nat /\ f j <= 0.
Proof.
  intros H. destruct (not_all_ex_lt n (fun j => 0 < f j)) as [j [A B]]; auto; [|exists j; split; [auto|lra]].
  intros j. destruct (Rlt_dec 0 (f j)); auto.
Qed.
Section LI.
Variable la : linalg xr.
Hypothesis LA : la_ok la.
Notation N := (XR la).
Notation E := (expr N (ann N)).
Notation U := (expr N unit).
Let LL : la_len N := la_ok_len la LA.
Let HKV := KV_all la LA.
Let HKA := KA_all la LA.
Notation X := (expr xr unit).

Definition notprod (k : kd) : Prop := match k with KProdI _ => False | _ => True end.
Lemma notprod_pre k i vs f : notprod k -> kpre (N := N) k i vs f = None.
Proof. destruct k; cbn; tauto. Qed.

(** Adjoints after the operands were visited, for operands that are variables or constants. *)
Fixpoint vadj (sd : nat -> option (list xr)) (i : nat) (l : list X) (a : nat -> xr) : nat -> xr :=
  match l with
  | [] => a
  | y :: l' => let a := vadj sd (S i) l' a in
      match sd i, y with Some s, EVar _ o => @padd N a o s | _, _ => a end
  end.
Definition leaf (y : X) : Prop := match y with EVar _ _ | ECst _ _ | ECvw _ _ => True | _ => False end.

Lemma odomv_q D (es : list U) (es1 : list E) : forall rho, map (@er N) es1 = es -> odomv la D es rho -> domq la D es1 rho.
Proof.
  intros rho <-. revert rho. induction es1 as [|y l IH]; intros rho H; [exact I|]. cbn in H. destruct H as [H1 H2]. split.
  - exists false. unfold er in H1. now apply (proj1 (dom_amap (fun _ : ann N => tt) D false (y : expr xr (ann N)) false rho)).
  - apply IH. unfold er in H2. rewrite (fin_amap (fun _ : ann N => tt) D (y : expr xr (ann N))) in H2. exact H2.
Qed.

Lemma tb_vadj k an (es1 : list E) (v : list xr) s' ts seed a : notprod k -> length ts = length es1 ->
  let cs := map is_const es1 in let ss := map shape_of es1 in
  let sd := kseed (N := N) k cs ss s' seed (vsel (N := N) k (map (@nv N) ts)) v in
  (forall i, (i < length es1)%nat -> leaf (nth i (map (@er N) es1) (ECst scl [])) \/ sd i = None) ->
  @tb N (EComp k an es1) (@Nd N v s' [] ts) seed a = vadj sd 0 (map (@er N) es1) a.
Proof.
  intros HK HL cs ss sd HS. cbn [tb nts nv ns]. fold cs ss.
  set (vs := vsel k (map (@nv N) ts)) in *.
  assert (G : forall l tl i, length tl = length l -> (forall j, (j < length l)%nat -> leaf (nth j (map (@er N) l) (ECst scl [])) \/ sd (i + j)%nat = None) ->
    forall a, (fix go (i : nat) (l : list E) (ts : list (rec N)) (a : nat -> xr) {struct l} :=
         match l, ts with
         | y :: l', ty :: ts' =>
             let a := go (S i) l' ts' a in
             let f := match kpre k i vs v with None => v | Some f1 => f1 end in
             match kseed k cs ss s' seed vs f i with
             | None => a
             | Some s => @tb N y ty s a
             end
         | _, _ => a
         end) i l tl a = vadj sd i (map (@er N) l) a).
  { induction l as [|y l IH]; intros tl i Hl Hs a0; [destruct tl; reflexivity|]. destruct tl as [|ty tl]; [discriminate Hl|].
    rewrite (IH tl (S i)); [|now injection Hl|intros j Hj; replace (S i + j)%nat with (i + S j)%nat by lia; exact (Hs (S j) (proj1 (Nat.succ_lt_mono _ _) Hj))].
    rewrite notprod_pre by exact HK. cbn zeta. fold (sd i). cbn [map vadj].
    destruct (Hs 0%nat ltac:(cbn; lia)) as [Z|Z].
    - destruct (sd i) as [s|]; [|reflexivity]. destruct y; cbn in Z; try contradiction; reflexivity.
    - rewrite Nat.add_0_r in Z. rewrite Z. reflexivity. }
  apply G; auto.
Qed.

Lemma node_top bv ba k (es : list U) D (e1 : E) m1 rho al : notprod k -> okexpr la (EComp k tt es) ->
  session la bv ba (EComp k tt es) D e1 m1 -> mreal la (EComp k tt es) m1 D rho al -> odomv la D es rho ->
  let u := EComp k tt es in let cs := map is_const (es : list X) in let ss := map shape_of (es : list X) in let vs := vals D (es : list X) rho in
  exists s s' v, SGk la k cs ss s vs /\ (exists an es1, e1 = EComp k an es1 /\ s = st an) /\ kf k cs ss s (FF vs) = (s', v) /\
    (exists e2 m2, evaluate e1 m1 = Ok (e2, m2, v)) /\
    forall seed : list xr, length seed = size (kshape k (map shape_of es)) ->
      exists e2 m2, autodiff e1 seed m1 = Ok (e2, m2, v) /\
        (let sd := kseed (N := N) k cs ss s' seed (vsel (N := N) k (FF vs)) v in
         (forall i, (i < length es)%nat -> leaf (nth i es (ECst scl [])) \/ sd i = None) ->
         forall o, In o (refs u) -> m2 1%nat o = Some (vadj sd 0 es (liftE la al) o)).
Proof.
  intros HP HK HS HM HD. cbn zeta. set (u := EComp k tt es) in *.
  destruct (session_inv la LL bv ba u D e1 m1 HK HS) as [cv [ca [HF [HI [HG [HW HE]]]]]].
  destruct (inv_facts _ _ _ _ _ _ _ HI) as [F1 [F2 [F3 [F4 [F5 [F6 F7]]]]]]. change (carrier N) with xr in *.
  destruct e1 as [| | |k' an es1| | | | |]; try discriminate HE.
  cbn [er amap] in HE. unfold u in HE. injection HE as -> HEs.
  assert (HEs' : map (@er N) es1 = es) by exact HEs.
  assert (ECS : map is_const (es : list X) = map is_const es1) by (rewrite <- HEs; apply (consts_am (fun _ : ann N => tt))).
  assert (ESS : map shape_of (es : list X) = map shape_of es1) by (rewrite <- HEs; apply (shapes_am (fun _ : ann N => tt))).
  assert (EVS : vals D (es : list X) rho = fst (dens D es1 rho)).
  { unfold vals. rewrite <- HEs. now rewrite (dens_amap' (fun _ : ann N => tt) D es1). }
  assert (ELN : length es1 = length es) by (rewrite <- HEs; now rewrite map_length).
  rewrite sg_comp in HG. destruct HG as [HG1 HG2].
  cbn [wfs] in HW. rewrite !andb_true_iff in HW. destruct HW as [[[W1 W2] W3] W4].
  pose proof (odomv_q D es es1 rho HEs' HD) as HQ.
  destruct (@tf N (liftE la D) (EComp k an es1) (liftE la rho)) as [t r'] eqn:ET. pose proof ET as ET'.
  rewrite tfx_comp in ET. destruct (@tfs N (liftE la D) es1 (liftE la rho)) as [ts r1] eqn:E1.
  destruct (LVs la D es1 (proj2 (Forall_forall _ _) (fun y _ => LV_all la D HKV y)) rho ts r1 W1 HG2 HQ E1) as [V1 ->].
  pose proof (POs la D HKV es1 (proj2 (Forall_forall _ _) (fun y _ => PO_all la D HKV y)) rho ts _ W1 HG2 HQ E1) as P1.
  rewrite V1 in ET. destruct (kf k (map is_const es1) (map shape_of es1) (st an) (FF (fst (dens D es1 rho)))) as [s' v] eqn:EK.
  injection ET as <- <-.
  assert (LT : length ts = length es1).
  { apply (f_equal (@length _)) in V1. unfold FF in V1. rewrite !map_length in V1. rewrite V1.
    pose proof (vals_len D (es1 : list (expr xr (ann N))) rho W1) as Q. apply lensR_len in Q. rewrite map_length in Q. exact Q. }
  exists (st an), s', v. rewrite ECS, ESS, EVS.
  split; [exact (SGk_vals la D _ _ _ rho HG1)|]. split; [exists an, es1; split; reflexivity|]. split; [exact EK|]. split.
  - destruct (top_eval LL bv ba HF u cv ca _ m1 _ _ _ _ _ HI (proj1 (proj2 HK)) HM ET') as [e2 [m2 [Q1 _]]]. eauto.
  - intros seed HLs.
    assert (PO1 : @prod_ok N (EComp k an es1) (@Nd N v s' [] ts)) by (split; [destruct k; try exact I; destruct HP|exact P1]).
    assert (HLs' : length seed = size (shape_of u)) by exact (eq_trans HLs (f_equal (fun l => size (kshape k l)) (eq_sym ESS))).
    destruct (top_diff LL bv ba HF u cv ca _ m1 (liftE la D) (liftE la rho) (liftE la al) _ _ seed HI (proj1 (proj2 HK)) HM ET' PO1 HLs')
      as [e2 [m2 [r2 [Q1 [Q2 [Q3 _]]]]]]. exists e2, m2. split; [exact Q1|].
    intros Hsd o Ho. destruct Q3 as [Q3 _]. destruct (Q3 o Ho) as [_ Z]. rewrite Z.
    rewrite (tb_vadj k an es1 v s' ts seed); auto.
    + rewrite HEs'. rewrite V1. reflexivity.
    + rewrite HEs', V1. intros i Hi. apply Hsd. exact (eq_ind _ (fun n => (i < n)%nat) Hi _ ELN).
Qed.
(** Adjoints from arbitrary operands and finite seeds. *)
Lemma node_seeds bv ba k (es : list U) D (e1 : E) m1 rho al : kpure k = true -> okexpr la (EComp k tt es) ->
  session la bv ba (EComp k tt es) D e1 m1 -> mreal la (EComp k tt es) m1 D rho al -> odoms la D es rho ->
  let u := EComp k tt es in let cs := map is_const (es : list X) in let ss := map shape_of (es : list X) in let vs := vals D (es : list X) rho in
  exists s s' v, SGk la k cs ss s vs /\ kf k cs ss s (FF vs) = (s', v) /\
    forall seed sd, length seed = size (kshape k ss) ->
      (forall i, (i < length es)%nat -> kseed (N := N) k cs ss s' (map Fin seed) (vsel (N := N) k (FF vs)) v i = option_map (map Fin) (sd i)) ->
      (forall i l, (i < length es)%nat -> sd i = Some l -> length l = size (nth_sh ss i)) ->
      exists e2 m2, autodiff e1 (map Fin seed) m1 = Ok (e2, m2, v) /\
        forall o, In o (refs u) -> exists dvs, opartials D es rho o dvs /\
          (forall p, nth p (map flat (es : list X)) false = true -> forall i, el (nth p dvs []) i = 0) /\
          m2 1%nat o = Some (Fin (al o + sumn (length es) (fun i => match sd i with Some l => ip l (nth i dvs []) | None => 0 end))).
Proof.
  intros HP HK HS HM HD. cbn zeta. set (u := EComp k tt es) in *.
  destruct (session_inv la LL bv ba u D e1 m1 HK HS) as [cv [ca [HF [HI [HG [HW HE]]]]]].
  destruct (inv_facts _ _ _ _ _ _ _ HI) as [F1 [F2 [F3 [F4 [F5 [F6 F7]]]]]]. change (carrier N) with xr in *.
  destruct e1 as [| | |k' an es1| | | | |]; try discriminate HE.
  cbn [er amap] in HE. unfold u in HE. injection HE as -> HEs.
  assert (HEs' : map (@er N) es1 = es) by exact HEs.
  assert (ECS : map is_const (es : list X) = map is_const es1) by (rewrite <- HEs; apply (consts_am (fun _ : ann N => tt))).
  assert (ESS : map shape_of (es : list X) = map shape_of es1) by (rewrite <- HEs; apply (shapes_am (fun _ : ann N => tt))).
  assert (EFS : map flat (es : list X) = map flat es1) by (rewrite <- HEs; apply (flats_am (fun _ : ann N => tt))).
  assert (EVR : forall r, vals D (es : list X) r = fst (dens D es1 r)).
  { intros r. unfold vals. rewrite <- HEs. now rewrite (dens_amap' (fun _ : ann N => tt) D es1). }
  pose proof (EVR rho) as EVS.
  assert (ELN : length es1 = length es) by (rewrite <- HEs; now rewrite map_length).
  rewrite sg_comp in HG. destruct HG as [HG1 HG2].
  cbn [wfs] in HW. rewrite !andb_true_iff in HW. destruct HW as [[[W1 W2] W3] W4].
  assert (DI : @disc N (ann N) (EComp k an es1) = true) by exact (eq_trans F2 (proj1 (proj2 HK))).
  cbn [disc] in DI. rewrite !andb_true_iff in DI. destruct DI as [[[DI1 DI2] DI3] _].
  rewrite HP in DI3. cbn [negb orb] in DI3. rewrite forallb_forall in DI3.
  assert (HD1 : doms D true (fun _ => false) 0 (es1 : list (expr xr (ann N))) rho).
  { pose proof (odoms_doms la D es rho (fun _ => false) 0 (fun _ => eq_refl) HD) as Q. rewrite <- HEs in Q.
    revert Q. apply (doms_amap (fun _ : ann N => tt) D true (fun _ => false) es1).
    apply Forall_forall. intros y _. intros. apply dom_amap. }
  pose proof (domq_s la D _ _ _ _ _ HD1) as HQ.
  destruct (@tf N (liftE la D) (EComp k an es1) (liftE la rho)) as [t r'] eqn:ET. pose proof ET as ET'.
  rewrite tfx_comp in ET. destruct (@tfs N (liftE la D) es1 (liftE la rho)) as [ts r1] eqn:E1.
  destruct (LVs la D es1 (proj2 (Forall_forall _ _) (fun y _ => LV_all la D HKV y)) rho ts r1 W1 HG2 HQ E1) as [V1 ->].
  pose proof (POs la D HKV es1 (proj2 (Forall_forall _ _) (fun y _ => PO_all la D HKV y)) rho ts _ W1 HG2 HQ E1) as P1.
  rewrite V1 in ET. destruct (kf k (map is_const es1) (map shape_of es1) (st an) (FF (fst (dens D es1 rho)))) as [s' v] eqn:EK.
  injection ET as <- <-.
  exists (st an), s', v. rewrite ECS, ESS, EVS.
  split; [exact (SGk_vals la D _ _ _ rho HG1)|]. split; [exact EK|].
  intros seed sd HLs Hsd Hln.
  assert (PO1 : @prod_ok N (EComp k an es1) (@Nd N v s' [] ts)) by (split; [destruct k; try exact I; discriminate HP|exact P1]).
  assert (HLs' : length (map Fin seed) = size (shape_of u)) by (rewrite map_length; exact (eq_trans HLs (f_equal (fun l => size (kshape k l)) (eq_sym ESS)))).
  destruct (top_diff LL bv ba HF u cv ca _ m1 (liftE la D) (liftE la rho) (liftE la al) _ _ (map Fin seed) HI (proj1 (proj2 HK)) HM ET' PO1 HLs')
      as [e2 [m2 [r2 [Q1 [Q2 [Q3 _]]]]]]. exists e2, m2. split; [exact Q1|].
  intros o Ho.
  set (M0 := S (list_max (flat_map refs es1))).
  destruct (GRs la D HKV HKA M0 es1
    (fun _ => false) 0 (set1 rho o) (ind o) (rho o) ts (liftE la (snd (dens D es1 rho))) W1 DI1 (@later_weak N writes eqw es1 (fun e o => eqw_writes e o) DI2) HG2
    (fun i Hi => refs_bound _ i Hi)) as [dvs [dr' [A1 [A2 [A3 [A4 A5]]]]]].
  { now rewrite set1_same. }
  { intros i. apply set1_der. }
  { rewrite set1_same. exact E1. }
  exists dvs. split.
  { intros p i. eapply der_ext; [|exact (A2 p i)]. intros t. cbn beta. now rewrite EVR. }
  split.
  { intros p Hp i. rewrite EFS in Hp. eapply der_unique; [exact (A2 p i)|].
    apply der_loc_const with (c := el (nth p (fst (dens D es1 (set1 rho o (rho o)))) []) i).
    eapply filter_imp; [|exact (A4 p Hp)]. intros t Ht. now rewrite Ht. }
  destruct (A5 sd al) as [al' [B1 [B2 B3]]].
  { intros i Hi. rewrite ELN in Hi. cbn [Nat.add]. specialize (Hln i). destruct (sd i) as [l|].
    - split; [now apply Hln|discriminate].
    - destruct (nth_in_or_default i (map writes es1) []) as [Q|Q]; [|exact Q].
      apply in_map_iff in Q. destruct Q as [y [<- Hy]]. apply nilb_spec, DI3, Hy. }
  destruct Q3 as [Q3 _]. destruct (Q3 o Ho) as [_ Z]. rewrite Z.
  rewrite tbx_comp. rewrite (tbl_tbo la k es1 _ (map Fin seed) (fun j => option_map (map Fin) (sd j))).
  2: { intros j Hj. cbn [nts ns nv]. rewrite notprod_pre by (destruct k; try exact I; discriminate HP). rewrite V1. apply Hsd. rewrite <- ELN. apply Hj. }
  cbn [nts]. change (carrier N) with xr in *. rewrite B1. unfold liftE. do 2 f_equal.
  assert (AS : @asgs N es1 ts = []).
  { destruct (@asgs N es1 ts) as [|a l] eqn:EA; auto. exfalso.
    assert (I : In a (flat_map eqw es1)) by (apply (asgs_eqw2 la es1 ts a); rewrite EA; left; reflexivity).
    apply in_flat_map in I. destruct I as [y [Iy Ia]]. apply eqw_writes in Ia. specialize (DI3 y Iy). apply nilb_spec in DI3. rewrite DI3 in Ia. destruct Ia. }
  rewrite AS in B3. cbn [inb existsb] in B3.
  assert (DR : forall i, dr' i = ind o i).
  { intros i. eapply der_unique; [exact (A3 i)|]. eapply der_ext; [|exact (set1_der rho o i)]. intros t. cbn beta. symmetry.
    apply (KEEPs D es1); [apply Forall_forall; intros y _; apply env_keep|exact W1|].
    intros Q. apply in_flat_map in Q. destruct Q as [y [Iy Ia]]. specialize (DI3 y Iy). apply nilb_spec in DI3. rewrite DI3 in Ia. destruct Ia. }
  assert (HoM : (o < M0)%nat) by (apply refs_bound; rewrite <- F3 in Ho; exact Ho).
  rewrite (sumn_ext M0 (fun o0 => al o0 * dr' o0) (fun i => al i * ind o i)) in B3 by (intros; now rewrite DR).
  rewrite !(sumn_ind M0 o) in B3 by exact HoM. rewrite <- B3. rewrite <- ELN. cbn [Nat.add]. apply Rplus_comm.
Qed.

Lemma vadj_none sd l : forall i a, (forall j, sd j = None) -> vadj sd i l a = a.
Proof. induction l as [|y l IH]; intros i a H; cbn; [reflexivity|]. now rewrite H, IH. Qed.

Lemma idle k (es : list U) D rho v : notprod k -> okexpr la (EComp k tt es) -> odomv la D es rho ->
  let cs := map is_const (es : list X) in let ss := map shape_of (es : list X) in let vs := vals D (es : list X) rho in
  (forall s, SGk la k cs ss s vs -> exists s', kf k cs ss s (FF vs) = (s', v) /\
     forall seed i, kseed (N := N) k cs ss s' seed (vsel (N := N) k (FF vs)) v i = None) ->
  node_idle la k es D rho v.
Proof.
  intros HP HK HO cs ss vs H bv ba e1 m1 al HS HM.
  destruct (node_top bv ba k es D e1 m1 rho al HP HK HS HM HO) as [s [s' [v' [A1 [_ [A2 [A3 A4]]]]]]].
  destruct (H s A1) as [s2 [B1 B2]]. fold cs ss vs in A2. rewrite B1 in A2. injection A2 as <- <-. split; [exact A3|].
  intros seed HL. destruct (A4 seed HL) as [e2 [m2 [C1 C2]]]. exists e2, m2. split; [exact C1|]. intros o Ho.
  rewrite (C2 (fun i _ => or_intror (B2 seed i)) o Ho), vadj_none; [reflexivity|]. intros j. apply B2.
Qed.
(** The same for log-densities, from the state left by the constructor. *)
Lemma idle_stat q (es : list U) D rho v : okexpr la (EComp (KStat q) tt es) -> odomv la D es rho ->
  let cs := map is_const (es : list X) in let ss := map shape_of (es : list X) in let vs := vals D (es : list X) rho in
  (forall gs s0, (forall i, nth i cs false = true -> nth i gs (Ok []) = Ok (map Fin (nth i vs []))) -> stat_init N q cs ss gs = Ok s0 ->
     exists s1, stat_fwd N q cs ss s0 (FF vs) = Ok (s1, v) /\ forall seed i, stat_bwd N q cs ss s1 seed (FF vs) i = None) ->
  node_idle la (KStat q) es D rho [v].
Proof.
  intros HK HO cs ss vs H. apply idle; auto; [exact I|]. fold cs ss vs. intros s [gs [s0 [H1 [H2 H3]]]].
  destruct (H gs s0 H2 H1) as [s1 [E1 E2]].
  destruct (stat_run la q cs ss s (FF vs) gs s0 s1 _ H1 H3 E1) as [s' [K1 K2]]. exists s'. split; [exact K1|].
  intros seed i. cbn [kseed]. unfold vsel. cbn [kget]. rewrite K2. apply E2.
Qed.
Lemma value_of k (es : list U) D rho v : notprod k -> okexpr la (EComp k tt es) -> odomv la D es rho ->
  let cs := map is_const (es : list X) in let ss := map shape_of (es : list X) in let vs := vals D (es : list X) rho in
  (forall s, SGk la k cs ss s vs -> snd (kf k cs ss s (FF vs)) = v) ->
  node_value la k es D rho v.
Proof.
  intros HP HK HO cs ss vs H bv ba e1 m1 al HS HM.
  destruct (node_top bv ba k es D e1 m1 rho al HP HK HS HM HO) as [s [s' [v' [A1 [_ [A2 [A3 A4]]]]]]].
  specialize (H s A1). fold cs ss vs in A2. rewrite A2 in H. cbn in H. subst v'. split; [exact A3|].
  intros seed HL. destruct (A4 seed HL) as [e2 [m2 [C1 _]]]. eauto.
Qed.

(** ** Log-densities *)
Definition IDL (q : stat) (cs : list bool) (ss : list shape) (vs : list (list R)) (v : xr) : Prop :=
  forall gs s0, (forall i, nth i cs false = true -> nth i gs (Ok []) = Ok (map Fin (nth i vs []))) -> stat_init N q cs ss gs = Ok s0 ->
     exists s1, stat_fwd N q cs ss s0 (FF vs) = Ok (s1, v) /\ forall seed i, stat_bwd N q cs ss s1 seed (FF vs) i = None.
Lemma idle_ss q (es : list U) D rho v : okexpr la (EComp (KStat q) tt es) -> odomv la D es rho ->
  (forall cs ss vs, cs = map is_const (es : list X) -> ss = map shape_of (es : list X) -> vs = vals D (es : list X) rho ->
    forallb shape_ok ss = true -> stat_shape_ok q ss = true -> kdim_ok (KStat q) ss = true -> lensR vs ss -> IDL q cs ss vs v) ->
  node_idle la (KStat q) es D rho [v].
Proof.
  intros HK HO H. apply idle_stat; auto. destruct (ok_shapes la _ _ HK) as [HS HW].
  unfold kshape_ok in HS. apply andb_true_iff in HS. destruct HS as [HS1 HS2]. pose proof HK as [K1 _]. cbn [wfs] in K1. rewrite !andb_true_iff in K1.
  apply (H _ _ _ eq_refl eq_refl eq_refl); auto; [tauto|]. now apply vals_lens.
Qed.
Ltac xn := 
  change (carrier N) with xr in *;
  change (n0 N) with (Fin 0) in *; change (n1 N) with (Fin 1) in *; change (nhalf N) with (Fin (1/2)) in *;
  change (nadd N) with xadd in *; change (nsub N) with xsub in *; change (nmul N) with xmul in *;
  change (ndiv N) with xdiv in *; change (nopp N) with xopp in *; change (nlog N) with xlog in *;
  change (nltb N) with xltb in *; change (nleb N) with xleb in *; change (neqb N) with xeqb in *;
  change (nsum N) with xsum in *; change (n2 N) with (Fin 2) in *;
  change (nninf N) with NInf in *.
Ltac shp HW HS HL :=
  match type of HL with lensR ?vs ?ss =>
  destruct ss as [|[ka na ca] [|[kb nb cb] [|[kc nc cc] [|]]]]; try discriminate HS;
  unfold stat_shape_ok, is_vecn, is_sqmat, nth_sh in HS; cbn [nth rows] in HS;
  rewrite ?andb_true_iff in HS; repeat match goal with H : _ /\ _ |- _ => destruct H end;
  cbn [forallb] in HW; rewrite ?andb_true_iff in HW; repeat match goal with H : _ /\ _ |- _ => destruct H end;
  repeat match goal with H : shape_eqb _ _ = true |- _ => apply shape_eqb_eq in H; injection H; intros; subst; clear H end;
  repeat match goal with H : is_scl ?s = true, H2 : shape_ok ?s = true |- _ =>
     apply (scl_eq s H2) in H; injection H; intros; subst; clear H end;
  repeat match goal with H : lensR _ (_ :: _) |- _ => inversion H; subst; clear H
     | H : Forall2 _ _ _ |- _ => inversion H; subst; clear H end;
  repeat match goal with H : length ?l = size _ |- _ =>
     unfold size in H; cbn [rows cols] in H; rewrite ?Nat.mul_1_r in H end;
  repeat match goal with H : length ?l = 1%nat |- _ => destruct l as [|? [|]]; try discriminate H; clear H end
  end.
Ltac ini HI HG gs := unfold stat_init, cst in HI; xn;
  repeat match type of HI with context [if ?b then _ else _] =>
     lazymatch b with context [if _ then _ else _] => fail | nth _ _ _ => destruct b eqn:? end end;
  repeat match goal with C : nth ?i ?cs false = true |- _ => lazymatch goal with
     | _ : nth i gs (Ok []) = _ |- _ => fail | _ => pose proof (HG i C) end end;
  repeat match goal with Hg : nth ?i gs (Ok []) = Ok _ |- _ => rewrite Hg in HI; clear Hg end;
  cbn [bindR nth] in HI.
Ltac ini3 HI HG gs cs := unfold stat_init, cst in HI; xn;
  destruct (nth 0 cs false) eqn:C0, (nth 1 cs false) eqn:C1, (nth 2 cs false) eqn:C2; cbn [andb] in HI; ini HI HG gs.
Ltac proj := unfold set_sa, set_sab, set_sb, set_sbc, set_scd, set_sbcd, set_fa, set_fb, set_mb, sst0 in *; cbn [sa sb sc sd fa fb ma mb mc] in *.
Ltac evl := unfold stat_fwd, stat_bwd, cst, norm_upd_s, norm_upd_v, norm_upd_m, uni_upd, uni_updx, ber_upd, ber_updx, uni_in, arg, hd0, FF;
  cbn [nth hd map]; xn; repeat match goal with C : nth ?i ?cs false = _ |- context [nth ?i ?cs false] => rewrite C end; proj; cbn [andb negb].
Ltac upd HI := unfold norm_upd_s, norm_upd_v, norm_upd_m, hd0 in HI; proj.

Ltac fam H := cbn in H; repeat (destruct H as [H|H]; [subst|]); try contradiction.
Lemma seed0 seed : (if xeqb seed (Fin 0) then @None (list xr) else None) = None.
Proof. now destruct (xeqb seed (Fin 0)). Qed.
Lemma allpos_f v j : (j < length v)%nat -> el v j <= 0 -> allpos N (map Fin v) = false.
Proof.
  revert j. induction v as [|a v IH]; intros j Hj H; [cbn in Hj; lia|]. cbn [map allpos forallb]. destruct j.
  - cbn in H. apply andb_false_intro1. unfold pos. xn. cbn. apply rltb_f. exact H.
  - apply andb_false_intro2. apply (IH j); [cbn in Hj; lia|exact H].
Qed.
Lemma rleb_t x y : x <= y -> rleb x y = true.
Proof. intros H. unfold rleb. destruct (Rle_dec x y); tauto. Qed.

Lemma idl_norm q cs ss vs j : In q fam_norm -> forallb shape_ok ss = true -> stat_shape_ok q ss = true -> lensR vs ss ->
  (j < size (nth_sh ss 2))%nat -> el (nth 2 vs []) j <= 0 -> IDL q cs ss vs NInf.
Proof.
  intros HQ HW HS HL Hj HN gs s0 HG HI. fam HQ; shp HW HS HL; cbn [nth] in HN; cbn in Hj.
  1-3: assert (j = 0%nat) by lia; subst j; cbn in HN;
    ini3 HI HG gs cs; try (destruct (meanco N _); [|discriminate HI]; cbn [bindR] in HI);
    injection HI as <-; (eexists; split; [evl; rewrite xleb_fin, (rleb_t _ _ HN); reflexivity|]);
    intros seed i; evl; rewrite xleb_fin, (rleb_t _ _ HN); apply seed0.
  all: rewrite Nat.mul_1_r in Hj; match type of HN with el ?z _ <= 0 => assert (AP : allpos N (map Fin z) = false) by (apply (allpos_f z j); [lia|exact HN]) end;
    xn; ini3 HI HG gs cs; upd HI; xn; rewrite ?AP in HI; injection HI as <-; (eexists; split; [evl; rewrite ?AP; reflexivity|]);
    intros seed i; evl; rewrite ?AP; cbn [negb fa]; apply seed0.
Qed.
Lemma idl_cau q cs ss vs j : In q fam_cau -> forallb shape_ok ss = true -> stat_shape_ok q ss = true -> lensR vs ss ->
  (j < size (nth_sh ss 2))%nat -> el (nth 2 vs []) j <= 0 -> IDL q cs ss vs NInf.
Proof.
  intros HQ HW HS HL Hj HN gs s0 HG HI.
  assert (PF : forall r, r <= 0 -> pos N (Fin r) = false) by (intros r Hr; unfold pos; xn; cbn; now apply rltb_f).
  assert (AF : forall z : list R, (j < length z)%nat -> el z j <= 0 -> allpos N (map Fin z) = false) by (intros; apply (allpos_f _ j); auto).
  fam HQ; shp HW HS HL; cbn [nth] in HN; cbn in Hj; rewrite ?Nat.mul_1_r in Hj; cbn in HI; injection HI as <-; xn;
    try (assert (j = 0%nat) by lia; subst j; cbn in HN; specialize (PF _ HN));
    try (match type of HN with el ?z _ <= 0 => assert (AF' : allpos N (map Fin z) = false) by (apply AF; [lia|exact HN]); xn end);
    (eexists; split; [evl; first [rewrite PF|rewrite AF']; reflexivity|]);
    intros seed i; evl; first [rewrite PF|rewrite AF']; apply seed0.
Qed.
Lemma mvn_llt n S : length S = (n * n)%nat -> symm n (m_of n S) -> ~ posdef n (m_of n S) -> llt_ok xr la n (map Fin S) = false.
Proof.
  intros L HS HP. destruct (llt_ok xr la n (map Fin S)) eqn:Q; auto. exfalso. apply HP. apply (la_llt_ok la LA n S L HS). exact Q.
Qed.
Lemma idl_mvn q cs ss vs : In q fam_mvn -> forallb shape_ok ss = true -> stat_shape_ok q ss = true -> lensR vs ss ->
  symm (rows (nth_sh ss 0)) (m_of (rows (nth_sh ss 0)) (nth 2 vs [])) -> ~ posdef (rows (nth_sh ss 0)) (m_of (rows (nth_sh ss 0)) (nth 2 vs [])) ->
  IDL q cs ss vs NInf.
Proof.
  intros HQ HW HS HL HY HN gs s0 HG HI.
  fam HQ; shp HW HS HL; cbn [nth nth_sh rows] in HY, HN;
  match type of HY with symm ?n (m_of ?n ?S) => assert (LF : llt_ok xr la n (map Fin S) = false) by (apply mvn_llt; auto) end;
    xn; ini3 HI HG gs cs; upd HI; unfold nth_sh in HI; cbn [nth rows nla XR] in HI; rewrite ?LF in HI; injection HI as <-;
    (eexists; split; [evl; unfold nth_sh; cbn [nth rows nla XR]; rewrite ?LF; reflexivity|]);
    intros seed i; evl; rewrite ?LF; cbn [negb fa]; apply seed0.
Qed.
(** *** Uniform *)
Lemma fold_min l : forall a b, fold_left (nmin N) (map Fin l) (Fin a) = Fin b -> b <= a /\ forall c, In c l -> b <= c.
Proof.
  induction l as [|c l IH]; intros a b H; cbn [map fold_left] in H; [injection H as ->; split; [lra|intros ? []]|].
  unfold nmin in H at 2. xn. cbn [xltb] in H. destruct (rltb c a) eqn:Q.
  - destruct (IH c b H) as [H1 H2]. unfold rltb in Q. destruct (Rlt_dec c a); [|discriminate]. split; [lra|]. intros d [<-|Hd]; auto.
  - destruct (IH a b H) as [H1 H2]. unfold rltb in Q. destruct (Rlt_dec c a); [discriminate|]. split; [lra|]. intros d [<-|Hd]; [lra|auto].
Qed.
Lemma fold_max l : forall a b, fold_left (nmax N) (map Fin l) (Fin a) = Fin b -> a <= b /\ forall c, In c l -> c <= b.
Proof.
  induction l as [|c l IH]; intros a b H; cbn [map fold_left] in H; [injection H as ->; split; [lra|intros ? []]|].
  unfold nmax in H at 2. xn. cbn [xltb] in H. destruct (rltb a c) eqn:Q.
  - destruct (IH c b H) as [H1 H2]. unfold rltb in Q. destruct (Rlt_dec a c); [|discriminate]. split; [lra|]. intros d [<-|Hd]; auto.
  - destruct (IH a b H) as [H1 H2]. unfold rltb in Q. destruct (Rlt_dec a c); [discriminate|]. split; [lra|]. intros d [<-|Hd]; [lra|auto].
Qed.
Lemma minco_le x n j : length x = n -> (j < n)%nat -> exists m, minco N (map Fin x) = Ok (Fin m) /\ m <= el x j.
Proof.
  intros L Hj. destruct (minco_fin la x n L ltac:(lia)) as [i [Hi E]]. exists (el x i). split; [exact E|].
  destruct x as [|a x]; [cbn in L; lia|]. unfold minco in E. cbn [map] in E. injection E as E. apply fold_min in E. destruct E as [E1 E2].
  destruct j; [exact E1|]. apply (E2 (el x j)). apply nth_In. cbn in L. lia.
Qed.
Lemma maxco_ge x n j : length x = n -> (j < n)%nat -> exists m, maxco N (map Fin x) = Ok (Fin m) /\ el x j <= m.
Proof.
  intros L Hj. destruct (maxco_fin la x n L ltac:(lia)) as [i [Hi E]]. exists (el x i). split; [exact E|].
  destruct x as [|a x]; [cbn in L; lia|]. unfold maxco in E. cbn [map] in E. injection E as E. apply fold_max in E. destruct E as [E1 E2].
  destruct j; [exact E1|]. apply (E2 (el x j)). apply nth_In. cbn in L. lia.
Qed.
Lemma forall2b_f (f : xr -> xr -> bool) x : forall y j, length x = length y -> (j < length x)%nat ->
  f (Fin (el x j)) (Fin (el y j)) = false -> forall2b N f (map Fin x) (map Fin y) = false.
Proof.
  induction x as [|a x IH]; intros [|b y] j L Hj H; cbn in *; try lia. destruct j.
  - unfold forall2b. cbn. apply andb_false_intro1. exact H.
  - unfold forall2b. cbn [combine map forallb]. apply andb_false_intro2. apply (IH y j); auto; lia.
Qed.
Lemma xltb_f a b : b <= a -> xltb (Fin a) (Fin b) = false.
Proof. intros. cbn. now apply rltb_f. Qed.
Lemma bindO {A B} (x : A) (f : A -> res B) : (a <- Ok x ;; f a) = f x.
Proof. reflexivity. Qed.
Lemma idl_uni q cs ss vs j (x := ent (nth_sh ss 0) (nth 0 vs [])) (a := ent (nth_sh ss 1) (nth 1 vs [])) (b := ent (nth_sh ss 2) (nth 2 vs [])) :
  In q fam_uni -> forallb shape_ok ss = true -> stat_shape_ok q ss = true -> lensR vs ss ->
  (j < rows (nth_sh ss 0))%nat -> ~ (a j < x j < b j) ->
  (q = UniVSV -> nth 0 cs false = true -> nth 2 cs false = true) -> (q = UniVVS -> nth 0 cs false = true -> nth 1 cs false = true) ->
  IDL q cs ss vs NInf.
Proof.
  intros HQ HW HS HL Hj HN HC1 HC2 gs s0 HG HI.
  assert (HN' : x j <= a j \/ b j <= x j) by lra. clear HN. subst x a b.
  fam HQ; shp HW HS HL; unfold nth_sh in HN', Hj; cbn [nth rows] in HN', Hj; unfold ent in HN'; cbn [is_scl kind sk_eqb scl] in HN'; xn.
  - assert (j = 0%nat) by lia; subst j. cbn in HN'.
    destruct HN' as [HN|HN]; ini3 HI HG gs cs; injection HI as <-; (eexists; split; [evl; rewrite (xltb_f _ _ HN), ?andb_false_r; reflexivity|]);
    intros seed i; evl; rewrite (xltb_f _ _ HN), ?andb_false_r; cbn [negb andb]; apply seed0.
  - match goal with L : length ?x = na |- _ => destruct (minco_le x na j L Hj) as [m1 [M1 L1]]; destruct (maxco_ge x na j L Hj) as [m2 [M2 L2]] end.
    change (el [?q] 0) with q in *. xn.
    match type of HN' with (_ <= ?p) \/ (?q <= _) => assert (HN : m1 <= p \/ q <= m2) by (cbn in HN'; cbn; lra) end. cbn in HN.
    destruct HN as [HN|HN]; ini3 HI HG gs cs; unfold uni_updx in HI; xn; rewrite ?M1, ?M2 in HI; cbn [bindR] in HI; injection HI as <-;
    (eexists; split; [evl; rewrite ?M1, ?M2; cbn [bindR]; proj; rewrite (xltb_f _ _ HN), ?andb_false_r; reflexivity|]);
    intros seed i; evl; rewrite (xltb_f _ _ HN), ?andb_false_r; cbn [negb andb]; apply seed0.
  - match goal with |- context [FF [?x; [?p]; ?z]] => destruct (minco_le x na j ltac:(assumption) Hj) as [m1 [M1 L1]];
      assert (HN : m1 <= p \/ forall2b N (fun u v => nltb N u v) (map Fin x) (map Fin z) = false) end.
    { destruct HN' as [HN|HN]; [left; cbn in HN; lra|right]. eapply (forall2b_f _ _ _ j); [lia|lia|]. now apply xltb_f. } xn. specialize (HC1 eq_refl).
    destruct HN as [HN|HN]; ini3 HI HG gs cs; try (specialize (HC1 eq_refl); discriminate); unfold uni_updx in HI; xn; rewrite ?M1 in HI; cbn [bindR] in HI; injection HI as <-;
    (eexists; split; [evl; rewrite ?M1; cbn [bindR]; proj; first [rewrite (xltb_f _ _ HN)|rewrite ?HN]; rewrite ?andb_false_r; reflexivity|]);
    intros seed i; evl; first [rewrite (xltb_f _ _ HN)|rewrite ?HN]; rewrite ?andb_false_r; cbn [negb andb]; apply seed0.
  - match goal with |- context [FF [?x; ?z; [?p]]] => destruct (maxco_ge x na j ltac:(assumption) Hj) as [m1 [M1 L1]];
      assert (HN : p <= m1 \/ forall2b N (fun u v => nltb N v u) (map Fin x) (map Fin z) = false) end.
    { destruct HN' as [HN|HN]; [right|left; cbn in HN; lra]. eapply (forall2b_f _ _ _ j); [lia|lia|]. now apply xltb_f. } xn. specialize (HC2 eq_refl).
    destruct HN as [HN|HN]; ini3 HI HG gs cs; try (specialize (HC2 eq_refl); discriminate); unfold uni_updx in HI; xn; rewrite ?M1 in HI; cbn [bindR] in HI; injection HI as <-;
    (eexists; split; [evl; rewrite ?M1; cbn [bindR]; proj; first [rewrite (xltb_f _ _ HN)|rewrite ?HN]; rewrite ?andb_false_r; reflexivity|]);
    intros seed i; evl; first [rewrite (xltb_f _ _ HN)|rewrite ?HN]; rewrite ?andb_false_r; cbn [negb andb]; apply seed0.
  - match goal with |- context [FF [?x; ?y; ?z]] =>
      assert (HN : forall2b N (fun u v => nltb N v u) (map Fin x) (map Fin y) = false \/ forall2b N (fun u v => nltb N u v) (map Fin x) (map Fin z) = false) end.
    { destruct HN' as [HN|HN]; [left|right]; eapply (forall2b_f _ _ _ j); try lia; now apply xltb_f. } xn.
    destruct HN as [HN|HN]; ini3 HI HG gs cs; cbn [bindR] in HI; injection HI as <-;
    (eexists; split; [evl; proj; rewrite HN; rewrite ?andb_false_r; reflexivity|]);
    intros seed i; evl; rewrite ?HN; rewrite ?andb_false_r; cbn [negb andb]; apply seed0.
Qed.

(** *** Seeds of log-densities at arbitrary points *)
Definition ADD (q : stat) (cs : list bool) (ss : list shape) (vs : list (list R)) (v : xr) (F : R -> list (list R) -> R) : Prop :=
  forall gs s0, (forall i, nth i cs false = true -> nth i gs (Ok []) = Ok (map Fin (nth i vs []))) -> stat_init N q cs ss gs = Ok s0 ->
    exists s1, stat_fwd N q cs ss s0 (FF vs) = Ok (s1, v) /\
      forall seed, seed <> 0 -> exists sd, (forall i, (i < length ss)%nat -> stat_bwd N q cs ss s1 (Fin seed) (FF vs) i = option_map (map Fin) (sd i)) /\
        (forall i l, (i < length ss)%nat -> sd i = Some l -> length l = size (nth_sh ss i)) /\
        forall dvs, F seed dvs = sumn (length ss) (fun i => match sd i with Some l => ip l (nth i dvs []) | None => 0 end).
Lemma adds_ss q (es : list U) D rho v F : okexpr la (EComp (KStat q) tt es) -> odoms la D es rho -> (forall dvs, F 0 dvs = 0) ->
  (forall cs ss vs, cs = map is_const (es : list X) -> ss = map shape_of (es : list X) -> vs = vals D (es : list X) rho ->
    forallb shape_ok ss = true -> stat_shape_ok q ss = true -> kdim_ok (KStat q) ss = true -> lensR vs ss -> ADD q cs ss vs v F) ->
  node_adds la (KStat q) es D rho [v] (fun seed d => F (el seed 0) d).
Proof.
  intros HK HO HZ H bv ba e1 m1 al seed HS HM HL. destruct (ok_shapes la _ _ HK) as [HSh HW].
  destruct (node_seeds bv ba (KStat q) es D e1 m1 rho al eq_refl HK HS HM HO) as [s [s' [v' [[gs [s0 [G1 [G2 G3]]]] [A2 A3]]]]].
  unfold kshape_ok in HSh. apply andb_true_iff in HSh. destruct HSh as [HS1 HS2]. pose proof HK as [K1 _]. cbn [wfs] in K1. rewrite !andb_true_iff in K1.
  destruct (H _ _ _ eq_refl eq_refl eq_refl HS1 HS2 ltac:(tauto) (vals_lens la es D rho HW) gs s0 G2 G1) as [s1 [E1 E2]].
  destruct (stat_run la q _ _ s _ gs s0 s1 _ G1 G3 E1) as [s2 [K3 K4]]. 
  pose proof (eq_trans (eq_sym A2) K3) as EE. injection EE as -> ->.
  destruct seed as [|x [|]]; try discriminate HL. change (el [x] 0) with x. clear HL.
  assert (SZ : exists sd, (forall i, (i < length es)%nat -> stat_bwd N q (map is_const (es : list X)) (map shape_of (es : list X)) s1 (Fin x) (FF (vals D (es : list X) rho)) i = option_map (map Fin) (sd i)) /\
     (forall i l, (i < length es)%nat -> sd i = Some l -> length l = size (nth_sh (map shape_of (es : list X)) i)) /\
     (forall dvs, F x dvs = sumn (length es) (fun i => match sd i with Some l => ip l (nth i dvs []) | None => 0 end))).
  { destruct (Req_EM_T x 0) as [->|NZ].
    - exists (fun _ => None). split; [intros i Hi; unfold stat_bwd; xn; cbn [xeqb]; now rewrite reqb_refl|]. split; [discriminate|].
      intros dvs. rewrite HZ. rewrite sumn_const. ring.
    - specialize (E2 x NZ). rewrite !map_length in E2. exact E2. }
  destruct SZ as [sd [S1 [S2 S3]]].
  destruct (A3 [x] sd eq_refl) as [e2 [m2 [B1 B2]]]; auto.
  { intros i Hi. cbn [kseed]. unfold vsel. cbn [kget]. rewrite K4. apply (S1 i Hi). }
  exists e2, m2. split; [exact B1|]. intros o Ho. destruct (B2 o Ho) as [dvs [D1 [_ D2]]]. exists dvs. split; [exact D1|]. rewrite D2, S3. reflexivity.
Qed.

(** *** Bernoulli *)
Lemma xsumn_tab n g : xsum (tab n g) = xsumn n g.
Proof.
  induction n; [reflexivity|]. rewrite tab_S. unfold xsum in *. rewrite fold_left_app. cbn [fold_left xsumn]. now rewrite IHn.
Qed.
Lemma xsumn_fin n h g : (forall j, (j < n)%nat -> g j = Fin (h j)) -> xsumn n g = Fin (sumn n h).
Proof. intros H. rewrite <- xsumn_tab. now apply xsum_tab. Qed.
Lemma xsumn_ni n g j : (forall j, (j < n)%nat -> (exists r, g j = Fin r) \/ g j = NInf) -> (j < n)%nat -> g j = NInf -> xsumn n g = NInf.
Proof.
  intros H Hj Hg.
  assert (Q : forall m, (m <= n)%nat -> ((exists r, xsumn m g = Fin r) \/ xsumn m g = NInf) /\ ((j < m)%nat -> xsumn m g = NInf)).
  { induction m; intros Hm; cbn [xsumn]; [split; [left; eauto|lia]|]. destruct (IHm ltac:(lia)) as [I1 I2].
    destruct (H m ltac:(lia)) as [[r E]|E].
    - rewrite E. split.
      + destruct I1 as [[q Q]|Q]; rewrite Q; [left; eexists; reflexivity|right; reflexivity].
      + intros Hjm. destruct (Nat.eq_dec j m); [subst; congruence|]. rewrite I2 by lia. reflexivity.
    - rewrite E. split; [right|intros _]; destruct I1 as [[q Q]|Q]; rewrite Q; reflexivity. }
  apply (Q n); lia.
Qed.

Lemma b01_cases n f : (forall j, (j < n)%nat -> f j = 0 \/ f j = 1) ->
  0 <= sumn n f /\ ((sumn n f = 0 /\ forall j, (j < n)%nat -> f j = 0) \/ (sumn n f <> 0 /\ exists j, (j < n)%nat /\ f j = 1)).
Proof.
  induction n; intros H; cbn [sumn]; [split; [lra|left; split; [reflexivity|intros; lia]]|].
  destruct (IHn ltac:(intros; apply H; lia)) as [P [[E Z]|[E [j [Hj Z]]]]]; destruct (H n ltac:(lia)) as [Q|Q]; rewrite Q.
  - split; [lra|]. left. split; [lra|]. intros j Hj. destruct (Nat.eq_dec j n); [now subst|apply Z; lia].
  - split; [lra|]. right. split; [lra|]. exists n. split; [lia|exact Q].
  - split; [lra|]. right. split; [lra|]. exists j. split; [lia|exact Z].
  - split; [lra|]. right. split; [lra|]. exists n. split; [lia|exact Q].
Qed.
Lemma b01_casesn n f : (forall j, (j < n)%nat -> f j = 0 \/ f j = 1) ->
  (sumn n f = INR n /\ forall j, (j < n)%nat -> f j = 1) \/ (sumn n f <> INR n /\ exists j, (j < n)%nat /\ f j = 0).
Proof.
  intros H. assert (E : sumn n (fun j => 1 - f j) = INR n - sumn n f) by (rewrite sumn_minus, sumn_const; ring).
  destruct (b01_cases n (fun j => 1 - f j)) as [_ [[Z A]|[Z [j [Hj A]]]]].
  - intros j Hj. destruct (H j Hj) as [-> | ->]; [right|left]; ring.
  - left. split; [lra|]. intros j Hj. specialize (A j Hj). cbn in A. lra.
  - right. split; [lra|]. exists j. split; [exact Hj|]. cbn in A. lra.
Qed.
Lemma blp_sort x p : (exists r, ber_lp x p = Fin r) \/ ber_lp x p = NInf.
Proof. unfold ber_lp. repeat match goal with |- context [if ?b then _ else _] => destruct b end; eauto. Qed.
Lemma blp_in x p : x = 0 \/ x = 1 -> 0 < p < 1 -> ber_lp x p = Fin (x * ln p + (1 - x) * ln (1 - p)).
Proof.
  intros HX HP. unfold ber_lp. destruct (Req_EM_T x 1) as [->|].
  - destruct (Rle_dec p 0), (Rle_dec 1 p); try lra. f_equal. ring.
  - destruct HX as [->|]; [|lra]. destruct (Req_EM_T 0 0); [|lra]. destruct (Rle_dec 1 p), (Rle_dec p 0); try lra. f_equal. ring.
Qed.
Lemma blp_v x p r : (x = 1 /\ p <= 0 /\ r = NInf) \/ (x = 1 /\ 1 <= p /\ r = Fin 0) \/ (x = 0 /\ p <= 0 /\ r = Fin 0) \/ (x = 0 /\ 1 <= p /\ r = NInf) -> ber_lp x p = r.
Proof.
  unfold ber_lp. intros [[-> [H ->]]|[[-> [H ->]]|[[-> [H ->]]|[-> [H ->]]]]];
  repeat match goal with |- context [if ?b then _ else _] => destruct b end; try lra; reflexivity.
Qed.
Lemma bdlp_out x p : p <= 0 \/ 1 <= p -> ber_dlp x p = 0.
Proof. intros H. unfold ber_dlp. destruct (Rlt_dec 0 p), (Rlt_dec p 1); lra. Qed.
Lemma bdlp_in x p : 0 < p < 1 -> ber_dlp x p = ber_dp x p.
Proof. intros H. unfold ber_dlp. destruct (Rlt_dec 0 p), (Rlt_dec p 1); lra. Qed.
Lemma in01_f p : p <= 0 \/ 1 <= p -> in01 N (Fin p) = false.
Proof. intros H. unfold in01. xn. cbn. destruct H; [apply andb_false_intro1|apply andb_false_intro2]; now apply rltb_f. Qed.
Lemma fold_ni l : (forall v, In v l -> (exists r, v = Fin r) \/ v = NInf) -> fold_left xadd l NInf = NInf.
Proof.
  induction l as [|v l IH]; intros H; cbn; [reflexivity|]. destruct (H v (or_introl eq_refl)) as [[r ->]| ->]; cbn; apply IH; intros; apply H; now right.
Qed.
Lemma map2_sort x : forall y v, In v (map2 ber_lp x y) -> (exists r, v = Fin r) \/ v = NInf.
Proof. induction x as [|a x IH]; intros [|b y] v; cbn; try tauto. intros [<-|H]; [apply blp_sort|eauto]. Qed.
Lemma clip x : forall y a, length x = length y -> (forall j, (j < length x)%nat -> el x j = 0 \/ el x j = 1) ->
  ber_clip N (Fin a) (map Fin x) (map Fin y) = fold_left xadd (map2 ber_lp x y) (Fin a).
Proof.
  induction x as [|u x IH]; intros [|p y] a L H; try discriminate L; [reflexivity|].
  pose proof (H 0%nat ltac:(cbn; lia)) as HU. cbn in HU.
  assert (IH' : forall a, ber_clip N (Fin a) (map Fin x) (map Fin y) = fold_left xadd (map2 ber_lp x y) (Fin a)).
  { intros b. apply IH; [cbn in L; lia|]. intros j Hj. apply (H (S j)). cbn. lia. }
  cbn [map ber_clip map2 fold_left]. xn. rewrite !xleb_fin. cbn [xeqb].
  assert (FN : fold_left xadd (map2 ber_lp x y) NInf = NInf) by (apply fold_ni; intros; eapply map2_sort; eauto).
  assert (A0 : Fin (a + 0) = Fin a) by (f_equal; ring).
  destruct (Rle_dec p 0) as [P|P]; [|destruct (Rle_dec 1 p) as [Q|Q]].
  - rewrite (rleb_t p 0), (rleb_f 1 p), in01_f by (auto; lra). cbn [andb]. destruct HU as [-> | ->]; rewrite ?reqb_refl, ?req10; cbn [negb].
    + rewrite (blp_v 0 p (Fin 0)) by tauto. cbn [xadd]. rewrite A0. apply IH'.
    + rewrite (blp_v 1 p NInf) by tauto. cbn [xadd]. now rewrite FN.
  - rewrite (rleb_f p 0), (rleb_t 1 p), in01_f by (auto; lra). cbn [andb]. destruct HU as [-> | ->]; rewrite ?reqb_refl, ?req01; cbn [negb].
    + rewrite (blp_v 0 p NInf) by tauto. cbn [xadd]. now rewrite FN.
    + rewrite (blp_v 1 p (Fin 0)) by tauto. cbn [xadd]. rewrite A0. apply IH'.
  - rewrite (rleb_f p 0), (rleb_f 1 p), in01_t by lra. cbn [andb]. rewrite blp_in by (auto; lra). destruct HU as [-> | ->]; rewrite ?reqb_refl, ?req01.
    + change (xsub (Fin 1) (Fin p)) with (Fin (1 + - p)). rewrite xlog_fin by lra. cbn [xadd]. rewrite <- IH'. do 2 f_equal. unfold Rminus. ring.
    + rewrite xlog_fin by lra. cbn [xadd]. rewrite <- IH'. do 2 f_equal. unfold Rminus. ring.
Qed.
Lemma is01_all n x : length x = n -> (forall j, (j < n)%nat -> el x j = 0 \/ el x j = 1) -> forallb (is01 N) (map Fin x) = true.
Proof. intros L H. apply (fin_all _ n); auto. intros. apply is01_t; auto. Qed.
Lemma is01_none x j : (j < length x)%nat -> ~ (el x j = 0 \/ el x j = 1) -> forallb (is01 N) (map Fin x) = false.
Proof.
  revert j. induction x as [|a x IH]; intros j Hj H; cbn in *; [lia|]. destruct j.
  - apply andb_false_intro1. unfold is01. xn. cbn. rewrite !reqb_f; auto.
  - apply andb_false_intro2. apply (IH j); auto. lia.
Qed.
Lemma idl_ber q cs ss vs j (x := ent (nth_sh ss 0) (nth 0 vs [])) : In q fam_ber -> forallb shape_ok ss = true -> stat_shape_ok q ss = true -> lensR vs ss ->
  (j < rows (nth_sh ss 0))%nat -> ~ (x j = 0 \/ x j = 1) -> IDL q cs ss vs NInf.
Proof.
  intros HQ HW HS HL Hj HN gs s0 HG HI. subst x.
  fam HQ; shp HW HS HL; unfold nth_sh in HN, Hj; cbn [nth rows] in HN, Hj; unfold ent in HN; cbn [is_scl kind sk_eqb scl] in HN; xn.
  - change (el [?q] 0) with q in HN. match goal with |- context [FF [[?x]; [?p]]] => rename x into xx, p into pp end. assert (Q0 : reqb xx 0 = false) by (apply reqb_f; tauto). assert (Q1 : reqb xx 1 = false) by (apply reqb_f; tauto).
    ini HI HG gs; injection HI as <-; (eexists; split; [evl; cbn [xeqb]; rewrite Q0, Q1; apply f_equal, f_equal2; [reflexivity|]; 
      destruct (negb (in01 N (Fin pp))), (xleb (Fin pp) (Fin 0)); reflexivity|]);
    intros seed i; evl; unfold is01; xn; cbn [xeqb]; rewrite Q0, Q1; cbn [orb negb]; rewrite orb_true_r; apply seed0.
  - match goal with |- context [FF [?x; [?p]]] => assert (HX : forallb (is01 N) (map Fin x) = false) by (apply (is01_none x j); [lia|exact HN]); rename p into pp end. xn.
    ini HI HG gs; unfold ber_updx, ber_upd, hd0 in HI; xn; rewrite ?HX in HI; injection HI as <-; (eexists; split; [evl; rewrite ?HX, ?andb_false_r; apply f_equal, f_equal2; [reflexivity|]; 
      destruct (in01 N (Fin pp)), (xleb (Fin pp) (Fin 0)); proj; cbn [negb]; rewrite ?HX, ?andb_false_r; reflexivity|]);
    intros seed i; evl; rewrite ?HX; cbn [negb]; destruct (in01 N (Fin pp)); cbn [negb orb fa]; apply seed0.
  - match goal with |- context [FF [?x; ?p]] => assert (HX : forallb (is01 N) (map Fin x) = false) by (apply (is01_none x j); [lia|exact HN]) end. xn.
    ini HI HG gs; unfold ber_updx, ber_upd, hd0 in HI; xn; rewrite ?HX in HI; injection HI as <-; (eexists; split; [evl; rewrite ?HX; reflexivity|]);
    intros seed i; evl; rewrite ?HX; cbn [negb fa]; apply seed0.
Qed.

Lemma nofn_R n : nofn N n = Fin (INR n).
Proof. change (nofn N n) with (Fin (IZR (Z.of_nat n))). now rewrite IZN. Qed.
Notation vec n := (Sh Vec n 1).
Ltac fin := unfold nsq; xn;
  repeat (first [rewrite xadd_fin | rewrite xsub_fin | rewrite xmul_fin | rewrite xopp_fin | rewrite xdiv_fin by lra | rewrite xlog_fin by lra | rewrite reqb_f by lra | rewrite rltb_t by lra]).
Lemma sd_two sx sp n (G : nat -> R) (b : nat -> option (list xr)) seed (o : option (list R)) :
  (is_scl sp = false -> size sp = n) -> (is_scl sp = true -> size sp = 1%nat) ->
  b 0%nat = None -> b 1%nat = option_map (map Fin) o ->
  (o = Some (agg sp n (fun j => seed * G j)) \/ (o = None /\ forall j, (j < n)%nat -> G j = 0)) ->
  exists sd, (forall i, (i < length [sx; sp])%nat -> b i = option_map (map Fin) (sd i)) /\
    (forall i l, (i < length [sx; sp])%nat -> sd i = Some l -> length l = size (nth_sh [sx; sp] i)) /\
    forall dvs, seed * sumn n (fun j => G j * ent sp (nth 1 dvs []) j) = sumn (length [sx; sp]) (fun i => match sd i with Some l => ip l (nth i dvs []) | None => 0 end).
Proof.
  intros H1 H2 B0 B1 HO. exists (fun i => match i with 1%nat => o | _ => None end). split; [|split].
  - intros i Hi. cbn in Hi. destruct i as [|[|i]]; [exact B0|exact B1|lia].
  - intros i l Hi E. cbn in Hi. destruct i as [|[|i]]; [discriminate E| |lia]. unfold nth_sh. cbn [nth]. destruct HO as [HO|[HO _]]; rewrite HO in E; [|discriminate E].
    injection E as <-. unfold agg. destruct (is_scl sp); [rewrite H2; auto|rewrite tab_len; symmetry; auto].
  - intros dvs. cbn [length sumn]. destruct HO as [->|[-> Z]].
    + rewrite ip_agg by exact H1. rewrite <- sumn_l, !Rplus_0_l. apply sumn_ext. intros. ring.
    + rewrite sumn_0; [ring|]. intros j Hj. rewrite Z by exact Hj. ring.
Qed.
Lemma ip1 s dv : ip [s] dv = s * el dv 0. Proof. unfold ip. cbn. ring. Qed.
Lemma add_ber_ss cs x p : (x = 0 \/ x = 1) -> ADD BerSS cs [scl; scl] [[x]; [p]] (xadd (Fin 0) (ber_lp x p)) (fun seed d => seed * sumn 1 (fun j => ber_dlp x p * ent scl (nth 1 d []) j)).
Proof.
  intros HX gs s0 HG HI.
  assert (XS : forall v, xadd (Fin 0) (ber_lp x p) = v <-> ber_lp x p = v) by (intros v; destruct (blp_sort x p) as [[r ->]| ->]; cbn; rewrite ?Rplus_0_l; tauto).
  destruct (Rle_dec p 0) as [P|P]; [|destruct (Rle_dec 1 p) as [Q|Q]].
  - ini HI HG gs; injection HI as <-;
      (eexists; split; [evl; rewrite in01_f by auto; rewrite xleb_fin, rleb_t by auto; cbn [negb xeqb]; apply f_equal, f_equal2; [reflexivity|];
        symmetry; apply XS, blp_v; destruct HX as [-> | ->]; rewrite ?reqb_refl, ?req10; tauto|]);
      intros seed NZ; apply (sd_two _ _ 1 _ _ seed None); auto; try (evl; cbn [xeqb]; rewrite reqb_f by exact NZ; rewrite ?in01_f by auto; reflexivity);
      (right; split; [reflexivity|]); intros; apply bdlp_out; auto.
  - ini HI HG gs; injection HI as <-;
      (eexists; split; [evl; rewrite in01_f by auto; rewrite xleb_fin, rleb_f by lra; cbn [negb xeqb]; apply f_equal, f_equal2; [reflexivity|];
        symmetry; apply XS, blp_v; destruct HX as [-> | ->]; rewrite ?reqb_refl, ?req01; tauto|]);
      intros seed NZ; apply (sd_two _ _ 1 _ _ seed None); auto; try (evl; cbn [xeqb]; rewrite reqb_f by exact NZ; rewrite ?in01_f by auto; reflexivity);
      (right; split; [reflexivity|]); intros; apply bdlp_out; auto.
  - assert (PI : 0 < p < 1) by lra.
      ini HI HG gs; unfold ber_upd, hd0 in HI; xn; cbn [map hd] in HI; rewrite ?in01_t in HI by auto; injection HI as <-;
      (eexists; split; [evl; rewrite in01_t by auto; cbn [negb xeqb]; apply f_equal, f_equal2; [reflexivity|];
        symmetry; apply XS; rewrite blp_in by auto; proj; destruct HX as [-> | ->]; rewrite ?reqb_refl, ?req10; fin; f_equal; unfold Rminus; ring|]);
      intros seed NZ; apply (sd_two _ _ 1 _ _ seed (Some [seed * ber_dp x p])); auto; try (evl; cbn [xeqb]; rewrite reqb_f by exact NZ; rewrite ?in01_t, ?is01_t by auto; cbn [negb orb option_map map];
        try reflexivity; cbn [xeqb]; unfold ber_dp; destruct HX as [-> | ->]; rewrite ?reqb_refl, ?req10; fin; do 3 f_equal; field; lra);
      left; cbn [agg is_scl kind scl sk_eqb sumn]; do 2 f_equal; rewrite bdlp_in by auto; ring.
Qed.
Lemma add_ber_vs cs n x p : length x = n -> (forall j, (j < n)%nat -> el x j = 0 \/ el x j = 1) ->
  ADD BerVS cs [vec n; scl] [x; [p]] (xsumn n (fun j => ber_lp (el x j) p)) (fun seed d => seed * sumn n (fun j => ber_dlp (el x j) p * ent scl (nth 1 d []) j)).
Proof.
  intros L HX gs s0 HG HI.
  assert (A1 : forallb (is01 N) (map Fin x) = true) by (apply (is01_all n); auto).
  assert (SX : xsum (map Fin x) = Fin (sumn n (el x))) by (rewrite (fin_list x n L); apply xsum_tab; auto). xn.
  destruct (Rle_dec p 0) as [P|P]; [|destruct (Rle_dec 1 p) as [Q|Q]].
  - ini HI HG gs; unfold ber_upd, ber_updx, hd0 in HI; xn; cbn [map hd] in HI; rewrite ?A1, ?in01_f, ?SX in HI by auto; injection HI as <-;
      (eexists; split; [evl; rewrite ?in01_f by auto; rewrite xleb_fin, rleb_t by auto; rewrite ?A1, ?SX; proj; cbn [negb xeqb]; (apply f_equal, f_equal2; [reflexivity|]);
        symmetry; rewrite andb_true_r; destruct (b01_cases n (el x) HX) as [_ [[E Z]|[E [j [Hj Z]]]]];
        [rewrite E, reqb_refl, (xsumn_fin n (fun _ => 0)); [f_equal; apply sumn_0; auto|intros j Hj; apply blp_v; rewrite (Z j Hj); tauto]
        |rewrite reqb_f by auto; apply (xsumn_ni _ _ j); [intros; apply blp_sort|exact Hj|apply blp_v; rewrite Z; tauto]]|]);
      intros seed NZ; apply (sd_two _ _ n _ _ seed None); auto; try (evl; cbn [xeqb]; rewrite reqb_f by exact NZ; rewrite ?in01_f by auto; reflexivity); try discriminate;
      (right; split; [reflexivity|]); intros; apply bdlp_out; auto.
  - ini HI HG gs; unfold ber_upd, ber_updx, hd0 in HI; xn; cbn [map hd] in HI; rewrite ?A1, ?in01_f, ?SX in HI by auto; injection HI as <-;
      (eexists; split; [evl; rewrite ?in01_f by auto; rewrite xleb_fin, rleb_f by lra; rewrite ?A1, ?SX; proj; cbn [negb xeqb]; (apply f_equal, f_equal2; [reflexivity|]);
        symmetry; rewrite andb_true_r, map_length, L, nofn_R; destruct (b01_casesn n (el x) HX) as [[E Z]|[E [j [Hj Z]]]]; cbn [xeqb];
        [rewrite E, reqb_refl, (xsumn_fin n (fun _ => 0)); [f_equal; apply sumn_0; auto|intros j Hj; apply blp_v; rewrite (Z j Hj); tauto]
        |rewrite reqb_f by auto; apply (xsumn_ni _ _ j); [intros; apply blp_sort|exact Hj|apply blp_v; rewrite Z; tauto]]|]);
      intros seed NZ; apply (sd_two _ _ n _ _ seed None); auto; try (evl; cbn [xeqb]; rewrite reqb_f by exact NZ; rewrite ?in01_f by auto; reflexivity); try discriminate;
      (right; split; [reflexivity|]); intros; apply bdlp_out; auto.
  - assert (PI : 0 < p < 1) by lra.
    assert (XV : xsumn n (fun j => ber_lp (el x j) p) = Fin (sumn n (el x) * ln p + (INR n - sumn n (el x)) * ln (1 - p))).
    { rewrite (xsumn_fin n (fun j => el x j * ln p + (1 - el x j) * ln (1 - p))); [|intros j Hj; apply blp_in; auto].
      f_equal. rewrite sumn_plus, !sumn_r, sumn_minus, sumn_const. ring. }
    rewrite XV.
    ini HI HG gs; unfold ber_upd, ber_updx, hd0 in HI; xn; cbn [map hd] in HI; rewrite ?A1, ?in01_t, ?SX in HI by auto; injection HI as <-;
      (eexists; split; [evl; rewrite ?in01_t by auto; rewrite ?A1, ?SX; proj; cbn [negb xeqb]; apply f_equal, f_equal2; [reflexivity|];
        rewrite map_length, L, nofn_R; fin; f_equal; unfold Rminus; ring|]);
      intros seed NZ; apply (sd_two _ _ n _ _ seed (Some [seed * ((sumn n (el x) - INR n * p) / (p * (1 - p)))])); auto; try discriminate;
      try (evl; cbn [xeqb]; rewrite reqb_f by exact NZ; rewrite ?in01_t by auto; rewrite ?A1; cbn [negb orb option_map map];
        first [reflexivity | rewrite ?SX, map_length, L, nofn_R; fin; rewrite xdiv_fin by nra; fin; do 3 f_equal; field; lra]);
      left; unfold agg; cbn [is_scl kind scl sk_eqb]; do 2 f_equal;
      rewrite (sumn_lin n (fun j => seed * ber_dlp (el x j) p) (el x) (seed / p + seed / (1 - p)) (- seed / (1 - p))) by (intros; rewrite bdlp_in by auto; unfold ber_dp; field; lra); field; lra.
Qed.
Lemma add_ber_vv cs n x p : length x = n -> length p = n -> (forall j, (j < n)%nat -> el x j = 0 \/ el x j = 1) ->
  ADD BerVV cs [vec n; vec n] [x; p] (xsumn n (fun j => ber_lp (el x j) (el p j))) (fun seed d => seed * sumn n (fun j => ber_dlp (el x j) (el p j) * ent (vec n) (nth 1 d []) j)).
Proof.
  intros Lx Lp HX gs s0 HG HI.
  assert (A1 : forallb (is01 N) (map Fin x) = true) by (apply (is01_all n); auto). xn.
  assert (CL : ber_clip N (Fin 0) (map Fin x) (map Fin p) = xsumn n (fun j => ber_lp (el x j) (el p j))).
  { rewrite clip; [|congruence|rewrite Lx; exact HX]. rewrite <- xsumn_tab. unfold xsum. f_equal.
    transitivity (map2 ber_lp (tab n (el x)) (tab n (el p))); [rewrite <- !tab_el by auto; reflexivity|apply tab_map2]. }
  assert (AL : forallb (in01 N) (map Fin p) = true -> xsum (map2 (fun a b => xlog (xadd (xmul a b) (xmul (xsub (Fin 1) a) (xsub (Fin 1) b)))) (map Fin x) (map Fin p)) = xsumn n (fun j => ber_lp (el x j) (el p j))).
  { intros Q. rewrite (fin_list p n Lp) in Q |- *. rewrite (fin_list x n Lx). rewrite tab_map2, xsumn_tab.
    assert (EX : forall m f g, (forall j, (j < m)%nat -> f j = g j) -> xsumn m f = xsumn m g) by (induction m; intros f g H; cbn; [auto|now rewrite (IHm f g), H by auto]).
    apply EX. intros j Hj. rewrite tab_forallb in Q. specialize (Q j Hj). unfold in01 in Q. xn. cbn [xltb] in Q. apply andb_true_iff in Q.
    assert (PI : 0 < el p j < 1) by (unfold rltb in Q; destruct (Rlt_dec 0 (el p j)), (Rlt_dec (el p j) 1); lra || (destruct Q; discriminate)).
    rewrite blp_in by auto. destruct (HX j Hj) as [E|E]; rewrite E; fin; f_equal; match goal with |- ln ?a = ?b * ln ?c + ?d * ln ?e => first [replace a with c by ring; ring | replace a with e by ring; ring] end. }
  destruct (forallb (in01 N) (map Fin p)) eqn:Q; ini HI HG gs; unfold ber_upd, ber_updx, hd0 in HI; xn; cbn [map hd] in HI; rewrite ?A1, ?Q in HI; injection HI as <-;
  (eexists; split; [evl; rewrite ?A1, ?Q; proj; cbn [negb]; (apply f_equal, f_equal2; [reflexivity|first [exact CL|exact (AL eq_refl)]])|]);
  intros seed NZ; apply (sd_two _ _ n _ _ seed (Some (tab n (fun j => seed * ber_dlp (el x j) (el p j))))); try discriminate; try (left; reflexivity);
  try (intros _; unfold size; cbn [rows cols]; lia);
  (evl; cbn [xeqb]; rewrite reqb_f by exact NZ; rewrite ?A1, ?Q; proj; cbn [negb option_map]; try reflexivity);
  apply f_equal; rewrite (fin_list x n Lx), (fin_list p n Lp), tab_map2; apply tab_fin; intros j Hj;
  (destruct (Rle_dec (el p j) 0) as [P|P]; [|destruct (Rle_dec 1 (el p j)) as [P2|P2]]);
  try (rewrite in01_f, bdlp_out by auto; f_equal; ring);
  rewrite in01_t, bdlp_in by lra; cbn [xeqb]; unfold ber_dp; destruct (HX j Hj) as [E|E]; rewrite E, ?reqb_refl, ?req01; fin; f_equal; field; lra.
Qed.
Lemma add_ber q cs ss vs (n := rows (nth_sh ss 0)) (x := ent (nth_sh ss 0) (nth 0 vs [])) (p := ent (nth_sh ss 1) (nth 1 vs [])) :
  In q fam_ber -> forallb shape_ok ss = true -> stat_shape_ok q ss = true -> lensR vs ss ->
  (forall j, (j < n)%nat -> x j = 0 \/ x j = 1) ->
  ADD q cs ss vs (xsumn n (fun j => ber_lp (x j) (p j))) (fun seed d => seed * sumn n (fun j => ber_dlp (x j) (p j) * ent (nth_sh ss 1) (nth 1 d []) j)).
Proof.
  intros HQ HW HS HL HX. subst x p n.
  fam HQ; shp HW HS HL; unfold nth_sh in HX |- *; cbn [nth rows] in HX |- *; unfold ent in HX; cbn [is_scl kind sk_eqb scl] in HX; xn.
  - match goal with |- ADD _ _ _ [[?x]; [?p]] _ _ => rename x into xx, p into pp end. specialize (HX 0%nat ltac:(lia)). apply (add_ber_ss cs xx pp HX).
  - match goal with |- ADD _ _ _ [?x; [?p]] _ _ => apply (add_ber_vs cs na x p) end; auto.
  - match goal with |- ADD _ _ _ [?x; ?p] _ _ => apply (add_ber_vv cs na x p) end; auto.
Qed.

(** *** Wishart *)
Lemma wish_idl cs ss vs (n := rows (nth_sh ss 0)) (A := m_of n (nth 0 vs [])) (V := m_of n (nth 1 vs [])) (nu := el (nth 2 vs []) 0) :
  forallb shape_ok ss = true -> stat_shape_ok Wish ss = true -> lensR vs ss ->
  ((symm n A /\ symm n V /\ ~ (posdef n A /\ posdef n V /\ INR n - 1 < nu)) \/ (nth 0 cs false = true /\ nth 1 cs false = false)) -> IDL Wish cs ss vs NInf.
Proof.
  intros HW HS HL HC gs s0 HG HI. subst n A V nu.
  destruct ss as [|a [|b [|c [|]]]]; try discriminate HS. cbn in HS. unfold nth_sh in HS, HC. cbn [nth] in HS, HC.
  rewrite !andb_true_iff in HS. destruct HS as [[H1 H2] H3]. remember (rows a) as n eqn:En; clear En.
  apply sqmat_eq in H1. apply sqmat_eq in H2. cbn [forallb] in HW. rewrite !andb_true_iff in HW.
  apply scl_eq in H3; [|apply HW]. subst a b c.
  inversion HL as [|x ? ? ? Lx HL1]; subst. inversion HL1 as [|v ? ? ? Lv HL2]; subst. inversion HL2 as [|z ? ? ? Lz HL3]; subst.
  inversion HL3; subst. unfold size in Lx, Lv, Lz. cbn [rows cols] in Lx, Lv, Lz.
  destruct z as [|nu [|]]; try discriminate Lz. cbn [nth] in HC. change (el [nu] 0) with nu in HC. xn.
  set (up1 := if nth 1 cs false then s0 else wish_updv N s0 n (map Fin v)).
  set (up2 := if nth 0 cs false then up1 else wish_updx N up1 n (map Fin x)).
  assert (EOK : wish_ok N up2 n (Fin nu) = false).
  { assert (DV : forall st, fb (wish_updv N st n (map Fin v)) = llt_ok xr la n (map Fin v) /\ fa (wish_updv N st n (map Fin v)) = fa st).
    { intros st. unfold wish_updv. match goal with |- context [if ?b then _ else _] => change b with (llt_ok xr la n (map Fin v)) end. destruct (llt_ok xr la n (map Fin v)); split; reflexivity. }
    assert (DX : forall st : sst N, fb (wish_updx N st n (map Fin x)) = fb st /\ fa (wish_updx N st n (map Fin x)) = (if fb st then llt_ok xr la n (map Fin x) else fa st)).
    { intros st. unfold wish_updx. destruct (fb st) eqn:Q; [|split; auto]. match goal with |- context [if ?b then _ else _] => change b with (llt_ok xr la n (map Fin x)) end. destruct (llt_ok xr la n (map Fin x)); cbn; auto. }
    destruct HC as [[SX [SV HN]]|[C0 C1]].
    - assert (K : llt_ok xr la n (map Fin x) = false \/ llt_ok xr la n (map Fin v) = false \/ nu <= INR n - 1).
      { destruct (llt_ok xr la n (map Fin x)) eqn:Q1; auto. destruct (llt_ok xr la n (map Fin v)) eqn:Q2; auto. right. right.
        apply Rnot_lt_le. intros Q. apply HN. split; [|split; [|exact Q]].
        - apply (la_llt_ok la LA n x Lx SX). exact Q1.
        - apply (la_llt_ok la LA n v Lv SV). exact Q2. }
      unfold wish_ok. destruct K as [K|[K|K]].
      + assert (FA : fb up2 = true -> fa up2 = false); [|destruct (fb up2); [now rewrite FA|now rewrite andb_false_r]].
        unfold up2, up1, stat_init, cst, nth_sh in *. destruct (nth 0 cs false) eqn:C0.
        * destruct (nth 1 cs false) eqn:C1; xn.
          -- rewrite (HG 1%nat C1), (HG 0%nat C0) in HI. cbn [bindR nth rows] in HI. injection HI as <-. rewrite (proj1 (DX _)), (proj2 (DX _)). intros Q. rewrite Q. exact K.
          -- rewrite (HG 0%nat C0) in HI. cbn [bindR nth rows] in HI. injection HI as <-. intros _. rewrite (proj2 (DV _)), (proj2 (DX _)). reflexivity.
        * rewrite (proj1 (DX _)), (proj2 (DX _)). intros Q. rewrite Q. exact K.
      + assert (FB : fb up2 = false); [|now rewrite FB, andb_false_r].
        unfold up2, up1, stat_init, cst, nth_sh in *. destruct (nth 0 cs false) eqn:C0.
        * destruct (nth 1 cs false) eqn:C1; xn.
          -- rewrite (HG 1%nat C1), (HG 0%nat C0) in HI. cbn [bindR nth rows] in HI. injection HI as <-. now rewrite (proj1 (DX _)), (proj1 (DV _)).
          -- rewrite (proj1 (DV _)). exact K.
        * rewrite (proj1 (DX _)). destruct (nth 1 cs false) eqn:C1; xn.
          -- rewrite (HG 1%nat C1) in HI. cbn [bindR nth rows] in HI. injection HI as <-. now rewrite (proj1 (DV _)).
          -- rewrite (proj1 (DV _)). exact K.
      + apply andb_false_intro2. rewrite nofn_R. xn. cbn [xadd xltb]. apply rltb_f. lra.
    - unfold wish_ok, up2, up1, stat_init, cst, nth_sh in *. rewrite C0, C1 in *. xn. rewrite (HG 0%nat C0) in HI. cbn [bindR nth rows] in HI. injection HI as <-.
      rewrite (proj2 (DV _)), (proj2 (DX _)). reflexivity. }
  exists up2. split.
  - unfold stat_fwd. unfold nth_sh. cbn [nth rows]. unfold arg, FF, hd0, cst. cbn [nth map hd]. xn. fold up1. fold up2. rewrite EOK. reflexivity.
  - intros seed i. unfold stat_bwd. unfold nth_sh. cbn [nth rows]. unfold arg, FF, hd0. cbn [nth map hd]. xn. rewrite EOK. cbn [negb]. apply seed0.
Qed.

(** *** Cauchy with any seed *)
Lemma sd_three sx sm sg n (G0 G1 G2 : nat -> R) (b : nat -> option (list xr)) F :
  (forall s, In s [sx; sm; sg] -> (is_scl s = false -> size s = n) /\ (is_scl s = true -> size s = 1%nat)) ->
  b 0%nat = Some (map Fin (agg sx n G0)) -> b 1%nat = Some (map Fin (agg sm n G1)) -> b 2%nat = Some (map Fin (agg sg n G2)) ->
  (forall dvs, F dvs = sumn n (fun j => G0 j * ent sx (nth 0 dvs []) j + G1 j * ent sm (nth 1 dvs []) j + G2 j * ent sg (nth 2 dvs []) j)) ->
  exists sd, (forall i, (i < length [sx; sm; sg])%nat -> b i = option_map (map Fin) (sd i)) /\
    (forall i l, (i < length [sx; sm; sg])%nat -> sd i = Some l -> length l = size (nth_sh [sx; sm; sg] i)) /\
    forall dvs, F dvs = sumn (length [sx; sm; sg]) (fun i => match sd i with Some l => ip l (nth i dvs []) | None => 0 end).
Proof.
  intros HS B0 B1 B2 HF. exists (fun i => match i with O => Some (agg sx n G0) | 1%nat => Some (agg sm n G1) | _ => Some (agg sg n G2) end). split; [|split].
  - intros i Hi. cbn in Hi. destruct i as [|[|[|i]]]; [exact B0|exact B1|exact B2|lia].
  - intros i l Hi E. cbn in Hi. unfold nth_sh. destruct i as [|[|[|i]]]; [| | |lia]; injection E as <-; cbn [nth]; apply agg_len; apply HS; cbn; auto.
  - intros dvs. rewrite HF. cbn [length sumn]. rewrite !ip_agg by (apply HS; cbn; auto). rewrite !sumn_plus. ring.
Qed.
Lemma cauC2 g d : 0 < g -> g * g + d * d <> 0 /\ g ^ 2 + d ^ 2 <> 0.
Proof. intros H. pose proof (cauC g d H). split; [auto|]. cbn. rewrite !Rmult_1_r. auto. Qed.
Ltac nz := first [ lra | apply cauC; lra | apply Rgt_not_eq; nra | nra ].
Ltac fin3 := unfold nsq; xn;
  repeat (first [ rewrite xadd_fin | rewrite xsub_fin | rewrite xmul_fin | rewrite xopp_fin | rewrite xdiv_fin by nz ]).
Ltac fl := repeat match goal with H : length ?v = ?n |- _ => rewrite !(fin_list v n H) end; repeat (rewrite tab_map || rewrite tab_map2 || rewrite tab_map3 || rewrite tab_len).
Ltac inst := repeat match goal with
  | H : forall j, (j < ?n)%nat -> _, Hi : (?i < ?n)%nat |- _ =>
      match goal with H0 : ?P |- _ => let T := type of (H i Hi) in constr_eq T P; fail 2 | _ => pose proof (H i Hi) end end.
Ltac sums := repeat match goal with
  | |- context [xsum (tab ?n ?F)] => erewrite (xsum_tab n F); [|intros ? ?; inst; fin3; reflexivity] end.
Ltac cauf := inst; unfold cau_dx, cau_dm, cau_code_dg, cau_dg; field;
  repeat match goal with |- _ /\ _ => split | |- _ <> 0 => first [lra | apply cauC2; assumption] end.
Ltac sumeq := repeat first [rewrite <- sumn_l | rewrite <- sumn_r | rewrite <- sumn_minus | rewrite <- sumn_plus | rewrite <- sumn_opp];
  apply sumn_ext; intros ? ?.
Ltac cauA x z := evl; cbn [xeqb]; rewrite reqb_f by assumption; first [rewrite pos_fin by assumption | rewrite (allpos_fin la z) by assumption]; cbn [negb]; apply f_equal; rewrite ?map_length;
  try match goal with H : length x = _ |- _ => rewrite ?H end; rewrite ?nofn_R; fl; fin3; sums; fin3; unfold agg; cbn [is_scl kind sk_eqb scl];
  first [apply tab_fin; intros ? ?; inst; fin3; f_equal | rewrite ?INRs; cbn [map]; apply f_equal2; [apply f_equal; sumeq|reflexivity]];
  unfold ent; cbn [is_scl kind sk_eqb scl]; change (el [?r] 0) with r; cauf.
Ltac cau3 n := eapply (sd_three _ _ _ n); [| | | |intros dvs; reflexivity];
    [intros s Hs; cbn in Hs; destruct Hs as [<-|[<-|[<-|[]]]]; split; try discriminate; intros _; unfold size; cbn [rows cols]; lia|..].
Lemma add_cau q cs ss vs (n := rows (nth_sh ss 0)) (x := ent (nth_sh ss 0) (nth 0 vs [])) (m := ent (nth_sh ss 1) (nth 1 vs [])) (g := ent (nth_sh ss 2) (nth 2 vs [])) :
  In q fam_cau -> q <> CauSSS -> forallb shape_ok ss = true -> stat_shape_ok q ss = true -> kdim_ok (KStat q) ss = true -> lensR vs ss ->
  (forall j, (j < size (nth_sh ss 2))%nat -> 0 < el (nth 2 vs []) j) ->
  ADD q cs ss vs (Fin (sumn n (fun j => cau1 (x j) (m j) (g j))))
    (fun seed d => sumn n (fun j => seed * cau_dx (x j) (m j) (g j) * ent (nth_sh ss 0) (nth 0 d []) j +
       seed ^ 2 * cau_dm (x j) (m j) (g j) * ent (nth_sh ss 1) (nth 1 d []) j + cau_code_dg seed (x j) (m j) (g j) * ent (nth_sh ss 2) (nth 2 d []) j)).
Proof.
  intros HQ HNS HW HS HK HL HP gs s0 HG HI.
  assert (EF : exists s1, stat_fwd N q cs ss s0 (FF vs) = Ok (s1, Fin (sumn n (fun j => cau1 (x j) (m j) (g j))))).
  { assert (HD : sdom false false q cs [] ss vs).
    { fam HQ; try congruence; cbn [sdom]; split; auto; discriminate. }
    assert (HE : elementwise q = true) by (fam HQ; reflexivity).
    destruct (SC_all la q HE cs [] ss vs gs s0 false false HW HS HK HL HG HI HD) as [s1 [E1 _]]. exists s1. rewrite E1. do 2 f_equal. f_equal. clear - HQ. fam HQ; reflexivity. }
  destruct EF as [s1 EF]. exists s1. split; [exact EF|]. clear EF HI HG. intros seed NZ. subst n x m g.
  fam HQ; try congruence; shp HW HS HL; unfold nth_sh in HP |- *; cbn [nth rows] in HP |- *; xn; unfold size in HP; cbn [rows cols] in HP; rewrite ?Nat.mul_1_r in HP.
  - match goal with |- context [FF [?x; [?p]; [?z]]] => rename x into xx, p into pp, z into zz end.
    specialize (HP 0%nat ltac:(cbn; lia)). change (el [zz] 0) with zz in HP.
    cau3 na; cauA xx zz.
  - match goal with |- context [FF [?x; [?p]; ?z]] => rename x into xx, p into pp, z into zz end.
    assert (LZ : forall i, (i < length zz)%nat -> 0 < el zz i) by (intros; apply HP; lia).
    cau3 na; cauA xx zz.
  - match goal with |- context [FF [?x; ?p; [?z]]] => rename x into xx, p into pp, z into zz end.
    specialize (HP 0%nat ltac:(cbn; lia)). change (el [zz] 0) with zz in HP.
    cau3 na; cauA xx zz.
  - match goal with |- context [FF [?x; ?p; ?z]] => rename x into xx, p into pp, z into zz end.
    assert (LZ : forall i, (i < length zz)%nat -> 0 < el zz i) by (intros; apply HP; lia).
    cau3 na; cauA xx zz.
Qed.

(** *** Determinants of singular matrices *)
Lemma vals1 {A} D (y : expr xr A) rho : vals D [y] rho = [val D y rho].
Proof. unfold vals, val. cbn. destruct (den D y rho). reflexivity. Qed.
Lemma op1 k (y : U) D rho (P : list bool -> list shape -> list (list R) -> Prop) : okexpr la (EComp k tt [y]) ->
  (forall c sh x, sh = shape_of (y : X) -> x = val D (y : X) rho -> kshape_ok k [sh] = true -> length x = size sh -> P [c] [sh] [x]) ->
  P (map is_const ([y] : list X)) (map shape_of ([y] : list X)) (vals D ([y] : list X) rho).
Proof.
  intros HK H. destruct (ok_shapes la _ _ HK) as [HSh HW]. pose proof (vals_lens la [y] D rho HW) as HL. rewrite vals1 in *. cbn [map].
  apply H; auto. exact (lensR_nth _ _ 0 HL ltac:(cbn; lia)).
Qed.
Lemma lu_sing n x : length x = (n * n)%nat -> det n (m_of n x) = 0 -> lu_ok xr la n (map Fin x) = false.
Proof. intros L H. destruct (lu_ok xr la n (map Fin x)) eqn:Q; auto. apply (la_lu_ok la LA n x L) in Q. contradiction. Qed.
Lemma idle_det (y : U) D rho (n := rows (shape_of (y : X))) : okexpr la (EComp (KDet LU) tt [y]) -> dom D false false (y : X) rho ->
  det n (m_of n (val D (y : X) rho)) = 0 -> node_idle la (KDet LU) [y] D rho [Fin 0].
Proof.
  intros HK HO HZ. apply idle; [exact I|exact HK|exact (conj HO I)|]. intros s _. revert s. apply (op1 (KDet LU) y D rho); [exact HK|]. 
  intros c sh x -> Ex HSh L s. destruct (sq_facts (KDet LU) _ (ex_intro _ LU (or_introl eq_refl)) HSh) as [m Em]. injection Em as Em.
  unfold n in *. change (carrier N) with xr in *. rewrite <- Ex in HZ. clear Ex. revert L HZ. rewrite Em. unfold size. cbn [rows cols]. intros L HZ.
  eexists. split.
  - unfold kf. cbn [kfwd]. unfold arg, FF, nth_sh, det_f. cbn [map nth rows]. change (nla N) with la. change (carrier N) with xr. rewrite (la_lu_det la LA m x L), HZ. reflexivity.
  - intros seed i. cbn [kseed]. unfold det_valid, nth_sh, arg, FF. cbn [map nth rows ma]. change (nla N) with la. change (carrier N) with xr. rewrite (lu_sing m x L HZ). cbn [negb]. now rewrite orb_true_r.
Qed.
Lemma idle_logdet (y : U) D rho (n := rows (shape_of (y : X))) : okexpr la (EComp (KLogDet LU) tt [y]) -> dom D false false (y : X) rho ->
  det n (m_of n (val D (y : X) rho)) = 0 -> node_idle la (KLogDet LU) [y] D rho [NInf].
Proof.
  intros HK HO HZ. apply idle; [exact I|exact HK|exact (conj HO I)|]. intros s _. revert s. apply (op1 (KLogDet LU) y D rho); [exact HK|]. 
  intros c sh x -> Ex HSh L s. destruct (sq_facts (KLogDet LU) _ (ex_intro _ LU (or_intror eq_refl)) HSh) as [m Em]. injection Em as Em.
  unfold n in *. change (carrier N) with xr in *. rewrite <- Ex in HZ. clear Ex. revert L HZ. rewrite Em. unfold size. cbn [rows cols]. intros L HZ.
  eexists. split.
  - unfold kf. cbn [kfwd]. unfold arg, FF, nth_sh, logdet_f. cbn [map nth rows]. change (nla N) with la. change (carrier N) with xr. rewrite (la_lu_det la LA m x L), HZ. 
    apply f_equal. cbn. rewrite Rabs_R0, reqb_refl. reflexivity.
  - intros seed i. cbn [kseed]. unfold logdet_valid, nth_sh, arg, FF. cbn [map nth rows ma]. change (nla N) with la. change (carrier N) with xr. rewrite (lu_sing m x L HZ). cbn [negb]. now rewrite orb_true_r.
Qed.
(** *** Powers *)
Lemma value_pow z (y : U) D rho : okexpr la (EComp (KPow z) tt [y]) -> dom D false false (y : X) rho ->
  node_value la (KPow z) [y] D rho (map (pow_x z) (val D (y : X) rho)).
Proof.
  intros HK HO. apply value_of; [exact I|exact HK|exact (conj HO I)|]. intros s _. revert s. apply (op1 (KPow z) y D rho); [exact HK|].
  intros c sh x _ -> _ _ s. unfold kf. cbn [kfwd snd]. unfold arg, FF. cbn [map nth]. rewrite map_map. apply map_ext. intros a.
  unfold pow_x. destruct (_ && _)%bool eqn:Q.
  - apply andb_true_iff in Q. destruct Q as [Q1 Q2]. destruct (Req_EM_T a 0) as [->|]; [|discriminate].
    unfold pow_f. destruct (is_scl _).
    + destruct z; try discriminate Q1. unfold powfunc. xn. cbn [xeqb]. now rewrite reqb_refl.
    + change (npow N) with xpow. unfold xpow. rewrite reqb_refl. cbn [andb]. destruct z; try discriminate Q1; reflexivity.
  - apply pow_fin. intros Hz E0. rewrite E0 in Q. destruct (Req_EM_T 0 0); [|congruence]. rewrite andb_true_r in Q. apply Z.ltb_ge in Q. lia.
Qed.
(** *** A uniform node that never looks at its bounds again *)
Definition u33s : U := EComp (KStat UniVSV) tt [ECst (vec 1) [Fin (3 / 2)]; EVar scl 0; EVar (vec 1) 1].
Lemma stale_uni : exists e1 m1, session la 2 3 u33s (fun _ => 0) e1 m1 /\
  mreal la u33s m1 (fun _ => 0) (fun o => nth o [0; 2] 0) (fun _ => 0) /\
  exists e2 m2, evaluate e1 m1 = Ok (e2, m2, [NInf]).
Proof.
  assert (HF : fresh 2 3) by (cbv; intuition discriminate).
  assert (HK : okexpr la u33s) by (split; [reflexivity|split; [reflexivity|cbn; repeat (split || constructor); try (eexists; reflexivity)]]).
  pose (m := fun b o : nat => if (b =? 0)%nat then Some (Fin (nth o [0; 1] 0)) else if (b =? 1)%nat then Some (Fin 0)
    else if (b =? 4)%nat then Some (Fin 0) else None).
  assert (HA : @avail N u33s m) by (split; intros o Ho; [split|]; cbn; discriminate).
  destruct (bind_safe N LL 2 3 HF (fun _ => n0 N) (fun _ => n0 N) u33s m (proj1 HK) eq_refl HA) as [e [m0 [B1 _]]].
  destruct (inv_bound LL 2 3 HF u33s m _ _ e m0 (proj1 HK) HA B1) as [_ [B2 _]].
  assert (S0 : session la 2 3 u33s (fun _ => 0) e m0).
  { exists m, (fun _ => n0 N), (fun _ => n0 N), e, m0, (@nil (op N)). repeat (match goal with |- _ /\ _ => split end); auto. }
  pose (m1 := fun b o : nat => if (b =? 0)%nat && (o =? 1)%nat then Some (Fin 2) else m0 b o).
  assert (S1 : session la 2 3 u33s (fun _ => 0) e m1).
  { apply (session_to la 2 3 u33s _ e m0); [exact S0|]. intros b o H. unfold m1. destruct (_ && _); [discriminate|exact H]. }
  assert (M1 : mreal la u33s m1 (fun _ => 0) (fun o => nth o [0; 2] 0) (fun _ => 0)).
  { split; [|intros o []]. intros o [<-|[<-|[]]]; unfold m1; cbn [Nat.eqb andb]; rewrite ?B2 by congruence; split; reflexivity. }
  exists e, m1. split; [exact S1|]. split; [exact M1|].
  assert (DV : odomv la (fun _ => 0) [ECst (vec 1) [Fin (3 / 2)]; EVar scl 0; EVar (vec 1) 1] (fun o => nth o [0; 2] 0)).
  { cbn. repeat (split || constructor); try (eexists; reflexivity). }
  destruct (node_top 2 3 (KStat UniVSV) _ (fun _ => 0) e m1 _ _ I HK S1 M1 DV) as [s [s' [v' [A1 [[an [es1 [-> ->]]] [A2 [A3 _]]]]]]].
  assert (V : v' = [NInf]); [|subst v'; exact A3].
  destruct (bound_nrm LL 2 3 _ _ u33s m _ m0 (proj1 HK) B1) as [e0 [HM HN]].
  assert (FA : fa (st an) = false).
  { cbn in HM. change (carrier N) with xr in *. injection HM as <-. cbn [nrm] in HN. injection HN as _ _ H5 HE.
    assert (EC : map is_const es1 = map is_const [ECst (vec 1) [Fin (3 / 2)] : E; EVar scl 0; EVar (vec 1) 1]) by (apply (@nrm_consts N); exact HE). rewrite EC in H5. cbn in H5. rewrite rltb_f in H5 by lra. exact H5. }
  cbn in A2. unfold kf in A2. cbn in A2. unfold uni_in in A2. cbn in A2. rewrite FA in A2. rewrite ?andb_false_r in A2. cbn in A2. injection A2 as _ <-. reflexivity.
Qed.

(** ** Theorems *)
Section Top.
Variables (q : stat) (es : list U) (D rho : nat -> R).
Notation Es := (es : list X).
Hypothesis HK : okexpr la (EComp (KStat q) tt es).
Lemma ninf_normal : In q fam_norm -> odomv la D es rho -> ~ opall D Es rho 2 (fun r => 0 < r) -> node_idle la (KStat q) es D rho [NInf].
Proof.
  intros HQ HO HN. unfold opall in HN. destruct (not_all_pos _ _ HN) as [j [Hj Hp]].
  apply idle_ss; auto. intros cs ss vs -> -> -> A B C HL. apply (idl_norm q _ _ _ j); auto.
Qed.
Lemma ninf_mvn : In q fam_mvn -> odomv la D es rho -> symm (opdim Es) (opmat D Es rho 2) -> ~ posdef (opdim Es) (opmat D Es rho 2) ->
  node_idle la (KStat q) es D rho [NInf].
Proof. intros HQ HO HS HN. apply idle_ss; auto. intros cs ss vs -> -> -> A B C HL. apply (idl_mvn q); auto. Qed.
Lemma ninf_cauchy : In q fam_cau -> odomv la D es rho -> ~ opall D Es rho 2 (fun r => 0 < r) -> node_idle la (KStat q) es D rho [NInf].
Proof.
  intros HQ HO HN. unfold opall in HN. destruct (not_all_pos _ _ HN) as [j [Hj Hp]].
  apply idle_ss; auto. intros cs ss vs -> -> -> A B C HL. apply (idl_cau q _ _ _ j); auto.
Qed.
Lemma ninf_uniform (x := opent D Es rho 0) (a := opent D Es rho 1) (b := opent D Es rho 2) : In q fam_uni -> odomv la D es rho ->
  ~ (forall j, (j < opdim Es)%nat -> a j < x j < b j) ->
  (q = UniVSV -> opconst Es 0 = true -> opconst Es 2 = true) -> (q = UniVVS -> opconst Es 0 = true -> opconst Es 1 = true) ->
  node_idle la (KStat q) es D rho [NInf].
Proof.
  intros HQ HO HN H1 H2.
  assert (HJ : exists j, (j < opdim Es)%nat /\ ~ (a j < x j < b j)).
  { apply not_all_ex_lt; auto. intros j. destruct (Rlt_dec (a j) (x j)), (Rlt_dec (x j) (b j)); tauto. }
  destruct HJ as [j [Hj Hp]].
  apply idle_ss; auto. intros cs ss vs -> -> -> A B C HL. apply (idl_uni q _ _ _ j); auto.
Qed.
Lemma ninf_bernoulli (x := opent D Es rho 0) : In q fam_ber -> odomv la D es rho ->
  ~ (forall j, (j < opdim Es)%nat -> x j = 0 \/ x j = 1) -> node_idle la (KStat q) es D rho [NInf].
Proof.
  intros HQ HO HN.
  assert (HJ : exists j, (j < opdim Es)%nat /\ ~ (x j = 0 \/ x j = 1)).
  { apply not_all_ex_lt; auto. intros j. destruct (Req_EM_T (x j) 0), (Req_EM_T (x j) 1); tauto. }
  destruct HJ as [j [Hj Hp]].
  apply idle_ss; auto. intros cs ss vs -> -> -> A B C HL. apply (idl_ber q _ _ _ j); auto.
Qed.
Lemma clip_bernoulli (x := opent D Es rho 0) (p := opent D Es rho 1) (n := opdim Es) : In q fam_ber -> odoms la D es rho ->
  (forall j, (j < n)%nat -> x j = 0 \/ x j = 1) ->
  node_adds la (KStat q) es D rho [xsumn n (fun j => ber_lp (x j) (p j))] (fun seed d => el seed 0 * sumn n (fun j => ber_dlp (x j) (p j) * dent Es d 1 j)).
Proof.
  intros HQ HO HX. apply (adds_ss q es D rho _ (fun s d => s * sumn n (fun j => ber_dlp (x j) (p j) * dent Es d 1 j))); auto.
  - intros. ring.
  - intros cs ss vs -> -> -> A B C HL. apply add_ber; auto.
Qed.
Lemma seed_cauchy (x := opent D Es rho 0) (m := opent D Es rho 1) (g := opent D Es rho 2) (n := opdim Es) : In q fam_cau -> q <> CauSSS -> odoms la D es rho ->
  opall D Es rho 2 (fun r => 0 < r) ->
  node_adds la (KStat q) es D rho [Fin (sumn n (fun j => cau1 (x j) (m j) (g j)))]
    (fun seed d => sumn n (fun j => el seed 0 * cau_dx (x j) (m j) (g j) * dent Es d 0 j + el seed 0 ^ 2 * cau_dm (x j) (m j) (g j) * dent Es d 1 j +
       cau_code_dg (el seed 0) (x j) (m j) (g j) * dent Es d 2 j)).
Proof.
  intros HQ HNS HO HP. apply (adds_ss q es D rho _ (fun s d => sumn n (fun j => s * cau_dx (x j) (m j) (g j) * dent Es d 0 j + s ^ 2 * cau_dm (x j) (m j) (g j) * dent Es d 1 j +
       cau_code_dg s (x j) (m j) (g j) * dent Es d 2 j))); auto.
  - intros. rewrite sumn_0; [reflexivity|]. intros. unfold cau_code_dg. ring.
  - intros cs ss vs -> -> -> A B C HL. apply add_cau; auto.
Qed.
End Top.
Lemma ninf_wishart (es : list U) D rho (n := opdim (es : list X)) : okexpr la (EComp (KStat Wish) tt es) -> odomv la D es rho ->
  symm n (opmat D (es : list X) rho 0) -> symm n (opmat D (es : list X) rho 1) ->
  ~ (posdef n (opmat D (es : list X) rho 0) /\ posdef n (opmat D (es : list X) rho 1) /\ INR n - 1 < el (nth 2 (vals D (es : list X) rho) []) 0) ->
  node_idle la (KStat Wish) es D rho [NInf].
Proof. intros HK HO H1 H2 H3. apply idle_ss; auto. intros cs ss vs -> -> -> A B C HL. apply wish_idl; auto. Qed.
Lemma ninf_wishart_const (es : list U) D rho : okexpr la (EComp (KStat Wish) tt es) -> odomv la D es rho ->
  opconst (es : list X) 0 = true -> opconst (es : list X) 1 = false -> node_idle la (KStat Wish) es D rho [NInf].
Proof. intros HK HO H1 H2. apply idle_ss; auto. intros cs ss vs -> -> -> A B C HL. apply wish_idl; auto. Qed.
End LI.

(** ** Witnesses *)
Notation U0 := (expr (XR exact_la) unit).
Notation X0 := (expr xr unit).
Notation Z0 := (fun _ : nat => 0).
Definition u26 : U0 := EComp (KDet LU) tt [EVar (Sh Mat 2 2) 0].
Definition rho26 (o : nat) : R := nth o [1; 0; 0; 0] 0.
Lemma w26 : live u26 rho26 /\ det 2 (m_of 2 (val Z0 (EVar (Sh Mat 2 2) 0 : X0) rho26)) = 0 /\ partials Z0 (u26 : X0) rho26 3 (fun k => if (k =? 0)%nat then 1 else 0) /\
  forall e1 m1, session exact_la 2 3 u26 Z0 e1 m1 -> mreal exact_la u26 m1 Z0 rho26 Z0 ->
  exists e2 m2, autodiff e1 [Fin 1] m1 = Ok (e2, m2, [Fin 0]) /\ m2 1%nat 3%nat = Some (Fin 0).
Proof.
  assert (L : live u26 rho26) by (apply live_ok; [split; [reflexivity|split; [reflexivity|cbn; repeat (split || constructor)]]|reflexivity]).
  assert (Z : det 2 (m_of 2 (val Z0 (EVar (Sh Mat 2 2) 0 : X0) rho26)) = 0).
  { unfold m_of, el, sumn, val; cbn. unfold sumn; cbn. ring. }
  split; [exact L|]. split; [exact Z|]. destruct L as [LA [HK _]]. split.
  - intros [|k]; cbn [Nat.eqb].
    + apply (der_ext (fun t => t)); [|exact (is_derive_id (rho26 3))]. intros t. unfold m_of, el, sumn, val; cbn. unfold sumn; cbn. unfold m_of, el; cbn. unfold minor, set1, rho26; cbn. ring.
    + apply (der_ext (fun t => 0)); [|exact (der_const 0 (rho26 3))]. intros t. unfold el, val; cbn. now destruct k.
  - intros e1 m1 S M. destruct (proj2 (idle_det exact_la exact_la_ok (EVar (Sh Mat 2 2) 0) Z0 rho26 HK I Z 2 3 e1 m1 Z0 S M) [Fin 1] eq_refl)%nat as [e2 [m2 [A B]]].
    exists e2, m2. split; [exact A|]. apply B. cbn. tauto.
Qed.
Definition es32 : list U0 := [ECst (Sh Vec 1 1) [Fin 1]; EVar scl 0; ECst scl [Fin 1]].
Definition u32 : U0 := EComp (KStat CauVSS) tt es32.
Lemma w32 : live u32 Z0 /\ dom Z0 true true (u32 : X0) Z0 /\ partials Z0 (u32 : X0) Z0 0 (fun k => if (k =? 0)%nat then 1 else 0) /\
  forall e1 m1 s, session exact_la 2 3 u32 Z0 e1 m1 -> mreal exact_la u32 m1 Z0 Z0 Z0 ->
  exists e2 m2, autodiff e1 [Fin s] m1 = Ok (e2, m2, map Fin (val Z0 (u32 : X0) Z0)) /\ m2 1%nat 0%nat = Some (Fin (s ^ 2)).
Proof.
  assert (L : live u32 Z0) by (apply live_ok; [split; [reflexivity|split; [reflexivity|cbn; repeat (split || constructor); try (eexists; reflexivity)]]|reflexivity]).
  split; [exact L|]. destruct L as [LA [HK _]].
  assert (DM : odoms exact_la Z0 es32 Z0) by (cbn; repeat (split || constructor); try (eexists; reflexivity)).
  assert (PS : opall Z0 (es32 : list X0) Z0 2 (fun r => 0 < r)).
  { intros j Hj. cbn in Hj. destruct j as [|j]; [cbn; lra|lia]. }
  assert (VL : forall t, val Z0 (u32 : X0) (set1 Z0 0 t) = [cau1 1 t 1]) .
  { intros t. unfold val; cbn. unfold el, set1; cbn. unfold sumn; cbn. f_equal. unfold ent, cau1, el, scl; cbn. ring. }
  split.
  { split; [cbn; repeat (split || constructor); try (eexists; reflexivity)|]. cbn. split; [intros j Hj; destruct j as [|j]; [cbn; lra|lia]|tauto]. }
  split.
  - intros [|k]; cbn [Nat.eqb].
    + apply (der_ext (fun t => cau1 1 t 1)); [intros t; now rewrite VL|]. unfold cau1. auto_derive; [nra|field; nra].
    + apply (der_ext (fun t => 0)); [intros t; rewrite VL; unfold el; now destruct k|exact (der_const 0 0)].
  - intros e1 m1 s S M. destruct (seed_cauchy exact_la exact_la_ok CauVSS es32 Z0 Z0 HK ltac:(cbn; tauto) ltac:(discriminate) DM PS 2 3 e1 m1 Z0 [s] S M eq_refl)%nat as [e2 [m2 [A B]]].
    exists e2, m2. split.
    + change (map Fin [s]) with [Fin s] in A. etransitivity; [exact A|]. reflexivity.
    + destruct (B 0%nat ltac:(cbn; tauto)) as [dvs [O ->]]. f_equal. f_equal. unfold sumn; cbn. 
      assert (E1 : el (nth 1 dvs []) 0 = 1).
      { specialize (O 1%nat 0%nat). apply is_derive_unique in O. rewrite <- O. apply is_derive_unique. apply (der_ext (fun t => t)); [|exact (is_derive_id 0)]. intros t. reflexivity. }
      assert (E2 : el (nth 2 dvs []) 0 = 0).
      { specialize (O 2%nat 0%nat). apply is_derive_unique in O. rewrite <- O. apply is_derive_unique. apply (der_ext (fun t => 1)); [|exact (der_const 1 0)]. intros t. reflexivity. }
      assert (E3 : el (nth 0 dvs []) 0 = 0).
      { specialize (O 0%nat 0%nat). apply is_derive_unique in O. rewrite <- O. apply is_derive_unique. apply (der_ext (fun t => 1)); [|exact (der_const 1 0)]. intros t. reflexivity. }
      unfold dent, ent, opent, cau_dm, cau_code_dg, ent, el in *. cbn in *. unfold ent, el; cbn. rewrite E1, E2, E3. unfold cau_dx, cau_dg; field.
Qed.
Definition u33s0 : U0 := u33s exact_la.
Lemma w33 : live u33s0 (fun o => nth o [0; 2] 0) /\ 0 < 3 / 2 < 2 /\ exists e1 m1, session exact_la 2 3 u33s0 Z0 e1 m1 /\
  mreal exact_la u33s0 m1 Z0 (fun o => nth o [0; 2] 0) Z0 /\ exists e2 m2, evaluate e1 m1 = Ok (e2, m2, [NInf]).
Proof.
  split; [apply live_ok; [split; [reflexivity|split; [reflexivity|cbn; repeat (split || constructor); try (eexists; reflexivity)]]|reflexivity]|].
  split; [lra|]. exact (stale_uni exact_la exact_la_ok).
Qed.
(** x = I2 constant, v a variable. *)
Definition es35c : list U0 := [ECst (Sh Mat 2 2) [Fin 1; Fin 0; Fin 0; Fin 1]; EVar (Sh Mat 2 2) 0; ECst scl [Fin 3]].
Definition rho35c (o : nat) : R := nth o [1; 0; 0; 1] 0.
Lemma pd_I2 (A : mat) : (forall i j, (i < 2)%nat -> (j < 2)%nat -> A i j = if (i =? j)%nat then 1 else 0) -> posdef 2 A.
Proof.
  intros H. split.
  - intros i j Hi Hj. rewrite !H by auto. rewrite (Nat.eqb_sym j i). reflexivity.
  - intros x [i [Hi Hx]]. unfold quad, sumn. cbn. rewrite !H by lia. cbn.
    assert (Q : x 0%nat <> 0 \/ x 1%nat <> 0) by (destruct i as [|[|i]]; [tauto|tauto|lia]).
    assert (0 <= x 0%nat * x 0%nat) by apply Rle_0_sqr. assert (0 <= x 1%nat * x 1%nat) by apply Rle_0_sqr.
    assert (0 < x 0%nat * x 0%nat + x 1%nat * x 1%nat).
    { destruct Q as [Q|Q]; pose proof (Rsqr_pos_lt _ Q) as P; unfold Rsqr in P; lra. }
    lra.
Qed.
Lemma w35 : live (EComp (KStat Wish) tt es35c) rho35c /\ opconst (es35c : list X0) 0 = true /\ opconst (es35c : list X0) 1 = false /\
  odomv exact_la Z0 es35c rho35c /\
  posdef 2 (opmat Z0 (es35c : list X0) rho35c 0) /\ posdef 2 (opmat Z0 (es35c : list X0) rho35c 1) /\ INR 2 - 1 < el (nth 2 (vals Z0 (es35c : list X0) rho35c) []) 0 /\
  node_idle exact_la (KStat Wish) es35c Z0 rho35c [NInf].
Proof.
  split; [apply live_ok; [split; [reflexivity|split; [reflexivity|cbn; repeat (split || constructor); try (eexists; reflexivity)]]|reflexivity]|].
  do 2 (split; [reflexivity|]). split; [cbn; repeat (split || constructor); try (eexists; reflexivity)|].
  do 2 (split; [apply pd_I2; intros i j Hi Hj; destruct i as [|[|i]], j as [|[|j]]; try lia; reflexivity|]).
  split; [cbn; lra|]. apply ninf_wishart_const; [exact exact_la_ok| | |reflexivity|reflexivity].
  - split; [reflexivity|split; [reflexivity|cbn; repeat (split || constructor); try (eexists; reflexivity)]].
  - cbn; repeat (split || constructor); try (eexists; reflexivity).
Qed.
