(** The captured-value evaluators depend on the states left by the constructors
    only, and these never change. *)
From Verif Require Import Base Num Expr Node Stat Machine Wf Pure LBase LKind LSimDef LMem Tape LTape LState.

Section LState.
Context {N : num}.
Notation T := (carrier N).
Notation E := (expr T (ann N)).

Lemma kf_indep k cs ss s1 s2 vs : kn k cs s1 = kn k cs s2 ->
  kshape_ok k ss = true -> kdim_ok k ss = true -> lens N vs ss ->
  snd (kf k cs ss s1 vs) = snd (kf k cs ss s2 vs) /\
  forall ad f i, kseed k cs ss (fst (kf k cs ss s1 vs)) ad (vsel k vs) f i =
                 kseed k cs ss (fst (kf k cs ss s2 vs)) ad (vsel k vs) f i.
Proof.
  intros HK HS HD HL. unfold kf. destruct k; cbn [kfwd kseed fst snd ma]; auto.
  destruct (kfwd_ok N (KStat s) cs ss s1 vs HS HD HL) as [s1' [v [E1 _]]].
  cbn [kfwd] in *. apply bindR_ok in E1. destruct E1 as [[s1'' x] [E1 E2]]. inversion E2; subst. clear E2.
  cbn [kn] in HK. destruct (stat_indep s cs ss s1 s2 vs s1' x HK E1) as [s2' [E2 E3]].
  rewrite E1, E2. cbn [bindR fst snd]. split; auto.
Qed.

(** ** States of a whole expression *)
Fixpoint nrm (e : E) : expr T (sst N) :=
  match e with
  | EVar sh o => EVar sh o
  | ECst sh c => ECst sh c
  | ECvw sh o => ECvw sh o
  | EComp k an es => EComp k (kn k (map is_const es) (st an)) (map nrm es)
  | EEq _ sh o y => EEq (sst0 N) sh o (nrm y)
  | EOpEq q _ sh o y => EOpEq q (sst0 N) sh o (nrm y)
  | EGlue _ l r => EGlue (sst0 N) (nrm l) (nrm r)
  | EFor _ s es => EFor (sst0 N) s (map nrm es)
  | EIf _ c t f => EIf (sst0 N) (nrm c) (nrm t) (nrm f)
  end.
Lemma nrm_const e : is_const (nrm e) = is_const e. Proof. now destruct e. Qed.
Lemma nrm_consts es es' : map nrm es' = map nrm es -> map is_const es' = map is_const es.
Proof.
  intros H. assert (X : forall l : list E, map is_const l = map is_const (map nrm l)).
  { intros l. rewrite map_map. apply map_ext. intros. now rewrite nrm_const. }
  now rewrite (X es'), (X es), H.
Qed.
Lemma nrm_shape e : shape_of (nrm e) = shape_of e.
Proof.
  induction e using expr_ind'; cbn; auto; f_equal; rewrite map_map; now apply map_ext_Forall.
Qed.
Lemma nrm_shapes es es' : map nrm es' = map nrm es -> map shape_of es' = map shape_of es.
Proof.
  intros H. assert (X : forall l : list E, map shape_of l = map shape_of (map nrm l)).
  { intros l. rewrite map_map. apply map_ext. intros. now rewrite nrm_shape. }
  now rewrite (X es'), (X es), H.
Qed.

Lemma fevals_nrm es : Forall (fun e : E => forall m e' m' v, feval e m = Ok (e', m', v) -> nrm e' = nrm e) es ->
  forall m es' m' rs im, fevals es m = Ok (es', m', rs, im) -> map nrm es' = map nrm es.
Proof.
  induction 1 as [|y l HY H IH]; intros m es' m' rs im HE; cbn in HE.
  - now inversion HE.
  - apply bindR_ok in HE. destruct HE as [[[y' m1] r] [E1 HE]].
    apply bindR_ok in HE. destruct HE as [v [_ HE]].
    apply bindR_ok in HE. destruct HE as [[[[l' m2] rs2] im2] [E2 HE]].
    inversion HE; subst. cbn. f_equal; eauto.
Qed.
Lemma fevalsf_nrm es : Forall (fun e : E => forall m e' m' v, feval e m = Ok (e', m', v) -> nrm e' = nrm e) es ->
  forall m es' m', fevalsf es m = Ok (es', m') -> map nrm es' = map nrm es.
Proof.
  induction 1 as [|y l HY H IH]; intros m es' m' HE; cbn in HE.
  - now inversion HE.
  - apply bindR_ok in HE. destruct HE as [[[y' m1] r] [E1 HE]].
    apply bindR_ok in HE. destruct HE as [[l' m2] [E2 HE]].
    inversion HE; subst. cbn. f_equal; eauto.
Qed.
Ltac bk H := apply bindR_ok in H; destruct H as [? [? H]].
Lemma feval_nrm e : forall m e' m' v, feval e m = Ok (e', m', v) -> nrm e' = nrm e.
Proof.
  induction e using expr_ind'; intros m e' m' w HE.
  - now inversion HE.
  - now inversion HE.
  - now inversion HE.
  - rewrite feval_comp in HE. apply bindR_ok in HE. destruct HE as [[[[es' m1] rs] im] [E1 HE]].
    apply bindR_ok in HE. destruct HE as [vs [_ HE]]. bk HE.
    apply bindR_ok in HE. destruct HE as [[s' vl] [E2 HE]].
    bk HE. bk HE. inversion HE; subst. cbn [nrm].
    pose proof (fevals_nrm es H _ _ _ _ _ E1) as HN. rewrite HN, (nrm_consts _ _ HN). f_equal.
    cbn [set_st st]. eapply kfwd_keep; eauto.
  - cbn [feval] in HE. apply bindR_ok in HE. destruct HE as [[[y' m1] r] [E1 HE]].
    bk HE. bk HE. bk HE. bk HE. inversion HE; subst. cbn. f_equal. eauto.
  - cbn [feval] in HE. bk HE. bk HE. apply bindR_ok in HE. destruct HE as [[[y' m1] r] [E1 HE]].
    bk HE. bk HE. bk HE. bk HE. bk HE. inversion HE; subst. cbn. f_equal. eauto.
  - cbn [feval] in HE. apply bindR_ok in HE. destruct HE as [[[l' m1] rl] [E1 HE]].
    apply bindR_ok in HE. destruct HE as [[[r' m2] rr] [E2 HE]].
    bk HE. bk HE. inversion HE; subst. cbn. f_equal; eauto.
  - rewrite feval_for in HE. apply bindR_ok in HE. destruct HE as [[es' m1] [E1 HE]].
    pose proof (fevalsf_nrm es H _ _ _ E1) as HN.
    destruct (rev es').
    + inversion HE; subst. cbn. now rewrite HN.
    + bk HE. bk HE. bk HE. inversion HE; subst. cbn. now rewrite HN.
  - cbn [feval] in HE. apply bindR_ok in HE. destruct HE as [[[c' m1] rl] [E1 HE]].
    bk HE. destruct (ntrue _ _).
    + apply bindR_ok in HE. destruct HE as [[[r' m2] rr] [E2 HE]]. inversion HE; subst. cbn. f_equal; eauto.
    + apply bindR_ok in HE. destruct HE as [[[r' m2] rr] [E2 HE]]. inversion HE; subst. cbn. f_equal; eauto.
Qed.

(** ** The captured-value evaluators depend on the normalised states only *)
Section Tf.
Variable D : nat -> T.
Notation env := (nat -> T).
Notation rec := (rec N).

Lemma tfs_len es : Forall (fun e : E => forall r t r', wfs e = true -> tf D e r = (t, r') ->
    length (nv t) = size (shape_of e)) es -> forall r ts r', forallb wfs es = true ->
  tfs D es r = (ts, r') -> lens N (map nv ts) (map shape_of es).
Proof.
  induction 1 as [|y l HY H IH]; intros r ts r' HW HE; cbn in HE.
  - inversion HE. constructor.
  - cbn in HW. apply andb_true_iff in HW. destruct HW as [W1 W2].
    destruct (tf D y r) as [t r1] eqn:E1. destruct (tfs D l r1) as [ts2 r2] eqn:E2.
    inversion HE; subst. cbn. constructor; [eapply HY|eapply IH]; eauto.
Qed.
Lemma tf_len e : forall r t r', wfs e = true -> tf D e r = (t, r') -> length (nv t) = size (shape_of e).
Proof.
  induction e using expr_ind'; intros r t r' HW HE.
  - inversion HE. apply rdv_length.
  - cbn in HW. apply andb_true_iff in HW. destruct HW as [_ HW]. apply Nat.eqb_eq in HW. now inversion HE.
  - inversion HE. apply rdv_length.
  - rewrite tf_comp in HE. destruct (tfs D es r) as [ts r1] eqn:E1.
    cbn [wfs] in HW. rewrite !andb_true_iff in HW. destruct HW as [[[W1 W2] W3] W4].
    pose proof (tfs_len es H _ _ _ W1 E1) as HL.
    destruct (kfwd_ok N k (map is_const es) (map shape_of es) (st a) (map nv ts) W2 W3 HL) as [s' [v [E2 L2]]].
    unfold kf in HE. rewrite E2 in HE. now inversion HE.
  - cbn [wfs] in HW. rewrite !andb_true_iff in HW. destruct HW as [[[W1 W2] W3] W4]. apply shape_eqb_eq in W3.
    cbn [tf] in HE. destruct (tf D e r) as [t1 r1] eqn:E1. inversion HE; subst. cbn [nv shape_of]. eauto.
  - cbn [wfs] in HW. rewrite !andb_true_iff in HW. destruct HW as [[[W1 W2] W3] W4].
    cbn [tf] in HE. destruct (tf D e r) as [t1 r1] eqn:E1. inversion HE; subst. cbn [nv shape_of].
    rewrite oe_fwd_length; rewrite rdv_length; [reflexivity|].
    apply orb_true_iff in W3. destruct W3 as [W3|W3]; [auto|right]. apply shape_eqb_eq in W3. rewrite W3. eauto.
  - cbn [wfs] in HW. rewrite !andb_true_iff in HW. destruct HW as [[[W1 W2] W3] W4].
    cbn [tf] in HE. destruct (tf D e1 r) as [t1 r1] eqn:E1. destruct (tf D e2 r1) as [t2 r2] eqn:E2.
    inversion HE; subst. cbn [nv shape_of]. eauto.
  - rewrite tf_for in HE. destruct (tfs D es r) as [ts r1] eqn:E1.
    cbn [wfs] in HW. rewrite !andb_true_iff in HW. destruct HW as [[[W1 W2] W3] W4].
    pose proof (tfs_len es H _ _ _ W1 E1) as HL. inversion HE; subst. cbn [nv shape_of].
    destruct es as [|y l].
    + inversion HL. destruct ts; [|discriminate]. destruct s; [discriminate|reflexivity|reflexivity].
    + destruct ts as [|t0 ts0]; [inversion HL|].
      rewrite <- (for_last_len N s (map nv (t0 :: ts0)) (map shape_of (y :: l))); auto.
      * f_equal. clear. revert t0. induction ts0 as [|t1 ts1 IH]; intros t0; [reflexivity|apply (IH t1)].
      * apply forallb_forall. intros sh Hs. apply in_map_iff in Hs. destruct Hs as [z [<- Hz]].
        apply wfs_shape. eapply forallb_forall; eauto.
      * discriminate.
  - cbn [wfs] in HW. rewrite !andb_true_iff in HW. destruct HW as [[[[[W1 W2] W3] W4] W5] W6].
    apply shape_eqb_eq in W6. cbn [tf] in HE. destruct (tf D e1 r) as [t1 r1] eqn:E1.
    destruct (ntrue _ _).
    + destruct (tf D e2 r1) as [t2 r2] eqn:E2. inversion HE; subst. cbn [nv shape_of]. eauto.
    + destruct (tf D e3 r1) as [t2 r2] eqn:E2. inversion HE; subst. cbn [nv shape_of]. rewrite W6. eauto.
Qed.

(** Placeholders assigned in the run recorded by [t]. *)
Fixpoint asg (e : E) (t : rec) {struct e} : list nat :=
  match e with
  | EVar _ _ | ECst _ _ | ECvw _ _ => []
  | EComp _ _ es | EFor _ _ es =>
      (fix go (l : list E) (ts : list rec) {struct l} : list nat :=
         match l, ts with y :: l', ty :: ts' => asg y ty ++ go l' ts' | _, _ => [] end) es (nts t)
  | EEq _ sh o y => cells sh o ++ match nts t with [ty] => asg y ty | _ => [] end
  | EOpEq _ _ _ _ y => match nts t with [ty] => asg y ty | _ => [] end
  | EGlue _ l r => match nts t with [tl; tr] => asg l tl ++ asg r tr | _ => [] end
  | EIf _ c t0 f =>
      match nts t with
      | [tc; tk] => asg c tc ++ if ntrue N (hd0 N (nv tc)) then asg t0 tk else asg f tk
      | _ => []
      end
  end.
Definition asgs : list E -> list rec -> list nat :=
  fix go (l : list E) (ts : list rec) {struct l} : list nat :=
     match l, ts with y :: l', ty :: ts' => asg y ty ++ go l' ts' | _, _ => [] end.
Lemma asgs_eqw es : Forall (fun e : E => forall t o, In o (asg e t) -> In o (eqw e)) es ->
  forall ts o, In o (asgs es ts) -> In o (flat_map eqw es).
Proof.
  induction 1 as [|y l HY H IH]; intros [|t ts] o; cbn; auto.
  - intros [].
  - rewrite !in_app_iff. intros [X|X]; eauto.
Qed.
Lemma asg_eqw (e : E) : forall t o, In o (asg e t) -> In o (eqw e).
Proof.
  induction e using expr_ind'; intros t o' HI; cbn in HI |- *; auto.
  - eapply asgs_eqw; eauto.
  - rewrite in_app_iff in *. destruct HI as [HI|HI]; auto.
    destruct (nts t) as [|ty [|]]; eauto; destruct HI.
  - destruct (nts t) as [|ty [|]]; eauto; destruct HI.
  - rewrite in_app_iff. destruct (nts t) as [|ty [|tz [|]]]; try destruct HI.
    apply in_app_iff in HI. destruct HI; eauto.
  - eapply asgs_eqw; eauto.
  - rewrite !in_app_iff. destruct (nts t) as [|ty [|tz [|]]]; try destruct HI.
    apply in_app_iff in HI. destruct HI; eauto. destruct (ntrue _ _); eauto.
Qed.
Lemma asgs_eqw' es ts o : In o (asgs es ts) -> In o (flat_map eqw es).
Proof. apply asgs_eqw. apply Forall_forall. intros. eapply asg_eqw; eauto. Qed.

Lemma later_weak (f g : E -> list nat) es : (forall e o, In o (g e) -> In o (f e)) ->
  later f es = true -> later g es = true.
Proof.
  intros HS. induction es as [|y l IH]; cbn; auto. rewrite !andb_true_iff. intros [H1 H2]. split; auto.
  unfold dj in *. rewrite forallb_forall in *. intros o Ho. apply H1.
  apply in_flat_map in Ho. destruct Ho as [z [Z1 Z2]]. apply in_flat_map. eauto.
Qed.

Definition EQ (e1 e2 : E) (t1 t2 : rec) : Prop :=
  nv t1 = nv t2 /\ asg e2 t2 = asg e1 t1 /\
  (forall seed a, tb e1 t1 seed a = tb e2 t2 seed a) /\ (forall r, rs e1 t1 r = rs e2 t2 r).
Definition EQs : list E -> list E -> list rec -> list rec -> Prop :=
  fix go (l1 l2 : list E) (ts1 ts2 : list rec) {struct l1} :=
    match l1, l2, ts1, ts2 with
    | [], [], [], [] => True
    | y1 :: l1', y2 :: l2', t1 :: ts1', t2 :: ts2' => EQ y1 y2 t1 t2 /\ go l1' l2' ts1' ts2'
    | _, _, _, _ => False
    end.
Definition TI (e1 : E) : Prop := forall e2 r1 r2 t1 r1' t2 r2',
  nrm e1 = nrm e2 -> wfs e1 = true -> disc e1 = true ->
  tf D e1 r1 = (t1, r1') -> tf D e2 r2 = (t2, r2') ->
  (forall o, In o (refs e1) -> ~ In o (asg e1 t1) -> r1 o = r2 o) ->
  EQ e1 e2 t1 t2 /\ (forall o, In o (asg e1 t1) -> r1' o = r2' o) /\
  (forall o, r1 o = r2 o -> r1' o = r2' o).

Lemma EQs_facts l1 : forall l2 ts1 ts2, EQs l1 l2 ts1 ts2 -> map nv ts1 = map nv ts2 /\ asgs l2 ts2 = asgs l1 ts1 /\
  (forall r, rsl l1 ts1 r = rsl l2 ts2 r) /\
  (forall (d : rec), nv (last ts1 d) = nv (last ts2 d)).
Proof.
  induction l1 as [|y l IH]; intros [|y2 l2] [|t1 ts1] [|t2 ts2]; cbn [EQs]; try tauto.
  intros [[Q1 [Q2 [Q3 Q4]]] H]. { destruct (IH _ _ _ H) as [A1 [A2 [A3 A4]]].
    split; [cbn; congruence|]. split; [cbn; congruence|]. split.
    + intros r. cbn. rewrite Q4. f_equal. apply A3.
    + intros d. destruct ts1 as [|u ts1], ts2 as [|u2 ts2]; try discriminate A1; [exact Q1|].
      apply (A4 d). }
Qed.
Lemma TIL es : Forall TI es -> forall es2 r1 r2 ts1 r1' ts2 r2',
  map nrm es = map nrm es2 -> forallb wfs es = true -> forallb disc es = true -> later eqw es = true ->
  tfs D es r1 = (ts1, r1') -> tfs D es2 r2 = (ts2, r2') ->
  (forall o, In o (flat_map refs es) -> ~ In o (asgs es ts1) -> r1 o = r2 o) ->
  EQs es es2 ts1 ts2 /\ (forall o, In o (asgs es ts1) -> r1' o = r2' o) /\
  (forall o, r1 o = r2 o -> r1' o = r2' o).
Proof.
  induction 1 as [|y l HY H IH]; intros [|y2 l2] r1 r2 ts1 r1' ts2 r2' HN HW HD HLt E1 E2 HR; try discriminate HN.
  - inversion E1; inversion E2; subst. cbn. repeat split; auto.
  - cbn [tfs] in E1, E2. cbn [forallb] in HW, HD. apply andb_true_iff in HW, HD.
    destruct HW as [W1 W2], HD as [D1 D2]. destruct (later_hd _ _ _ HLt) as [L1 L2].
    injection HN as N1 N2.
    destruct (tf D y r1) as [t1 ra] eqn:F1. destruct (tfs D l ra) as [ts1' rb] eqn:F2. inversion E1; subst ts1 r1'.
    destruct (tf D y2 r2) as [t2 rc] eqn:F3. destruct (tfs D l2 rc) as [ts2' rd] eqn:F4. inversion E2; subst ts2 r2'.
    cbn [asgs flat_map] in HR |- *.
    destruct (HY y2 r1 r2 t1 ra t2 rc N1 W1 D1 F1 F3) as [A1 [A2 A3]].
    { intros o Ho Hn. apply HR; [apply in_app_iff; auto|]. rewrite in_app_iff. intros [X|X]; [auto|].
      apply asgs_eqw' in X. exact (L1 o X Ho). }
    destruct (IH l2 ra rc ts1' rb ts2' rd N2 W2 D2 L2 F2 F4) as [B1 [B2 B3]].
    { intros o Ho Hn. destruct (in_dec Nat.eq_dec o (asg y t1)) as [X|X]; [auto|].
      apply A3. apply HR; [apply in_app_iff; auto|]. rewrite in_app_iff. tauto. }
    split; [cbn; auto|]. split; [|auto].
    intros o Ho. apply in_app_iff in Ho. destruct Ho; auto.
Qed.
Lemma tbl_eq k es es2 t1 t2 seed : map is_const es = map is_const es2 -> map shape_of es = map shape_of es2 ->
  map nv (nts t1) = map nv (nts t2) -> nv t1 = nv t2 ->
  (forall ad f i, kseed k (map is_const es) (map shape_of es) (ns t1) ad (vsel k (map nv (nts t1))) f i =
                  kseed k (map is_const es) (map shape_of es) (ns t2) ad (vsel k (map nv (nts t1))) f i) ->
  forall l1 l2 ts1 ts2, EQs l1 l2 ts1 ts2 -> forall i a, tbl k es t1 seed i l1 ts1 a = tbl k es2 t2 seed i l2 ts2 a.
Proof.
  intros HC HS HV Hv HK. induction l1 as [|y l IH]; intros [|y2 l2] [|u1 ts1] [|u2 ts2]; cbn [EQs]; try tauto.
  intros [[Q1 [Q2 [Q3 Q4]]] H] i a. cbn [tbl].
  change (tbl k es t1 seed (S i) l ts1 a) with (tbl k es t1 seed (S i) l ts1 a).
  rewrite (IH _ _ _ H (S i) a). rewrite <- HC, <- HS, <- HV, <- Hv, <- HK.
  destruct (kseed _ _ _ _ _ _ _ _); auto.
Qed.
Lemma tbf_eq seed l1 : forall l2 ts1 ts2, EQs l1 l2 ts1 ts2 -> map shape_of l1 = map shape_of l2 ->
  forall a, tbf seed l1 ts1 a = tbf seed l2 ts2 a.
Proof.
  induction l1 as [|y l IH]; intros [|y2 l2] [|u1 ts1] [|u2 ts2]; cbn [EQs]; try tauto.
  intros [[Q1 [Q2 [Q3 Q4]]] H] HS a. injection HS as S1 S2. pose proof (IH _ _ _ H S2 a) as HI.
  destruct l, l2; try discriminate S2; cbn [tbf]; [apply Q3|]. rewrite S1, Q3. f_equal. exact HI.
Qed.

Lemma TI_all e : TI e.
Proof.
  induction e using expr_ind'; intros e' r1 r2 t1 r1' t2 r2' HN HW HD E1 E2 HR;
    destruct e'; try discriminate HN.
  - injection HN as -> ->. inversion E1; inversion E2; subst. cbn [asg] in *.
    split; [|split; [intros ? []|auto]]. split; [|auto]. cbn.
    apply rdv_ext. intros i Hi. apply HR; [|intros []]. cbn. apply in_cells. exact Hi.
  - injection HN as -> ->. inversion E1; inversion E2; subst. cbn [asg] in *.
    split; [|split; [intros ? []|auto]]. split; [|auto]. reflexivity.
  - injection HN as -> ->. inversion E1; inversion E2; subst. cbn [asg] in *.
    split; [|split; [intros ? []|auto]]. split; [|auto]. reflexivity.
  - injection HN as EQk HK HN. subst k0. rewrite tf_comp in E1, E2.
    destruct (tfs D es r1) as [ts1 ra] eqn:F1. destruct (tfs D es0 r2) as [ts2 rb] eqn:F2.
    pose proof HW as HW'. cbn [wfs] in HW. rewrite !andb_true_iff in HW. destruct HW as [[[W1 W2] W3] W4].
    cbn [disc] in HD. rewrite !andb_true_iff in HD. destruct HD as [[[D1 D2] _] _].
    destruct (kf k (map is_const es) (map shape_of es) (st a) (map nv ts1)) as [s1 v1] eqn:K1.
    destruct (kf k (map is_const es0) (map shape_of es0) (st a0) (map nv ts2)) as [s2 v2] eqn:K2.
    inversion E1; inversion E2; subst. clear E1 E2.
    apply later_weak with (g := eqw) in D2; [|intros ? ?; apply eqw_writes].
    destruct (TIL es H es0 r1 r2 ts1 r1' ts2 r2' HN W1 D1 D2 F1 F2 HR) as [B1 [B2 B3]].
    destruct (EQs_facts _ _ _ _ B1) as [C1 [C2 [C3 C4]]].
    pose proof (nrm_consts _ _ HN) as HC. pose proof (nrm_shapes _ _ HN) as HS.
    assert (HL : lens N (map nv ts1) (map shape_of es)).
    { eapply (tfs_len es); eauto. apply Forall_forall. intros. eapply tf_len; eauto. }
    rewrite HC in HK.
    rewrite <- HC, <- HS, <- C1 in K2. rewrite HC in K2. rewrite HC in K1.
    destruct (kf_indep k (map is_const es0) (map shape_of es) (st a) (st a0) (map nv ts1) HK W2 W3 HL) as [I1 I2].
    rewrite K1, K2 in I1, I2. cbn [fst snd] in I1, I2. subst v2.
    split; [|split; [exact B2|exact B3]].
    split; [reflexivity|]. split; [exact C2|]. split.
    + intros seed al. rewrite !tb_comp. apply tbl_eq; auto. cbn [nts ns]. rewrite HC. exact I2.
    + intros r. rewrite !rs_comp. cbn [nts]. rewrite C3. reflexivity.
  - injection HN as -> -> HN. cbn [tf] in E1, E2.
    destruct (tf D e r1) as [ta ra] eqn:F1. destruct (tf D e' r2) as [tc rb] eqn:F2.
    inversion E1; inversion E2; subst. clear E1 E2.
    cbn [wfs] in HW. rewrite !andb_true_iff in HW. destruct HW as [[[W1 W2] W3] W4].
    cbn [disc] in HD. rewrite !andb_true_iff in HD. destruct HD as [D1 D2].
    cbn [asg nts refs] in HR |- *.
    destruct (IHe e' r1 r2 ta ra tc rb HN W1 D1 F1 F2) as [[Q1 [Q2 [Q3 Q4]]] [B2 B3]].
    { intros i Hi Hn. apply HR; [apply in_app_iff; auto|]. rewrite in_app_iff. intros [X|X]; [|auto].
      exact (dj_spec _ _ D2 i X Hi). }
    apply shape_eqb_eq in W3.
    assert (L1 : length (nv ta) = size sh0) by (rewrite W3; eapply tf_len; eauto).
    rewrite <- Q1.
    split; [|split].
    + split; [reflexivity|]. split; [cbn [asg nts]; now rewrite Q2|]. split.
      * intros seed al. cbn [tb nts]. apply Q3.
      * intros r. cbn [rs nts]. apply Q4.
    + intros i Hi. apply in_app_iff in Hi. destruct (in_dec Nat.eq_dec i (cells sh0 o0)) as [X|X].
      * apply in_cells in X. rewrite !upd_in by (rewrite L1; auto). reflexivity.
      * rewrite !upd_out by (rewrite L1; intros Y; apply X; apply in_cells; auto). apply B2. tauto.
    + intros i Hi. destruct (in_dec Nat.eq_dec i (cells sh0 o0)) as [X|X].
      * apply in_cells in X. rewrite !upd_in by (rewrite L1; auto). reflexivity.
      * rewrite !upd_out by (rewrite L1; intros Y; apply X; apply in_cells; auto). apply B3. tauto.
  - injection HN as -> -> -> HN. cbn [tf] in E1, E2.
    destruct (tf D e r1) as [ta ra] eqn:F1. destruct (tf D e' r2) as [tc rb] eqn:F2.
    inversion E1; inversion E2; subst. clear E1 E2.
    cbn [wfs] in HW. rewrite !andb_true_iff in HW. destruct HW as [[[W1 W2] W3] W4].
    cbn [disc] in HD. rewrite !andb_true_iff in HD. destruct HD as [[D1 D2] D3].
    cbn [asg nts refs] in HR |- *.
    destruct (IHe e' r1 r2 ta ra tc rb HN W1 D1 F1 F2) as [[Q1 [Q2 [Q3 Q4]]] [B2 B3]].
    { intros i Hi Hn. apply HR; [apply in_app_iff; auto|auto]. }
    assert (SH : shape_of e = shape_of e') by (rewrite <- (nrm_shape e), HN; apply nrm_shape).
    assert (OLD : rdv ra o0 (size sh0) = rdv rb o0 (size sh0)).
    { apply rdv_ext. intros i Hi. apply B3. apply in_cells in Hi. apply HR; [apply in_app_iff; auto|].
      intros X. apply asg_eqw, eqw_writes in X. exact (dj_spec _ _ D2 i Hi X). }
    rewrite <- Q1, <- OLD, <- SH.
    assert (L1 : length (oe_fwd N q0 (shape_of e) (rdv ra o0 (size sh0)) (nv ta)) = size sh0).
    { rewrite oe_fwd_length; rewrite rdv_length; [reflexivity|].
      apply orb_true_iff in W3. destruct W3 as [W3|W3]; [auto|right]. apply shape_eqb_eq in W3. rewrite W3.
      eapply tf_len; eauto. }
    split; [|split].
    + split; [reflexivity|]. split; [cbn [asg nts]; exact Q2|]. split.
      * intros seed al. cbn [tb nts no nv]. now rewrite <- Q1, <- SH, Q3.
      * intros r. cbn [rs nts no]. apply Q4.
    + intros i Hi. destruct (in_dec Nat.eq_dec i (cells sh0 o0)) as [X|X].
      * apply in_cells in X. rewrite !upd_in by (rewrite L1; auto). reflexivity.
      * rewrite !upd_out by (rewrite L1; intros Y; apply X; apply in_cells; auto). apply B2. tauto.
    + intros i Hi. destruct (in_dec Nat.eq_dec i (cells sh0 o0)) as [X|X].
      * apply in_cells in X. rewrite !upd_in by (rewrite L1; auto). reflexivity.
      * rewrite !upd_out by (rewrite L1; intros Y; apply X; apply in_cells; auto). apply B3. tauto.
  - injection HN as HN1 HN2. cbn [tf] in E1, E2.
    destruct (tf D e1 r1) as [ta ra] eqn:F1. destruct (tf D e2 ra) as [tc rc] eqn:F2.
    destruct (tf D e'1 r2) as [ta' ra'] eqn:F3. destruct (tf D e'2 ra') as [tc' rc'] eqn:F4.
    inversion E1; inversion E2; subst. clear E1 E2.
    cbn [wfs] in HW. rewrite !andb_true_iff in HW. destruct HW as [[[W1 W2] W3] W4].
    cbn [disc] in HD. rewrite !andb_true_iff in HD. destruct HD as [[D1 D2] D3].
    cbn [asg nts refs] in HR |- *.
    destruct (IHe1 e'1 r1 r2 ta ra ta' ra' HN1 W1 D1 F1 F3) as [[Q1 [Q2 [Q3 Q4]]] [B2 B3]].
    { intros i Hi Hn. apply HR; [apply in_app_iff; auto|]. rewrite in_app_iff. intros [X|X]; [auto|].
      apply asg_eqw in X. exact (dj_spec _ _ D3 i X Hi). }
    destruct (IHe2 e'2 ra ra' tc r1' tc' r2' HN2 W2 D2 F2 F4) as [[P1 [P2 [P3 P4]]] [A2 A3]].
    { intros i Hi Hn. destruct (in_dec Nat.eq_dec i (asg e1 ta)) as [X|X]; [auto|].
      apply B3. apply HR; [apply in_app_iff; auto|]. rewrite in_app_iff. tauto. }
    assert (SH : shape_of e1 = shape_of e'1) by (rewrite <- (nrm_shape e1), HN1; apply nrm_shape).
    split; [|split].
    + split; [exact P1|]. split; [cbn [asg nts]; congruence|]. split.
      * intros seed al. cbn [tb nts]. now rewrite <- SH, Q3, P3.
      * intros r. cbn [rs nts]. now rewrite Q4, P4.
    + intros i Hi. apply in_app_iff in Hi. destruct Hi; auto.
    + auto.
  - injection HN as -> HN. rewrite tf_for in E1, E2.
    destruct (tfs D es r1) as [ts1 ra] eqn:F1. destruct (tfs D es0 r2) as [ts2 rb] eqn:F2.
    inversion E1; inversion E2; subst. clear E1 E2.
    cbn [wfs] in HW. rewrite !andb_true_iff in HW. destruct HW as [[[W1 W2] W3] W4].
    cbn [disc] in HD. rewrite !andb_true_iff in HD. destruct HD as [D1 D2].
    destruct (TIL es H es0 r1 r2 ts1 r1' ts2 r2' HN W1 D1 D2 F1 F2 HR) as [B1 [B2 B3]].
    destruct (EQs_facts _ _ _ _ B1) as [C1 [C2 [C3 C4]]].
    split; [|split; [exact B2|exact B3]].
    split; [apply C4|]. split; [exact C2|]. split.
    + intros seed al. rewrite !tb_for. apply tbf_eq; auto. cbn [nts]. symmetry. now apply nrm_shapes.
    + intros r. rewrite !rs_for. cbn [nts]. apply C3.
  - injection HN as HN1 HN2 HN3. cbn [tf] in E1, E2.
    cbn [wfs] in HW. rewrite !andb_true_iff in HW. destruct HW as [[[[[W1 W2] W3] W4] W5] W6].
    cbn [disc] in HD. rewrite !andb_true_iff in HD. destruct HD as [[[[D0 D1] D2] D3] D4].
    apply nilb_spec in D0.
    destruct (tf D e1 r1) as [ta ra] eqn:F1. destruct (tf D e'1 r2) as [ta' ra'] eqn:F3.
    assert (AC : forall t, asg e1 t = []).
    { intros t. destruct (asg e1 t) as [|i l] eqn:EA; auto.
      assert (X : In i (asg e1 t)) by (rewrite EA; left; auto).
      apply asg_eqw, eqw_writes in X. rewrite D0 in X. destruct X. }
    set (X1 := if ntrue N (hd0 N (nv ta)) then tf D e2 ra else tf D e3 ra) in E1.
    destruct X1 as [tk rk] eqn:F2. inversion E1; subst t1 r1'. clear E1.
    cbn [asg nts refs] in HR. rewrite AC in HR.
    destruct (IHe1 e'1 r1 r2 ta ra ta' ra' HN1 W1 D1 F1 F3) as [[Q1 [Q2 [Q3 Q4]]] [B2 B3]].
    { intros i Hi Hn. apply HR; [rewrite !in_app_iff; auto|]. intros X.
      apply (dj_spec _ _ D4 i); [|exact Hi]. rewrite in_app_iff. cbn in X.
      destruct (ntrue _ _); apply asg_eqw in X; auto. }
    rewrite <- Q1 in E2. subst X1.
    destruct (ntrue N (hd0 N (nv ta))) eqn:EB.
    + destruct (tf D e'2 ra') as [tc' rc'] eqn:F4. inversion E2; subst. clear E2.
      destruct (IHe2 e'2 ra ra' tk rk tc' r2' HN2 W2 D2 F2 F4) as [[P1 [P2 [P3 P4]]] [A2 A3]].
      { intros i Hi Hn. apply B3. apply HR; [rewrite !in_app_iff; auto|exact Hn]. }
      split; [|split].
      * split; [exact P1|]. split; [cbn [asg nts]; rewrite <- Q1, EB; congruence|]. split.
        -- intros seed al. cbn [tb nts]. rewrite <- Q1, EB. apply P3.
        -- intros r. cbn [rs nts]. rewrite <- Q1, EB. apply P4.
      * cbn [asg nts]. rewrite AC, EB. exact A2.
      * auto.
    + destruct (tf D e'3 ra') as [tc' rc'] eqn:F4. inversion E2; subst. clear E2.
      destruct (IHe3 e'3 ra ra' tk rk tc' r2' HN3 W3 D3 F2 F4) as [[P1 [P2 [P3 P4]]] [A2 A3]].
      { intros i Hi Hn. apply B3. apply HR; [rewrite !in_app_iff; auto|exact Hn]. }
      split; [|split].
      * split; [exact P1|]. split; [cbn [asg nts]; rewrite <- Q1, EB; congruence|]. split.
        -- intros seed al. cbn [tb nts]. rewrite <- Q1, EB. apply P3.
        -- intros r. cbn [rs nts]. rewrite <- Q1, EB. apply P4.
      * cbn [asg nts]. rewrite AC, EB. exact A2.
      * auto.
Qed.
End Tf.
End LState.
