(** A bound expression has no hidden state: what the calls return and leave in
    the variables depends on the variables, their adjoints and the constant
    buffers only. *)
From Verif Require Import Base Num Expr Node Stat Machine Wf Pure LBase LKind LSimDef LMem LSimF LSimB LBind
  Session LUser Tape LTape LState LNrm LTop LRest LSess.

Section Hid.
Context {N : num}.
Notation T := (carrier N).
Notation E := (expr T (ann N)).
Notation env := (nat -> T).
Notation rec := (rec N).
Implicit Types (r a : env).

(** ** Records that give the same seeds *)
Fixpoint SB (e : E) (t1 t2 : rec) {struct e} : Prop :=
  nv t1 = nv t2 /\
  match e with
  | EVar _ _ | ECst _ _ | ECvw _ _ => True
  | EComp k an es =>
      (forall ad f i, kseed k (map is_const es) (map shape_of es) (ns t1) ad (vsel k (map nv (nts t1))) f i =
                      kseed k (map is_const es) (map shape_of es) (ns t2) ad (vsel k (map nv (nts t1))) f i) /\
      (fix go (l : list E) (ts1 ts2 : list rec) : Prop :=
         match l, ts1, ts2 with
         | [], [], [] => True
         | y :: l, t1 :: ts1, t2 :: ts2 => SB y t1 t2 /\ go l ts1 ts2
         | _, _, _ => False
         end) es (nts t1) (nts t2)
  | EEq _ _ _ y => exists p q : rec, nts t1 = [p] /\ nts t2 = [q] /\ SB y p q
  | EOpEq _ _ _ _ y => no t1 = no t2 /\ exists p q : rec, nts t1 = [p] /\ nts t2 = [q] /\ SB y p q
  | EGlue _ l r => exists p q p2 q2 : rec, nts t1 = [p; q] /\ nts t2 = [p2; q2] /\ SB l p p2 /\ SB r q q2
  | EFor _ _ es =>
      (fix go (l : list E) (ts1 ts2 : list rec) : Prop :=
         match l, ts1, ts2 with
         | [], [], [] => True
         | y :: l, t1 :: ts1, t2 :: ts2 => SB y t1 t2 /\ go l ts1 ts2
         | _, _, _ => False
         end) es (nts t1) (nts t2)
  | EIf _ c t f => exists p q p2 q2 : rec, nts t1 = [p; q] /\ nts t2 = [p2; q2] /\ nv p = nv p2 /\
      if ntrue N (hd0 N (nv p)) then SB t q q2 else SB f q q2
  end.
Definition SBs : list E -> list rec -> list rec -> Prop :=
  fix go (l : list E) (ts1 ts2 : list rec) : Prop :=
     match l, ts1, ts2 with
     | [], [], [] => True
     | y :: l, t1 :: ts1, t2 :: ts2 => SB y t1 t2 /\ go l ts1 ts2
     | _, _, _ => False
     end.
Lemma SB_nv e t1 t2 : SB e t1 t2 -> nv t1 = nv t2.
Proof. destruct e; intros [H _]; exact H. Qed.

Section TF.
Variable D : env.
Definition TS (e1 : E) : Prop := forall e2 r1 r2 t1 r1' t2 r2',
  nrm e1 = nrm e2 -> wfs e1 = true -> disc e1 = true ->
  tf D e1 r1 = (t1, r1') -> tf D e2 r2 = (t2, r2') ->
  (forall o, In o (refs e1) -> ~ In o (asg e1 t1) -> r1 o = r2 o) -> SB e1 t1 t2.
Lemma TSL es : Forall TS es -> forall es2 r1 r2 ts1 r1' ts2 r2',
  map nrm es = map nrm es2 -> forallb wfs es = true -> forallb disc es = true -> later eqw es = true ->
  tfs D es r1 = (ts1, r1') -> tfs D es2 r2 = (ts2, r2') ->
  (forall o, In o (flat_map refs es) -> ~ In o (asgs es ts1) -> r1 o = r2 o) -> SBs es ts1 ts2.
Proof.
  induction 1 as [|y l HY H IH]; intros [|y2 l2] r1 r2 ts1 r1' ts2 r2' HN HW HD HLt E1 E2 HR; try discriminate HN.
  - inversion E1; inversion E2; subst. exact I.
  - cbn [tfs] in E1, E2. cbn [forallb] in HW, HD. apply andb_true_iff in HW, HD.
    destruct HW as [W1 W2], HD as [D1 D2]. destruct (later_hd _ _ _ HLt) as [L1 L2].
    injection HN as N1 N2.
    destruct (tf D y r1) as [t1 ra] eqn:F1. fold (tfs D) in E1. destruct (tfs D l ra) as [ts1' rb] eqn:F2. inversion E1; subst ts1 r1'.
    destruct (tf D y2 r2) as [t2 rc] eqn:F3. fold (tfs D) in E2. destruct (tfs D l2 rc) as [ts2' rd] eqn:F4. inversion E2; subst ts2 r2'.
    cbn [asgs flat_map] in HR |- *.
    assert (HA : forall o, In o (refs y) -> ~ In o (asg y t1) -> r1 o = r2 o).
    { intros o Ho Hn. apply HR; [apply in_app_iff; auto|]. rewrite in_app_iff. intros [X|X]; [auto|].
      apply asgs_eqw' in X. exact (L1 o X Ho). }
    destruct (TI_all D y y2 r1 r2 t1 ra t2 rc N1 W1 D1 F1 F3 HA) as [_ [A2 A3]].
    split; [eapply HY; eauto|]. eapply IH; eauto.
    intros o Ho Hn. destruct (in_dec Nat.eq_dec o (asg y t1)) as [X|X]; [auto|].
    apply A3. apply HR; [apply in_app_iff; auto|]. rewrite in_app_iff. tauto.
Qed.
Lemma TS_all e : TS e.
Proof.
  induction e using expr_ind'; intros e' r1 r2 t1 r1' t2 r2' HN HW HD E1 E2 HR;
    pose proof (TI_all D _ e' r1 r2 t1 r1' t2 r2' HN HW HD E1 E2 HR) as [[QV _] _];
    (split; [exact QV|]); clear QV; destruct e'; try discriminate HN; try exact I.
  - injection HN as EQk HK HN. subst k0. rewrite tf_comp in E1, E2.
    destruct (tfs D es r1) as [ts1 ra] eqn:F1. destruct (tfs D es0 r2) as [ts2 rb] eqn:F2.
    cbn [wfs] in HW. rewrite !andb_true_iff in HW. destruct HW as [[[W1 W2] W3] W4].
    cbn [disc] in HD. rewrite !andb_true_iff in HD. destruct HD as [[[D1 D2] _] _].
    destruct (kf k (map is_const es) (map shape_of es) (st a) (map nv ts1)) as [s1 v1] eqn:K1.
    destruct (kf k (map is_const es0) (map shape_of es0) (st a0) (map nv ts2)) as [s2 v2] eqn:K2.
    inversion E1; inversion E2; subst. clear E1 E2.
    apply later_weak with (g := eqw) in D2; [|intros ? ?; apply eqw_writes].
    assert (TIes : Forall (TI D) es) by (apply Forall_forall; intros; now apply TI_all).
    destruct (TIL D es TIes es0 r1 r2 ts1 r1' ts2 r2' HN W1 D1 D2 F1 F2 HR) as [B1 _].
    destruct (EQs_facts _ _ _ _ B1) as [C1 _].
    pose proof (nrm_consts _ _ HN) as HC. pose proof (nrm_shapes _ _ HN) as HS.
    assert (HL : lens N (map nv ts1) (map shape_of es)).
    { eapply (tfs_len D es); eauto. apply Forall_forall. intros. eapply tf_len; eauto. }
    rewrite HC in HK.
    rewrite <- HC, <- HS, <- C1 in K2. rewrite HC in K2. rewrite HC in K1.
    destruct (kf_indep k (map is_const es0) (map shape_of es) (st a) (st a0) (map nv ts1) HK W2 W3 HL) as [I1 I2].
    rewrite K1, K2 in I1, I2. cbn [fst snd] in I1, I2. cbn [nts ns]. split; [rewrite HC; exact I2|].
    exact (TSL es H es0 r1 r2 ts1 r1' ts2 r2' HN W1 D1 D2 F1 F2 HR).
  - injection HN as -> -> HN. cbn [tf] in E1, E2.
    destruct (tf D e r1) as [ta ra] eqn:F1. destruct (tf D e' r2) as [tc rb] eqn:F2.
    inversion E1; inversion E2; subst. clear E1 E2.
    cbn [wfs] in HW. rewrite !andb_true_iff in HW. destruct HW as [[[W1 W2] W3] W4].
    cbn [disc] in HD. rewrite !andb_true_iff in HD. destruct HD as [D1 D2].
    cbn [asg nts refs] in HR |- *. exists ta, tc. split; [reflexivity|]. split; [reflexivity|].
    apply (IHe e' r1 r2 ta ra tc rb HN W1 D1 F1 F2).
    intros i Hi Hn. apply HR; [apply in_app_iff; auto|]. rewrite in_app_iff. intros [X|X]; [|auto].
    exact (dj_spec _ _ D2 i X Hi).
  - injection HN as -> -> -> HN. cbn [tf] in E1, E2.
    destruct (tf D e r1) as [ta ra] eqn:F1. destruct (tf D e' r2) as [tc rb] eqn:F2.
    inversion E1; inversion E2; subst. clear E1 E2.
    cbn [wfs] in HW. rewrite !andb_true_iff in HW. destruct HW as [[[W1 W2] W3] W4].
    cbn [disc] in HD. rewrite !andb_true_iff in HD. destruct HD as [[D1 D2] D3].
    cbn [asg nts refs no] in HR |- *.
    assert (HA : forall o, In o (refs e) -> ~ In o (asg e ta) -> r1 o = r2 o).
    { intros i Hi Hn. apply HR; [apply in_app_iff; auto|auto]. }
    destruct (TI_all D e e' r1 r2 ta ra tc rb HN W1 D1 F1 F2 HA) as [_ [B2 B3]].
    split.
    { apply rdv_ext. intros i Hi. apply B3. apply in_cells in Hi. apply HR; [apply in_app_iff; auto|].
      intros X. apply asg_eqw, eqw_writes in X. exact (dj_spec _ _ D2 i Hi X). }
    exists ta, tc. split; [reflexivity|]. split; [reflexivity|]. eapply IHe; eauto.
  - injection HN as HN1 HN2. cbn [tf] in E1, E2.
    destruct (tf D e1 r1) as [ta ra] eqn:F1. destruct (tf D e2 ra) as [tc rc] eqn:F2.
    destruct (tf D e'1 r2) as [ta' ra'] eqn:F3. destruct (tf D e'2 ra') as [tc' rc'] eqn:F4.
    inversion E1; inversion E2; subst. clear E1 E2.
    cbn [wfs] in HW. rewrite !andb_true_iff in HW. destruct HW as [[[W1 W2] W3] W4].
    cbn [disc] in HD. rewrite !andb_true_iff in HD. destruct HD as [[D1 D2] D3].
    cbn [asg nts refs] in HR |- *.
    assert (HA : forall o, In o (refs e1) -> ~ In o (asg e1 ta) -> r1 o = r2 o).
    { intros i Hi Hn. apply HR; [apply in_app_iff; auto|]. rewrite in_app_iff. intros [X|X]; [auto|].
      apply asg_eqw in X. exact (dj_spec _ _ D3 i X Hi). }
    destruct (TI_all D e1 e'1 r1 r2 ta ra ta' ra' HN1 W1 D1 F1 F3 HA) as [_ [B2 B3]].
    exists ta, tc, ta', tc'. split; [reflexivity|]. split; [reflexivity|]. split; [eapply IHe1; eauto|].
    eapply IHe2; eauto.
    intros i Hi Hn. destruct (in_dec Nat.eq_dec i (asg e1 ta)) as [X|X]; [auto|].
    apply B3. apply HR; [apply in_app_iff; auto|]. rewrite in_app_iff. tauto.
  - injection HN as -> HN. rewrite tf_for in E1, E2.
    destruct (tfs D es r1) as [ts1 ra] eqn:F1. destruct (tfs D es0 r2) as [ts2 rb] eqn:F2.
    inversion E1; inversion E2; subst. clear E1 E2.
    cbn [wfs] in HW. rewrite !andb_true_iff in HW. destruct HW as [[[W1 W2] W3] W4].
    cbn [disc] in HD. rewrite !andb_true_iff in HD. destruct HD as [D1 D2].
    exact (TSL es H es0 r1 r2 ts1 r1' ts2 r2' HN W1 D1 D2 F1 F2 HR).
  - injection HN as HN1 HN2 HN3. cbn [tf] in E1, E2.
    cbn [wfs] in HW. rewrite !andb_true_iff in HW. destruct HW as [[[[[W1 W2] W3] W4] W5] W6].
    cbn [disc] in HD. rewrite !andb_true_iff in HD. destruct HD as [[[[D0 D1] D2] D3] D4].
    apply nilb_spec in D0.
    destruct (tf D e1 r1) as [ta ra] eqn:F1. destruct (tf D e'1 r2) as [ta' ra'] eqn:F3.
    assert (AC : forall t, asg e1 t = []).
    { intros t. destruct (asg e1 t) as [|i l] eqn:EA; auto.
      assert (X : In i (asg e1 t)) by (rewrite EA; left; auto).
      apply asg_eqw, eqw_writes in X. rewrite D0 in X. destruct X. }
    set (X1 := if ntrue N (hd0 N (nv ta)) then tf D e2 ra else tf D e3 ra) in E1.
    destruct X1 as [tk rk] eqn:F2. inversion E1; subst t1 r1'. clear E1.
    cbn [asg nts refs] in HR. rewrite AC in HR.
    assert (HA : forall o, In o (refs e1) -> ~ In o (asg e1 ta) -> r1 o = r2 o).
    { intros i Hi Hn. apply HR; [rewrite !in_app_iff; auto|]. intros X.
      apply (dj_spec _ _ D4 i); [|exact Hi]. rewrite in_app_iff. cbn in X.
      destruct (ntrue _ _); apply asg_eqw in X; auto. }
    destruct (TI_all D e1 e'1 r1 r2 ta ra ta' ra' HN1 W1 D1 F1 F3 HA) as [[Q1 _] [B2 B3]].
    rewrite <- Q1 in E2. subst X1.
    destruct (ntrue N (hd0 N (nv ta))) eqn:EB.
    + destruct (tf D e'2 ra') as [tc' rc'] eqn:F4. inversion E2; subst. clear E2. cbn [nts].
      exists ta, tk, ta', tc'. split; [reflexivity|]. split; [reflexivity|]. split; [exact Q1|]. rewrite EB. eapply IHe2; eauto.
      intros i Hi Hn. apply B3. apply HR; [rewrite !in_app_iff; auto|exact Hn].
    + destruct (tf D e'3 ra') as [tc' rc'] eqn:F4. inversion E2; subst. clear E2. cbn [nts].
      exists ta, tk, ta', tc'. split; [reflexivity|]. split; [reflexivity|]. split; [exact Q1|]. rewrite EB. eapply IHe3; eauto.
      intros i Hi Hn. apply B3. apply HR; [rewrite !in_app_iff; auto|exact Hn].
Qed.
End TF.

(** ** Tapes that differ only in state the backward pass does not look at *)
Notation tape := (tape N).
Fixpoint TE (e : E) (t1 t2 : tape) (t' : rec) {struct e} : Prop :=
  tp t1 = tp t2 /\
  match e with
  | EVar _ _ | ECst _ _ | ECvw _ _ => True
  | EComp k an es =>
      tv t1 = tv t2 /\
      (forall ad f i, kseed k (map is_const es) (map shape_of es) (tst t1) ad (vsel k (map nv (nts t'))) f i =
                      kseed k (map is_const es) (map shape_of es) (tst t2) ad (vsel k (map nv (nts t'))) f i) /\
      (fix go (l : list E) (ts1 ts2 : list tape) (ts' : list rec) : Prop :=
         match l, ts1, ts2, ts' with
         | [], [], [], [] => True
         | y :: l, t1 :: ts1, t2 :: ts2, t' :: ts' => TE y t1 t2 t' /\ go l ts1 ts2 ts'
         | _, _, _, _ => False
         end) es (tts t1) (tts t2) (nts t')
  | EEq _ _ _ y => exists p q (p' : rec), tts t1 = [p] /\ tts t2 = [q] /\ nts t' = [p'] /\ TE y p q p'
  | EOpEq _ _ _ _ y => told t1 = told t2 /\ exists p q (p' : rec), tts t1 = [p] /\ tts t2 = [q] /\ nts t' = [p'] /\ TE y p q p'
  | EGlue _ l r => exists p q p2 q2 (p' q' : rec), tts t1 = [p; q] /\ tts t2 = [p2; q2] /\ nts t' = [p'; q'] /\ TE l p p2 p' /\ TE r q q2 q'
  | EFor _ _ es =>
      (fix go (l : list E) (ts1 ts2 : list tape) (ts' : list rec) : Prop :=
         match l, ts1, ts2, ts' with
         | [], [], [], [] => True
         | y :: l, t1 :: ts1, t2 :: ts2, t' :: ts' => TE y t1 t2 t' /\ go l ts1 ts2 ts'
         | _, _, _, _ => False
         end) es (tts t1) (tts t2) (nts t')
  | EIf _ c t f => exists p q p2 q2 (p' q' : rec), tts t1 = [p; q] /\ tts t2 = [p2; q2] /\ nts t' = [p'; q'] /\ tp p = tp p2 /\
      if ntrue N (hd0 N (nv p')) then TE t q q2 q' else TE f q q2 q'
  end.
Definition TEs : list E -> list tape -> list tape -> list rec -> Prop :=
  fix go (l : list E) (ts1 ts2 : list tape) (ts' : list rec) : Prop :=
         match l, ts1, ts2, ts' with
         | [], [], [], [] => True
         | y :: l, t1 :: ts1, t2 :: ts2, t' :: ts' => TE y t1 t2 t' /\ go l ts1 ts2 ts'
         | _, _, _, _ => False
         end.
Lemma TE_tp e t1 t2 t' : TE e t1 t2 t' -> tp t1 = tp t2.
Proof. destruct e; intros [H _]; exact H. Qed.
Lemma TEs_tp es : forall ts1 ts2 ts', TEs es ts1 ts2 ts' -> map tp ts1 = map tp ts2.
Proof.
  induction es as [|y l IH]; intros [|t1 ts1] [|t2 ts2] [|t' ts']; cbn [TEs]; try tauto.
  intros [H1 H2]. cbn [map]. f_equal; [eapply TE_tp; eauto|eapply IH; eauto].
Qed.
Lemma rev_tp (ts1 ts2 : list tape) : map tp ts1 = map tp ts2 ->
  match rev ts1 with [] => PL [] | y :: _ => tp y end = match rev ts2 with [] => PL [] | y :: _ => tp y end.
Proof.
  intros H. apply (f_equal (@rev _)) in H. rewrite <- !map_rev in H.
  destruct (rev ts1), (rev ts2); cbn in H; congruence.
Qed.

Definition RE (e : E) : Prop := forall e2 x t1 t2 t1' t2' r1 r2, nrm e = nrm e2 ->
  RT x e t1 t1' r1 -> RT x e2 t2 t2' r2 -> SB e t1' t2' -> TE e t1 t2 t1'.
Lemma REs es : Forall RE es -> forall es2 ts1 ts2 ts1' ts2' r1 r2, map nrm es = map nrm es2 ->
  RTs r1 es ts1 ts1' -> RTs r2 es2 ts2 ts2' -> SBs es ts1' ts2' -> TEs es ts1 ts2 ts1'.
Proof.
  induction 1 as [|y l HY H IH]; intros [|y2 l2] [|t1 ts1] [|t2 ts2] [|t1' ts1'] [|t2' ts2'] r1 r2 HN; try discriminate HN;
    cbn [RTs SBs TEs]; try tauto.
  injection HN as N1 N2. intros [A1 A2] [B1 B2] [C1 C2]. split; [eapply HY; eauto|eapply IH; eauto].
Qed.
Lemma REf es : Forall RE es -> forall es2 ts1 ts2 ts1' ts2' r1 r2, map nrm es = map nrm es2 ->
  RTf r1 es ts1 ts1' -> RTf r2 es2 ts2 ts2' -> SBs es ts1' ts2' -> TEs es ts1 ts2 ts1'.
Proof.
  induction 1 as [|y l HY H IH]; intros [|y2 l2] [|t1 ts1] [|t2 ts2] [|t1' ts1'] [|t2' ts2'] r1 r2 HN; try discriminate HN;
    cbn [RTf SBs TEs]; try tauto.
  injection HN as N1 N2. intros [A1 A2] [B1 B2] [C1 C2]. split; [eapply HY; eauto|eapply IH; eauto].
Qed.
Lemma RE_all e : RE e.
Proof.
  induction e using expr_ind'; intros e2' x t1 t2 t1' t2' r1 r2 HN R1 R2 S; destruct e2'; try discriminate HN;
    pose proof (SB_nv _ _ _ S) as NV; cbn [RT] in R1, R2; destruct R1 as [_ R1], R2 as [_ R2].
  - injection HN as -> ->. split; [congruence|exact I].
  - split; [congruence|exact I].
  - split; [congruence|exact I].
  - injection HN as <- _ HN. destruct R1 as [A1 [A2 [A3 A4]]], R2 as [B1 [B2 [B3 B4]]]. destruct S as [_ [S1 S2]].
    pose proof (nrm_shapes _ _ HN) as HS. split; [congruence|]. split; [congruence|]. split; [intros ad f i; rewrite A2, B2; apply S1|].
    exact (REs es H es0 _ _ _ _ _ _ HN A4 B4 S2).
  - injection HN as <- <- HN. destruct R1 as [A1 [_ [u [u' [A2 [A3 A4]]]]]], R2 as [B1 [_ [v [v' [B2 [B3 B4]]]]]].
    destruct S as [_ [u2 [v2 [S1 [S2 S3]]]]]. rewrite A3 in S1. rewrite B3 in S2. inversion S1; inversion S2; subst.
    split; [congruence|]. exists u, v, u2. repeat (split; [assumption|]). eapply IHe; eauto.
  - injection HN as <- <- <- HN. destruct R1 as [A1 [A0 [u [u' [A2 [A3 A4]]]]]], R2 as [B1 [B0 [v [v' [B2 [B3 B4]]]]]].
    destruct S as [_ [S0 [u2 [v2 [S1 [S2 S3]]]]]]. rewrite A3 in S1. rewrite B3 in S2. inversion S1; inversion S2; subst.
    split; [congruence|]. split; [congruence|]. exists u, v, u2. repeat (split; [assumption|]). eapply IHe; eauto.
  - injection HN as HN1 HN2. destruct R1 as [u1 [u2 [u1' [u2' [A1 [A2 [A3 [A4 A5]]]]]]]], R2 as [v1 [v2 [v1' [v2' [B1 [B2 [B3 [B4 B5]]]]]]]].
    destruct S as [_ [w1 [w2 [w3 [w4 [S1 [S2 [S3 S4]]]]]]]]. rewrite A2 in S1. rewrite B2 in S2. inversion S1; inversion S2; subst.
    assert (X : TE e2 u2 v2 w2) by (eapply IHe2; eauto). pose proof (TE_tp _ _ _ _ X) as XT. assert (HS : shape_of e2 = shape_of e2'2) by (rewrite <- (nrm_shape e2), <- (nrm_shape e2'2); congruence).
    split; [congruence|]. exists u1, u2, v1, v2, w1, w2. repeat (split; [assumption|]). split; [eapply IHe1; eauto|exact X].
  - injection HN as <- HN. destruct R1 as [A1 A2], R2 as [B1 B2]. destruct S as [_ S].
    change (RTf r1 es (tts t1) (nts t1')) in A2. change (RTf r2 es0 (tts t2) (nts t2')) in B2.
    pose proof (REf es H es0 _ _ _ _ _ _ HN A2 B2 S) as X. pose proof (rev_tp _ _ (TEs_tp _ _ _ _ X)) as XT.
    pose proof (nrm_shapes _ _ HN) as HS. split; [congruence|exact X].
  - injection HN as HN1 HN2 HN3. destruct R1 as [u1 [u2 [u1' [u2' [A1 [A2 [A3 [A4 A5]]]]]]]], R2 as [v1 [v2 [v1' [v2' [B1 [B2 [B3 [B4 B5]]]]]]]].
    destruct S as [_ [w1 [w2 [w3 [w4 [S1 [S2 [S3 S4]]]]]]]]. rewrite A2 in S1. rewrite B2 in S2. inversion S1; inversion S2; subst.
    rewrite <- S3 in B5. destruct (ntrue N (hd0 N (nv w1))) eqn:EB.
    + assert (X : TE e2 u2 v2 w2) by (eapply IHe2; eauto). pose proof (TE_tp _ _ _ _ X) as XT.
      split; [congruence|]. exists u1, u2, v1, v2, w1, w2. repeat (split; [assumption|]). split; [congruence|]. rewrite EB. exact X.
    + assert (X : TE e3 u2 v2 w2) by (eapply IHe3; eauto). pose proof (TE_tp _ _ _ _ X) as XT.
      split; [congruence|]. exists u1, u2, v1, v2, w1, w2. repeat (split; [assumption|]). split; [congruence|]. rewrite EB. exact X.
Qed.

(** ** The backward pass over them *)
Lemma lazy_kseed k cs ss s1 s2 ad vs f i : klazy k ss = true -> kseed (N := N) k cs ss s1 ad vs f i = kseed k cs ss s2 ad vs f i.
Proof. destruct k; auto; try discriminate. Qed.

Definition PE (e : E) : Prop := forall x t1 t2 t' seed r a,
  wfs e = true -> disc e = true -> (x <> None -> rhs_ok e = true) ->
  (forall o, xin x (size (shape_of e)) o -> ~ In o (refs e)) ->
  RT x e t1 t' r -> WT e t' -> TE e t1 t2 t' -> pb x e t1 seed r a = pb x e t2 seed r a.

Lemma loop_pe k x t (t2 : tape) seed (es : list E) n ss cs P0 :
  (kpure k = true -> forallb (fun y => nilb (writes y)) es = true) ->
  (forall o, xin x n o -> ~ In o (flat_map refs es)) ->
  (forall ad vs f i, (klazy k ss = false -> vs = fst (fst P0)) -> kseed k cs ss (tst t) ad vs f i = kseed k cs ss (tst t2) ad vs f i) ->
  tv t = tv t2 ->
  Forall PE es -> forallb wfs es = true -> forallb disc es = true -> later writes es = true ->
  forall pre lts lts2 lts' r a,
  RTs r es lts lts' -> WTs es lts' -> TEs es lts lts2 lts' ->
  pgo k n ss cs seed x t P0 pre es lts r a = pgo k n ss cs seed x t2 P0 pre es lts2 r a.
Proof.
  intros Hpu Hxr HKS HTV HT. induction HT as [|y l TY HT IH]; intros Hw Hd Hlat pre lts lts2 lts' r a R W TT.
  - destruct lts, lts2; try (destruct lts'; now destruct TT). cbn. now rewrite HTV.
  - destruct lts as [|ty lts]; [destruct R|]. destruct lts' as [|ty' lts']; [destruct R|]. destruct lts2 as [|ty2 lts2]; [destruct TT|].
    cbn [RTs WTs TEs] in R, W, TT. destruct R as [RY R], W as [WY W], TT as [EY TT].
    cbn [forallb] in Hw, Hd. apply andb_true_iff in Hw. apply andb_true_iff in Hd. destruct Hw as [HwY HwL], Hd as [HdY HdL].
    apply later_hd in Hlat. destruct Hlat as [HLy HLl].
    assert (Hpl : kpure k = true -> forallb (fun y => nilb (writes y)) l = true).
    { intros Hk. specialize (Hpu Hk). cbn in Hpu. apply andb_true_iff in Hpu. apply Hpu. }
    assert (Hxl : forall o, xin x n o -> ~ In o (flat_map refs l)).
    { intros i Hi Hj. apply (Hxr i Hi). cbn. apply in_or_app. auto. }
    cbn [pgo]. fold (pgo k n ss cs seed x t P0). fold (pgo k n ss cs seed x t2 P0).
    rewrite <- (TE_tp _ _ _ _ EY).
    rewrite <- (IH Hpl Hxl HwL HdL HLl (pre ++ [tp ty]) lts lts2 lts' r a R W TT).
    destruct (pgo k n ss cs seed x t P0 (pre ++ [tp ty]) l lts r a) as [[[qs1 f1] r1] a1] eqn:PG.
    assert (TRl : Forall TR l) by (apply Forall_forall; intros; apply TR_all).
    pose proof (loop_tr k x t ty' seed l n ss cs P0 Hpl Hxl TRl HwL HdL HLl _ _ _ _ _ _ _ _ _ R W PG) as A1. clear IH.
    assert (Hxy : forall o, xin x n o -> ~ In o (refs y)).
    { intros i Hi Hj. apply (Hxr i Hi). cbn. apply in_or_app. auto. }
    assert (RY1 : forall i, In i (refs y) -> r i = r1 i).
    { intros i Hi. symmetry. assert (NE : ~ In i (flat_map writes l)) by (intros Hj; eauto).
      rewrite A1.
      - apply rsl_out; auto. intros Hj. apply NE. apply (fm_sub opw writes l); auto.
        apply Forall_forall. intros; now apply opw_writes.
      - intros Hj. apply NE. apply (fm_sub eqw writes l); auto. apply Forall_forall. intros; now apply eqw_writes.
      - intros Hj. apply (Hxy i); auto. }
    set (PK := if klazy k ss then (vsel k (map (rdp r1) (pre ++ tp ty :: qs1)), rx x r1 n f1, adv k n seed x a1) else P0).
    assert (FK : klazy k ss = true -> x <> None -> length (snd (fst PK)) = n).
    { intros Hk Hn. unfold PK. rewrite Hk. cbn. destruct x; [|congruence]. cbn. apply rdv_length. }
    assert (FV : klazy k ss = false -> fst (fst PK) = fst (fst P0)) by (intros Hk; unfold PK; now rewrite Hk).
    destruct PK as [[vs fv] ad]. cbn [fst snd] in FK, FV.
    destruct (kpre k (length pre) vs fv) as [g|] eqn:KP.
    + destruct (kpre_lazy _ _ _ _ _ ss KP) as [Hk Hp].
      rewrite <- (HKS ad vs g (length pre) FV).
      destruct (kseed_some k cs ss (tst t) ad vs g (length pre) Hp) as [sd KS]. rewrite KS.
      assert (LG : x <> None -> length g <= n).
      { intros Hn. rewrite <- (FK Hk Hn). eapply pre_le; eauto. }
      assert (RYg : RT None y ty ty' (wx x r1 g)).
      { eapply RT_ext; [exact WY| |intros ? X; discriminate X|exact RY]. intros i Hi. rewrite (wx_le x r1 g n i LG); [auto|].
        intros Hj. apply (Hxy i); auto. }
      now rewrite (TY None ty ty2 ty' sd _ a1 HwY HdY ltac:(congruence) ltac:(cbn; tauto) RYg WY EY).
    + rewrite <- (HKS ad vs fv (length pre) FV).
      destruct (kseed k cs ss (tst t) ad vs fv (length pre)) as [sd|] eqn:KS; [|reflexivity].
      assert (RYg : RT None y ty ty' r1) by (eapply RT_ext; [exact WY| |intros ? X; discriminate X|exact RY]; auto).
      now rewrite (TY None ty ty2 ty' sd _ a1 HwY HdY ltac:(congruence) ltac:(cbn; tauto) RYg WY EY).
Qed.

Lemma listf_pe es : Forall PE es -> forall d seed r a ts ts2 ts',
  forallb wfs es = true -> forallb disc es = true -> later eqw es = true ->
  RTf r es ts ts' -> WTs es ts' -> TEs es ts ts2 ts' -> pfgo d seed es ts r a = pfgo d seed es ts2 r a.
Proof.
  induction 1 as [|y l HY H IH];
  intros d seed r a [|t ts] [|t2 ts2] [|t' ts'] Hw Hd Hl R W TT; cbn [RTf WTs TEs] in R, W, TT; try tauto.
  destruct R as [R1 R2], W as [W1 W2], TT as [E1 E2].
  cbn [forallb] in Hw, Hd. apply andb_true_iff in Hw. apply andb_true_iff in Hd.
  destruct Hw as [Hw1 Hw2], Hd as [Hd1 Hd2]. apply later_hd in Hl. destruct Hl as [Hl1 Hl2].
  destruct l as [|z l].
  - destruct ts; [|destruct R2]. destruct ts'; [|destruct R2]. cbn [pfgo]. cbn [rsl] in R1.
    apply (HY None t t2 t' seed r a Hw1 Hd1 ltac:(congruence) ltac:(cbn; tauto) R1 W1 E1).
  - change (pfgo d seed (y :: z :: l) (t :: ts) r a) with
      (let '(q, r1, a1) := pfgo d seed (z :: l) ts r a in
       let '(_, r2, a2) := pb None y t (repeat (n0 N) (size (shape_of y))) r1 a1 in (q, r2, a2)).
    change (pfgo d seed (y :: z :: l) (t2 :: ts2) r a) with
      (let '(q, r1, a1) := pfgo d seed (z :: l) ts2 r a in
       let '(_, r2, a2) := pb None y t2 (repeat (n0 N) (size (shape_of y))) r1 a1 in (q, r2, a2)).
    rewrite <- (IH d seed r a ts ts2 ts' Hw2 Hd2 Hl2 R2 W2 E2).
    destruct (pfgo d seed (z :: l) ts r a) as [[q1 r1] a1] eqn:P1.
    assert (TRl : Forall TR (z :: l)) by (apply Forall_forall; intros; apply TR_all).
    pose proof (listf_tr (z :: l) TRl ltac:(discriminate) d seed r a q1 r1 a1 ts ts' Hw2 Hd2 Hl2 R2 W2 P1) as A1.
    assert (RY : RT None y t t' r1).
    { eapply RT_ext; [exact W1| |intros ? X; discriminate X|exact R1]. intros i Hi. symmetry. apply A1. intros Hj. eauto. }
    now rewrite (HY None t t2 t' _ r1 a1 Hw1 Hd1 ltac:(congruence) ltac:(cbn; tauto) RY W1 E1).
Qed.

Lemma RTs_vals r es : forall ts ts', RTs r es ts ts' -> map (fun t => rdp r (tp t)) ts = map nv ts'.
Proof.
  induction es as [|y l IH]; intros [|t ts] [|t' ts']; cbn [RTs]; try tauto.
  intros [H1 H2]. cbn [map]. f_equal; [eapply RT_val; eauto|apply IH, H2].
Qed.
Lemma PE_all e : PE e.
Proof.
  induction e using expr_ind'; intros x t t2 t' seed r a0 Hw Hd Hx Hxr R W TT.
  - destruct TT as [TT _]. cbn. now rewrite TT.
  - destruct TT as [TT _]. cbn. now rewrite TT.
  - destruct TT as [TT _]. cbn. now rewrite TT.
  - (* EComp *)
    destruct es as [|e0 es0].
    { destruct TT as [TT _]. cbn. now rewrite TT. }
    assert (NE : e0 :: es0 <> []) by discriminate.
    set (es := e0 :: es0) in *. clearbody es.
    rewrite !(pb_comp _ _ _ _ _ _ _ _ NE). cbn zeta.
    cbn [wfs disc] in Hw, Hd. rewrite !andb_true_iff in Hw. rewrite !andb_true_iff in Hd.
    destruct Hw as [[[Hw1 Hw2] Hw3] Hw4]. destruct Hd as [[[Hd1 Hd2] Hd3] Hd4].
    destruct R as [R1 [R2 [R3 [R4 R5]]]]. destruct W as [W1 [W2 W3]]. destruct TT as [T1 [T2 [T3 T4]]].
    change (RTs r es (tts t) (nts t')) in R5. change (WTs es (nts t')) in W3. change (TEs es (tts t) (tts t2) (nts t')) in T4.
    cbn [shape_of] in Hxr, W1.
    assert (L3 : kpure k = true -> forallb (fun y => nilb (writes y)) es = true).
    { intros Hk. rewrite Hk in Hd3. exact Hd3. }
    assert (VV : map (fun t => rdp r (tp t)) (tts t2) = map (fun t => rdp r (tp t)) (tts t)).
    { rewrite <- !(map_map tp (rdp r)). now rewrite (TEs_tp _ _ _ _ T4). }
    rewrite VV, <- T2. rewrite (RTs_vals _ _ _ _ R5).
    erewrite (loop_pe k x t t2 seed es); [reflexivity|exact L3|exact Hxr| |exact T2|exact H|exact Hw1|exact Hd1|exact Hd2|exact R5|exact W3|exact T4].
    intros ad vs f i HV. destruct (klazy k (map shape_of es)) eqn:KL; [now apply lazy_kseed|]. rewrite (HV eq_refl). cbn [fst]. apply T3.
  - (* EEq *)
    cbn [wfs disc] in Hw, Hd. rewrite !andb_true_iff in Hw. rewrite !andb_true_iff in Hd.
    destruct Hw as [[[Hw1 Hw2] Hw3] Hw4]. destruct Hd as [Hd1 Hd2]. apply shape_eqb_eq in Hw3.
    pose proof (dj_spec _ _ Hd2) as DJ.
    destruct R as [R1 [R2 [R3 [ty [ty' [E1 [E2 R4]]]]]]]. destruct W as [W1 [ty2 [E3 [E4 W2]]]].
    destruct TT as [T1 [p [q [p' [T2 [T3 [T4 T5]]]]]]].
    rewrite E2 in E3, T4. rewrite E1 in T2. inversion E3; inversion T2; inversion T4; subst p p' ty2.
    cbn [pb shape_of]. rewrite E1, T3, T1. cbn zeta.
    assert (XR : forall i, xin (Some o) (size (shape_of e)) i -> ~ In i (refs e)).
    { cbn. intros j Hj Hk. apply (DJ j); auto. apply in_cells. rewrite Hw3. lia. }
    now rewrite (IHe (Some o) ty q ty' _ r _ Hw1 Hd1 ltac:(auto) XR R4 W2 T5).
  - (* EOpEq *)
    cbn [wfs disc] in Hw, Hd. rewrite !andb_true_iff in Hw. rewrite !andb_true_iff in Hd.
    destruct Hw as [[[Hw1 Hw2] Hw3] Hw4]. destruct Hd as [[Hd1 Hd2] Hd3].
    destruct R as [R1 [R2 [R3 [ty [ty' [E1 [E2 R4]]]]]]]. destruct W as [W1 [W3 [ty2 [E3 W2]]]].
    destruct TT as [T1 [T0 [p [q0 [p' [T2 [T3 [T4 T5]]]]]]]].
    rewrite E2 in E3, T4. rewrite E1 in T2. inversion E3; inversion T2; inversion T4; subst p p' ty2.
    cbn [pb shape_of]. rewrite E1, T3, T1, <- T0, R3. cbn zeta. rewrite <- (TE_tp _ _ _ _ T5).
    now rewrite (IHe None ty q0 ty' _ _ _ Hw1 Hd1 ltac:(congruence) ltac:(cbn; tauto) R4 W2 T5).
  - (* EGlue *)
    cbn [wfs disc] in Hw, Hd. rewrite !andb_true_iff in Hw. rewrite !andb_true_iff in Hd.
    destruct Hw as [[[Hw1 Hw2] Hw3] Hw4]. destruct Hd as [[Hd1 Hd2] Hd3].
    pose proof (dj_spec _ _ Hd3) as DJ.
    destruct R as [R1 [tl [tr [tl' [tr' [E1 [E2 [R2 [R3 R4]]]]]]]]].
    destruct W as [W1 [tl2 [tr2 [E3 [EV [W2 W3]]]]]]. rewrite E2 in E3. inversion E3; subst tl2 tr2; clear E3.
    destruct TT as [T1 [p [q [p2 [q2 [p' [q' [T2 [T3 [T4 [T5 T6]]]]]]]]]]].
    rewrite E2 in T4. rewrite E1 in T2. inversion T2; inversion T4; subst p p' q q'.
    cbn [pb shape_of]. rewrite E1, T3.
    rewrite <- (IHe2 None tr q2 tr' seed r a0 Hw2 Hd2 ltac:(congruence) ltac:(cbn; tauto) R3 W3 T6).
    destruct (pb None e2 tr seed r a0) as [[q1 r1] a1] eqn:P1.
    pose proof (TR_all e2 None tr tr' seed r a0 q1 r1 a1 Hw2 Hd2 ltac:(congruence) ltac:(cbn; tauto) R3 W3 P1) as A1.
    assert (RL : RT None e1 tl tl' r1).
    { eapply RT_ext; [exact W2| |intros ? X; discriminate X|exact R4]. intros j Hj. symmetry. apply A1; [|cbn; auto]. intros Hk. eauto. }
    now rewrite (IHe1 None tl p2 tl' _ r1 a1 Hw1 Hd1 ltac:(congruence) ltac:(cbn; tauto) RL W2 T5).
  - (* EFor *)
    rewrite !pb_for. 
    cbn [wfs disc] in Hw, Hd. rewrite !andb_true_iff in Hw. rewrite !andb_true_iff in Hd.
    destruct Hw as [[[Hw1 Hw2] Hw3] Hw4]. destruct Hd as [Hd1 Hd2].
    destruct R as [R1 [R2 R3]]. destruct W as [W1 [EV W2]]. destruct TT as [T1 T2].
    change (RTf r es (tts t) (nts t')) in R3. change (WTs es (nts t')) in W2. change (TEs es (tts t) (tts t2) (nts t')) in T2.
    rewrite <- T1. now rewrite (listf_pe es H (tp t) seed r a0 _ _ _ Hw1 Hd1 Hd2 R3 W2 T2).
  - (* EIf *)
    cbn [wfs disc] in Hw, Hd. rewrite !andb_true_iff in Hw. rewrite !andb_true_iff in Hd.
    destruct Hw as [[[[[Hw1 Hw2] Hw3] Hw4] Hw5] Hw6]. destruct Hd as [[[[Hd1 Hd2] Hd3] Hd4] _].
    destruct R as [R1 [tc [tb [tc' [tb' [E1 [E2 [R2 [R3 R4]]]]]]]]].
    destruct W as [W1 [tc2 [tb2 [E3 [EV [W2 W3]]]]]]. rewrite E2 in E3. inversion E3; subst tc2 tb2; clear E3.
    destruct TT as [T1 [p [q [p2 [q2 [p' [q' [T2 [T3 [T4 [T5 T6]]]]]]]]]]].
    rewrite E2 in T4. rewrite E1 in T2. inversion T2; inversion T4; subst p p' q q'.
    cbn [pb shape_of]. rewrite E1, T3, <- T5, R2. cbn [rdp].
    destruct (ntrue N (hd0 N (nv tc'))).
    + apply (IHe2 None tb q2 tb' seed r a0 Hw2 Hd3 ltac:(congruence) ltac:(cbn; tauto) R4 W3 T6).
    + apply (IHe3 None tb q2 tb' seed r a0 Hw3 Hd4 ltac:(congruence) ltac:(cbn; tauto) R4 W3 T6).
Qed.
End Hid.
