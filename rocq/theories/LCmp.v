(** A comparison behaves like the client evaluating both operands and comparing
    the values; nothing is differentiated. *)
From Verif Require Import Base Num Expr Node Stat Machine Wf Pure LBase LKind LSimDef LMem LSimF LSimB LBind Session LUser Tape LTape Flow LFlow LSeq LFind LBranch.

Section Cmp.
Context {N : num}.
Notation T := (carrier N).
Notation E := (expr T (ann N)).
Notation U := (expr T unit).
Notation env := (nat -> T).

Lemma pure_amap {A B} (f : A -> B) (e : expr T A) : pure (amap f e) = pure e.
Proof.
  induction e using expr_ind'; cbn; auto; try congruence.
  - induction H; cbn; [auto|]. now rewrite H, IHForall.
  - induction H; cbn; [auto|]. now rewrite H, IHForall.
Qed.
Lemma pf_pure D (e : E) : forall r, pure e = true -> snd (fst (pf D None e r)) = r.
Proof.
  assert (LS : forall es : list E, Forall (fun e => forall r, pure e = true -> snd (fst (pf D None e r)) = r) es ->
     forallb pure es = true -> forall r, snd (fst (fst (pfs D es r))) = r).
  { induction 1 as [|y l HY H IH]; [reflexivity|]. cbn [forallb]. rewrite andb_true_iff. intros [P1 P2] r.
    cbn [pfs]. specialize (HY r P1). destruct (pf D None y r) as [[t r1] p]. cbn in HY. subst r1.
    specialize (IH P2 r). destruct (pfs D l r) as [[[? ?] ?] ?]. exact IH. }
  assert (LF : forall es : list E, Forall (fun e => forall r, pure e = true -> snd (fst (pf D None e r)) = r) es ->
     forallb pure es = true -> forall r p, snd (fst (pfsf D es r p)) = r).
  { induction 1 as [|y l HY H IH]; [reflexivity|]. cbn [forallb]. rewrite andb_true_iff. intros [P1 P2] r p0.
    rewrite pfsf_cons. specialize (HY r P1). destruct (pf D None y r) as [[t r1] p]. cbn in HY. subst r1.
    specialize (IH P2 r p). destruct (pfsf D l r p) as [[? ?] ?]. exact IH. }
  induction e using expr_ind'; intros r HP; try reflexivity; try discriminate.
  - rewrite pf_comp. cbn zeta. specialize (LS es H HP r). destruct (pfs D es r) as [[[ts r1] ps] im].
    destruct (kf _ _ _ _ _). exact LS.
  - cbn [pure] in HP. apply andb_true_iff in HP. destruct HP as [P1 P2]. cbn [pf].
    specialize (IHe1 r P1). destruct (pf D None e1 r) as [[t r1] p]. cbn in IHe1. subst r1.
    specialize (IHe2 r P2). destruct (pf D None e2 r) as [[t2 r2] p2]. exact IHe2.
  - rewrite pf_for. cbn zeta. specialize (LF es H HP r (px None (size (iter_shape s (map shape_of es))) (PL []))).
    destruct (pfsf D es r _) as [[ts r1] p]. destruct es; exact LF.
  - cbn [pure] in HP. rewrite !andb_true_iff in HP. destruct HP as [[P1 P2] P3]. rewrite pf_if.
    specialize (IHe1 r P1). destruct (pf D None e1 r) as [[tc r1] pc]. cbn in IHe1. subst r1.
    specialize (IHe2 r P2). specialize (IHe3 r P3).
    destruct (ntrue N _); [destruct (pf D None e2 r) as [[? ?] ?]|destruct (pf D None e3 r) as [[? ?] ?]]; assumption.
Qed.

(** Entry form of the node's value. *)
Lemma map2_seq {A B C} (f : A -> B -> C) da db n : forall l l', length l = n -> length l' = n ->
  map2 f l l' = map (fun i => f (nth i l da) (nth i l' db)) (seq 0 n).
Proof.
  induction n as [|n IH]; intros [|a l] [|b l'] H1 H2; try discriminate; [reflexivity|].
  cbn [map2 seq map nth]. f_equal. rewrite <- seq_shift, map_map. apply IH; now injection H1 + injection H2.
Qed.
Lemma cmp_fwd b sx sy vx vy : is_cmp b = true -> kshape_ok (KBin b) [sx; sy] = true -> length vx = size sx -> length vy = size sy ->
  bin_fwd N b sx sy (size (kshape (KBin b) [sx; sy])) vx vy = cmp_vals b sx sy vx vy.
Proof.
  intros HB HK L1 L2.
  assert (HN : size (kshape (KBin b) [sx; sy]) = max (size sx) (size sy) /\
     (is_scl sx = false -> size sx = max (size sx) (size sy)) /\ (is_scl sy = false -> size sy = max (size sx) (size sy))).
  { unfold kshape_ok in HK. cbn [forallb] in HK. rewrite !andb_true_iff in HK. destruct HK as [[S1 [S2 _]] HK].
    unfold kshape, nth_sh; cbn [nth].
    destruct (is_scl sx || is_scl sy) eqn:SC.
    - destruct sx as [kx rx cx], sy as [ky ry cy]. unfold size, is_scl in *. cbn [kind rows cols] in *.
      apply andb_true_iff in HK. destruct HK as [Z1 Z2]. rewrite negb_true_iff, Nat.eqb_neq in Z1, Z2.
      destruct rx as [|rx]; [lia|]. destruct cx as [|cx]; [lia|]. destruct ry as [|ry]; [lia|]. destruct cy as [|cy]; [lia|].
      destruct kx, ky; cbn in SC, S1, S2; try discriminate; rewrite ?andb_true_iff, ?Nat.eqb_eq in *;
        repeat match goal with H : _ /\ _ |- _ => destruct H end;
        repeat match goal with H : S _ = 1 |- _ => injection H as H; subst end; cbn [sk_eqb];
        (split; [|split; intros; try discriminate]); rewrite ?Nat.max_id; cbn [Nat.max Nat.mul Nat.add]; nia.
    - apply LBase.shape_eqb_eq in HK. subst sy. unfold size. cbn [rows cols]. rewrite !Nat.max_id. auto. }
  destruct HN as [HN [H1 H2]]. unfold bin_fwd, cmp_vals. rewrite HN.
  set (n := max (size sx) (size sy)) in *.
  rewrite (map2_seq _ (n0 N) (n0 N) n).
  - apply map_ext_in. intros i Hi. apply in_seq in Hi.
    assert (X : forall s v, (is_scl s = false -> size s = n) -> length v = size s ->
       nth i (bc N s n v) (n0 N) = nth (if is_scl s then 0 else i) v (n0 N)).
    { intros s v Hs Hv. unfold bc. destruct (is_scl s); [|reflexivity].
      rewrite nth_indep with (d' := hd0 N v) by (rewrite repeat_length; lia). rewrite nth_repeat. destruct v; reflexivity. }
    rewrite (X sx vx), (X sy vy) by assumption. destruct b; reflexivity || discriminate HB.
  - unfold bc. destruct (is_scl sx); [apply repeat_length|]. rewrite L1. auto.
  - unfold bc. destruct (is_scl sy); [apply repeat_length|]. rewrite L2. auto.
Qed.

Hypothesis LL : la_len N.
Variables bv ba : nat.
Hypothesis HF : fresh bv ba.
Variable bs : nat -> nat * nat.
Hypothesis SB : separate bs.
Variables (b : bi) (ux uy : U).
Hypothesis HB : is_cmp b = true.
Hypothesis HPy : pure uy = true.
Notation u := (EComp (KBin b) tt [ux; uy]).
Notation V := (vset u).
Notation W := (wset u).

Definition CIM (e : E) (m : mem T) (s : E * E) (ms : mem T) : Prop :=
  (exists cv ca, inv bv ba u cv ca e m) /\
  (IT bs V W 0 [fst s; snd s] ms /\ exists z, sk e = EComp (KBin b) z [sk (fst s); sk (snd s)]) /\ agree m ms.

Lemma cim_parts e m s ms : CIM e m s ms ->
  exists an x y, e = EComp (KBin b) an [x; y] /\ sk (fst s) = sk x /\ sk (snd s) = sk y /\
    pure y = true /\ kshape_ok (KBin b) [shape_of x; shape_of y] = true.
Proof.
  intros [[cv [ca [HI [HW _]]]] [[_ [z HS]] _]].
  destruct e; try discriminate HS. rewrite sk_comp in HS. destruct es as [|x [|y [|]]]; try discriminate HS.
  injection HS as H0 H1 H2 H3. cbn in HI. injection HI as J0 I1 I2. subst k. exists a, x, y. split; [reflexivity|].
  cbn [wfs map] in HW. rewrite !andb_true_iff in HW. destruct HW as [[[_ HK] _] _].
  rewrite <- I1, <- I2 in HK. fold (er x) (er y) in HK. rewrite !shape_er in HK.
  repeat split; auto. rewrite <- I2, pure_amap in HPy. exact HPy.
Qed.
Lemma sk_shape' (x y : E) : sk x = sk y -> shape_of x = shape_of y.
Proof. intros H. rewrite <- (shape_er x), <- (shape_er y). f_equal. now apply er_sk. Qed.

Lemma IT_one i (e : E) l m : IT bs V W i (e :: l) m <-> IT bs V W i [e] m /\ IT bs V W (S i) l m.
Proof. cbn; tauto. Qed.
Lemma quiet_one j (e : E) (m m' : mem T) : pre (V := V) (W := W) None e ->
  fr (fun b o => b = fst (bs j) \/ (b = 0 /\ In o (writes e))) m m' -> quiet u m m'.
Proof.
  intros [_ [_ [P _]]] [F _]. destruct (bs_v bs SB j) as [F1 [F2 F3]].
  split; [intros o Ho; split|intros o]; apply F; intros [X|[X X2]]; try congruence.
  apply Ho, P. now apply writes_refs.
Qed.
Lemma one_len D i (e : E) m r al : IT bs V W i [e] m -> MR V W D m r al ->
  length (rdp (snd (fst (pf D None e r))) (snd (pf D None e r))) = size (shape_of e).
Proof.
  intros [[cv [ca [HL [A1 A2]]]] [HP _]] HM.
  destruct (FS_all (bs_v bs SB i) (bs_a bs SB i) LL e None 0 0 cv ca m r al HL HP HM A1) as [e' [m' [q [E1 Q]]]].
  destruct (pf D None e r) as [[t r'] p].
  destruct Q as [Q1 [Q2 [Q3 [Q4 [Q5 [Q6 Q7]]]]]].
  destruct (refR_read _ _ _ _ _ _ _ _ Q3 Q4) as [E2 L2]. exact L2.
Qed.

Lemma cim_eval e m s ms : CIM e m s ms ->
  exists e' m' s' ms' v, evaluate e m = Ok (e', m', v) /\ cmp_eval b s ms = Ok (s', ms', v) /\ CIM e' m' s' ms'.
Proof.
  intros HC. destruct (cim_parts _ _ _ _ HC) as [an [x [y [-> [KX [KY [PY HK]]]]]]].
  destruct HC as [[cv [ca HI]] [[HT _] HA]]. destruct s as [x2 y2]. cbn [fst snd] in *.
  pose proof (MR_renv u m (proj2 (proj2 (proj2 (proj2 (proj2 (proj2 HI))))))) as HM.
  pose proof (agree_MR u _ _ _ _ _ HA HM) as HMs.
  destruct (evaluate_ok LL bv ba HF u cv ca _ m _ _ _ HI HM) as [e' [m' Q]].
  pose proof (state_step LL bv ba HF u cv ca (EComp (KBin b) an [x; y]) m (renv m 4) (renv m 0) (renv m 1) e' m') as SS.
  pose proof (fun v => SS v HI HM) as SS0. clear SS. rename SS0 into SS. cbv beta in SS.
  rewrite pf_comp in Q, SS. cbn [pfs] in Q, SS.
  pose proof (proj1 (IT_one _ _ _ _) HT) as [T1 T2].
  pose proof (one_len _ 0 x2 ms _ _ T1 HMs) as LX.
  destruct (one_eval LL bs SB V W _ 0 x2 ms _ _ T1 HMs) as [x3 [ms1 QX]].
  rewrite (pf_sk _ x x2 None _ KX) in QX, LX.
  destruct (pf (renv m 4) None x (renv m 0)) as [[tx r1] px].
  destruct QX as [C1 [C2 [C3 [C4 [C5 [C6 C7]]]]]].
  pose proof (one_len _ 1 y2 ms1 _ _ (IT_keeps bs V W _ _ _ _ (proj2 C7) T2) C6) as LY.
  destruct (one_eval LL bs SB V W _ 1 y2 ms1 _ _ (IT_keeps bs V W _ _ _ _ (proj2 C7) T2) C6) as [y3 [ms2 QY]].
  rewrite (pf_sk _ y y2 None _ KY) in QY, LY. pose proof (pf_pure (renv m 4) y r1 PY) as RP.
  destruct (pf (renv m 4) None y r1) as [[ty r2] py]. cbn in RP. subst r2.
  destruct QY as [A1 [A2 [A3 [A4 [A5 [A6 A7]]]]]].
  cbn [fst snd map] in *. change (pvals (KBin b) r1 [tx; ty] [px; py] [rdp r1 px; rdp r1 py]) with [rdp r1 px; rdp r1 py] in *.
  unfold kf in Q, SS. cbn [kfwd] in Q, SS. cbn [arg nth nth_sh] in Q, SS.
  destruct Q as [Q1 [Q2 [Q3 [Q4 _]]]]. specialize (SS _ Q1). cbn [fst] in SS. cbn [Pure.px rdp] in Q1.
  pose proof (sk_shape' _ _ KX) as SX. pose proof (sk_shape' _ _ KY) as SY. rewrite SX in LX. rewrite SY in LY.
  exists e', m', (x3, y3), ms2, (cmp_vals b (shape_of x) (shape_of y) (rdp r1 px) (rdp r1 py)).
  rewrite <- cmp_fwd by assumption. split; [exact Q1|]. split.
  - unfold cmp_eval. rewrite C1. cbn [bindR]. rewrite A1. cbn [bindR]. rewrite SX, SY. rewrite <- cmp_fwd by assumption. reflexivity.
  - split; [eauto|]. split; [split|].
    + cbn [fst snd]. apply IT_one. split; [|exact A5]. eapply IT_keeps; [apply A7|exact C5].
    + cbn [fst snd]. exists (st an). rewrite SS. rewrite sk_comp, skp_comp. cbn [map tts skps tst]. rewrite C2, A2, KX, KY. reflexivity.
    + destruct T1 as [_ [T1 _]]. destruct T2 as [_ [T2 _]].
      eapply agree_next; [exact HA|eapply quiet_EP; eauto|eapply quiet_trans; [eapply quiet_one; [exact T1|exact C7]|eapply quiet_one; [exact T2|exact A7]]|exact Q3|exact A6].
Qed.

Lemma beval_cmp an x y seed (m m' : mem T) : beval (EComp (KBin b) an [x; y]) seed m = Ok m' -> m' = m.
Proof.
  intros H. cbn [beval] in H. apply bindR_ok in H. destruct H as [sd [_ H]].
  replace (kadj (KBin b)) with false in H by (cbn; now rewrite HB). cbn [bindR] in H.
  apply bindR_ok in H. destruct H as [p0 [_ H]].
  assert (KP : forall i vs f, kpre (N := N) (KBin b) i vs f = None) by reflexivity.
  assert (KS : forall cs ss s ad vs f i, kseed (N := N) (KBin b) cs ss s ad vs f i = None) by (intros; cbn; now rewrite HB).
  destruct (klazy _ _).
  - apply bindR_ok in H. destruct H as [m1 [H1 H]]. apply bindR_ok in H1. destruct H1 as [[[? ?] ?] [_ H1]].
    rewrite KP, KS in H1. cbn in H1. inversion H1; subst m1.
    apply bindR_ok in H. destruct H as [[[? ?] ?] [_ H]]. rewrite KP, KS in H. cbn in H. now inversion H.
  - destruct p0 as [[? ?] ?]. cbn [bindR] in H. rewrite !KP, !KS in H. cbn in H. now inversion H.
Qed.
Lemma cim_diff e m s ms seed : CIM e m s ms -> length seed = size (shape_of u) ->
  exists e' m' s' ms' v, autodiff e seed m = Ok (e', m', v) /\ cmp_diff b s seed ms = Ok (s', ms', v) /\ CIM e' m' s' ms'.
Proof.
  intros HC HL. destruct (cim_eval _ _ _ _ HC) as [e' [m' [s' [ms' [v [E1 [E2 HC']]]]]]].
  exists e', m', s', ms', v. split; [|auto]. destruct HC as [[cv [ca HI]] _].
  pose proof (MR_renv u m (proj2 (proj2 (proj2 (proj2 (proj2 (proj2 HI))))))) as HM.
  destruct (autodiff_ok LL bv ba HF u cv ca e m _ _ _ seed HI HM HL) as [e2 [m2 Q]].
  destruct (pf _ None e _) as [[t r'] p]. destruct (pb None e2 t seed r' _) as [[q r2] a2]. destruct Q as [Q _].
  assert (Q' := Q). unfold autodiff in Q'. rewrite E1 in Q'. cbn [bindR] in Q'. apply bindR_ok in Q'. destruct Q' as [m3 [E3 Q']].
  destruct (cim_parts _ _ _ _ HC') as [an [x [y [-> _]]]]. apply beval_cmp in E3. inversion Q'; subst. exact Q.
Qed.

Lemma cim_play ops : Forall (op_ok (size (shape_of u))) ops -> Forall op_shared ops -> forall e m s ms, CIM e m s ms ->
  exists e' m' s' ms' vs, play evaluate autodiff ops e m = Ok (e', m', vs) /\
    play (cmp_eval b) (cmp_diff b) ops s ms = Ok (s', ms', vs) /\ CIM e' m' s' ms'.
Proof.
  induction 1 as [|o ops HO H IH]; intros HS e m s ms HSim.
  - exists e, m, s, ms, []. cbn. auto.
  - inversion HS as [|? ? S1 S2]; subst. cbn [play].
    assert (X : exists e1 m1 s1 ms1 v,
      match o with OpEval => evaluate e m | OpDiff seed => autodiff e seed m | OpUser f => Ok (e, f m, []) end = Ok (e1, m1, v) /\
      match o with OpEval => cmp_eval b s ms | OpDiff seed => cmp_diff b s seed ms | OpUser f => Ok (s, f ms, []) end = Ok (s1, ms1, v) /\
      CIM e1 m1 s1 ms1).
    { destruct o as [|seed|f]; [now apply cim_eval|now apply cim_diff|].
      exists e, (f m), s, (f ms), []. split; [reflexivity|]. split; [reflexivity|].
      destruct HSim as [[cv [ca HI]] [HT HA]]. cbn in HO, S1. split; [|split; [|auto]].
      - exists cv, ca. eapply inv_keeps; eauto.
      - destruct HT as [HT HT2]. split; [|exact HT2]. eapply IT_keeps; [|exact HT]. auto. }
    destruct X as [e1 [m1 [s1 [ms1 [v [-> [-> X]]]]]]]. cbn [bindR].
    destruct (IH S2 e1 m1 s1 ms1 X) as [e2 [m2 [s2 [ms2 [vs [-> [-> Y]]]]]]]. cbn [bindR]. eauto 10.
Qed.

Theorem comparison (uv ua : nat -> T) (uvs uas : nat -> nat -> T) m ops :
  wfs u = true -> ctor_ok u = true -> avail u m ->
  Forall (op_ok (size (shape_of u))) ops -> Forall op_shared ops ->
  exists e m0 e' m' x y ms0 s' ms' vs,
    bound bv ba uv ua u m = Ok (e, m0) /\ play evaluate autodiff ops e m0 = Ok (e', m', vs) /\
    bind_all bs uvs uas 0 [ux; uy] m = Ok ([x; y], ms0) /\ play (cmp_eval b) (cmp_diff b) ops (x, y) ms0 = Ok (s', ms', vs) /\
    agree m' ms'.
Proof.
  intros HW HC HA HO HS. destruct (mk_ok LL u m HW HC HA) as [e0 HM].
  destruct (bind_one LL bv ba uv ua u e0 m m HF HW HA HM (agree_refl m)) as [e [m0 [B1 [B2 [B3 B4]]]]].
  assert (HM' := HM). rewrite mk_comp in HM'. unfold mks in HM'. apply bindR_ok in HM'. destruct HM' as [es0 [M1 HM']].
  apply bindR_ok in M1. destruct M1 as [x0 [M1 M2]]. apply bindR_ok in M2. destruct M2 as [l0 [M2 M3]]. inversion M3; subst es0; clear M3.
  apply bindR_ok in M2. destruct M2 as [y0 [M2 M3]]. cbn [bindR] in M3. inversion M3; subst l0; clear M3.
  assert (E0 : exists an0, e0 = EComp (KBin b) an0 [x0; y0]).
  { destruct (kassert _ _) in HM'; [|discriminate]. cbn [bindR] in HM'. inversion HM'; eauto. }
  destruct E0 as [an0 ->].
  assert (HW' := HW). cbn [wfs forallb] in HW'. rewrite !andb_true_iff in HW'.
  destruct (bind_all_ok LL bs SB V W uvs uas [ux; uy] [x0; y0] m) with (i := 0) (m1 := m)
    as [es [ms0 [C1 [C2 [C3 C4]]]]].
  - repeat constructor; auto.
  - repeat constructor; tauto.
  - intros o. auto.
  - intros o. auto.
  - destruct HA as [A1 A2]. cbn [refs drefs flat_map] in A1, A2.
    repeat (apply Forall_cons; [split; intros o Ho; [apply A1|apply A2]; rewrite !in_app_iff; auto|]). apply Forall_nil.
  - apply agree_refl.
  - destruct es as [|x [|y [|]]]; try discriminate C2. cbn in C2. injection C2 as D1 D2.
    assert (X : CIM e m0 (x, y) ms0).
    { split; [eauto|]. split; [split; [exact C3|]|].
      - exists (st an0). rewrite B2. rewrite sk_comp. cbn [map fst snd]. now rewrite D1, D2.
      - eapply agree_trans; [apply agree_sym|eapply (blocks_agree bs SB _ _ 0); exact C4].
        intros o. destruct HF as [[F1 [F2 F3]] [F4 [F5 [F6 F7]]]]. repeat split; symmetry; apply B4; auto. }
    destruct (cim_play ops HO HS e m0 (x, y) ms0 X) as [e' [m' [s' [ms' [vs [P1 [P2 [_ [_ P3]]]]]]]]].
    exists e, m0, e', m', x, y, ms0, s', ms', vs. auto 10.
Qed.
End Cmp.

(** ** 0 and 1 *)
Section Bool.
Context {N : num}.
Notation T := (carrier N).
Definition is01 (x : T) : Prop := x = n0 N \/ x = n1 N.
Lemma truth01 c : is01 (truth c). Proof. destruct c; unfold is01; auto. Qed.
Lemma entry01 b sc x y : is_cmp b = true -> (sc = true \/ (b <> BAnd /\ b <> BOr) \/ (is01 x /\ is01 y)) -> is01 (cmp_entry b sc x y).
Proof.
  intros HB H. destruct b; try discriminate HB; cbn [cmp_entry]; try apply truth01.
  - destruct sc; [apply truth01|]. destruct H as [H|[[H _]|[H1 H2]]]; try congruence. now destruct (nltb N y x).
  - destruct sc; [apply truth01|]. destruct H as [H|[[_ H]|[H1 H2]]]; try congruence. now destruct (nltb N x y).
Qed.
Lemma vals01 b sx sy vx vy : is_cmp b = true -> length vx = size sx -> length vy = size sy ->
  (is_scl sx && is_scl sy = true \/ (b <> BAnd /\ b <> BOr) \/ (Forall is01 vx /\ Forall is01 vy)) ->
  Forall is01 (cmp_vals b sx sy vx vy).
Proof.
  intros HB L1 L2 H. apply Forall_forall. unfold cmp_vals. intros z Hz. apply in_map_iff in Hz. destruct Hz as [i [<- _]].
  apply entry01; auto. destruct H as [H|[H|[H1 H2]]]; auto. right. right.
  assert (X : forall l j, Forall is01 l -> is01 (nth j l (n0 N))).
  { intros l j Hl. destruct (nth_in_or_default j l (n0 N)) as [Hi| ->]; [|left; reflexivity].
    eapply Forall_forall; eauto. }
  split; now apply X.
Qed.
End Bool.

Section Logic.
Context (N : num).
Notation T := (carrier N).
(** x && y and x || y of two vectors of two entries *)
Definition arr_and : expr T unit := EComp (KBin BAnd) tt [EVar v2 0; EVar v2 2].
Definition arr_or : expr T unit := EComp (KBin BOr) tt [EVar v2 0; EVar v2 2].
Lemma arr_logic (f : nat -> T) : (forall o, o < 4 -> ~ is01 (f o)) -> exists e m a b e' m' a' b',
  bind_eval N arr_and (mem8 N f) = Ok (e, m, [a; b]) /\ ~ is01 a /\ ~ is01 b /\
  bind_eval N arr_or (mem8 N f) = Ok (e', m', [a'; b']) /\ ~ is01 a' /\ ~ is01 b'.
Proof.
  intros H.
  eexists _, _, (if nltb N (f 2) (f 0) then f 2 else f 0), (if nltb N (f 3) (f 1) then f 3 else f 1),
          _, _, (if nltb N (f 0) (f 2) then f 2 else f 0), (if nltb N (f 1) (f 3) then f 3 else f 1).
  split; [vm_compute; reflexivity|].
  split; [destruct (nltb N (f 2) (f 0)); apply H; lia|]. split; [destruct (nltb N (f 3) (f 1)); apply H; lia|].
  split; [vm_compute; reflexivity|].
  split; [destruct (nltb N (f 0) (f 2)); apply H; lia|destruct (nltb N (f 1) (f 3)); apply H; lia].
Qed.
Lemma arr_avail (f : nat -> T) : avail arr_and (mem8 N f) /\ avail arr_or (mem8 N f).
Proof. split; (split; cbn; intros o Ho; [|tauto]; repeat (destruct Ho as [<-|Ho]; [split; discriminate|]); destruct Ho). Qed.
End Logic.
