(** Lemmas: interval operations against binary64 and the reals; interval runs of
    programs. *)
From Coq Require Import ZArith Reals Lra Lia List Bool Psatz.
From Coquelicot Require Import Coquelicot.
From Flocq Require Import Core BinarySingleNaN.
From Verif Require Import Base Num Expr Node Stat Machine Wf Session LKind LSimDef LBind LUser LFind Tape XR Spec RSess LReal LVal LKM Grad LGrd
  Ieee IeeeSpec LParam LCmap LDyad LRed LIeee Ival IvalSpec.
Set Bullet Behavior "Strict Subproofs".
Local Open Scope R_scope.
Local Existing Instance Hprec64.
Local Existing Instance Hmax64.

(** ** Dyadic numbers *)
Lemma q_add x y : dval (qadd x y) = dval x + dval y.
Proof. destruct x as [m1 e1], y as [m2 e2]. unfold dval, qadd. cbn [fst snd]. symmetry. apply fv_add; lia. Qed.
Lemma q_opp x : dval (qopp x) = - dval x.
Proof. destruct x as [m e]. unfold dval, qopp. cbn [fst snd]. apply fv_opp. Qed.
Lemma q_mul x y : dval (qmul x y) = dval x * dval y.
Proof. destruct x as [m1 e1], y as [m2 e2]. unfold dval, qmul. cbn [fst snd]. symmetry. apply fv_mul. Qed.
Lemma q_min x y : dval (qmin x y) <= dval x /\ dval (qmin x y) <= dval y.
Proof. unfold qmin. destruct (qleb x y) eqn:Q; [apply q_leb in Q|apply q_nle in Q]; lra. Qed.
Lemma q_max x y : dval x <= dval (qmax x y) /\ dval y <= dval (qmax x y).
Proof. unfold qmax. destruct (qleb x y) eqn:Q; [apply q_leb in Q|apply q_nle in Q]; lra. Qed.
Lemma q_min4 a b c d : let m := dval (min4 a b c d) in m <= dval a /\ m <= dval b /\ m <= dval c /\ m <= dval d.
Proof.
  cbv zeta. unfold min4. pose proof (q_min a b). pose proof (q_min c d). pose proof (q_min (qmin a b) (qmin c d)). lra.
Qed.
Lemma q_max4 a b c d : let m := dval (max4 a b c d) in dval a <= m /\ dval b <= m /\ dval c <= m /\ dval d <= m.
Proof.
  cbv zeta. unfold max4. pose proof (q_max a b). pose proof (q_max c d). pose proof (q_max (qmax a b) (qmax c d)). lra.
Qed.
Lemma cut_pos m e : (0 <= cut m e)%Z. Proof. unfold cut. lia. Qed.
Lemma pow2_pos k : (0 <= k)%Z -> (0 < 2 ^ k)%Z. Proof. intros. apply Z.pow_pos_nonneg; lia. Qed.
Lemma down_ok x a : down x = Some a -> dval a <= dval x /\ isdbl (dval a).
Proof.
  destruct x as [m e]. unfold down. set (k := cut m e). intros H. pose proof (chk_format _ _ _ H) as F. apply chk_val in H. destruct H as [-> _].
  split; [|exact F]. pose proof (cut_pos m e) as K. fold k in K. pose proof (pow2_pos k K) as P.
  rewrite <- (fv_shift _ (e + k) k K). replace (e + k - k)%Z with e by lia. unfold dval. cbn [fst snd]. apply fv_le.
  pose proof (Z.mul_div_le m (2 ^ k) P). lia.
Qed.
Lemma up_ok x a : up x = Some a -> dval x <= dval a /\ isdbl (dval a).
Proof.
  destruct x as [m e]. unfold up. set (k := cut m e). intros H. pose proof (chk_format _ _ _ H) as F. apply chk_val in H. destruct H as [-> _].
  split; [|exact F]. pose proof (cut_pos m e) as K. fold k in K. pose proof (pow2_pos k K) as P.
  rewrite <- (fv_shift _ (e + k) k K). replace (e + k - k)%Z with e by lia. unfold dval. cbn [fst snd]. apply fv_le.
  pose proof (Z.mul_div_le (- m) (2 ^ k) P). lia.
Qed.
Lemma hull_within x y r : dval x <= r <= dval y -> within (hull x y) r.
Proof.
  intros H. unfold hull. destruct (down x) as [a|] eqn:A; [|exact I]. destruct (up y) as [b|] eqn:B; [|exact I].
  apply down_ok in A. apply up_ok in B. cbn. lra.
Qed.
Lemma hull_round md x y r (z : b64) : dval x <= r <= dval y ->
  (Rlt_bool (Rabs (round radix2 (SpecFloat.fexp prec64 emax64) (round_mode md) r)) (bpow radix2 emax64) = true ->
   is_finite z = true /\ B2R z = round radix2 (SpecFloat.fexp prec64 emax64) (round_mode md) r) -> inB (hull x y) z.
Proof.
  intros H HZ. unfold hull. destruct (down x) as [a|] eqn:A; [|exact I]. destruct (up y) as [b|] eqn:B; [|exact I].
  apply down_ok in A. apply up_ok in B. destruct A as [A1 [A2 A3]], B as [B1 [B2 B3]].
  assert (L : dval a <= round radix2 (SpecFloat.fexp prec64 emax64) (round_mode md) r).
  { apply round_ge_generic; [apply fexp_correct; exact Hprec64|apply valid_rnd_round_mode|exact A2|lra]. }
  assert (U : round radix2 (SpecFloat.fexp prec64 emax64) (round_mode md) r <= dval b).
  { apply round_le_generic; [apply fexp_correct; exact Hprec64|apply valid_rnd_round_mode|exact B2|lra]. }
  destruct HZ as [Z1 Z2].
  { apply Rlt_bool_true. apply Rabs_lt. apply Rabs_lt_inv in A3. apply Rabs_lt_inv in B3. lra. }
  cbn. split; [exact Z1|]. rewrite Z2. auto.
Qed.

(** ** Real intervals *)
Lemma mul_lo a b x : a <= x <= b -> forall y, Rmin (a * y) (b * y) <= x * y <= Rmax (a * y) (b * y).
Proof.
  intros H y. destruct (Rle_or_lt 0 y) as [P|P].
  - pose proof (Rmin_l (a * y) (b * y)). pose proof (Rmax_r (a * y) (b * y)). nra.
  - pose proof (Rmin_r (a * y) (b * y)). pose proof (Rmax_l (a * y) (b * y)). nra.
Qed.
Lemma mul_hull a b c d x y lo hi : a <= x <= b -> c <= y <= d ->
  lo <= a * c -> lo <= a * d -> lo <= b * c -> lo <= b * d -> a * c <= hi -> a * d <= hi -> b * c <= hi -> b * d <= hi ->
  lo <= x * y <= hi.
Proof.
  intros HX HY L1 L2 L3 L4 U1 U2 U3 U4.
  pose proof (mul_lo a b x HX y) as M. pose proof (mul_lo c d y HY a) as MA. pose proof (mul_lo c d y HY b) as MB.
  assert (lo <= a * y <= hi).
  { rewrite (Rmult_comm a y). destruct MA as [MA1 MA2]. split.
    - eapply Rle_trans; [|exact MA1]. apply Rmin_glb; lra.
    - eapply Rle_trans; [exact MA2|]. apply Rmax_lub; lra. }
  assert (lo <= b * y <= hi).
  { rewrite (Rmult_comm b y). destruct MB as [MB1 MB2]. split.
    - eapply Rle_trans; [|exact MB1]. apply Rmin_glb; lra.
    - eapply Rle_trans; [exact MB2|]. apply Rmax_lub; lra. }
  destruct M as [M1 M2]. split.
  - eapply Rle_trans; [|exact M1]. apply Rmin_glb; lra.
  - eapply Rle_trans; [exact M2|]. apply Rmax_lub; lra.
Qed.
Lemma zdiv_le M m : m <> 0%Z -> IZR (M / m) <= IZR M / IZR m.
Proof.
  intros NZ. assert (NR : IZR m <> 0) by (now apply not_0_IZR). pose proof (Z_div_mod_eq_full M m) as E.
  assert (Q : 0 <= IZR (M mod m) / IZR m).
  { destruct (Z_lt_le_dec 0 m) as [P|P].
    - pose proof (Z.mod_pos_bound M m P). apply Rmult_le_pos; [apply IZR_le; lia|]. apply Rlt_le, Rinv_0_lt_compat, IZR_lt. exact P.
    - pose proof (Z.mod_neg_bound M m ltac:(lia)). replace (IZR (M mod m) / IZR m) with (IZR (- (M mod m)) / IZR (- m)).
      + apply Rmult_le_pos; [apply IZR_le; lia|]. apply Rlt_le, Rinv_0_lt_compat, IZR_lt. lia.
      + rewrite !opp_IZR. field. exact NR. }
  replace (IZR M / IZR m) with (IZR (M / m) + IZR (M mod m) / IZR m); [lra|].
  rewrite E at 3. rewrite plus_IZR, mult_IZR. field. exact NR.
Qed.
Lemma qbits_pos a b : (0 <= qbits a b)%Z. Proof. unfold qbits. lia. Qed.
Lemma q_quot x y k : (0 <= k)%Z -> fst y <> 0%Z -> dval x / dval y = IZR (fst x * 2 ^ k) / IZR (fst y) * bpow radix2 (snd x - snd y - k).
Proof.
  intros K NZ. destruct x as [m1 e1], y as [m2 e2]. unfold dval. cbn [fst snd] in *. rewrite <- (fv_shift m1 e1 k K).
  unfold fv, F2R. cbn [Fnum Fexp]. unfold Zminus. rewrite !bpow_plus, !bpow_opp. field.
  repeat split; try (apply Rgt_not_eq, bpow_gt_0). now apply not_0_IZR.
Qed.
Lemma q_divd x y : fst y <> 0%Z -> dval (qdivd x y) <= dval x / dval y.
Proof.
  intros NZ. unfold qdivd. set (k := qbits _ _). rewrite (q_quot x y k (qbits_pos _ _) NZ).
  unfold dval, fv, F2R. cbn [fst snd Fnum Fexp]. apply Rmult_le_compat_r; [apply bpow_ge_0|]. now apply zdiv_le.
Qed.
Lemma q_divu x y : fst y <> 0%Z -> dval x / dval y <= dval (qdivu x y).
Proof.
  intros NZ. unfold qdivu. set (k := qbits _ _). rewrite (q_quot x y k (qbits_pos _ _) NZ).
  unfold dval, fv, F2R. cbn [fst snd Fnum Fexp]. apply Rmult_le_compat_r; [apply bpow_ge_0|].
  pose proof (zdiv_le (- (fst x * 2 ^ k)) (fst y) NZ) as Q. rewrite opp_IZR in Q |- *. unfold Rdiv in *. lra.
Qed.
Lemma dval_pos x : (0 < fst x)%Z <-> 0 < dval x.
Proof. destruct x as [m e]. exact (proj2 (fv_sign m e)). Qed.
Lemma dval_neg x : (fst x < 0)%Z <-> dval x < 0.
Proof.
  destruct x as [m e]. pose proof (proj2 (fv_sign (- m) e)) as H. rewrite fv_opp in H. unfold dval. cbn [fst snd]. split; intros Q.
  - assert (0 < - m)%Z by lia. apply H in H0. lra.
  - assert (0 < - fv m e) by lra. apply H in H0. lia.
Qed.
Lemma div_hull a b c d x y : (0 < fst c)%Z \/ (fst d < 0)%Z -> dval a <= x <= dval b -> dval c <= y <= dval d ->
  y <> 0 /\ dval (min4 (qdivd a c) (qdivd a d) (qdivd b c) (qdivd b d)) <= x / y <= dval (max4 (qdivu a c) (qdivu a d) (qdivu b c) (qdivu b d)).
Proof.
  intros HS HX HY.
  assert (S : 0 < dval c \/ dval d < 0) by (destruct HS as [P|P]; [left; now apply dval_pos|right; now apply dval_neg]).
  assert (NY : y <> 0) by (destruct S; lra). split; [exact NY|].
  assert (NC : fst c <> 0%Z). { intros E. destruct S as [P|P]; [apply dval_pos in P; lia|]. assert (N : dval c < 0) by lra. apply dval_neg in N. lia. }
  assert (ND : fst d <> 0%Z). { intros E. destruct S as [P|P]; [|apply dval_neg in P; lia]. assert (N : 0 < dval d) by lra. apply dval_pos in N. lia. }
  assert (HI : / dval d <= / y <= / dval c).
  { destruct S as [P|P]; split.
    - apply Rinv_le_contravar; lra.
    - apply Rinv_le_contravar; lra.
    - assert (Q : / - y <= / - dval d) by (apply Rinv_le_contravar; lra). rewrite !Rinv_opp in Q. lra.
    - assert (Q : / - dval c <= / - y) by (apply Rinv_le_contravar; lra). rewrite !Rinv_opp in Q. lra. }
  pose proof (q_min4 (qdivd a c) (qdivd a d) (qdivd b c) (qdivd b d)) as M1. pose proof (q_max4 (qdivu a c) (qdivu a d) (qdivu b c) (qdivu b d)) as M2.
  cbv zeta in M1, M2. pose proof (q_divd a c NC). pose proof (q_divd a d ND). pose proof (q_divd b c NC). pose proof (q_divd b d ND).
  pose proof (q_divu a c NC). pose proof (q_divu a d ND). pose proof (q_divu b c NC). pose proof (q_divu b d ND).
  unfold Rdiv in *. apply (mul_hull (dval a) (dval b) (/ dval d) (/ dval c)); auto; lra.
Qed.
Lemma sbits_ok x : (0 <= sbits x)%Z /\ exists h, (snd x - sbits x = 2 * h)%Z.
Proof.
  unfold sbits. set (k := Z.max 0 _). assert (K : (0 <= k)%Z) by (unfold k; lia). destruct (Z.even (snd x - k)) eqn:E.
  - split; [exact K|]. apply Z.even_spec in E. exact E.
  - split; [lia|]. rewrite <- Z.negb_odd in E. apply negb_false_iff in E. apply Z.odd_spec in E. destruct E as [h E]. exists h. lia.
Qed.
Lemma q_sqrt x : (0 <= fst x)%Z -> dval (qsqrtd x) <= sqrt (dval x) <= dval (qsqrtu x).
Proof.
  intros P. unfold qsqrtd, qsqrtu. destruct (sbits_ok x) as [K [h E]]. set (k := sbits x) in *.
  assert (D : dval x = IZR (fst x * 2 ^ k) * (bpow radix2 h * bpow radix2 h)).
  { destruct x as [m e]. unfold dval. cbn [fst snd] in *. rewrite <- (fv_shift m e k K), E. unfold fv, F2R. cbn [Fnum Fexp].
    replace (2 * h)%Z with (h + h)%Z by lia. now rewrite bpow_plus. }
  replace ((snd x - k) / 2)%Z with h by (rewrite E, Z.mul_comm, Z.div_mul; lia).
  set (M := (fst x * 2 ^ k)%Z) in *. assert (PM : (0 <= M)%Z) by (pose proof (pow2_pos k K); unfold M; nia).
  assert (S : sqrt (dval x) = sqrt (IZR M) * bpow radix2 h).
  { rewrite D. rewrite sqrt_mult; [|apply (IZR_le 0); lia|]. 2:{ apply Rmult_le_pos; apply bpow_ge_0. }
    rewrite sqrt_square by apply bpow_ge_0. reflexivity. }
  pose proof (Z.sqrt_spec M PM) as Q. pose proof (Z.sqrt_nonneg M) as N. cbv zeta in Q.
  rewrite S. unfold dval, fv, F2R. cbn [fst snd Fnum Fexp]. split; (apply Rmult_le_compat_r; [apply bpow_ge_0|]).
  - rewrite <- (sqrt_square (IZR (Z.sqrt M))) by (apply (IZR_le 0); exact N). apply sqrt_le_1_alt. rewrite <- mult_IZR. apply IZR_le. lia.
  - rewrite <- (sqrt_square (IZR (Z.sqrt M + 1))) by (apply (IZR_le 0); lia). apply sqrt_le_1_alt. rewrite <- mult_IZR. apply IZR_le. lia.
Qed.

(** ** Intervals and doubles *)
Section B.
Variable md : mode.
Lemma i_add x y x' y' : inB x x' -> inB y y' -> inB (iadd x y) (Bplus md x' y').
Proof.
  destruct x as [[a b]|]; [|cbn; auto]. destruct y as [[c d]|]; [|cbn; auto]. intros [F1 V1] [F2 V2]. cbn [within] in V1, V2.
  cbn [iadd ilift]. apply (hull_round md _ _ (B2R x' + B2R y')); [rewrite !q_add; lra|]. intros H.
  pose proof (Bplus_correct _ _ Hprec64 Hmax64 md x' y' F1 F2) as C. rewrite H in C. tauto.
Qed.
Lemma i_opp x x' : inB x x' -> inB (iopp x) (Bopp x').
Proof.
  destruct x as [[a b]|]; [|cbn; auto]. intros [F1 V1]. cbn [iopp inB within] in *. rewrite is_finite_Bopp, B2R_Bopp, !q_opp. split; [exact F1|lra].
Qed.
Lemma i_sub x y x' y' : inB x x' -> inB y y' -> inB (isub x y) (Bminus md x' y').
Proof.
  destruct x as [[a b]|]; [|cbn; auto]. destruct y as [[c d]|]; [|cbn; auto]. intros [F1 V1] [F2 V2]. cbn [within] in V1, V2.
  unfold isub. cbn [iopp iadd ilift]. apply (hull_round md _ _ (B2R x' - B2R y')); [rewrite !q_add, !q_opp; lra|]. intros H.
  pose proof (Bminus_correct _ _ Hprec64 Hmax64 md x' y' F1 F2) as C. rewrite H in C. tauto.
Qed.
Lemma imul_hull a b c d x y : dval a <= x <= dval b -> dval c <= y <= dval d ->
  dval (min4 (qmul a c) (qmul a d) (qmul b c) (qmul b d)) <= x * y <= dval (max4 (qmul a c) (qmul a d) (qmul b c) (qmul b d)).
Proof.
  intros V1 V2. pose proof (q_min4 (qmul a c) (qmul a d) (qmul b c) (qmul b d)) as M1. pose proof (q_max4 (qmul a c) (qmul a d) (qmul b c) (qmul b d)) as M2.
  cbv zeta in M1, M2. rewrite !q_mul in M1, M2. apply (mul_hull (dval a) (dval b) (dval c) (dval d)); lra.
Qed.
Lemma i_mul x y x' y' : inB x x' -> inB y y' -> inB (imul x y) (Bmult md x' y').
Proof.
  destruct x as [[a b]|]; [|cbn; auto]. destruct y as [[c d]|]; [|cbn; auto]. intros [F1 V1] [F2 V2]. cbn [within] in V1, V2.
  cbn [imul ilift]. apply (hull_round md _ _ (B2R x' * B2R y')); [now apply imul_hull|]. intros H.
  pose proof (Bmult_correct _ _ Hprec64 Hmax64 md x' y') as C. rewrite H, F1, F2 in C. cbn [andb] in C. tauto.
Qed.
Lemma i_div x y x' y' : inB x x' -> inB y y' -> inB (idiv x y) (Bdiv md x' y').
Proof.
  destruct x as [[a b]|]; [|cbn; auto]. destruct y as [[c d]|]; [|cbn; auto]. intros [F1 V1] [F2 V2]. cbn [within] in V1, V2.
  cbn [idiv ilift]. destruct (_ || _) eqn:Q; [|exact I]. rewrite orb_true_iff, !Z.ltb_lt in Q.
  destruct (div_hull a b c d _ _ Q V1 V2) as [NZ HQ]. apply (hull_round md _ _ (B2R x' / B2R y')); [exact HQ|]. intros H.
  pose proof (Bdiv_correct _ _ Hprec64 Hmax64 md x' y' NZ) as C. rewrite H, F1 in C. tauto.
Qed.
Lemma isqrt_hull a b r : (0 <= fst a)%Z -> dval a <= r <= dval b -> 0 <= r /\ dval (qsqrtd a) <= sqrt r <= dval (qsqrtu b).
Proof.
  intros P H. assert (PA : 0 <= dval a). { destruct (Rle_or_lt 0 (dval a)) as [|N]; [assumption|]. apply dval_neg in N. lia. }
  assert (PB : (0 <= fst b)%Z). { destruct (Z_lt_le_dec (fst b) 0) as [N|]; [|assumption]. apply dval_neg in N. lra. }
  split; [lra|]. pose proof (q_sqrt a P). pose proof (q_sqrt b PB). pose proof (sqrt_le_1_alt (dval a) r). pose proof (sqrt_le_1_alt r (dval b)). lra.
Qed.
Lemma i_sqrt x x' : inB x x' -> inB (isqrt x) (Bsqrt md x').
Proof.
  destruct x as [[a b]|]; [|cbn; auto]. intros [F1 V1]. cbn [within] in V1. cbn [isqrt]. destruct (Z.leb_spec 0 (fst a)) as [P|]; [|exact I].
  destruct (isqrt_hull a b _ P V1) as [PR HQ]. apply (hull_round md _ _ (sqrt (B2R x'))); [exact HQ|]. intros _.
  pose proof (Bsqrt_correct _ _ Hprec64 Hmax64 md x') as [C1 [C2 _]]. split; [|exact C1]. rewrite C2.
  destruct x' as [s|s| |[] p e H]; try discriminate F1; try reflexivity. exfalso. cbn [B2R] in PR.
  pose proof (F2R_lt_0 radix2 (Float radix2 (Zneg p) e) ltac:(reflexivity)). unfold SpecFloat.cond_Zopp in PR. cbn in *. lra.
Qed.
(** ** Reductions *)
Lemma q_mag a b r : dval a <= r <= dval b -> Rabs r <= dval (qmag (a, b)).
Proof.
  intros H. unfold qmag. cbn [fst snd]. set (x := (Z.abs (fst a), snd a)). set (y := (Z.abs (fst b), snd b)).
  pose proof (q_max x y) as [M1 M2]. assert (EX : dval x = Rabs (dval a)) by (unfold x, dval; cbn [fst snd]; symmetry; apply fv_abs).
  assert (EY : dval y = Rabs (dval b)) by (unfold y, dval; cbn [fst snd]; symmetry; apply fv_abs).
  rewrite EX in M1. rewrite EY in M2. apply Rabs_le. pose proof (Rle_abs (dval b)). pose proof (Rle_abs (- dval a)). rewrite Rabs_Ropp in *. lra.
Qed.
Lemma up_dbl x a : up x = Some a -> forall r, r <= dval x -> r <= dval a /\ isdbl (dval a).
Proof. intros H r Hr. apply up_ok in H. destruct H. split; [lra|assumption]. Qed.
Lemma widen_real n i mag err most r d : dval (fst i) <= r <= dval (snd i) -> Rabs d <= dval err -> within (widen n i mag err most) (r + d).
Proof.
  intros H HD. unfold widen. destruct (_ <=? _)%Z; [|exact I]. destruct (up _); [|exact I]. apply hull_within.
  rewrite !q_add, q_opp. apply Rabs_le_inv in HD. lra.
Qed.
Definition isumx (q : list ends) : ends := fold_right (fun i r => (qadd (fst i) (fst r), qadd (snd i) (snd r))) ((0, 0), (0, 0))%Z q.
Definition iprodx (q : list ends) : ends := fold_right qmuls ((1, 0), (1, 0))%Z q.
Definition rsm (l : list R) : R := fold_right Rplus 0 l.
Definition rpr (l : list R) : R := fold_right Rmult 1 l.
Definition ins (i : ends) (r : R) : Prop := dval (fst i) <= r <= dval (snd i).
Lemma dval_1 : dval (1, 0)%Z = 1. Proof. unfold dval, fv, F2R. cbn. lra. Qed.
Lemma dval_0 : dval (0, 0)%Z = 0. Proof. apply fv_zero. Qed.
Lemma sumx_in q l : Forall2 ins q l -> ins (isumx q) (rsm l).
Proof.
  induction 1 as [|i r q l H _ IH]; cbn; unfold ins in *; cbn [fst snd].
  - rewrite dval_0. lra.
  - rewrite !q_add. fold (isumx q). fold (rsm l). lra.
Qed.
Lemma prodx_in q l : Forall2 ins q l -> ins (iprodx q) (rpr l).
Proof.
  induction 1 as [|i r q l H _ IH]; cbn; unfold ins in *.
  - cbn [fst snd]. rewrite dval_1. lra.
  - fold (iprodx q). fold (rpr l). destruct i as [a b], (iprodx q) as [c d]. cbn [qmuls fst snd] in *. now apply imul_hull.
Qed.
Lemma inB_list q l : Forall2 inB (map Some q) l -> fins l /\ Forall2 ins q (map B2R l).
Proof.
  revert l. induction q as [|[a b] q IH]; intros l H; cbn in H; inversion H as [|? ? ? ? H1 H2]; subst; [split; constructor|].
  destruct (IH _ H2) as [I1 I2]. destruct H1 as [F V]. split; constructor; auto.
Qed.
Lemma summag q l : Forall2 ins q (map B2R l) -> asum l <= dval (fold_right (fun i r => qadd (qmag i) r) (0, 0)%Z q).
Proof.
  revert l. induction q as [|[a b] q IH]; intros l H; inversion H as [|? r ? l' H1 H2 E1 E2].
  - destruct l; [|discriminate]. cbn. rewrite dval_0. lra.
  - destruct l as [|y l]; [discriminate|]. cbn in E2. inversion E2; subst. cbn [fold_right asum]. rewrite q_add. fold (asum l).
    pose proof (IH l H2). pose proof (q_mag a b _ H1). unfold asum in *. cbn [fold_right]. lra.
Qed.
Lemma prodmag q l : Forall2 ins q (map B2R l) -> aprod l <= dval (fold_right (fun i r => qmul (qmax (1, 0)%Z (qmag i)) r) (1, 0)%Z q).
Proof.
  revert l. induction q as [|[a b] q IH]; intros l H; inversion H as [|? r ? l' H1 H2 E1 E2].
  - destruct l; [|discriminate]. cbn. rewrite dval_1. lra.
  - destruct l as [|y l]; [discriminate|]. cbn in E2. inversion E2; subst. cbn [fold_right aprod]. rewrite q_mul. 
    pose proof (IH l H2). pose proof (q_mag a b _ H1). pose proof (aprod_pos l) as [P _]. unfold aprod in *. cbn [fold_right].
    pose proof (q_max (1, 0)%Z (qmag (a, b))) as [M1 M2]. rewrite dval_1 in M1.
    apply Rmult_le_compat; try lra; [pose proof (Rmax_l 1 (Rabs (B2R y))); lra|]. apply Rmax_lub; lra.
Qed.
Lemma dval_n n e : dval (Z.of_nat n, e) = INR n * bpow radix2 e.
Proof. unfold dval, fv, F2R. cbn [fst snd Fnum Fexp]. now rewrite <- INR_IZR_INZ. Qed.
Lemma uro2 : bpow radix2 (-51) = 2 * uro. Proof. unfold uro. change (-51)%Z with (1 + -52)%Z. rewrite bpow_plus. reflexivity. Qed.
Lemma uro4 : bpow radix2 (-50) = 4 * uro. Proof. unfold uro. change (-50)%Z with (2 + -52)%Z. rewrite bpow_plus. reflexivity. Qed.
Lemma rsm_sum l : rsm (map B2R l) = rsum l. Proof. unfold rsm, rsum. induction l; cbn; congruence. Qed.
Lemma rpr_prod l : rpr (map B2R l) = rprod l. Proof. unfold rpr, rprod. induction l; cbn; congruence. Qed.
Lemma widen_in n i mag err most r y : ins i r ->
  (forall B, isdbl B -> dval mag + dval err <= B -> (Z.of_nat n <= most)%Z -> is_finite y = true /\ Rabs (B2R y - r) <= dval err) ->
  inB (widen n i mag err most) y.
Proof.
  intros HI H. unfold widen. destruct (Z.leb_spec (Z.of_nat n) most) as [Q|]; [|exact I]. destruct (up _) as [b|] eqn:U; [|exact I].
  destruct (up_dbl _ _ U (dval mag + dval err)) as [U1 U2]; [rewrite q_add; lra|]. destruct (H _ U2 U1 Q) as [F V].
  assert (W : within (hull (qadd (fst i) (qopp err)) (qadd (snd i) err)) (B2R y)).
  { apply hull_within. rewrite !q_add, q_opp. apply Rabs_le_inv in V. unfold ins in HI. lra. }
  unfold inB. destruct (hull _ _); [split; assumption|exact I].
Qed.
Lemma INR_most n (k : Z) : (Z.of_nat n <= 2 ^ k)%Z -> (0 <= k)%Z -> INR n <= bpow radix2 k.
Proof.
  intros H K. rewrite INR_IZR_INZ, <- (IZR_Zpower radix2 k K). apply IZR_le. exact H.
Qed.
Lemma i_sum l q y : reduce (@Bplus _ _ Hprec64 Hmax64 md) (B754_zero false) l y -> Forall2 inB q l -> inB (isum q) y.
Proof.
  intros HR HF. unfold isum. destruct (alls q) as [qs|] eqn:A; [|exact I]. apply alls_some in A. subst q.
  destruct (inB_list qs l HF) as [FL HI]. set (n := Nat.pred (length qs)). set (mag := fold_right _ (0, 0)%Z qs). fold (isumx qs).
  assert (EN : pd l = INR n). { unfold pd, n. do 2 f_equal. pose proof (F2_len _ _ _ HI) as E. rewrite map_length in E. symmetry. exact E. }
  assert (EE : dval (qmul (Z.of_nat n, (-51)%Z) mag) = 2 * uro * INR n * dval mag) by (rewrite q_mul, dval_n, uro2; ring).
  pose proof (summag qs l HI) as HM. fold mag in HM. pose proof (asum_pos l) as [AP _]. pose proof uro_pos as UP. pose proof (pos_INR n) as NP.
  apply widen_in with (r := rsum l); [rewrite <- rsm_sum; now apply sumx_in|]. rewrite EE. intros B HB HU HN.
  destruct (sum_err md l y HR FL) with (B := B) as [F [V _]].
  - rewrite EN, <- uro2. pose proof (INR_most n 51 HN ltac:(lia)). pose proof (bpow_gt_0 radix2 (-51)).
    apply Rle_trans with (bpow radix2 (-51) * bpow radix2 51); [apply Rmult_le_compat_l; lra|]. rewrite <- bpow_plus. cbn. lra.
  - exact HB.
  - rewrite EN. eapply Rle_trans; [|exact HU]. assert (K : 0 <= 2 * uro * INR n) by (repeat apply Rmult_le_pos; lra). set (k := 2 * uro * INR n) in *. nra.
  - split; [exact F|]. eapply Rle_trans; [exact V|]. rewrite EN. apply Rmult_le_compat_l; [|exact HM]. repeat apply Rmult_le_pos; lra.
Qed.
Lemma i_prod l q y : reduce (@Bmult _ _ Hprec64 Hmax64 md) (ofdy md 1 0) l y -> Forall2 inB q l -> inB (iprod q) y.
Proof.
  intros HR HF. unfold iprod. destruct (alls q) as [qs|] eqn:A; [|exact I]. apply alls_some in A. subst q.
  destruct (inB_list qs l HF) as [FL HI]. set (n := Nat.pred (length qs)). set (mag := fold_right _ (1, 0)%Z qs). fold (iprodx qs).
  assert (EN : pd l = INR n). { unfold pd, n. do 2 f_equal. pose proof (F2_len _ _ _ HI) as E. rewrite map_length in E. symmetry. exact E. }
  assert (EE : dval (qmul (Z.of_nat n, (-50)%Z) mag) = 4 * uro * INR n * dval mag) by (rewrite q_mul, dval_n, uro4; ring).
  pose proof (prodmag qs l HI) as HM. fold mag in HM. pose proof (aprod_pos l) as [AP _]. pose proof uro_pos as UP. pose proof (pos_INR n) as NP.
  apply widen_in with (r := rprod l); [rewrite <- rpr_prod; now apply prodx_in|]. rewrite EE. intros B HB HU HN.
  destruct (prod_err md l y HR FL) with (B := B) as [F [V _]].
  - rewrite EN, <- uro4. pose proof (INR_most n 23 HN ltac:(lia)). pose proof (bpow_gt_0 radix2 (-50)).
    apply Rle_trans with (bpow radix2 (-50) * (bpow radix2 23 * bpow radix2 23)).
    { apply Rmult_le_compat_l; [lra|]. apply Rmult_le_compat; lra. }
    rewrite <- !bpow_plus. cbn. lra.
  - exact HB.
  - rewrite EN. eapply Rle_trans; [|exact HU]. assert (K : 0 <= 4 * uro * INR n) by (repeat apply Rmult_le_pos; lra). set (k := 4 * uro * INR n) in *. nra.
  - split; [exact F|]. eapply Rle_trans; [exact V|]. rewrite EN. apply Rmult_le_compat_l; [|exact HM]. repeat apply Rmult_le_pos; lra.
Qed.
Lemma i_Z z : inB (hull (z, 0%Z) (z, 0%Z)) (ofdy md z 0).
Proof.
  apply (hull_round md _ _ (fv z 0)); [unfold dval; cbn [fst snd]; lra|]. intros H.
  pose proof (binary_normalize_correct _ _ Hprec64 Hmax64 md z 0 false) as C. cbv zeta in C. change (F2R (Float radix2 z 0)) with (fv z 0) in C.
  rewrite H in C. unfold ofdy. tauto.
Qed.
Lemma div_none b a c d : ((0 <? fst c)%Z || (fst d <? 0)%Z)%bool = false -> imul b (idiv a (Some (c, d))) = None.
Proof. intros Q. destruct b as [[? ?]|], a as [[? ?]|]; cbn [imul idiv ilift]; auto. now rewrite Q. Qed.
Lemma mul_none b a : imul b (idiv a None) = None.
Proof. destruct b as [[? ?]|], a as [[? ?]|]; reflexivity. Qed.
Lemma nz_in c d r : ((0 <? fst c)%Z || (fst d <? 0)%Z)%bool = true -> dval c <= r <= dval d -> r <> 0.
Proof.
  rewrite orb_true_iff, !Z.ltb_lt. intros [P|P] H; [apply dval_pos in P|apply dval_neg in P]; lra.
Qed.
Lemma exact_in m e (y : b64) : exactB (Some (m, e)) y -> inB (Some ((m, e), (m, e))) y.
Proof. intros [F V]. cbn. rewrite V. split; [exact F|lra]. Qed.
Lemma ib_fun E f : enclB E f -> forall x x', inB x x' -> inB (ifun E x) (f x').
Proof. intros H [i|] x' HX; [now apply H|exact I]. Qed.
Lemma prelIB F L : redok md L -> soundB F md L -> @prel (Ival F) (B64 md L) inB.
Proof.
  intros RO [S1 [S2 [S3 [S4 [S5 [S6 [S7 [S8 [S9 [S10 [S11 [S12 [S13 S14]]]]]]]]]]]]].
  constructor; try (apply ib_fun; assumption).
  - exact (exact_in 0 0 _ (pr_0 _ (prelB md L RO))).
  - exact (exact_in 1 0 _ (b_Z md 1 0)).
  - exact (exact_in 1 (-1) _ (b_Z md 1 (-1))).
  - exact S14.
  - exact i_Z.
  - exact i_add. - exact i_sub. - exact i_mul. - exact i_div. - exact i_opp.
  - exact i_sqrt.
  - intros l l' H. exact (i_sum l' l _ (proj1 (RO l')) H).
  - intros l l' H. exact (i_prod l' l _ (proj2 (RO l')) H).
  - intros x x' z. exact (ib_fun _ _ (S13 z) x x').
  - intros [[c d]|] x' HX.
    + destruct ((0 <? fst c)%Z || (fst d <? 0)%Z)%bool eqn:Q.
      * left. destruct HX as [HF HV]. cbn [within] in HV. cbn [neqb Ival B64 n0].
        rewrite (Beqb_correct _ _ x' (B754_zero false) HF eq_refl). symmetry. apply Req_bool_false. cbn [B2R]. eapply nz_in; eauto.
      * right. split; [reflexivity|]. intros a b y. cbn [nmul ndiv Ival]. rewrite div_none by exact Q. exact I.
    + right. split; [reflexivity|]. intros a b y. cbn [nmul ndiv Ival]. rewrite mul_none. exact I.
Qed.
End B.

(** ** Intervals and reals *)
Definition inX (i : iv) (y : xr) : Prop := match i with Some _ => exists r, y = Fin r /\ within i r | None => True end.
Lemma inX_fin i r : within i r -> inX i (Fin r).
Proof. destruct i; cbn; eauto. Qed.
Lemma inX_hull x y r : dval x <= r <= dval y -> inX (hull x y) (Fin r).
Proof. intros H. apply inX_fin. now apply hull_within. Qed.
Lemma x_fun E (p : R -> Prop) (f : xr -> xr) g : enclR E p g -> (forall r, p r -> f (Fin r) = Fin (g r)) ->
  forall i y, inX i y -> inX (ifun E i) (f y).
Proof.
  intros H Q [i|] y HX; [|exact I]. destruct HX as [r [-> HR]]. cbn [ifun]. destruct (E i) as [o|] eqn:K; [|exact I].
  destruct (H i r HR) as [P V]; [now rewrite K|]. rewrite (Q r P). apply inX_fin. now rewrite <- K.
Qed.
Lemma reqb_ne r : r <> 0 -> reqb r 0 = false.
Proof. intros H. unfold reqb. destruct (Req_EM_T r 0); [contradiction|reflexivity]. Qed.
Lemma rleb_t a b : a <= b -> rleb a b = true.
Proof. intros H. unfold rleb. destruct (Rle_dec a b); [reflexivity|contradiction]. Qed.
Lemma rltb_t a b : a < b -> rltb a b = true.
Proof. intros H. unfold rltb. destruct (Rlt_dec a b); [reflexivity|contradiction]. Qed.
Lemma inX_list q l : Forall2 inX (map Some q) l -> exists r, l = map Fin r /\ Forall2 ins q r.
Proof.
  revert l. induction q as [|[a b] q IH]; intros l H; cbn in H; inversion H as [|? ? ? ? H1 H2]; subst; [now exists []|].
  destruct (IH _ H2) as [r [-> HI]]. destruct H1 as [z [-> V]]. exists (z :: r). split; [reflexivity|]. constructor; auto.
Qed.
Lemma widen_0 n i mag err most r : ins i r -> 0 <= dval err -> inX (widen n i mag err most) (Fin r).
Proof.
  intros H HE. apply inX_fin. replace r with (r + 0) by ring. apply widen_real; [exact H|]. now rewrite Rabs_R0.
Qed.
Lemma qmag_pos i : 0 <= dval (qmag i).
Proof.
  unfold qmag. destruct i as [a b]. cbn [fst snd]. pose proof (q_max (Z.abs (fst a), snd a) (Z.abs (fst b), snd b)) as [M _].
  eapply Rle_trans; [|exact M]. unfold dval. cbn [fst snd]. rewrite <- fv_abs. apply Rabs_pos.
Qed.
Lemma xr_sum l l' : Forall2 inX l l' -> inX (isum l) (xsum l').
Proof.
  intros H. unfold isum. destruct (alls l) as [q|] eqn:A; [|exact I]. apply alls_some in A. subst l.
  destruct (inX_list _ _ H) as [r [-> HI]]. unfold xsum. rewrite xsum_acc, Rplus_0_l. apply widen_0; [exact (sumx_in _ _ HI)|].
  rewrite q_mul, dval_n. apply Rmult_le_pos; [apply Rmult_le_pos; [apply pos_INR|apply bpow_ge_0]|].
  clear. induction q; cbn [fold_right]; [rewrite dval_0; lra|]. rewrite q_add. pose proof (qmag_pos a). lra.
Qed.
Lemma xr_prod l l' : Forall2 inX l l' -> inX (iprod l) (xprod l').
Proof.
  intros H. unfold iprod. destruct (alls l) as [q|] eqn:A; [|exact I]. apply alls_some in A. subst l.
  destruct (inX_list _ _ H) as [r [-> HI]]. unfold xprod. rewrite xprod_acc, Rmult_1_l. apply widen_0; [exact (prodx_in _ _ HI)|].
  rewrite q_mul, dval_n. apply Rmult_le_pos; [apply Rmult_le_pos; [apply pos_INR|apply bpow_ge_0]|].
  clear. induction q; cbn [fold_right]; [rewrite dval_1; lra|]. rewrite q_mul. pose proof (q_max (1, 0)%Z (qmag a)) as [M _]. rewrite dval_1 in M.
  apply Rmult_le_pos; lra.
Qed.
Lemma prelIR F la : soundR F -> @prel (Ival F) (XR la) inX.
Proof.
  intros [S1 [S2 [S3 [S4 [S5 [S6 [S7 [S8 [S9 [S10 [S11 [S12 [S13 S14]]]]]]]]]]]]].
  constructor.
  - apply (inX_fin (Some _)). cbn. unfold dval. cbn [fst snd]. rewrite fv_zero. lra.
  - apply (inX_fin (Some _)). cbn. unfold dval, fv, F2R. cbn. lra.
  - apply (inX_fin (Some _)). cbn. unfold dval, fv, F2R. cbn. lra.
  - apply inX_fin. exact S14.
  - intros z. apply inX_hull. unfold dval, fv, F2R. cbn. lra.
  - intros [[a b]|] y x' y' H1 H2; [|exact I]. destruct y as [[c d]|]; [|exact I].
    destruct H1 as [r1 [-> V1]], H2 as [r2 [-> V2]]. cbn [within] in V1, V2. apply inX_hull. rewrite !q_add. lra.
  - intros [[a b]|] y x' y' H1 H2; [|exact I]. destruct y as [[c d]|]; [|exact I].
    destruct H1 as [r1 [-> V1]], H2 as [r2 [-> V2]]. cbn [within] in V1, V2. apply inX_hull. rewrite !q_add, !q_opp. lra.
  - intros [[a b]|] y x' y' H1 H2; [|exact I]. destruct y as [[c d]|]; [|exact I].
    destruct H1 as [r1 [-> V1]], H2 as [r2 [-> V2]]. cbn [within] in V1, V2. apply inX_hull. now apply imul_hull.
  - intros [[a b]|] y x' y' H1 H2; [|exact I]. destruct y as [[c d]|]; [|exact I].
    destruct H1 as [r1 [-> V1]], H2 as [r2 [-> V2]]. cbn [within] in V1, V2. cbn [ndiv Ival idiv ilift XR xdiv].
    destruct (_ || _) eqn:Q; [|exact I]. rewrite (reqb_ne _ (nz_in _ _ _ Q V2)). rewrite orb_true_iff, !Z.ltb_lt in Q.
    apply inX_hull. now apply (div_hull a b c d).
  - intros [[a b]|] x' H1; [|exact I]. destruct H1 as [r1 [-> V1]]. cbn [within] in V1. cbn [nopp Ival iopp XR xopp].
    apply inX_fin. cbn [within]. rewrite !q_opp. lra.
  - apply (x_fun _ _ _ sin S1). reflexivity.
  - apply (x_fun _ _ _ cos S2). reflexivity.
  - apply (x_fun _ _ _ tan S3). intros r H. cbn. now rewrite reqb_ne.
  - apply (x_fun _ _ _ asin S4). intros r [P Q]. cbn. unfold in11. now rewrite !rleb_t.
  - apply (x_fun _ _ _ acos S5). intros r [P Q]. cbn. unfold in11. now rewrite !rleb_t.
  - apply (x_fun _ _ _ atan S6). reflexivity.
  - apply (x_fun _ _ _ exp S7). reflexivity.
  - apply (x_fun _ _ _ ln S8). intros r P. cbn. rewrite reqb_ne by lra. now rewrite rltb_t.
  - intros [[a b]|] x' H1; [|exact I]. destruct H1 as [r1 [-> V1]]. cbn [within] in V1. cbn [nsqrt Ival isqrt XR xfun].
    destruct (Z.leb_spec 0 (fst a)) as [P|]; [|exact I]. destruct (isqrt_hull a b r1 P V1) as [PR HQ]. rewrite rleb_t by exact PR. now apply inX_hull.
  - apply (x_fun _ _ _ erf S9). reflexivity.
  - apply (x_fun _ _ _ sinh S10). reflexivity.
  - apply (x_fun _ _ _ cosh S11). reflexivity.
  - apply (x_fun _ _ _ tanh S12). reflexivity.
  - exact xr_sum.
  - exact xr_prod.
  - intros x x' z. apply (x_fun _ _ (fun y => npow (XR la) y z) (fun r => powerRZ r z) (S13 z)). intros r P. cbn [npow XR]. unfold xpow.
    destruct (Z.eqb_spec z 0) as [->|]; [reflexivity|]. destruct P as [P|P]; [now rewrite reqb_ne|].
    replace (z <? 0)%Z with false by (symmetry; apply Z.ltb_ge; exact P). now rewrite andb_false_r.
  - intros [[c d]|] x' HX.
    + destruct ((0 <? fst c)%Z || (fst d <? 0)%Z)%bool eqn:Q.
      * left. destruct HX as [r [-> V]]. cbn [within] in V. cbn [neqb Ival XR n0 xeqb]. symmetry. apply reqb_ne. eapply nz_in; eauto.
      * right. split; [reflexivity|]. intros a b y. cbn [nmul ndiv Ival]. rewrite div_none by exact Q. exact I.
    + right. split; [reflexivity|]. intros a b y. cbn [nmul ndiv Ival]. rewrite mul_none. exact I.
Qed.
Lemma Ival_len F : la_len (Ival F). Proof. intros n X. cbn. rewrite !repeat_length. auto. Qed.

(** ** Programs *)
Lemma cfin_fin {C A} (g : C -> R) (u : expr C A) : cfin (cmap (fun c => Fin (g c)) u).
Proof.
  induction u using expr_ind'; cbn [cmap cfin]; auto.
  - clear. induction c; cbn; constructor; auto. now eexists.
  - induction H; cbn; auto.
  - induction H; cbn; auto.
Qed.
Section Run.
Variables (F : encl) (md : mode) (L : libm).
Hypothesis RO : redok md L.
Hypothesis SB : soundB F md L.
Hypothesis SR : soundR F.
Hypothesis LL : la_len (B64 md L).
Context {C : Type}.
Variables (fi : C -> iv) (fb : C -> b64) (fr : C -> R).
Hypothesis CB : forall c, inB (fi c) (fb c).
Hypothesis CR : forall c, within (fi c) (fr c).
Variable u : expr C unit.
Hypothesis HA : arithx u = true.
Hypothesis HW : wfs u = true.
Hypothesis HD : disc u = true.
Notation NI := (Ival F).
Notation NB := (B64 md L).
Notation uR := (cmap (fun c => Fin (fr c)) u).

Lemma iv_real bv ba x w D rho al si sr : @used NI bv ba (cmap fi u) x w -> mholds u w D rho al ->
  length sr = size (shape_of u) -> Forall2 within si sr ->
  dom D true false uR rho -> (forall o, In o (writes u) -> al o = 0) ->
  exists x1 w1 v, @autodiff NI x si w = Ok (x1, w1, v) /\
    Forall2 inX v (map Fin (val D uR rho)) /\
    forall o, In o (refs u) -> ~ In o (eqw u) -> exists g, partials D uR rho o g /\
      crel inX (w1 1%nat o) (Some (Fin (al o + dotp sr g))).
Proof.
  intros U1 HM HL HS HDM HZ. set (la := exact_la).
  assert (AU : arithx (uR : expr (XR la) unit) = true) by (rewrite <- HA; apply arithx_cmap).
  assert (OK : okexpr la uR).
  { split; [rewrite <- HW; apply wfs_cmap|]. split; [rewrite <- HD; apply disc_cmap|]. apply cfin_fin. }
  assert (RF : forall o, In o (refs u) -> In o (refs uR)) by (intros o; rewrite refs_cmap; auto).
  assert (DF : forall o, In o (drefs u) -> In o (drefs uR)) by (intros o; rewrite drefs_cmap; auto).
  assert (WF : forall o, In o (writes uR) -> In o (writes u)) by (intros o; rewrite writes_cmap; auto).
  assert (EF : forall o, In o (eqw uR) -> In o (eqw u)) by (intros o; rewrite eqw_cmap; auto).
  assert (SF : shape_of uR = shape_of u) by apply shape_of_cmap.
  destruct (session_start la exact_la_ok 2 3 uR D rho al) as [eR [mR [S1 S2]]];
    [cbv; intuition discriminate|exact OK|now apply ctor_arith|].
  assert (UX : @used (XR la) 2 3 uR eR mR).
  { destruct S1 as [m0 [uv [ua [e0 [m1 [ops [Q1 [Q2 [Q3 [Q4 [Q5 _]]]]]]]]]]]. exists m0, uv, ua, e0, m1, ops. auto 10. }
  assert (CX : forall c r a, holds c r -> a = Some (Fin r) -> crel inX c a).
  { intros c r a [i [-> E]] ->. exists i, (Fin r). split; [reflexivity|]. split; [reflexivity|now apply inX_fin]. }
  assert (MX : mrel inX u w mR).
  { destruct HM as [HM1 HM2], S2 as [S2 S3]. split.
    - intros o Ho. destruct (HM1 o Ho), (S2 o (RF o Ho)). split; eapply CX; eauto.
    - intros o Ho. eapply CX; [now apply HM2|]. exact (S3 o (DF o Ho)). }
  assert (SX : Forall2 inX si (map Fin sr)).
  { clear -HS. induction HS as [|x y l l' HX HS IH]; cbn; constructor; auto. now apply inX_fin. }
  destruct (par_diff (Ival_len F) (la_ok_len la exact_la_ok) inX (prelIR F la SR) fi (fun c => Fin (fr c))
    (fun c => inX_fin _ _ (CR c))
    bv ba 2%nat 3%nat u HA HW HD x eR w mR si (map Fin sr) U1 UX MX (eq_trans (F2_len _ _ _ HS) HL) SX)
    as [x1 [w1 [v [e1 [m1 [y [R1 [R2 [R3 R4]]]]]]]]].
  destruct (grad_full la exact_la_ok 2 3 uR D eR mR rho al false sr OK S1 S2 HDM)
    as [e2 [m2 [al' [G1 [G2 [G3 [G4 [G5 [G6 [G7 G8]]]]]]]]]].
  { change (length sr = size (shape_of uR)). now rewrite SF. }
  { discriminate. }
  { intros o Ho. apply HZ. now apply WF. }
  change (carrier (XR la)) with xr in *. rewrite G1 in R2. inversion R2; subst e1 m1 y. exists x1, w1, v. split; [exact R1|]. split; [exact R3|].
  intros o Ho Hn. destruct (G8 o (RF o Ho) (fun H => Hn (EF o H))) as [g [P1 P2]].
  exists g. split; [exact P1|]. destruct (R4 o Ho) as [R5 _]. rewrite (G3 o (RF o Ho)) in R5. now rewrite <- P2.
Qed.

Lemma iv_grad bv ba bv' ba' x w e m D rho al si s sr : @used NI bv ba (cmap fi u) x w -> @used NB bv' ba' (cmap fb u) e m ->
  mrel inB u w m -> mholds u w D rho al ->
  length s = size (shape_of u) -> Forall2 inB si s -> Forall2 within si sr ->
  dom D true false uR rho -> (forall o, In o (writes u) -> al o = 0) ->
  exists x1 w1 v e1 m1 y, @autodiff NI x si w = Ok (x1, w1, v) /\ @autodiff NB e s m = Ok (e1, m1, y) /\
    (forall k a b, nth_error v k = Some (Some (a, b)) ->
       exists q, nth_error y k = Some q /\ both a b q (el (val D uR rho) k)) /\
    forall o, In o (refs u) -> ~ In o (eqw u) -> exists g, partials D uR rho o g /\
      forall a b, w1 1%nat o = Some (Some (a, b)) ->
      exists q, m1 1%nat o = Some q /\ both a b q (al o + dotp sr g).
Proof.
  intros U1 U2 HM HH HL HS HSR HDM HZ.
  assert (HLR : length sr = size (shape_of u)) by (rewrite <- HL, <- (F2_len _ _ _ HS); symmetry; eapply F2_len; eauto).
  destruct (par_diff (Ival_len F) LL inB (prelIB md F L RO SB) fi fb CB bv ba bv' ba' u HA HW HD
    x e w m si s U1 U2 HM (eq_trans (F2_len _ _ _ HS) HL) HS) as [x1 [w1 [v [e1 [m1 [y [E1 [E2 [E3 E4]]]]]]]]].
  destruct (iv_real _ _ _ _ _ _ _ _ _ U1 HH HLR HSR HDM HZ) as [x2 [w2 [v2 [R1 [R2 R3]]]]].
  rewrite E1 in R1. inversion R1; subst x2 w2 v2. exists x1, w1, v, e1, m1, y. split; [exact E1|]. split; [exact E2|]. split.
  - intros k a b K. clear -E3 R2 K. revert R2 k K. generalize (val D uR rho). induction E3 as [|i q l l' HAB H IH]; intros r R2 k K.
    + destruct k; discriminate.
    + destruct r as [|z r]; [inversion R2|]. cbn in R2. inversion R2; subst. destruct k as [|k]; cbn in K.
      * inversion K; subst. exists q. split; [reflexivity|]. destruct HAB as [B1 B2]. split; [exact B1|]. split; [exact B2|].
        cbn. destruct H3 as [z' [Z1 Z2]]. inversion Z1; subst z'. exact Z2.
      * cbn. apply (IH r H5 k K).
  - intros o Ho Hn. destruct (R3 o Ho Hn) as [g [P1 P2]]. exists g. split; [exact P1|]. intros a b K.
    destruct P2 as [i [q [Q1 [Q2 Q3]]]]. destruct (E4 o Ho) as [[i' [q' [Q4 [Q5 Q6]]]] _].
    rewrite K in Q1, Q4. inversion Q1; inversion Q4; inversion Q2; subst. exists q'. split; [exact Q5|]. destruct Q6 as [Q6 Q7].
    split; [exact Q6|]. split; [exact Q7|]. destruct Q3 as [z' [Z1 Z2]]. inversion Z1; subst z'. exact Z2.
Qed.
End Run.
Lemma both_near a b y r : both a b y r -> Rabs (B2R y - r) <= dval b - dval a.
Proof. intros [_ [H1 H2]]. apply Rabs_le. lra. Qed.
