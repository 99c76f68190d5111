(** Lemmas: checked dyadic operations and boxes against binary64 and the reals. *)
From Coq Require Import ZArith Reals Lra Lia List Bool Psatz Permutation.
From Flocq Require Import Core BinarySingleNaN.
From Verif Require Import Base Num Expr Node Ieee IeeeSpec LKind.
Set Bullet Behavior "Strict Subproofs".
Local Open Scope Z_scope.
Local Existing Instance Hprec64.
Local Existing Instance Hmax64.

Lemma fv_shift m e k : 0 <= k -> fv (m * 2 ^ k) (e - k) = fv m e.
Proof.
  intros H. unfold fv, F2R. cbn [Fnum Fexp]. rewrite mult_IZR. change 2 with (radix_val radix2) at 1. rewrite IZR_Zpower by exact H.
  unfold Zminus. rewrite bpow_plus, bpow_opp. field. apply Rgt_not_eq, bpow_gt_0.
Qed.
Lemma fv_opp m e : fv (- m) e = (- fv m e)%R.
Proof. unfold fv. apply F2R_Zopp. Qed.
Lemma fv_mul m1 e1 m2 e2 : (fv m1 e1 * fv m2 e2)%R = fv (m1 * m2) (e1 + e2).
Proof. unfold fv, F2R. cbn [Fnum Fexp]. rewrite mult_IZR, bpow_plus. ring. Qed.
Lemma fv_add m1 e1 m2 e2 e : e <= e1 -> e <= e2 -> (fv m1 e1 + fv m2 e2)%R = fv (m1 * 2 ^ (e1 - e) + m2 * 2 ^ (e2 - e)) e.
Proof.
  intros H1 H2. rewrite <- (fv_shift m1 e1 (e1 - e)), <- (fv_shift m2 e2 (e2 - e)) by lia.
  replace (e1 - (e1 - e)) with e by lia. replace (e2 - (e2 - e)) with e by lia.
  unfold fv, F2R. cbn [Fnum Fexp]. rewrite plus_IZR. ring.
Qed.
Lemma fv_zero e : fv 0 e = 0%R. Proof. unfold fv. apply F2R_0. Qed.
Lemma fv_abs m e : Rabs (fv m e) = fv (Z.abs m) e.
Proof. unfold fv. now rewrite F2R_Zabs. Qed.

Lemma fv_le m n e : m <= n <-> (fv m e <= fv n e)%R.
Proof. split; [apply F2R_le|apply le_F2R]. Qed.
Lemma q_leb x y : qleb x y = true <-> (dval x <= dval y)%R.
Proof.
  destruct x as [m1 e1], y as [m2 e2]. unfold qleb, dval. cbn [fst snd]. rewrite Z.leb_le. set (e := Z.min e1 e2).
  rewrite <- (fv_shift m1 e1 (e1 - e)), <- (fv_shift m2 e2 (e2 - e)) by (unfold e; lia).
  replace (e1 - (e1 - e))%Z with e by lia. replace (e2 - (e2 - e))%Z with e by lia. apply fv_le.
Qed.
Lemma q_nle x y : qleb x y = false -> (dval y <= dval x)%R.
Proof. intros H. destruct (Rle_or_lt (dval x) (dval y)) as [Q|Q]; [apply q_leb in Q; congruence|lra]. Qed.

(** ** [strip] and [chk] *)
Lemma strip_spec p : forall e, let '(q, e1) := strip p e in
  exists k, 0 <= k /\ e1 = e + k /\ Zpos p = Zpos q * 2 ^ k /\ Z.odd (Zpos q) = true.
Proof.
  induction p as [p IH|p IH|]; intros e; cbn [strip].
  - exists 0. repeat split; try lia. 
  - specialize (IH (e + 1)). destruct (strip p (e + 1)) as [q e1]. destruct IH as [k [H1 [H2 [H3 H4]]]].
    exists (k + 1). repeat split; try lia; auto. rewrite Z.pow_add_r by lia. lia.
  - exists 0. repeat split; lia.
Qed.
Lemma strip_val p e : let '(q, e1) := strip p e in fv (Zpos q) e1 = fv (Zpos p) e /\ e <= e1 /\ Zpos q <= Zpos p /\ Z.odd (Zpos q) = true /\
  Z.log2 (Zpos q) + e1 = Z.log2 (Zpos p) + e.
Proof.
  pose proof (strip_spec p e) as H. destruct (strip p e) as [q e1]. destruct H as [k [H1 [H2 [H3 H4]]]].
  assert (P : 0 < 2 ^ k) by (apply Z.pow_pos_nonneg; lia).
  split; [|split; [lia|split; [nia|split; [exact H4|]]]].
  - rewrite H3. rewrite <- (fv_shift (Zpos q) e1 k H1). f_equal. lia.
  - rewrite H3, Z.log2_mul_pow2 by lia. lia.
Qed.
Lemma chk_val m e z : chk m e = Some z -> dval z = fv m e /\ Z.abs (fst z) < 2 ^ 53 /\ -1074 <= snd z /\ 
  (fst z <> 0 -> Z.log2 (Z.abs (fst z)) + 1 + snd z <= 1024).
Proof.
  assert (Q : forall p, let '(q, e1) := strip p e in fits q e1 = true -> fv (Zpos q) e1 = fv (Zpos p) e /\ Zpos q < 2 ^ 53 /\ -1074 <= e1 /\
    Z.log2 (Zpos q) + 1 + e1 <= 1024).
  { intros p. pose proof (strip_val p e) as H. destruct (strip p e) as [q e1]. intros HF. unfold fits in HF.
    rewrite !andb_true_iff, Z.ltb_lt, !Z.leb_le in HF. tauto. }
  unfold chk. destruct m as [|p|p].
  - intros H. inversion H. cbn [fst snd]. split; [change (fv 0 0 = fv 0 e); now rewrite !fv_zero|]. split; [reflexivity|]. split; [discriminate|]. now intros [].
  - specialize (Q p). destruct (strip p e) as [q e1]. destruct (fits q e1); [|discriminate]. destruct (Q eq_refl) as [Q1 Q2].
    intros H. inversion H. cbn [fst snd]. unfold dval. cbn [fst snd]. split; [exact Q1|]. cbn [Z.abs]. tauto.
  - specialize (Q p). destruct (strip p e) as [q e1]. destruct (fits q e1); [|discriminate]. destruct (Q eq_refl) as [Q1 Q2].
    intros H. inversion H. cbn [fst snd]. unfold dval. cbn [fst snd]. split; [|cbn [Z.abs]; tauto].
    change (fv (- Zpos q) e1 = fv (- Zpos p) e). now rewrite !fv_opp, Q1.
Qed.
Lemma chk_format m e z : chk m e = Some z -> generic_format radix2 (SpecFloat.fexp prec64 emax64) (fv m e) /\
  (Rabs (fv m e) < bpow radix2 emax64)%R.
Proof.
  intros H. destruct (chk_val m e z H) as [V [A1 [A2 A3]]]. rewrite <- V. destruct z as [q k]. unfold dval, fv. cbn [fst snd] in *. split.
  - apply (generic_format_FLT radix2 (-1074) 53). exists (Float radix2 q k); [reflexivity|exact A1|exact A2].
  - destruct (Z.eq_dec q 0) as [->|NZ]; [rewrite F2R_0, Rabs_R0; apply bpow_gt_0|].
    rewrite <- F2R_Zabs. apply Rlt_le_trans with (bpow radix2 (Z.log2 (Z.abs q) + 1 + k)); [|apply bpow_le; auto].
    unfold F2R. cbn [Fnum Fexp]. rewrite bpow_plus. apply Rmult_lt_compat_r; [apply bpow_gt_0|].
    rewrite <- IZR_Zpower by (pose proof (Z.log2_nonneg (Z.abs q)); lia). apply IZR_lt.
    change (radix_val radix2) with 2. rewrite Z.add_1_r. apply Z.log2_spec. lia.
Qed.

(** ** dyadic numbers and doubles *)
Lemma rnd_exact md m e z : chk m e = Some z -> round radix2 (SpecFloat.fexp prec64 emax64) (round_mode md) (fv m e) = fv m e /\
  Rlt_bool (Rabs (round radix2 (SpecFloat.fexp prec64 emax64) (round_mode md) (fv m e))) (bpow radix2 emax64) = true.
Proof.
  intros H. destruct (chk_format m e z H) as [F1 F2]. rewrite round_generic; auto with typeclass_instances. split; [reflexivity|]. now apply Rlt_bool_true.
Qed.
Section Md.
Variable md : mode.
Lemma b_add x y x' y' : exactB x x' -> exactB y y' -> exactB (dadd x y) (Bplus md x' y').
Proof.
  destruct x as [[m1 e1]|], y as [[m2 e2]|]; cbn [dadd dlift exactB]; auto. intros [F1 V1] [F2 V2].
  destruct (chk _ _) as [z|] eqn:K; cbn [exactB]; auto.
  assert (E : (B2R x' + B2R y')%R = fv (m1 * 2 ^ (e1 - Z.min e1 e2) + m2 * 2 ^ (e2 - Z.min e1 e2)) (Z.min e1 e2)).
  { rewrite V1, V2. apply (fv_add m1 e1 m2 e2 (Z.min e1 e2)); lia. }
  destruct (rnd_exact md _ _ _ K) as [Q1 Q2]. pose proof (Bplus_correct _ _ Hprec64 Hmax64 md x' y' F1 F2) as C.
  rewrite E, Q1 in C. rewrite Q1 in Q2. rewrite Q2 in C. destruct C as [C1 [C2 _]]. split; [exact C2|]. rewrite C1. symmetry. now apply chk_val.
Qed.
Lemma b_opp x x' : exactB x x' -> exactB (dopp x) (Bopp x').
Proof.
  destruct x as [[m1 e1]|]; cbn [dopp exactB]; auto. intros [F1 V1]. destruct (chk _ _) as [z|] eqn:K; cbn [exactB]; auto.
  rewrite is_finite_Bopp, B2R_Bopp. split; [exact F1|]. rewrite V1. destruct (chk_val _ _ _ K) as [-> _]. symmetry. apply fv_opp.
Qed.
Lemma dopp_some m e z : dopp (Some (m, e)) = Some z -> dval z = (- fv m e)%R.
Proof. cbn [dopp]. intros K. destruct (chk_val _ _ _ K) as [-> _]. apply fv_opp. Qed.
Lemma b_sub x y x' y' : exactB x x' -> exactB y y' -> exactB (dsub x y) (Bminus md x' y').
Proof.
  unfold dsub. destruct x as [[m1 e1]|]; [|cbn; auto]. destruct y as [[m2 e2]|]; [|cbn; auto].
  intros [F1 V1] [F2 V2]. destruct (dopp (Some (m2, e2))) as [[m3 e3]|] eqn:O; [|cbn; auto].
  pose proof (dopp_some _ _ _ O) as VO. cbn [dadd dlift].
  destruct (chk _ _) as [z|] eqn:K; cbn [exactB]; auto.
  assert (E : (B2R x' - B2R y')%R = fv (m1 * 2 ^ (e1 - Z.min e1 e3) + m3 * 2 ^ (e3 - Z.min e1 e3)) (Z.min e1 e3)).
  { rewrite <- (fv_add m1 e1 m3 e3 (Z.min e1 e3)) by lia. rewrite V1, V2. unfold Rminus. f_equal. symmetry. exact VO. }
  destruct (rnd_exact md _ _ _ K) as [Q1 Q2]. pose proof (Bminus_correct _ _ Hprec64 Hmax64 md x' y' F1 F2) as C.
  rewrite E, Q1 in C. rewrite Q1 in Q2. rewrite Q2 in C. destruct C as [C1 [C2 _]]. split; [exact C2|]. rewrite C1. symmetry. now apply chk_val.
Qed.
Lemma b_mul x y x' y' : exactB x x' -> exactB y y' -> exactB (dmul x y) (Bmult md x' y').
Proof.
  destruct x as [[m1 e1]|], y as [[m2 e2]|]; cbn [dmul dlift exactB]; auto. intros [F1 V1] [F2 V2].
  destruct (chk _ _) as [z|] eqn:K; cbn [exactB]; auto.
  assert (E : (B2R x' * B2R y')%R = fv (m1 * m2) (e1 + e2)) by (rewrite V1, V2; apply fv_mul).
  destruct (rnd_exact md _ _ _ K) as [Q1 Q2]. pose proof (Bmult_correct _ _ Hprec64 Hmax64 md x' y') as C.
  rewrite E, Q1 in C. rewrite Q1 in Q2. rewrite Q2 in C. destruct C as [C1 [C2 _]]. rewrite F1, F2 in C2. split; [exact C2|]. rewrite C1. symmetry. now apply chk_val.
Qed.
Lemma fv_div m1 e1 m2 e2 : m2 <> 0 -> m1 mod m2 = 0 -> (fv m1 e1 / fv m2 e2)%R = fv (m1 / m2) (e1 - e2) /\ fv m2 e2 <> 0%R.
Proof.
  intros NZ MD. assert (P : fv m2 e2 <> 0%R).
  { unfold fv. intros H. apply eq_0_F2R in H. cbn in H. contradiction. }
  split; [|exact P]. apply Rmult_eq_reg_r with (fv m2 e2); [|exact P]. unfold Rdiv. rewrite Rmult_assoc, Rinv_l, Rmult_1_r by exact P.
  rewrite fv_mul. f_equal; [|lia]. rewrite Z.mul_comm. apply Z.div_exact; auto.
Qed.
Lemma b_div x y x' y' : exactB x x' -> exactB y y' -> exactB (ddiv x y) (Bdiv md x' y').
Proof.
  destruct x as [[m1 e1]|], y as [[m2 e2]|]; cbn [ddiv dlift exactB]; auto. intros [F1 V1] [F2 V2].
  destruct (Z.eqb_spec m2 0) as [|NZ]; [cbn; auto|]. destruct (Z.eqb_spec (m1 mod m2) 0) as [MD|]; [|cbn; auto].
  destruct (chk _ _) as [z|] eqn:K; cbn [exactB]; auto. destruct (fv_div m1 e1 m2 e2 NZ MD) as [E NZ'].
  destruct (rnd_exact md _ _ _ K) as [Q1 Q2].
  pose proof (Bdiv_correct _ _ Hprec64 Hmax64 md x' y' ltac:(rewrite V2; exact NZ')) as C.
  rewrite V1, V2 in C. change (dval (m1, e1)) with (fv m1 e1) in C. change (dval (m2, e2)) with (fv m2 e2) in C.
  rewrite E, Q1 in C. rewrite Q1 in Q2. rewrite Q2 in C. destruct C as [C1 [C2 _]]. rewrite F1 in C2. split; [exact C2|]. rewrite C1. symmetry. now apply chk_val.
Qed.
Lemma b_Z z e : exactB (chk z e) (ofdy md z e).
Proof.
  destruct (chk z e) as [q|] eqn:K; cbn [exactB]; auto. unfold ofdy.
  pose proof (binary_normalize_correct _ _ Hprec64 Hmax64 md z e false) as C. cbv zeta in C. change (F2R (Float radix2 z e)) with (fv z e) in C.
  destruct (rnd_exact md _ _ _ K) as [Q1 Q2]. rewrite Q1 in C. rewrite Q1 in Q2. rewrite Q2 in C. destruct C as [C1 [C2 _]].
  split; [exact C2|]. rewrite C1. symmetry. now apply chk_val.
Qed.
Lemma b_eq0 x x' : exactB x x' -> false = Beqb x' (B754_zero false) \/ false = false /\ forall a b (y : b64), exactB (dmul b (ddiv a x)) y.
Proof.
  destruct x as [[m e]|]; cbn [exactB].
  - intros [HF HV]. destruct (Z.eq_dec m 0) as [->|NZ].
    + right. split; [reflexivity|]. intros [[? ?]|] [[? ?]|] y; exact I.
    + left. rewrite (Beqb_correct _ _ x' (B754_zero false) HF eq_refl), HV. symmetry. apply Req_bool_false. cbn [B2R]. intros E. apply NZ.
      unfold dval, fv in E. cbn [fst snd] in E. now apply eq_0_F2R in E.
  - intros _. right. split; [reflexivity|]. intros [[? ?]|] [[? ?]|] y; exact I.
Qed.
End Md.
Lemma todyad_exact y : exactB (todyad y) y.
Proof.
  destruct y as [s|s| |s m e H]; cbn [todyad exactB]; auto.
  - split; [reflexivity|]. symmetry. apply fv_zero.
  - destruct (chk _ e) as [z|] eqn:K; cbn [exactB]; auto. split; [reflexivity|]. destruct (chk_val _ _ _ K) as [-> _]. destruct s; reflexivity.
Qed.

(** ** [chk] only depends on the number *)
Lemma odd_unique a e b k : Z.odd a = true -> Z.odd b = true -> fv a e = fv b k -> a = b /\ e = k.
Proof.
  assert (W : forall a e b k, e <= k -> Z.odd a = true -> Z.odd b = true -> fv a e = fv b k -> a = b /\ e = k).
  { clear. intros a e b k H HA HB Q. rewrite <- (fv_shift b k (k - e)) in Q by lia. replace (k - (k - e)) with e in Q by lia.
    apply eq_F2R in Q. destruct (Z.eq_dec k e) as [->|NE]; [rewrite Z.sub_diag, Z.mul_1_r in Q; auto|].
    exfalso. subst a. replace (k - e) with (Z.succ (k - e - 1)) in HA by lia. rewrite Z.pow_succ_r in HA by lia.
    rewrite !Z.odd_mul in HA. cbn in HA. now rewrite andb_false_r in HA. }
  intros HA HB Q. destruct (Z.le_ge_cases e k); [auto|]. destruct (W b k a e) as [-> ->]; auto.
Qed.
Lemma fv_sign m e : (m = 0 <-> fv m e = 0%R) /\ (0 < m <-> (0 < fv m e)%R).
Proof.
  unfold fv. split; split; intros H.
  - subst. apply F2R_0. - now apply eq_0_F2R in H. - now apply F2R_gt_0. - now apply gt_0_F2R in H.
Qed.
Lemma strip_num p e p' e' : fv (Zpos p) e = fv (Zpos p') e' -> strip p e = strip p' e'.
Proof.
  intros Q. pose proof (strip_val p e) as A. pose proof (strip_val p' e') as B. destruct (strip p e) as [q k], (strip p' e') as [q' k'].
  destruct A as [A1 [_ [_ [A2 _]]]], B as [B1 [_ [_ [B2 _]]]].
  destruct (odd_unique (Zpos q) k (Zpos q') k' A2 B2) as [E1 E2]; congruence.
Qed.
Lemma chk_num m e m' e' : fv m e = fv m' e' -> chk m e = chk m' e'.
Proof.
  intros Q. destruct (fv_sign m e) as [S1 S2], (fv_sign m' e') as [S3 S4]. rewrite Q in S1, S2.
  assert (T1 : m = 0 <-> m' = 0) by tauto. assert (T2 : 0 < m <-> 0 < m') by tauto. clear S1 S2 S3 S4.
  destruct m as [|p|p], m' as [|p'|p']; try (exfalso; lia); cbn [chk]; [reflexivity| |].
  - now rewrite (strip_num p e p' e' Q).
  - rewrite (strip_num p e p' e'); [reflexivity|]. change (fv (- Zpos p) e = fv (- Zpos p') e') in Q. rewrite !fv_opp in Q. lra.
Qed.
Lemma chk_ok m e a : Z.abs m <= a -> bchk a e <> None -> exists z, chk m e = Some z.
Proof.
  intros HA HB. unfold bchk in HB. destruct (_ && _) eqn:Q in HB; [|now destruct HB]. clear HB.
  rewrite !andb_true_iff, Z.ltb_lt, !Z.leb_le in Q. destruct Q as [[Q1 Q2] Q3].
  assert (W : forall p, Zpos p <= a -> let '(q, k) := strip p e in fits q k = true).
  { intros p HP. pose proof (strip_val p e) as A. destruct (strip p e) as [q k]. destruct A as [_ [A1 [A2 [_ A3]]]].
    unfold fits. rewrite !andb_true_iff, Z.ltb_lt, !Z.leb_le. pose proof (Z.log2_le_mono (Zpos p) a HP). lia. }
  unfold chk. destruct m as [|p|p]; [eauto| |]; specialize (W p ltac:(cbn in HA; lia)); destruct (strip p e); rewrite W; eauto.
Qed.

Lemma chk_opp m e z : chk m e = Some z -> exists z', chk (- m) e = Some z' /\ dval z' = (- dval z)%R.
Proof.
  intros H. assert (Q : exists z', chk (- m) e = Some z').
  { revert H. destruct m as [|p|p]; cbn [chk Z.opp]; [eauto| |]; destruct (strip p e) as [q k]; destruct (fits q k); try discriminate; eauto. }
  destruct Q as [z' Q]. exists z'. split; [exact Q|]. destruct (chk_val _ _ _ H) as [-> _]. destruct (chk_val _ _ _ Q) as [-> _]. apply fv_opp.
Qed.

(** ** Reductions *)
Lemma reduce_right {T} (op : T -> T -> T) u l : reduce op u l (fold_right op u l).
Proof. induction l as [|x l IH]; cbn; [constructor|]. exact (red_op op u [x] l _ _ (red_one op u x) IH). Qed.
Lemma reduce_left {T} (op : T -> T -> T) u l : reduce op u l (fold_left op l u).
Proof.
  assert (W : forall r a, reduce op u r a -> reduce op u (r ++ l) (fold_left op l a)).
  { induction l as [|x l IH]; intros r a H; cbn; [now rewrite app_nil_r|].
    replace (r ++ x :: l)%list with ((r ++ [x]) ++ l)%list by (rewrite <- app_assoc; reflexivity). apply IH. apply red_op; [exact H|apply red_one]. }
  exact (W [] u (red_unit op u)).
Qed.
Definition zsum (l : list Z) : Z := fold_right Z.add 0 l.
Lemma zsum_app l r : zsum (l ++ r) = zsum l + zsum r.
Proof. unfold zsum. induction l; cbn; lia. Qed.
Lemma zsum_perm l l' : Permutation l l' -> zsum l = zsum l'.
Proof. unfold zsum. induction 1; cbn; lia. Qed.
Lemma zsum_abs l : Z.abs (zsum l) <= zsum (map Z.abs l) /\ 0 <= zsum (map Z.abs l).
Proof. unfold zsum. induction l; cbn; lia. Qed.
Lemma bchk_mono a' a e : 0 <= a' <= a -> bchk a e <> None -> bchk a' e <> None.
Proof.
  intros H. unfold bchk. destruct (_ && _) eqn:Q; [|now intros []]. intros _. rewrite !andb_true_iff, Z.ltb_lt, !Z.leb_le in Q.
  pose proof (Z.log2_le_mono a' a ltac:(lia)). replace (_ && _) with true; [discriminate|]. symmetry. rewrite !andb_true_iff, Z.ltb_lt, !Z.leb_le. lia.
Qed.
Definition at_ (e m : Z) (y : b64) : Prop := is_finite y = true /\ B2R y = fv m e.
Lemma red_sum md l y : reduce (@Bplus _ _ Hprec64 Hmax64 md) (B754_zero false) l y -> forall ms e,
  Forall2 (at_ e) ms l -> bchk (zsum (map Z.abs ms)) e <> None -> at_ e (zsum ms) y.
Proof.
  induction 1 as [|x|l r x y H1 IH1 H2 IH2|l l' x HP H IH]; intros ms e F B.
  - inversion F; subst. split; [reflexivity|]. symmetry. apply fv_zero.
  - inversion F as [|m ? ? ? HA F']; subst. inversion F'; subst. unfold zsum. cbn [fold_right]. now rewrite Z.add_0_r.
  - apply Forall2_app_inv_r in F. destruct F as [m1 [m2 [F1 [F2 ->]]]]. rewrite map_app, zsum_app in B. rewrite zsum_app.
    pose proof (zsum_abs m1) as A1. pose proof (zsum_abs m2) as A2.
    destruct (IH1 m1 e F1) as [P1 V1]; [eapply bchk_mono; [|exact B]; lia|].
    destruct (IH2 m2 e F2) as [P2 V2]; [eapply bchk_mono; [|exact B]; lia|].
    destruct (chk_ok (zsum m1 + zsum m2) e (zsum (map Z.abs m1) + zsum (map Z.abs m2)) ltac:(lia) B) as [z K].
    assert (E : (B2R x + B2R y)%R = fv (zsum m1 + zsum m2) e).
    { rewrite V1, V2. rewrite (fv_add _ e _ e e) by lia. rewrite Z.sub_diag, !Z.mul_1_r. reflexivity. }
    destruct (rnd_exact md _ _ _ K) as [Q1 Q2]. pose proof (Bplus_correct _ _ Hprec64 Hmax64 md x y P1 P2) as C.
    rewrite E, Q1 in C. rewrite Q1 in Q2. rewrite Q2 in C. destruct C as [C1 [C2 _]]. split; [exact C2|exact C1].
  - assert (FL : Forall2 (fun y m => at_ e m y) l' ms) by (clear -F; induction F; constructor; auto).
    destruct (Permutation_Forall2 (Permutation_sym HP) FL) as [ms' [P1 P2]].
    assert (FR : Forall2 (at_ e) ms' l) by (clear -P2; induction P2; constructor; auto).
    rewrite (zsum_perm ms ms' P1). apply IH; [exact FR|]. now rewrite <- (zsum_perm _ _ (Permutation_map Z.abs P1)).
Qed.
Definition good (e : Z) (q : list (Z * Z)) : Prop := Forall (fun x => fst x = 0 \/ e <= snd x) q.
Lemma sumat_zsum q e : sumat q e = zsum (map (fun x => fst x * 2 ^ (snd x - e)) q).
Proof. unfold sumat, zsum. induction q; cbn; [reflexivity|]. now rewrite IHq. Qed.
Lemma absum_zsum q e : absum q e = zsum (map Z.abs (map (fun x => fst x * 2 ^ (snd x - e)) q)).
Proof.
  unfold absum, zsum. induction q as [|x q IH]; cbn; [reflexivity|]. rewrite IH, Z.abs_mul. f_equal. f_equal. symmetry. apply Z.abs_eq.
  apply Z.pow_nonneg. lia.
Qed.
Lemma sumat_abs q e : Z.abs (sumat q e) <= absum q e /\ 0 <= absum q e.
Proof. rewrite sumat_zsum, absum_zsum. apply zsum_abs. Qed.
Lemma pow_shift a k e' e : e <= e' -> a = 0 \/ e' <= k -> a * 2 ^ (k - e) = a * 2 ^ (k - e') * 2 ^ (e' - e).
Proof.
  intros H [->|H']; [reflexivity|]. rewrite <- Z.mul_assoc, <- Z.pow_add_r by lia. f_equal. f_equal. lia.
Qed.
Lemma sumat_shift q e e' : e <= e' -> good e' q -> sumat q e = sumat q e' * 2 ^ (e' - e) /\ absum q e = absum q e' * 2 ^ (e' - e).
Proof.
  intros HE. unfold sumat, absum. induction 1 as [|x q HX H [IH1 IH2]]; cbn [fold_right]; [auto|].
  rewrite IH1, IH2, !Z.mul_add_distr_r. rewrite (pow_shift (fst x) (snd x) e' e), (pow_shift (Z.abs (fst x)) (snd x) e' e); auto.
  destruct HX; auto. left. lia.
Qed.
Lemma emin_good q : match emin q with Some e => good e q | None => Forall (fun x => fst x = 0) q end.
Proof.
  induction q as [|x q IH]; cbn [emin fold_right]; [constructor|]. fold (emin q).
  assert (W : forall e e', e' <= e -> good e q -> good e' q).
  { intros e e' HE. apply Forall_impl. intros a [H|H]; auto. right. lia. }
  destruct (Z.eqb_spec (fst x) 0) as [HZ|NZ].
  - destruct (emin q); constructor; auto.
  - destruct (emin q) as [e|].
    + constructor; [right; lia|]. apply W with e; [lia|exact IH].
    + constructor; [right; lia|]. eapply Forall_impl; [|exact IH]. auto.
Qed.
Lemma emin_le q e e' : good e q -> emin q = Some e' -> e <= e'.
Proof.
  induction q as [|x q IH] in e' |- *; cbn [emin fold_right]; [discriminate|]. fold (emin q). intros H. inversion H as [|? ? HX HQ]; subst.
  destruct (Z.eqb_spec (fst x) 0) as [HZ|NZ]; [auto|]. destruct HX as [|HX]; [contradiction|].
  destruct (emin q) as [k|] eqn:K; intros Q; inversion Q; subst; auto. specialize (IH k HQ eq_refl). lia.
Qed.
Lemma emin_pos q e e' : good e q -> emin q = Some e' -> 0 < absum q e.
Proof.
  induction 1 as [|x q HX H IH]; cbn [emin absum fold_right]; [discriminate|]. fold (emin q). fold (absum q e). intros Q.
  pose proof (proj2 (sumat_abs q e)). destruct (Z.eqb_spec (fst x) 0) as [HZ|NZ]; [rewrite HZ; specialize (IH Q); cbn; lia|].
  destruct HX as [|HX]; [contradiction|]. assert (0 < 2 ^ (snd x - e)) by (apply Z.pow_pos_nonneg; lia). nia.
Qed.
Lemma sumat_fv q e : good e q -> fv (sumat q e) e = fold_right (fun x r => (dval x + r)%R) 0%R q.
Proof.
  unfold sumat. induction 1 as [|x q HX H IH]; cbn [fold_right]; [apply fv_zero|]. rewrite <- IH. fold (sumat q e).
  destruct HX as [HX|HX].
  - rewrite HX. unfold dval. rewrite HX, fv_zero. rewrite Rplus_0_l. reflexivity.
  - unfold dval. rewrite (fv_add _ _ _ e e) by lia. rewrite Z.sub_diag, Z.mul_1_r. reflexivity.
Qed.
(** ... of lists of which all elements are known. *)
Lemma alls_some {T} (l : list (option T)) q : alls l = Some q <-> l = map Some q.
Proof.
  revert q. induction l as [|[x|] l IH]; intros q; cbn [alls].
  - split; [intros H; now inversion H|]. destruct q; [reflexivity|discriminate].
  - split.
    + destruct (alls l) as [q'|]; [|discriminate]. intros H. inversion H; subst. cbn. f_equal. now apply IH.
    + destruct q as [|y q]; [discriminate|]. cbn. intros H. inversion H; subst. now rewrite (proj2 (IH q) eq_refl).
  - split; [discriminate|]. destruct q; discriminate.
Qed.
Lemma dsum_spec q z : dsum (map Some q) = Some z -> exists e, good e q /\ bchk (absum q e) e <> None /\ dval z = fv (sumat q e) e.
Proof.
  unfold dsum. rewrite (proj2 (alls_some _ q) eq_refl). pose proof (emin_good q) as G. destruct (emin q) as [e|].
  - destruct (bchk _ _) eqn:B; [|discriminate]. intros K. exists e. split; [exact G|]. split; [congruence|]. now apply chk_val in K.
  - intros H. inversion H; subst z. exists 0. assert (G0 : good 0 q) by (eapply Forall_impl; [|exact G]; auto). split; [exact G0|].
    assert (Z0 : absum q 0 = 0 /\ sumat q 0 = 0).
    { clear -G. unfold absum, sumat. induction G as [|x q HX H [IH1 IH2]]; cbn [fold_right]; [auto|]. rewrite IH1, IH2, HX. auto. }
    destruct Z0 as [-> ->]. split; [discriminate|reflexivity].
Qed.
Lemma b_sum md l q y : reduce (@Bplus _ _ Hprec64 Hmax64 md) (B754_zero false) l y -> Forall2 exactB q l -> exactB (dsum q) y.
Proof.
  intros HR HF. destruct (dsum q) as [z|] eqn:K; [|exact I].
  assert (A : exists qs, q = map Some qs).
  { unfold dsum in K. destruct (alls q) as [qs|] eqn:A; [|discriminate]. exists qs. now apply alls_some. }
  destruct A as [qs ->]. destruct (dsum_spec _ _ K) as [e [G [B V]]].
  destruct (red_sum md l y HR (map (fun x => fst x * 2 ^ (snd x - e)) qs) e) as [P1 P2].
  - clear -HF G. revert l HF. induction G as [|x qs HX G IH]; intros l HF; cbn in *; inversion HF; subst; constructor; auto.
    destruct H1 as [F1 V1]. split; [exact F1|]. rewrite V1. unfold dval. destruct HX as [HX|HX]; [rewrite HX; now rewrite !fv_zero|].
    rewrite <- (fv_shift (fst x) (snd x) (snd x - e)) by lia. f_equal. lia.
  - now rewrite <- absum_zsum.
  - split; [exact P1|]. rewrite P2, V. now rewrite sumat_zsum.
Qed.
Definition pmax (l : list (Z * Z)) : Z := fold_right (fun x r => Z.max 1 (Z.abs (fst x)) * r) 1 l.
Definition plo (l : list (Z * Z)) : Z := fold_right (fun x r => Z.min 0 (snd x) + r) 0 l.
Definition phi (l : list (Z * Z)) : Z := fold_right (fun x r => Z.max 0 (snd x) + r) 0 l.
Lemma pok_spec q : pok q = true <-> pmax q < 2 ^ 53 /\ -1074 <= plo q /\ Z.log2 (pmax q) + 1 + phi q <= 1024.
Proof. unfold pok. rewrite !andb_true_iff, Z.ltb_lt, !Z.leb_le. unfold pmax, plo, phi. tauto. Qed.
Lemma p_bounds q : 1 <= pmax q /\ Z.abs (prodm q) <= pmax q /\ plo q <= 0 <= phi q /\ plo q <= prode q <= phi q.
Proof.
  unfold pmax, prodm, plo, phi, prode. induction q as [|x q IH]; cbn [fold_right]; [lia|]. rewrite Z.abs_mul. destruct IH as [I1 [I2 [I3 I4]]].
  split; [nia|]. split; [|lia]. apply Z.mul_le_mono_nonneg; lia.
Qed.
Lemma p_app q r : pmax (q ++ r) = pmax q * pmax r /\ prodm (q ++ r) = prodm q * prodm r /\ plo (q ++ r) = plo q + plo r /\
  phi (q ++ r) = phi q + phi r /\ prode (q ++ r) = prode q + prode r.
Proof.
  unfold pmax, prodm, plo, phi, prode. induction q as [|x q [I1 [I2 [I3 [I4 I5]]]]]; cbn [app fold_right]; [repeat split; lia|].
  rewrite I1, I2, I3, I4, I5. repeat split; lia.
Qed.
Lemma p_perm q r : Permutation q r -> pmax q = pmax r /\ prodm q = prodm r /\ plo q = plo r /\ phi q = phi r /\ prode q = prode r.
Proof.
  unfold pmax, prodm, plo, phi, prode. induction 1; cbn [fold_right]; repeat split; try lia; try nia;
  (repeat match goal with H : _ /\ _ |- _ => destruct H end; congruence).
Qed.
Lemma pok_chk q : pok q = true -> bchk (Z.abs (prodm q)) (prode q) <> None.
Proof.
  intros H. apply pok_spec in H. pose proof (p_bounds q) as B. unfold bchk.
  pose proof (Z.log2_le_mono (Z.abs (prodm q)) (pmax q) ltac:(lia)).
  replace (_ && _) with true; [discriminate|]. symmetry. rewrite !andb_true_iff, Z.ltb_lt, !Z.leb_le. lia.
Qed.
Lemma red_prod md l y : reduce (@Bmult _ _ Hprec64 Hmax64 md) (ofdy md 1 0) l y -> forall q,
  Forall2 (fun x y => is_finite y = true /\ B2R y = dval x) q l -> pok q = true -> is_finite y = true /\ B2R y = fv (prodm q) (prode q).
Proof.
  induction 1 as [|x|l r x y H1 IH1 H2 IH2|l l' x HP H IH]; intros q F B.
  - inversion F; subst. exact (b_Z md 1 0).
  - inversion F as [|m ? ? ? HA F']; subst. inversion F'; subst. unfold prodm, prode. cbn [fold_right]. now rewrite Z.add_0_r, Z.mul_1_r.
  - apply Forall2_app_inv_r in F. destruct F as [q1 [q2 [F1 [F2 ->]]]].
    pose proof (pok_chk _ B) as BC. destruct (p_app q1 q2) as [E1 [E2 [E3 [E4 E5]]]].
    pose proof (p_bounds q1) as P1. pose proof (p_bounds q2) as P2. apply pok_spec in B. rewrite E1, E3, E4 in B.
    pose proof (Z.log2_le_mono (pmax q1) (pmax q1 * pmax q2) ltac:(nia)). pose proof (Z.log2_le_mono (pmax q2) (pmax q1 * pmax q2) ltac:(nia)).
    destruct (IH1 q1 F1) as [A1 V1]; [apply pok_spec; repeat split; try lia; nia|].
    destruct (IH2 q2 F2) as [A2 V2]; [apply pok_spec; repeat split; try lia; nia|].
    destruct (chk_ok (prodm (q1 ++ q2)) (prode (q1 ++ q2)) _ (Z.le_refl _) BC) as [z K].
    assert (E : (B2R x * B2R y)%R = fv (prodm (q1 ++ q2)) (prode (q1 ++ q2))).
    { rewrite V1, V2, fv_mul. now rewrite E2, E5. }
    destruct (rnd_exact md _ _ _ K) as [Q1 Q2]. pose proof (Bmult_correct _ _ Hprec64 Hmax64 md x y) as C.
    rewrite E, Q1 in C. rewrite Q1 in Q2. rewrite Q2 in C. destruct C as [C1 [C2 _]]. rewrite A1, A2 in C2. split; [exact C2|exact C1].
  - assert (FL : Forall2 (fun y x => is_finite y = true /\ B2R y = dval x) l' q) by (clear -F; induction F; constructor; auto).
    destruct (Permutation_Forall2 (Permutation_sym HP) FL) as [q' [P1 P2]].
    assert (FR : Forall2 (fun x y => is_finite y = true /\ B2R y = dval x) q' l) by (clear -P2; induction P2; constructor; auto).
    destruct (p_perm q q' P1) as [E1 [E2 [E3 [E4 E5]]]]. rewrite E2, E5. apply IH; [exact FR|].
    apply pok_spec. apply pok_spec in B. now rewrite <- E1, <- E3, <- E4.
Qed.
Lemma dprod_spec q z : dprod (map Some q) = Some z -> pok q = true /\ dval z = fv (prodm q) (prode q).
Proof.
  unfold dprod. rewrite (proj2 (alls_some _ q) eq_refl). destruct (pok q); [|discriminate]. intros K. split; [reflexivity|]. now apply chk_val in K.
Qed.
Lemma b_prod md l q y : reduce (@Bmult _ _ Hprec64 Hmax64 md) (ofdy md 1 0) l y -> Forall2 exactB q l -> exactB (dprod q) y.
Proof.
  intros HR HF. destruct (dprod q) as [z|] eqn:K; [|exact I].
  assert (A : exists qs, q = map Some qs).
  { unfold dprod in K. destruct (alls q) as [qs|] eqn:A; [|discriminate]. exists qs. now apply alls_some. }
  destruct A as [qs ->]. destruct (dprod_spec _ _ K) as [B V]. cbn [exactB]. rewrite V. eapply red_prod; eauto.
  clear -HF. revert l HF. induction qs; intros l HF; cbn in HF; inversion HF; subst; constructor; auto.
Qed.
Lemma prod_fv q : fv (prodm q) (prode q) = fold_right (fun x r => (dval x * r)%R) 1%R q.
Proof.
  unfold prodm, prode. induction q as [|x q IH]; cbn [fold_right]; [unfold fv, F2R; cbn; lra|]. rewrite <- fv_mul. f_equal. exact IH.
Qed.

(** ** Boxes *)
Definition inside (b : dy) (x : dy) : Prop :=
  match b with Some (a, e) => exists m z, Z.abs m <= a /\ chk m e = Some z /\ x = Some z | None => True end.
Lemma in_chk a e m0 e0 m : fv m0 e0 = fv m e -> Z.abs m <= a -> inside (bchk a e) (chk m0 e0).
Proof.
  intros Q HA. destruct (bchk a e) as [[a' e']|] eqn:K; [|exact I].
  destruct (chk_ok m e a HA ltac:(congruence)) as [z HZ]. assert (a' = a /\ e' = e) as [-> ->].
  { unfold bchk in K. destruct (_ && _) in K; now inversion K. }
  exists m, z. split; [exact HA|]. rewrite (chk_num _ _ _ _ Q). auto.
Qed.
Lemma x_add b c x y : inside b x -> inside c y -> inside (badd b c) (dadd x y).
Proof.
  destruct b as [[a1 e1]|]; [|cbn; auto]. destruct c as [[a2 e2]|]; [|cbn; auto].
  intros [m1 [[p1 k1] [A1 [A2 ->]]]] [m2 [[p2 k2] [B1 [B2 ->]]]]. cbn [badd dadd dlift].
  apply chk_val in A2, B2. destruct A2 as [A2 _], B2 as [B2 _].
  set (e := Z.min e1 e2). apply in_chk with (m := m1 * 2 ^ (e1 - e) + m2 * 2 ^ (e2 - e)).
  - rewrite <- (fv_add p1 k1 p2 k2) by lia. rewrite <- (fv_add m1 e1 m2 e2 e) by (unfold e; lia).
    change (fv p1 k1) with (dval (p1, k1)). change (fv p2 k2) with (dval (p2, k2)). congruence.
  - assert (0 < 2 ^ (e1 - e)) by (apply Z.pow_pos_nonneg; unfold e; lia).
    assert (0 < 2 ^ (e2 - e)) by (apply Z.pow_pos_nonneg; unfold e; lia).
    etransitivity; [apply Z.abs_triangle|]. rewrite !Z.abs_mul, (Z.abs_eq (2 ^ (e1 - e))), (Z.abs_eq (2 ^ (e2 - e))) by lia. nia.
Qed.
Lemma x_opp b x : inside b x -> inside b (dopp x).
Proof.
  destruct b as [[a e]|]; [|cbn; auto]. intros [m [[p k] [A1 [A2 ->]]]].
  destruct (chk_opp _ _ _ A2) as [z [Q1 Q2]]. exists (- m), z. split; [lia|]. split; [exact Q1|]. cbn [dopp]. rewrite <- Q1.
  apply chk_num. rewrite !fv_opp. f_equal. apply chk_val in A2. exact (proj1 A2).
Qed.
Lemma x_sub b c x y : inside b x -> inside c y -> inside (badd b c) (dsub x y).
Proof. intros H1 H2. apply x_add; auto. now apply x_opp. Qed.
Lemma x_mul b c x y : inside b x -> inside c y -> inside (bmul b c) (dmul x y).
Proof.
  destruct b as [[a1 e1]|]; [|cbn; auto]. destruct c as [[a2 e2]|]; [|cbn; auto].
  intros [m1 [[p1 k1] [A1 [A2 ->]]]] [m2 [[p2 k2] [B1 [B2 ->]]]]. cbn [bmul dmul dlift].
  apply chk_val in A2, B2. destruct A2 as [A2 _], B2 as [B2 _]. apply in_chk with (m := m1 * m2).
  - rewrite <- !fv_mul. change (fv p1 k1) with (dval (p1, k1)). change (fv p2 k2) with (dval (p2, k2)). congruence.
  - rewrite Z.abs_mul. nia.
Qed.

(** Sums of boxes. *)
Lemma chk_exp m e z : chk m e = Some z -> fst z = 0 \/ e <= snd z.
Proof.
  unfold chk. destruct m as [|p|p]; [intros H; inversion H; now left| |]; intros H; right;
  pose proof (strip_val p e) as Q; destruct (strip p e) as [q k]; destruct (fits q k); inversion H; cbn; lia.
Qed.
Lemma x_sum l l' : Forall2 inside l l' -> inside (bsum l) (dsum l').
Proof.
  intros HF. unfold bsum. destruct (alls l) as [bq|] eqn:AB; [|exact I]. apply alls_some in AB. subst l.
  assert (A : exists q, l' = map Some q).
  { clear -HF. remember (map Some bq) as l. revert bq Heql. induction HF as [|b x l l' HB HF IH]; intros bq E.
    - now exists [].
    - destruct bq as [|[a k] bq]; [discriminate|]. inversion E; subst. destruct (IH bq eq_refl) as [q ->].
      destruct HB as [m [z [_ [_ ->]]]]. now exists (z :: q). }
  destruct A as [q ->].
  assert (W : forall e, good e bq -> good e q /\ absum q e <= absum bq e).
  { intros e G. clear -G HF. revert q HF. induction G as [|[a k] bq HX G IH]; intros q HF; cbn in HF; inversion HF as [|? ? ? ? HI HF' E1 E2]; subst.
    - destruct q; [|discriminate]. split; [constructor|reflexivity].
    - destruct q as [|z q]; [discriminate|]. cbn in E2. inversion E2; subst. destruct (IH q HF') as [I1 I2].
      destruct HI as [m [z' [HA [HC E]]]]. inversion E; subst z'. cbn [fst snd] in HX.
      pose proof (chk_exp _ _ _ HC) as HE. destruct (chk_val _ _ _ HC) as [HV _].
      assert (M0 : m = 0 -> fst z = 0).
      { intros ->. cbn in HC. now inversion HC. }
      assert (ZG : fst z = 0 \/ e <= snd z).
      { destruct HX as [->|HX]; [left; apply M0; lia|]. destruct HE; [auto|right; lia]. }
      split; [constructor; auto|]. unfold absum in *. cbn [fold_right fst snd]. apply Z.add_le_mono; [|exact I2].
      destruct (Z.eq_dec (fst z) 0) as [ZZ|NZ]; [rewrite ZZ; cbn; pose proof (Z.pow_nonneg 2 (k - e)); nia|].
      destruct HX as [->|HX]; [exfalso; apply NZ, M0; lia|]. destruct HE as [|HE]; [contradiction|]. destruct ZG as [|ZG]; [contradiction|].
      assert (QE : fst z * 2 ^ (snd z - e) = m * 2 ^ (k - e)).
      { pose proof (fv_shift (fst z) (snd z) (snd z - e) ltac:(lia)) as F1. pose proof (fv_shift m k (k - e) ltac:(lia)) as F2.
        replace (snd z - (snd z - e)) with e in F1 by lia. replace (k - (k - e)) with e in F2 by lia. unfold dval in HV.
        rewrite HV, <- F2 in F1. apply eq_F2R in F1. exact F1. }
      assert (P : 0 < 2 ^ (snd z - e) /\ 0 < 2 ^ (k - e)) by (split; apply Z.pow_pos_nonneg; lia).
      replace (Z.abs (fst z) * 2 ^ (snd z - e)) with (Z.abs (fst z * 2 ^ (snd z - e))) by (rewrite Z.abs_mul; f_equal; lia).
      rewrite QE, Z.abs_mul. nia. }
  pose proof (emin_good bq) as G. unfold dsum. rewrite (proj2 (alls_some _ q) eq_refl). destruct (emin bq) as [e|].
  - destruct (W e G) as [W1 W2]. destruct (bchk (absum bq e) e) as [[a' e']|] eqn:BB; [|exact I].
    assert (a' = absum bq e /\ e' = e) as [-> ->] by (unfold bchk in BB; destruct (_ && _) in BB; now inversion BB).
    destruct (sumat_abs q e) as [S1 S2].
    pose proof (emin_good q) as G'. pose proof (emin_le q e) as LE. destruct (emin q) as [k|] eqn:K.
    + specialize (LE k W1 eq_refl). destruct (sumat_shift q e k LE G') as [T1 T2]. destruct (sumat_abs q k) as [S3 S4].
      assert (P : 0 < 2 ^ (k - e)) by (apply Z.pow_pos_nonneg; lia).
      assert (B' : bchk (absum q k) k <> None).
      { assert (B1 : bchk (absum q e) e <> None) by (eapply bchk_mono; [|rewrite BB; discriminate]; lia).
        unfold bchk in B1 |- *. destruct (_ && _) eqn:Q in B1; [|now destruct B1]. rewrite !andb_true_iff, Z.ltb_lt, !Z.leb_le in Q.
        rewrite T2 in Q. replace (_ && _) with true; [discriminate|]. symmetry. rewrite !andb_true_iff, Z.ltb_lt, !Z.leb_le.
        pose proof (emin_pos q k k G' K). rewrite Z.log2_mul_pow2 in Q by lia. split; [split; [nia|lia]|lia]. }
      destruct (bchk (absum q k) k); [|now destruct B'].
      rewrite <- BB. apply in_chk with (m := sumat q e); [|lia]. rewrite T1. 
      rewrite <- (fv_shift (sumat q k) k (k - e)) by lia. f_equal. lia.
    + exists 0, (0, 0). split; [cbn; lia|]. split; reflexivity.
  - assert (G0 : good 0 bq) by (eapply Forall_impl; [|exact G]; auto).
    assert (Z0 : emin q = None).
    { clear -G HF. revert q HF. induction G as [|[a k] bq HX G IH]; intros q HF; cbn in HF; inversion HF as [|? ? ? ? HI HF' E1 E2]; subst.
      - destruct q; [reflexivity|discriminate].
      - destruct q as [|z q]; [discriminate|]. cbn in E2. inversion E2; subst. destruct HI as [m [z' [HA [HC E]]]]. inversion E; subst z'.
        cbn [fst] in HX. subst a. assert (m = 0) as -> by lia. cbn in HC. inversion HC; subst z. cbn [emin fold_right fst]. cbn. exact (IH q HF'). }
    rewrite Z0. exists 0, (0, 0). split; [cbn; lia|]. split; reflexivity.
Qed.

(** ** Every finite double is a checked dyadic number *)
Lemma fin_chk (s : bool) m e : SpecFloat.bounded prec64 emax64 m e = true -> exists z, chk (if s then Zneg m else Zpos m) e = Some z.
Proof.
  intros H. unfold SpecFloat.bounded in H. apply andb_true_iff in H. destruct H as [H1 H2]. apply Z.leb_le in H2.
  unfold SpecFloat.canonical_mantissa in H1. apply Zeq_bool_eq in H1. unfold SpecFloat.fexp, SpecFloat.emin in H1.
  rewrite Digits.Zpos_digits2_pos in H1. unfold prec64, emax64 in *.
  assert (D : Digits.Zdigits radix2 (Zpos m) <= 53) by lia. assert (E : -1074 <= e) by lia.
  assert (B : Zpos m <= 2 ^ 53 - 1).
  { pose proof (proj2 (Digits.Zdigits_correct radix2 (Zpos m))) as B. change (radix_val radix2) with 2 in B. cbn [Z.abs] in B.
    pose proof (Z.pow_le_mono_r 2 (Digits.Zdigits radix2 (Zpos m)) 53 eq_refl D). lia. }
  apply chk_ok with (a := 2 ^ 53 - 1); [destruct s; cbn [Z.abs]; exact B|].
  unfold bchk. change (Z.log2 (2 ^ 53 - 1)) with 52.
  replace (2 ^ 53 - 1 <? 2 ^ 53) with true by reflexivity. replace (-1074 <=? e) with true by (symmetry; apply Z.leb_le; exact E).
  replace (52 + 1 + e <=? 1024) with true by (symmetry; apply Z.leb_le; lia). discriminate.
Qed.
Lemma todyad_fin y : is_finite y = true -> exists z, todyad y = Some z /\ dval z = B2R y.
Proof.
  intros H. assert (Q : exists z, todyad y = Some z) by (destruct y as [s|s| |s m e B]; try discriminate; cbn [todyad]; [eauto|now apply fin_chk]).
  destruct Q as [z Q]. exists z. split; [exact Q|]. pose proof (todyad_exact y) as E. rewrite Q in E. symmetry. apply E.
Qed.
Lemma tobox_in y : inside (tobox y) (todyad y).
Proof.
  unfold tobox. destruct (todyad y) as [[m e]|] eqn:Q; [|exact I].
  assert (K : exists m0 e0, chk m0 e0 = Some (m, e)).
  { destruct y as [s|s| |s p k B]; cbn [todyad] in Q; try discriminate; [exists 0, 0; now inversion Q|eauto]. }
  destruct K as [m0 [e0 K]]. exists m, (m, e). split; [lia|]. split; [|reflexivity]. rewrite <- K. apply chk_num. symmetry. apply chk_val in K. rewrite <- (proj1 K). reflexivity.
Qed.
Lemma inbox_inside b y : inboxB b y -> inside b (todyad y).
Proof.
  destruct b as [[a e]|]; [|auto]. intros [HF [m [HA HV]]]. destruct (todyad_fin y HF) as [z [Q1 Q2]].
  assert (K : exists m0 e0, chk m0 e0 = Some z).
  { destruct y as [s|s| |s p k B]; cbn [todyad] in Q1; try discriminate; [exists 0, 0; now inversion Q1|eauto]. }
  destruct K as [m0 [e0 K]]. exists m, z. split; [exact HA|]. split; [|exact Q1]. rewrite <- K. apply chk_num. apply chk_val in K. destruct K as [K _]. congruence.
Qed.
Lemma inside_box b x y : inside b x -> exactB x y -> inboxB b y.
Proof.
  destruct b as [[a e]|]; [|cbn; auto]. intros [m [z [H1 [H2 ->]]]] [E1 E2]. split; [exact E1|]. exists m. split; [exact H1|].
  rewrite E2. now apply chk_val.
Qed.
Lemma Dyad_len : la_len Dyad. Proof. intros n X. cbn. rewrite !repeat_length. auto. Qed.
Lemma Boxes_len : la_len Boxes. Proof. intros n X. cbn. rewrite !repeat_length. auto. Qed.
