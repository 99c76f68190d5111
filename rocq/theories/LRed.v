(** Lemmas: the rounding error of a sum and of a product of doubles, taken in any
    order. *)
From Coq Require Import ZArith Reals Lra Lia List Bool Permutation.
From Flocq Require Import Core BinarySingleNaN Plus_error Relative.
From Verif Require Import Base Num Ieee IeeeSpec LDyad.
Set Bullet Behavior "Strict Subproofs".
Local Open Scope R_scope.
Local Existing Instance Hprec64.
Local Existing Instance Hmax64.

Notation fmt := (generic_format radix2 (SpecFloat.fexp prec64 emax64)).
Notation rnd md := (round radix2 (SpecFloat.fexp prec64 emax64) (round_mode md)).
Definition isdbl (r : R) : Prop := fmt r /\ Rabs r < bpow radix2 emax64.
Definition uro : R := bpow radix2 (-52).
Definition eta : R := bpow radix2 (-1074).
Lemma uro_pos : 0 < uro. Proof. apply bpow_gt_0. Qed.
Lemma eta_pos : 0 < eta. Proof. apply bpow_gt_0. Qed.
Lemma eta_uro : eta <= uro. Proof. apply bpow_le. lia. Qed.
Lemma rnd_err md z : Rabs (rnd md z - z) <= uro * Rabs z + eta.
Proof.
  pose proof eta_pos. destruct (Rle_or_lt (bpow radix2 (-1074 + 53 - 1)) (Rabs z)) as [H1|H1].
  - pose proof (relative_error_FLT radix2 (-1074) 53 eq_refl (round_mode md) z H1) as Q. change (- (53) + 1)%Z with (-52)%Z in Q.
    unfold uro. change (SpecFloat.fexp prec64 emax64) with (FLT_exp (-1074) 53). lra.
  - assert (H2 : Rabs z < bpow radix2 (-1074 + 53)) by (eapply Rlt_trans; [exact H1|apply bpow_lt; lia]).
    pose proof (error_le_ulp radix2 (FLT_exp (-1074) 53) (round_mode md) z) as Q.
    rewrite (ulp_FLT_small radix2 (-1074) 53 z H2) in Q. pose proof uro_pos. pose proof (Rabs_pos z).
    change (SpecFloat.fexp prec64 emax64) with (FLT_exp (-1074) 53). fold eta in Q. nra.
Qed.
Lemma rnd_err_plus md x y : fmt x -> fmt y -> Rabs (rnd md (x + y) - (x + y)) <= uro * Rabs (x + y).
Proof.
  intros HX HY. destruct (Rle_or_lt (Rabs (x + y)) (bpow radix2 (53 + -1074))) as [H1|H1].
  - pose proof (FLT_format_plus_small radix2 (-1074) 53 x y HX HY H1) as Q.
    change (SpecFloat.fexp prec64 emax64) with (FLT_exp (-1074) 53). rewrite round_generic; auto with typeclass_instances.
    rewrite Rminus_diag_eq, Rabs_R0 by reflexivity. pose proof uro_pos. pose proof (Rabs_pos (x + y)). nra.
  - assert (H2 : bpow radix2 (-1074 + 53 - 1) <= Rabs (x + y)).
    { apply Rlt_le. eapply Rle_lt_trans; [|exact H1]. apply bpow_le. lia. }
    pose proof (relative_error_FLT radix2 (-1074) 53 eq_refl (round_mode md) (x + y) H2) as Q. change (- (53) + 1)%Z with (-52)%Z in Q.
    unfold uro. change (SpecFloat.fexp prec64 emax64) with (FLT_exp (-1074) 53). lra.
Qed.
Lemma rnd_abs md z B : fmt B -> Rabs z <= B -> Rabs (rnd md z) <= B.
Proof. intros. apply abs_round_le_generic; [apply fexp_correct; exact Hprec64|apply valid_rnd_round_mode|assumption|assumption]. Qed.

Definition rsum (l : list b64) : R := fold_right (fun y r => B2R y + r) 0 l.
Definition asum (l : list b64) : R := fold_right (fun y r => Rabs (B2R y) + r) 0 l.
Definition rprod (l : list b64) : R := fold_right (fun y r => B2R y * r) 1 l.
Definition aprod (l : list b64) : R := fold_right (fun y r => Rmax 1 (Rabs (B2R y)) * r) 1 l.
Definition pd (l : list b64) : R := INR (Nat.pred (length l)).
Definition fins (l : list b64) : Prop := Forall (fun y => is_finite y = true) l.
Lemma rs_app l r : rsum (l ++ r) = rsum l + rsum r /\ asum (l ++ r) = asum l + asum r.
Proof. unfold rsum, asum. induction l as [|x l [I1 I2]]; cbn; [lra|]. rewrite I1, I2. lra. Qed.
Lemma rp_app l r : rprod (l ++ r) = rprod l * rprod r /\ aprod (l ++ r) = aprod l * aprod r.
Proof. unfold rprod, aprod. induction l as [|x l [I1 I2]]; cbn; [lra|]. rewrite I1, I2. lra. Qed.
Lemma rs_perm l r : Permutation l r -> rsum l = rsum r /\ asum l = asum r /\ rprod l = rprod r /\ aprod l = aprod r.
Proof.
  unfold rsum, asum, rprod, aprod. induction 1 as [|x l r _ IH|x y l|l r s _ IH1 _ IH2]; cbn; [auto| | |].
  - destruct IH as [-> [-> [-> ->]]]. auto.
  - repeat split; lra.
  - destruct IH1 as [-> [-> [-> ->]]]. exact IH2.
Qed.
Lemma asum_pos l : 0 <= asum l /\ Rabs (rsum l) <= asum l.
Proof.
  unfold asum, rsum. induction l as [|x l [I1 I2]]; cbn; [rewrite Rabs_R0; lra|]. pose proof (Rabs_pos (B2R x)).
  pose proof (Rabs_triang (B2R x) (fold_right (fun y r => B2R y + r) 0 l)). lra.
Qed.
Lemma aprod_pos l : 1 <= aprod l /\ Rabs (rprod l) <= aprod l.
Proof.
  unfold aprod, rprod. induction l as [|x l [I1 I2]]; cbn; [rewrite Rabs_R1; lra|]. rewrite Rabs_mult.
  pose proof (Rabs_pos (B2R x)). pose proof (Rmax_l 1 (Rabs (B2R x))). pose proof (Rmax_r 1 (Rabs (B2R x))).
  split; [nra|]. apply Rmult_le_compat; auto; try lra. apply Rabs_pos.
Qed.
Lemma fins_app l r : fins (l ++ r) <-> fins l /\ fins r. Proof. apply Forall_app. Qed.
Lemma pd_pos l : 0 <= pd l. Proof. apply pos_INR. Qed.
Lemma pd_app l r : l <> [] -> r <> [] -> pd (l ++ r) = pd l + pd r + 1.
Proof.
  intros HL HR. unfold pd. rewrite app_length. destruct l as [|x l]; [contradiction|]. destruct r as [|y r]; [contradiction|].
  cbn [length Nat.pred]. replace (Nat.pred (S (length l) + S (length r)))%nat with (S (length l + length r)) by lia. rewrite S_INR, plus_INR. lra.
Qed.

(** A sum of n doubles differs from the exact sum by at most (n-1) 2^-51 times the
    sum of their sizes, in any order and under any rounding mode. *)
Lemma sum_err md l y : reduce (@Bplus _ _ Hprec64 Hmax64 md) (B754_zero false) l y -> fins l -> 2 * uro * pd l <= 1 ->
  forall B, isdbl B -> asum l * (1 + 2 * uro * pd l) <= B ->
  is_finite y = true /\ Rabs (B2R y - rsum l) <= 2 * uro * pd l * asum l /\ (l = [] -> B2R y = 0).
Proof.
  pose proof uro_pos as UP.
  induction 1 as [|x|l r x y H1 IH1 H2 IH2|l l' x HP H IH]; intros HF HN B HB HS.
  - split; [reflexivity|]. split; [|reflexivity]. unfold rsum, asum, pd. cbn. rewrite Rminus_0_r, Rabs_R0. lra.
  - inversion HF; subst. split; [assumption|]. split; [|discriminate]. unfold rsum, asum, pd. cbn. replace (B2R x - (B2R x + 0)) with 0 by ring. rewrite Rabs_R0. lra.
  - change (binary_float prec64 emax64) with b64 in *. apply fins_app in HF. destruct HF as [F1 F2]. destruct (rs_app l r) as [-> EA]. rewrite EA in *.
    pose proof (asum_pos l) as [AP1 AL1]. pose proof (asum_pos r) as [AP2 AL2]. pose proof (pd_pos l) as PL. pose proof (pd_pos r) as PR.
    assert (PM : pd l <= pd (l ++ r) /\ pd r <= pd (l ++ r)).
    { unfold pd. split; apply le_INR; rewrite app_length; lia. }
    destruct PM as [PM1 PM2].
    assert (N1 : 2 * uro * pd l <= 1) by nra. assert (N2 : 2 * uro * pd r <= 1) by nra.
    set (p := pd (l ++ r)) in *. 
    assert (S1 : asum l * (1 + 2 * uro * pd l) <= B).
    { eapply Rle_trans; [|exact HS]. apply Rmult_le_compat; nra. }
    assert (S2 : asum r * (1 + 2 * uro * pd r) <= B).
    { eapply Rle_trans; [|exact HS]. apply Rmult_le_compat; nra. }
    destruct (IH1 F1 N1 B HB S1) as [Q1 [E1 Z1]]. destruct (IH2 F2 N2 B HB S2) as [Q2 [E2 Z2]]. clear IH1 IH2.
    assert (XY : Rabs (B2R x + B2R y) <= asum l * (1 + 2 * uro * pd l) + asum r * (1 + 2 * uro * pd r)).
    { replace (B2R x + B2R y) with ((B2R x - rsum l) + (B2R y - rsum r) + (rsum l + rsum r)) by ring.
      eapply Rle_trans; [apply Rabs_triang|]. pose proof (Rabs_triang (B2R x - rsum l) (B2R y - rsum r)). pose proof (Rabs_triang (rsum l) (rsum r)). lra. }
    assert (XB : Rabs (B2R x + B2R y) <= B).
    { eapply Rle_trans; [exact XY|]. eapply Rle_trans; [|exact HS].
      assert (asum l * (1 + 2 * uro * pd l) <= asum l * (1 + 2 * uro * p)) by (apply Rmult_le_compat_l; [exact AP1|nra]).
      assert (asum r * (1 + 2 * uro * pd r) <= asum r * (1 + 2 * uro * p)) by (apply Rmult_le_compat_l; [exact AP2|nra]). lra. }
    destruct HB as [HB1 HB2].
    pose proof (Bplus_correct _ _ Hprec64 Hmax64 md x y Q1 Q2) as C. rewrite Rlt_bool_true in C.
    2:{ eapply Rle_lt_trans; [apply rnd_abs; [exact HB1|exact XB]|]. eapply Rle_lt_trans; [apply Rle_abs|exact HB2]. }
    destruct C as [C1 [C2 _]]. split; [exact C2|]. rewrite C1.
    pose proof (rnd_err_plus md (B2R x) (B2R y) (generic_format_B2R _ _ x) (generic_format_B2R _ _ y)) as RE.
    destruct l as [|a l]; [|destruct r as [|b r]].
    + rewrite (Z1 eq_refl) in *. rewrite Rplus_0_l in *. cbn [app] in *. unfold rsum, asum in *. cbn [fold_right] in *. rewrite !Rplus_0_l in *.
      rewrite round_generic; [|apply valid_rnd_round_mode|apply generic_format_B2R]. split; [exact E2|exact Z2].
    + rewrite (Z2 eq_refl) in *. rewrite Rplus_0_r in *. subst p; rewrite app_nil_r in *. change (rsum []) with 0. change (asum []) with 0. rewrite !Rplus_0_r.
      rewrite round_generic; [|apply valid_rnd_round_mode|apply generic_format_B2R]. split; [exact E1|discriminate].
    + split; [|discriminate]. assert (EP : p = pd (a :: l) + pd (b :: r) + 1) by (apply pd_app; discriminate).
      set (L := a :: l) in *. set (R' := b :: r) in *.
      assert (T1 : 2 * uro * pd L * asum L <= asum L) by nra. assert (T2 : 2 * uro * pd R' * asum R' <= asum R') by nra.
      replace (rnd md (B2R x + B2R y) - (rsum L + rsum R')) with ((rnd md (B2R x + B2R y) - (B2R x + B2R y)) + ((B2R x - rsum L) + (B2R y - rsum R'))) by ring.
      eapply Rle_trans; [apply Rabs_triang|]. pose proof (Rabs_triang (B2R x - rsum L) (B2R y - rsum R')) as TR.
      assert (RE' : Rabs (rnd md (B2R x + B2R y) - (B2R x + B2R y)) <= 2 * uro * (asum L + asum R')) by (eapply Rle_trans; [exact RE|]; nra).
      rewrite EP.
      assert (0 <= 2 * uro * pd L * asum R') by (repeat apply Rmult_le_pos; lra).
      assert (0 <= 2 * uro * pd R' * asum L) by (repeat apply Rmult_le_pos; lra). nra.
  - change (binary_float prec64 emax64) with b64 in *. destruct (rs_perm l l' HP) as [<- [<- _]]. assert (EL : pd l' = pd l) by (unfold pd; now rewrite (Permutation_length HP)).
    destruct (rs_perm l l' HP) as [_ [EA _]]. rewrite EL in *. rewrite <- EA in HS.
    assert (HF' : fins l) by (eapply Permutation_Forall; [apply Permutation_sym; exact HP|exact HF]).
    destruct (IH HF' HN B HB HS) as [Q1 [Q2 Q3]]. split; [exact Q1|]. split; [exact Q2|]. intros ->. apply Q3.
    now apply Permutation_sym, Permutation_nil in HP.
Qed.
(** A product of n doubles: at most (n-1) 2^-50 times the product of their sizes,
    those below 1 counting as 1. *)
Lemma prod_err md l y : reduce (@Bmult _ _ Hprec64 Hmax64 md) (ofdy md 1 0) l y -> fins l -> 4 * uro * (pd l * pd l) <= / 4 ->
  forall B, isdbl B -> aprod l * (1 + 4 * uro * pd l) <= B ->
  is_finite y = true /\ Rabs (B2R y - rprod l) <= 4 * uro * pd l * aprod l /\ (l = [] -> B2R y = 1).
Proof.
  pose proof uro_pos as UP. pose proof eta_uro as EU. pose proof eta_pos as EPOS.
  assert (U4 : 4 * uro <= / 8) by (unfold uro; change (-52)%Z with (-5 + -47)%Z; rewrite bpow_plus; pose proof (bpow_le radix2 (-47) 0 ltac:(lia)) as Q; cbn in Q |- *; lra).
  assert (ONE : B2R (ofdy md 1 0) = 1 /\ is_finite (ofdy md 1 0) = true).
  { destruct (b_Z md 1 0) as [F V]. split; [|exact F]. change (B2R (ofdy md 1 0) = dval (1, 0)%Z) in V. rewrite V. unfold dval, fv, F2R. cbn. lra. }
  induction 1 as [|x|l r x y H1 IH1 H2 IH2|l l' x HP H IH]; intros HF HN B HB HS.
  - destruct ONE as [V F]. split; [exact F|]. split; [|auto]. rewrite V. unfold rprod, aprod, pd. cbn. rewrite Rminus_diag_eq, Rabs_R0 by reflexivity. lra.
  - inversion HF; subst. split; [assumption|]. split; [|discriminate]. unfold rprod, aprod, pd. cbn. rewrite Rmult_1_r, Rminus_diag_eq, Rabs_R0 by reflexivity. lra.
  - change (binary_float prec64 emax64) with b64 in *. apply fins_app in HF. destruct HF as [F1 F2]. destruct (rp_app l r) as [-> EA]. rewrite EA in *.
    pose proof (aprod_pos l) as [AP1 AL1]. pose proof (aprod_pos r) as [AP2 AL2]. pose proof (pd_pos l) as PL. pose proof (pd_pos r) as PR.
    assert (PM : pd l <= pd (l ++ r) /\ pd r <= pd (l ++ r)).
    { unfold pd. split; apply le_INR; rewrite app_length; lia. }
    destruct PM as [PM1 PM2]. set (p := pd (l ++ r)) in *.
    assert (N1 : 4 * uro * (pd l * pd l) <= / 4) by (eapply Rle_trans; [|exact HN]; apply Rmult_le_compat_l; [lra|apply Rmult_le_compat; lra]).
    assert (N2 : 4 * uro * (pd r * pd r) <= / 4) by (eapply Rle_trans; [|exact HN]; apply Rmult_le_compat_l; [lra|apply Rmult_le_compat; lra]).
    assert (AP12 : aprod l <= aprod l * aprod r /\ aprod r <= aprod l * aprod r) by nra.
    assert (S1 : aprod l * (1 + 4 * uro * pd l) <= B).
    { eapply Rle_trans; [|exact HS]. apply Rmult_le_compat; try lra; nra. }
    assert (S2 : aprod r * (1 + 4 * uro * pd r) <= B).
    { eapply Rle_trans; [|exact HS]. apply Rmult_le_compat; try lra; nra. }
    destruct (IH1 F1 N1 B HB S1) as [Q1 [E1 Z1]]. destruct (IH2 F2 N2 B HB S2) as [Q2 [E2 Z2]]. clear IH1 IH2.
    destruct HB as [HB1 HB2].
    assert (FIN : Rabs (B2R x * B2R y) <= B -> is_finite (Bmult md x y) = true /\ B2R (Bmult md x y) = rnd md (B2R x * B2R y)).
    { intros XB. pose proof (Bmult_correct _ _ Hprec64 Hmax64 md x y) as C. rewrite Rlt_bool_true in C.
      2:{ eapply Rle_lt_trans; [apply rnd_abs; [exact HB1|exact XB]|]. eapply Rle_lt_trans; [apply Rle_abs|exact HB2]. }
      rewrite Q1, Q2 in C. cbn [andb] in C. tauto. }
    assert (MX : Rabs (B2R x) <= aprod l * (1 + 4 * uro * pd l)).
    { replace (B2R x) with ((B2R x - rprod l) + rprod l) by ring. eapply Rle_trans; [apply Rabs_triang|]. lra. }
    assert (MY : Rabs (B2R y) <= aprod r * (1 + 4 * uro * pd r)).
    { replace (B2R y) with ((B2R y - rprod r) + rprod r) by ring. eapply Rle_trans; [apply Rabs_triang|]. lra. }
    destruct l as [|a l]; [|destruct r as [|b r]].
    + assert (EL : rprod [] = 1 /\ aprod [] = 1) by (split; reflexivity). destruct EL as [E3 E4]. rewrite E3, E4, !Rmult_1_l in *.
      rewrite (Z1 eq_refl) in *. rewrite Rmult_1_l in *. cbn [app] in *.
      destruct FIN as [FI1 FI2]; [lra|]. split; [exact FI1|]. rewrite FI2.
      rewrite round_generic; [|apply valid_rnd_round_mode|apply generic_format_B2R]. split; [exact E2|exact Z2].
    + assert (EL : rprod [] = 1 /\ aprod [] = 1) by (split; reflexivity). destruct EL as [E3 E4]. rewrite E3, E4, !Rmult_1_r in *.
      rewrite (Z2 eq_refl) in *. rewrite Rmult_1_r in *. subst p; rewrite app_nil_r in *.
      destruct FIN as [FI1 FI2]; [lra|]. split; [exact FI1|]. rewrite FI2.
      rewrite round_generic; [|apply valid_rnd_round_mode|apply generic_format_B2R]. split; [exact E1|discriminate].
    + assert (EP : p = pd (a :: l) + pd (b :: r) + 1) by (apply pd_app; discriminate).
      set (L := a :: l) in *. set (R' := b :: r) in *. set (A := pd L) in *. set (D := pd R') in *. set (WL := aprod L) in *. set (WR := aprod R') in *.
      assert (AB : 4 * uro * (A * D) <= / 4).
      { eapply Rle_trans; [|exact HN]. apply Rmult_le_compat_l; [lra|]. apply Rmult_le_compat; lra. }
      assert (PP : 1 <= p) by lra.
      assert (SM : 4 * uro * p <= / 4). { eapply Rle_trans; [|exact HN]. apply Rmult_le_compat_l; [lra|]. nra. }
      set (c := 4 * uro) in *.
      assert (CP : 0 < c) by (unfold c; lra).
      assert (G : (1 + c * A) * (1 + c * D) + uro * ((1 + c * A) * (1 + c * D)) + uro <= 1 + c * p).
      { assert (T : (1 + c * A) * (1 + c * D) <= 1 + c * (A + D) + c * / 4) by nra.
        assert (T2 : (1 + c * A) * (1 + c * D) <= 2) by nra. rewrite EP. unfold c in *. nra. }
      assert (WP : 0 < WL * WR) by nra.
      assert (XY : Rabs (B2R x * B2R y) <= WL * WR * ((1 + c * A) * (1 + c * D))).
      { rewrite Rabs_mult. eapply Rle_trans; [apply Rmult_le_compat; [apply Rabs_pos|apply Rabs_pos|exact MX|exact MY]|]. unfold c. right. ring. }
      assert (CC : 0 <= (1 + c * A) * (1 + c * D)) by (apply Rmult_le_pos; nra).
      destruct FIN as [FI1 FI2].
      { eapply Rle_trans; [exact XY|]. eapply Rle_trans; [|exact HS]. apply Rmult_le_compat_l; [lra|]. nra. }
      split; [exact FI1|]. split; [|discriminate]. rewrite FI2.
      pose proof (rnd_err md (B2R x * B2R y)) as RE.
      assert (DE : Rabs (B2R x * B2R y - rprod L * rprod R') <= WL * WR * ((1 + c * A) * (1 + c * D) - 1)).
      { replace (B2R x * B2R y - rprod L * rprod R') with ((B2R x - rprod L) * (B2R y - rprod R') + ((B2R x - rprod L) * rprod R' + rprod L * (B2R y - rprod R'))) by ring.
        eapply Rle_trans; [apply Rabs_triang|]. 
        pose proof (Rabs_triang ((B2R x - rprod L) * rprod R') (rprod L * (B2R y - rprod R'))) as TR. rewrite !Rabs_mult in *.
        assert (X1 : Rabs (B2R x - rprod L) * Rabs (B2R y - rprod R') <= (c * A * WL) * (c * D * WR)) by (apply Rmult_le_compat; auto using Rabs_pos).
        assert (X2 : Rabs (B2R x - rprod L) * Rabs (rprod R') <= (c * A * WL) * WR) by (apply Rmult_le_compat; auto using Rabs_pos).
        assert (X3 : Rabs (rprod L) * Rabs (B2R y - rprod R') <= WL * (c * D * WR)) by (apply Rmult_le_compat; auto using Rabs_pos).
        replace (WL * WR * ((1 + c * A) * (1 + c * D) - 1)) with ((c * A * WL) * (c * D * WR) + ((c * A * WL) * WR + WL * (c * D * WR))) by ring. lra. }
      replace (rnd md (B2R x * B2R y) - rprod L * rprod R') with ((rnd md (B2R x * B2R y) - B2R x * B2R y) + (B2R x * B2R y - rprod L * rprod R')) by ring.
      eapply Rle_trans; [apply Rabs_triang|].
      assert (RE' : uro * Rabs (B2R x * B2R y) + eta <= WL * WR * (uro * ((1 + c * A) * (1 + c * D)) + uro)).
      { assert (uro * Rabs (B2R x * B2R y) <= uro * (WL * WR * ((1 + c * A) * (1 + c * D)))) by (apply Rmult_le_compat_l; [lra|exact XY]).
        assert (eta <= WL * WR * uro) by nra. nra. }
      assert (WL * WR * ((1 + c * A) * (1 + c * D) + uro * ((1 + c * A) * (1 + c * D)) + uro) <= WL * WR * (1 + c * p)) by (apply Rmult_le_compat_l; lra).
      fold c. replace (c * p * (WL * WR)) with (WL * WR * (1 + c * p) - WL * WR) by ring. lra.
  - change (binary_float prec64 emax64) with b64 in *. destruct (rs_perm l l' HP) as [_ [_ [<- <-]]]. assert (EL : pd l' = pd l) by (unfold pd; now rewrite (Permutation_length HP)).
    destruct (rs_perm l l' HP) as [_ [_ [_ EA]]]. rewrite EL in *. rewrite <- EA in HS.
    assert (HF' : fins l) by (eapply Permutation_Forall; [apply Permutation_sym; exact HP|exact HF]).
    destruct (IH HF' HN B HB HS) as [Q1 [Q2 Q3]]. split; [exact Q1|]. split; [exact Q2|]. intros ->. apply Q3.
    now apply Permutation_sym, Permutation_nil in HP.
Qed.
