(** A function differentiable along all curves (with a linear derivative) is
    differentiable. *)
From Coq Require Import Reals Lra Lia FunctionalExtensionality ClassicalEpsilon Classical Arith.
From Coquelicot Require Import Coquelicot.
From Verif Require Import Spec Frechet LReal.
Open Scope R_scope.
Set Bullet Behavior "Strict Subproofs".

Lemma bw (u : nat -> R) : (forall n, Rabs (u n) <= 1) ->
  exists (psi : nat -> nat) l, (forall n, (n <= psi n)%nat) /\ Un_cv (fun n => u (psi n)) l.
Proof.
  intros HB.
  destruct (Bolzano_Weierstrass u (fun x => -1 <= x <= 1) (compact_P3 (-1) 1)) as [l Hl].
  { intros n. specialize (HB n). apply Rabs_le_between in HB. lra. }
  assert (C : forall n, exists p, (n <= p)%nat /\ Rabs (u p - l) < / (INR n + 1)).
  { intros n. assert (HP : 0 < / (INR n + 1)) by (apply Rinv_0_lt_compat; pose proof (pos_INR n); lra).
    destruct (Hl (disc l (mkposreal _ HP)) n) as [p [P1 P2]].
    - exists (mkposreal _ HP). intros x Hx. exact Hx.
    - exists p. split; [exact P1|exact P2]. }
  exists (fun n => proj1_sig (constructive_indefinite_description _ (C n))), l. split.
  - intros n. destruct (constructive_indefinite_description _ (C n)) as [p [P1 P2]]. exact P1.
  - intros eps He. destruct (archimed_cor1 eps He) as [K [K1 K2]]. exists K. intros n Hn.
    destruct (constructive_indefinite_description _ (C n)) as [p [P1 P2]]. cbn. unfold R_dist.
    eapply Rlt_trans; [exact P2|]. eapply Rle_lt_trans; [|exact K1]. apply Rinv_le_contravar.
    + now apply lt_0_INR.
    + apply le_INR in Hn. lra.
Qed.

(** Bounded sequences of [M] coordinates have a convergent subsequence. *)
Lemma bwM M (u : nat -> nat -> R) : (forall n o, Rabs (u n o) <= 1) ->
  exists (psi : nat -> nat) (l : nat -> R), (forall n, (n <= psi n)%nat) /\
    forall o, (o < M)%nat -> Un_cv (fun n => u (psi n) o) (l o).
Proof.
  intros HB. induction M as [|M [psi [l [P1 P2]]]].
  { exists (fun n => n), (fun _ => 0). split; [auto|]. intros; lia. }
  destruct (bw (fun n => u (psi n) M)) as [ph [l0 [Q1 Q2]]]; [intros; apply HB|].
  exists (fun n => psi (ph n)), (fun o => if (o =? M)%nat then l0 else l o). split.
  - intros n. etransitivity; [apply Q1|apply P1].
  - intros o Ho. destruct (Nat.eqb_spec o M) as [->|Hn]; [exact Q2|].
    intros eps He. destruct (P2 o ltac:(lia) eps He) as [K HK]. exists K. intros n Hn'. apply HK.
    specialize (Q1 n). lia.
Qed.

Lemma nrm1_pos M h : 0 <= nrm1 M h.
Proof. unfold nrm1. induction M as [|M IH]; cbn; [lra|]. pose proof (Rabs_pos (h M)). lra. Qed.
Lemma nrm1_el M h o : (o < M)%nat -> Rabs (h o) <= nrm1 M h.
Proof.
  induction M as [|M IH]; intros Ho; [lia|]. change (nrm1 (S M) h) with (nrm1 M h + Rabs (h M)).
  pose proof (nrm1_pos M h). pose proof (Rabs_pos (h M)).
  destruct (Nat.eq_dec o M) as [->|Hn]; [lra|]. specialize (IH ltac:(lia)). lra.
Qed.
Lemma nrm1_0 M h : nrm1 M h = 0 -> (forall o, (M <= o)%nat -> h o = 0) -> h = (fun _ => 0).
Proof.
  intros H0 HZ. apply functional_extensionality. intros o. destruct (le_lt_dec M o) as [Ho|Ho]; [now apply HZ|].
  pose proof (nrm1_el M h o Ho). pose proof (Rabs_pos (h o)). apply Rabs_eq_0. lra.
Qed.
Lemma cv_sumn M (L : nat -> R) (u : nat -> nat -> R) d : (forall o, (o < M)%nat -> Un_cv (fun n => u n o) (d o)) ->
  Un_cv (fun n => sumn M (fun o => L o * u n o)) (sumn M (fun o => L o * d o)).
Proof.
  induction M as [|M IH]; intros H; cbn [sumn].
  - intros eps He. exists 0%nat. intros. unfold R_dist. rewrite Rminus_diag_eq by reflexivity. now rewrite Rabs_R0.
  - apply CV_plus; [apply IH; intros; apply H; lia|].
    apply (CV_mult (fun _ => L M)); [|apply H; lia].
    intros eps He. exists 0%nat. intros. unfold R_dist. rewrite Rminus_diag_eq by reflexivity. now rewrite Rabs_R0.
Qed.
(** Below the first [K] of finitely many positive numbers. *)
Lemma below (t : nat -> R) K : (forall n, 0 < t n) -> exists dl, 0 < dl /\ forall n, (n < K)%nat -> dl <= t n.
Proof.
  intros HT. induction K as [|K [dl [D1 D2]]]; [exists 1; split; [lra|lia]|].
  exists (Rmin dl (t K)). split; [now apply Rmin_pos|]. intros n Hn. destruct (Nat.eq_dec n K) as [->|Hk]; [apply Rmin_r|].
  eapply Rle_trans; [apply Rmin_l|apply D2; lia].
Qed.

Lemma hadamard_frechet M (Z : nat -> Prop) (F : (nat -> R) -> R) (rho L : nat -> R) :
  (forall (g : R -> nat -> R) dg, g 0 = rho -> (forall o, is_derive (fun x => g x o) 0 (dg o)) ->
     (forall o, Z o \/ (M <= o)%nat -> dg o = 0) -> is_derive (fun x => F (g x)) 0 (sumn M (fun o => L o * dg o))) ->
  total_derivative M Z F rho L.
Proof.
  intros HF eps He. apply NNPP. intros HN.
  assert (HH : forall n : nat, exists h, (forall o, Z o \/ (M <= o)%nat -> h o = 0) /\ nrm1 M h <= / (INR n + 1) /\
    eps * nrm1 M h < Rabs (F (shift rho h) - F rho - sumn M (fun o => L o * h o))).
  { intros n. apply NNPP. intros HC. apply HN. exists (/ (INR n + 1)). split.
    { apply Rinv_0_lt_compat. pose proof (pos_INR n). lra. }
    intros h H1 H2. apply Rnot_lt_le. intros H3. apply HC. exists h. auto. }
  set (hs := fun n => proj1_sig (constructive_indefinite_description _ (HH n))).
  assert (S0 : forall n, (forall o, Z o \/ (M <= o)%nat -> hs n o = 0) /\ nrm1 M (hs n) <= / (INR n + 1) /\
    eps * nrm1 M (hs n) < Rabs (F (shift rho (hs n)) - F rho - sumn M (fun o => L o * hs n o))).
  { intros n. unfold hs. now destruct (constructive_indefinite_description _ (HH n)). }
  clearbody hs. clear HH HN.
  assert (S1 : forall n, 0 < nrm1 M (hs n)).
  { intros n. destruct (S0 n) as [A [B C]]. destruct (nrm1_pos M (hs n)) as [P|P]; [exact P|]. exfalso.
    assert (E : hs n = fun _ => 0) by (apply (nrm1_0 M); auto). rewrite E in C. rewrite <- E in C at 1. rewrite <- P in C.
    rewrite (sumn_0 M (fun o => L o * 0)) in C by (intros; ring).
    replace (shift rho (fun _ => 0)) with rho in C by (apply functional_extensionality; intros; unfold shift; ring).
    replace (F rho - F rho - 0) with 0 in C by ring. rewrite Rabs_R0 in C. lra. }
  set (t0 := fun n => nrm1 M (hs n)) in *.
  destruct (bwM M (fun n o => if lt_dec o M then hs n o / t0 n else 0)) as [psi [l [P1 P2]]].
  { intros n o. destruct (lt_dec o M) as [Ho|Ho]; [|rewrite Rabs_R0; lra].
    unfold Rdiv. rewrite Rabs_mult, (Rabs_right (/ _)) by (apply Rle_ge, Rlt_le, Rinv_0_lt_compat, S1).
    apply (Rmult_le_reg_r (t0 n)); [apply S1|]. rewrite Rmult_assoc, Rinv_l, Rmult_1_r, Rmult_1_l by (apply Rgt_not_eq, S1).
    now apply nrm1_el. }
  set (d := fun o => if excluded_middle_informative (Z o \/ (M <= o)%nat) then 0 else l o).
  set (t := fun n => t0 (psi n)). set (w := fun n o => hs (psi n) o / t n).
  assert (T0 : forall n, 0 < t n) by (intros; apply S1).
  assert (W0 : forall o, Un_cv (fun n => w n o) (d o)).
  { intros o eta Hq. unfold d. destruct (excluded_middle_informative _) as [HZ|HZ].
    - exists 0%nat. intros n _. unfold w. rewrite (proj1 (S0 (psi n)) o HZ). unfold R_dist, Rdiv. rewrite Rmult_0_l, Rminus_0_r, Rabs_R0. exact Hq.
    - assert (Ho : (o < M)%nat) by (apply not_le; intros ?; apply HZ; right; lia).
      destruct (P2 o Ho eta Hq) as [K HK]. exists K. intros n Hn. specialize (HK n Hn). cbv beta in HK.
      destruct (lt_dec o M); [exact HK|contradiction]. }
  assert (TC : forall eta, 0 < eta -> exists n, t n < eta).
  { intros eta Hq. destruct (archimed_cor1 eta Hq) as [K [K1 K2]]. exists K. unfold t, t0.
    eapply Rle_lt_trans; [apply (S0 (psi K))|]. eapply Rle_lt_trans; [|exact K1]. apply Rinv_le_contravar.
    - now apply lt_0_INR.
    - pose proof (le_INR _ _ (P1 K)). lra. }
  assert (HW : forall n o, rho o + t n * w n o = shift rho (hs (psi n)) o).
  { intros n o. unfold w, shift. field. apply Rgt_not_eq, T0. }
  (* the curve through the points *)
  set (g := fun (x : R) o => match excluded_middle_informative (exists n, t n = x) with
    | left H => let n := proj1_sig (constructive_indefinite_description _ H) in rho o + t n * w n o
    | right _ => rho o + x * d o
    end).
  assert (G1 : forall x, (exists n, t n = x /\ g x = shift rho (hs (psi n))) \/ g x = (fun o => rho o + x * d o)).
  { intros x. unfold g. destruct (excluded_middle_informative _) as [H|H]; [left|now right].
    destruct (constructive_indefinite_description _ H) as [n Hn]. exists n. split; [exact Hn|]. cbn [proj1_sig].
    apply functional_extensionality. intros o. apply HW. }
  assert (G2 : forall n, exists n', t n' = t n /\ g (t n) = shift rho (hs (psi n'))).
  { intros n. unfold g. destruct (excluded_middle_informative _) as [H|H]; [|exfalso; apply H; now exists n].
    destruct (constructive_indefinite_description _ H) as [n' Hn]. exists n'. split; [exact Hn|]. cbn [proj1_sig].
    apply functional_extensionality. intros o. apply HW. }
  assert (G0 : g 0 = rho).
  { destruct (G1 0) as [[n [H _]]|H].
    - pose proof (T0 n). lra.
    - rewrite H. apply functional_extensionality. intros; ring. }
  assert (GD : forall o, is_derive (fun x => g x o) 0 (d o)).
  { intros o. apply is_derive_Reals. intros eta Hq. destruct (W0 o eta Hq) as [K HK]. destruct (below t K T0) as [dl [D1 D2]].
    exists (mkposreal dl D1). intros x Hx Hxd. cbn in Hxd. rewrite Rplus_0_l, G0.
    destruct (G1 x) as [[n [Hn E]]|E]; rewrite E.
    - assert (HKn : (K <= n)%nat).
      { apply not_lt. intros HL. specialize (D2 n HL). apply Rabs_def2 in Hxd. lra. }
      specialize (HK n HKn). unfold R_dist in HK.
      replace ((shift rho (hs (psi n)) o - rho o) / x - d o) with (w n o - d o); [exact HK|].
      rewrite <- HW, Hn. field. exact Hx.
    - replace ((rho o + x * d o - rho o) / x - d o) with 0 by (field; exact Hx). now rewrite Rabs_R0. }
  assert (FD := HF g d G0 GD ltac:(intros o HZ; unfold d; destruct (excluded_middle_informative _); [reflexivity|contradiction])).
  apply is_derive_Reals in FD. destruct (FD (eps / 2) ltac:(lra)) as [[dl D1] HD]. cbn in HD.
  destruct (cv_sumn M L w d (fun o _ => W0 o) (eps / 2) ltac:(lra)) as [K HK].
  destruct (below t K T0) as [dk [B1 B2]].
  destruct (TC (Rmin dl dk) ltac:(now apply Rmin_pos)) as [n Hn].
  destruct (G2 n) as [n' [E1 E2]].
  assert (HKn : (K <= n')%nat).
  { apply not_lt. intros HL. specialize (B2 n' HL). pose proof (Rmin_r dl dk). lra. }
  specialize (HK n' HKn). unfold R_dist in HK. pose proof (T0 n) as T.
  specialize (HD (t n) (Rgt_not_eq _ _ T)). rewrite Rplus_0_l, G0, E2, (Rabs_right (t n)) in HD by lra.
  specialize (HD ltac:(pose proof (Rmin_l dl dk); lra)).
  destruct (S0 (psi n')) as [_ [_ S]]. change (nrm1 M (hs (psi n'))) with (t n') in S. rewrite E1 in S.
  set (A := F (shift rho (hs (psi n'))) - F rho) in *.
  assert (EQ : sumn M (fun o => L o * hs (psi n') o) = t n * sumn M (fun o => L o * w n' o)).
  { rewrite <- sumn_l. apply sumn_ext. intros o _. unfold w. rewrite E1. field. lra. }
  rewrite EQ in S.
  assert (X : Rabs (A - t n * sumn M (fun o => L o * w n' o)) <= t n * eps); [|lra].
  replace (A - t n * sumn M (fun o => L o * w n' o)) with
    (t n * ((A / t n - sumn M (fun o => L o * d o)) - (sumn M (fun o => L o * w n' o) - sumn M (fun o => L o * d o)))) by (field; lra).
  rewrite Rabs_mult, (Rabs_right (t n)) by lra. apply Rmult_le_compat_l; [lra|].
  eapply Rle_trans; [apply Rabs_triang|]. rewrite Rabs_Ropp. lra.
Qed.
