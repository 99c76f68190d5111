(** Determinants: the Laplace expansion of Spec.v agrees with the determinant of
    mathcomp, from which expansion along any row, the adjugate and singularity
    are taken. *)
From Coq Require Import Reals Lra ClassicalEpsilon FunctionalExtensionality.
From Verif Require Import Base Num Expr XR Spec.
From mathcomp Require Import all_ssreflect all_fingroup all_algebra.
Local Notation sumn := Spec.sumn.
Set Implicit Arguments.
Unset Strict Implicit.
Unset Printing Implicit Defensive.

(** ** The reals as a mathcomp field *)
Definition Req_b (x y : R) : bool := if Req_EM_T x y then true else false.
Lemma Req_bP : Equality.axiom Req_b.
Proof. move=> x y. rewrite /Req_b. by case: Req_EM_T => H; constructor. Qed.
Canonical R_eqMixin := EqMixin Req_bP.
Canonical R_eqType := Eval hnf in EqType R R_eqMixin.

Definition Rfind (P : pred R) (n : nat) : option R :=
  match excluded_middle_informative (exists x, P x) with
  | left H => Some (proj1_sig (constructive_indefinite_description _ H))
  | right _ => None
  end.
Lemma Rfind_some P n x : Rfind P n = Some x -> P x.
Proof.
  rewrite /Rfind. case: excluded_middle_informative => [H|_] //. move=> [<-].
  exact: (proj2_sig (constructive_indefinite_description _ H)).
Qed.
Lemma Rfind_ex (P : pred R) : (exists x, P x) -> exists n, Rfind P n.
Proof. move=> H. exists O. rewrite /Rfind. by case: excluded_middle_informative. Qed.
Lemma Rfind_ext (P Q : pred R) : P =1 Q -> Rfind P =1 Rfind Q.
Proof. move=> H n. have -> // : P = Q. exact: functional_extensionality. Qed.
Definition R_choiceMixin : choiceMixin R := Choice.Mixin Rfind_some Rfind_ex Rfind_ext.
Canonical R_choiceType := Eval hnf in ChoiceType R R_choiceMixin.

Fact RaddA : associative (Rplus). Proof. move=> x y z. by rewrite Rplus_assoc. Qed.
Definition R_zmodMixin := ZmodMixin RaddA Rplus_comm Rplus_0_l Rplus_opp_l.
Canonical R_zmodType := Eval hnf in ZmodType R R_zmodMixin.
Fact RmulA : associative (Rmult). Proof. move=> x y z. by rewrite Rmult_assoc. Qed.
Fact R1_neq_0 : R1 != R0. Proof. by apply/eqP/R1_neq_R0. Qed.
Definition R_ringMixin := RingMixin RmulA Rmult_1_l Rmult_1_r Rmult_plus_distr_r Rmult_plus_distr_l R1_neq_0.
Canonical R_ringType := Eval hnf in RingType R R_ringMixin.
Canonical R_comRingType := Eval hnf in ComRingType R Rmult_comm.
Definition Rinvx (r : R) := if r == R0 then R0 else (/ r)%R.
Definition unit_R (r : R) := r != R0.
Lemma RmultRinvx : {in unit_R, left_inverse R1 Rinvx Rmult}.
Proof.
  move=> r. rewrite -topredE /unit_R /Rinvx => /= rNZ.
  rewrite (negbTE rNZ). apply: Rinv_l. by apply/eqP.
Qed.
Lemma RinvxRmult : {in unit_R, right_inverse R1 Rinvx Rmult}.
Proof.
  move=> r. rewrite -topredE /unit_R /Rinvx => /= rNZ.
  rewrite (negbTE rNZ). apply: Rinv_r. by apply/eqP.
Qed.
Lemma intro_unit_R (x y : R) : Rmult y x = R1 /\ Rmult x y = R1 -> unit_R x.
Proof. move=> [H _]. apply/eqP => E. move: H. rewrite E Rmult_0_r. by move/eqP; rewrite eq_sym (negbTE R1_neq_0). Qed.
Lemma Rinvx_out : {in predC unit_R, Rinvx =1 id}.
Proof. move=> x. rewrite inE /= /unit_R negbK => /eqP ->. by rewrite /Rinvx eqxx. Qed.
Definition R_unitRingMixin := UnitRingMixin RmultRinvx RinvxRmult intro_unit_R Rinvx_out.
Canonical R_unitRing := Eval hnf in UnitRingType R R_unitRingMixin.
Canonical R_comUnitRingType := Eval hnf in [comUnitRingType of R].
Lemma R_idomainMixin (x y : R) : (x * y)%R = R0 -> (x == R0) || (y == R0).
Proof. move=> H. case: (Rmult_integral _ _ H) => ->; by rewrite eqxx ?orbT. Qed.
Canonical R_idomainType := Eval hnf in IdomainType R R_idomainMixin.
Lemma R_fieldMixin : GRing.Field.mixin_of [unitRingType of R]. Proof. by done. Qed.
Canonical R_fieldType := FieldType R R_fieldMixin.

(** ** Bridge *)
Import GRing.Theory.
Local Open Scope ring_scope.
Notation RF := R_fieldType.
Definition mx (n : nat) (A : mat) : 'M[RF]_n := \matrix_(i, j) (A i j : RF).

Lemma sumn_big n (f : nat -> R) : sumn n f = \sum_(i < n) (f i : RF).
Proof. elim: n f => [|n IH] f; first by rewrite big_ord0. rewrite big_ord_recr /= IH. reflexivity. Qed.
Lemma pow_exp (x : R) n : pow x n = ((x : RF) ^+ n).
Proof. elim: n => [|n IH]; first by rewrite expr0. rewrite exprS /= IH. reflexivity. Qed.
Lemma m1E : IZR (-1) = (-1 : RF).
Proof. change (IZR (-1) = Ropp R1). Lra.lra. Qed.
Lemma skip_bump p i : skip p i = bump p i.
Proof.
  rewrite /skip /bump. case: Nat.ltb_spec => H; rewrite leqNgt.
  - have -> : (i < p)%N by apply/ltP. by rewrite add0n.
  - have -> : (i < p)%N = false by apply/negbTE; rewrite -leqNgt; apply/leP. by rewrite add1n.
Qed.
Lemma minor_mx n A (i j : 'I_n.+1) : mx n (minor A i j) = row' i (col' j (mx n.+1 A)).
Proof. apply/matrixP => a b. by rewrite !mxE /minor !skip_bump. Qed.
Lemma det_mx n A : det n A = \det (mx n A).
Proof.
  elim: n A => [|n IH] A; first by rewrite det_mx00.
  rewrite (expand_det_row _ ord0) /cofactor -/det.
  change (sumn n.+1 (fun j => Rmult (Rmult (pow (IZR (-1)) j) (A 0%N j)) (det n (minor A 0 j))) =
          \sum_(j < n.+1) mx n.+1 A ord0 j * ((-1) ^+ (@ord0 n + j) * \det (row' (@ord0 n) (col' j (mx n.+1 A))))).
  rewrite sumn_big. apply: eq_bigr => j _.
  rewrite IH (minor_mx A ord0 j) pow_exp m1E mxE add0n.
  change ((-1 : RF) ^+ j * A 0%N j * \det (row' (@ord0 n) (col' j (mx n.+1 A))) =
          (A 0%N j : RF) * ((-1) ^+ j * \det (row' (@ord0 n) (col' j (mx n.+1 A))))).
  by rewrite mulrCA mulrA.
Qed.
Lemma cof_mx n A (i j : 'I_n) : Rmult (pow (IZR (-1)) (i + j)%coq_nat) (det (Nat.pred n) (minor A i j)) = cofactor (mx n A) i j.
Proof.
  case: n i j => [[]//|n] i j. rewrite /cofactor -minor_mx -det_mx pow_exp m1E. by rewrite plusE.
Qed.

(** ** Exported facts, in terms of Spec.v only *)
Definition setrow (A : mat) (i : nat) (v : nat -> R) : mat := fun a b => if Nat.eqb a i then v b else A a b.
Definition cof (n : nat) (A : mat) (i j : nat) : R := Rmult (pow (IZR (-1)) (i + j)%coq_nat) (det (Nat.pred n) (minor A i j)).

Lemma det_setrow n A i v : lt i n -> det n (setrow A i v) = sumn n (fun j => Rmult (v j) (cof n A i j)).
Proof.
  move=> /ltP Hi. pose i0 := Ordinal Hi.
  rewrite det_mx (expand_det_row _ i0) sumn_big. apply: eq_bigr => j _.
  rewrite mxE /setrow Nat.eqb_refl /cof (cof_mx A i0 j).
  have -> // : cofactor (mx n (setrow A i v)) i0 j = cofactor (mx n A) i0 j.
  rewrite /cofactor. congr (_ * \det _). apply/matrixP => a b. rewrite !mxE.
  rewrite /setrow. case: (Nat.eqb_spec (lift i0 a) i) => // E. exfalso.
  have : lift i0 a = i0 by apply: val_inj. move/eqP. by rewrite eq_sym (negbTE (neq_lift i0 a)).
Qed.
Lemma mul_adj n A i j : lt i n -> lt j n ->
  sumn n (fun p => Rmult (A i p) (cof n A j p)) = if Nat.eqb i j then det n A else R0.
Proof.
  move=> /ltP Hi /ltP Hj. have := mul_mx_adj (mx n A).
  move/matrixP => /(_ (Ordinal Hi) (Ordinal Hj)). rewrite !mxE -det_mx => H.
  rewrite sumn_big. transitivity (det n A *+ (Ordinal Hi == Ordinal Hj) : RF).
  - rewrite -H. apply: eq_bigr => p _. rewrite !mxE. by rewrite /cof (cof_mx A (Ordinal Hj) p).
  - rewrite -val_eqE /=. case: Nat.eqb_spec => [->|E]; first by rewrite eqxx.
    have -> : (i == j)%N = false by apply/eqP. by [].
Qed.
Lemma adj_mul n A i j : lt i n -> lt j n ->
  sumn n (fun p => Rmult (cof n A p i) (A p j)) = if Nat.eqb i j then det n A else R0.
Proof.
  move=> /ltP Hi /ltP Hj. have := mul_adj_mx (mx n A).
  move/matrixP => /(_ (Ordinal Hi) (Ordinal Hj)). rewrite !mxE -det_mx => H.
  rewrite sumn_big. transitivity (det n A *+ (Ordinal Hi == Ordinal Hj) : RF).
  - rewrite -H. apply: eq_bigr => p _. rewrite !mxE. by rewrite /cof (cof_mx A p (Ordinal Hi)).
  - rewrite -val_eqE /=. case: Nat.eqb_spec => [->|E]; first by rewrite eqxx.
    have -> : (i == j)%N = false by apply/eqP. by [].
Qed.
Lemma det_zero_ker n A : det n A = R0 ->
  exists x : nat -> R, (exists i, lt i n /\ x i <> R0) /\
    forall j, lt j n -> sumn n (fun i => Rmult (x i) (A i j)) = R0.
Proof.
  rewrite det_mx => H. have /det0P [v Hv Hm] : \det (mx n A) == 0 by apply/eqP.
  pose x (i : nat) : R := match @idP (i < n)%N with ReflectT Hi => v ord0 (Ordinal Hi) | _ => R0 end.
  have xE (i : 'I_n) : x i = v ord0 i.
  { rewrite /x. case: {-}_ / idP => [Hi|/negP]; last by rewrite ltn_ord. by congr (v _ _); apply: val_inj. }
  exists x. split.
  - have [i Hi] : exists i, v ord0 i != 0.
    { apply/existsP. apply: contraR Hv. rewrite negb_exists => /forallP Hz.
      apply/eqP/matrixP => a b. rewrite mxE ord1. apply/eqP. move: (Hz b). by rewrite negbK. }
    exists i. split; first by apply/ltP. rewrite xE. by apply/eqP.
  - move=> j /ltP Hj. move/matrixP: Hm => /(_ ord0 (Ordinal Hj)). rewrite !mxE => Hm.
    rewrite sumn_big. etransitivity; last exact: Hm. apply: eq_bigr => i _. by rewrite !mxE xE.
Qed.
Lemma det_transp n A : det n (fun i j => A j i) = det n A.
Proof. rewrite !det_mx -[in RHS]det_tr. congr (\det _). apply/matrixP => i j. by rewrite !mxE. Qed.
Lemma det_ext n A B : (forall i j, lt i n -> lt j n -> A i j = B i j) -> det n A = det n B.
Proof. move=> H. rewrite !det_mx. congr (\det _). apply/matrixP => i j. rewrite !mxE. apply: H; by apply/ltP. Qed.
Lemma det_mul n A B : det n (fun i j => sumn n (fun p => Rmult (A i p) (B p j))) = Rmult (det n A) (det n B).
Proof.
  rewrite !det_mx. transitivity (\det (mx n A *m mx n B)); last by rewrite det_mulmx.
  congr (\det _). apply/matrixP => i j. rewrite !mxE sumn_big. apply: eq_bigr => p _. by rewrite !mxE.
Qed.
Lemma det_id n : det n (fun i j => if Nat.eqb i j then R1 else R0) = R1.
Proof.
  rewrite det_mx. transitivity (\det (1%:M : 'M[RF]_n)); last by rewrite det1.
  congr (\det _). apply/matrixP => i j. rewrite !mxE. case: Nat.eqb_spec => [E|E].
  - have -> : i = j by apply: val_inj. by rewrite eqxx.
  - by have -> : (i == j) = false by apply/negbTE/eqP => H; apply: E; rewrite H.
Qed.
