(** What the theorems about floating point say: the number a checked dyadic pair
    is, doubles holding exactly a number, doubles inside a box. *)
From Coq Require Import ZArith Reals Permutation.
From Flocq Require Import Core BinarySingleNaN.
From Verif Require Import Base Num Expr Machine Ieee XR.
Local Open Scope Z_scope.

(** m * 2^e *)
Definition fv (m e : Z) : R := F2R (Float radix2 m e).
Definition dval (x : Z * Z) : R := fv (fst x) (snd x).
(** The double is finite and equal to the number (nothing is said if there is none). *)
Definition exactB (x : dy) (y : b64) : Prop :=
  match x with Some z => is_finite y = true /\ B2R y = dval z | None => True end.
(** The double is z * 2^e for an integer |z| <= a. *)
Definition inboxB (b : dy) (y : b64) : Prop :=
  match b with Some (a, e) => is_finite y = true /\ exists z, Z.abs z <= a /\ B2R y = fv z e | None => True end.
(** [y] is the result of combining the numbers of a list by [op] in some order,
    possibly with more copies of the neutral number [u]. *)
Inductive reduce {T} (op : T -> T -> T) (u : T) : list T -> T -> Prop :=
| red_unit : reduce op u [] u
| red_one x : reduce op u [x] x
| red_op l r x y : reduce op u l x -> reduce op u r y -> reduce op u (l ++ r) (op x y)
| red_perm l l' x : Permutation l l' -> reduce op u l x -> reduce op u l' x.
(** Eigen's sum() and prod() add and multiply in some order. *)
Definition redok (md : mode) (L : libm) : Prop := forall l : list b64,
  reduce (@Bplus _ _ Hprec64 Hmax64 md) (B754_zero false) l (lm_sum L l) /\
  reduce (@Bmult _ _ Hprec64 Hmax64 md) (ofdy md 1 0) l (lm_prod L l).
(** The real numbers in a block of doubles. *)
Definition reals (m : mem b64) (b : nat) : nat -> R := fun o => match m b o with Some y => B2R y | None => 0%R end.
Definition toreal (y : b64) : xr := Fin (B2R y).
