(** Total derivatives of a function of finitely many variable cells. *)
From Coq Require Import Reals.
From Verif Require Import Spec.
Open Scope R_scope.

(** The l1 norm of a displacement of the first [M] cells. *)
Definition nrm1 (M : nat) (h : nat -> R) : R := sumn M (fun o => Rabs (h o)).
(** The point [rho + h]. *)
Definition shift (rho h : nat -> R) : nat -> R := fun o => rho o + h o.
(** [L] is the total (Frechet) derivative of [F] at [rho] among displacements of
    the first [M] cells that leave the cells [Z] alone: the linear approximation
    is good to first order, in all directions at once. *)
Definition total_derivative (M : nat) (Z : nat -> Prop) (F : (nat -> R) -> R) (rho L : nat -> R) : Prop :=
  forall eps, 0 < eps -> exists delta, 0 < delta /\
    forall h, (forall o, Z o \/ (M <= o)%nat -> h o = 0) -> nrm1 M h <= delta ->
      Rabs (F (shift rho h) - F rho - sumn M (fun o => L o * h o)) <= eps * nrm1 M h.
