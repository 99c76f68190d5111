(** Spec for repeated autodiff calls without a reset in between. *)
From Coq Require Import Reals.
From Coquelicot Require Import Coquelicot.
From Verif Require Import Base Num Expr XR Spec Nudge Grad.
Local Open Scope R_scope.

(** Derivative of component [k] of the value, and of the final value of variable
    [i], with respect to a change of variable [o] (Nudge.v). *)
Definition dvalue {A} (D : nat -> R) (u : expr xr A) (rho : nat -> R) (o k : nat) : R :=
  Derive (fun x => el (nval D (bump o x) u (fun i => rho i + bump o x i)) k) 0.
Definition dfinal {A} (D : nat -> R) (u : expr xr A) (rho : nat -> R) (o i : nat) : R :=
  Derive (fun x => nfin D (bump o x) u (fun j => rho j + bump o x j) i) 0.
(** One call with seed [s] takes the adjoints [al] to the derivatives of
    s . value + al . (final variables), variables below [M]. *)
Fixpoint adj_after (M : nat) (G H : nat -> nat -> R) (seeds : list (list R)) (al : nat -> R) : nat -> R :=
  match seeds with
  | [] => al
  | s :: l => adj_after M G H l (fun o => dotp s (G o) + sumn M (fun i => al i * H o i))
  end.
