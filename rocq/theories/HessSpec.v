(** Second derivatives: specification. *)
From Coq Require Import Reals List Bool.
From Coquelicot Require Import Coquelicot.
From Verif Require Import Base Num Expr Node Stat Machine Wf Session Tape XR Spec Grad Forward Ieee Hess.
Import ListNotations.
Local Open Scope R_scope.

(** The point reached from [rho] in direction [d] at time [t]. *)
Definition line (rho d : nat -> R) (t : R) : nat -> R := fun o => rho o + t * d o.
(** ForwardVar(x, d) *)
Definition du {la} (x d : R) : Duo (XR la) := Dual (N := XR la) (Fin x) (Fin d).
(** The program over ForwardVar and over the reals. *)
Definition uD {la} (u : expr R unit) : expr (Duo (XR la)) unit := cmap (fun c => du c 0) u.
Definition uR (u : expr R unit) : expr xr unit := cmap Fin u.
(** The variables of [u] hold [rho] with tangents [d], their adjoints [al] with
    tangents [be], the constant buffers [D]. *)
Definition dreal {la} (u : expr R unit) (m : mem (Duo (XR la))) (D rho d al be : nat -> R) : Prop :=
  (forall o, In o (refs u) -> m 0%nat o = Some (du (rho o) (d o)) /\ m 1%nat o = Some (du (al o) (be o))) /\
  (forall o, In o (drefs u) -> m 4%nat o = Some (du (D o) 0)).

(** First and second partial derivatives of the first component, by the textbook:
    [h] is the derivative, in the variable [i], of the partial derivative in [o]. *)
Definition partial1 (D : nat -> R) (u : expr R unit) (rho : nat -> R) (i : nat) (g : R) : Prop :=
  is_derive (fun x => el (val D (uR u) (set1 rho i x)) 0%nat) (rho i) g.
Definition partial2 (D : nat -> R) (u : expr R unit) (rho : nat -> R) (i o : nat) (h : R) : Prop :=
  exists G : R -> R, locally (rho i) (fun x => partial1 D u (set1 rho i x) o (G x)) /\ is_derive G (rho i) h.
