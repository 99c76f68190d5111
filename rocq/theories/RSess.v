(** States of a bound expression whose variables hold real numbers. *)
From Coq Require Import Reals.
From Verif Require Import Base Num Expr Node Stat Machine Wf Session Tape XR Spec.
Open Scope R_scope.

Section RSess.
Variable la : linalg xr.
Notation N := (XR la).
Notation E := (expr N (ann N)).
Notation U := (expr N unit).

(** Well-formed, no placeholder assigned after it was used, finite constants. *)
Definition okexpr (u : U) : Prop := wfs u = true /\ disc u = true /\ cfin (u : expr xr unit).

(** [e1], [m1]: expression [u] after [auto expr = ad::bind(u)] and any sequence of
    evaluate and autodiff calls on it, interleaved with arbitrary client writes
    (to variables, adjoints, constant buffers, even caches).  [D] are the
    contents of the constant buffers; those that are operands of log-density
    nodes must be the ones seen by the constructors (sdrefs). *)
Definition session (bv ba : nat) (u : U) (D : nat -> R) (e1 : E) (m1 : mem N) : Prop :=
  exists m uv ua e m0 ops, fresh bv ba /\ avail u m /\
    bound bv ba uv ua u m = Ok (e, m0) /\
    Forall (op_ok (size (shape_of u))) ops /\ run ops (e, m0) = Ok (e1, m1) /\
    forall o, In o (sdrefs u) -> m 4%nat o = Some (Fin (D o)).

(** The variables of [u] hold [r], their adjoints [al], the constant buffers [D]. *)
Definition mreal (u : U) (m : mem N) (D r al : nat -> R) : Prop :=
  (forall o, In o (refs u) -> m 0%nat o = Some (Fin (r o)) /\ m 1%nat o = Some (Fin (al o))) /\
  (forall o, In o (drefs u) -> m 4%nat o = Some (Fin (D o))).

(** Cells read before they are assigned: the inputs of an expression. *)
Fixpoint inputs {T A} (e : expr T A) : list nat :=
  let keep (a l : list nat) := filter (fun o => negb (existsb (Nat.eqb o) a)) l in
  match e with
  | EVar sh o => cells sh o
  | ECst _ _ | ECvw _ _ => []
  | EComp _ _ es | EFor _ _ es =>
      (fix go es := match es with [] => [] | y :: l => inputs y ++ keep (da y) (go l) end) es
  | EEq _ _ _ y => inputs y
  | EOpEq _ _ sh o y => inputs y ++ cells sh o
  | EGlue _ a b => inputs a ++ keep (da a) (inputs b)
  | EIf _ c t f => inputs c ++ keep (da c) (inputs t ++ inputs f)
  end.

(** The client zeroes the adjoints of all variables that [u] assigns. *)
Definition reset (u : U) (m : mem N) : mem N := fun b o =>
  if (b =? 1)%nat && existsb (Nat.eqb o) (writes u)
  then match m b o with None => None | Some _ => Some (Fin 0) end
  else m b o.
(** autodiff once for every seed, resetting in between. *)
Fixpoint diffs (u : U) (seeds : list (list R)) (e : E) (m : mem N) : res (E * mem N) :=
  match seeds with
  | [] => Ok (e, m)
  | s :: l => '(e1, m1, _) <- autodiff e (map Fin s) (reset u m) ;; diffs u l e1 m1
  end.
End RSess.
