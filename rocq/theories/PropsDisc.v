(** Property theorems C41, C42, C43, C62 and the exception of C10: assignments in
    places where an operand or the backward pass loses or misreads them.  All of
    these expressions build and bind, those of C41-C43 evaluate to the right value ([wfs], [dom]); they
    violate only the discipline [disc] that the gradient theorems (C01, C11)
    require. *)
From Coq Require Import Reals Lra.
From Coquelicot Require Import Coquelicot.
From Verif Require Import Base Num Expr Node Stat Machine Wf Session Tape LFind LDisc XR Spec Grad LReal LDiscR.
Open Scope R_scope.
Notation X := (expr xr unit).
Notation D0 := (fun _ : nat => 0).

(** ** C41, refuted: if_else((w = x*x) < y, w, y), with x*x < y.
    The derivative with respect to x is 2x, but autodiff adds nothing to the
    adjoint of x: comparisons do not visit their operands, so the assignment to
    w is never differentiated. *)
Theorem C41_condition_refuted (la : linalg xr) (rho : nat -> R) s : rho 0%nat ^ 2 < rho 1%nat ->
  wfs (u41 (XR la)) = true /\ dom D0 true false (u41 (XR la) : X) rho /\
  partials D0 (u41 (XR la) : X) rho 0 (at0 (2 * rho 0%nat)) /\
  exists e m, bind_diff (XR la) (u41 (XR la)) (mem8 (XR la) (fins la rho)) [Fin s]
      = Ok (e, m, map Fin (val D0 (u41 (XR la) : X) rho)) /\
    m 1%nat 0%nat = Some (Fin 0).
Proof. exact (w41 la rho s). Qed.
Print Assumptions C41_condition_refuted.
(** The same for (normal(y, (w = x*x), sigma), w): the log-density is not the last
    statement, receives seed 0 and therefore skips its operands. *)
Theorem C41_zero_seed_refuted (la : linalg xr) (rho : nat -> R) s : 0 < rho 2%nat ->
  wfs (u41s (XR la)) = true /\ dom D0 true false (u41s (XR la) : X) rho /\
  partials D0 (u41s (XR la) : X) rho 0 (at0 (2 * rho 0%nat)) /\
  exists e m, bind_diff (XR la) (u41s (XR la)) (mem8 (XR la) (fins la rho)) [Fin s]
      = Ok (e, m, map Fin (val D0 (u41s (XR la) : X) rho)) /\
    m 1%nat 0%nat = Some (Fin 0).
Proof. exact (w41s la rho s). Qed.
Print Assumptions C41_zero_seed_refuted.
Example C41_nonvacuous : exists rho : nat -> R, rho 0%nat ^ 2 < rho 1%nat /\ 0 < rho 2%nat /\ 2 * rho 0%nat <> 0 /\
  disc (u41 toy) = false /\ disc (u41s toy) = false.
Proof. exists (fun o => if (o =? 0)%nat then 1 else 2). cbn. repeat split; lra. Qed.

(** ** C42, refuted: (w = x*x, z = w*w, w = x+x, z + w).
    The derivative is 4x^3 + 2.  The backward pass computes the derivative of w*w
    from the final value of w, and the adjoint of w left by the last use reaches
    the first assignment too. *)
Theorem C42_refuted (la : linalg xr) (rho : nat -> R) s (x := rho 0%nat) :
  wfs (u42 (XR la)) = true /\ dom D0 true false (u42 (XR la) : X) rho /\
  partials D0 (u42 (XR la) : X) rho 0 (at0 (4 * x ^ 3 + 2)) /\
  exists e m, bind_diff (XR la) (u42 (XR la)) (mem8 (XR la) (fins la rho)) [Fin s]
      = Ok (e, m, map Fin (val D0 (u42 (XR la) : X) rho)) /\
    m 1%nat 0%nat = Some (Fin (s * (8 * x ^ 2 + 2 * x + 2))).
Proof. exact (w42 la rho s). Qed.
Print Assumptions C42_refuted.
Example C42_nonvacuous : 1 * (8 * 1 ^ 2 + 2 * 1 + 2) <> 1 * (4 * 1 ^ 3 + 2) /\ disc (u42 toy) = false.
Proof. split; [lra|reflexivity]. Qed.

(** ** C43, refuted: x * (v += y) for vectors, element-wise.
    The derivative with respect to x is v + y.  The seed of the left operand is
    an unevaluated Eigen expression over v, computed only after the right operand
    has restored v to its old value: x receives seed * v. *)
Theorem C43_refuted (la : linalg xr) (rho : nat -> R) s1 s2 :
  wfs (u43 (XR la)) = true /\ dom D0 true false (u43 (XR la) : X) rho /\
  partials D0 (u43 (XR la) : X) rho 0 (at0 (rho 2%nat + rho 4%nat)) /\
  exists e m, bind_diff (XR la) (u43 (XR la)) (mem8 (XR la) (fins la rho)) [Fin s1; Fin s2]
      = Ok (e, m, map Fin (val D0 (u43 (XR la) : X) rho)) /\
    m 1%nat 0%nat = Some (Fin (s1 * rho 2%nat)).
Proof. exact (w43 la rho s1 s2). Qed.
Print Assumptions C43_refuted.
(** Scalars are evaluated eagerly, so there the same expression is within C01. *)
Example C43_nonvacuous : 1 * 2 <> 1 * (2 + 3) /\ disc (u43 toy) = false /\
  disc (EComp (KBin BMul) tt [EVar scl 0; EOpEq OAdd tt scl 2 (EVar scl 4)] : expr toy unit) = true.
Proof. split; [lra|split; reflexivity]. Qed.

(** ** C10, the exception: pow with a negative exponent at 0 passes -infinity to its
    operand, whatever the seed, also for seed 0. *)
Theorem C10_pow_exception (la : linalg xr) p (rho : nat -> R) s : rho 0%nat = 0 ->
  wfs (u10 (XR la) (Zneg p)) = true /\
  exists e m, bind_diff (XR la) (u10 (XR la) (Zneg p)) (mem8 (XR la) (fins la rho)) [Fin s] = Ok (e, m, [PInf]) /\
    m 1%nat 0%nat = Some NInf.
Proof. exact (w10 la p rho s). Qed.
Print Assumptions C10_pow_exception.
Example C10_exception_nonvacuous : (fun _ : nat => 0) 0%nat = 0 /\ disc (u10 toy (-2)) = true.
Proof. split; reflexivity. Qed.

(** ** C62, refuted: the operands of a node count with the value they have when
    they are evaluated, from left to right.
    (w = -x) + (w = -y) and w + (w = -x) are computed from references to w, read
    after both operands have been evaluated; ... *)
Theorem C62_refuted (la : linalg xr) (rho : nat -> R) (x := rho 0%nat) (y := rho 1%nat) (w := rho 2%nat)
    (m := mem8 (XR la) (fins la rho)) :
  (wfs (u62b (XR la)) = true /\ dom D0 true false (u62b (XR la) : X) rho /\ val D0 (u62b (XR la) : X) rho = [- x - y] /\
   exists e m1, bind_eval (XR la) (u62b (XR la)) m = Ok (e, m1, [Fin (- y - y)])) /\
  (wfs (u62w (XR la)) = true /\ dom D0 true false (u62w (XR la) : X) rho /\ val D0 (u62w (XR la) : X) rho = [w - x] /\
   exists e m1, bind_eval (XR la) (u62w (XR la)) m = Ok (e, m1, [Fin (- x - x)])).
Proof. exact (conj (proj1 (w62 la rho)) (proj1 (proj2 (w62 la rho)))). Qed.
Print Assumptions C62_refuted.
(** ... but the sum over the range {(w = -x), (w = -y)} adds each value in turn, and
    w += (w = -x) adds to the new w. *)
Theorem C62_range (la : linalg xr) (rho : nat -> R) (x := rho 0%nat) (y := rho 1%nat) (m := mem8 (XR la) (fins la rho)) :
  (val D0 (u62s (XR la) : X) rho = [- x - y] /\ exists e m1, bind_eval (XR la) (u62s (XR la)) m = Ok (e, m1, [Fin (- x - y)])) /\
  (val D0 (u62o (XR la) : X) rho = [- x - x] /\ exists e m1, bind_eval (XR la) (u62o (XR la)) m = Ok (e, m1, [Fin (- x - x)])).
Proof. exact (proj2 (proj2 (w62 la rho))). Qed.
Print Assumptions C62_range.
(** The same in every arithmetic. *)
Theorem C62_order (N : num) f (a := nopp N (f 0%nat)) (b := nopp N (f 1%nat)) :
  (exists e m, bind_eval N (u62b N) (mem8 N f) = Ok (e, m, [nadd N b b])) /\
  (exists e m, bind_eval N (u62s N) (mem8 N f) = Ok (e, m, [nadd N (nadd N (n0 N) a) b])) /\
  (exists e m, bind_eval N (u62w N) (mem8 N f) = Ok (e, m, [nadd N a a])) /\
  (exists e m, bind_eval N (u62o N) (mem8 N f) = Ok (e, m, [nadd N a a])).
Proof. exact (run62 N f). Qed.
Print Assumptions C62_order.
Example C62_nonvacuous : (- 2 - 2 <> - 1 - 2) /\ (- 1 - 1 <> 5 - 1) /\
  disc (u62b toy) = false /\ disc (u62w toy) = false /\ disc (u62s toy) = false /\ disc (u62o toy) = false.
Proof. split; [lra|]. split; [lra|]. repeat split; reflexivity. Qed.
