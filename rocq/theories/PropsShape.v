(** Property theorems C44 (sizes are checked when an expression is built) and the
    counterexample to C14 for statements of different sizes.  For every
    arithmetic [N]. *)
From Verif Require Import Base Num Expr Node Stat Machine Wf LBase LKind Session LUser LFind Usage LShape.

(** ** C44, partial: if all constructors succeed, the sizes fit.

    The hypothesis is only that construction and binding succeeded; the sizes of
    the operands are not mentioned ([usage] forbids the uses refuted under C04,
    C15, C16 and empty arrays next to scalars).  Then no run fails, so no size
    mismatch was overlooked.  Missing: the nodes excluded by [checked], see the
    refutations below. *)
Theorem C44_sizes_checked_partial (N : num) (LL : la_len N) (bv ba : nat) (uv ua : nat -> N)
    (u : expr N unit) (m : mem N) e m0 ops :
  fresh bv ba -> checked u = true -> usage u = true -> avail u m ->
  bound bv ba uv ua u m = Ok (e, m0) ->
  Forall (op_ok (size (shape_of u))) ops -> exists c, run ops (e, m0) = Ok c.
Proof. exact (fun HF => build_safe N LL bv ba HF uv ua u m e m0 ops). Qed.
Print Assumptions C44_sizes_checked_partial.

(** sum(A . x) + normal(x, m, S) with a 2x2 matrix A and covariance S *)
Definition ex_shape {N : num} : expr N unit :=
  EComp (KBin BAdd) tt
    [EComp KSumE tt [EComp KDot tt [ECst (Sh Mat 2 2) [n1 N; n0 N; n0 N; n1 N]; EVar (Sh Vec 2 1) 0]];
     EComp (KStat NormVVM) tt [EVar (Sh Vec 2 1) 0; EVar (Sh Vec 2 1) 2; ECst (Sh Mat 2 2) [n1 N; n0 N; n0 N; n1 N]]].
Example C44_nonvacuous (N : num) (f : nat -> N) : fresh 2 3 /\ checked (@ex_shape N) = true /\
  usage (@ex_shape N) = true /\ avail (@ex_shape N) (mem8 N f) /\
  (exists c, bound 2 3 (any N) (any N) (@ex_shape N) (mem8 N f) = Ok c) /\
  Forall (op_ok (N := N) (size (shape_of (@ex_shape N)))) [OpEval; OpDiff [n1 N]].
Proof.
  split; [cbv; repeat split; discriminate|]. split; [reflexivity|]. split; [reflexivity|]. split.
  - apply av8; reflexivity.
  - split; [eexists; reflexivity|repeat constructor].
Qed.

(** ** C44, refuted: log-densities of vectors (or a Wishart) with parameters of
    another size are built and bound without complaint and fail when evaluated;
    so are sum and prod over a range of vectors of different sizes, and a scalar
    times an empty vector (whose node has one element, binary.hpp:80-82). *)
Theorem C44_densities_refuted (N : num) (f : nat -> N) :
  length (densities N) = 11 /\ Forall (fun u => passes_then_fails N u f) (densities N).
Proof. exact (conj eq_refl (dens_w N f)). Qed.
Print Assumptions C44_densities_refuted.
Theorem C44_ranges_refuted (N : num) (f : nat -> N) : Forall (fun u => passes_then_fails N u f) (ranges N).
Proof. exact (range_w N f). Qed.
Print Assumptions C44_ranges_refuted.
Theorem C44_empty_refuted (N : num) (f : nat -> N) : passes_then_fails N (empty_mul N) f.
Proof. exact (empty_w N f). Qed.
Print Assumptions C44_empty_refuted.

(** ** C14, refuted for statements of different sizes: for_each over sin(x), exp(y)
    with sizes 2 and 3 fails, because the node takes the size of the first
    statement (for_each.hpp:39-44); (sin(x), exp(y)) has the value exp(y). *)
Theorem C14_sizes_refuted (N : num) (f : nat -> N) :
  passes_then_fails N (two_for N) f /\
  exists e m, bind_eval N (two_glue N) (mem8 N f) = Ok (e, m, map (fun i => nexp N (f i)) [2; 3; 4]).
Proof. exact (for_w N f). Qed.
Print Assumptions C14_sizes_refuted.
