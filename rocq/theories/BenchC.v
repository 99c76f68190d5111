(** The programs of benchmark/normal_benchmark.cpp, the size a parameter. *)
From Coq Require Import Reals.
From Verif Require Import Base Num Expr XR Spec Progs.
Local Open Scope R_scope.

(** normal_benchmark.cpp:46-62 and 76-94: x at 0..n-1, mu at n..2n-1, sigma at
    2n.. by columns.  In the second program sigma is constructed with the
    pointers instead of being bound to them: the same view, so one definition. *)
Definition mvn_u (n : nat) : P2 :=
  EComp (KStat NormVVM) tt [EVar (Sh Vec n 1) 0; EVar (Sh Vec n 1) n; EVar (Sh Mat n n) (n + n)].
(** make_cov, normal_benchmark.cpp:16-37: one turn of the loop.  [r] is what
    MatrixXd::Random yields; lines 25-26 clear the upper triangle and set the
    diagonal, line 27 is [lower * lower.transpose()]. *)
Definition cov_lower (r : mat) : mat :=
  fun i j => if (i =? j)%nat then 10 else if (i <? j)%nat then 0 else r i j.
Definition make_cov (n : nat) (r : mat) : mat :=
  fun i j => sumn n (fun p => cov_lower r i p * cov_lower r j p).
