(** Programs of benchmark/sum_benchmark.cpp, prod_benchmark.cpp and
    constant_eager_benchmark.cpp, with the sizes parameters. *)
From Coq Require Import Reals.
From Verif Require Import Base Num Expr XR Spec Progs.
Local Open Scope R_scope.

(** sum_benchmark.cpp:49-55: vec at 0..n-1, w4 at n, w5 at n+1. *)
Definition sq2 (i : nat) : P2 := bi2 BMul (sv i) (sv i).
Definition sumb_u (n : nat) : P2 :=
  EGlue tt (EEq tt scl n (EComp (KSumI Scl) tt (map sq2 (seq 0 n))))
           (EEq tt scl (S n) (bi2 BAdd (bi2 BMul (sv n) (sv n)) (un1 USin (sv n)))).
(** prod_benchmark.cpp:49-58, likewise. *)
Definition prodb_u (n : nat) : P2 :=
  EGlue tt (EEq tt scl n (EComp (KProdI Scl) tt (map sq2 (seq 0 n))))
           (EEq tt scl (S n) (bi2 BAdd (bi2 BMul (sv n) (sv n)) (un1 UCos (sv n)))).
(** sum_benchmark.cpp:68-88: w[0], w[1] at 0, 1; values, values2 the samples [v],
    [v2].  The constants are folded when the expression is built (C27):
    [-constant(0.5)] is the constant -0.5. *)
Definition cst1 (c : R) : P2 := ECst scl [Fin c].
Definition regr1 (v v2 : nat -> R) (i : nat) : P2 :=
  bi2 BMul (cst1 (- / 2)) (EComp (KPow 2) tt [bi2 BDiv (bi2 BSub (cst1 (v i)) (bi2 BMul (sv 0) (cst1 (v2 i)))) (sv 1)]).
Definition regr_u (n : nat) (v v2 : nat -> R) : P2 := EComp (KSumI Scl) tt (map (regr1 v v2) (seq 0 n)).
(** constant_eager_benchmark.cpp:32-49: w at 0, the standard deviation a constant
    [d] (2 there); [log(constant(d))] is folded. *)
Definition norm1 (d : R) (v v2 : nat -> R) (i : nat) : P2 :=
  bi2 BSub
    (bi2 BMul (cst1 (- / 2)) (EComp (KPow 2) tt [bi2 BDiv (bi2 BSub (cst1 (v i)) (bi2 BMul (sv 0) (cst1 (v2 i)))) (cst1 d)]))
    (cst1 (ln d)).
Definition norm_u (n : nat) (d : R) (v v2 : nat -> R) : P2 := EComp (KSumI Scl) tt (map (norm1 d v v2) (seq 0 n)).
