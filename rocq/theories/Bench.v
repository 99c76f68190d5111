(** The benchmark program of benchmark/ad_benchmark.cpp:44-63. *)
From Coq Require Import Reals.
From Verif Require Import Base Num Expr XR Spec Progs.
Local Open Scope R_scope.

(** ad_benchmark.cpp:52-57, for any number [n] of variables (100 there): x at
    0..n-1, w at n, n+1, n+2. *)
Definition bench_u (n : nat) : P2 :=
  EGlue tt (EGlue tt
    (EEq tt scl n (bi2 BSub (bi2 BMul (sv 0) (sv 1)) (bi2 BMul (sv 2) (un1 USin (sv 0)))))
    (EEq tt scl (S n) (bi2 BAdd (bi2 BSub (bi2 BMul (sv 1) (sv n)) (un1 UCos (sv n)))
                                (EComp (KSumI Scl) tt (map sv (seq 0 n))))))
    (EEq tt scl (S (S n)) (bi2 BAdd (sv (S n)) (un1 UExp (bi2 BSub (sv (S n)) (sv n))))).

(** ad_benchmark.cpp:10-20 ([f_test1]), the same function without the library. *)
Definition bw0 (x : nat -> R) : R := x 0%nat * x 1%nat - x 2%nat * sin (x 0%nat).
Definition bw1 (n : nat) (x : nat -> R) : R := x 1%nat * bw0 x - cos (bw0 x) + sumn n x.
Definition f_test1 (n : nat) (x : nat -> R) : R := bw1 n x + exp (bw1 n x - bw0 x).
