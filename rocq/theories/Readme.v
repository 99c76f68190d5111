(** The programs of README.md and example/main.cpp, with the sizes as parameters. *)
From Coq Require Import Reals.
From Verif Require Import Base Num Expr Node Stat Machine Wf Session Tape XR Spec Forward Progs.
Open Scope R_scope.

(** example/main.cpp:35-39 (reverse_simple) and 63-67 (reverse_vec), x at 0 and 1, w at 2..4. *)
Definition main_u : P2 :=
  EGlue tt (EGlue tt
    (EEq tt scl 2 (bi2 BMul (sv 0) (un1 USin (sv 1))))
    (EEq tt scl 3 (bi2 BAdd (sv 2) (bi2 BMul (sv 0) (sv 1)))))
    (EEq tt scl 4 (un1 UExp (bi2 BMul (sv 3) (sv 2)))).
(** example/main.cpp:14-16 and README.md:235-237, in forward mode. *)
Definition main_f {C} : stm C :=
  SSeq (SSet 2 (FBin FMul (FVar 0) (FUn FSin (FVar 1))))
    (SSeq (SSet 3 (FBin FAdd (FVar 2) (FBin FMul (FVar 0) (FVar 1))))
       (SSet 4 (FUn FExp (FBin FMul (FVar 3) (FVar 2))))).
(** README.md:339-367, sin(x) + cos(v): x at 0, v at 1..n. *)
Definition vn (n o : nat) : P2 := EVar (Sh Vec n 1) o.
Definition sc_u (n : nat) : P2 := bi2 BAdd (un1 USin (sv 0)) (un1 UCos (vn n 1)).
(** README.md:376-406, (w = dot(M, v1) + v2, r = sum(w) * sum(w * v2)): M, p x q, at 0,
    v1 at p q, v2 at p q + q, w at p q + q + p, r at p q + q + 2 p. *)
Definition oM (p q i j : nat) : nat := (j * p + i)%nat.
Definition o1 (p q : nat) : nat := (p * q)%nat.
Definition o2 (p q : nat) : nat := (p * q + q)%nat.
Definition oW (p q : nat) : nat := (p * q + q + p)%nat.
Definition oR (p q : nat) : nat := (p * q + q + p + p)%nat.
Definition wr_u (p q : nat) : P2 :=
  EGlue tt
    (EEq tt (Sh Vec p 1) (oW p q) (bi2 BAdd (EComp KDot tt [EVar (Sh Mat p q) 0; vn q (o1 p q)]) (vn p (o2 p q))))
    (EEq tt scl (oR p q) (bi2 BMul (EComp KSumE tt [vn p (oW p q)]) (EComp KSumE tt [bi2 BMul (vn p (oW p q)) (vn p (o2 p q))]))).
(** README.md:416-432, with and without placeholder: sin(x) + cos(v) + sum(cos(v)) and
    (w = cos(v), sin(x) + w + sum(w)); x at 0, v at 1..n, w at n+1. *)
Definition np_u (n : nat) : P2 :=
  bi2 BAdd (bi2 BAdd (un1 USin (sv 0)) (un1 UCos (vn n 1))) (EComp KSumE tt [un1 UCos (vn n 1)]).
Definition ph_u (n : nat) : P2 :=
  EGlue tt (EEq tt (Sh Vec n 1) (S n) (un1 UCos (vn n 1)))
    (bi2 BAdd (bi2 BAdd (un1 USin (sv 0)) (vn n (S n))) (EComp KSumE tt [vn n (S n)])).
