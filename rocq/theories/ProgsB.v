(** Programs of test/integration/node_inttest.cpp, with the sizes parameters. *)
From Coq Require Import Reals.
From Verif Require Import Base Num Expr Node Stat Machine Wf Session Tape XR Spec Progs.
Local Open Scope R_scope.

Definition vc (n o : nat) : P2 := EVar (Sh Vec n 1) o.
Definition cs (c : R) : P2 := ECst scl [Fin c].
Definition glues (l : list P2) (e : P2) : P2 :=
  match l with [] => e | a :: l => EGlue tt (fold_left (EGlue tt) l a) e end.

(** node_inttest.cpp:193-204 (leaf_opeq_many_nested): vec at 0..n-1, scl at n. *)
Definition opeq_u (n : nat) : P2 :=
  let v q e := EOpEq q tt (Sh Vec n 1) 0 e in
  let s q e := EOpEq q tt scl n e in
  glues [v OMul (sv n);
         v OAdd (bi2 BSub (vc n 0) (sv n));
         s OMul (bi2 BSub (sv n) (cs 2));
         s ODiv (cs 1);
         v OSub (bi2 BMul (cs 2) (vc n 0));
         v OMul (cs (-1));
         v OSub (sv n);
         v ODiv (sv n)]
        (EComp KSumE tt [vc n 0]).

(** node_inttest.cpp:223-230 (leaf_opeq_head_tail): vec at 0..n, so head at 0..n-1 and
    tail at 1..n overlap; scl at n+1. *)
Definition ht_u (n : nat) : P2 :=
  EGlue tt (EOpEq OAdd tt (Sh Vec n 1) 1 (bi2 BMul (sv (S n)) (vc n 0))) (EComp KSumE tt [vc n 1]).

(** node_inttest.cpp:343-366 (foreach): vec at 0..n, prod[0] is a view of vec[0], prod[1..n]
    at n+1..2n, res at 2n+1, w4 at 2n+2.  [n] is 3 in the test. *)
Definition fe_prod (n i : nat) : nat := match i with O => O | _ => (n + i)%nat end.
Definition fe_step (n i : nat) : P2 := EEq tt scl (fe_prod n (S i)) (bi2 BMul (sv (fe_prod n i)) (sv (S i))).
Definition fe_u (n : nat) : P2 :=
  EGlue tt (EEq tt scl (2 * n + 1) (EFor tt Scl (map (fe_step n) (seq 0 n))))
           (EEq tt scl (2 * n + 2) (bi2 BAdd (bi2 BMul (sv (2 * n + 1)) (sv (2 * n + 1))) (sv 0))).

(** node_inttest.cpp:380-391 (mat_scl_reduction): v (r x c) at 0, w behind it, x last. *)
Definition mr_u (r c : nat) : P2 :=
  let n := (r * c)%nat in
  EGlue tt (EEq tt (Sh Mat r c) n (bi2 BMul (EVar (Sh Mat r c) 0) (EVar (Sh Mat r c) 0)))
           (EEq tt scl (2 * n) (EComp KSumE tt [EVar (Sh Mat r c) n])).

(** node_inttest.cpp:299-306 (sumnode): n variables. *)
Definition sn_step (i : nat) : P2 := un1 UCos (bi2 BMul (un1 USin (sv i)) (sv i)).
Definition sn_u (n : nat) : P2 := EComp (KSumI Scl) tt (map sn_step (seq 0 n)).
