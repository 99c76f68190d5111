(** Programs of the documentation and of the integration tests, with the number
    of variables a parameter. *)
From Coq Require Import Reals.
From Verif Require Import Base Num Expr Node Stat Machine Wf Session Tape XR Spec.
Open Scope R_scope.
Notation P2 := (expr xr unit).

(** README.md:567-610, [dot(dot(transpose(x), Sigma), x)]: x is an n x 1 matrix
    view of the cells 0..n-1, Sigma a constant stored by columns. *)
Definition quad_u (n : nat) (S : list R) : P2 :=
  EComp KDot tt [EComp KDot tt [EComp KTrans tt [EVar (Sh Mat n 1) 0]; ECst (Sh Mat n n) (map Fin S)];
                 EVar (Sh Mat n 1) 0].

(** test/integration/ad_inttest.cpp:10-14 (F), x at 0..4, w at 5..7. *)
Definition sv (o : nat) : P2 := EVar scl o.
Definition un1 (u : un) (e : P2) : P2 := EComp (KUn u) tt [e].
Definition bi2 (b : bi) (x y : P2) : P2 := EComp (KBin b) tt [x; y].
Definition int_f : P2 :=
  EGlue tt (EGlue tt
    (EEq tt scl 5 (bi2 BMul (un1 USin (sv 0)) (un1 UCos (sv 1))))
    (EEq tt scl 6 (bi2 BAdd (sv 2) (bi2 BMul (sv 3) (sv 4)))))
    (EEq tt scl 7 (bi2 BAdd (sv 5) (sv 6))).
(** ad_inttest.cpp:16-22 (G), for any number [n] of variables; w at n, n+1. *)
Definition int_g (n : nat) : P2 :=
  EGlue tt
    (EEq tt scl n (EComp (KSumI Scl) tt (map (fun i => un1 USin (sv i)) (seq 0 n))))
    (EEq tt scl (S n) (bi2 BSub (bi2 BMul (sv n) (sv n))
                                (EComp (KSumI Scl) tt (map (fun i => un1 UCos (sv i)) (seq 0 n))))).
(** ad_inttest.cpp:24-26 (H), w at 5. *)
Definition int_h : P2 := EEq tt scl 5 (bi2 BMul (sv 0) (sv 4)).
