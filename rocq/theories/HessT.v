(** The functions of test/reverse/core/hessian_unittest.cpp. *)
From Coq Require Import Reals.
From Verif Require Import Base Num Expr.

(** x[o], ad::u(e) and binary operators of hessian_unittest.cpp:8-18 *)
Definition hv (o : nat) : expr R unit := EVar scl o.
Definition h1 (u : un) (e : expr R unit) : expr R unit := EComp (KUn u) tt [e].
Definition h2 (b : bi) (x y : expr R unit) : expr R unit := EComp (KBin b) tt [x; y].
(** F_lmda, hessian_unittest.cpp:8-10 *)
Definition hess_f : expr R unit :=
  h2 BAdd (h2 BSub (h2 BMul (h1 USin (hv 0)) (h1 UExp (hv 0))) (hv 0)) (h1 UTan (hv 0)).
(** G_lmda, 12-14 *)
Definition hess_g : expr R unit := h2 BMul (h1 USin (hv 0)) (h1 UCos (hv 1)).
(** H_lmda, 16-18 *)
Definition hess_h : expr R unit :=
  h2 BAdd (h2 BAdd (h2 BAdd (h1 USin (hv 0)) (h2 BMul (hv 0) (hv 0))) (h2 BMul (hv 1) (hv 1)))
          (h1 UCos (h2 BMul (hv 2) (hv 3))).
