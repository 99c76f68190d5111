(** The arithmetic used by the engine, as a record of operations.  Every
    definition of the model is written against an arbitrary [num]; theorems
    that do not mention a particular instance therefore hold for IEEE doubles
    as well as for exact arithmetic. *)
From Coq Require Import List ZArith.

(** Eigen's dense decompositions, as used by det.hpp:106-118, 138-153,
    177-196, log_det.hpp:106-118, 138-153, 177-196, normal.hpp:658-665,
    756-763, wishart.hpp:197-216.  The code of Eigen is outside the repository:
    it is an oracle here; the contracts assumed of it by particular theorems
    are stated in those theorems.  The first argument is the dimension, the
    list is the matrix in column-major order. *)
Record linalg (T : Type) := LinAlg {
  lu_det : nat -> list T -> T;         (* FullPivLU::determinant() *)
  lu_ok : nat -> list T -> bool;       (* FullPivLU::isInvertible() *)
  lu_inv : nat -> list T -> list T;    (* FullPivLU::inverse() *)
  ldlt_d : nat -> list T -> list T;    (* LDLT::vectorD() *)
  ldlt_ok : nat -> list T -> bool;     (* LDLT::info() == Success *)
  ldlt_inv : nat -> list T -> list T;  (* LDLT::solve(Identity) *)
  llt_ldet : nat -> list T -> T;       (* LLT::matrixL().determinant() *)
  llt_ok : nat -> list T -> bool;      (* LLT::info() == Success *)
  llt_inv : nat -> list T -> list T    (* LLT::solve(Identity) *)
}.

Record num := Num {
  carrier :> Type;
  n0 : carrier;
  n1 : carrier;
  nhalf : carrier;                      (* literal 0.5 *)
  nerfc : carrier;                      (* literal 1.1283791670955126, unary.hpp:269 *)
  nofZ : Z -> carrier;                  (* integer to double conversion *)
  npinf : carrier;                      (* numeric_limits::infinity() *)
  nninf : carrier;                      (* util::neg_inf, numeric.hpp *)
  nadd : carrier -> carrier -> carrier;
  nsub : carrier -> carrier -> carrier;
  nmul : carrier -> carrier -> carrier;
  ndiv : carrier -> carrier -> carrier;
  nopp : carrier -> carrier;
  nabs : carrier -> carrier;
  nsin : carrier -> carrier;
  ncos : carrier -> carrier;
  ntan : carrier -> carrier;
  nasin : carrier -> carrier;
  nacos : carrier -> carrier;
  natan : carrier -> carrier;
  nexp : carrier -> carrier;
  nlog : carrier -> carrier;
  nsqrt : carrier -> carrier;
  nerf : carrier -> carrier;
  nsinh : carrier -> carrier;
  ncosh : carrier -> carrier;
  ntanh : carrier -> carrier;
  npow : carrier -> Z -> carrier;       (* Eigen ArrayBase::pow(int) *)
  nltb : carrier -> carrier -> bool;
  nleb : carrier -> carrier -> bool;
  neqb : carrier -> carrier -> bool;
  nfin : carrier -> bool;               (* std::isfinite *)
  nsum : list carrier -> carrier;       (* Eigen's reductions sum() and prod(), *)
  nprod : list carrier -> carrier;      (*   in whatever order they are done *)
  nla : linalg carrier
}.
