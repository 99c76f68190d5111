(** Forward-mode programs run side by side in two arithmetics. *)
From Coq Require Import List Arith Bool.
From Verif Require Import Num Forward.
Import ListNotations.

(** Value and adjoint are related. *)
Definition drel {N1 N2 : num} (R : N1 -> N2 -> Prop) (v : dual N1) (v' : dual N2) : Prop :=
  R (w_ v) (w_ v') /\ R (df_ v) (df_ v').
(** Comparisons answered "yes" by the first arithmetic are right in the second. *)
Record brel {N1 N2 : num} (R : N1 -> N2 -> Prop) : Prop := Brel {
  br_lt : forall x y x' y', R x x' -> R y y' -> nltb N1 x y = true -> nltb N2 x' y' = true;
  br_le : forall x y x' y', R x x' -> R y y' -> nleb N1 y x = true -> nltb N2 x' y' = false
}.
(** Every comparison the program makes is decided: x < y or y <= x is known. *)
Fixpoint sure (N : num) (s : stm N) (r : fenv N) : bool :=
  match s with
  | SSet _ _ | SAdd _ _ => true
  | SSeq a b => sure N a r && sure N b (stm_run N a r)
  | SRep n a => forallb (fun k => sure N a (Nat.iter k (stm_run N a) r)) (seq 0 n)
  | SIf x y a b =>
      let u := w_ (fe_run N x r) in
      let v := w_ (fe_run N y r) in
      if nltb N u v then sure N a r else nleb N v u && sure N b r
  end.
