(** Forward mode: ForwardVar (forward/core/forward.hpp, forward/core/dualnum.hpp)
    and programs of the client over it. *)
From Coq Require Import List Arith ZArith.
From Verif Require Import Num.
Import ListNotations.

(** The functions of forward/core/forward.hpp:106-140 and the operators of 148-159. *)
Inductive f1 := FNeg | FSin | FCos | FTan | FAsin | FAcos | FAtan | FExp | FLog | FSqrt | FErf.
Inductive f2 := FAdd | FSub | FMul | FDiv.

(** Client code: C++ expressions over named ForwardVars (numbered) and
    statements.  [FNum c d] is the temporary [ForwardVar(c, d)] (89-91; [d]
    defaults to 0).  [SSet] is a declaration with initialiser or an assignment
    (implicit copy of w_ and df_), [SAdd] is [x += e].  [SRep] is a loop with a
    fixed number of rounds, [SIf] compares values read with get_value(). *)
Inductive fe (C : Type) :=
| FVar (i : nat)
| FNum (c d : C)
| FUn (f : f1) (x : fe C)
| FBin (f : f2) (x y : fe C).
Arguments FVar {C}. Arguments FNum {C}. Arguments FUn {C}. Arguments FBin {C}.
Inductive stm (C : Type) :=
| SSet (i : nat) (x : fe C)
| SAdd (i : nat) (x : fe C)
| SSeq (a b : stm C)
| SRep (n : nat) (a : stm C)
| SIf (x y : fe C) (a b : stm C).     (* if (x.get_value() < y.get_value()) a else b *)
Arguments SSet {C}. Arguments SAdd {C}. Arguments SSeq {C}. Arguments SRep {C}. Arguments SIf {C}.

Section Forward.
Variable N : num.
Notation "x +! y" := (nadd N x y) (at level 50, left associativity).
Notation "x -! y" := (nsub N x y) (at level 50, left associativity).
Notation "x *! y" := (nmul N x y) (at level 40, left associativity).
Notation "x /! y" := (ndiv N x y) (at level 40, left associativity).
Notation "-! x" := (nopp N x) (at level 35).

(** DualNum, dualnum.hpp:10-49: value w_ and adjoint df_. *)
Record dual := Dual { w_ : N; df_ : N }.
(** ADForward(), ADForward(w, df), forward/core/forward.hpp:85-91 *)
Definition fwd0 : dual := Dual (n0 N) (n0 N).

Definition f1_run (f : f1) (v : dual) : dual :=
  let x := w_ v in
  let d := df_ v in
  match f with
  | FNeg => Dual (-! x) (-! d)                                            (* 107 *)
  | FSin => Dual (nsin N x) (ncos N x *! d)                               (* 109-110 *)
  | FCos => Dual (ncos N x) ((-! nsin N x) *! d)                          (* 112-113 *)
  | FTan => let t := n1 N /! ncos N x in Dual (ntan N x) (t *! t *! d)    (* 115-116 *)
  | FAsin => Dual (nasin N x) (d /! nsqrt N (n1 N -! x *! x))             (* 118-119 *)
  | FAcos => Dual (nacos N x) ((-! d) /! nsqrt N (n1 N -! x *! x))        (* 121-122 *)
  | FAtan => Dual (natan N x) (d /! (n1 N +! x *! x))                     (* 124-125 *)
  | FExp => let t := nexp N x in Dual t (t *! d)                          (* 127-128 *)
  | FLog => Dual (nlog N x) (d /! x)                                      (* 130-131 *)
  | FSqrt => let t := nsqrt N x in Dual t (d /! (nofZ N 2%Z *! t))          (* 133-134 *)
  | FErf => Dual (nerf N x) (nerfc N *! nexp N (-! (x *! x)))             (* 136-140 *)
  end.
Definition f2_run (f : f2) (a b : dual) : dual :=
  let x := w_ a in let dx := df_ a in
  let y := w_ b in let dy := df_ b in
  match f with
  | FAdd => Dual (x +! y) (dx +! dy)                                      (* 149-150 *)
  | FSub => Dual (x -! y) (dx -! dy)                                      (* 152-153 *)
  | FMul => Dual (x *! y) (x *! dy +! dx *! y)                            (* 155-156 *)
  | FDiv => Dual (x /! y) ((dx *! y -! x *! dy) /! (y *! y))              (* 158-159 *)
  end.

Definition fenv := nat -> dual.
Definition fput (r : fenv) (i : nat) (v : dual) : fenv := fun j => if j =? i then v else r j.
Fixpoint fe_run (e : fe N) (r : fenv) : dual :=
  match e with
  | FVar i => r i
  | FNum c d => Dual c d
  | FUn f x => f1_run f (fe_run x r)
  | FBin f x y => f2_run f (fe_run x r) (fe_run y r)
  end.
Fixpoint stm_run (s : stm N) (r : fenv) : fenv :=
  match s with
  | SSet i x => fput r i (fe_run x r)
  | SAdd i x => fput r i (f2_run FAdd (r i) (fe_run x r))                 (* 162-166 *)
  | SSeq a b => stm_run b (stm_run a r)
  | SRep n a => Nat.iter n (stm_run a) r
  | SIf x y a b => if nltb N (w_ (fe_run x r)) (w_ (fe_run y r)) then stm_run a r else stm_run b r
  end.
End Forward.
Arguments Dual {N}. Arguments w_ {N}. Arguments df_ {N}.
