(** Exact arithmetic: the real numbers extended with the two infinities and NaN,
    as an instance of [num].

    Simplifications with respect to IEEE doubles: operations on finite values
    are exact (no rounding, overflow or underflow); there is one zero, so a
    division of a non-zero number by zero takes the sign of the numerator; the
    literal 1.1283791670955126 of unary.hpp:269 stands for 2/sqrt(pi). *)
From Coq Require Import Reals ZArith List Bool.
From Coquelicot Require Import Coquelicot.
From Verif Require Import Num.
Open Scope R_scope.

Inductive xr := Fin (r : R) | PInf | NInf | NaN.

Definition rltb (x y : R) : bool := if Rlt_dec x y then true else false.
Definition rleb (x y : R) : bool := if Rle_dec x y then true else false.
Definition reqb (x y : R) : bool := if Req_EM_T x y then true else false.

(** Infinity with the sign of a real, NaN for zero. *)
Definition sgn_inf (x : R) : xr := if rltb 0 x then PInf else if rltb x 0 then NInf else NaN.

Definition xopp (x : xr) : xr :=
  match x with Fin a => Fin (- a) | PInf => NInf | NInf => PInf | NaN => NaN end.
Definition xadd (x y : xr) : xr :=
  match x, y with
  | Fin a, Fin b => Fin (a + b)
  | NaN, _ | _, NaN => NaN
  | PInf, NInf | NInf, PInf => NaN
  | PInf, _ | _, PInf => PInf
  | NInf, _ | _, NInf => NInf
  end.
Definition xsub (x y : xr) : xr := xadd x (xopp y).
Definition xmul (x y : xr) : xr :=
  match x, y with
  | Fin a, Fin b => Fin (a * b)
  | NaN, _ | _, NaN => NaN
  | Fin a, PInf | PInf, Fin a => sgn_inf a
  | Fin a, NInf | NInf, Fin a => sgn_inf (- a)
  | PInf, PInf | NInf, NInf => PInf
  | PInf, NInf | NInf, PInf => NInf
  end.
Definition xdiv (x y : xr) : xr :=
  match x, y with
  | Fin a, Fin b => if reqb b 0 then sgn_inf a else Fin (a / b)
  | NaN, _ | _, NaN => NaN
  | Fin _, _ => Fin 0
  | PInf, Fin b => if rltb b 0 then NInf else PInf
  | NInf, Fin b => if rltb b 0 then PInf else NInf
  | _, _ => NaN
  end.
Definition xabs (x : xr) : xr :=
  match x with Fin a => Fin (Rabs a) | NaN => NaN | _ => PInf end.

(** A real function with domain [p], its limits at the infinities given. *)
Definition xfun (p : R -> bool) (f : R -> R) (hi lo : xr) (x : xr) : xr :=
  match x with
  | Fin a => if p a then Fin (f a) else NaN
  | PInf => hi
  | NInf => lo
  | NaN => NaN
  end.
Definition alw (x : R) : bool := true.
Definition in11 (x : R) : bool := rleb (-1) x && rleb x 1.
Definition erf (x : R) : R := 2 / sqrt PI * RInt (fun t => exp (- (t * t))) 0 x.

Definition xlog (x : xr) : xr :=
  match x with
  | Fin a => if reqb a 0 then NInf else if rltb 0 a then Fin (ln a) else NaN
  | PInf => PInf
  | _ => NaN
  end.
Definition xpow (x : xr) (z : Z) : xr :=
  if (z =? 0)%Z then Fin 1 else
  match x with
  | Fin a => if reqb a 0 && (z <? 0)%Z then PInf else Fin (powerRZ a z)
  | PInf => if (z <? 0)%Z then Fin 0 else PInf
  | NInf => if (z <? 0)%Z then Fin 0 else if Z.even z then PInf else NInf
  | NaN => NaN
  end.

Definition xltb (x y : xr) : bool :=
  match x, y with
  | Fin a, Fin b => rltb a b
  | NaN, _ | _, NaN => false
  | NInf, NInf => false
  | NInf, _ => true
  | _, PInf => match x with PInf => false | _ => true end
  | _, _ => false
  end.
Definition xeqb (x y : xr) : bool :=
  match x, y with
  | Fin a, Fin b => reqb a b
  | PInf, PInf | NInf, NInf => true
  | _, _ => false
  end.
Definition xleb (x y : xr) : bool := xltb x y || xeqb x y.
Definition xfin (x : xr) : bool := match x with Fin _ => true | _ => false end.

(** Finite numbers give the same sum and product in any order. *)
Definition xsum (l : list xr) : xr := fold_left xadd l (Fin 0).
Definition xprod (l : list xr) : xr := fold_left xmul l (Fin 1).

Definition XR (la : linalg xr) : num := {|
  carrier := xr;
  n0 := Fin 0; n1 := Fin 1; nhalf := Fin (1 / 2); nerfc := Fin (2 / sqrt PI);
  nofZ := fun z => Fin (IZR z); npinf := PInf; nninf := NInf;
  nadd := xadd; nsub := xsub; nmul := xmul; ndiv := xdiv; nopp := xopp; nabs := xabs;
  nsin := xfun alw sin NaN NaN; ncos := xfun alw cos NaN NaN;
  ntan := xfun (fun x => negb (reqb (cos x) 0)) tan NaN NaN;
  nasin := xfun in11 asin NaN NaN; nacos := xfun in11 acos NaN NaN;
  natan := xfun alw atan (Fin (PI / 2)) (Fin (- (PI / 2)));
  nexp := xfun alw exp PInf (Fin 0); nlog := xlog;
  nsqrt := xfun (rleb 0) sqrt PInf NaN;
  nerf := xfun alw erf (Fin 1) (Fin (-1));
  nsinh := xfun alw sinh PInf NInf; ncosh := xfun alw cosh PInf PInf;
  ntanh := xfun alw tanh (Fin 1) (Fin (-1));
  npow := xpow; nltb := xltb; nleb := xleb; neqb := xeqb; nfin := xfin;
  nsum := xsum; nprod := xprod; nla := la
|}.
