(** Two further arithmetics for the engine: IEEE-754 binary64, i.e. C++ [double]
    (Flocq's formalisation), and dyadic numbers with a check that every result
    is exactly representable as a double. *)
From Coq Require Import ZArith List Bool.
From Flocq Require Import Core BinarySingleNaN.
From Verif Require Import Base Num Expr Node Stat Machine Wf Session.
Local Open Scope Z_scope.

(** ** binary64, any rounding mode *)
Definition prec64 := 53.
Definition emax64 := 1024.
Definition b64 := binary_float prec64 emax64.
Lemma Hprec64 : Prec_gt_0 prec64. Proof. reflexivity. Qed.
Lemma Hmax64 : Prec_lt_emax prec64 emax64. Proof. reflexivity. Qed.
Definition ofdy (md : mode) (m e : Z) : b64 := binary_normalize prec64 emax64 Hprec64 Hmax64 md m e false.

(** The mathematical library and Eigen's decompositions: arbitrary functions on
    doubles.  [lm_pow] is Eigen's array pow with integer exponent. *)
Record libm := Libm {
  lm_sin : b64 -> b64; lm_cos : b64 -> b64; lm_tan : b64 -> b64;
  lm_asin : b64 -> b64; lm_acos : b64 -> b64; lm_atan : b64 -> b64;
  lm_exp : b64 -> b64; lm_log : b64 -> b64; lm_erf : b64 -> b64;
  lm_sinh : b64 -> b64; lm_cosh : b64 -> b64; lm_tanh : b64 -> b64;
  lm_pow : b64 -> Z -> b64;
  lm_sum : list b64 -> b64; lm_prod : list b64 -> b64;   (* Eigen's reductions *)
  lm_la : linalg b64
}.
Definition B64 (md : mode) (L : libm) : num :=
  Num b64 (B754_zero false) (ofdy md 1 0) (ofdy md 1 (-1))
      (ofdy md 0x120dd750429b6d (-52))             (* 1.1283791670955126, unary.hpp:269 *)
      (fun z => ofdy md z 0) (B754_infinity false) (B754_infinity true)
      (@Bplus _ _ Hprec64 Hmax64 md) (@Bminus _ _ Hprec64 Hmax64 md) (@Bmult _ _ Hprec64 Hmax64 md)
      (@Bdiv _ _ Hprec64 Hmax64 md) (@Bopp _ _) (@Babs _ _)
      (lm_sin L) (lm_cos L) (lm_tan L) (lm_asin L) (lm_acos L) (lm_atan L) (lm_exp L) (lm_log L)
      (@Bsqrt _ _ Hprec64 Hmax64 md) (lm_erf L) (lm_sinh L) (lm_cosh L) (lm_tanh L) (lm_pow L)
      (@Bltb _ _) (@Bleb _ _) (@Beqb _ _) (@is_finite _ _) (lm_sum L) (lm_prod L) (lm_la L).

(** ** Checked dyadic arithmetic: [Some (m, e)] is m * 2^e, exactly representable
    as a double; [None] is the result of an operation that is not exact, not
    representable, or not computed here. *)
Definition dy := option (Z * Z).
Fixpoint strip (p : positive) (e : Z) : positive * Z :=
  match p with xO q => strip q (e + 1) | _ => (p, e) end.
Definition fits (p : positive) (e : Z) : bool :=
  (Zpos p <? 2 ^ 53) && (-1074 <=? e) && (Z.log2 (Zpos p) + 1 + e <=? 1024).
Definition chk (m e : Z) : dy :=
  match m with
  | Z0 => Some (0, 0)
  | Zpos p => let '(q, e1) := strip p e in if fits q e1 then Some (Zpos q, e1) else None
  | Zneg p => let '(q, e1) := strip p e in if fits q e1 then Some (Zneg q, e1) else None
  end.
Definition dlift (f : Z -> Z -> Z -> Z -> dy) (x y : dy) : dy :=
  match x, y with Some (m1, e1), Some (m2, e2) => f m1 e1 m2 e2 | _, _ => None end.
Definition dadd : dy -> dy -> dy := dlift (fun m1 e1 m2 e2 =>
  let e := Z.min e1 e2 in chk (m1 * 2 ^ (e1 - e) + m2 * 2 ^ (e2 - e)) e).
Definition dopp (x : dy) : dy := match x with Some (m, e) => chk (- m) e | None => None end.
Definition dsub (x y : dy) : dy := dadd x (dopp y).
Definition dmul : dy -> dy -> dy := dlift (fun m1 e1 m2 e2 => chk (m1 * m2) (e1 + e2)).
Definition ddiv : dy -> dy -> dy := dlift (fun m1 e1 m2 e2 =>
  if m2 =? 0 then None else if m1 mod m2 =? 0 then chk (m1 / m2) (e1 - e2) else None).
(** Comparisons; false if one side is unknown. *)
Definition qleb (x y : Z * Z) : bool :=
  let '(m1, e1) := x in let '(m2, e2) := y in let e := Z.min e1 e2 in m1 * 2 ^ (e1 - e) <=? m2 * 2 ^ (e2 - e).
Definition dltb (x y : dy) : bool := match x, y with Some a, Some b => negb (qleb b a) | _, _ => false end.
Definition dleb (x y : dy) : bool := match x, y with Some a, Some b => qleb a b | _, _ => false end.
(** Numbers (a, e) of which a2^e, for all or any part of them added up in any
    order, are doubles. *)
Definition bchk (a e : Z) : dy :=
  if (a <? 2 ^ 53) && (-1074 <=? e) && (Z.log2 a + 1 + e <=? 1024) then Some (a, e) else None.
Fixpoint alls {T} (l : list (option T)) : option (list T) :=
  match l with
  | [] => Some []
  | Some x :: t => match alls t with Some q => Some (x :: q) | None => None end
  | None :: _ => None
  end.
(** The smallest exponent, zeros aside. *)
Definition emin (l : list (Z * Z)) : option Z :=
  fold_right (fun x r => if fst x =? 0 then r else match r with Some e => Some (Z.min (snd x) e) | None => Some (snd x) end) None l.
Definition sumat (l : list (Z * Z)) (e : Z) : Z := fold_right (fun x r => fst x * 2 ^ (snd x - e) + r) 0 l.
Definition absum (l : list (Z * Z)) (e : Z) : Z := fold_right (fun x r => Z.abs (fst x) * 2 ^ (snd x - e) + r) 0 l.
Definition dsum (l : list dy) : dy :=
  match alls l with
  | None => None
  | Some q =>
    match emin q with
    | None => Some (0, 0)
    | Some e => match bchk (absum q e) e with Some _ => chk (sumat q e) e | None => None end
    end
  end.
(** Products likewise. *)
Definition prodm (l : list (Z * Z)) : Z := fold_right (fun x r => fst x * r) 1 l.
Definition prode (l : list (Z * Z)) : Z := fold_right (fun x r => snd x + r) 0 l.
Definition pok (l : list (Z * Z)) : bool :=
  let p := fold_right (fun x r => Z.max 1 (Z.abs (fst x)) * r) 1 l in
  (p <? 2 ^ 53) && (-1074 <=? fold_right (fun x r => Z.min 0 (snd x) + r) 0 l) &&
  (Z.log2 p + 1 + fold_right (fun x r => Z.max 0 (snd x) + r) 0 l <=? 1024).
Definition dprod (l : list dy) : dy :=
  match alls l with Some q => if pok q then chk (prodm q) (prode q) else None | None => None end.
Definition dla : linalg dy :=
  LinAlg dy (fun _ _ => None) (fun _ _ => false) (fun n _ => repeat None (n * n))
         (fun n _ => repeat None n) (fun _ _ => false) (fun n _ => repeat None (n * n))
         (fun _ _ => None) (fun _ _ => false) (fun n _ => repeat None (n * n)).
Definition Dyad : num :=
  let no (_ : dy) : dy := None in
  Num dy (Some (0, 0)) (Some (1, 0)) (Some (1, -1)) None (fun z => chk z 0) None None
      dadd dsub dmul ddiv dopp no no no no no no no no no no no no no no (fun _ _ => None)
      dltb dleb (fun _ _ => false) (fun _ => false) dsum dprod dla.

(** ** Boxes: [Some (a, e)] stands for all numbers z * 2^e with |z| <= a; all of
    them are doubles. *)
Definition badd : dy -> dy -> dy := dlift (fun a1 e1 a2 e2 =>
  let e := Z.min e1 e2 in bchk (a1 * 2 ^ (e1 - e) + a2 * 2 ^ (e2 - e)) e).
Definition bmul : dy -> dy -> dy := dlift (fun a1 e1 a2 e2 => bchk (a1 * a2) (e1 + e2)).
Definition bsum (l : list dy) : dy :=
  match alls l with
  | None => None
  | Some q => match emin q with None => Some (0, 0) | Some e => bchk (absum q e) e end
  end.
Definition Boxes : num :=
  let no (_ : dy) : dy := None in
  Num dy (Some (0, 0)) (Some (1, 0)) (Some (1, -1)) None (fun z => bchk (Z.abs z) 0) None None
      badd badd bmul (fun _ _ => None) (fun x => x) (fun x => x) no no no no no no no no no no no no no
      (fun _ _ => None) (fun _ _ => false) (fun _ _ => false) (fun _ _ => false) (fun _ => false) bsum (fun _ => None) dla.

(** The dyadic number a double is, and the smallest box around it. *)
Definition todyad (x : b64) : dy :=
  match x with
  | B754_zero _ => Some (0, 0)
  | B754_finite s m e _ => chk (if s then Zneg m else Zpos m) e
  | _ => None
  end.
Definition tobox (x : b64) : dy := match todyad x with Some (m, e) => Some (Z.abs m, e) | None => None end.

(** ** Programs without branches on numbers *)
(** Nodes that only use arithmetic and functions of one number, forwards and
    backwards, and test numbers for nothing but being zero. *)
Definition arith (k : kd) : bool :=
  match k with
  | KUn _ | KTrans | KSumE | KProdE | KNorm | KDot | KSumI _ => true
  | KPow z => 0 <=? z
  | KBin b => negb (is_cmp b)
  | _ => false
  end.
Section Map.
Context {T T' A : Type}.
Fixpoint arithx (e : expr T A) : bool :=
  match e with
  | EVar _ _ | ECst _ _ | ECvw _ _ => true
  | EComp k _ es => arith k && forallb arithx es
  | EEq _ _ _ y | EOpEq _ _ _ _ y => arithx y
  | EGlue _ l r => arithx l && arithx r
  | EFor _ _ es => forallb arithx es
  | EIf _ _ _ _ => false
  end.
(** Nodes that only add, subtract, multiply and negate. *)
Definition nodiv (k : kd) : bool :=
  match k with KUn UNeg | KTrans | KSumE | KNorm | KDot | KSumI _ | KBin BAdd | KBin BSub | KBin BMul => true | _ => false end.
Fixpoint polyx (e : expr T A) : bool :=
  match e with
  | EVar _ _ | ECst _ _ | ECvw _ _ => true
  | EComp k _ es => nodiv k && forallb polyx es
  | EEq _ _ _ y => polyx y
  | EOpEq q _ _ _ y => match q with ODiv => false | _ => polyx y end
  | EGlue _ l r => polyx l && polyx r
  | EFor _ _ es => forallb polyx es
  | EIf _ _ _ _ => false
  end.
(** The same program with constants of another type. *)
Fixpoint cmap (f : T -> T') (e : expr T A) : expr T' A :=
  match e with
  | EVar s o => EVar s o
  | ECst s c => ECst s (map f c)
  | ECvw s o => ECvw s o
  | EComp k a es => EComp k a (map (cmap f) es)
  | EEq a s o y => EEq a s o (cmap f y)
  | EOpEq q a s o y => EOpEq q a s o (cmap f y)
  | EGlue a l r => EGlue a (cmap f l) (cmap f r)
  | EFor a s es => EFor a s (map (cmap f) es)
  | EIf a c t e => EIf a (cmap f c) (cmap f t) (cmap f e)
  end.
End Map.

(** ** Two runs side by side *)
(** Any use of a program: bound, then evaluate and autodiff calls and client
    writes in any order. *)
Definition used {N : num} (bv ba : nat) (u : expr N unit) (e : expr N (ann N)) (m : mem N) : Prop :=
  exists m0 uv ua e0 m1 ops, fresh bv ba /\ avail u m0 /\ bound bv ba uv ua u m0 = Ok (e0, m1) /\
    Forall (op_ok (size (shape_of u))) ops /\ run ops (e0, m1) = Ok (e, m).
(** Both cells hold numbers and these are related. *)
Definition crel {A B : Type} (R : A -> B -> Prop) (a : option A) (b : option B) : Prop :=
  exists x y, a = Some x /\ b = Some y /\ R x y.
(** Variables, adjoints and constant buffers of [u] are related. *)
Definition mrel {C A B : Type} (R : A -> B -> Prop) (u : expr C unit) (m : mem A) (m' : mem B) : Prop :=
  (forall o, In o (refs u) -> crel R (m 0%nat o) (m' 0%nat o) /\ crel R (m 1%nat o) (m' 1%nat o)) /\
  forall o, In o (drefs u) -> crel R (m 4%nat o) (m' 4%nat o).
(** A relation between two arithmetics that the operations of the fragment
    preserve.  [pr_eq0]: a test for zero gives the same answer in both, or else
    anything is related to a multiple of a quotient by this number. *)
Record prel {N1 N2 : num} (R : N1 -> N2 -> Prop) : Prop := Prel {
  pr_0 : R (n0 N1) (n0 N2);
  pr_1 : R (n1 N1) (n1 N2);
  pr_half : R (nhalf N1) (nhalf N2);
  pr_erfc : R (nerfc N1) (nerfc N2);
  pr_Z : forall z, R (nofZ N1 z) (nofZ N2 z);
  pr_add : forall x y x' y', R x x' -> R y y' -> R (nadd N1 x y) (nadd N2 x' y');
  pr_sub : forall x y x' y', R x x' -> R y y' -> R (nsub N1 x y) (nsub N2 x' y');
  pr_mul : forall x y x' y', R x x' -> R y y' -> R (nmul N1 x y) (nmul N2 x' y');
  pr_div : forall x y x' y', R x x' -> R y y' -> R (ndiv N1 x y) (ndiv N2 x' y');
  pr_opp : forall x x', R x x' -> R (nopp N1 x) (nopp N2 x');
  pr_sin : forall x x', R x x' -> R (nsin N1 x) (nsin N2 x');
  pr_cos : forall x x', R x x' -> R (ncos N1 x) (ncos N2 x');
  pr_tan : forall x x', R x x' -> R (ntan N1 x) (ntan N2 x');
  pr_asin : forall x x', R x x' -> R (nasin N1 x) (nasin N2 x');
  pr_acos : forall x x', R x x' -> R (nacos N1 x) (nacos N2 x');
  pr_atan : forall x x', R x x' -> R (natan N1 x) (natan N2 x');
  pr_exp : forall x x', R x x' -> R (nexp N1 x) (nexp N2 x');
  pr_log : forall x x', R x x' -> R (nlog N1 x) (nlog N2 x');
  pr_sqrt : forall x x', R x x' -> R (nsqrt N1 x) (nsqrt N2 x');
  pr_erf : forall x x', R x x' -> R (nerf N1 x) (nerf N2 x');
  pr_sinh : forall x x', R x x' -> R (nsinh N1 x) (nsinh N2 x');
  pr_cosh : forall x x', R x x' -> R (ncosh N1 x) (ncosh N2 x');
  pr_tanh : forall x x', R x x' -> R (ntanh N1 x) (ntanh N2 x');
  pr_sum : forall l l', Forall2 R l l' -> R (nsum N1 l) (nsum N2 l');
  pr_prod : forall l l', Forall2 R l l' -> R (nprod N1 l) (nprod N2 l');
  pr_pow : forall x x' z, R x x' -> R (npow N1 x z) (npow N2 x' z);
  pr_eq0 : forall x x', R x x' -> neqb N1 x (n0 N1) = neqb N2 x' (n0 N2) \/
             neqb N1 x (n0 N1) = false /\ forall a b y, R (nmul N1 b (ndiv N1 a x)) y
}.
