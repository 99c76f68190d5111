(** Local computations of the nodes: the value a node stores during forward
    evaluation and the seed it passes to each operand during backward
    evaluation, transcribed from the C++ bodies, for an arbitrary [num].

    Simplifications, valid throughout this file:
    - Eigen reductions ([sum], [prod], [squaredNorm], [trace], products of
      matrices) are the operations [nsum] and [nprod] of the arithmetic; Eigen's
      order of summation may in addition depend on the alignment of the data.
    - Every seed is a list of the size of the operand it is sent to: a scalar
      seed sent to an array operand is the list of equal entries, which is what
      the assignment [adj = seed] / [adj += seed] of the callee does with it. *)
From Verif Require Import Base Num Expr.

Section Node.
Context (N : num).
Notation T := (carrier N).
Notation "x +! y" := (nadd N x y) (at level 50, left associativity).
Notation "x -! y" := (nsub N x y) (at level 50, left associativity).
Notation "x *! y" := (nmul N x y) (at level 40, left associativity).
Notation "x /! y" := (ndiv N x y) (at level 40, left associativity).
Notation "-! x" := (nopp N x) (at level 35, right associativity).
Notation "x <? y" := (nltb N x y) (at level 70).
Notation "x <=? y" := (nleb N x y) (at level 70).
Notation "x =? y" := (neqb N x y) (at level 70).

Definition hd0 (l : list T) : T := hd (n0 N) l.
Notation nsum := (nsum N).
Notation nprod := (nprod N).
Definition nsq (x : T) : T := x *! x.
Definition n2 : T := nofZ N 2.
Definition nofn (n : nat) : T := nofZ N (Z.of_nat n).
(** bool to value_t, util::cast_to in binary.hpp:104. *)
Definition nofb (b : bool) : T := if b then n1 N else n0 N.
(** contextual conversion of a value to bool, if_else.hpp:80,87 *)
Definition ntrue (x : T) : bool := negb (x =? n0 N).

(** Broadcast of an operand of shape [s] to [n] entries (Eigen's scalar-array
    arithmetic). *)
Definition bc (s : shape) (n : nat) (v : list T) : list T :=
  if is_scl s then repeat (hd0 v) n else v.

(** ** Unary functors, unary.hpp:191-296 *)
Definition un_f (u : un) (x : T) : T :=
  match u with
  | UNeg => -! x                                     (* 191-195 *)
  | USin => nsin N x                                 (* 198-203 *)
  | UCos => ncos N x                                 (* 206-210 *)
  | UTan => ntan N x                                 (* 213-218 *)
  | UAsin => nasin N x                               (* 221-226 *)
  | UAcos => nacos N x                               (* 229-233 *)
  | UAtan => natan N x                               (* 236-240 *)
  | UExp => nexp N x                                 (* 243-247 *)
  | ULog => nlog N x                                 (* 250-254 *)
  | USqrt => nsqrt N x                               (* 257-261 *)
  | UErf => nerf N x                                 (* 264-270 *)
  | USigmoid => n1 N /! (n1 N +! nexp N (-! x))      (* 273-277 *)
  | USinh => nsinh N x                               (* 280-284 *)
  | UCosh => ncosh N x                               (* 286-290 *)
  | UTanh => ntanh N x                               (* 292-296 *)
  end.

Definition un_b (u : un) (seed x f : T) : T :=
  match u with
  | UNeg => -! seed
  | USin => seed *! ncos N x
  | UCos => (-! seed) *! nsin N x
  | UTan => seed /! (ncos N x *! ncos N x)
  | UAsin => seed /! nsqrt N (n1 N -! x *! x)
  | UAcos => -! (seed /! nsqrt N (n1 N -! x *! x))
  | UAtan => seed /! (n1 N +! x *! x)
  | UExp => seed *! f
  | ULog => seed /! x
  | USqrt => nhalf N *! seed /! f
  | UErf => nerfc N *! seed *! nexp N ((-! x) *! x)
  | USigmoid => seed *! nexp N (-! x) /!
                ((nexp N (-! x) +! n1 N) *! (nexp N (-! x) +! n1 N))
  | USinh => seed *! ncosh N x
  | UCosh => seed *! nsinh N x
  | UTanh => seed *! (n1 N -! f *! f)
  end.

(** ** PowFunc, pow.hpp:20-56 *)
Fixpoint powp (p : positive) (b : T) : T :=
  match p with
  | xH => b *! n1 N                                  (* 30, exp-1 = 0 *)
  | xO q => let t := powp q b in t *! t              (* 27-28 *)
  | xI q => b *! (let t := powp q b in t *! t)       (* 30 then 27-28 *)
  end.
Definition powfunc (z : Z) (b : T) : T :=
  match z with
  | Z0 => n1 N                                       (* 36-43 *)
  | Zpos p => powp p b
  | Zneg p => if b =? n0 N then npinf N              (* 45-56 *)
              else powp p (n1 N /! b)
  end.
(** PowNode::feval, pow.hpp:91-99: PowFunc for scalars, Eigen's array pow
    otherwise. *)
Definition pow_f (s : shape) (z : Z) (x : T) : T :=
  if is_scl s then powfunc z x else npow N x z.
(** PowNode::beval for exp not in {0,1}, pow.hpp:117-160 *)
Definition pow_b (z : Z) (seed x f : T) : T :=
  if (z <? 0)%Z then
    if x =? n0 N then -! npinf N else nofZ N z *! seed *! f /! x
  else
    nofZ N z *! seed *! (if x =? n0 N then n0 N else f /! x).

(** ** Binary functors, binary.hpp:266-470 *)
Definition is_cmp (b : bi) : bool :=
  match b with BAdd | BSub | BMul | BDiv => false | _ => true end.
(** [sc]: both operands scalar ([&&], [||]); otherwise Eigen min / max
    (binary.hpp:432-470). *)
Definition nmin (x y : T) : T := if y <? x then y else x.
Definition nmax (x y : T) : T := if x <? y then y else x.
Definition bi_f (sc : bool) (b : bi) (x y : T) : T :=
  match b with
  | BAdd => x +! y
  | BSub => x -! y
  | BMul => x *! y
  | BDiv => x /! y
  | BLt => nofb (x <? y)
  | BLe => nofb (x <=? y)
  | BGt => nofb (y <? x)
  | BGe => nofb (y <=? x)
  | BEq => nofb (x =? y)
  | BNe => nofb (negb (x =? y))
  | BAnd => if sc then nofb (ntrue x && ntrue y) else nmin x y
  | BOr => if sc then nofb (ntrue x || ntrue y) else nmax x y
  end.
(** blmap / brmap per entry: Add 266-283, Sub 286-303, Mul 306-321,
    Div 324-338. *)
Definition bi_bl (b : bi) (seed x y f : T) : T :=
  match b with
  | BAdd => seed
  | BSub => seed
  | BMul => seed *! y
  | BDiv => seed /! y
  | _ => n0 N
  end.
Definition bi_br (b : bi) (seed x y f : T) : T :=
  match b with
  | BAdd => seed
  | BSub => -! seed
  | BMul => seed *! x
  | BDiv => (-! seed) *! f /! y
  | _ => n0 N
  end.

Fixpoint map4 {A B C D E} (f : A -> B -> C -> D -> E)
  (l : list A) (l2 : list B) (l3 : list C) (l4 : list D) : list E :=
  match l, l2, l3, l4 with
  | a :: t, b :: t2, c :: t3, d :: t4 => f a b c d :: map4 f t t2 t3 t4
  | _, _, _, _ => []
  end.

(** Reduction of a per-entry seed for a scalar operand of an array result
    (the [.sum()] branches of the binary functors, e.g. binary.hpp:270-283). *)
Definition red (operand other : shape) (l : list T) : list T :=
  if is_scl operand && negb (is_scl other) then [nsum l] else l.

Definition bin_fwd (b : bi) (sl sr : shape) (n : nat) (l r : list T) : list T :=
  map2 (bi_f (is_scl sl && is_scl sr) b) (bc sl n l) (bc sr n r).
Definition bin_bl (b : bi) (sl sr : shape) (seed l r f : list T) : list T :=
  let n := length seed in
  red sl sr (map4 (bi_bl b) seed (bc sl n l) (bc sr n r) f).
(** Sub::brmap negates the sum (binary.hpp:298-302), not the entries. *)
Definition bin_br (b : bi) (sl sr : shape) (seed l r f : list T) : list T :=
  let n := length seed in
  match b, is_scl sr && negb (is_scl sl) with
  | BSub, true => [-! (nsum seed)]
  | _, _ => red sr sl (map4 (bi_br b) seed (bc sl n l) (bc sr n r) f)
  end.

(** ** op= functors, eq.hpp:305-413 *)
Definition oe_f (q : oe) (x y : T) : T :=
  match q with OAdd => x +! y | OSub => x -! y | OMul => x *! y | ODiv => x /! y end.
Definition oe_bl (q : oe) (seed x y : T) : T :=
  match q with OAdd | OSub => seed | OMul => seed *! y | ODiv => seed /! y end.
Definition oe_br (q : oe) (seed x y : T) : T :=
  match q with
  | OAdd => seed | OSub => -! seed | OMul => seed *! x
  | ODiv => (-! seed) *! x /! (y *! y)
  end.
(** SubEq::brmap negates the sum (eq.hpp:351-352), not the entries. *)
Definition oe_rseed (q : oe) (sv se : shape) (seed x y : list T) : list T :=
  let n := length seed in
  if is_scl se && negb (is_scl sv) then
    match q with
    | OSub => [-! (nsum seed)]
    | _ => [nsum (map3 (oe_br q) seed x (bc se n y))]
    end
  else map3 (oe_br q) seed x (bc se n y).
Definition oe_lseed (q : oe) (se : shape) (seed x y : list T) : list T :=
  map3 (oe_bl q) seed x (bc se (length seed) y).
Definition oe_fwd (q : oe) (se : shape) (x y : list T) : list T :=
  map2 (oe_f q) x (bc se (length x) y).

(** ** Matrices (column-major lists) *)
Definition mt (r c : nat) (l : list T) : list T :=      (* transpose of r x c *)
  mkm c r (fun i j => mget (n0 N) r l j i).
Definition mm (r k c : nat) (a b : list T) : list T :=  (* (r x k) * (k x c) *)
  mkm r c (fun i j => nsum (map (fun p => mget (n0 N) r a i p *! mget (n0 N) k b p j)
                                (seq 0 k))).
Definition ntrace (n : nat) (a : list T) : T :=
  nsum (map (fun i => mget (n0 N) n a i i) (seq 0 n)).
Definition vdot (a b : list T) : T := nsum (map2 (nmul N) a b).
Definition sqnorm (a : list T) : T := nsum (map nsq a).

(** ** Product over elements, prod.hpp:188-212: seed times the product of the
    other entries when the entry is zero, seed times (product / entry)
    otherwise. *)
Definition others (vs : list T) (i : nat) : list T := firstn i vs ++ skipn (S i) vs.
Definition prodE_b (seed f : T) (vs : list T) : list T :=
  map (fun i => let v := nth i vs (n0 N) in
        if v =? n0 N then fold_left (nmul N) (others vs i) seed
        else seed *! (f /! v))
      (seq 0 (length vs)).

(** ** Determinants, det.hpp:53-63 and 97-202, log_det.hpp likewise.  The
    decomposition object is represented by the matrix it was computed from. *)
Definition det_f (f : fact) (n : nat) (X : list T) : T :=
  match f with
  | LU => lu_det T (nla N) n X                              (* 106-111 *)
  | LDLT => nprod (ldlt_d T (nla N) n X)                    (* 138-145 *)
  | LLT => nsq (llt_ldet T (nla N) n X)                     (* 177-183 *)
  end.
Definition det_valid (f : fact) (n : nat) (X : list T) : bool :=
  match f with
  | LU => lu_ok T (nla N) n X                               (* 118 *)
  | LDLT => negb (nprod (ldlt_d T (nla N) n X) =? n0 N)
            && ldlt_ok T (nla N) n X                        (* 143 *)
  | LLT => llt_ok T (nla N) n X                             (* 193-196 *)
  end.
Definition logdet_f (f : fact) (n : nat) (X : list T) : T :=
  match f with
  | LU => nlog N (nabs N (lu_det T (nla N) n X))            (* 106-111 *)
  | LDLT => nlog N (nabs N (nprod (ldlt_d T (nla N) n X)))  (* 138-145 *)
  | LLT => n2 *! nlog N (nabs N (llt_ldet T (nla N) n X))   (* 177-183 *)
  end.
Definition logdet_valid (f : fact) (n : nat) (X : list T) : bool :=
  match f with
  | LU => lu_ok T (nla N) n X
  | LDLT => nfin N (logdet_f LDLT n X) && ldlt_ok T (nla N) n X  (* 143 *)
  | LLT => llt_ok T (nla N) n X
  end.
Definition det_bmap (f : fact) (n : nat) (X : list T) : list T :=
  match f with
  | LU => mt n n (lu_inv T (nla N) n X)                     (* 113-116 *)
  | LDLT => ldlt_inv T (nla N) n X                          (* 149-153 *)
  | LLT => llt_inv T (nla N) n X                            (* 187-191 *)
  end.

(** ** State that a node object carries besides its views: the cached scalars,
    flags and matrices of the stat nodes, and the decomposition objects. *)
Record sst := SST {
  sa : T; sb : T; sc : T; sd : T;
  fa : bool; fb : bool;
  ma : list T; mb : list T; mc : list T
}.
Definition sst0 : sst :=
  SST (n0 N) (n0 N) (n0 N) (n0 N) false false [] [] [].

End Node.
Arguments SST {N}.
Arguments sa {N}. Arguments sb {N}. Arguments sc {N}. Arguments sd {N}.
Arguments fa {N}. Arguments fb {N}.
Arguments ma {N}. Arguments mb {N}. Arguments mc {N}.
