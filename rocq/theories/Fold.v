(** Constant folding: what the builder functions of reverse/core construct when
    all their operands are constants.  C++ computes the folded value in the
    types of the operands, so the values carry their types here.

    Simplifications:
    - an embedded constant of the source expression holds doubles
      ([ad::constant(1.)], not [ad::constant(1)]); int and bool constants arise
      only by folding;
    - int is unbounded;
    - a bool or int constant that becomes an operand of a node is converted to
      double there (the node's value_t is the common type, binary.hpp:49-52);
      which of these programs the compiler accepts is the subject of Types.v;
    - [MatrixBase::determinant] is the determinant of the full-pivoting LU;
    - Eigen sizes are those of the operands; expressions with mismatched sizes
      are excluded by [wfs] in the theorems. *)
From Verif Require Import Base Num Expr Node Stat Machine.

(** Outcome of a builder: an object, undefined behaviour, or nothing: the
    program is rejected by the compiler, or does arithmetic on Eigen arrays of
    bool, which is not modelled. *)
Inductive out (A : Type) := Built (a : A) | Undef | Reject.
Arguments Built {A} a.
Arguments Undef {A}.
Arguments Reject {A}.
Definition bindO {A B} (x : out A) (f : A -> out B) : out B :=
  match x with Built a => f a | Undef => Undef | Reject => Reject end.

Section Fold.
Context (N : num).
Notation T := (carrier N).
Notation U := (expr N unit).

(** Contents of a Constant (constant.hpp:82-151): scalar or array of bool,
    scalar int, scalar or array of double. *)
Inductive cv := CB (l : list bool) | CZ (z : Z) | CD (l : list T).
(** Conversion to double. *)
Definition cval (c : cv) : list T :=
  match c with CB l => map (nofb N) l | CZ z => [nofZ N z] | CD l => l end.
(** Integral promotion of a scalar bool or int. *)
Definition zof (s : shape) (c : cv) : option Z :=
  if is_scl s then
    match c with CB [b] => Some (if b then 1 else 0)%Z | CZ z => Some z | _ => None end
  else None.

(** Comparisons and logical operators return bool (binary.hpp:346-470). *)
Definition bi_t (b : bi) (x y : T) : bool :=
  match b with
  | BLt => nltb N x y
  | BLe => nleb N x y
  | BGt => nltb N y x
  | BGe => nleb N y x
  | BEq => neqb N x y
  | BNe => negb (neqb N x y)
  | BAnd => ntrue N x && ntrue N y
  | BOr => ntrue N x || ntrue N y
  | _ => false
  end.
Definition zi_t (b : bi) (x y : Z) : bool :=
  match b with
  | BLt => x <? y
  | BLe => x <=? y
  | BGt => y <? x
  | BGe => y <=? x
  | BEq => x =? y
  | BNe => negb (x =? y)
  | BAnd => negb (x =? 0) && negb (y =? 0)
  | BOr => negb (x =? 0) || negb (y =? 0)
  | _ => false
  end%Z.
(** Arithmetic on int; bool operands are promoted.  Division truncates. *)
Definition zi_f (b : bi) (x y : Z) : out Z :=
  match b with
  | BAdd => Built (x + y)
  | BSub => Built (x - y)
  | BMul => Built (x * y)
  | BDiv => if y =? 0 then Undef else Built (Z.quot x y)
  | _ => Reject
  end%Z.

Definition getD (cs : list cv) : option (list (list T)) :=
  fold_right (fun c r => match c, r with CD l, Some ls => Some (l :: ls) | _, _ => None end) (Some []) cs.
Definition getB (cs : list cv) : option (list (list bool)) :=
  fold_right (fun c r => match c, r with CB l, Some ls => Some (l :: ls) | _, _ => None end) (Some []) cs.
Definition getZ (cs : list cv) : option (list Z) :=
  fold_right (fun c r => match c, r with CZ z, Some zs => Some (z :: zs) | _, _ => None end) (Some []) cs.

(** ADNODE_UNARY_FUNC, unary.hpp:173-188: [fmap] applied to the value.  -x of a
    bool or int is an int, the functions of cmath return double. *)
Definition fold_un (u : un) (s : shape) (c : cv) : out cv :=
  match c with
  | CD l => Built (CD (map (un_f N u) l))
  | _ =>
    match zof s c with
    | Some z => match u with
                | UNeg => Built (CZ (- z))
                | _ => Built (CD [un_f N u (nofZ N z)])
                end
    | None => Reject
    end
  end.
(** pow.hpp:205-232.  PowFunc ends in the double 1. (36-43); for a negative
    exponent at base 0 it returns numeric_limits<BaseType>::infinity() (45-56),
    which is 0 for bool and int. *)
Definition fold_pow (z : Z) (s : shape) (c : cv) : out cv :=
  match c with
  | CD l => Built (CD (map (pow_f N s z) l))
  | _ =>
    match zof s c with
    | Some y => if (z <? 0)%Z && (y =? 0)%Z then Built (CD [n0 N])
                else Built (CD [powfunc N z (nofZ N y)])
    | None => Reject
    end
  end.
(** sum.hpp:243-261, prod.hpp:288-306: a scalar constant is returned as it is;
    Eigen sums and multiplies bools as bools. *)
Definition fold_elem (prod : bool) (s : shape) (c : cv) : out cv :=
  if is_scl s then Built c else
  match c with
  | CD l => Built (CD [if prod then nprod N l else nsum N l])
  | CB l => Built (CB [if prod then forallb (fun b => b) l else existsb (fun b => b) l])
  | CZ _ => Reject
  end.
(** ADNODE_BINARY_FUNC, binary.hpp:237-263. *)
Definition fold_bin (b : bi) (s1 s2 : shape) (n : nat) (c1 c2 : cv) : out cv :=
  if is_scl s1 && is_scl s2 then
    match zof s1 c1, zof s2 c2 with
    | Some x, Some y =>
        if is_cmp b then Built (CB [zi_t b x y])
        else match zi_f b x y with Built z => Built (CZ z) | Undef => Undef | Reject => Reject end
    | _, _ =>
        let x := hd0 N (cval c1) in
        let y := hd0 N (cval c2) in
        if is_cmp b then Built (CB [bi_t b x y]) else Built (CD [bi_f N true b x y])
    end
  else
    match c1, c2 with
    | CB l1, CB l2 =>
        if is_scl s1 || is_scl s2 then Reject else
        match b with
        | BAnd => Built (CB (map2 andb l1 l2))           (* x.min(y) *)
        | BOr => Built (CB (map2 orb l1 l2))             (* x.max(y) *)
        | _ => Reject
        end
    | CD l1, CD l2 =>
        match b with
        | BAdd | BSub | BMul | BDiv | BAnd | BOr => Built (CD (bin_fwd N b s1 s2 n l1 l2))
        | _ => Built (CB (map2 (bi_t b) (bc N s1 n l1) (bc N s2 n l2)))
        end
    | _, _ => Reject
    end.
(** sum and prod over a range of constants, sum.hpp:216-241, prod.hpp:259-286.
    The accumulator has the type of the elements; for an empty range it is
    [var_t(0)]: zero, or an Eigen vector of size 0; [var_t(0)] does not compile
    for matrices. *)
Definition fold_iter (prod : bool) (s : sk) (cs : list cv) : out cv :=
  match s, cs with
  | Mat, _ => Reject
  | Scl, [] => Built (CD [n0 N])
  | Vec, [] => Built (CD [])
  | _, _ =>
    match getD cs, getB cs, getZ cs with
    | Some (l :: ls), _, _ => Built (CD (fold_left (map2 (if prod then nmul N else nadd N)) ls l))
    | _, Some (l :: ls), _ => Built (CB (fold_left (map2 (if prod then andb else orb)) ls l))
    | _, _, Some (z :: zs) => Built (CZ (fold_left (if prod then Z.mul else Z.add) zs z))
    | _, _, _ => Reject
    end
  end.
Definition kfold (k : kd) (ss : list shape) (cs : list cv) : out cv :=
  let s := nth_sh ss 0 in
  match k, cs with
  | KUn u, [c] => fold_un u s c
  | KPow z, [c] => fold_pow z s c
  | KSumE, [c] => fold_elem false s c
  | KProdE, [c] => fold_elem true s c
  | KNorm, [CD l] => Built (CD [sqnorm N l])                          (* norm.hpp:87-106 *)
  | KDet _, [CD l] => Built (CD [lu_det T (nla N) (rows s) l])        (* det.hpp:216-231 *)
  | KLogDet _, [CD l] =>
      Built (CD [nlog N (nabs N (lu_det T (nla N) (rows s) l))])      (* log_det.hpp:216-231 *)
  | KBin b, [c1; c2] => fold_bin b s (nth_sh ss 1) (size (kshape k ss)) c1 c2
  | KDot, [CD l1; CD l2] =>
      Built (CD (mm N (rows s) (cols s) (cols (nth_sh ss 1)) l1 l2))  (* dot.hpp:141-163 *)
  | KSumI q, _ => fold_iter false q cs
  | KProdI q, _ => fold_iter true q cs
  (* KTrans: transpose.hpp:64-79 initialises a double from a matrix: rejected *)
  | _, _ => Reject
  end.
(** if_else.hpp:119-156.  Both branches are evaluated; the else value is
    converted to the type of the if value (143-144). *)
Definition fold_if (s : shape) (c t f : cv) : out cv :=
  let sel f := Built (if ntrue N (hd0 N (cval c)) then t else f) in
  match t, f with
  | CD _, CD _ | CB _, CB _ | CZ _, CZ _ => sel f
  | _, _ =>
    if is_scl s then
      match t with
      | CD _ => sel (CD (cval f))
      | CB _ => sel (CB [ntrue N (hd0 N (cval f))])
      | CZ _ => match zof s f with Some z => sel (CZ z) | None => Reject end
      end
    else Reject
  end.

(** Objects returned by the builders: a Constant, a ConstantView or a node. *)
Inductive bx := BK (s : shape) (c : cv) | BV (s : shape) (o : nat) | BE (u : U).
Definition bconst (b : bx) : bool := match b with BE _ => false | _ => true end.
Definition btree (b : bx) : U :=
  match b with BK s c => ECst s (cval c) | BV s o => ECvw s o | BE u => u end.
(** [feval()] of a constant at construction time. *)
Definition bread (m : mem N) (b : bx) : out cv :=
  match b with
  | BK _ c => Built c
  | BV s o => match load m (Ptr 4 o) (size s) with Ok l => Built (CD l) | Err _ => Undef end
  | BE _ => Reject
  end.
Fixpoint breads (m : mem N) (bs : list bx) : out (list cv) :=
  match bs with
  | [] => Built []
  | b :: l => bindO (bread m b) (fun c => bindO (breads m l) (fun cs => Built (c :: cs)))
  end.
Definition folds (k : kd) : bool := match k with KStat _ => false | _ => true end.
(** A builder function; [cst] is [util::is_constant_v] of the operand types. *)
Definition mknode (k : kd) (cst : bool) (bs : list bx) (m : mem N) : out bx :=
  let ss := map (fun b => shape_of (btree b)) bs in
  if folds k && cst then
    bindO (breads m bs) (fun cs =>
    bindO (kfold k ss cs) (fun c =>
    Built (match k with
           | KSumE | KProdE => if is_scl (nth_sh ss 0) then BK (nth_sh ss 0) c else BK scl c
           | _ => BK (kshape k ss) c
           end)))
  else Built (BE (EComp k tt (map btree bs))).

(** Construction of an expression, bottom-up, with [m] the memory at that time.
    (Whether an empty range is one of constants is not visible in the
    expression; it is taken to be one of nodes here, see [mknode].) *)
Fixpoint build (u : U) (m : mem N) : out bx :=
  match u with
  | EVar _ _ => Built (BE u)
  | ECst s c => Built (BK s (CD c))
  | ECvw s o => Built (BV s o)
  | EComp k _ es =>
      bindO ((fix go es := match es with
                           | [] => Built []
                           | y :: l => bindO (build y m) (fun b => bindO (go l) (fun bs => Built (b :: bs)))
                           end) es) (fun bs =>
      mknode k (match bs with [] => false | _ => forallb bconst bs end) bs m)
  | EEq a s o y => bindO (build y m) (fun b => Built (BE (EEq a s o (btree b))))       (* var_view.hpp:54-63 *)
  | EOpEq q a s o y => bindO (build y m) (fun b => Built (BE (EOpEq q a s o (btree b))))  (* var_view.hpp:199-212 *)
  | EGlue a l r =>                                                                     (* glue.hpp:124-139 *)
      bindO (build l m) (fun b1 => bindO (build r m) (fun b2 => Built (BE (EGlue a (btree b1) (btree b2)))))
  | EFor a s es =>                                                                     (* for_each.hpp:118-130 *)
      bindO ((fix go es := match es with
                           | [] => Built []
                           | y :: l => bindO (build y m) (fun b => bindO (go l) (fun bs => Built (b :: bs)))
                           end) es) (fun bs =>
      Built (BE (EFor a s (map btree bs))))
  | EIf a c t f =>
      bindO (build c m) (fun b1 => bindO (build t m) (fun b2 => bindO (build f m) (fun b3 =>
      if bconst b1 && bconst b2 && bconst b3 then
        bindO (bread m b1) (fun x => bindO (bread m b2) (fun y => bindO (bread m b3) (fun z =>
        if shape_eqb (shape_of (btree b2)) (shape_of (btree b3)) then
          bindO (fold_if (shape_of (btree b2)) x y z) (fun v => Built (BK (shape_of (btree b2)) v))
        else Undef)))
      else Built (BE (EIf a (btree b1) (btree b2) (btree b3))))))
  end.
End Fold.
Arguments CB {N} l. Arguments CZ {N} z. Arguments CD {N} l.
Arguments BK {N} s c. Arguments BV {N} s o. Arguments BE {N} u.
