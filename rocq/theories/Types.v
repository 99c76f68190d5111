(** C++ types of expressions: which of the programs written with the overloads
    of reverse/core and reverse/stat the compiler accepts, and the value type of
    the result.  Only what FastAD's own headers check is modelled: partial
    specialisations, SFINAE conditions, static_asserts, base-class typedefs and
    the parameter types of [bind_cache].  Rejections inside Eigen (arrays of
    different scalar types and so on) are not, so acceptance here means that
    FastAD's own conditions hold.

    Simplifications:
    - the arithmetic types are bool, int and double; variables hold doubles;
    - a program is an [expr] whose embedded constants are replaced by their type
      ([ECst sh [v]] is a Constant<v, ...>; an arithmetic or Eigen operand is
      converted to one first, [convert] below);
    - the elements of a range have one C++ type; here only their value types and
      kinds are required to be equal. *)
From Verif Require Import Base Num Expr Node Machine Fold.

(** ** Operands *)
Inductive vt := TB | TI | TD.
Definition vt_eqb (a b : vt) : bool :=
  match a, b with TB, TB | TI, TI | TD, TD => true | _, _ => false end.
(** std::common_type *)
Definition common (a b : vt) : vt :=
  match a, b with
  | TD, _ | _, TD => TD
  | TI, _ | _, TI => TI
  | TB, TB => TB
  end.
(** The class of an AD expression: Constant or ConstantView, VarView, or a node
    that is given storage by bind. *)
Inductive tcat := TCst | TVar | TNode.
Record ty := Ty { tc : tcat; tv : vt; tk : sk }.
Definition is_tcst (t : ty) : bool := match tc t with TCst => true | _ => false end.
(** Types of C++ objects passed to an overload: an AD expression, a Var, an
    arithmetic value, an Eigen object with its RowsAtCompileTime and
    ColsAtCompileTime ([None] is Eigen::Dynamic), anything else. *)
Inductive cxx := XExpr (t : ty) | XVar (v : vt) (k : sk) | XArith (v : vt)
               | XEigen (v : vt) (r c : option nat) | XOther.
(** type_traits.hpp:198-240: the partial specialisations of [convert_to_ad] in
    order.  The primary template has no definition. *)
Definition spec_expr (x : cxx) : option ty := match x with XExpr t => Some t | _ => None end.
Definition spec_var (x : cxx) : option ty := match x with XVar v k => Some (Ty TVar v k) | _ => None end.
Definition spec_arith (x : cxx) : option ty := match x with XArith v => Some (Ty TCst v Scl) | _ => None end.
Definition spec_vec (x : cxx) : option ty :=
  match x with XEigen v _ (Some 1) => Some (Ty TCst v Vec) | _ => None end.
Definition spec_mat (x : cxx) : option ty :=
  match x with XEigen v None None => Some (Ty TCst v Mat) | _ => None end.
Definition specs : list (cxx -> option ty) := [spec_expr; spec_var; spec_arith; spec_vec; spec_mat].
Definition matches (x : cxx) : list ty :=
  flat_map (fun f => match f x with Some t => [t] | None => [] end) specs.
(** No matching specialisation: not convertible (254-268).  Several: ambiguous,
    an error. *)
Definition convert (x : cxx) : option ty :=
  match matches x with [t] => Some t | _ => None end.
(** type_traits.hpp:277-293 *)
Definition is_ad (x : cxx) : bool := match x with XExpr _ | XVar _ _ => true | _ => false end.
(** Overloads of two operands take part when both convert and one is AD
    (binary.hpp:238-243). *)
Definition overload2 (x y : cxx) : option (ty * ty) :=
  match convert x, convert y with
  | Some a, Some b => if is_ad x || is_ad y then Some (a, b) else None
  | _, _ => None
  end.

(** ** Nodes *)
Definition scl_k (k : sk) : bool := match k with Scl => true | _ => false end.
(** binary.hpp:63-68 *)
Definition bin_kinds (a b : sk) : bool := scl_k a || scl_k b || sk_eqb a b.
Definition same_ty (a b : ty) : bool := vt_eqb (tv a) (tv b) && sk_eqb (tk a) (tk b).
(** Value type and kind of a node over operands [ts]: unary.hpp:44-50,
    pow.hpp:78-84, sum.hpp:25-40 and 129-145, prod.hpp, norm.hpp:34-38,
    det.hpp:36-40, log_det.hpp:36-40, transpose.hpp:24-28, dot.hpp:15-37 and
    68-70.  BinaryNode (binary.hpp:39-43) inherits from the view over the left
    operand's value type but takes its typedefs from the view over the common
    type (71-75): it only compiles if these are the same class.  In the same
    way bernoulli.hpp:16-24 inherits from the view over the common type and uses
    the one over p's type.  The other densities use the common type of their
    parameters (normal.hpp:17-28, cauchy.hpp:17-28, uniform.hpp:16-27), of x and
    v for Wishart, whose n must be a scalar constant (wishart.hpp:17-31). *)
Definition nodety (k : kd) (ts : list ty) : option (vt * sk) :=
  match k, ts with
  | (KUn _ | KPow _), [a] => Some (tv a, tk a)
  | (KSumE | KProdE), [a] => Some (tv a, Scl)
  | (KNorm | KDet _ | KLogDet _), [a] => if scl_k (tk a) then None else Some (tv a, Scl)
  | KTrans, [a] => if scl_k (tk a) then None else Some (tv a, Mat)
  | KBin _, [a; b] =>
      if bin_kinds (tk a) (tk b) && vt_eqb (tv a) (common (tv a) (tv b))
      then Some (common (tv a) (tv b), max_sk (tk a) (tk b)) else None
  | KDot, [a; b] =>
      if vt_eqb (tv a) (tv b) && sk_eqb (tk a) Mat && negb (scl_k (tk b))
      then Some (tv a, tk b) else None
  | (KSumI s | KProdI s), [] => Some (TD, s)
  | (KSumI s | KProdI s), a :: l =>
      if sk_eqb (tk a) s && forallb (same_ty a) l then Some (tv a, s) else None
  | KStat q, a :: b :: l =>
      if sks_eqb (map tk ts) (stat_kinds q) then
        match q, l with
        | (BerSS | BerVS | BerVV), [] =>
            if vt_eqb (common (tv a) (tv b)) (tv b) then Some (tv b, Scl) else None
        | Wish, [n] => if is_tcst n then Some (common (tv a) (tv b), Scl) else None
        | _, [c] => Some (common (tv a) (common (tv b) (tv c)), Scl)
        | _, _ => None
        end
      else None
  | _, _ => None
  end.
(** Value type and kind of the constant computed when all operands are
    constants: unary.hpp:173-188 (-x of a bool or int is an int, cmath returns
    double), pow.hpp:205-232, sum.hpp:216-261, prod.hpp:259-306, norm.hpp:87-106,
    det.hpp:216-231, log_det.hpp:216-231, dot.hpp:141-163, binary.hpp:237-263.
    transpose.hpp:64-79 initialises a scalar from a matrix.  [None] also for
    folds over Eigen arrays of bool or int that are not modelled. *)
Definition foldty (k : kd) (ts : list ty) : option (vt * sk) :=
  match k, ts with
  | KUn u, [a] =>
      match tv a with
      | TD => Some (TD, tk a)
      | _ => if scl_k (tk a) then Some (match u with UNeg => TI | _ => TD end, Scl) else None
      end
  | KPow _, [a] =>
      match tv a with
      | TD => Some (TD, tk a)
      | _ => if scl_k (tk a) then Some (TD, Scl) else None
      end
  | (KSumE | KProdE), [a] => Some (tv a, Scl)
  | (KNorm | KDet _ | KLogDet _), [a] => if scl_k (tk a) then None else Some (tv a, Scl)
  | KBin b, [x; y] =>
      if scl_k (tk x) && scl_k (tk y) then
        Some (if is_cmp b then TB
              else match common (tv x) (tv y) with TD => TD | _ => TI end, Scl)
      else
        if negb (bin_kinds (tk x) (tk y)) then None else
        match tv x, tv y with
        | TD, TD => Some (match b with BAdd | BSub | BMul | BDiv | BAnd | BOr => TD | _ => TB end,
                          max_sk (tk x) (tk y))
        | TB, TB => if scl_k (tk x) || scl_k (tk y) then None
                    else match b with BAnd | BOr => Some (TB, tk x) | _ => None end
        | _, _ => None
        end
  | KDot, [a; b] =>
      if vt_eqb (tv a) (tv b) && sk_eqb (tk a) Mat && negb (scl_k (tk b))
      then Some (tv a, tk b) else None
  | (KSumI s | KProdI s), a :: l =>
      if negb (sk_eqb s Mat) && sk_eqb (tk a) s && forallb (same_ty a) l then Some (tv a, s) else None
  | _, _ => None
  end.
(** [bind_cache] of a node takes the PtrPack of the node's own value type and
    hands it to the operands (e.g. binary.hpp:144-147, normal.hpp:43-47); for
    constants and variable views it is a template (constant.hpp:62-66 and
    105-109, var_view.hpp:97-100), for nodes it is not. *)
Definition links (v : vt) (t : ty) : bool :=
  match tc t with TNode => vt_eqb (tv t) v | _ => true end.
Definition node (vs : option (vt * sk)) (ts : list ty) : option ty :=
  match vs with
  | Some (v, s) => if forallb (links v) ts then Some (Ty TNode v s) else None
  | None => None
  end.
Definition comp_ty (k : kd) (ts : list ty) : option ty :=
  if folds k && match ts with [] => false | _ => forallb is_tcst ts end then
    match foldty k ts with Some (v, s) => Some (Ty TCst v s) | None => None end
  else node (nodety k ts) ts.
(** if_else.hpp:119-156 (all operands constant), 41-59 *)
Definition if_ty (c t f : ty) : option ty :=
  if scl_k (tk c) && sk_eqb (tk t) (tk f) then
    if is_tcst c && is_tcst t && is_tcst f then
      if vt_eqb (tv t) (tv f) || scl_k (tk t) then Some (Ty TCst (tv t) (tk t)) else None
    else if vt_eqb (tv t) (tv f) then node (Some (tv t, tk t)) [c; t; f] else None
  else None.
Fixpoint seqo {A} (l : list (option A)) : option (list A) :=
  match l with
  | [] => Some []
  | Some a :: r => match seqo r with Some s => Some (a :: s) | None => None end
  | None :: _ => None
  end.
(** The type of an expression with variables of double; [None]: rejected. *)
Fixpoint cty (e : expr vt unit) : option ty :=
  match e with
  | EVar sh _ => Some (Ty TVar TD (kind sh))                     (* var_view.hpp:41-50 *)
  | ECst sh c => Some (Ty TCst (hd TD c) (kind sh))              (* constant.hpp:82-95 *)
  | ECvw sh _ => Some (Ty TCst TD (kind sh))                     (* constant.hpp:26-40 *)
  | EComp k _ es => match seqo (map cty es) with Some ts => comp_ty k ts | None => None end
  | EEq _ sh _ y =>                                              (* eq.hpp:44-60 *)
      match cty y with
      | Some t => if vt_eqb (tv t) TD && sk_eqb (tk t) (kind sh)
                     && match tc t with TVar => false | _ => true end
                  then node (Some (TD, kind sh)) [t] else None
      | None => None
      end
  | EOpEq _ _ sh _ y =>                                          (* eq.hpp:208-215 *)
      match cty y with
      | Some t => if vt_eqb (tv t) TD && (scl_k (tk t) || sk_eqb (tk t) (kind sh))
                  then node (Some (TD, kind sh)) [t] else None
      | None => None
      end
  | EGlue _ l r =>                                               (* glue.hpp:25-44; a Constant has no data_adj() to view *)
      match cty l, cty r with
      | Some a, Some b => if is_tcst b then None else node (Some (tv b, tk b)) [a; b]
      | _, _ => None
      end
  | EFor _ s es =>                                               (* for_each.hpp:20-38 *)
      match seqo (map cty es) with
      | Some [] => Some (Ty TNode TD s)
      | Some (a :: l) =>
          if sk_eqb (tk a) s && forallb (same_ty a) l && negb (existsb is_tcst (a :: l))
          then node (Some (tv a, s)) (a :: l) else None
      | None => None
      end
  | EIf _ c t f =>
      match cty c, cty t, cty f with
      | Some a, Some b, Some d => if_ty a b d
      | _, _, _ => None
      end
  end.

(** ** Specification vocabulary *)
Definition ops {T A} (e : expr T A) : list (expr T A) :=
  match e with
  | EVar _ _ | ECst _ _ | ECvw _ _ => []
  | EComp _ _ es | EFor _ _ es => es
  | EEq _ _ _ y | EOpEq _ _ _ _ y => [y]
  | EGlue _ l r => [l; r]
  | EIf _ c t f => [c; t; f]
  end.
Inductive sub {T A} (x : expr T A) : expr T A -> Prop :=
| sub_refl : sub x x
| sub_step y e : In y (ops e) -> sub x y -> sub x e.
(** A node that computes with a variable or assigns one. *)
Definition uses_var {T A} (e : expr T A) : Prop :=
  match e with
  | EComp _ _ es => exists s o, In (EVar s o) es
  | EEq _ _ _ _ | EOpEq _ _ _ _ _ => True
  | _ => False
  end.
Definition wish_n {T A} (k : kd) (es : list (expr T A)) : bool :=
  match k, es with KStat Wish, [_; _; n] => is_const n | _, _ => true end.
(** No builder call has only constants for operands, and the n of a Wishart is a
    constant. *)
Fixpoint plain {T A} (e : expr T A) : bool :=
  match e with
  | EVar _ _ | ECst _ _ | ECvw _ _ => true
  | EComp k _ es =>
      forallb plain es && match es with [] => true | _ => negb (folds k && forallb is_const es) end
      && wish_n k es
  | EEq _ _ _ y | EOpEq _ _ _ _ y => plain y
  | EGlue _ l r => plain l && plain r
  | EFor _ _ es => forallb plain es
  | EIf _ c t f => plain c && plain t && plain f && negb (is_const c && is_const t && is_const f)
  end.
Definition cvty {N} (c : cv N) : vt := match c with CB _ => TB | CZ _ => TI | CD _ => TD end.
(** [exp(x * 2) + normal_adj_log_pdf(x, 0, 1)] *)
Definition mixed : expr vt unit :=
  EComp (KBin BAdd) tt [EComp (KUn UExp) tt [EComp (KBin BMul) tt [EVar scl 0; ECst scl [TI]]];
                        EComp (KStat NormSSS) tt [EVar scl 0; ECst scl [TI]; ECst scl [TI]]].
(** [ad::constant(one) < ad::constant(two)] *)
Definition cmp12 {T} (one two : T) : expr T unit := EComp (KBin BLt) tt [ECst scl [one]; ECst scl [two]].
