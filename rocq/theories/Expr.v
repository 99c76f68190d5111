(** Expression trees: one constructor per kind of node class in
    /repo/include/fastad_bits/reverse.  [T] is the value type, [A] the run-time
    annotation of a node (views and caches, see Machine.v; [unit] for an
    expression as the user wrote it).
    Simplification: a variable view (var_view.hpp:41-50, two pointers) is one
    offset [o]; its values are block 0 and its adjoints block 1 from [o] on, so
    views overlap in values exactly where they overlap in adjoints. *)
From Verif Require Import Base.

(** unary.hpp:191-296, one functor each. *)
Inductive un := UNeg | USin | UCos | UTan | UAsin | UAcos | UAtan | UExp | ULog
              | USqrt | UErf | USigmoid | USinh | UCosh | UTanh.
(** binary.hpp:266-470, one functor each. *)
Inductive bi := BAdd | BSub | BMul | BDiv
              | BLt | BLe | BGt | BGe | BEq | BNe | BAnd | BOr.
(** eq.hpp:305-413: AddEq, SubEq, MulEq, DivEq. *)
Inductive oe := OAdd | OSub | OMul | ODiv.
(** det.hpp / log_det.hpp decomposition policies (97-202 in both files). *)
Inductive fact := LU | LDLT | LLT.
(** Shape combinations of the specialisations in reverse/stat.  The letters are
    the shapes of the parameters in call order. *)
Inductive stat :=
| NormSSS | NormVSS | NormVVS | NormVSV | NormVVV | NormVSM | NormVVM  (* normal.hpp *)
| CauSSS | CauVSS | CauVSV | CauVVS | CauVVV                          (* cauchy.hpp *)
| UniSSS | UniVSS | UniVSV | UniVVS | UniVVV                          (* uniform.hpp *)
| BerSS | BerVS | BerVV                                               (* bernoulli.hpp *)
| Wish.                                                               (* wishart.hpp *)

(** Node kinds that own a value cache and combine the values of their
    operands. *)
Inductive kd :=
| KUn (u : un)           (* UnaryNode, unary.hpp:32-120 *)
| KPow (z : Z)           (* PowNode, pow.hpp:67-196 *)
| KTrans                 (* TransposeNode, transpose.hpp *)
| KSumE                  (* SumElemNode, sum.hpp:129-203 *)
| KProdE                 (* ProdElemNode, prod.hpp:143-245 *)
| KNorm                  (* NormNode, norm.hpp *)
| KDet (f : fact)        (* DetNode, det.hpp:25-90 *)
| KLogDet (f : fact)     (* LogDetNode, log_det.hpp:25-90 *)
| KBin (b : bi)          (* BinaryNode, binary.hpp:36-185 *)
| KDot                   (* DotNode, dot.hpp:54-129 *)
| KSumI (s : sk)         (* SumIterNode, sum.hpp:25-116; s = static shape tag *)
| KProdI (s : sk)        (* ProdIterNode, prod.hpp:22-135 *)
| KStat (s : stat).      (* *AdjLogPDFNode, reverse/stat *)

Inductive expr (T A : Type) :=
| EVar (sh : shape) (o : nat)             (* VarView, var_view.hpp; o = its cells *)
| ECst (sh : shape) (c : list T)          (* Constant, constant.hpp:82-151 *)
| ECvw (sh : shape) (o : nat)             (* ConstantView, constant.hpp:26-80 *)
| EComp (k : kd) (a : A) (es : list (expr T A))
| EEq (a : A) (sh : shape) (o : nat) (e : expr T A)            (* EqNode, eq.hpp:29-159 *)
| EOpEq (q : oe) (a : A) (sh : shape) (o : nat) (e : expr T A) (* OpEqNode, eq.hpp:194-303 *)
| EGlue (a : A) (l r : expr T A)          (* GlueNode, glue.hpp *)
| EFor (a : A) (s : sk) (es : list (expr T A)) (* ForEachIterNode, for_each.hpp *)
| EIf (a : A) (c t f : expr T A).         (* IfElseNode, if_else.hpp *)
Arguments EVar {T A}.
Arguments ECst {T A}.
Arguments ECvw {T A}.
Arguments EComp {T A}.
Arguments EEq {T A}.
Arguments EOpEq {T A}.
Arguments EGlue {T A}.
Arguments EFor {T A}.
Arguments EIf {T A}.

(** Size of the first expression, or the empty size (sum.hpp:44-49,
    prod.hpp:42-47, for_each.hpp:39-44); a scalar view is always 1x1 and a
    vector view has one column (value_view.hpp:129-131). *)
Definition iter_shape (s : sk) (ss : list shape) : shape :=
  match s with
  | Scl => scl
  | Vec => match ss with [] => Sh Vec 0 1 | x :: _ => Sh Vec (rows x) (cols x) end
  | Mat => match ss with [] => Sh Mat 0 0 | x :: _ => Sh Mat (rows x) (cols x) end
  end.

Definition nth_sh (ss : list shape) (i : nat) : shape := nth i ss scl.

(** Result shape of a node: unary.hpp:52-55, pow.hpp:86-89, transpose.hpp:33-34
    (always [mat]), sum.hpp:146-149, prod.hpp:161-165, norm.hpp:43-46,
    det.hpp:45-51, binary.hpp:77-91, dot.hpp:80-87 and the stat bases (scalar). *)
Definition kshape (k : kd) (ss : list shape) : shape :=
  let a := nth_sh ss 0 in
  let b := nth_sh ss 1 in
  match k with
  | KUn _ | KPow _ => a
  | KTrans => Sh Mat (cols a) (rows a)
  | KSumE | KProdE | KNorm | KDet _ | KLogDet _ | KStat _ => scl
  | KBin _ => Sh (max_sk (kind a) (kind b)) (max (rows a) (rows b)) (max (cols a) (cols b))
  | KDot => Sh (kind b) (rows a) (cols b)
  | KSumI s | KProdI s => iter_shape s ss
  end.

Section Generic.
Context {T A : Type}.

Fixpoint shape_of (e : expr T A) : shape :=
  match e with
  | EVar sh _ | ECst sh _ | ECvw sh _ => sh
  | EComp k _ es => kshape k (map shape_of es)
  | EEq _ sh _ _ | EOpEq _ _ sh _ _ => sh
  | EGlue _ _ r => shape_of r
  | EFor _ s es => iter_shape s (map shape_of es)
  | EIf _ _ t _ => shape_of t
  end.

(** util::is_constant_v, type_traits.hpp:121-126: true of both Constant and
    ConstantView. *)
Definition is_const (e : expr T A) : bool :=
  match e with ECst _ _ | ECvw _ _ => true | _ => false end.

(** Induction principle with the hypotheses for lists of operands. *)
Section Ind.
Variable P : expr T A -> Prop.
Hypothesis HVar : forall sh o, P (EVar sh o).
Hypothesis HCst : forall sh c, P (ECst sh c).
Hypothesis HCvw : forall sh o, P (ECvw sh o).
Hypothesis HComp : forall k a es, Forall P es -> P (EComp k a es).
Hypothesis HEq : forall a sh o e, P e -> P (EEq a sh o e).
Hypothesis HOpEq : forall q a sh o e, P e -> P (EOpEq q a sh o e).
Hypothesis HGlue : forall a l r, P l -> P r -> P (EGlue a l r).
Hypothesis HFor : forall a s es, Forall P es -> P (EFor a s es).
Hypothesis HIf : forall a c t f, P c -> P t -> P f -> P (EIf a c t f).
Fixpoint expr_ind' (e : expr T A) : P e :=
  match e with
  | EVar sh o => HVar sh o
  | ECst sh c => HCst sh c
  | ECvw sh o => HCvw sh o
  | EComp k a es => HComp k a es
      ((fix go es := match es return Forall P es with
                     | [] => Forall_nil P
                     | e :: t => Forall_cons e (expr_ind' e) (go t) end) es)
  | EEq a sh o e => HEq a sh o e (expr_ind' e)
  | EOpEq q a sh o e => HOpEq q a sh o e (expr_ind' e)
  | EGlue a l r => HGlue a l r (expr_ind' l) (expr_ind' r)
  | EFor a s es => HFor a s es
      ((fix go es := match es return Forall P es with
                     | [] => Forall_nil P
                     | e :: t => Forall_cons e (expr_ind' e) (go t) end) es)
  | EIf a c t f => HIf a c t f (expr_ind' c) (expr_ind' t) (expr_ind' f)
  end.
End Ind.
End Generic.
