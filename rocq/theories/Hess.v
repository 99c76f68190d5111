(** Second derivatives: reverse mode run on forward variables.  The scalar type of
    the reverse engine is a template parameter and the functors look up their
    functions in namespace ad as well (unary.hpp:131-134: USING_STD_AD_EIGEN), so
    that [Var<ForwardVar<double>>] computes with dual numbers.
    reverse/core/hessian.hpp:22-64 (hessian_gen) is the loop [hess] below; that
    header itself is written against an earlier interface and no longer included
    (core.hpp:20).

    Simplification: which nodes compile with ForwardVar as scalar type is not
    modelled; forward/core/forward.hpp has no operators mixing it with double, no
    comparisons and no functions beyond those of [f1].  The fields of [Duo] for
    these are arbitrary and outside the fragment [second]. *)
From Coq Require Import ZArith List Arith Bool.
From Verif Require Import Base Num Expr Node Stat Machine Forward.
Import ListNotations.

(** No Eigen decompositions of dual numbers. *)
Definition nola {T} (z : T) : linalg T :=
  LinAlg T (fun _ _ => z) (fun _ _ => false) (fun n _ => repeat z (n * n)) (fun n _ => repeat z n) (fun _ _ => false)
    (fun n _ => repeat z (n * n)) (fun _ _ => z) (fun _ _ => false) (fun n _ => repeat z (n * n)).
(** ForwardVar<T> as arithmetic.  Constants are converted by ADForward(w, df = 0),
    forward/core/forward.hpp:89-91. *)
Definition Duo (N : num) : num :=
  let c (x : N) := Dual (N := N) x (n0 N) in
  let id (v : dual N) := v in
  {| carrier := dual N;
     n0 := c (n0 N); n1 := c (n1 N); nhalf := c (nhalf N); nerfc := c (nerfc N);
     nofZ := fun z => c (nofZ N z); npinf := c (npinf N); nninf := c (nninf N);
     nadd := f2_run N FAdd; nsub := f2_run N FSub; nmul := f2_run N FMul; ndiv := f2_run N FDiv;
     nopp := f1_run N FNeg; nabs := id;
     nsin := f1_run N FSin; ncos := f1_run N FCos; ntan := f1_run N FTan;
     nasin := f1_run N FAsin; nacos := f1_run N FAcos; natan := f1_run N FAtan;
     nexp := f1_run N FExp; nlog := f1_run N FLog; nsqrt := f1_run N FSqrt; nerf := f1_run N FErf;
     nsinh := id; ncosh := id; ntanh := id; npow := fun v _ => v;
     nltb := fun x y => nltb N (w_ x) (w_ y); nleb := fun x y => nleb N (w_ x) (w_ y);
     neqb := fun x y => neqb N (w_ x) (w_ y); nfin := fun x => nfin N (w_ x);
     nsum := fun l => fold_left (f2_run N FAdd) l (c (n0 N));
     nprod := fun l => fold_left (f2_run N FMul) l (c (n1 N));
     nla := nola (c (n0 N)) |}.

(** Nodes within reach of ForwardVar whose second derivatives are right: erf
    passes on no adjoint (C30). *)
Definition second (k : kd) : bool :=
  match k with
  | KUn (UNeg | USin | UCos | UTan | UAsin | UAcos | UAtan | UExp | ULog | USqrt | USigmoid) => true
  | KBin (BAdd | BSub | BMul | BDiv) | KSumE | KSumI _ | KTrans | KNorm | KDot => true
  | _ => false
  end.
Fixpoint secx {T A} (e : expr T A) : bool :=
  match e with
  | EVar _ _ | ECst _ _ | ECvw _ _ => true
  | EComp k _ es => second k && forallb secx es
  | EEq _ _ _ y | EOpEq _ _ _ _ y => secx y
  | EGlue _ l r => secx l && secx r
  | EFor _ _ es => forallb secx es
  | EIf _ _ _ _ => false
  end.

(** hessian.hpp:42-64 (hessian_gen with gradient; 22-40 is the same without line
    58): for every variable, reset all adjoints, put the tangent of the previous
    variable back to 0 and that of this one to 1, autodiff, record the tangent of
    the value and the tangents of the adjoints. *)
Section Hess.
Variable N : num.
Notation ND := (Duo N).
(** x.reset_adjoint() (29) for all variables [l]. *)
Definition reset_adjs (l : list nat) (m : mem ND) : mem ND := fun b o =>
  if (b =? 1) && existsb (Nat.eqb o) l then option_map (fun _ => n0 ND) (m b o) else m b o.
(** x[o].get_value().set_adjoint(t) (52, 54). *)
Definition aim (o : nat) (t : N) (m : mem ND) : mem ND := fun b i =>
  if (b =? 0) && (i =? o) then option_map (fun v => Dual (N := N) (w_ v) t) (m b i) else m b i.
(** compute_hess, 12-20. *)
Fixpoint tangents (m : mem ND) (os : list nat) : res (list N) :=
  match os with
  | [] => Ok []
  | o :: l => x <- rd1 m 1 o ;; xs <- tangents m l ;; Ok (df_ x :: xs)
  end.
(** The loop over the variables [is], [prev] the variable of the previous round;
    [vars] are reset, the adjoints of [os] recorded.  In the header all three are
    x; here [vars] may contain placeholders too. *)
Fixpoint hess (vars os : list nat) (prev : option nat) (is : list nat) (e : expr ND (ann ND)) (m : mem ND)
  : res (expr ND (ann ND) * mem ND * list N * list (list N)) :=
  match is with
  | [] => Ok (e, m, [], [])
  | i :: l =>
      let m0 := reset_adjs vars m in
      let m0 := match prev with Some p => aim p (n0 N) m0 | None => m0 end in
      '(e1, m1, v) <- autodiff e [n1 ND] (aim i (n1 N) m0) ;;
      col <- tangents m1 os ;;
      '(e2, m2, g, cols) <- hess vars os (Some i) l e1 m1 ;;
      Ok (e2, m2, df_ (nth 0 v (n0 ND)) :: g, col :: cols)
  end.
End Hess.
