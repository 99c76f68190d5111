(** Property theorems C67: C++ types of operands and expressions. *)
From Verif Require Import Base Num Expr Node Stat Machine Wf Fold Ieee Types LTypes.

(** ** Conversion of operands: never ambiguous; rejected are exactly the types
    that are neither AD nor arithmetic nor Eigen, and the Eigen types that are
    neither column vectors nor dynamic in both sizes. *)
Theorem C67_convert x :
  length (matches x) <= 1 /\
  (convert x = None <->
   x = XOther \/ exists v r c, x = XEigen v r c /\ c <> Some 1 /\ (r <> None \/ c <> None)).
Proof. exact (conj (conv_unambiguous x) (conv_none x)). Qed.
Print Assumptions C67_convert.
(** What an operand becomes: an expression itself, a Var its view, a number or an
    Eigen object a constant of its value type. *)
Theorem C67_converted x t : convert x = Some t <->
  x = XExpr t \/ (exists v k, x = XVar v k /\ t = Ty TVar v k) \/ (exists v, x = XArith v /\ t = Ty TCst v Scl) \/
  (exists v r, x = XEigen v r (Some 1) /\ t = Ty TCst v Vec) \/ (exists v, x = XEigen v None None /\ t = Ty TCst v Mat).
Proof. exact (conv_to x t). Qed.
Print Assumptions C67_converted.
(** The overloads of two operands take part exactly when both convert and one of them is
    an expression or a Var. *)
Theorem C67_overload x y a b : overload2 x y = Some (a, b) <->
  convert x = Some a /\ convert y = Some b /\
  ((exists t, x = XExpr t \/ y = XExpr t) \/ exists v k, x = XVar v k \/ y = XVar v k).
Proof. exact (over_to x y a b). Qed.
Print Assumptions C67_overload.
(** VectorXd, Vector3d, MatrixXd; RowVectorXd, Matrix2d; [x * 2]; [2 * 2]. *)
Example C67_convert_ex :
  convert (XEigen TD None (Some 1)) = Some (Ty TCst TD Vec) /\ convert (XEigen TD (Some 3) (Some 1)) = Some (Ty TCst TD Vec) /\
  convert (XEigen TD None None) = Some (Ty TCst TD Mat) /\
  convert (XEigen TD (Some 1) None) = None /\ convert (XEigen TD (Some 2) (Some 2)) = None /\
  overload2 (XVar TD Scl) (XArith TI) = Some (Ty TVar TD Scl, Ty TCst TI Scl) /\ overload2 (XArith TI) (XArith TI) = None.
Proof. repeat split. Qed.

(** ** All nodes of an accepted expression have one value type. *)
Theorem C67_uniform x u t : cty u = Some t -> tc t = TNode -> sub x u ->
  exists t', cty x = Some t' /\ (tc t' = TNode -> tv t' = tv t).
Proof. exact (uniform x u t). Qed.
Print Assumptions C67_uniform.
(** It is double as soon as one node computes with a variable or assigns one:
    nothing is stored in an int or bool. *)
Theorem C67_double x u t : cty u = Some t -> tc t = TNode -> sub x u -> uses_var x -> tv t = TD.
Proof. exact (double x u t). Qed.
Print Assumptions C67_double.
Example C67_double_ex : cty mixed = Some (Ty TNode TD Scl) /\
  sub (EComp (KBin BMul) tt [EVar scl 0; ECst scl [TI]]) mixed /\ uses_var (EComp (KBin BMul) tt [EVar scl 0; ECst scl [TI]] : expr vt unit).
Proof.
  split; [reflexivity|]. split; [|exists scl, 0; now left].
  eapply sub_step; [now left|]. eapply sub_step; [now left|]. apply sub_refl.
Qed.
(** Without variables a log-density of ints is an int: its value is truncated.
    [normal_adj_log_pdf(ad::constant(1), 0, 2)] *)
Theorem C67_density_refuted :
  ~ (forall q es t, cty (EComp (KStat q) tt es) = Some t -> tv t = TD) /\
  cty (EComp (KStat NormSSS) tt [ECst scl [TI]; ECst scl [TI]; ECst scl [TI]]) = Some (Ty TNode TI Scl).
Proof. exact int_density. Qed.
Print Assumptions C67_density_refuted.

(** ** Order of the operands of binary operators: it does not matter when the
    value types are the same; *)
Theorem C67_symmetric b x y tx t : cty x = Some tx -> cty y = Some t -> tv tx = tv t ->
  cty (EComp (KBin b) tt [x; y]) = cty (EComp (KBin b) tt [y; x]).
Proof. exact (symmetric b x y tx t). Qed.
Print Assumptions C67_symmetric.
(** a constant next to a double is accepted on the right whatever its type, on
    the left only if it is a double; *)
Theorem C67_left b x y v k c k' : cty x = Some (Ty TCst v k) -> cty y = Some (Ty c TD k') -> c <> TCst ->
  (cty (EComp (KBin b) tt [x; y]) <> None <-> v = TD /\ bin_kinds k k' = true) /\
  (cty (EComp (KBin b) tt [y; x]) <> None <-> bin_kinds k k' = true).
Proof. exact (left_const b x y v k c k'). Qed.
Print Assumptions C67_left.
(** so [x * 2] compiles and [2 * x] does not, for every operator and shape. *)
Theorem C67_symmetric_refuted s s' o b : is_scl s' = true ->
  cty (EComp (KBin b) tt [EVar s o; ECst s' [TI]]) = Some (Ty TNode TD (kind s)) /\
  cty (EComp (KBin b) tt [ECst s' [TI]; EVar s o]) = None.
Proof. exact (left_of_int s s' o b). Qed.
Print Assumptions C67_symmetric_refuted.
Example C67_symmetric_ex :
  cty (EComp (KBin BSub) tt [ECst scl [TD]; EVar (Sh Vec 3 1) 0]) = Some (Ty TNode TD Vec) /\
  cty (EComp (KBin BSub) tt [EVar (Sh Vec 3 1) 0; ECst scl [TD]]) = Some (Ty TNode TD Vec) /\
  cty (EComp (KBin BMul) tt [ECst scl [TI]; EVar scl 0]) = None.
Proof. repeat split. Qed.

(** ** The run-time model and the compiler agree on programs of doubles: those
    that satisfy the usage rules and do not fold compile, with value type double
    and the kind of the shape computed at run time. *)
Theorem C67_wellformed {T} (u : expr T unit) : wfs u = true -> plain u = true ->
  exists c, cty (cmap (fun _ => TD) u) = Some (Ty c TD (kind (shape_of u))).
Proof. exact (fun H1 H2 => ex_intro _ (cat u) (wellformed u H1 H2)). Qed.
Print Assumptions C67_wellformed.
(** With folding: an accepted program builds a constant exactly when its type is
    one, and the constant's value type and kind are the static ones. *)
Theorem C67_fold (N : num) (u : expr N unit) m b t :
  build N u m = Built b -> cty (cmap (fun _ => TD) u) = Some t ->
  match b with
  | BK s c => tc t = TCst /\ tv t = cvty c /\ tk t = kind s
  | BV s _ => tc t = TCst /\ tv t = TD /\ tk t = kind s
  | BE v => tc t <> TCst /\ tk t = kind (shape_of v)
  end.
Proof. exact (build_match N u m b t). Qed.
Print Assumptions C67_fold.
(** Folding a comparison makes a bool: [(1. < 2.) * x] is rejected although
    [y * x] with any double constant y, and [x * (1. < 2.)], are not. *)
Theorem C67_fold_refuted (N : num) (one two : N) m :
  let u := EComp (KBin BMul) tt [cmp12 one two; EVar scl 0] in
  wfs u = true /\ (exists b, build N u m = Built b) /\ cty (cmap (fun _ => TD) u) = None /\
  cty (cmap (fun _ => TD) (EComp (KBin BMul) tt [EVar scl 0; cmp12 one two])) = Some (Ty TNode TD Scl).
Proof. exact (conj eq_refl (conj (ex_intro _ _ eq_refl) (conj eq_refl eq_refl))). Qed.
Print Assumptions C67_fold_refuted.
(** Usage rules and [plain] together: a vector program with an assignment. *)
Example C67_wellformed_ex :
  let u : expr nat unit := EGlue tt (EEq tt (Sh Vec 2 1) 2 (EComp (KBin BMul) tt [ECst scl [7]; EVar (Sh Vec 2 1) 0]))
                                    (EComp (KStat NormVSS) tt [EVar (Sh Vec 2 1) 2; ECst scl [1]; EVar scl 4]) in
  wfs u = true /\ plain u = true /\ shape_of u = scl /\ cty (cmap (fun _ => TD) u) = Some (Ty TNode TD Scl).
Proof. repeat split. Qed.
Example C67_fold_ex (N : num) (one two : N) m :
  build N (cmp12 one two) m = Built (BK scl (CB [nltb N one two])) /\
  cty (cmap (fun _ => TD) (cmp12 one two)) = Some (Ty TCst TB Scl).
Proof. split; reflexivity. Qed.
