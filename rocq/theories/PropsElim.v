(** Property theorems C49: placeholders (README.md:408-434) only avoid repeated
    evaluation.  Replacing a placeholder by the expression assigned to it changes
    neither values nor gradients. *)
From Coq Require Import Reals Lra.
From Coquelicot Require Import Coquelicot.
From Verif Require Import Base Num Expr Node Stat Machine Wf Session Tape XR Spec RSess Grad LKM LGrd Elim LElim.
Open Scope R_scope.
Set Bullet Behavior "Strict Subproofs".

(** [u]: the glued expression (w = y, f);  [v]: f with y in place of w.  y assigns
    nothing and is neither a constant nor an if_else (C16); f reads w as a whole,
    does not assign it and does not op= a variable of y. *)
Theorem C49_wellformed (la : linalg xr) w sh (y f : expr (XR la) unit) :
  okexpr la (EGlue tt (EEq tt sh w y) f) -> writes y = [] -> is_const y = false -> gettable y = true ->
  whole w sh f = true -> (forall o, In o (opw f) -> ~ In o (refs y)) ->
  okexpr la (subst w sh y f) /\ forall o, In o (refs (subst w sh y f)) -> ~ In o (cells sh w).
Proof.
  exact (fun HK NY CY GY WH OP => conj (el_ok la w sh y f (fun _ => 0) HK NY CY GY OP)
    (el_nocell la w sh y f (fun _ => 0) HK WH OP)).
Qed.
Print Assumptions C49_wellformed.
(** Two sessions over the same data: evaluate returns the same value and leaves
    the same variables, wherever the glued expression is defined. *)
Theorem C49_value (la : linalg xr) (LA : la_ok la) w sh (y f : expr (XR la) unit) D bv ba bv' ba' e e' m m' rho al b
    (u := EGlue tt (EEq tt sh w y) f) (v := subst w sh y f) :
  okexpr la u -> writes y = [] -> is_const y = false -> gettable y = true ->
  whole w sh f = true -> (forall o, In o (opw f) -> ~ In o (refs y)) ->
  session la bv ba u D e m -> session la bv' ba' v D e' m' ->
  mreal la u m D rho al -> mreal la v m' D rho al -> dom D false b u rho ->
  exists e2 m2 e2' m2' x, evaluate e m = Ok (e2, m2, x) /\ evaluate e' m' = Ok (e2', m2', x) /\
    forall o, In o (refs v) -> m2' 0%nat o = m2 0%nat o /\ m2' 1%nat o = m2 1%nat o.
Proof.
  exact (fun HK NY CY GY WH OP => elim_eval la LA w sh y f D HK NY CY GY WH OP bv ba bv' ba' e e' m m' rho al b).
Qed.
Print Assumptions C49_value.
(** ... and autodiff returns the same value and leaves the same adjoint and value
    in every variable that f does not assign, wherever the glued expression is
    differentiable. *)
Theorem C49_gradient (la : linalg xr) (LA : la_ok la) w sh (y f : expr (XR la) unit) D bv ba bv' ba' e e' m m' rho al b seed
    (u := EGlue tt (EEq tt sh w y) f) (v := subst w sh y f) :
  okexpr la u -> writes y = [] -> is_const y = false -> gettable y = true ->
  whole w sh f = true -> (forall o, In o (opw f) -> ~ In o (refs y)) ->
  session la bv ba u D e m -> session la bv' ba' v D e' m' ->
  mreal la u m D rho al -> mreal la v m' D rho al -> dom D true b u rho ->
  length seed = size (shape_of f) -> (b = true -> forall j, (j < length seed)%nat -> el seed j = 1) ->
  (forall o, In o (writes u) -> al o = 0) ->
  exists e2 m2 e2' m2' x, autodiff e (map Fin seed) m = Ok (e2, m2, x) /\ autodiff e' (map Fin seed) m' = Ok (e2', m2', x) /\
    forall o, In o (refs v) -> ~ In o (eqw f) -> m2' 0%nat o = m2 0%nat o /\ m2' 1%nat o = m2 1%nat o.
Proof.
  exact (fun HK NY CY GY WH OP => elim_diff la LA w sh y f D HK NY CY GY WH OP bv ba bv' ba' e e' m m' rho al b seed).
Qed.
Print Assumptions C49_gradient.

(** README.md:425-431: (w = cos(v), sin(x) + w + sum(w));  v w x = 0 5 10 *)
Definition v5 := Sh Vec 5 1.
Definition y49 {la} : expr (XR la) unit := EComp (KUn UCos) tt [EVar v5 0].
Definition f49 {la} : expr (XR la) unit :=
  EComp (KBin BAdd) tt [EComp (KBin BAdd) tt [EComp (KUn USin) tt [EVar scl 10]; EVar v5 5];
                        EComp KSumE tt [EVar v5 5]].
Example C49_nonvacuous : let u := EGlue tt (EEq tt v5 5 (@y49 exact_la)) (@f49 exact_la) in
  exists e m e' m', okexpr exact_la u /\ whole 5 v5 (@f49 exact_la) = true /\
  session exact_la 2 3 u (fun _ => 0) e m /\ mreal exact_la u m (fun _ => 0) (fun _ => 1) (fun _ => 0) /\
  subst 5 v5 (@y49 exact_la) f49 =
    EComp (KBin BAdd) tt [EComp (KBin BAdd) tt [EComp (KUn USin) tt [EVar scl 10]; EComp (KUn UCos) tt [EVar v5 0]];
                          EComp KSumE tt [EComp (KUn UCos) tt [EVar v5 0]]] /\
  session exact_la 2 3 (subst 5 v5 (@y49 exact_la) f49) (fun _ => 0) e' m' /\
  mreal exact_la (subst 5 v5 (@y49 exact_la) f49) m' (fun _ => 0) (fun _ => 1) (fun _ => 0) /\
  dom (fun _ => 0) true false u (fun _ => 1) /\ length [1; 1; 2; 1; 1] = size (shape_of (@f49 exact_la)).
Proof.
  intros u. assert (HK : okexpr exact_la u) by (split; [reflexivity|split; [reflexivity|cbn; tauto]]).
  destruct (session_start exact_la exact_la_ok 2 3 u (fun _ => 0) (fun _ => 1) (fun _ => 0)) as [e [m [H1 H2]]]; auto.
  { cbv; intuition discriminate. }
  destruct (session_start exact_la exact_la_ok 2 3 (subst 5 v5 (@y49 exact_la) f49) (fun _ => 0) (fun _ => 1) (fun _ => 0)) as [e' [m' [H3 H4]]].
  { cbv; intuition discriminate. }
  { split; [reflexivity|split; [reflexivity|cbn; tauto]]. }
  { reflexivity. }
  exists e, m, e', m'. split; [exact HK|]. split; [reflexivity|]. split; [exact H1|]. split; [exact H2|]. split; [reflexivity|].
  split; [exact H3|]. split; [exact H4|]. split; [|reflexivity].
  cbn. repeat (match goal with |- _ /\ _ => split end); auto.
Qed.
