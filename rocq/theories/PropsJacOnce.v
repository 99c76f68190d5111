(** Property theorem C72: the Jacobian from one evaluate and one backward pass per
    output. *)
From Coq Require Import Reals Lra.
From Coquelicot Require Import Coquelicot.
From Verif Require Import Base Num Expr Node Stat Machine Wf Session Tape XR Spec RSess Train Grad LKM LGrd Jac LAdjR.
Local Open Scope R_scope.
Set Bullet Behavior "Strict Subproofs".

(** Evaluate once; then for every output in [ks] reset all adjoints, run evaluate_adj
    with the unit seed and read the adjoint cells [os].  The value is returned, row k
    holds the partial derivatives of output k with respect to the cells [os], and the
    variables hold what the one evaluation put there.  No forward pass is repeated, so
    unlike C53_jacobian nothing is asked of the placeholders; += and the like are
    excluded (C71_op_eq_refuted). *)
Theorem C72_jacobian_once (la : linalg xr) (LA : la_ok la) bv ba (u : expr (XR la) unit) D e m rho al b os ks :
  okexpr la u -> session la bv ba u D e m -> mreal la u m D rho al -> dom D true b u rho ->
  opw u = [] -> (b = true -> size (shape_of u) = 1%nat) ->
  (forall o, In o os -> In o (refs u) /\ ~ In o (eqw u)) -> (forall k, In k ks -> (k < size (shape_of u))%nat) ->
  exists G, (forall o, In o os -> partials D u rho o (G o)) /\
  exists e2 m2, jac_once la u os ks e m = Ok (e2, m2, map Fin (val D u rho), map (fun k => map (fun o => Fin (G o k)) os) ks) /\
    forall o, In o (refs u) -> m2 0%nat o = Some (Fin (fin_env D u rho o)).
Proof. exact (jac_once_thm la LA bv ba u D e m rho al b os ks). Qed.
Print Assumptions C72_jacobian_once.

(** (w = prod{a, b}, w * a) on 3-vectors, a at 0, b at 3, w at 6; a has a zero. *)
Definition u72 {la} : expr (XR la) unit :=
  let v o := EVar (Sh Vec 3 1) o in
  EGlue tt (EEq tt (Sh Vec 3 1) 6 (EComp (KProdI Vec) tt [v 0%nat; v 3%nat])) (EComp (KBin BMul) tt [v 6%nat; v 0%nat]).
Example C72_nonvacuous : let u := @u72 exact_la in
  exists e m, la_ok exact_la /\ okexpr exact_la u /\
  session exact_la 2 3 u (fun _ => 0) e m /\ mreal exact_la u m (fun _ => 0) INR (fun _ => 5) /\
  dom (fun _ => 0) true false u INR /\ opw u = [] /\
  (forall o, In o [0; 1; 2; 3; 4; 5]%nat -> In o (refs u) /\ ~ In o (eqw u)) /\
  (forall k, In k [0; 1; 2]%nat -> (k < size (shape_of u))%nat) /\ fin_env (fun _ => 0) u INR 7%nat <> INR 7.
Proof.
  intros u. assert (HK : okexpr exact_la u) by (split; [reflexivity|split; [reflexivity|cbn; tauto]]).
  destruct (session_start exact_la exact_la_ok 2 3 u (fun _ => 0) INR (fun _ => 5)) as [e [m [H1 H2]]]; auto.
  { cbv; intuition discriminate. }
  exists e, m. split; [exact exact_la_ok|]. split; [exact HK|]. split; [exact H1|]. split; [exact H2|].
  split; [cbn; repeat (match goal with |- _ /\ _ => split end); auto|]. split; [reflexivity|]. split; [|split].
  - intros o Ho. cbn in *. lia.
  - intros k Hk. cbn in *. lia.
  - cbn. lra.
Qed.
