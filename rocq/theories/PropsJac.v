(** Property theorem C53: Jacobians by unit seeds. *)
From Coq Require Import Reals Lra.
From Coquelicot Require Import Coquelicot.
From Verif Require Import Base Num Expr Node Stat Machine Wf Session Tape XR Spec RSess Train Grad LKM LGrd Jac LJac.
Open Scope R_scope.
Set Bullet Behavior "Strict Subproofs".

(** The loop over outputs [ks] reads off, for every variable cell in [os], the
    partial derivatives of all these outputs, whatever the adjoints held before,
    and leaves the variables as they were.  Guards: a placeholder is assigned
    before it is read; the cells [os] are not placeholders. *)
Theorem C53_jacobian (la : linalg xr) (LA : la_ok la) bv ba (u : expr (XR la) unit) D b os ks e m rho al :
  okexpr la u -> (forall o, In o (eqw u) -> ~ In o (inputs u)) ->
  session la bv ba u D e m -> mreal la u m D rho al -> dom D true b u rho -> (b = true -> size (shape_of u) = 1%nat) ->
  (forall o, In o os -> In o (refs u) /\ ~ In o (eqw u)) -> (forall k, In k ks -> (k < size (shape_of u))%nat) ->
  exists G, (forall o, In o os -> partials D u rho o (G o)) /\
  exists e2 m2, jac la u os ks e m = Ok (e2, m2, map (fun k => map (fun o => Fin (G o k)) os) ks) /\
    forall o, In o (refs u) -> ~ In o (eqw u) -> m2 0%nat o = Some (Fin (rho o)).
Proof. exact (jac_thm la LA bv ba u D b os ks e m rho al). Qed.
Print Assumptions C53_jacobian.

(** (w = sin(v), dot(A, w) * v);  A: 3x3 at 0, v at 9, w at 12 *)
Definition v3 := Sh Vec 3 1.
Definition u53 {la} : expr (XR la) unit :=
  EGlue tt (EEq tt v3 12 (EComp (KUn USin) tt [EVar v3 9]))
    (EComp (KBin BMul) tt [EComp KDot tt [EVar (Sh Mat 3 3) 0; EVar v3 12]; EVar v3 9]).
Example C53_nonvacuous : let u := @u53 exact_la in
  exists e m, okexpr exact_la u /\ (forall o, In o (eqw u) -> ~ In o (inputs u)) /\
  session exact_la 2 3 u (fun _ => 0) e m /\ mreal exact_la u m (fun _ => 0) INR (fun _ => 5) /\
  dom (fun _ => 0) true false u INR /\
  (forall o, In o [9; 10; 11]%nat -> In o (refs u) /\ ~ In o (eqw u)) /\
  forall k, In k [0; 1; 2]%nat -> (k < size (shape_of u))%nat.
Proof.
  intros u. assert (HK : okexpr exact_la u) by (split; [reflexivity|split; [reflexivity|cbn; tauto]]).
  destruct (session_start exact_la exact_la_ok 2 3 u (fun _ => 0) INR (fun _ => 5)) as [e [m [H1 H2]]]; auto.
  { cbv; intuition discriminate. }
  exists e, m. split; [exact HK|]. split.
  { intros o Ho Hi. cbn in Ho, Hi. lia. }
  split; [exact H1|]. split; [exact H2|]. split; [cbn; repeat (match goal with |- _ /\ _ => split end); auto|].
  split.
  - intros o Ho. cbn in *. lia.
  - intros k Hk. cbn in *. lia.
Qed.
