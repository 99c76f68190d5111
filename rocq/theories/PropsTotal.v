(** C61: adjoints are total derivatives. *)
From Coq Require Import Reals Lra.
From Coquelicot Require Import Coquelicot.
From Verif Require Import Base Num Expr Node Stat Machine Wf Session Tape XR Spec RSess Grad Frechet LKM LGrd LChain PropsGrad.
Open Scope R_scope.
Set Bullet Behavior "Strict Subproofs".

(** ** C61: chain rule.
    What autodiff adds to the adjoints ([al']) is the derivative of the
    seed-weighted value along every differentiable curve [g] of the variables:
    its inner product with the velocity [dg].  So adjoints may be multiplied by
    the Jacobian of whatever code produced the variables.  (C01 is the case of
    the curves that move one variable; it does not imply this.)  The curve must
    not move the placeholders [eqw]; [M] bounds the cells in use. *)
Theorem C61_chain (la : linalg xr) (LA : la_ok la) bv ba (u : expr (XR la) unit) D e1 m1 rho al b seed :
  okexpr la u -> session la bv ba u D e1 m1 -> mreal la u m1 D rho al -> dom D true b u rho ->
  length seed = size (shape_of u) -> (b = true -> forall j, (j < length seed)%nat -> el seed j = 1) ->
  (forall o, In o (writes u) -> al o = 0) ->
  exists e2 m2 al', autodiff e1 (map Fin seed) m1 = Ok (e2, m2, map Fin (val D u rho)) /\
    (forall o, In o (refs u) -> m2 1%nat o = Some (Fin (al o + al' o))) /\
    forall M, (forall i, In i (refs u) -> (i < M)%nat) ->
    forall (g : R -> nat -> R) dg t0, g t0 = rho -> (forall o, is_derive (fun x => g x o) t0 (dg o)) ->
      (forall o, In o (eqw u) -> dg o = 0) ->
      is_derive (fun x => dotp seed (el (val D u (g x)))) t0 (sumn M (fun o => al' o * dg o)).
Proof. exact (chain_thm la LA bv ba u D e1 m1 rho al b seed). Qed.
Print Assumptions C61_chain.
(** The adjoints are the total derivative: the linear approximation they give is
    good to first order in all directions at once. *)
Theorem C61_total (la : linalg xr) (LA : la_ok la) bv ba (u : expr (XR la) unit) D e1 m1 rho al b seed M :
  okexpr la u -> session la bv ba u D e1 m1 -> mreal la u m1 D rho al -> dom D true b u rho ->
  length seed = size (shape_of u) -> (b = true -> forall j, (j < length seed)%nat -> el seed j = 1) ->
  (forall o, In o (writes u) -> al o = 0) -> (forall i, In i (refs u) -> (i < M)%nat) ->
  exists e2 m2 al', autodiff e1 (map Fin seed) m1 = Ok (e2, m2, map Fin (val D u rho)) /\
    (forall o, In o (refs u) -> m2 1%nat o = Some (Fin (al o + al' o))) /\
    total_derivative M (fun o => In o (eqw u)) (fun r => dotp seed (el (val D u r))) rho al'.
Proof. exact (total_thm la LA bv ba u D e1 m1 rho al b seed M). Qed.
Print Assumptions C61_total.
(** Their hypotheses are met by C01_nonvacuous; the conclusion singles out the
    adjoints: the curve may move all variables that are not placeholders at
    speeds of its own. *)
Example C61_nonvacuous : exists e1 m1,
  la_ok exact_la /\ okexpr exact_la ex_g /\ session exact_la 2 3 ex_g (fun _ => 0) e1 m1 /\
  mreal exact_la ex_g m1 (fun _ => 0) rho_g al_g /\ dom (fun _ => 0) true false (@ex_g exact_la) rho_g /\
  (forall o, In o (writes (@ex_g exact_la)) -> al_g o = 0) /\
  (forall i, In i (refs (@ex_g exact_la)) -> (i < 4)%nat) /\
  let g x o := if (o =? 2)%nat then 5 else rho_g o + INR (S o) * x in
  (forall o, g 0 o = rho_g o) /\ forall o, is_derive (fun x => g x o) 0 (if (o =? 2)%nat then 0 else INR (S o)).
Proof.
  destruct C01_nonvacuous as [e1 [m1 [H1 [H2 [H3 [H4 [H5 [H6 [H7 [H8 [H9 H10]]]]]]]]]]].
  exists e1, m1. do 6 (split; [assumption|]). split.
  { rewrite H9. cbn. intros i Hi. lia. }
  cbv zeta. split.
  - intros o. destruct (Nat.eqb_spec o 2) as [->|Hn]; [reflexivity|ring].
  - intros o. destruct (Nat.eqb_spec o 2) as [->|Hn]; [exact (is_derive_const 5 0)|].
    generalize (INR (S o)). intros c. auto_derive; [exact I|ring].
Qed.

(** ** C61: descent.
    For a scalar expression some adjoint of which changed, every small enough
    step of the variables against the adjoints decreases the value. *)
Theorem C61_descent (la : linalg xr) (LA : la_ok la) bv ba (u : expr (XR la) unit) D e1 m1 rho al b :
  okexpr la u -> session la bv ba u D e1 m1 -> mreal la u m1 D rho al -> dom D true b u rho ->
  size (shape_of u) = 1%nat -> (forall o, In o (writes u) -> al o = 0) ->
  exists e2 m2 al', autodiff e1 [Fin 1] m1 = Ok (e2, m2, map Fin (val D u rho)) /\
    (forall o, In o (refs u) -> m2 1%nat o = Some (Fin (al o + al' o))) /\
    ((exists o, In o (refs u) /\ ~ In o (eqw u) /\ al' o <> 0) -> exists delta, 0 < delta /\
     forall s, 0 < s < delta -> forall r, (forall o, In o (refs u) -> ~ In o (eqw u) -> r o = rho o - s * al' o) ->
       (forall o, ~ In o (refs u) \/ In o (eqw u) -> r o = rho o) ->
       el (val D u r) 0 < el (val D u rho) 0).
Proof. exact (descent_thm la LA bv ba u D e1 m1 rho al b). Qed.
Print Assumptions C61_descent.
(** x * x + y at x = 3, y = 1: the adjoints become 6 and 1. *)
Definition ex_d {la} : expr (XR la) unit :=
  EComp (KBin BAdd) tt [EComp (KBin BMul) tt [EVar scl 0; EVar scl 0]; EVar scl 1].
Definition rho_d (o : nat) : R := match o with 0%nat => 3 | _ => 1 end.
Example C61_descent_nonvacuous : exists e1 m1 e2 m2,
  la_ok exact_la /\ okexpr exact_la ex_d /\ session exact_la 2 3 ex_d (fun _ => 0) e1 m1 /\
  mreal exact_la ex_d m1 (fun _ => 0) rho_d (fun _ => 0) /\ dom (fun _ => 0) true false (@ex_d exact_la) rho_d /\
  size (shape_of (@ex_d exact_la)) = 1%nat /\
  @autodiff (XR exact_la) e1 [Fin 1] m1 = Ok (e2, m2, map Fin (val (fun _ => 0) (@ex_d exact_la) rho_d)) /\
  m2 1%nat 0%nat = Some (Fin (0 + 6)).
Proof.
  assert (HK : okexpr exact_la ex_d) by (split; [reflexivity|split; [reflexivity|cbn; tauto]]).
  destruct (session_start exact_la exact_la_ok 2 3 ex_d (fun _ => 0) rho_d (fun _ => 0)) as [e1 [m1 [H1 H2]]]; auto.
  { cbv; intuition discriminate. }
  assert (HD : dom (fun _ => 0) true false (@ex_d exact_la) rho_d).
  { cbn. repeat (match goal with |- _ /\ _ => split end); auto; intros i Hi; auto. }
  destruct (C61_chain exact_la exact_la_ok 2 3 ex_d (fun _ => 0) e1 m1 rho_d (fun _ => 0) false [1] HK H1 H2 HD) as [e2 [m2 [al' [Q1 [Q2 Q3]]]]]; auto.
  { discriminate. }
  exists e1, m1, e2, m2. split; [exact exact_la_ok|]. do 4 (split; [assumption|]). split; [reflexivity|]. split; [exact Q1|].
  rewrite Q2 by (cbn; auto). do 2 f_equal. rewrite !Rplus_0_l.
  specialize (Q3 2%nat ltac:(cbn; intros i Hi; lia) (fun x o => match o with 0%nat => 3 + x | _ => 1 end)
    (fun o => match o with 0%nat => 1 | _ => 0 end) 0).
  apply (is_derive_unique) in Q3.
  - cbn [sumn] in Q3. replace (0 + al' 0%nat * 1 + al' 1%nat * 0) with (al' 0%nat) in Q3 by ring. rewrite <- Q3. apply is_derive_unique.
    apply (is_derive_ext (fun x => (3 + x) * (3 + x) + 1)).
    + intros x. cbn. ring.
    + auto_derive; [exact I|ring].
  - apply FunctionalExtensionality.functional_extensionality. intros [|o]; cbn; ring.
  - intros [|o]; [auto_derive; [exact I|ring]|exact (is_derive_const 1 0)].
  - intros o [].
Qed.
