(** Property theorems C45-C47: programs that differentiate in a loop over data,
    from README.md and /repo/example. *)
From Coq Require Import Reals Lra.
From Coquelicot Require Import Coquelicot.
From Verif Require Import Base Num Expr Node Stat Machine Wf Session Tape XR Spec RSess Grad LReal LKM LGrd Train LTrain LNN LBS.
Open Scope R_scope.
Set Bullet Behavior "Strict Subproofs".

(** ** C45: looping over data.
    One expression is bound once; for every row the client overwrites the
    buffers of the constant views, zeroes the adjoints of the placeholders (if
    any) and calls autodiff ([epoch], Train.v).  The values returned are the
    losses of the rows, and the adjoint of every other variable has grown by the
    derivative of the summed loss ([total]).  Constant views inside log-density
    nodes are captured by the constructors and must not change (C28). *)
Theorem C45_epoch (la : linalg xr) (LA : la_ok la) bv ba (u : expr (XR la) unit) D0 b seed rho rows e1 m1 al :
  okexpr la u -> (forall o, In o (eqw u) -> ~ In o (inputs u)) ->
  length seed = size (shape_of u) -> (b = true -> forall j, (j < length seed)%nat -> el seed j = 1) ->
  Forall (fun D => dom D true b u rho /\ forall o, In o (sdrefs u) -> D o = D0 o) rows ->
  session la bv ba u D0 e1 m1 -> mreal la u m1 D0 rho al ->
  exists e2 m2, epoch la true u seed rows e1 m1 = Ok (e2, m2, map (fun D => map Fin (val D u rho)) rows) /\
    session la bv ba u D0 e2 m2 /\
    forall o, In o (refs u) -> ~ In o (writes u) -> m2 0%nat o = Some (Fin (rho o)) /\
      exists s : R, is_derive (total u seed rows rho o) (rho o) s /\ m2 1%nat o = Some (Fin (al o + s)).
Proof. exact (fun H1 H2 H4 H5 H6 => epoch_thm la LA bv ba u D0 b seed rho rows H1 H2 H4 H5 H6 e1 m1 D0 rho al (fun _ _ => eq_refl)). Qed.
Print Assumptions C45_epoch.
(** README.md:613-668, any number of rows and columns: losses (y - x.theta)^2 and
    the least-squares gradient. *)
Theorem C45_regression (la : linalg xr) (LA : la_ok la) bv ba n D0 theta al rows e1 m1 :
  (0 < n)%nat -> session la bv ba (lin_u n) D0 e1 m1 -> mreal la (lin_u n) m1 D0 theta al ->
  exists e2 m2, epoch la true (lin_u n) [1] (map (row n) rows) e1 m1 = Ok (e2, m2, map (fun d => [Fin (resid n theta d ^ 2)]) rows) /\
    forall j, (j < n)%nat -> m2 0%nat j = Some (Fin (theta j)) /\
      m2 1%nat j = Some (Fin (al j + sumr (map (fun d => - 2 * resid n theta d * fst d j) rows))).
Proof. exact (lin_thm la LA bv ba n D0 theta al rows e1 m1). Qed.
Print Assumptions C45_regression.
(** The network of README.md:670-756, which uses no placeholders. *)
Theorem C45_network (la : linalg xr) (LA : la_ok la) bv ba D0 p al rows e1 m1 :
  session la bv ba nn_u D0 e1 m1 -> mreal la nn_u m1 D0 p al ->
  exists e2 m2, epoch la true nn_u [1] (map (row 2) rows) e1 m1 = Ok (e2, m2, map (fun d => [Fin (nn_loss p d)]) rows) /\
    forall o, (o < 25)%nat -> m2 0%nat o = Some (Fin (p o)) /\
      exists s : R, is_derive (fun t => sumr (map (nn_loss (set1 p o t)) rows)) (p o) s /\ m2 1%nat o = Some (Fin (al o + s)).
Proof. exact (nn_thm la LA bv ba D0 p al rows e1 m1). Qed.
Print Assumptions C45_network.
(** The data of README.md:623-632 and the numbers printed there: loss 6655,
    gradient (-1210, -12100). *)
Definition ex_rows : list ((nat -> R) * R) :=
  map (fun i => ((fun j => match j with O => i | _ => 10 * i end), 32 * i)) [1; 2; 3; 4; 5].
Definition ex_theta (j : nat) : R := match j with O => 1 | _ => 2 end.
Example C45_nonvacuous : exists e1 m1, la_ok exact_la /\ session exact_la 2 3 (lin_u 2) (fun _ => 0) e1 m1 /\
  mreal exact_la (lin_u 2) m1 (fun _ => 0) ex_theta (fun _ => 0) /\
  sumr (map (fun d => resid 2 ex_theta d ^ 2) ex_rows) = 6655 /\
  sumr (map (fun d => - 2 * resid 2 ex_theta d * fst d 0%nat) ex_rows) = - 1210 /\
  sumr (map (fun d => - 2 * resid 2 ex_theta d * fst d 1%nat) ex_rows) = - 12100.
Proof.
  destruct (session_start exact_la exact_la_ok 2 3 (lin_u 2) (fun _ => 0) ex_theta (fun _ => 0)) as [e1 [m1 [H1 H2]]].
  - cbv; intuition discriminate.
  - apply lin_ok. lia.
  - reflexivity.
  - exists e1, m1. split; [exact exact_la_ok|]. split; [exact H1|]. split; [exact H2|].
    unfold ex_rows, resid, ex_theta. cbn. repeat split; lra.
Qed.
(** The network can be bound. *)
Example C45_network_nonvacuous : exists e1 m1, session exact_la 2 3 nn_u (fun _ => 0) e1 m1 /\
  mreal exact_la nn_u m1 (fun _ => 0) (fun o => INR o / 7) (fun _ => 0).
Proof.
  apply session_start; [exact exact_la_ok|cbv; intuition discriminate|apply nn_ok|reflexivity].
Qed.

(** ** C46: example/black_scholes.cpp.
    main (lines 41-73) for any positive strike, volatility, maturity and price and
    any rate: it prints the Black-Scholes prices of call and put and their
    deltas Phi(d1) and Phi(d1) - 1. *)
Theorem C46_black_scholes (la : linalg xr) (LA : la_ok la) bv ba uv ua bv' ba' uv' ua' K sigma tau r D rho al m :
  0 < K -> 0 < sigma -> 0 < tau -> 0 < rho 0%nat ->
  fresh bv ba -> fresh bv' ba' -> mreal la (bs_call K sigma tau r) m D rho al ->
  (forall o, In o [0; 1; 2; 3]%nat -> al o = 0) ->
  exists ec mc ec1 mc1 ep mp ep1 mp1,
    bound bv ba uv ua (bs_call K sigma tau r : expr (XR la) unit) m = Ok (ec, mc) /\
    autodiff ec [Fin 1] mc = Ok (ec1, mc1, [Fin (call_price K sigma tau r (rho 0%nat))]) /\
    mc1 1%nat 0%nat = Some (Fin (Phi (d1 K sigma tau r (rho 0%nat)))) /\
    bound bv' ba' uv' ua' (bs_put K sigma tau r : expr (XR la) unit) (zero_adj [0; 1; 2; 3]%nat mc1) = Ok (ep, mp) /\
    autodiff ep [Fin 1] mp = Ok (ep1, mp1, [Fin (put_price K sigma tau r (rho 0%nat))]) /\
    mp1 1%nat 0%nat = Some (Fin (Phi (d1 K sigma tau r (rho 0%nat)) - 1)).
Proof. exact (bs_thm la LA bv ba uv ua bv' ba' uv' ua' K sigma tau r D rho al m). Qed.
Print Assumptions C46_black_scholes.
(** The parameters of main. *)
Example C46_nonvacuous : exists m : mem (XR exact_la), 0 < 100 /\ 0 < 5 /\ 0 < 30 / 365 /\ fresh 2 3 /\ fresh 5 6 /\
  mreal exact_la (bs_call 100 5 (30 / 365) (1.25 / 100)) m (fun _ => 0) (fun _ => 105) (fun _ => 0) /\
  (* put-call parity *)
  forall K sigma tau r s, call_price K sigma tau r s - put_price K sigma tau r s = s - K * exp (- r * tau).
Proof.
  exists (fun b o => if (b =? 0)%nat then Some (Fin 105) else Some (Fin 0)).
  split; [lra|]. split; [lra|]. split; [lra|]. split; [cbv; intuition discriminate|]. split; [cbv; intuition discriminate|].
  split; [split; intros; [split|]; reflexivity|]. intros. rewrite parity. ring.
Qed.

(** ** C47: example/ceres_3layer_neural_net/src.cpp.
    The same network with placeholders.  If their adjoints are reset before every
    autodiff, the gradient is right. *)
Theorem C47_reset (la : linalg xr) (LA : la_ok la) bv ba D0 p al rows e1 m1 :
  session la bv ba nn_ph D0 e1 m1 -> mreal la nn_ph m1 D0 p al ->
  exists e2 m2, epoch la true nn_ph [1] (map (row 2) rows) e1 m1 = Ok (e2, m2, map (fun d => [Fin (nn_loss p d)]) rows) /\
    forall o, (o < 25)%nat -> m2 0%nat o = Some (Fin (p o)) /\
      exists s : R, is_derive (fun t => sumr (map (nn_loss (set1 p o t)) rows)) (p o) s /\ m2 1%nat o = Some (Fin (al o + s)).
Proof. exact (nn_ph_thm la LA bv ba D0 p al rows e1 m1). Qed.
Print Assumptions C47_reset.
(** The program (lines 48-55) does not reset them.  The losses are right, but in
    the adjoint of b3 row j of n (counting from 0) has weight (j + 1) * (n - j)
    instead of 1. *)
Theorem C47_weights (la : linalg xr) (LA : la_ok la) bv ba D0 p al e1 m1 rows :
  session la bv ba nn_ph D0 e1 m1 -> mreal la nn_ph m1 D0 p al -> al 34%nat = 0 -> al 35%nat = 0 ->
  exists e2 m2, epoch la false nn_ph [1] (map (row 2) rows) e1 m1 = Ok (e2, m2, map (fun d => [Fin (nn_loss p d)]) rows) /\
    m2 1%nat 24%nat = Some (Fin (al 24%nat + sumn (length rows) (fun j =>
      INR (j + 1) * INR (length rows - j) * (- 2 * (snd (nth j rows (fun _ => 0, 0)) - nn_out p (fst (nth j rows (fun _ => 0, 0)))))))).
Proof. exact (nn_weights la LA bv ba D0 p al e1 m1 rows). Qed.
Print Assumptions C47_weights.
(** Two equal rows suffice for a gradient that is twice the right one. *)
Theorem C47_refuted (la : linalg xr) (LA : la_ok la) bv ba : fresh bv ba -> exists p rows e1 m1 e2 m2 vs v s,
  session la bv ba nn_ph (fun _ => 0) e1 m1 /\ mreal la nn_ph m1 (fun _ => 0) p (fun _ => 0) /\
  epoch la false nn_ph [1] (map (row 2) rows) e1 m1 = Ok (e2, m2, vs) /\ m2 1%nat 24%nat = Some (Fin v) /\
  is_derive (fun t => sumr (map (nn_loss (set1 p 24 t)) rows)) (p 24%nat) s /\ v = 2 * s /\ v <> s.
Proof. exact (nn_refuted la LA bv ba). Qed.
Print Assumptions C47_refuted.
(** Their hypotheses are met. *)
Example C47_nonvacuous : fresh 2 3 /\ exists e1 m1, session exact_la 2 3 nn_ph (fun _ => 0) e1 m1 /\
  mreal exact_la nn_ph m1 (fun _ => 0) (fun o => INR o / 7) (fun _ => 0).
Proof.
  split; [cbv; intuition discriminate|].
  apply session_start; [exact exact_la_ok|cbv; intuition discriminate|apply nn_ph_ok|reflexivity].
Qed.
