(** Property theorems for C08: what repeated autodiff calls without a reset
    compute (C08_refuted, that they do not add up to multiples of the gradient, is
    in PropsOwn.v). *)
From Coq Require Import Reals Lra.
From Coquelicot Require Import Coquelicot.
From Verif Require Import Base Num Expr Node Stat Machine Wf Session Tape XR Spec Nudge RSess Grad LKM LGrd Progs Again LAgain Bench LBench.
Local Open Scope R_scope.
Set Bullet Behavior "Strict Subproofs".

(** ** The exact law, for every disciplined expression without += and the like
    whose placeholders hold the values it assigns to them: any number of calls with any
    seeds return the same value, leave the variables alone, and apply
      al  |->  d(s . value) + d(al . final variables)
    once per call ([adj_after], Again.v), where al are the adjoints found at the
    start of the call, those of the placeholders included. *)
Theorem C08_law (la : linalg xr) (LA : la_ok la) bv ba (u : expr (XR la) unit) D e1 m1 rho al b seeds M :
  okexpr la u -> session la bv ba u D e1 m1 -> mreal la u m1 D rho al -> dom D true b u rho ->
  opw u = [] -> (forall o, In o (refs u) -> fin_env D u rho o = rho o) ->
  (forall s, In s seeds -> length s = size (shape_of u) /\ (b = true -> forall j, (j < length s)%nat -> el s j = 1)) ->
  (forall o, In o (refs u) -> (o < M)%nat) ->
  exists e2 m2, @adiffs (XR la) (map (map Fin) seeds) e1 m1 = Ok (e2, m2, repeat (map Fin (val D u rho)) (length seeds)) /\
    forall o, In o (refs u) -> m2 0%nat o = Some (Fin (rho o)) /\
      m2 1%nat o = Some (Fin (adj_after M (dvalue D u rho) (dfinal D u rho) seeds al o)).
Proof. exact (again_thm la LA bv ba u D e1 m1 rho al b seeds M). Qed.
Print Assumptions C08_law.

(** The hypothesis on the placeholders holds after any evaluation of an expression
    that assigns its placeholders unconditionally and before reading them. *)
Theorem C08_settled (la : linalg xr) (u : expr (XR la) unit) D rho :
  wfs u = true -> opw u = [] -> (forall o, In o (eqw u) -> In o (da u)) ->
  (forall o, In o (inputs u) -> ~ In o (eqw u)) ->
  val D u (fin_env D u rho) = val D u rho /\ (forall o, fin_env D u (fin_env D u rho) o = fin_env D u rho o) /\
  forall d b, dom D d b u rho <-> dom D d b u (fin_env D u rho).
Proof. exact (settled_thm la u D rho). Qed.
Print Assumptions C08_settled.

(** (w = x * y, w * w) at x = 2, y = 3, w = 6, seeds 1 and 5. *)
Definition v08 : P2 := EGlue tt (EEq tt scl 2 (bi2 BMul (sv 0) (sv 1))) (bi2 BMul (sv 2) (sv 2)).
Definition x08 (o : nat) : R := match o with 0%nat => 2 | 1%nat => 3 | _ => 6 end.
Example C08_law_nonvacuous : exists e m, la_ok exact_la /\ okexpr exact_la v08 /\ session exact_la 2 3 v08 (fun _ => 0) e m /\
  mreal exact_la v08 m (fun _ => 0) x08 (fun _ => 0) /\ dom (fun _ => 0) true false v08 x08 /\ opw v08 = [] /\
  (forall o, In o (refs v08) -> fin_env (fun _ => 0) v08 x08 o = x08 o) /\
  (forall s, In s [[1]; [5]] -> length s = size (shape_of v08)) /\ (forall o, In o (refs v08) -> (o < 3)%nat) /\
  (forall o, In o (eqw v08) -> In o (da v08)) /\ (forall o, In o (inputs v08) -> ~ In o (eqw v08)).
Proof.
  assert (K : okexpr exact_la v08) by (split; [reflexivity|split; [reflexivity|cbn; tauto]]).
  destruct (session_start exact_la exact_la_ok 2 3 v08 (fun _ => 0) x08 (fun _ => 0)) as [e [m [H1 H2]]].
  { cbv; intuition discriminate. }
  { exact K. }
  { reflexivity. }
  exists e, m. split; [exact exact_la_ok|]. split; [exact K|]. split; [exact H1|]. split; [exact H2|].
  split; [cbn; repeat split; auto|]. split; [reflexivity|]. split.
  { intros o Ho. cbn in Ho. assert (X : (o = 0 \/ o = 1 \/ o = 2)%nat) by lia. destruct X as [X|[X|X]]; subst; cbn; lra. }
  split; [intros s [<-|[<-|[]]]; reflexivity|]. split; [intros o Ho; cbn in Ho; lia|].
  split; intros o Ho; cbn in *; lia.
Qed.

(** ** benchmark/ad_benchmark.cpp:44-63 calls autodiff in a loop and never resets.
    Started with any values and with zero adjoints in w, the value is right each time, but
    the adjoint of x_j (3 <= j) after k calls is k(k+1)(k+2)/6 times the partial
    derivative, not k times it. *)
Theorem C08_benchmark (la : linalg xr) (LA : la_ok la) bv ba n D rho al k e m :
  (3 <= n)%nat -> session la bv ba (bench_u n) D e m -> mreal la (bench_u n) m D rho al ->
  al (S n) = 0 -> al (S (S n)) = 0 ->
  exists e2 m2, @adiffs (XR la) (repeat [Fin 1] k) e m = Ok (e2, m2, repeat [Fin (f_test1 n rho)] k) /\
    forall j, (3 <= j < n)%nat -> exists d, is_derive (fun t => f_test1 n (set1 rho j t)) (rho j) d /\ 1 < d /\
      m2 1%nat j = Some (Fin (al j + INR k * (INR k + 1) * (INR k + 2) / 6 * d)).
Proof. exact (bench_thm la LA bv ba n D rho al k e m). Qed.
Print Assumptions C08_benchmark.
(** The 100 variables of the benchmark, x_i = i / 100. *)
Example C08_benchmark_nonvacuous : exists e m, la_ok exact_la /\ session exact_la 2 3 (bench_u 100) (fun _ => 0) e m /\
  mreal exact_la (bench_u 100) m (fun _ => 0) (fun o => if (o <? 100)%nat then INR o / 100 else 0) (fun _ => 0).
Proof.
  destruct (session_start exact_la exact_la_ok 2 3 (bench_u 100) (fun _ => 0) (fun o => if (o <? 100)%nat then INR o / 100 else 0) (fun _ => 0)) as [e [m [H1 H2]]].
  { cbv; intuition discriminate. }
  { apply bench_ok. lia. }
  { reflexivity. }
  exists e, m. split; [exact exact_la_ok|]. split; [exact H1|exact H2].
Qed.
