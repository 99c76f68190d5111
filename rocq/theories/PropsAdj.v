(** Property theorems for C71: evaluate_adj called any number of times after one
    evaluate. *)
From Coq Require Import Reals Lra.
From Coquelicot Require Import Coquelicot.
From Verif Require Import Base Num Expr Node Stat Machine Wf Session Tape XR Spec Nudge RSess Grad LKM LGrd LBase LKind LUser LFind Progs Again Adj LAdj LAdjP LAdjR.
Local Open Scope R_scope.
Set Bullet Behavior "Strict Subproofs".

(** ** The law: one evaluate and then one backward pass per seed returns the value,
    leaves in the variables what that one evaluation put there, and takes the adjoints
    through
      al  |->  d(s . value) + d(al . final variables)
    once per pass, the derivatives all being those at the point [rho] the evaluation
    started from.  Unlike C08_law this needs no assumption on the placeholders.  Iterated
    products are included: a pass overwrites a cached product that has a zero factor
    (prod.hpp:89-96) and puts it back. *)
Theorem C71_law (la : linalg xr) (LA : la_ok la) bv ba (u : expr (XR la) unit) D e1 m1 rho al b seeds M :
  okexpr la u -> session la bv ba u D e1 m1 -> mreal la u m1 D rho al -> dom D true b u rho ->
  opw u = [] ->
  (forall s, In s seeds -> length s = size (shape_of u) /\ (b = true -> forall j, (j < length s)%nat -> el s j = 1)) ->
  (forall o, In o (refs u) -> (o < M)%nat) ->
  exists e2 m2, @eval_adjs (XR la) e1 (map (map Fin) seeds) m1 = Ok (e2, m2, map Fin (val D u rho)) /\
    forall o, In o (refs u) -> m2 0%nat o = Some (Fin (fin_env D u rho o)) /\
      m2 1%nat o = Some (Fin (adj_after M (dvalue D u rho) (dfinal D u rho) seeds al o)).
Proof. exact (adj_thm la LA bv ba u D e1 m1 rho al b seeds M). Qed.
Print Assumptions C71_law.

(** (w = prod{x, y}, w * y) at x = 0, y = 3, with 100 in w, seeds 1 and 5: every pass
    rewrites w, where the product is cached, and restores it. *)
Definition v71 : P2 := EGlue tt (EEq tt scl 2 (EComp (KProdI Scl) tt [sv 0; sv 1])) (bi2 BMul (sv 2) (sv 1)).
Definition x71 (o : nat) : R := match o with 0%nat => 0 | 1%nat => 3 | _ => 100 end.
Example C71_law_nonvacuous : exists e m, la_ok exact_la /\ okexpr exact_la v71 /\ session exact_la 2 3 v71 (fun _ => 0) e m /\
  mreal exact_la v71 m (fun _ => 0) x71 (fun _ => 0) /\ dom (fun _ => 0) true false v71 x71 /\ opw v71 = [] /\
  (forall s, In s [[1]; [5]] -> length s = size (shape_of v71)) /\ (forall o, In o (refs v71) -> (o < 3)%nat) /\
  fin_env (fun _ => 0) v71 x71 2%nat <> x71 2%nat.
Proof.
  assert (K : okexpr exact_la v71) by (split; [reflexivity|split; [reflexivity|cbn; tauto]]).
  destruct (session_start exact_la exact_la_ok 2 3 v71 (fun _ => 0) x71 (fun _ => 0)) as [e [m [H1 H2]]].
  { cbv; intuition discriminate. }
  { exact K. }
  { reflexivity. }
  exists e, m. split; [exact exact_la_ok|]. split; [exact K|]. split; [exact H1|]. split; [exact H2|].
  split; [cbn; repeat split; auto|]. split; [reflexivity|].
  split; [intros s [<-|[<-|[]]]; reflexivity|]. split; [intros o Ho; cbn in Ho; lia|]. cbn. lra.
Qed.

(** ** Without assignments the passes add up: whatever the adjoints were, each pass
    adds its seed times the partial derivatives ("second time SHOULD change adj",
    test/reverse/core/eval_unittest.cpp:39-44). *)
Theorem C71_adds_up (la : linalg xr) (LA : la_ok la) bv ba (u : expr (XR la) unit) D e1 m1 rho al b seeds :
  okexpr la u -> session la bv ba u D e1 m1 -> mreal la u m1 D rho al -> dom D true b u rho ->
  writes u = [] ->
  (forall s, In s seeds -> length s = size (shape_of u) /\ (b = true -> forall j, (j < length s)%nat -> el s j = 1)) ->
  exists e2 m2, @eval_adjs (XR la) e1 (map (map Fin) seeds) m1 = Ok (e2, m2, map Fin (val D u rho)) /\
    forall o, In o (refs u) -> exists g, npartials D u rho o g /\ m2 0%nat o = Some (Fin (rho o)) /\
      m2 1%nat o = Some (Fin (al o + fold_right (fun s a => dotp s g + a) 0 seeds)).
Proof. exact (adj_sum la LA bv ba u D e1 m1 rho al b seeds). Qed.
Print Assumptions C71_adds_up.

(** prod{x, y} * y at x = 0, y = 3, adjoints 7 everywhere, seeds 1, 5, -2. *)
Definition w71 : P2 := bi2 BMul (EComp (KProdI Scl) tt [sv 0; sv 1]) (sv 1).
Example C71_adds_up_nonvacuous : exists e m, la_ok exact_la /\ okexpr exact_la w71 /\ session exact_la 2 3 w71 (fun _ => 0) e m /\
  mreal exact_la w71 m (fun _ => 0) x71 (fun _ => 7) /\ dom (fun _ => 0) true false w71 x71 /\ writes w71 = [] /\
  (forall s, In s [[1]; [5]; [-2]] -> length s = size (shape_of w71)).
Proof.
  assert (K : okexpr exact_la w71) by (split; [reflexivity|split; [reflexivity|cbn; tauto]]).
  destruct (session_start exact_la exact_la_ok 2 3 w71 (fun _ => 0) x71 (fun _ => 7)) as [e [m [H1 H2]]].
  { cbv; intuition discriminate. }
  { exact K. }
  { reflexivity. }
  exists e, m. split; [exact exact_la_ok|]. split; [exact K|]. split; [exact H1|]. split; [exact H2|].
  split; [cbn; repeat split; auto|]. split; [reflexivity|].
  intros s [<-|[<-|[<-|[]]]]; reflexivity.
Qed.

(** ** With += and the like the statement is false: the backward pass puts the old
    value back into the variable (eq.hpp:249-271), so a second pass differentiates at
    another point.  (x += y, x * x) with value (x + y)^2: the first pass gives x the
    adjoint 2 s (x + y), the second adds 2 s x. *)
Theorem C71_op_eq_refuted (la : linalg xr) (f : nat -> R) (s : R) (x := f 0%nat) (y := f 1%nat) :
  exists m2 m3, two_passes (N := XR la) u71 (mem8 (XR la) (fun o => Fin (f o))) [Fin s] = Ok ([Fin ((x + y) * (x + y))], m2, m3) /\
    m2 0%nat 0%nat = Some (Fin x) /\ m2 1%nat 0%nat = Some (Fin (2 * s * (x + y))) /\
    m3 1%nat 0%nat = Some (Fin (2 * s * (x + y) + 2 * s * x)).
Proof. exact (op_undone la f s). Qed.
Print Assumptions C71_op_eq_refuted.
Example C71_op_eq_nonvacuous : wfs (@u71 toy) = true /\ disc (@u71 toy) = true /\ noprod (@u71 toy) = true /\
  2 * 1 * (1 + 2) + 2 * 1 * 1 <> 2 * (2 * 1 * (1 + 2)).
Proof. repeat split. lra. Qed.

(** ** Safety, in any arithmetic, with += and iterated products allowed: after an
    evaluate, any sequence of backward passes and of client writes to variables and
    adjoints in between goes through.  Nothing is freed, nothing changes but variables,
    adjoints and adjoint caches, and value caches if there is an iterated product
    (prod.hpp:89-96 rewrites them); every later use of the expression goes through as
    well. *)
Theorem C71_safe (N : num) (LL : la_len N) bv ba uv ua (u : expr N unit) m e m0 ops e1 m1 e2 m2 v bops :
  fresh bv ba -> wfs u = true -> avail u m -> bound bv ba uv ua u m = Ok (e, m0) ->
  Forall (op_ok (size (shape_of u))) ops -> run ops (e, m0) = Ok (e1, m1) ->
  evaluate e1 m1 = Ok (e2, m2, v) -> Forall (bop_ok (size (shape_of u))) bops ->
  exists m3, brun e2 bops m2 = Ok m3 /\
    (forall b o, m2 b o <> None -> m3 b o <> None) /\
    (forall b o, b <> 0%nat -> b <> 1%nat -> b <> ba -> (b = bv -> noprod u = true) -> m3 b o = m2 b o) /\
    (forall ops', Forall (op_ok (size (shape_of u))) ops' -> exists r, run ops' (e2, m3) = Ok r).
Proof. exact (fun HF => adj_all LL bv ba HF uv ua u m e m0 ops e1 m1 e2 m2 v bops). Qed.
Print Assumptions C71_safe.
(** (x += y, x * x), and the product of x and y at zero, whose cache is rewritten; two
    passes with x overwritten in between. *)
Definition poke71 (m : mem toy) : mem toy := fun b o => if ((b =? 0) && (o =? 0))%nat then Some 7%Z else m b o.
Definition p71 : expr toy unit := EComp (KProdI Scl) tt [EVar scl 0; EVar scl 1].
Lemma poke71_ok (u : expr toy unit) : Forall (bop_ok (N := toy) (size (shape_of u))) [BUser (N := toy) poke71].
Proof.
  repeat constructor.
  - unfold poke71. destruct (_ && _); [discriminate|auto].
  - intros A B. unfold poke71. destruct (Nat.eqb_spec b 0); [contradiction|]. reflexivity.
Qed.
Example C71_safe_nonvacuous : fresh 2 3 /\
  Forall (fun u => wfs u = true /\ avail u (mem8 toy (fun _ => 0%Z)) /\
    (exists e m0 e2 m2 v, bound 2 3 (any toy) (any toy) u (mem8 toy (fun _ => 0%Z)) = Ok (e, m0) /\ evaluate e m0 = Ok (e2, m2, v)) /\
    Forall (bop_ok (N := toy) (size (shape_of u))) [BAdj (N := toy) [1%Z]; BUser (N := toy) poke71; BAdj (N := toy) [2%Z]]) [@u71 toy; p71].
Proof.
  split; [cbv; repeat split; discriminate|].
  repeat (constructor; [split; [reflexivity|split; [|split]]|]); [| | | | | |constructor].
  1, 4: split; cbn; intros o Ho; [|tauto]; repeat (destruct Ho as [<-|Ho]; [split; discriminate|]); destruct Ho.
  1, 3: eexists _, _, _, _, _; split; [reflexivity|]; reflexivity.
  - constructor; [reflexivity|]. constructor; [exact (Forall_inv (poke71_ok (@u71 toy)))|]. repeat constructor.
  - constructor; [reflexivity|]. constructor; [exact (Forall_inv (poke71_ok p71))|]. repeat constructor.
Qed.

(** ** In real arithmetic: after an evaluate and any passes and client writes the
    expression is in a session again, so that the theorems about values and gradients
    (C01 and the like) apply to the evaluations and differentiations that follow,
    whatever the passes left in the caches. *)
Theorem C71_session (la : linalg xr) (LA : la_ok la) bv ba (u : expr (XR la) unit) D e1 m1 e2 m2 v bops :
  wfs u = true -> session la bv ba u D e1 m1 ->
  @evaluate (XR la) e1 m1 = Ok (e2, m2, v) -> Forall (bop_ok (N := XR la) (size (shape_of u))) bops ->
  exists m3, @brun (XR la) e2 bops m2 = Ok m3 /\ session la bv ba u D e2 m3.
Proof. exact (adj_session la LA bv ba u D e1 m1 e2 m2 v bops). Qed.
Print Assumptions C71_session.
(** prod{x, y} at 0; two passes. *)
Definition q71 : P2 := EComp (KProdI Scl) tt [EVar scl 0; EVar scl 1].
Example C71_session_nonvacuous : exists e1 m1 e2 m2 v, la_ok exact_la /\ wfs q71 = true /\ session exact_la 2 3 q71 (fun _ => 0) e1 m1 /\
  @evaluate (XR exact_la) e1 m1 = Ok (e2, m2, v) /\
  Forall (bop_ok (N := XR exact_la) (size (shape_of q71))) [BAdj (N := XR exact_la) [Fin 1]; BAdj (N := XR exact_la) [Fin 2]].
Proof.
  assert (K : okexpr exact_la q71) by (split; [reflexivity|split; [reflexivity|cbn; tauto]]).
  destruct (session_start exact_la exact_la_ok 2 3 q71 (fun _ => 0) (fun _ => 0) (fun _ => 0)) as [e [m [H1 H2]]].
  { cbv; intuition discriminate. }
  { exact K. }
  { reflexivity. }
  destruct (value_thm exact_la exact_la_ok 2 3 q71 (fun _ => 0) e m (fun _ => 0) (fun _ => 0) false K H1 H2) as [e2 [m2 [H3 _]]].
  { cbn; repeat split; auto. }
  exists e, m, e2, m2, (map Fin (val (fun _ => 0) q71 (fun _ => 0))). split; [exact exact_la_ok|]. split; [reflexivity|]. split; [exact H1|].
  split; [exact H3|]. repeat constructor.
Qed.

(** ** The evaluate is needed: a backward pass of a freshly bound exp(x) runs, and
    multiplies the seed with whatever the value cache was allocated with ([uv];
    bind.hpp:30-31 resizes without initialising).  eval_unittest.cpp:39-44 calls
    evaluate_adj without evaluate; its mock node does not use cached values. *)
Theorem C71_first_refuted (N : num) (uv f : nat -> N) (s : N) :
  exists m1, pass_first uv e71 (mem8 N f) [s] = Ok m1 /\ m1 1%nat 0%nat = Some (nadd N (n0 N) (nmul N s (uv 0%nat))).
Proof. exact (first_e71 uv f s). Qed.
Print Assumptions C71_first_refuted.
Example C71_first_nonvacuous : (match pass_first (N := toy) (fun _ => 41%Z) (@e71 toy) (mem8 toy (fun _ => 0%Z)) [1%Z] with
  | Ok m1 => m1 1 0 | Err _ => None end)%nat = Some 41%Z.
Proof. reflexivity. Qed.
