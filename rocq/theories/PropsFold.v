(** Property theorems C22, C27, C28: what the builder functions make of
    constants, and when constant views are read.  [build u m] is the object the
    client's C++ expression [u] constructs in memory [m] (Fold.v); [btree] is the
    expression that is then bound. *)
From Coq Require Import Reals Lra.
From Coquelicot Require Import Coquelicot.
From Verif Require Import Base Num Expr Node Stat Machine Wf Session Tape XR Spec RSess Grad LKM LGrd Fold FoldSpec LFold LFoldTop.
Open Scope R_scope.
Set Bullet Behavior "Strict Subproofs".
Notation X := (expr xr unit).

(** ** C27: constant folding.
    [fexact]: no division of ints, no sums of bools and no conversion of a
    branch of if_else (see the refutations below).  [cdom]: the constant
    sub-expressions are defined.  [viewed]: at construction the buffers hold [D].
    Then the expression that is built denotes what the client wrote. *)
Theorem C27_meaning_partial (la : linalg xr) (LA : la_ok la) (u : expr (XR la) unit) m0 b D :
  okexpr la u -> fexact u = true -> cdom D (u : X) -> viewed la u m0 D -> build (XR la) u m0 = Built b ->
  let v := btree (XR la) b in
  shape_of v = shape_of u /\
  (forall r, val D (v : X) r = val D (u : X) r /\ fin_env D (v : X) r = fin_env D (u : X) r) /\
  refs v = refs u /\ writes v = writes u.
Proof. exact (fun K E C V B => fold_den la LA u m0 b D K E C (or_introl V) B). Qed.
Print Assumptions C27_meaning_partial.

(** An expression of constants only becomes a constant that holds its value. *)
Theorem C27_constant_partial (la : linalg xr) (LA : la_ok la) (u : expr (XR la) unit) m0 b D t :
  okexpr la u -> fexact u = true -> cdom D (u : X) -> viewed la u m0 D -> build (XR la) u m0 = Built b -> cty u = Some t ->
  (exists s c, b = BK s c /\ forall rho, cval (XR la) c = map Fin (val D (u : X) rho)) \/
  (exists s o, b = BV s o /\ u = ECvw s o).
Proof. exact (fold_const la LA u m0 b D t). Qed.
Print Assumptions C27_constant_partial.
(** Differentiating a constant changes no memory at all. *)
Theorem C27_no_gradient (N : num) (b : bx N) bv ba uv ua m e m1 :
  bconst N b = true -> bound bv ba uv ua (btree N b) m = Ok (e, m1) ->
  forall seed m2 e2 m3 v, autodiff e seed m2 = Ok (e2, m3, v) -> m3 = m2.
Proof. exact (const_idle N b bv ba uv ua m e m1). Qed.
Print Assumptions C27_no_gradient.

(** Values and gradients computed by the folded expression are those of the
    unfolded one. *)
Theorem C27_value_partial (la : linalg xr) (LA : la_ok la) (u : expr (XR la) unit) m0 b D bv ba e1 m1 rho al w :
  okexpr la u -> fexact u = true -> cdom D (u : X) -> viewed la u m0 D -> build (XR la) u m0 = Built b ->
  wfs (btree (XR la) b) = true -> session la bv ba (btree (XR la) b) D e1 m1 -> mreal la (btree (XR la) b) m1 D rho al ->
  dom D false w (btree (XR la) b : X) rho ->
  exists e2 m2, evaluate e1 m1 = Ok (e2, m2, map Fin (val D (u : X) rho)).
Proof. exact (fun K E C V B W => fold_value la LA u m0 b D K E C (or_introl V) B W bv ba e1 m1 rho al w). Qed.
Print Assumptions C27_value_partial.
Theorem C27_gradient_partial (la : linalg xr) (LA : la_ok la) (u : expr (XR la) unit) m0 b D bv ba e1 m1 rho al w seed :
  okexpr la u -> fexact u = true -> cdom D (u : X) -> viewed la u m0 D -> build (XR la) u m0 = Built b ->
  wfs (btree (XR la) b) = true -> session la bv ba (btree (XR la) b) D e1 m1 -> mreal la (btree (XR la) b) m1 D rho al ->
  dom D true w (btree (XR la) b : X) rho ->
  length seed = size (shape_of u) -> (w = true -> forall j, (j < length seed)%nat -> el seed j = 1) ->
  (forall o, In o (writes u) -> al o = 0) ->
  exists e2 m2, autodiff e1 (map Fin seed) m1 = Ok (e2, m2, map Fin (val D (u : X) rho)) /\
    forall o, In o (refs u) -> ~ In o (eqw u) -> exists g, partials D (u : X) rho o g /\
      m2 1%nat o = Some (Fin (al o + dotp seed g)).
Proof. exact (fun K E C V B W => fold_grad la LA u m0 b D K E C (or_introl V) B W bv ba e1 m1 rho al w seed). Qed.
Print Assumptions C27_gradient_partial.
(** Without log-density nodes the folded expression is defined where the
    unfolded one is. *)
Theorem C27_domain_partial (la : linalg xr) (LA : la_ok la) (u : expr (XR la) unit) m0 b D d w r :
  okexpr la u -> fexact u = true -> cdom D (u : X) -> viewed la u m0 D -> build (XR la) u m0 = Built b ->
  nostat u = true -> dom D d w (u : X) r -> dom D d w (btree (XR la) b : X) r.
Proof. exact (fun K E C V B => fold_domain la LA u m0 b D K E C (or_introl V) B d w r). Qed.
Print Assumptions C27_domain_partial.

(** (2 * 3 - c) * x + exp(y), c a view holding 4: built as 2 * x + exp(y) *)
Definition u27 : expr (XR exact_la) unit :=
  EComp (KBin BAdd) tt
    [EComp (KBin BMul) tt
       [EComp (KBin BSub) tt [EComp (KBin BMul) tt [ECst scl [Fin 2]; ECst scl [Fin 3]]; ECvw scl 0]; EVar scl 0];
     EComp (KUn UExp) tt [EVar scl 1]].
Definition v27 : expr (XR exact_la) unit :=
  EComp (KBin BAdd) tt
    [EComp (KBin BMul) tt [ECst scl [Fin (2 * 3 - 4)]; EVar scl 0]; EComp (KUn UExp) tt [EVar scl 1]].
Definition m27 : mem (XR exact_la) := fun _ _ => Some (Fin 4).
Example C27_nonvacuous (D := fun _ : nat => 4) : okexpr exact_la u27 /\ fexact u27 = true /\ cdom D (u27 : X) /\
  viewed exact_la u27 m27 D /\ build (XR exact_la) u27 m27 = Built (BE v27) /\ wfs v27 = true /\
  (forall r d w, dom D d w (v27 : X) r) /\ nostat u27 = true /\
  (forall rho al, exists e1 m1, session exact_la 2 3 v27 D e1 m1 /\ mreal exact_la v27 m1 D rho al).
Proof.
  assert (K : okexpr exact_la u27).
  { split; [reflexivity|]. split; [reflexivity|]. cbn. repeat (split || constructor); try (eexists; reflexivity). }
  assert (K' : okexpr exact_la v27).
  { split; [reflexivity|]. split; [reflexivity|]. cbn. repeat (split || constructor); try (eexists; reflexivity). }
  split; [exact K|]. split; [reflexivity|]. split; [cbn; repeat split; auto; repeat (apply Forall_cons; [eexists; reflexivity|]); apply Forall_nil|].
  split; [intros o _; reflexivity|]. split; [reflexivity|]. split; [reflexivity|].
  split; [intros r d w; cbn; repeat split; auto; repeat (apply Forall_cons; [eexists; reflexivity|]); apply Forall_nil|]. split; [reflexivity|].
  intros rho al. apply (session_start exact_la exact_la_ok 2 3 v27 D rho al); auto. cbv; intuition discriminate.
Qed.
Definition u27c : expr (XR exact_la) unit :=
  EComp (KUn UExp) tt [EComp (KBin BSub) tt [EComp (KBin BMul) tt [ECst scl [Fin 2]; ECst scl [Fin 3]]; ECvw scl 0]].
Example C27_constant_nonvacuous (D := fun _ : nat => 4) : okexpr exact_la u27c /\ fexact u27c = true /\ cdom D (u27c : X) /\
  viewed exact_la u27c m27 D /\ cty u27c = Some TD /\
  build (XR exact_la) u27c m27 = Built (BK scl (@CD (XR exact_la) [Fin (exp (2 * 3 - 4))])) /\
  val D (u27c : X) (fun _ => 0) = [exp (2 * 3 - 4)] /\
  bconst (XR exact_la) (BK scl (@CD (XR exact_la) [Fin (exp (2 * 3 - 4))])) = true.
Proof.
  split. { split; [reflexivity|]. split; [reflexivity|]. cbn. repeat (split || constructor); try (eexists; reflexivity). }
  split; [reflexivity|]. split; [cbn; repeat split; auto; repeat (apply Forall_cons; [eexists; reflexivity|]); apply Forall_nil|].
  split; [intros o _; reflexivity|]. repeat split; reflexivity.
Qed.

(** Constants of comparisons are bools and their sums ints: with [c] the
    constant 1. < 2., c / (c + c) is folded to the int 0, not 1/2; ... *)
Theorem C27_int_division_refuted (la : linalg xr) (LA : la_ok la) (m : mem (XR la)) D d w r :
  okexpr la (w_div la) /\ dom D d w (w_div la : X) r /\ val D (w_div la : X) r = [1 / 2] /\
  exists b, build (XR la) (w_div la) m = Built b /\ btree (XR la) b = ECst scl [Fin 0].
Proof. exact (wdiv la m D d w r). Qed.
Print Assumptions C27_int_division_refuted.
(** ... the sum of a range of two of them is 1, not 2; ... *)
Theorem C27_bool_sum_refuted (la : linalg xr) (LA : la_ok la) (m : mem (XR la)) D d w r :
  okexpr la (w_sum la) /\ dom D d w (w_sum la : X) r /\ val D (w_sum la : X) r = [2] /\
  exists b, build (XR la) (w_sum la) m = Built b /\ btree (XR la) b = ECst scl [Fin 1].
Proof. exact (wsum la m D d w r). Qed.
Print Assumptions C27_bool_sum_refuted.
(** ... and (1. < 2.) / (2. < 1.) is an int division by zero. *)
Theorem C27_int_division_by_zero (la : linalg xr) (m : mem (XR la)) : build (XR la) (w_ub la) m = Undef.
Proof. exact (wub la m). Qed.
Print Assumptions C27_int_division_by_zero.

(** ** C22: empty products.
    A product of at least one constant is the product, ... *)
Theorem C22_nonempty (la : linalg xr) (xs : list R) (m : mem (XR la)) : xs <> [] ->
  mknode (XR la) (KProdI Scl) true (map (fun x => BK scl (@CD (XR la) [Fin x])) xs) m =
  Built (BK scl (@CD (XR la) [Fin (fold_right Rmult 1 xs)])).
Proof. exact (prod_folds la xs m). Qed.
Print Assumptions C22_nonempty.
(** ... entry by entry for vectors (folded products of matrices do not compile), ... *)
Theorem C22_vectors (la : linalg xr) n (vs : list (list R)) (m : mem (XR la)) : vs <> [] -> Forall (fun v => length v = n) vs ->
  mknode (XR la) (KProdI Vec) true (map (fun v => BK (Sh Vec n 1) (@CD (XR la) (map Fin v))) vs) m =
  Built (BK (Sh Vec n 1) (@CD (XR la) (map (fun i => Fin (fold_right Rmult 1 (map (fun v => nth i v 0) vs))) (seq 0 n)))).
Proof. exact (prod_folds_vec la n vs m). Qed.
Print Assumptions C22_vectors.
Example C22_vectors_nonvacuous : [[1; 2]; [3; 4]] <> [] /\ Forall (fun v : list R => length v = 2%nat) [[1; 2]; [3; 4]].
Proof. split; [discriminate|]. repeat constructor. Qed.
(** ... an empty product of expressions is 1, ... *)
Theorem C22_empty_node (la : linalg xr) (LA : la_ok la) bv ba D e1 m1 :
  session la bv ba (EComp (KProdI Scl) tt []) D e1 m1 -> exists e2 m2, evaluate e1 m1 = Ok (e2, m2, [Fin 1]).
Proof. exact (prod_node0 la LA bv ba D e1 m1). Qed.
Print Assumptions C22_empty_node.
Example C22_nonvacuous : exists e1 m1, session exact_la 2 3 (EComp (KProdI Scl) tt []) (fun _ => 0) e1 m1.
Proof.
  destruct (session_start exact_la exact_la_ok 2 3 (EComp (KProdI Scl) tt []) (fun _ => 0) (fun _ => 0) (fun _ => 0)) as [e1 [m1 [H _]]]; eauto.
  { cbv; intuition discriminate. }
  repeat split; reflexivity.
Qed.
(** ... but an empty product of constants is 0. *)
Theorem C22_refuted (N : num) m : mknode N (KProdI Scl) true [] m = Built (BK scl (CD [n0 N])).
Proof. exact (prod_fold0 N m). Qed.
Print Assumptions C22_refuted.
(** Empty ranges of constant vectors give the empty vector, empty sums of constants 0. *)
Theorem C22_empty_vectors (N : num) m :
  mknode N (KProdI Vec) true [] m = Built (BK (Sh Vec 0 1) (CD [])) /\
  mknode N (KSumI Vec) true [] m = Built (BK (Sh Vec 0 1) (CD [])) /\
  mknode N (KSumI Scl) true [] m = Built (BK scl (CD [n0 N])).
Proof. exact (iter_fold0 N m). Qed.
Print Assumptions C22_empty_vectors.

(** ** C28: constant views are read at evaluation.
    [unfrozen]: every view is an operand of a node with some variable in it.
    Whatever the buffers held at construction ([m0]), evaluate and autodiff use
    the contents [D] at the time of the call; for operands of log-density nodes
    these must be the ones seen by the constructor ([session]). *)
Theorem C28_value_partial (la : linalg xr) (LA : la_ok la) (u : expr (XR la) unit) m0 b D bv ba e1 m1 rho al w :
  okexpr la u -> fexact u = true -> cdom D (u : X) -> unfrozen u = true -> build (XR la) u m0 = Built b ->
  wfs (btree (XR la) b) = true -> session la bv ba (btree (XR la) b) D e1 m1 -> mreal la (btree (XR la) b) m1 D rho al ->
  dom D false w (btree (XR la) b : X) rho ->
  exists e2 m2, evaluate e1 m1 = Ok (e2, m2, map Fin (val D (u : X) rho)).
Proof. exact (fun K E C V B W => fold_value la LA u m0 b D K E C (or_intror V) B W bv ba e1 m1 rho al w). Qed.
Print Assumptions C28_value_partial.
Theorem C28_gradient_partial (la : linalg xr) (LA : la_ok la) (u : expr (XR la) unit) m0 b D bv ba e1 m1 rho al w seed :
  okexpr la u -> fexact u = true -> cdom D (u : X) -> unfrozen u = true -> build (XR la) u m0 = Built b ->
  wfs (btree (XR la) b) = true -> session la bv ba (btree (XR la) b) D e1 m1 -> mreal la (btree (XR la) b) m1 D rho al ->
  dom D true w (btree (XR la) b : X) rho ->
  length seed = size (shape_of u) -> (w = true -> forall j, (j < length seed)%nat -> el seed j = 1) ->
  (forall o, In o (writes u) -> al o = 0) ->
  exists e2 m2, autodiff e1 (map Fin seed) m1 = Ok (e2, m2, map Fin (val D (u : X) rho)) /\
    forall o, In o (refs u) -> ~ In o (eqw u) -> exists g, partials D (u : X) rho o g /\
      m2 1%nat o = Some (Fin (al o + dotp seed g)).
Proof. exact (fun K E C V B W => fold_grad la LA u m0 b D K E C (or_intror V) B W bv ba e1 m1 rho al w seed). Qed.
Print Assumptions C28_gradient_partial.
(** README's regression loop: pow<2>(y - dot(x, w)) with views x (1 x 2) and y;
    built while the buffers hold 4, evaluated when they hold [D]. *)
Definition u28 : expr (XR exact_la) unit :=
  EComp (KPow 2) tt [EComp (KBin BSub) tt [ECvw scl 2; EComp KSumE tt [EComp KDot tt [ECvw (Sh Mat 1 2) 0; EVar (Sh Vec 2 1) 0]]]].
Example C28_nonvacuous (D : nat -> R) : okexpr exact_la u28 /\ fexact u28 = true /\ cdom D (u28 : X) /\ unfrozen u28 = true /\
  build (XR exact_la) u28 m27 = Built (BE u28) /\ (forall r d w, dom D d w (u28 : X) r) /\
  (forall r, val D (u28 : X) r = [(D 2%nat - (D 0%nat * r 0%nat + D 1%nat * r 1%nat)) ^ 2]) /\
  (forall rho al, exists e1 m1, session exact_la 2 3 u28 D e1 m1 /\ mreal exact_la u28 m1 D rho al).
Proof.
  assert (K : okexpr exact_la u28).
  { split; [reflexivity|]. split; [reflexivity|]. cbn. repeat (split || constructor); try (eexists; reflexivity). }
  split; [exact K|]. split; [reflexivity|]. split; [cbn; repeat split; auto; repeat (apply Forall_cons; [eexists; reflexivity|]); apply Forall_nil|]. split; [reflexivity|].
  split; [reflexivity|]. split; [intros r d w; cbn; repeat split; auto; intros i Hi; try discriminate; lia|].
  split; [intros r; unfold val; cbn; unfold el, sumn; cbn; f_equal; unfold m_of, el; cbn; unfold sumn, m_of, el; cbn; change (Pos.to_nat 2) with 2%nat; ring|].
  intros rho al. apply (session_start exact_la exact_la_ok 2 3 u28 D rho al); auto. cbv; intuition discriminate.
Qed.
(** A view below a folded node is frozen: -c + x, built while c = 0, still has
    the value x after c was set to 1. *)
Theorem C28_folded_refuted (la : linalg xr) (LA : la_ok la) (m : mem (XR la)) :
  m 4%nat 0%nat = Some (Fin 0) -> forall x al, exists b e1 m1,
  build (XR la) (w_fr la) m = Built b /\ session la 2 3 (btree (XR la) b) (fun _ => 1) e1 m1 /\
  mreal la (w_fr la) m1 (fun _ => 1) (fun _ => x) al /\
  val (fun _ => 1) (w_fr la : X) (fun _ => x) = [x - 1] /\
  exists e2 m2, evaluate e1 m1 = Ok (e2, m2, [Fin x]).
Proof. exact (wfr la LA m). Qed.
Print Assumptions C28_folded_refuted.
(** A view that is an operand of a log-density node is read by its constructor:
    uniform(c, a, b) with a = 0, b = 2, built while c = (5), is still -infinity
    after c was set to (1). *)
Theorem C28_cached_refuted (la : linalg xr) (LA : la_ok la) (rho := fun o => nth o [0; 2] 0) : exists e1 m1,
  session la 2 3 (w_uni la) (fun _ => 5) e1 m1 /\ mreal la (w_uni la) m1 (fun _ => 1) rho (fun _ => 0) /\
  dom (fun _ => 1) false false (w_uni la : X) rho /\ val (fun _ => 1) (w_uni la : X) rho = [- ln 2] /\
  exists e2 m2, evaluate e1 m1 = Ok (e2, m2, [NInf]).
Proof. exact (wuni la LA). Qed.
Print Assumptions C28_cached_refuted.
