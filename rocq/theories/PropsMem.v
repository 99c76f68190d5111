(** Property theorems C03, C04, C05 and C16: memory safety, layout, frame.
    They hold for every arithmetic [N], IEEE doubles included.  [la_len] is
    the contract that Eigen's inverses of n x n matrices have n*n entries. *)
From Verif Require Import Base Num Expr Node Stat Machine Wf LBase LKind Session LUser LFind.

(** ** C03: cache binding is memory safe.

    Spec: [vviews]/[aviews] list the buffers of all nodes; that their cells are
    exactly [0 .. size-1] in order says that bind_cache hands out what
    bind_cache_size reports and that no two buffers overlap.  The cache blocks
    have exactly that many live cells and [Err] is any access outside live
    cells, so [run ... = Ok] means that no access leaves the caches and the
    memory [m] had.  [m] is arbitrary apart from [avail], so it may contain
    nothing but the variables' storage.
    Guards: [wfs] = constructor asserts plus the uses that C04 and C16 show to be
    undefined; [ctor_ok] = no constructor reads an operand that has no storage
    yet. *)
Theorem C03_bind_memory_safe (N : num) (LL : la_len N) (bv ba : nat) (uv ua : nat -> N)
    (u : expr N unit) (m : mem N) :
  fresh bv ba -> wfs u = true -> ctor_ok u = true -> avail u m ->
  exists e m0, bound bv ba uv ua u m = Ok (e, m0) /\
    cover bv (vviews e) = seq 0 (fst (csize e)) /\
    cover ba (aviews e) = seq 0 (snd (csize e)) /\
    (forall o, m0 bv o <> None <-> o < fst (csize e)) /\
    (forall o, m0 ba o <> None <-> o < snd (csize e)) /\
    forall ops, Forall (op_ok (size (shape_of u))) ops -> exists c, run ops (e, m0) = Ok c.
Proof. exact (fun HF => bind_safe N LL bv ba HF uv ua u m). Qed.
Print Assumptions C03_bind_memory_safe.

(** (w = x * y, prod(v) + sin(w)) with an op= before it *)
Definition ex_mem {N : num} : expr N unit :=
  EGlue tt (EOpEq OMul tt (Sh Vec 2 1) 4 (EVar scl 0))
    (EGlue tt (EEq tt scl 2 (EComp (KBin BMul) tt [EVar scl 0; EVar scl 1]))
       (EComp (KBin BAdd) tt [EComp KProdE tt [EVar (Sh Vec 2 1) 4];
                              EComp (KUn USin) tt [EVar scl 2]])).
Example C03_nonvacuous (N : num) : fresh 2 3 /\ wfs (@ex_mem N) = true /\
  ctor_ok (@ex_mem N) = true /\ avail (@ex_mem N) (mem8 N (fun _ => n1 N)) /\
  Forall (op_ok (N := N) (size (shape_of (@ex_mem N))))
    [OpEval; OpDiff [n1 N]; OpUser (fun m => m); OpDiff [n1 N]].
Proof.
  split; [cbv; repeat split; discriminate|]. split; [reflexivity|]. split; [reflexivity|]. split.
  - split; cbn; intros o Ho; [|tauto].
    repeat (destruct Ho as [<-|Ho]; [split; discriminate|]). destruct Ho.
  - repeat constructor. intros m b o H. exact H.
Qed.

(** ** C04, refuted: `w = prod(v)` writes outside the cache when differentiated,
    `w = (v += x)` already when evaluated; followed by another node the latter
    overwrites that node's cache and leaves the wrong value in [v]. *)
Theorem C04_prod_refuted (N : num) (f : nat -> N) (s : N) :
  avail (w_prod N 2) (mem8 N f) /\ bind_diff N (w_prod N 2) (mem8 N f) [s] = Err UBoob.
Proof. exact (conj (w_prod_avail N f) (w_prod_oob N f s)). Qed.
Print Assumptions C04_prod_refuted.
Theorem C04_opeq_refuted (N : num) (f : nat -> N) :
  avail (w_add N) (mem8 N f) /\ bind_eval N (w_add N) (mem8 N f) = Err UBoob.
Proof. exact (conj (w_add_avail N f) (w_add_oob N f)). Qed.
Print Assumptions C04_opeq_refuted.
Theorem C04_overlap_refuted (N : num) (f : nat -> N) (s1 s2 : N) : exists e m v,
  bind_diff N (w_add_sin N) (mem8 N f) [s1; s2] = Ok (e, m, v) /\
  m 0 2 = Some (nsin N (nadd N (f 2) (f 4))) /\ m 0 3 = Some (nsin N (nadd N (f 3) (f 5))).
Proof. exact (w_add_sin_wrong N f s1 s2). Qed.
Print Assumptions C04_overlap_refuted.

(** ** C05: frame. *)
Theorem C05_frame (N : num) (LL : la_len N) (bv ba : nat) (uv ua : nat -> N)
    (u : expr N unit) (m : mem N) e m0 ops e' m' :
  fresh bv ba -> wfs u = true -> avail u m -> bound bv ba uv ua u m = Ok (e, m0) ->
  Forall (op_ok (size (shape_of u))) ops -> Forall no_user ops ->
  run ops (e, m0) = Ok (e', m') ->
  (forall b o, b <> bv -> b <> ba -> m0 b o = m b o) /\
  forall b o, b <> bv -> b <> ba ->
    ~ (b = 0 /\ In o (writes u)) -> ~ (b = 1 /\ In o (refs u)) -> m' b o = m b o.
Proof. exact (fun HF => bind_frame N LL bv ba HF uv ua u m e m0 ops e' m'). Qed.
Print Assumptions C05_frame.
(** evaluate alone touches no adjoint at all. *)
Theorem C05_evaluate_frame (N : num) (LL : la_len N) (bv ba : nat) (uv ua : nat -> N)
    (u : expr N unit) (m : mem N) e m0 ops e' m' e'' m'' v :
  fresh bv ba -> wfs u = true -> avail u m -> bound bv ba uv ua u m = Ok (e, m0) ->
  Forall (op_ok (size (shape_of u))) ops -> run ops (e, m0) = Ok (e', m') ->
  evaluate e' m' = Ok (e'', m'', v) ->
  forall b o, b <> bv -> ~ (b = 0 /\ In o (writes u)) -> m'' b o = m' b o.
Proof. exact (fun HF => eval_frame N LL bv ba HF uv ua u m e m0 ops e' m' e'' m'' v). Qed.
Print Assumptions C05_evaluate_frame.
Example C05_nonvacuous :
  match bound (N := toy) 2 3 (any toy) (any toy) (@ex_mem toy) (mem8 toy (fun o => Z.of_nat (S o))) with
  | Ok (e, m0) =>
      match run (N := toy) [OpEval; OpDiff [n1 toy]; OpDiff [n0 toy]] (e, m0) with
      | Ok (_, m') => (m' 0 2, m' 1 1, m' 1 7)
      | Err _ => (None, None, None)
      end
  | Err _ => (None, None, None)
  end = (Some 2%Z, Some 4%Z, Some 0%Z).
Proof. vm_compute. reflexivity. Qed.

(** ** C16, refuted: if_else as an operand dereferences a null view. *)
Theorem C16_operand_refuted (N : num) (c s : N) (f : nat -> N) :
  avail (sin_if N c) (mem8 N f) /\ bind_diff N (sin_if N c) (mem8 N f) [s] = Err UBnull.
Proof. exact (conj (sin_if_avail N c f) (sin_if_null N c f s)). Qed.
Print Assumptions C16_operand_refuted.
Theorem C16_last_statement_refuted (N : num) (c : N) (f : nat -> N) :
  avail (glue_if N c) (mem8 N f) /\ bind_eval N (glue_if N c) (mem8 N f) = Err UBnull.
Proof. exact (conj (glue_if_avail N c f) (glue_if_null N c f)). Qed.
Print Assumptions C16_last_statement_refuted.
