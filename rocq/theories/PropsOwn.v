(** Property theorems C08, C37, C38, C39 and C40: forgotten resets, ownership of
    variable storage, copies of bound expressions, sub-views. *)
From Coq Require Import Reals Lra.
From Verif Require Import Base Num Expr Node Stat Machine Wf LBase LKind Session LUser LFind XR Own OwnSpec LOwn OwnBind LOwnBind Sub LSub.
Open Scope nat_scope.

(** ** C08, refuted: (w = x * y, w) differentiated twice with seed [s] and no reset
    in between: the adjoint of [x] is [s*y] after the first and [3*s*y], not
    [2*s*y], after the second.  (C01_gradient_general says what happens in
    general: the adjoints left in placeholders act as seeds.  Without
    placeholders adjoints do double: C07_no_placeholders.) *)
Theorem C08_refuted (la : linalg xr) (f : nat -> R) (s : R) :
  exists m1 m2, twice (N := XR la) u08 (mem8 (XR la) (fun o => Fin (f o))) [Fin s] = Ok (m1, m2) /\
    m1 1 0 = Some (Fin (s * f 1%nat)%R) /\ m2 1 0 = Some (Fin (3 * (s * f 1%nat))%R).
Proof. exact (w08 la f s). Qed.
Print Assumptions C08_refuted.
Example C08_nonvacuous : (3 * (1 * 5) <> 2 * (1 * 5))%R /\ wfs (@u08 toy) = true.
Proof. split; [lra|reflexivity]. Qed.

(** ** C37: variables are values.
    [arun] (OwnSpec.v) runs the same history on plain values: a copy is a second
    value, writing one variable changes no other.  The theorem says that the
    storage model agrees for every legal history of constructions, copies, moves,
    assignments, writes through the views and destructions: no access goes
    wrong and every variable that holds a value shows exactly it. *)
Theorem C37_copies (T : Type) (z : T) h (a : astate T) : arun z h ainit a ->
  exists s, vrun z h vinit = Ok s /\ forall i sh d, a i = Some (sh, Some d) -> read s i = Ok d.
Proof. exact (values z h a). Qed.
Print Assumptions C37_copies.
(** Expressions hold copies of a variable's view.  As long as the variable itself
    is neither moved nor destroyed (for scalars: not destroyed), its view stays
    the same, so an expression built at any time keeps seeing its current value,
    in particular after copy assignments to it. *)
Theorem C37_views (T : Type) (z : T) h1 h2 (a1 a2 : astate T) i sh d :
  arun z h1 ainit a1 -> arun z h2 a1 a2 -> a1 i = Some (sh, Some d) ->
  Forall (fun o => ~ moves (fst (fst sh)) i o) h2 ->
  exists s1 s2 w d2, vrun z h1 vinit = Ok s1 /\ vrun z h2 s1 = Ok s2 /\
    view_of s1 i = Some w /\ view_of s2 i = Some w /\ a2 i = Some (sh, Some d2) /\ look s2 w = Ok d2.
Proof. exact (views z h1 h2 a1 a2 i sh d). Qed.
Print Assumptions C37_views.
(** A matrix, a copy, a write to the original, copy assignment back, a move, destruction. *)
Definition h37 : list (vop nat) :=
  [New 0 false 2 1; Put 0 false [7; 8]; CopyNew 1 0; Put 0 false [1; 2]; Put 1 true [5; 5]].
Definition h37b : list (vop nat) := [CopyAsg 0 1; New 2 false 2 1; MoveAsg 2 1; Put 0 true [9; 9]; Del 1].
Example C37_nonvacuous : exists a1 a2, arun 0 h37 ainit a1 /\ arun 0 h37b a1 a2 /\
  a1 0 = Some (false, 2, 1, Some ([1; 2], [0; 0])) /\ a1 1 = Some (false, 2, 1, Some ([7; 8], [5; 5])) /\
  a2 0 = Some (false, 2, 1, Some ([7; 8], [9; 9])) /\ a2 2 = Some (false, 2, 1, Some ([7; 8], [5; 5])) /\
  Forall (fun o => ~ moves false 0 o) h37b.
Proof.
  eexists _, _. split.
  { cbn. repeat (match goal with |- exists _, _ => eexists | |- _ /\ _ => split | |- _ = aset _ _ _ => reflexivity end);
      try reflexivity; try (intros; discriminate). }
  split.
  { cbn. repeat (match goal with |- exists _, _ => eexists | |- _ /\ _ => split | |- _ = aset _ _ _ => reflexivity end);
      try reflexivity; try (intros; discriminate). }
  do 4 (split; [reflexivity|]). repeat constructor; cbn; intuition discriminate.
Qed.

(** ** C38, refuted.  Move-assigning a vector or matrix exchanges the two buffers:
    the target [j] gets the source's value and its view moves to the source's
    buffer.  An expression built over [j] before ([w] is its view) keeps looking
    at [j]'s old buffer, still shows the old value, and dangles as soon as the
    source variable is destroyed. *)
Theorem C38_refuted (T : Type) (z : T) h (a : astate T) i j sh d d' :
  arun z h ainit a -> i <> j -> a i = Some (sh, Some d) -> a j = Some (sh, Some d') ->
  fst (fst sh) = false -> fst d' <> [] ->
  exists s w s' s'', vrun z h vinit = Ok s /\ view_of s j = Some w /\ look s w = Ok d' /\
    vstep z (MoveAsg j i) s = Ok s' /\ read s' j = Ok d /\
    view_of s' j = view_of s i /\ view_of s' j <> Some w /\ look s' w = Ok d' /\
    vstep z (Del i) s' = Ok s'' /\ read s'' j = Ok d /\ look s'' w = Err UBoob.
Proof. exact (move_assign z h a i j sh d d'). Qed.
Print Assumptions C38_refuted.
Example C38_nonvacuous : exists a, arun 0 h37 ainit a /\ a 0 = Some (false, 2, 1, Some ([1; 2], [0; 0])) /\
  a 1 = Some (false, 2, 1, Some ([7; 8], [5; 5])) /\ [1; 2] <> [7; 8].
Proof.
  eexists. split.
  { cbn. repeat (match goal with |- exists _, _ => eexists | |- _ /\ _ => split | |- _ = aset _ _ _ => reflexivity end);
      try reflexivity; try (intros; discriminate). }
  do 2 (split; [reflexivity|]). discriminate.
Qed.
(** What does hold.  Move construction: expressions over the source see the new
    variable.  Scalars: moving is copying, C37_views needs no exception. *)
Theorem C38_move_construct (T : Type) (z : T) h (a : astate T) i j sh d : arun z h ainit a ->
  a i = Some (sh, Some d) -> a j = None -> fst (fst sh) = false ->
  exists s w s', vrun z h vinit = Ok s /\ view_of s i = Some w /\
    vstep z (MoveNew j i) s = Ok s' /\ view_of s' j = Some w /\ look s' w = Ok d.
Proof. exact (move_construct z h a i j sh d). Qed.
Print Assumptions C38_move_construct.

(** ** C39, refuted.  Bind [u], copy the bound object (fresh blocks [nv],[na]), use
    the original and the copy in any order ([l]): no access goes wrong.  Then
    destroy the original and evaluate the copy: undefined, for every expression
    whose root is a compute node with a non-empty value. *)
Theorem C39_refuted (N : num) (LL : la_len N) (bv ba : nat) (uv ua : nat -> N) (u : expr N unit) (m : mem N) nv na l :
  fresh bv ba -> wfs u = true -> ctor_ok u = true -> avail u m ->
  nv <> bv -> nv <> ba -> na <> bv -> na <> ba -> na <> nv -> (forall o, m nv o = None /\ m na o = None) ->
  Forall (fun p => op_ok (size (shape_of u)) (snd p)) l ->
  exists x m0 x' y' m1, eb_bind bv ba uv ua u m = Ok (x, m0) /\
    (let '(y, m0') := eb_copy nv na x m0 in prun l (x, y, m0') = Ok (x', y', m1)) /\
    (forall k es, u = EComp k tt es -> 0 < size (shape_of u) ->
       exists r, evaluate (eb_e y') (eb_del x' m1) = Err r).
Proof. exact (fun HF => copy_story LL bv ba HF uv ua u m nv na l). Qed.
Print Assumptions C39_refuted.
Definition u39 {N : num} : expr N unit := EComp (KBin BMul) tt [EComp (KUn USin) tt [EVar scl 0]; EVar scl 1].
Example C39_nonvacuous (N : num) : fresh 2 3 /\ wfs (@u39 N) = true /\ ctor_ok (@u39 N) = true /\
  avail (@u39 N) (mem8 N (fun _ => n1 N)) /\ (forall o, mem8 N (fun _ => n1 N) 5 o = None /\ mem8 N (fun _ => n1 N) 6 o = None) /\
  Forall (fun p => op_ok (N := N) (size (shape_of (@u39 N))) (snd p)) [(true, OpEval); (false, OpDiff [n1 N]); (true, OpDiff [n1 N])] /\
  0 < size (shape_of (@u39 N)).
Proof.
  split; [cbv; repeat split; discriminate|]. do 2 (split; [reflexivity|]). split.
  { split; cbn; intros o Ho; [|tauto]. repeat (destruct Ho as [<-|Ho]; [split; discriminate|]). destruct Ho. }
  split; [intros o; unfold mem8; destruct (o <? 8); split; reflexivity|].
  split; [repeat constructor|cbn; repeat constructor].
Qed.
(** Moving the bound object instead is fine, whatever happens to the moved-from one. *)
Theorem C39_move (N : num) (LL : la_len N) (bv ba : nat) (uv ua : nat -> N) (u : expr N unit) (m : mem N) l :
  fresh bv ba -> wfs u = true -> ctor_ok u = true -> avail u m -> Forall (op_ok (size (shape_of u))) l ->
  exists x m0 c, eb_bind bv ba uv ua u m = Ok (x, m0) /\
    let '(y, x') := eb_move x in run l (eb_e y, eb_del x' m0) = Ok c.
Proof. exact (fun HF => move_story LL bv ba HF uv ua u m l). Qed.
Print Assumptions C39_move.

(** ** C40: sub-views.  The cells of x(i), head(k), tail(k) are the corresponding
    cells of x; out of range is an assertion failure. *)
Theorem C40_at (N : num) o n i : i < n -> sub_at (EVar (Sh Vec n 1) o : expr N unit) i = Ok (EVar scl (o + i)) /\
  cells scl (o + i) = [nth i (cells (Sh Vec n 1) o) 0].
Proof. exact (sub_at_ok o n i). Qed.
Print Assumptions C40_at.
Theorem C40_head (N : num) o n k : k <= n -> sub_head (EVar (Sh Vec n 1) o : expr N unit) k = Ok (EVar (Sh Vec k 1) o) /\
  cells (Sh Vec k 1) o = firstn k (cells (Sh Vec n 1) o).
Proof. exact (sub_head_ok o n k). Qed.
Print Assumptions C40_head.
Theorem C40_tail (N : num) o n k : k <= n -> sub_tail (EVar (Sh Vec n 1) o : expr N unit) k = Ok (EVar (Sh Vec k 1) (o + (n - k))) /\
  cells (Sh Vec k 1) (o + (n - k)) = skipn (n - k) (cells (Sh Vec n 1) o).
Proof. exact (sub_tail_ok o n k). Qed.
Print Assumptions C40_tail.
Theorem C40_assert (N : num) o n i :
  (n <= i -> sub_at (EVar (Sh Vec n 1) o : expr N unit) i = Err UBshape) /\
  (n < i -> sub_head (EVar (Sh Vec n 1) o : expr N unit) i = Err UBshape /\
            sub_tail (EVar (Sh Vec n 1) o : expr N unit) i = Err UBshape).
Proof. exact (sub_fail o n i). Qed.
Print Assumptions C40_assert.
(** Entry access get(i,j): column-major, inside the view, and one cell per entry. *)
Theorem C40_entry (N : num) k o r c i j : i < r -> j < c ->
  exists p, ent (EVar (Sh k r c) o : expr N unit) i j = Ok p /\ In p (cells (Sh k r c) o) /\
  forall A (z : A) (f : nat -> A), mget z r (map f (cells (Sh k r c) o)) i j = f p.
Proof. exact (ent_ok k o r c i j). Qed.
Print Assumptions C40_entry.
Theorem C40_entry_injective (N : num) k o r c i j i' j' p : ent (EVar (Sh k r c) o : expr N unit) i j = Ok p ->
  ent (EVar (Sh k r c) o : expr N unit) i' j' = Ok p -> i = i' /\ j = j'.
Proof. exact (ent_inj k o r c i j i' j' p). Qed.
Print Assumptions C40_entry_injective.
(** A view, sub-view or not, reads its cells and adds its seed to exactly the
    adjoints of its cells.  (Gradients of whole expressions over overlapping views
    are C01: its adjoints are per cell.) *)
Theorem C40_gradient (N : num) sh o (m : mem N) seed :
  (forall p, In p (cells sh o) -> m 0 p <> None /\ m 1 p <> None) -> length seed = size sh ->
  exists m' v, autodiff (EVar sh o) seed m = Ok (EVar sh o, m', v) /\ length v = size sh /\
    (forall k z, k < size sh -> m 0 (o + k) = Some (nth k v z)) /\
    (forall k z, k < size sh -> exists a, m 1 (o + k) = Some a /\ m' 1 (o + k) = Some (nadd N a (nth k seed z))) /\
    forall b p, (b <> 1 \/ ~ In p (cells sh o)) -> m' b p = m b p.
Proof. exact (var_diff sh o m seed). Qed.
Print Assumptions C40_gradient.
Example C40_nonvacuous : sub_tail (EVar (Sh Vec 5 1) 3 : expr toy unit) 2 = Ok (EVar (Sh Vec 2 1) 6) /\
  cells (Sh Vec 2 1) 6 = [6; 7] /\ cells (Sh Vec 5 1) 3 = [3; 4; 5; 6; 7] /\
  exists m' v, autodiff (N := toy) (EVar (Sh Vec 2 1) 6) [4%Z; 5%Z] (mem8 toy (fun o => Z.of_nat o)) =
    Ok (EVar (Sh Vec 2 1) 6, m', v) /\ v = [6%Z; 7%Z] /\ m' 1 7 = Some 5%Z /\ m' 1 5 = Some 0%Z.
Proof. do 3 (split; [reflexivity|]). eexists _, _. split; [vm_compute; reflexivity|]. repeat split. Qed.
