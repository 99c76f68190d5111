(** Property theorems C48: a bound expression keeps no state of its own, for every
    arithmetic [N]. *)
From Verif Require Import Base Num Expr Node Stat Machine Wf LBase LKind Session Tape LFind Calls LCalls Spec.
Open Scope nat_scope.

(** ** C48: no hidden state.
    Take two bound copies of one expression, made in different memories, with
    different cache buffers holding different garbage, and used in different ways
    so far ([ops] and [ops'], any calls and any client code).  If now
    - the variables hold the same values (placeholders that are assigned before
      they are read, [da], may differ),
    - the variables have the same adjoints,
    - the constant buffers hold the same values,
    then every series of calls and writes from here on returns the same values on
    both and leaves the same values and adjoints, exactly, in any arithmetic.
    What the constructors read must have been the same: the constant buffers of
    density nodes ([sdrefs]) and, for a uniform density with a constant x, its
    vector bound ([crefs]). *)
Theorem C48_no_hidden_state (N : num) (LL : la_len N) (bv ba bv' ba' : nat) (uv ua uv' ua' : nat -> N)
    (u : expr N unit) m m' e e' m0 m0' ops ops' e1 m1 e3 m3 l :
  fresh bv ba -> fresh bv' ba' -> wfs u = true -> disc u = true -> avail u m -> avail u m' ->
  bound bv ba uv ua u m = Ok (e, m0) -> bound bv' ba' uv' ua' u m' = Ok (e', m0') ->
  (forall o, In o (sdrefs u) -> m 4 o = m' 4 o) -> (forall o, In o (crefs u) -> m 0 o = m' 0 o) ->
  Forall (op_ok (size (shape_of u))) ops -> run ops (e, m0) = Ok (e1, m1) ->
  Forall (op_ok (size (shape_of u))) ops' -> run ops' (e', m0') = Ok (e3, m3) ->
  ((forall o, In o (refs u) -> ~ In o (da u) -> m1 0 o = m3 0 o) /\
   (forall o, In o (refs u) -> m1 1 o = m3 1 o) /\ (forall o, In o (drefs u) -> m1 4 o = m3 4 o)) ->
  forallb (seed_ok (size (shape_of u))) l = true ->
  exists e2 m2 e4 m4 vs, calls l e1 m1 = Ok (e2, m2, vs) /\ calls l e3 m3 = Ok (e4, m4, vs) /\
    ((forall o, In o (refs u) -> ~ In o (da u) -> m2 0 o = m4 0 o) /\
     (forall o, In o (refs u) -> m2 1 o = m4 1 o) /\ (forall o, In o (drefs u) -> m2 4 o = m4 4 o)) /\
    (existsb is_run l = true \/ (forall o, In o (refs u) -> m1 0 o = m3 0 o) -> forall o, In o (refs u) -> m2 0 o = m4 0 o).
Proof. exact (fun HF HF' => sess_both N LL bv ba bv' ba' HF HF' uv ua uv' ua' u m m' e e' m0 m0' ops ops' e1 m1 e3 m3 l). Qed.
Print Assumptions C48_no_hidden_state.

(** y = x * s, x *= s, normal(x, y, sigma): a placeholder (cell 2), a variable
    updated in place (cell 0), and a density with a constant sigma in a buffer. *)
Definition u48 {N : num} : expr N unit :=
  EGlue tt (EEq tt scl 2 (EComp (KBin BMul) tt [EVar scl 0; EVar scl 1]))
    (EGlue tt (EOpEq OMul tt scl 0 (EVar scl 1))
       (EComp (KStat NormVSS) tt [ECvw (Sh Vec 2 1) 1; EVar scl 2; ECvw scl 0])).
Definition f48 (o : nat) : toy := Z.of_nat (2 * o + 3).
Definition g48 (o : nat) : toy := Z.of_nat (3 * o + 1).
Definition back : mem toy -> mem toy := fun m b o =>
  match m b o with None => None | Some _ => if b =? 0 then (if o =? 2 then Some 77%Z else Some (f48 o)) else if b =? 1 then Some 0%Z else m b o end.
Definition l48 : list (call toy) :=
  [CDiff ([3%Z] : list toy); CVal 0 (11%Z : toy); CEval; CAdj 2 (0%Z : toy); CDiff ([2%Z] : list toy); CEval].
Definition ops48 : list (op toy) := [OpDiff ([5%Z] : list toy); OpUser (fun m => setc m 0 1 (40%Z : toy)); OpEval; OpUser back].
Example C48_nonvacuous : la_len toy /\ fresh 2 3 /\ fresh 7 5 /\ wfs (@u48 toy) = true /\ disc (@u48 toy) = true /\
  avail (@u48 toy) (mem48 f48 g48) /\ forallb (seed_ok (N := toy) 1) l48 = true /\
  sdrefs (@u48 toy) = [1; 2; 0] /\ da (@u48 toy) = [2] /\ Forall (op_ok (N := toy) 1) ops48 /\
  match bound 2 3 (any toy) (any toy) u48 (mem48 f48 g48), bound 7 5 f48 g48 u48 (mem48 f48 g48) with
  | Ok (e, m0), Ok (e', m0') =>
      match run ops48 (e', m0') with
      | Ok (e3, m3) =>
          match calls l48 e m0, calls l48 e3 m3 with
          | Ok (_, m2, vs), Ok (_, m4, vs') =>
              ((m0 0 2, m3 0 2), vs, vs', map (m2 1) [0; 1; 2], map (m4 1) [0; 1; 2])
          | _, _ => ((None, None), [], [], [], [])
          end
      | _ => ((None, None), [], [], [], [])
      end
  | _, _ => ((None, None), [], [], [], [])
  end = ((Some 7%Z, Some 77%Z), [[(-207)%Z]; [(-5007)%Z]; [(-145807)%Z]; [(-145807)%Z]],
         [[(-207)%Z]; [(-5007)%Z]; [(-145807)%Z]; [(-145807)%Z]],
         [Some (-6900)%Z; Some (-76080)%Z; Some (-1080)%Z], [Some (-6900)%Z; Some (-76080)%Z; Some (-1080)%Z]).
Proof.
  split; [intros n X; repeat split; apply repeat_length|].
  split; [repeat split; discriminate|]. split; [repeat split; discriminate|]. do 2 (split; [reflexivity|]).
  split. { split; cbn; intros o Ho; repeat (destruct Ho as [<-|Ho]; [try split; discriminate|]); destruct Ho. }
  do 3 (split; [reflexivity|]). split.
  { repeat constructor; intros m b o Hm; unfold setc, back.
    - destruct ((b =? 0) && (o =? 1)) eqn:EB; [|exact Hm]. apply andb_true_iff in EB. destruct EB as [E1 E2].
      apply Nat.eqb_eq in E1, E2. subst. destruct (m 0 1); [discriminate|exact Hm].
    - destruct (m b o); [|exact Hm]. destruct (b =? 0); [destruct (o =? 2); discriminate|]. destruct (b =? 1); discriminate. }
  vm_compute. reflexivity.
Qed.

(** The condition on what the constructors read is needed: uniform(x, min, max)
    with the constant vector x = 2, min = 0 and a variable max = 3.  Copy A is
    bound when max = 3, copy B when max = 1; then max is set to 3 for B as well.
    Both see the same variables, adjoints and constants, but B still says that x
    is out of range. *)
Theorem C48_constructor_refuted (gg := fun o => if o =? 0 then 2%Z else 0%Z) :
  wfs (@u48u toy) = true /\ disc (@u48u toy) = true /\ sdrefs (@u48u toy) = [0; 1] /\ crefs (@u48u toy) = [0] /\
  avail (@u48u toy) (mem48 (fun _ => 3%Z) gg) /\ avail (@u48u toy) (mem48 (fun _ => 1%Z) gg) /\
  exists e m0 e' m0', bound 2 3 (any toy) (any toy) u48u (mem48 (fun _ => 3%Z) gg) = Ok (e, m0) /\
    bound 2 3 (any toy) (any toy) u48u (mem48 (fun _ => 1%Z) gg) = Ok (e', m0') /\
    (forall b o, b = 1 \/ b = 4 -> m0 b o = setc m0' 0 0 (3%Z : toy) b o) /\ m0 0 0 = setc m0' 0 0 (3%Z : toy) 0 0 /\
    exists m2 m4 e2 e4 v v', evaluate e m0 = Ok (e2, m2, v) /\ evaluate e' (setc m0' 0 0 (3%Z : toy)) = Ok (e4, m4, v') /\
      v <> v'.
Proof. exact stale_constructor. Qed.
Print Assumptions C48_constructor_refuted.
