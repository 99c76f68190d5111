(** Property theorems C06 and part of C12: repeated evaluation and
    differentiation, for every arithmetic [N]. *)
From Verif Require Import Base Num Expr Node Stat Machine Wf LBase LKind Session Tape LFind LSess.

(** ** C06: evaluation is repeatable.
    After any history of the bound expression: evaluating it, and then [n] more
    times, gives the same value each time and leaves every adjoint as it was.
    Guards: [disc] = no placeholder is assigned after it was used; [opw u = []] =
    no op=. *)
Theorem C06_repeatable (N : num) (LL : la_len N) (bv ba : nat) (uv ua : nat -> N)
    (u : expr N unit) m e m0 ops e1 m1 n :
  fresh bv ba -> wfs u = true -> disc u = true -> opw u = [] -> avail u m ->
  bound bv ba uv ua u m = Ok (e, m0) ->
  Forall (op_ok (size (shape_of u))) ops -> run ops (e, m0) = Ok (e1, m1) ->
  exists e2 m2 v e3 m3, evaluate e1 m1 = Ok (e2, m2, v) /\ evals n e2 m2 = Ok (e3, m3, repeat v n) /\
    (forall o, In o (refs u) -> m3 0 o = m2 0 o) /\ (forall o, m3 1 o = m1 1 o).
Proof. exact (fun HF => sess_repeat N LL bv ba HF uv ua u m e m0 ops e1 m1 n). Qed.
Print Assumptions C06_repeatable.

(** Whatever happens between two evaluations (other evaluations, autodiff calls,
    client writes), if the variables that are not placeholders and the constant
    buffers are the same at both, so are the value and the placeholders.  op= is
    allowed. *)
Theorem C06_history_independent (N : num) (LL : la_len N) (bv ba : nat) (uv ua : nat -> N)
    (u : expr N unit) m e m0 ops e1 m1 ops' e3 m3 :
  fresh bv ba -> wfs u = true -> disc u = true -> avail u m ->
  bound bv ba uv ua u m = Ok (e, m0) ->
  Forall (op_ok (size (shape_of u))) ops -> run ops (e, m0) = Ok (e1, m1) ->
  Forall (op_ok (size (shape_of u))) ops' -> run ops' (e1, m1) = Ok (e3, m3) ->
  (forall o, In o (refs u) -> ~ In o (da u) -> m3 0 o = m1 0 o) ->
  (forall o, In o (drefs u) -> m3 4 o = m1 4 o) ->
  exists e2 m2 e4 m4 v, evaluate e1 m1 = Ok (e2, m2, v) /\ evaluate e3 m3 = Ok (e4, m4, v) /\
    (forall o, In o (da u) -> m4 0 o = m2 0 o).
Proof. exact (fun HF => sess_indep N LL bv ba HF uv ua u m e m0 ops e1 m1 ops' e3 m3). Qed.
Print Assumptions C06_history_independent.

(** (w = x * y, (z = sin(w), z * w + prod(v))); the placeholders w and z are
    clobbered between the two evaluations. *)
Definition ex_sess {N : num} : expr N unit :=
  EGlue tt (EEq tt scl 2 (EComp (KBin BMul) tt [EVar scl 0; EVar scl 1]))
    (EGlue tt (EEq tt scl 3 (EComp (KUn USin) tt [EVar scl 2]))
       (EComp (KBin BAdd) tt [EComp (KBin BMul) tt [EVar scl 3; EVar scl 2];
                              EComp KProdE tt [EVar (Sh Vec 2 1) 4]])).
Definition clobber {N : num} (m : mem N) : mem N :=
  fun b o => match m b o with
             | None => None
             | Some x => if (b =? 0) && (existsb (Nat.eqb o) [2; 3]) then Some (nhalf N) else Some x
             end.
Example C06_nonvacuous (N : num) : fresh 2 3 /\ wfs (@ex_sess N) = true /\ disc (@ex_sess N) = true /\
  opw (@ex_sess N) = [] /\ avail (@ex_sess N) (mem8 N (fun _ => n1 N)) /\
  (exists e m0 e3 m3, bound 2 3 (any N) (any N) (@ex_sess N) (mem8 N (fun _ => n1 N)) = Ok (e, m0) /\
     run [OpDiff [n1 N]; OpUser clobber] (e, m0) = Ok (e3, m3) /\
     m3 0 2 = Some (nhalf N) /\
     forall o, In o (refs (@ex_sess N)) -> ~ In o (da (@ex_sess N)) -> m3 0 o = m0 0 o) /\
  Forall (op_ok (N := N) (size (shape_of (@ex_sess N)))) [OpDiff [n1 N]; OpUser clobber].
Proof.
  split; [cbv; repeat split; discriminate|]. do 3 (split; [reflexivity|]). split; [|split].
  - split; cbn; intros o Ho; [|tauto].
    repeat (destruct Ho as [<-|Ho]; [split; discriminate|]). destruct Ho.
  - eexists _, _, _, _. split; [vm_compute; reflexivity|]. split; [vm_compute; reflexivity|].
    split; [vm_compute; reflexivity|].
    intros o Ho Hn. cbn in Ho, Hn.
    repeat (destruct Ho as [<-|Ho]; [first [tauto | vm_compute; reflexivity]|]). destruct Ho.
  - repeat constructor. intros m b o H. cbv [clobber]. destruct (m b o); [|congruence].
    destruct (_ && _); discriminate.
Qed.

(** With op= evaluation updates variables in place, but autodiff puts the old
    values back: any number of autodiff calls, with any seeds, return the same
    value, the one evaluate would have returned.  Guard: every variable assigned
    by = is assigned in every evaluation. *)
Theorem C06_autodiff_repeatable (N : num) (LL : la_len N) (bv ba : nat) (uv ua : nat -> N)
    (u : expr N unit) m e m0 ops e1 m1 seeds :
  fresh bv ba -> wfs u = true -> disc u = true -> (forall o, In o (eqw u) -> In o (da u)) -> avail u m ->
  bound bv ba uv ua u m = Ok (e, m0) ->
  Forall (op_ok (size (shape_of u))) ops -> run ops (e, m0) = Ok (e1, m1) ->
  Forall (fun s => length s = size (shape_of u)) seeds ->
  exists e2 m2 v e3 m3, evaluate e1 m1 = Ok (e2, m2, v) /\ adiffs seeds e1 m1 = Ok (e3, m3, repeat v (length seeds)) /\
    (forall o, In o (refs u) -> ~ In o (eqw u) -> m3 0 o = m1 0 o).
Proof. exact (fun HF => sess_diffs N LL bv ba HF uv ua u m e m0 ops e1 m1 seeds). Qed.
Print Assumptions C06_autodiff_repeatable.

(** ** C12: autodiff restores what op= overwrote, exactly, in every arithmetic:
    not only up to rounding, and also when values overflow or are NaN. *)
Theorem C12_restored_exactly (N : num) (LL : la_len N) (bv ba : nat) (uv ua : nat -> N)
    (u : expr N unit) m e m0 ops e1 m1 seed :
  fresh bv ba -> wfs u = true -> disc u = true -> avail u m ->
  bound bv ba uv ua u m = Ok (e, m0) ->
  Forall (op_ok (size (shape_of u))) ops -> run ops (e, m0) = Ok (e1, m1) ->
  length seed = size (shape_of u) ->
  exists e3 m3 v, autodiff e1 seed m1 = Ok (e3, m3, v) /\
    (forall o, In o (refs u) -> ~ In o (eqw u) -> m3 0 o = m1 0 o).
Proof. exact (fun HF => sess_restored N LL bv ba HF uv ua u m e m0 ops e1 m1 seed). Qed.
Print Assumptions C12_restored_exactly.
(** (w = x * y, w += x, x -= y, w * x) at x = 3, y = 5: 18 * (3 - 5) each time,
    while evaluate changes x. *)
Definition ex_ops {N : num} : expr N unit :=
  EGlue tt (EEq tt scl 2 (EComp (KBin BMul) tt [EVar scl 0; EVar scl 1]))
    (EGlue tt (EOpEq OAdd tt scl 2 (EVar scl 0))
      (EGlue tt (EOpEq OSub tt scl 0 (EVar scl 1)) (EComp (KBin BMul) tt [EVar scl 2; EVar scl 0]))).
Example C06_autodiff_nonvacuous :
  wfs (@ex_ops toy) = true /\ disc (@ex_ops toy) = true /\ (forall o, In o (eqw (@ex_ops toy)) -> In o (da (@ex_ops toy))) /\
  avail (@ex_ops toy) (mem8 toy (fun o => Z.of_nat (2 * o + 3))) /\
  match bound 2 3 (any toy) (any toy) ex_ops (mem8 toy (fun o => Z.of_nat (2 * o + 3))) with
  | Ok (e, m0) => match adiffs ([[1%Z]; [7%Z]; [0%Z]] : list (list toy)) e m0, evaluate e m0 with
                  | Ok (_, m', vs), Ok (_, m2, v) => (vs, m' 0 0, v, m2 0 0)
                  | _, _ => ([], None, [], None) end
  | Err _ => ([], None, [], None)
  end = ([[(-36)%Z]; [(-36)%Z]; [(-36)%Z]], Some 3%Z, [(-36)%Z], Some (-2)%Z).
Proof.
  do 2 (split; [reflexivity|]). split; [cbn; tauto|]. split; [|vm_compute; reflexivity].
  split; cbn; intros o Ho; [|tauto]. repeat (destruct Ho as [<-|Ho]; [split; discriminate|]). destruct Ho.
Qed.
