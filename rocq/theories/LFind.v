(** Concrete runs that reach undefined behaviour or a wrong result, for every
    arithmetic. *)
From Verif Require Import Base Num Expr Node Stat Machine Wf LBase Session.

(** Integers as an arithmetic, for examples that are run. *)
Definition toyla : linalg Z :=
  LinAlg Z (fun _ _ => 1%Z) (fun _ _ => true) (fun n _ => repeat 0%Z (n * n))
         (fun n _ => repeat 1%Z n) (fun _ _ => true) (fun n _ => repeat 0%Z (n * n))
         (fun _ _ => 1%Z) (fun _ _ => true) (fun n _ => repeat 0%Z (n * n)).
Definition toy : num :=
  let i (x : Z) := x in
  Num Z 0%Z 1%Z 1%Z 1%Z i 99%Z (-99)%Z Z.add Z.sub Z.mul Z.div Z.opp Z.abs
      i i i i i i i i i i i i i (fun x _ => x) Z.ltb Z.leb Z.eqb (fun _ => true)
      (fun l => fold_left Z.add l 0%Z) (fun l => fold_left Z.mul l 1%Z) toyla.

Section Find.
Context (N : num).
Notation T := (carrier N).
Notation U := (expr T unit).
Definition v2 : shape := Sh Vec 2 1.
(** Eight variable cells with the given values, adjoints zero. *)
Definition mem8 (f : nat -> T) : mem T := fun b o =>
  if o <? 8 then match b with 0 => Some (f o) | 1 => Some (n0 N) | _ => None end else None.
Definition any : nat -> T := fun _ => n0 N.
(** bind, then autodiff with seed [s] *)
Definition bind_diff (u : U) (m : mem T) (s : list T) :=
  c <- bound 2 3 any any u m ;; autodiff (fst c) s (snd c).
Definition bind_eval (u : U) (m : mem T) :=
  c <- bound 2 3 any any u m ;; evaluate (fst c) (snd c).

(** w = prod(v) *)
Definition w_prod (n : nat) : U := EEq tt scl 0 (EComp KProdE tt [EVar (Sh Vec n 1) 1]).
(** w = (v += x) *)
Definition w_add : U := EEq tt v2 0 (EOpEq OAdd tt v2 2 (EVar v2 4)).
(** (w = (v += x), sin(w)) *)
Definition w_add_sin : U := EGlue tt w_add (EComp (KUn USin) tt [EVar v2 0]).
(** sin(if_else(c, x, y)) *)
Definition sin_if (c : T) : U :=
  EComp (KUn USin) tt [EIf tt (ECst scl [c]) (EVar scl 0) (EVar scl 1)].
(** (w = x, if_else(c, w, y)) *)
Definition glue_if (c : T) : U :=
  EGlue tt (EEq tt scl 2 (EComp (KUn UNeg) tt [EVar scl 0])) (EIf tt (ECst scl [c]) (EVar scl 0) (EVar scl 1)).

Lemma w_add_oob f : bind_eval w_add (mem8 f) = Err UBoob.
Proof. reflexivity. Qed.
Lemma w_prod_oob f s : bind_diff (w_prod 2) (mem8 f) [s] = Err UBoob.
Proof. vm_compute. reflexivity. Qed.
Lemma w_add_sin_wrong f s1 s2 : exists e m v,
  bind_diff w_add_sin (mem8 f) [s1; s2] = Ok (e, m, v) /\
  m 0 2 = Some (nsin N (nadd N (f 2) (f 4))) /\ m 0 3 = Some (nsin N (nadd N (f 3) (f 5))).
Proof. eexists _, _, _. split; [vm_compute; reflexivity|]. split; reflexivity. Qed.

Lemma sin_if_null c f s : bind_diff (sin_if c) (mem8 f) [s] = Err UBnull.
Proof.
  lazy -[ntrue]. destruct (ntrue N c); lazy -[ntrue]; destruct (ntrue N c); reflexivity.
Qed.
Lemma glue_if_null c f : bind_eval (glue_if c) (mem8 f) = Err UBnull.
Proof.
  lazy -[ntrue]. destruct (ntrue N c); reflexivity.
Qed.
Ltac av := split; cbn; intros o Ho; [|tauto];
  repeat (destruct Ho as [<-|Ho]; [split; discriminate|]); destruct Ho.
Lemma w_prod_avail f : avail (w_prod 2) (mem8 f). Proof. av. Qed.
Lemma w_add_avail f : avail w_add (mem8 f). Proof. av. Qed.
Lemma sin_if_avail c f : avail (sin_if c) (mem8 f). Proof. av. Qed.
Lemma glue_if_avail c f : avail (glue_if c) (mem8 f). Proof. av. Qed.
End Find.
