(** Assignments in places where the backward pass loses them: concrete runs. *)
From Verif Require Import Base Num Expr Node Stat Machine Wf LBase Session LFind.

Section Gen.
Context (N : num).
Notation T := (carrier N).
Notation U := (expr T unit).
Definition var (i : nat) : U := EVar scl i.
Definition bin (b : bi) (x y : U) : U := EComp (KBin b) tt [x; y].
(** if_else((w = x * x) < y, w, y); x, y, w in cells 0, 1, 2 *)
Definition u41 : U := EIf tt (bin BLt (EEq tt scl 2 (bin BMul (var 0) (var 0))) (var 1)) (var 2) (var 1).
(** (normal(y, (w = x * x), s), w); x, y, s, w in cells 0..3 *)
Definition u41s : U :=
  EGlue tt (EComp (KStat NormSSS) tt [var 1; EEq tt scl 3 (bin BMul (var 0) (var 0)); var 2]) (var 3).
(** (w = x * x, z = w * w, w = x + x, z + w); x, w, z in cells 0, 1, 2 *)
Definition u42 : U :=
  EGlue tt (EGlue tt (EGlue tt (EEq tt scl 1 (bin BMul (var 0) (var 0))) (EEq tt scl 2 (bin BMul (var 1) (var 1))))
                     (EEq tt scl 1 (bin BAdd (var 0) (var 0))))
           (bin BAdd (var 2) (var 1)).
(** x * (v += y), element-wise; vectors x, v, y in cells 0.., 2.., 4.. *)
Definition u43 : U := bin BMul (EVar v2 0) (EOpEq OAdd tt v2 2 (EVar v2 4)).
(** pow<z>(x) *)
Definition u10 (z : Z) : U := EComp (KPow z) tt [var 0].

(** Operands that assign the placeholder w of cell 2: (w = -x) + (w = -y), the sum
    over the range {(w = -x), (w = -y)}, w + (w = -x), and w += (w = -x). *)
Definition neg (x : U) : U := EComp (KUn UNeg) tt [x].
Definition asg (i : nat) : U := EEq tt scl 2 (neg (var i)).
Definition u62b : U := bin BAdd (asg 0) (asg 1).
Definition u62s : U := EComp (KSumI Scl) tt [asg 0; asg 1].
Definition u62w : U := bin BAdd (var 2) (asg 0).
Definition u62o : U := EOpEq OAdd tt scl 2 (asg 0).

Ltac avl := split; cbn; intros o Ho; [|tauto];
  repeat (destruct Ho as [<-|Ho]; [split; discriminate|]); destruct Ho.
Lemma av41 f : avail u41 (mem8 N f). Proof. avl. Qed.
Lemma av41s f : avail u41s (mem8 N f). Proof. avl. Qed.
Lemma av42 f : avail u42 (mem8 N f). Proof. avl. Qed.
Lemma av43 f : avail u43 (mem8 N f). Proof. avl. Qed.
Lemma av10 z f : avail (u10 z) (mem8 N f). Proof. avl. Qed.

Notation o := (n0 N).

(** Runs a program, deciding the comparisons it meets with the hypotheses. *)
Ltac lz := lazy -[nltb nleb nmul neqb nadd nsub ndiv nopp nofZ nhalf nlog npinf n0 n1 carrier].
Ltac go H K := lz; repeat (progress (rewrite ?H, ?K; lz)).
Lemma run41 f s : nltb N (nmul N (f 0) (f 0)) (f 1) = true -> neqb N (n1 N) o = false ->
  exists e m, bind_diff N u41 (mem8 N f) [s] = Ok (e, m, [nmul N (f 0) (f 0)]) /\
    m 1 0 = Some o /\ m 1 2 = Some (nadd N o s).
Proof.
  intros H1 H0.
  destruct (bind_diff N u41 (mem8 N f) [s]) as [[[e m] v]|x] eqn:E; revert E; go H1 H0; intros E; [|discriminate].
  inversion E; subst. eexists _, _. split; [reflexivity|]. split; reflexivity.
Qed.
Lemma run41s f s : neqb N o o = true -> nleb N (f 2) o = false ->
  exists e m, bind_diff N u41s (mem8 N f) [s] = Ok (e, m, [nmul N (f 0) (f 0)]) /\
    m 1 0 = Some o /\ m 1 3 = Some (nadd N o s).
Proof.
  intros H1 H0.
  destruct (bind_diff N u41s (mem8 N f) [s]) as [[[e m] v]|x] eqn:E; revert E; go H1 H0; intros E; [|discriminate].
  inversion E; subst. eexists _, _. split; [reflexivity|]. split; reflexivity.
Qed.
Lemma run42 f s (x := f 0) (w := nadd N (nadd N o s) o) (z := nadd N (nadd N o s) o) (y := nadd N x x)
  (w1 := nadd N (nadd N w (nmul N z y)) (nmul N z y)) (w2 := nadd N w1 o) :
  exists e m, bind_diff N u42 (mem8 N f) [s] = Ok (e, m, [nadd N (nmul N (nmul N x x) (nmul N x x)) y]) /\
    m 1 0 = Some (nadd N (nadd N (nadd N (nadd N o w) w) (nmul N w2 x)) (nmul N w2 x)).
Proof. eexists _, _. split; [vm_compute; reflexivity|]. reflexivity. Qed.
Lemma run43 f s1 s2 :
  exists e m, bind_diff N u43 (mem8 N f) [s1; s2] =
      Ok (e, m, [nmul N (f 0) (nadd N (f 2) (f 4)); nmul N (f 1) (nadd N (f 3) (f 5))]) /\
    m 1 0 = Some (nadd N o (nmul N s1 (f 2))).
Proof. eexists _, _. split; [vm_compute; reflexivity|]. reflexivity. Qed.
Lemma run10 p f s : neqb N (f 0) o = true ->
  exists e m, bind_diff N (u10 (Zneg p)) (mem8 N f) [s] = Ok (e, m, [npinf N]) /\
    m 1 0 = Some (nadd N o (nopp N (npinf N))).
Proof.
  intros H0. destruct (bind_diff N (u10 (Zneg p)) (mem8 N f) [s]) as [[[e m] v]|x] eqn:E; revert E;
    lazy -[nltb nleb nmul neqb nadd nsub ndiv nopp nofZ nhalf nlog npinf n0 n1 carrier powp]; rewrite ?H0;
    lazy -[nltb nleb nmul neqb nadd nsub ndiv nopp nofZ nhalf nlog npinf n0 n1 carrier powp]; rewrite ?H0;
    lazy -[nltb nleb nmul neqb nadd nsub ndiv nopp nofZ nhalf nlog npinf n0 n1 carrier powp]; intros E; [|discriminate].
  inversion E; subst. eexists _, _. split; [reflexivity|]. reflexivity.
Qed.
Lemma run62 f (a := nopp N (f 0)) (b := nopp N (f 1)) :
  (exists e m, bind_eval N u62b (mem8 N f) = Ok (e, m, [nadd N b b])) /\
  (exists e m, bind_eval N u62s (mem8 N f) = Ok (e, m, [nadd N (nadd N o a) b])) /\
  (exists e m, bind_eval N u62w (mem8 N f) = Ok (e, m, [nadd N a a])) /\
  (exists e m, bind_eval N u62o (mem8 N f) = Ok (e, m, [nadd N a a])).
Proof. repeat split; eexists _, _; vm_compute; reflexivity. Qed.
End Gen.
