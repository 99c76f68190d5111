(** C63 over the reals. *)
From Coq Require Import Reals Lra.
From Coquelicot Require Import Coquelicot.
From Verif Require Import Base Num Expr Node Stat Machine Wf Session Tape LFind InPlace LInPlace XR Spec Grad LReal.
Local Open Scope R_scope.
Set Bullet Behavior "Strict Subproofs".

Lemma disc_noself {T A} (e : expr T A) : disc e = true -> noself e = true.
Proof.
  induction e using expr_ind'; cbn [disc noself]; auto; rewrite ?andb_true_iff; try tauto.
  - intros [[[D _] _] _]. revert D. induction H; cbn; auto. rewrite !andb_true_iff. tauto.
  - intros [D _]. revert D. induction H; cbn; auto. rewrite !andb_true_iff. tauto.
Qed.

Section Real.
Context (la : linalg xr).
Notation N := (XR la).
Notation X := (expr xr unit).
Notation D0 := (fun _ : nat => 0).
Lemma w63 (rho : nat -> R) (w := rho 0%nat) (x := rho 1%nat) (m := mem8 N (fun i => Fin (rho i))) :
  (wfs (u63s N) = true /\ dom D0 true false (u63s N : X) rho /\ val D0 (u63s N : X) rho = [w + x] /\
   exists e m1, bind_eval_ip N (u63s N) m = Ok (e, m1, [Fin x])) /\
  (wfs (u63p N) = true /\ dom D0 true false (u63p N : X) rho /\ val D0 (u63p N : X) rho = [w * x] /\
   exists e m1, bind_eval_ip N (u63p N) m = Ok (e, m1, [Fin x])) /\
  wfs (u63t N) = true /\ bind_eval_ip N (u63t N) m = Err UBshape.
Proof.
  destruct (run63 N (fun i => Fin (rho i))) as [(e1 & m1 & A1) [(e2 & m2 & A2) A3]].
  split; [|split; [|split; [reflexivity|exact A3]]].
  - split; [reflexivity|]. split; [cbn; tauto|]. split; [unfold val; cbn; f_equal; unfold el; cbn; subst x w; ring|].
    exists e1, m1. unfold m. rewrite A1. cbn. do 4 f_equal. subst x. ring.
  - split; [reflexivity|]. split; [cbn; tauto|]. split; [unfold val; cbn; f_equal; unfold el; cbn; subst x w; ring|].
    exists e2, m2. unfold m. rewrite A2. cbn. do 4 f_equal. subst x. ring.
Qed.
End Real.
