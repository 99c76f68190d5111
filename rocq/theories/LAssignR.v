(** `w = x` for variables, over the reals. *)
From Coq Require Import Reals Lra.
From Coquelicot Require Import Coquelicot.
From Verif Require Import Base Num Expr Node Stat Machine Wf Session LFind LDisc Assign LAssign XR Spec Grad LReal LDiscR.
Local Open Scope R_scope.
Set Bullet Behavior "Strict Subproofs".
Section Real.
Variable la : linalg xr.
Notation N := (XR la).
Notation X := (expr xr unit).
Notation D0 := (fun _ : nat => 0).
(** The expressions meant: w = x at every evaluation, then w * w or w += y. *)
Definition node (f : nat -> X) : X := EGlue tt (EEq tt scl 1 (EVar scl 0)) (f 1%nat).
Lemma w64c (rho : nat -> R) (b s : R) (a := rho 0%nat) (rho' := fun o => if (o =? 0)%nat then b else rho o) :
  val D0 (node (sq N)) rho' = [b * b] /\ partials D0 (node (sq N)) rho' 0 (at0 (2 * b)) /\
  exists e m, prog_copy N (fins la rho) (Fin b) (Fin s) = Ok (e, m, [Fin (a * a)]) /\
    m 1%nat 0%nat = Some (Fin 0) /\ m 1%nat 1%nat = Some (Fin (s * (2 * a))).
Proof.
  split; [reflexivity|]. split.
  - apply (partials0 la) with (h := fun t => t * t); [reflexivity|]. auto_derive; [exact I|unfold rho'; cbn; ring].
  - destruct (run_copy N (fins la rho) (Fin b) (Fin s)) as [e [m [A1 [A2 A3]]]].
    exists e, m. split; [exact A1|]. split; [exact A2|]. rewrite A3. cbn. do 2 f_equal. subst a. ring.
Qed.
Lemma w64a (rho : nat -> R) (x := rho 0%nat) (y := rho 2%nat) :
  val D0 (node (inc N)) rho = [x + y] /\
  exists e m, prog_alias N (fins la rho) = Ok (e, m, ([Fin (x + y)], [Fin (x + y + y)])) /\
    m 0%nat 0%nat = Some (Fin (x + y + y)) /\ m 0%nat 1%nat = Some (Fin (rho 1%nat)).
Proof. split; [reflexivity|]. exact (run_alias N (fins la rho)). Qed.
End Real.
