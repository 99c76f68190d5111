(** Assignments that the backward pass loses: what the gradient should be. *)
From Coq Require Import Reals Lra Lia.
From Coquelicot Require Import Coquelicot.
From Verif Require Import Base Num Expr Node Stat Machine Wf Session LFind LDisc XR Spec Grad LReal.
Open Scope R_scope.
Set Bullet Behavior "Strict Subproofs".

Section Real.
Variable la : linalg xr.
Notation N := (XR la).
Notation X := (expr xr unit).
Notation D0 := (fun _ : nat => 0).
Definition at0 (g : R) : nat -> R := fun k => if (k =? 0)%nat then g else 0.
Definition fins (rho : nat -> R) : nat -> N := fun o => Fin (rho o).

Lemma partials0 (u : expr N unit) rho o h g :
  (forall t, val D0 (u : X) (set1 rho o t) = [h t]) -> is_derive h (rho o) g ->
  partials D0 (u : X) rho o (at0 g).
Proof.
  intros H1 H2 [|k].
  - apply (is_derive_ext h); [|exact H2]. intros t. now rewrite H1.
  - apply (is_derive_ext (fun _ => 0)); [|apply @is_derive_const]. intros t. rewrite H1. cbn. now destruct k.
Qed.

Lemma w41 (rho : nat -> R) s : rho 0%nat ^ 2 < rho 1%nat ->
  wfs (u41 N) = true /\ dom D0 true false (u41 N : X) rho /\
  partials D0 (u41 N : X) rho 0 (at0 (2 * rho 0%nat)) /\
  exists e m, bind_diff N (u41 N) (mem8 N (fins rho)) [Fin s] = Ok (e, m, map Fin (val D0 (u41 N : X) rho)) /\
    m 1%nat 0%nat = Some (Fin 0).
Proof.
  intros H. assert (HL : rltb (rho 0%nat * rho 0%nat) (rho 1%nat) = true) by (apply rltb_t; lra).
  assert (H1 : reqb 1 0 = false) by (apply reqb_f; lra).
  split; [reflexivity|]. split; [|split].
  - cbn. unfold ent, el, put. cbn. rewrite HL. cbn. rewrite H1. repeat split; auto. intros i Hi _. right.
    destruct i; [|lia]. cbn. lra.
  - apply partials0 with (h := fun t => if rltb (t * t) (rho 1%nat) then t * t else rho 1%nat).
    + intros t. unfold val. cbn. unfold ent, el, put. cbn. destruct (rltb (t * t) (rho 1%nat)); cbn; [rewrite H1|rewrite reqb_t by lra]; reflexivity.
    + apply (is_derive_ext_loc (fun t => t * t)).
      * assert (C : continuous (fun t => t * t) (rho 0%nat)) by (apply (ex_derive_continuous (fun t => t * t)); auto_derive; auto).
        assert (L : locally (rho 0%nat * rho 0%nat) (fun y => y < rho 1%nat)) by (apply open_lt; lra).
        pose proof (C _ L) as CL. unfold filtermap in CL. revert CL. apply filter_imp. intros t Ht. now rewrite rltb_t.
      * auto_derive; [exact I|ring].
  - destruct (run41 N (fins rho) (Fin s)) as [e [m [A1 [A2 _]]]]; [exact HL|exact H1|].
    assert (V : map Fin (val D0 (u41 N : X) rho) = [Fin (rho 0%nat * rho 0%nat)]).
    { unfold val. cbn. unfold ent, el, put. cbn. rewrite HL. cbn. rewrite H1. reflexivity. }
    exists e, m. split; [|exact A2]. rewrite V. exact A1.
Qed.

Lemma w41s (rho : nat -> R) s : 0 < rho 2%nat ->
  wfs (u41s N) = true /\ dom D0 true false (u41s N : X) rho /\
  partials D0 (u41s N : X) rho 0 (at0 (2 * rho 0%nat)) /\
  exists e m, bind_diff N (u41s N) (mem8 N (fins rho)) [Fin s] = Ok (e, m, map Fin (val D0 (u41s N : X) rho)) /\
    m 1%nat 0%nat = Some (Fin 0).
Proof.
  intros H. split; [reflexivity|]. split; [|split].
  - cbn. repeat split; auto. intros j Hj. destruct j; [|lia]. cbn. auto.
  - apply partials0 with (h := fun t => t * t); [reflexivity|]. auto_derive; [exact I|ring].
  - destruct (run41s N (fins rho) (Fin s)) as [e [m [A1 [A2 _]]]].
    + cbn. apply reqb_t. reflexivity.
    + cbn. unfold xleb. cbn. rewrite rltb_f, reqb_f by (cbn; lra). reflexivity.
    + exists e, m. split; [exact A1|exact A2].
Qed.

Lemma w42 (rho : nat -> R) s (x := rho 0%nat) :
  wfs (u42 N) = true /\ dom D0 true false (u42 N : X) rho /\
  partials D0 (u42 N : X) rho 0 (at0 (4 * x ^ 3 + 2)) /\
  exists e m, bind_diff N (u42 N) (mem8 N (fins rho)) [Fin s] = Ok (e, m, map Fin (val D0 (u42 N : X) rho)) /\
    m 1%nat 0%nat = Some (Fin (s * (8 * x ^ 2 + 2 * x + 2))).
Proof.
  split; [reflexivity|]. split; [|split].
  - cbn. tauto.
  - apply partials0 with (h := fun t => t * t * (t * t) + (t + t)); [reflexivity|]. subst x. auto_derive; [exact I|ring].
  - destruct (run42 N (fins rho) (Fin s)) as [e [m [A1 A2]]].
    exists e, m. split; [exact A1|]. rewrite A2. cbn. do 2 f_equal. subst x. ring.
Qed.

Lemma w43 (rho : nat -> R) s1 s2 :
  wfs (u43 N) = true /\ dom D0 true false (u43 N : X) rho /\
  partials D0 (u43 N : X) rho 0 (at0 (rho 2%nat + rho 4%nat)) /\
  exists e m, bind_diff N (u43 N) (mem8 N (fins rho)) [Fin s1; Fin s2] = Ok (e, m, map Fin (val D0 (u43 N : X) rho)) /\
    m 1%nat 0%nat = Some (Fin (s1 * rho 2%nat)).
Proof.
  split; [reflexivity|]. split; [|split].
  - cbn. tauto.
  - intros [|[|k]].
    + apply (is_derive_ext (fun t => t * (rho 2%nat + rho 4%nat))); [reflexivity|]. cbn. auto_derive; [exact I|ring].
    + apply (is_derive_ext (fun t => rho 1%nat * (rho 3%nat + rho 5%nat))); [reflexivity|]. apply @is_derive_const.
    + apply (is_derive_ext (fun t => 0)); [|apply @is_derive_const]. intros t. unfold val. cbn. now destruct k.
  - destruct (run43 N (fins rho) (Fin s1) (Fin s2)) as [e [m [A1 A2]]].
    exists e, m. split; [exact A1|]. rewrite A2. cbn. do 2 f_equal. ring.
Qed.

Lemma w10 p (rho : nat -> R) s : rho 0%nat = 0 ->
  wfs (u10 N (Zneg p)) = true /\
  exists e m, bind_diff N (u10 N (Zneg p)) (mem8 N (fins rho)) [Fin s] = Ok (e, m, [PInf]) /\ m 1%nat 0%nat = Some NInf.
Proof.
  intros H. split; [reflexivity|]. destruct (run10 N p (fins rho) (Fin s)) as [e [m [A1 A2]]].
  - cbn. apply reqb_t. exact H.
  - exists e, m. split; [exact A1|]. rewrite A2. reflexivity.
Qed.

Lemma w62 (rho : nat -> R) (x := rho 0%nat) (y := rho 1%nat) (w := rho 2%nat) (m := mem8 N (fins rho)) :
  (wfs (u62b N) = true /\ dom D0 true false (u62b N : X) rho /\ val D0 (u62b N : X) rho = [- x - y] /\
   exists e m1, bind_eval N (u62b N) m = Ok (e, m1, [Fin (- y - y)])) /\
  (wfs (u62w N) = true /\ dom D0 true false (u62w N : X) rho /\ val D0 (u62w N : X) rho = [w - x] /\
   exists e m1, bind_eval N (u62w N) m = Ok (e, m1, [Fin (- x - x)])) /\
  (val D0 (u62s N : X) rho = [- x - y] /\ exists e m1, bind_eval N (u62s N) m = Ok (e, m1, [Fin (- x - y)])) /\
  (val D0 (u62o N : X) rho = [- x - x] /\ exists e m1, bind_eval N (u62o N) m = Ok (e, m1, [Fin (- x - x)])).
Proof.
  destruct (run62 N (fins rho)) as [(e1 & m1 & A1) [(e2 & m2 & A2) [(e3 & m3 & A3) (e4 & m4 & A4)]]].
  split; [|split; [|split]].
  - split; [reflexivity|]. split; [cbn; tauto|]. split; [unfold val; cbn; f_equal; ring|].
    exists e1, m1. unfold m. rewrite A1. reflexivity.
  - split; [reflexivity|]. split; [cbn; tauto|]. split; [unfold val; cbn; f_equal; ring|].
    exists e3, m3. unfold m. rewrite A3. reflexivity.
  - split; [unfold val; cbn; f_equal; unfold el; cbn; subst x y; ring|]. exists e2, m2. unfold m. rewrite A2. cbn. do 4 f_equal. subst x y. ring.
  - split; [unfold val; cbn; f_equal; unfold put, ent, el; cbn; subst x; ring|]. exists e4, m4. unfold m. rewrite A4. reflexivity.
Qed.
End Real.
