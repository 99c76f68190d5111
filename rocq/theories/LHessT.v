(** Hessians of the functions of HessT.v in closed form. *)
From Coq Require Import ZArith Reals Lra List Lia.
From Coquelicot Require Import Coquelicot.
From Verif Require Import Base Num Expr Node Stat Machine Wf Session Tape XR Spec RSess Grad LReal LDiff LKM Forward Ieee Hess HessSpec LHess HessT.
Import ListNotations.
Set Bullet Behavior "Strict Subproofs".
Local Open Scope R_scope.

Section H.
Variable la : linalg xr.
Hypothesis LA : la_ok la.
Notation N := (XR la).
Lemma hess_closed (u : expr R unit) bv ba e m D rho al be vars os (f : (nat -> R) -> R) (gf : nat -> (nat -> R) -> R) (hf : nat -> nat -> R) :
  secx u = true -> wfs u = true -> disc u = true -> size (shape_of u) = 1%nat -> eqw u = [] ->
  (forall o, In o (refs u) -> In o vars) -> (forall o, In o os -> In o (refs u)) ->
  (forall r, val D (uR u) r = [f r]) ->
  (forall i, In i os -> locally (rho i) (fun x => dom D true false (uR u) (set1 rho i x))) ->
  (forall r o, In o os -> dom D true false (uR u) r -> is_derive (fun x => f (set1 r o x)) (r o) (gf o r)) ->
  (forall i o, In i os -> In o os -> is_derive (fun x => gf o (set1 rho i x)) (rho i) (hf i o)) ->
  @used (Duo N) bv ba (uD u) e m -> dreal u m D rho (fun _ => 0) al be ->
  exists e2 m2, hess N vars os None os e m = Ok (e2, m2, map (fun i => Fin (gf i rho)) os, map (fun i => map (fun o => Fin (hf i o)) os) os).
Proof.
  intros H1 H2 H3 H4 H5 HV HO HF HL HG HH HU HD.
  assert (NE : forall o, ~ In o (eqw u)) by (intros o; rewrite H5; intros []).
  destruct (hess_thm la LA u H1 H2 H3 H4) with (D := D) (rho := rho) (bv := bv) (ba := ba) (vars := vars) (os := os) (is := os) (e := e) (m := m) (al := al) (be := be)
    as [e2 [m2 [g [cols [Q1 [Q2 [Q3 _]]]]]]]; auto.
  { intros o Ho. destruct (NE o Ho). }
  exists e2, m2. rewrite Q1. f_equal. f_equal; [f_equal|].
  - assert (X : forall l g, (forall i, In i l -> In i os) -> Forall2 (partial1 D u rho) l g -> map Fin g = map (fun i => Fin (gf i rho)) l).
    { clear - HF HG HL. intros l g Hl F. induction F as [|i x l g P F IH]; [reflexivity|]. cbn [map]. f_equal; [|apply IH; intros; apply Hl; now right].
      f_equal. unfold partial1 in P. assert (Hi : In i os) by (apply Hl; now left).
      eapply der_unique; [exact P|]. eapply der_ext; [|apply (HG rho i Hi)].
      - intros t. cbn beta. now rewrite HF.
      - pose proof (locally_singleton _ _ (HL i Hi)) as S. cbn beta in S. rewrite set1_same in S. exact S. }
    apply X; auto.
  - assert (X2 : forall i, In i os -> forall l c, (forall o, In o l -> In o os) -> Forall2 (partial2 D u rho i) l c -> map Fin c = map (fun o => Fin (hf i o)) l).
    { clear - HF HG HL HH. intros i Hi l c Hl F. induction F as [|o x l c P F IH]; [reflexivity|]. cbn [map]. f_equal; [|apply IH; intros; apply Hl; now right].
      f_equal. assert (Ho : In o os) by (apply Hl; now left). destruct P as [G [P1 P2]].
      eapply der_unique; [exact P2|]. eapply is_derive_ext_loc; [|apply (HH i o Hi Ho)].
      generalize (filter_and _ _ P1 (HL i Hi)). apply filter_imp. intros y [A B]. unfold partial1 in A.
      eapply der_unique; [|exact A]. eapply der_ext; [|apply (HG _ o Ho B)]. intros t. cbn beta. now rewrite HF. }
    assert (X : forall l cs, (forall i, In i l -> In i os) -> Forall2 (fun i => Forall2 (partial2 D u rho i) os) l cs ->
      map (map Fin) cs = map (fun i => map (fun o => Fin (hf i o)) os) l).
    { clear - X2. intros l cs Hl F. induction F as [|i x l cs P F IH]; [reflexivity|]. cbn [map]. f_equal; [|apply IH; intros; apply Hl; now right].
      apply X2; auto. apply Hl. now left. }
    apply X; auto.
Qed.
Lemma all0 (P : R -> Prop) x : (forall y, P y) -> locally x P.
Proof. intros H. apply filter_forall. exact H. Qed.
Ltac dr := unfold set1; cbn; auto_derive; auto.
Lemma hf_thm bv ba e m D rho al be (x := rho 0%nat) : cos x <> 0 ->
  @used (Duo N) bv ba (uD hess_f) e m -> dreal hess_f m D rho (fun _ => 0) al be ->
  exists e2 m2, hess N [0%nat] [0%nat] None [0%nat] e m = Ok (e2, m2,
    [Fin ((cos x + sin x) * exp x - 1 + 1 / (cos x * cos x))], [[Fin (2 * (cos x * exp x + sin x / (cos x * cos x * cos x)))]]).
Proof.
  intros HC HU HD.
  destruct (hess_closed hess_f bv ba e m D rho al be [0%nat] [0%nat] (fun r => sin (r 0%nat) * exp (r 0%nat) - r 0%nat + tan (r 0%nat))
    (fun _ r => (cos (r 0%nat) + sin (r 0%nat)) * exp (r 0%nat) - 1 + 1 / (cos (r 0%nat) * cos (r 0%nat)))
    (fun _ _ => 2 * (cos x * exp x + sin x / (cos x * cos x * cos x)))) as [e2 [m2 Q]]; auto.
  - intros o Ho. cbn in Ho. cbn. tauto.
  - intros o Ho. cbn in Ho. cbn. tauto.
  - intros i [<-|[]]. assert (L : locally x (fun y => cos y <> 0)).
    { apply (continuous_cos x (fun c => c <> 0)). apply open_neq. exact HC. }
    revert L. apply filter_imp. intros y Hy. cbn. unfold set1. cbn. repeat split; auto. intros i Hi. replace i with 0%nat by lia. exact Hy.
  - intros r o [<-|[]] Dm. assert (C : cos (r 0%nat) <> 0).
    { cbn in Dm. apply (proj2 (proj1 (proj2 (proj1 Dm))) 0%nat). lia. }
    unfold set1. cbn. unfold tan. auto_derive; auto. pose proof (sin2_cos2 (r 0%nat)) as T. unfold Rsqr in T. field_simplify; auto. f_equal. nra.
  - intros i o [<-|[]] [<-|[]]. unfold set1. cbn. fold x. auto_derive; [|fold x; field; exact HC]. fold x. repeat split; auto; try (intros Z; apply Rmult_integral in Z; tauto).
  - exists e2, m2. exact Q.
Qed.
Lemma hg_thm bv ba e m D rho al be (x := rho 0%nat) (y := rho 1%nat) :
  @used (Duo N) bv ba (uD hess_g) e m -> dreal hess_g m D rho (fun _ => 0) al be ->
  exists e2 m2, hess N [0; 1]%nat [0; 1]%nat None [0; 1]%nat e m = Ok (e2, m2, [Fin (cos x * cos y); Fin (- (sin x * sin y))],
    [[Fin (- (sin x * cos y)); Fin (- (cos x * sin y))]; [Fin (- (cos x * sin y)); Fin (- (sin x * cos y))]]).
Proof.
  intros HU HD.
  destruct (hess_closed hess_g bv ba e m D rho al be [0; 1]%nat [0; 1]%nat (fun r => sin (r 0%nat) * cos (r 1%nat))
    (fun o r => match o with 0%nat => cos (r 0%nat) * cos (r 1%nat) | _ => - (sin (r 0%nat) * sin (r 1%nat)) end)
    (fun i o => if (i =? o)%nat then - (sin x * cos y) else - (cos x * sin y))) as [e2 [m2 Q]]; auto.
  - intros i Hi. apply all0. intros t. cbn. repeat split; auto.
  - intros r o [<-|[<-|[]]] _; unfold set1; cbn; auto_derive; auto; ring.
  - intros i o [<-|[<-|[]]] [<-|[<-|[]]]; unfold set1; cbn; fold x; fold y; auto_derive; auto; fold x; fold y; ring.
  - exists e2, m2. exact Q.
Qed.
Lemma hh_thm bv ba e m D rho al be (x := rho 0%nat) (y := rho 1%nat) (z := rho 2%nat) (w := rho 3%nat) (s := sin (z * w)) (c := cos (z * w)) :
  @used (Duo N) bv ba (uD hess_h) e m -> dreal hess_h m D rho (fun _ => 0) al be ->
  exists e2 m2, hess N [0; 1; 2; 3]%nat [0; 1; 2; 3]%nat None [0; 1; 2; 3]%nat e m = Ok (e2, m2,
    [Fin (cos x + 2 * x); Fin (2 * y); Fin (- (s * w)); Fin (- (s * z))],
    [[Fin (2 - sin x); Fin 0; Fin 0; Fin 0]; [Fin 0; Fin 2; Fin 0; Fin 0];
     [Fin 0; Fin 0; Fin (- (c * w ^ 2)); Fin (- (s + c * (z * w)))]; [Fin 0; Fin 0; Fin (- (s + c * (z * w))); Fin (- (c * z ^ 2))]]).
Proof.
  intros HU HD.
  destruct (hess_closed hess_h bv ba e m D rho al be [0; 1; 2; 3]%nat [0; 1; 2; 3]%nat (fun r => sin (r 0%nat) + r 0%nat * r 0%nat + r 1%nat * r 1%nat + cos (r 2%nat * r 3%nat))
    (fun o r => match o with 0%nat => cos (r 0%nat) + 2 * r 0%nat | 1%nat => 2 * r 1%nat | 2%nat => - (sin (r 2%nat * r 3%nat) * r 3%nat) | _ => - (sin (r 2%nat * r 3%nat) * r 2%nat) end)
    (fun i o => match i, o with 0%nat, 0%nat => 2 - sin x | 1%nat, 1%nat => 2 | 2%nat, 2%nat => - (c * w ^ 2) | 3%nat, 3%nat => - (c * z ^ 2)
      | 2%nat, 3%nat | 3%nat, 2%nat => - (s + c * (z * w)) | _, _ => 0 end)) as [e2 [m2 Q]]; auto.
  - intros o Ho. cbn in Ho. cbn. tauto.
  - intros o Ho. cbn in Ho. cbn. tauto.
  - intros i Hi. apply all0. intros t. cbn. repeat split; auto.
  - intros r o [<-|[<-|[<-|[<-|[]]]]] _; unfold set1; cbn; auto_derive; auto; ring.
  - intros i o [<-|[<-|[<-|[<-|[]]]]] [<-|[<-|[<-|[<-|[]]]]]; unfold set1; cbn; unfold s, c; fold x; fold y; fold z; fold w; auto_derive; auto; fold x; fold y; fold z; fold w; ring.
  - exists e2, m2. exact Q.
Qed.
Lemma hf1_thm bv ba e m D rho (x := rho 0%nat) : cos x <> 0 ->
  @used (Duo N) bv ba (uD hess_f) e m -> dreal hess_f m D rho (fun _ => 1) (fun _ => 0) (fun _ => 0) ->
  exists e2 m2, @autodiff (Duo N) e [du 1 0] m = Ok (e2, m2, [du (sin x * exp x - x + tan x) ((cos x + sin x) * exp x - 1 + 1 / (cos x * cos x))]) /\
    m2 1%nat 0%nat = Some (du ((cos x + sin x) * exp x - 1 + 1 / (cos x * cos x)) (2 * (cos x * exp x + sin x / (cos x * cos x * cos x)))).
Proof.
  intros HC HU HD.
  set (F1 := fun y => (cos y + sin y) * exp y - 1 + 1 / (cos y * cos y)).
  assert (V : forall r, val D (uR hess_f) r = [sin (r 0%nat) * exp (r 0%nat) - r 0%nat + tan (r 0%nat)]) by reflexivity.
  assert (D1 : forall y, cos y <> 0 -> is_derive (fun z => sin z * exp z - z + tan z) y (F1 y)).
  { intros y C. unfold tan, F1. auto_derive; auto. pose proof (sin2_cos2 y) as T. unfold Rsqr in T. field_simplify; auto. f_equal. nra. }
  assert (D2 : is_derive F1 x (2 * (cos x * exp x + sin x / (cos x * cos x * cos x)))).
  { unfold F1. auto_derive; [|field; exact HC]. repeat split; auto; try (intros Z; apply Rmult_integral in Z; tauto). }
  assert (LN : is_derive (fun t => x + t * 1) 0 1) by (auto_derive; auto; ring).
  assert (E0 : x + 0 * 1 = x) by ring.
  assert (L : locally 0 (fun t => cos (x + t * 1) <> 0)).
  { assert (CT : continuous (fun t => cos (x + t * 1)) 0) by (apply (ex_derive_continuous (fun t => cos (x + t * 1))); auto_derive; auto).
    apply (CT (fun c => c <> 0)). apply open_neq. now rewrite E0. }
  destruct (second_deriv la LA hess_f bv ba e m D rho (fun _ => 1) (fun _ => 0) (fun _ => 0) (fun _ => 1) (fun _ => 0)) as [e2 [m2 [v [Q1 [[Q2 Q3] Q4]]]]]; auto.
  { revert L. apply filter_imp. intros t Ht. cbn. repeat split; auto. intros i Hi. replace i with 0%nat by lia. exact Ht. }
  change (map (fun _ : nat => du 1 0) (seq 0 (size (shape_of hess_f)))) with [@du la 1 0] in Q1.
  change (size (shape_of hess_f)) with 1%nat in *.
  exists e2, m2. rewrite Q1. split.
  - destruct (Q3 0%nat) as [dv [P1 P2]]; [lia|]. destruct v as [|v0 [|]]; try discriminate. cbn in P2. injection P2 as ->.
    do 3 f_equal. unfold line. fold x. rewrite E0. f_equal.
    eapply der_unique; [exact P1|]. eapply der_ext with (f := fun t => (fun z => sin z * exp z - z + tan z) (x + t * 1)); [intros t; reflexivity|].
    eapply der_eq; [apply (der_comp (fun z => sin z * exp z - z + tan z) (fun t => x + t * 1) 0 (F1 x) 1); [rewrite E0; now apply D1|exact LN]|]. unfold F1. ring.
  - destruct (Q4 0%nat) as [G [h [P1 [P2 P3]]]]; [cbn; auto|cbn; auto|]. rewrite P3.
    assert (A : locally 0 (fun t => G t 0%nat = F1 (x + t * 1))).
    { generalize (filter_and _ _ P1 L). apply filter_imp. intros t [A B]. specialize (A 0%nat).
      eapply der_unique; [exact A|]. eapply der_ext with (f := fun z => sin z * exp z - z + tan z); [|apply (D1 (x + t * 1) B)]. intros z. reflexivity. }
    do 2 f_equal.
    + cbn. rewrite (locally_singleton _ _ A), E0. unfold F1. ring.
    + cbn. replace h with (2 * (cos x * exp x + sin x / (cos x * cos x * cos x))); [ring|].
      eapply der_unique; [|exact P2]. eapply is_derive_ext_loc with (f := fun t => F1 (x + t * 1)).
      * revert A. apply filter_imp. intros t A. cbn. rewrite A. ring.
      * eapply der_eq; [apply (der_comp F1 (fun t => x + t * 1) 0 (2 * (cos x * exp x + sin x / (cos x * cos x * cos x))) 1); [rewrite E0; exact D2|exact LN]|]. ring.
Qed.
Lemma hg_point bv ba e m D rho al be : rho 0%nat = PI / 3 -> rho 1%nat = PI / 6 ->
  @used (Duo N) bv ba (uD hess_g) e m -> dreal hess_g m D rho (fun _ => 0) al be ->
  exists e2 m2 g, hess N [0; 1]%nat [0; 1]%nat None [0; 1]%nat e m = Ok (e2, m2, g, [[Fin (-0.75); Fin (-0.25)]; [Fin (-0.25); Fin (-0.75)]]).
Proof.
  intros X Y HU HD. destruct (hg_thm bv ba e m D rho al be HU HD) as [e2 [m2 Q]]. exists e2, m2. eexists. rewrite Q.
  rewrite X, Y, sin_PI3, cos_PI3, sin_PI6, cos_PI6. pose proof (sqrt_sqrt 3 ltac:(lra)) as T.
  replace (- (sqrt 3 / 2 * (sqrt 3 / 2))) with (-0.75) by lra. replace (- (1 / 2 * (1 / 2))) with (-0.25) by lra. reflexivity.
Qed.
End H.
