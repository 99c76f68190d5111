(** Repeated autodiff calls without resetting adjoints. *)
From Coq Require Import Reals Lra FunctionalExtensionality.
From Coquelicot Require Import Coquelicot.
From Verif Require Import Base Num Expr Node Stat Machine Wf LKind Session Tape XR Spec Nudge RSess Grad Again LReal LVal LIndep LKM LGrd LNGrad.
Local Open Scope R_scope.
Set Bullet Behavior "Strict Subproofs".

Section Again.
Variable la : linalg xr.
Hypothesis LA : la_ok la.
Notation N := (XR la).
Notation E := (expr N (ann N)).
Notation U := (expr N unit).

Lemma again_thm bv ba (u : U) D (e1 : E) m1 rho al b seeds M :
  okexpr la u -> session la bv ba u D e1 m1 -> mreal la u m1 D rho al -> dom D true b u rho ->
  opw u = [] -> (forall o, In o (refs u) -> fin_env D u rho o = rho o) ->
  (forall s, In s seeds -> length s = size (shape_of u) /\ (b = true -> forall j, (j < length s)%nat -> el s j = 1)) ->
  (forall o, In o (refs u) -> (o < M)%nat) ->
  exists e2 m2, @adiffs N (map (map Fin) seeds) e1 m1 = Ok (e2, m2, repeat (map Fin (val D u rho)) (length seeds)) /\
    forall o, In o (refs u) -> m2 0%nat o = Some (Fin (rho o)) /\
      m2 1%nat o = Some (Fin (adj_after M (dvalue D u rho) (dfinal D u rho) seeds al o)).
Proof.
  intros HK HS HM HD HO HX HSD HB. revert e1 m1 al HS HM.
  induction seeds as [|s l IH]; intros e1 m1 al HS HM.
  - exists e1, m1. split; [reflexivity|]. intros o Ho. destruct HM as [HM _]. exact (HM o Ho).
  - destruct (HSD s (or_introl eq_refl)) as [HL HU].
    destruct (ngrad_full la LA bv ba u D e1 m1 rho al b s HK HS HM HD HL HU) as [e2 [m2 [al' [Q1 [Q2 [Q3 [Q4 [Q5 [Q6 Q7]]]]]]]]].
    set (al2 := fun o => dotp s (dvalue D u rho o) + sumn M (fun i => al i * dfinal D u rho o i)).
    assert (AE : forall o, In o (refs u) -> al' o = al2 o).
    { intros o Ho. destruct (Q7 o) as [g [h [A1 [A2 [A3 A4]]]]]. rewrite (A4 M HB (HB o Ho)).
      assert (EG : g = dvalue D u rho o) by (apply functional_extensionality; intros k; symmetry; apply is_derive_unique, A1).
      assert (EH : h = dfinal D u rho o) by (apply functional_extensionality; intros k; symmetry; apply is_derive_unique, A2).
      now rewrite EG, EH. }
    assert (HM2 : mreal la u m2 D rho al2).
    { split; [|exact Q6]. intros o Ho. split; [rewrite (Q5 HO o Ho), HX by exact Ho; reflexivity|now rewrite (Q3 o Ho), AE]. }
    destruct (IH (fun s' X => HSD s' (or_intror X)) e2 m2 al2 Q2 HM2) as [e3 [m3 [R1 R2]]].
    exists e3, m3. split; [|exact R2]. cbn [map adiffs]. rewrite Q1. cbn [bindR]. rewrite R1. reflexivity.
Qed.

(** Environments may change along the calls as long as value and derivatives do not. *)
Lemma again_gen bv ba (u : U) D (Cl : (nat -> R) -> Prop) V G H (e1 : E) m1 rho al b seeds M :
  okexpr la u -> session la bv ba u D e1 m1 -> mreal la u m1 D rho al -> opw u = [] -> Cl rho ->
  (forall r, Cl r -> Cl (fin_env D u r) /\ dom D true b u r /\ val D u r = V /\
     forall o, In o (refs u) -> (forall k, dvalue D u r o k = G o k) /\ forall i, dfinal D u r o i = H o i) ->
  (forall s, In s seeds -> length s = size (shape_of u) /\ (b = true -> forall j, (j < length s)%nat -> el s j = 1)) ->
  (forall o, In o (refs u) -> (o < M)%nat) ->
  exists e2 m2, @adiffs N (map (map Fin) seeds) e1 m1 = Ok (e2, m2, repeat (map Fin V) (length seeds)) /\
    forall o, In o (refs u) -> m2 1%nat o = Some (Fin (adj_after M G H seeds al o)).
Proof.
  intros HK HS HM HO HC HX HSD HB. revert e1 m1 rho al HC HS HM.
  induction seeds as [|s l IH]; intros e1 m1 rho al HC HS HM.
  - exists e1, m1. split; [reflexivity|]. intros o Ho. destruct HM as [HM _]. exact (proj2 (HM o Ho)).
  - destruct (HSD s (or_introl eq_refl)) as [HL HU]. destruct (HX rho HC) as [C1 [C2 [C3 C4]]].
    destruct (ngrad_full la LA bv ba u D e1 m1 rho al b s HK HS HM C2 HL HU) as [e2 [m2 [al' [Q1 [Q2 [Q3 [Q4 [Q5 [Q6 Q7]]]]]]]]].
    set (al2 := fun o => dotp s (G o) + sumn M (fun i => al i * H o i)).
    assert (AE : forall o, In o (refs u) -> al' o = al2 o).
    { intros o Ho. destruct (Q7 o) as [g [h [A1 [A2 [A3 A4]]]]]. rewrite (A4 M HB (HB o Ho)). destruct (C4 o Ho) as [D1 D2].
      assert (EG : g = G o) by (apply functional_extensionality; intros k; rewrite <- D1; symmetry; apply is_derive_unique, A1).
      assert (EH : h = H o) by (apply functional_extensionality; intros k; rewrite <- D2; symmetry; apply is_derive_unique, A2).
      now rewrite EG, EH. }
    assert (HM2 : mreal la u m2 D (fin_env D u rho) al2).
    { split; [|exact Q6]. intros o Ho. split; [exact (Q5 HO o Ho)|now rewrite (Q3 o Ho), AE]. }
    destruct (IH (fun s' X => HSD s' (or_intror X)) e2 m2 _ al2 C1 Q2 HM2) as [e3 [m3 [R1 R2]]].
    exists e3, m3. split; [|exact R2]. cbn [map adiffs]. rewrite Q1, C3. cbn [bindR]. rewrite R1. reflexivity.
Qed.
(** After one evaluation the placeholders no longer change. *)
Lemma settled_thm (u : U) D rho : wfs u = true -> opw u = [] -> (forall o, In o (eqw u) -> In o (da u)) ->
  (forall o, In o (inputs u) -> ~ In o (eqw u)) ->
  val D u (fin_env D u rho) = val D u rho /\ (forall o, fin_env D u (fin_env D u rho) o = fin_env D u rho o) /\
  forall d b, dom D d b u rho <-> dom D d b u (fin_env D u rho).
Proof.
  intros HW HO HA HI.
  assert (K : forall o, ~ In o (eqw u) -> fin_env D u rho o = rho o).
  { intros o Ho. apply (env_keep' la u D rho o HW). intros X. apply writes_or in X. rewrite HO in X. destruct X as [X|[]]. auto. }
  destruct (indep D u rho (fin_env D u rho) HW) as [I1 [I2 I3]].
  - intros o Ho. symmetry. apply K. auto.
  - split; [now symmetry|]. split; [|exact I3]. intros o. symmetry. apply I2.
    destruct (in_dec Nat.eq_dec o (eqw u)) as [X|X]; [right; auto|left; symmetry; auto].
Qed.
End Again.
