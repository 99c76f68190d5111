(** Jacobians by unit seeds. *)
From Coq Require Import Reals Lra.
From Coquelicot Require Import Coquelicot.
From Verif Require Import Base Num Expr Node Stat Machine Wf Session Tape XR Spec RSess Train Grad LReal LIndep LGrd LDiff LVal LBS Jac.
Open Scope R_scope.
Set Bullet Behavior "Strict Subproofs".

Lemma unit_len n k : length (unit_seed n k) = n.
Proof. unfold unit_seed. now rewrite map_length, seq_length. Qed.
Lemma unit_el n k j : (j < n)%nat -> el (unit_seed n k) j = ind k j.
Proof.
  intros H. unfold unit_seed, el, ind. rewrite (nth_indep _ 0 (if (0 =? k)%nat then 1 else 0)) by (now rewrite map_length, seq_length).
  rewrite (map_nth (fun i => if (i =? k)%nat then 1 else 0)), seq_nth by exact H. cbn [Nat.add]. rewrite Nat.eqb_sym. reflexivity.
Qed.
Lemma unit_dotp n k g : (k < n)%nat -> dotp (unit_seed n k) g = g k.
Proof.
  intros H. unfold dotp. rewrite unit_len. rewrite (sumn_ext _ _ (fun i => g i * ind k i)).
  - now rewrite sumn_ind.
  - intros i Hi. rewrite unit_el by exact Hi. lra.
Qed.

Section Thm.
Variable la : linalg xr.
Hypothesis LA : la_ok la.
Notation N := (XR la).
Notation E := (expr N (ann N)).
Notation U := (expr N unit).

Lemma zero_keeps l : @keeps N (zero_adj l).
Proof. intros m b o H. unfold zero_adj. destruct (_ && _); [|exact H]. destruct (m b o); congruence. Qed.
Lemma reads_ok (m : mem N) os f : (forall o, In o os -> m 1%nat o = Some (Fin (f o))) -> reads la m os = Ok (map (fun o => Fin (f o)) os).
Proof.
  induction os as [|o l IH]; intros H; [reflexivity|]. cbn [reads map]. unfold rd1. change (carrier N) with xr in *.
  rewrite (H o) by now left. cbn [bindR]. rewrite IH by (intros; apply H; now right). reflexivity.
Qed.
Lemma jac_ind bv ba (u : U) D b os rho G : okexpr la u -> (forall o, In o (eqw u) -> ~ In o (inputs u)) -> dom D true b u rho ->
  (b = true -> size (shape_of u) = 1%nat) ->
  (forall o, In o os -> In o (refs u) /\ ~ In o (eqw u) /\ partials D u rho o (G o)) ->
  forall ks (e : E) m rho1 al, (forall k, In k ks -> (k < size (shape_of u))%nat) -> (forall o, ~ In o (eqw u) -> rho1 o = rho o) ->
  session la bv ba u D e m -> mreal la u m D rho1 al ->
  exists e2 m2, jac la u os ks e m = Ok (e2, m2, map (fun k => map (fun o => Fin (G o k)) os) ks) /\ session la bv ba u D e2 m2 /\
    forall o, In o (refs u) -> ~ In o (eqw u) -> m2 0%nat o = Some (Fin (rho o)).
Proof.
  intros HK HP HD HB HO. induction ks as [|k ks IH]; intros e m rho1 al HKs HR HS HM.
  - exists e, m. split; [reflexivity|]. split; [exact HS|]. intros o Ho Hn. rewrite <- HR by exact Hn. now apply (proj1 HM).
  - assert (SM : sm rho rho1 (inputs u)) by (intros i Hi; symmetry; apply HR; intros X; exact (HP i X Hi)).
    assert (HD1 : dom D true b u rho1) by (apply (indep D u rho rho1 (proj1 HK) SM); exact HD).
    assert (HS1 := session_user la bv ba u D e m (zero_adj (refs u)) HS (zero_keeps (refs u))).
    assert (HM1 : mreal la u (zero_adj (refs u) m) D rho1 (fun _ => 0)).
    { destruct HM as [M1 M2]. split.
      - intros o Ho. destruct (M1 o Ho) as [A1 A2]. unfold zero_adj. cbn [Nat.eqb andb]. split; [exact A1|].
        replace (existsb (Nat.eqb o) (refs u)) with true by (symmetry; now apply inw_true). now rewrite A2.
      - intros o Ho. unfold zero_adj. cbn [Nat.eqb andb]. auto. }
    set (n := size (shape_of u)) in *. assert (Hk : (k < n)%nat) by (apply HKs; now left).
    destruct (grad_full la LA bv ba u D e (zero_adj (refs u) m) rho1 (fun _ => 0) b (unit_seed n k) HK HS1 HM1 HD1 (unit_len n k))
      as [e2 [m2 [al' [Q1 [Q2 [Q3 [Q4 [Q5 [Q6 [Q7 Q8]]]]]]]]]].
    { intros Hb j Hj. rewrite unit_len in Hj. rewrite unit_el by exact Hj. specialize (HB Hb). replace j with k by lia. unfold ind. now rewrite Nat.eqb_refl. }
    { auto. }
    destruct (diff_next la LA bv ba u D e (zero_adj (refs u) m) rho1 (fun _ => 0) b (unit_seed n k) e2 m2 _ al' HK HS1 HM1 HD1 (unit_len n k) Q1 Q3 Q5 Q7) as [rho2 [HM2 HR2]].
    destruct (IH e2 m2 rho2 al') as [e3 [m3 [R1 [R2 R3]]]]; auto.
    { intros j Hj. apply HKs. now right. }
    { intros o Ho. rewrite HR2 by exact Ho. now apply HR. }
    exists e3, m3. split; [|auto]. cbn [jac map]. fold n. change (carrier N) with xr in *. rewrite Q1. cbn [bindR].
    rewrite (reads_ok m2 os (fun o => G o k)).
    + cbn [bindR]. rewrite R1. reflexivity.
    + intros o Ho. destruct (HO o Ho) as [O1 [O2 O3]]. rewrite Q3 by exact O1. destruct (Q8 o O1 O2) as [g [G1 G2]]. rewrite G2, unit_dotp by exact Hk.
      rewrite (partials_unique la u D rho1 o g (G o) k G1); [do 2 f_equal; lra|].
      eapply (partials_move la); [apply HK|exact SM| |exact O3]. symmetry. now apply HR.
Qed.
Lemma jac_thm bv ba (u : U) D b os ks (e : E) m rho al : okexpr la u -> (forall o, In o (eqw u) -> ~ In o (inputs u)) ->
  session la bv ba u D e m -> mreal la u m D rho al -> dom D true b u rho -> (b = true -> size (shape_of u) = 1%nat) ->
  (forall o, In o os -> In o (refs u) /\ ~ In o (eqw u)) -> (forall k, In k ks -> (k < size (shape_of u))%nat) ->
  exists G, (forall o, In o os -> partials D u rho o (G o)) /\
  exists e2 m2, jac la u os ks e m = Ok (e2, m2, map (fun k => map (fun o => Fin (G o k)) os) ks) /\
    forall o, In o (refs u) -> ~ In o (eqw u) -> m2 0%nat o = Some (Fin (rho o)).
Proof.
  intros HK HP HS HM HD HB HO HKs.
  assert (HG : exists G : nat -> nat -> R, forall o, In o os -> partials D u rho o (G o)).
  { clear HKs. induction os as [|o l IH]; [exists (fun _ _ => 0); intros ? []|].
    destruct IH as [G HG]; [intros; apply HO; now right|]. destruct (HO o (or_introl eq_refl)) as [O1 O2].
    destruct (partials_exist la LA bv ba u D e m rho al b o HK HS HM HD O1 O2) as [g Hg].
    exists (fun i => if (i =? o)%nat then g else G i). intros i [<-|Hi]; [now rewrite Nat.eqb_refl|].
    destruct (Nat.eqb_spec i o) as [->|]; auto. }
  destruct HG as [G HG]. exists G. split; [exact HG|].
  destruct (jac_ind bv ba u D b os rho G HK HP HD HB ltac:(intros o Ho; destruct (HO o Ho); auto) ks e m rho al HKs ltac:(auto) HS HM)
    as [e2 [m2 [A1 [_ A2]]]]. exists e2, m2. auto.
Qed.
End Thm.
