(** The adjoints as total derivatives. *)
From Coq Require Import Reals Lra FunctionalExtensionality.
From Coquelicot Require Import Coquelicot.
From Verif Require Import Base Num Expr Node Stat Machine Wf Pure LBase LKind LSimDef LMem LSimF LSimB LBind Session LUser
  Tape LTape LState LNrm LTop XR Spec RSess Grad LReal LScal LKA LKB LKM LVal LGrad LDiff LGrd Frechet LFrechet.
Open Scope R_scope.
Set Bullet Behavior "Strict Subproofs".

Section Chain.
Variable la : linalg xr.
Hypothesis LA : la_ok la.
Notation N := (XR la).
Notation E := (expr N (ann N)).
Notation U := (expr N unit).
Notation liftE := (liftE la).
Let LL : la_len N := la_ok_len la LA.
Let HKV := KV_all la LA.
Let HKA := KA_all la LA.

Lemma chain_main bv ba (u : U) D (e1 : E) m1 rho al b seed : okexpr la u -> session la bv ba u D e1 m1 ->
  mreal la u m1 D rho al -> dom D true b u rho -> length seed = size (shape_of u) ->
  (b = true -> forall j, (j < length seed)%nat -> el seed j = 1) ->
  exists e2 m2 al', @autodiff N e1 (map Fin seed) m1 = Ok (e2, m2, map Fin (val D u rho)) /\
    (forall o, In o (refs u) -> m2 1%nat o = Some (Fin (al' o))) /\
    (forall o, ~ In o (refs u) -> al' o = al o) /\
    forall (g : R -> nat -> R) dg t0, g t0 = rho -> (forall o, is_derive (fun x => g x o) t0 (dg o)) ->
      (forall o, In o (eqw u) -> dg o = 0) ->
      exists dv dr : nat -> R,
        (forall k, is_derive (fun x => el (val D u (g x)) k) t0 (dv k)) /\
        (forall i, is_derive (fun x => fin_env D u (g x) i) t0 (dr i)) /\
        (forall i, ~ In i (writes u) -> dr i = dg i) /\
        forall M, (forall i, In i (refs u) -> (i < M)%nat) ->
          dotp seed dv + sumn M (fun i => al i * dr i) = sumn M (fun o => al' o * dg o).
Proof.
  intros HK HS HM HD HL HU. destruct (session_inv la LL bv ba u D e1 m1 HK HS) as [cv [ca [HF [HI [HG [HW HE]]]]]].
  assert (HD' : dom D true b e1 rho) by (rewrite <- HE in HD; unfold er in HD; now apply dom_amap in HD).
  destruct (inv_facts _ _ _ _ _ _ _ HI) as [F1 [F2 [F3 [F4 [F5 [F6 F7]]]]]]. change (carrier N) with xr in *.
  destruct (@tf N (liftE D) e1 (liftE rho)) as [t r'] eqn:ET.
  destruct (LV_all la D HKV e1 b rho t r' HW HG (dom_mono D true e1 b rho HD') ET) as [V1 ->].
  pose proof (PO_all la D HKV e1 b rho t _ HW HG (dom_mono D true e1 b rho HD') ET) as HP.
  assert (VU : forall r, val D u r = val D e1 r) by (intros; rewrite <- HE; apply val_amap).
  assert (FU : forall r, fin_env D u r = fin_env D e1 r) by (intros; rewrite <- HE; apply fin_amap).
  assert (DI : disc e1 = true) by (rewrite F2; apply HK).
  assert (HL1 : length seed = size (shape_of e1)) by (rewrite F7; exact HL).
  destruct (top_diff LL bv ba HF u cv ca e1 m1 (liftE D) (liftE rho) (liftE al) t _ (map Fin seed) HI (proj1 (proj2 HK)) HM ET HP
    ltac:(rewrite map_length; exact HL)) as [e2 [m2 [r2 [Q1 [Q2 [Q3 [Q4 [Q5 [Q6 Q7]]]]]]]]].
  assert (HM0 : forall i, In i (refs e1) -> (i < S (list_max (refs e1)))%nat) by (intros; now apply refs_bound).
  destruct (GR_all la D HKV HKA _ e1 b (fun _ => rho) (fun _ => 0) 0 t (liftE (fin_env D e1 rho)) HW DI HG HM0 HD'
    (fun _ => der_const _ _) ET) as [dv0 [dr0 [_ [_ [_ [_ BK0]]]]]].
  destruct (BK0 seed al HL1 HU) as [al' [B1 [B2 _]]].
  exists e2, m2, al'. rewrite VU. rewrite V1 in Q1. split; [exact Q1|]. destruct Q3 as [Q3a Q3b].
  split; [intros o Ho; destruct (Q3a o Ho) as [_ Z2]; rewrite B1 in Z2; exact Z2|].
  split; [intros o Ho; apply B2; now rewrite F3|].
  intros g dg t0 G0 GD GZ. subst rho.
  assert (GG : forall M, (forall i, In i (refs e1) -> (i < M)%nat) -> exists dv dr, length dv = size (shape_of e1) /\
     (forall j, is_derive (fun x => el (val D e1 (g x)) j) t0 (el dv j)) /\
     (forall i, is_derive (fun x => fin_env D e1 (g x) i) t0 (dr i)) /\ BK la M e1 t b dv dg dr).
  { intros M HB. destruct (GR_all la D HKV HKA M e1 b g dg t0 t _ HW DI HG HB HD' GD ET) as [dv [dr [A1 [A2 [A3 [_ A5]]]]]].
    exists dv, dr. auto. }
  destruct (GG _ HM0) as [dv [dr [A1 [A2 [A3 _]]]]]. exists (el dv), dr.
  split; [intros k; eapply der_ext; [|apply A2]; intros x; cbn; now rewrite VU|].
  split; [intros k; eapply der_ext; [|apply A3]; intros x; cbn; now rewrite FU|].
  split. { intros i Hi. apply (dr_keep la D e1 g dg dr t0 i HW GD A3). now rewrite F6. }
  intros M HMM. destruct (GG M ltac:(now rewrite F3)) as [dvM [drM [C1 [C2 [C3 C5]]]]].
  destruct (C5 seed al HL1 HU) as [al2 [P1 [P2 P3]]].
  assert (EA : al2 = al').
  { rewrite B1 in P1. apply functional_extensionality. intros i. apply (f_equal (fun f => f i)) in P1. unfold LVal.liftE in P1. congruence. }
  subst al2.
  assert (ED : forall k, el dvM k = el dv k) by (intros k; exact (der_unique _ _ _ _ (C2 k) (A2 k))).
  assert (EH : forall i, drM i = dr i) by (intros i; exact (der_unique _ _ _ _ (C3 i) (A3 i))).
  transitivity (ip seed dvM + sumn M (fun o => al o * drM o)).
  { unfold dotp, ip. f_equal; apply sumn_ext; intros; [now rewrite ED|now rewrite EH]. }
  rewrite P3. apply sumn_ext. intros o _. destruct (inb o (@asg N e1 t)) eqn:QB; [|reflexivity].
  rewrite GZ; [ring|]. rewrite <- F4. apply (@asg_eqw N e1 t). now apply inb_spec.
Qed.

Lemma der_dotp s (f : R -> nat -> R) t0 df : (forall k, is_derive (fun x => f x k) t0 (df k)) ->
  is_derive (fun x => dotp s (f x)) t0 (dotp s df).
Proof.
  intros H. unfold dotp. induction (length s) as [|n IH]; cbn [sumn].
  - exact (der_const 0 t0).
  - apply (is_derive_plus (fun x => sumn n (fun k => el s k * f x k)) (fun x => el s n * f x n)); [exact IH|].
    apply is_derive_Reals. apply (derivable_pt_lim_scal (fun x => f x n)). apply is_derive_Reals, H.
Qed.

(** C61 *)
Lemma chain_thm bv ba (u : U) D (e1 : E) m1 rho al b seed : okexpr la u -> session la bv ba u D e1 m1 ->
  mreal la u m1 D rho al -> dom D true b u rho -> length seed = size (shape_of u) ->
  (b = true -> forall j, (j < length seed)%nat -> el seed j = 1) ->
  (forall o, In o (writes u) -> al o = 0) ->
  exists e2 m2 al', @autodiff N e1 (map Fin seed) m1 = Ok (e2, m2, map Fin (val D u rho)) /\
    (forall o, In o (refs u) -> m2 1%nat o = Some (Fin (al o + al' o))) /\
    forall M, (forall i, In i (refs u) -> (i < M)%nat) ->
    forall (g : R -> nat -> R) dg t0, g t0 = rho -> (forall o, is_derive (fun x => g x o) t0 (dg o)) ->
      (forall o, In o (eqw u) -> dg o = 0) ->
      is_derive (fun x => dotp seed (el (val D u (g x)))) t0 (sumn M (fun o => al' o * dg o)).
Proof.
  intros HK HS HM HD HL HU HZ.
  destruct (chain_main bv ba u D e1 m1 rho al b seed HK HS HM HD HL HU) as [e2 [m2 [al' [Q1 [Q2 [Q3 Q4]]]]]].
  exists e2, m2, (fun o => al' o - al o). split; [exact Q1|]. split.
  { intros o Ho. rewrite (Q2 o Ho). do 2 f_equal. ring. }
  intros M HMM g dg t0 G0 GD GZ. destruct (Q4 g dg t0 G0 GD GZ) as [dv [dr [A1 [A2 [A3 A4]]]]].
  pose proof (der_dotp seed (fun x => el (val D u (g x))) t0 dv A1) as X.
  assert (Y : dotp seed dv = sumn M (fun o => (al' o - al o) * dg o) :> R); [|rewrite <- Y; exact X].
  rewrite (sumn_ext M (fun o => (al' o - al o) * dg o) (fun o => al' o * dg o - al o * dr o)).
  - rewrite sumn_minus, <- (A4 M HMM). ring.
  - intros o _. destruct (in_dec Nat.eq_dec o (writes u)) as [Hi|Hi]; [rewrite (HZ o Hi); ring|rewrite (A3 o Hi); ring].
Qed.

Lemma total_thm bv ba (u : U) D (e1 : E) m1 rho al b seed M : okexpr la u -> session la bv ba u D e1 m1 ->
  mreal la u m1 D rho al -> dom D true b u rho -> length seed = size (shape_of u) ->
  (b = true -> forall j, (j < length seed)%nat -> el seed j = 1) ->
  (forall o, In o (writes u) -> al o = 0) -> (forall i, In i (refs u) -> (i < M)%nat) ->
  exists e2 m2 al', @autodiff N e1 (map Fin seed) m1 = Ok (e2, m2, map Fin (val D u rho)) /\
    (forall o, In o (refs u) -> m2 1%nat o = Some (Fin (al o + al' o))) /\
    total_derivative M (fun o => In o (eqw u)) (fun r => dotp seed (el (val D u r))) rho al'.
Proof.
  intros HK HS HM HD HL HU HZ HB.
  destruct (chain_thm bv ba u D e1 m1 rho al b seed HK HS HM HD HL HU HZ) as [e2 [m2 [al' [Q1 [Q2 Q3]]]]].
  exists e2, m2, al'. split; [exact Q1|]. split; [exact Q2|]. apply hadamard_frechet.
  intros g dg G0 GD GZ. apply (Q3 M HB); auto.
Qed.

(** A small enough step against the adjoints decreases a scalar expression. *)
Lemma descent_thm bv ba (u : U) D (e1 : E) m1 rho al b : okexpr la u -> session la bv ba u D e1 m1 ->
  mreal la u m1 D rho al -> dom D true b u rho -> size (shape_of u) = 1%nat ->
  (forall o, In o (writes u) -> al o = 0) ->
  exists e2 m2 al', @autodiff N e1 [Fin 1] m1 = Ok (e2, m2, map Fin (val D u rho)) /\
    (forall o, In o (refs u) -> m2 1%nat o = Some (Fin (al o + al' o))) /\
    ((exists o, In o (refs u) /\ ~ In o (eqw u) /\ al' o <> 0) -> exists delta, 0 < delta /\
     forall s, 0 < s < delta -> forall r, (forall o, In o (refs u) -> ~ In o (eqw u) -> r o = rho o - s * al' o) ->
       (forall o, ~ In o (refs u) \/ In o (eqw u) -> r o = rho o) ->
       el (val D u r) 0 < el (val D u rho) 0).
Proof.
  intros HK HS HM HD HL HZ. set (M := S (list_max (refs u))).
  assert (HB : forall i, In i (refs u) -> (i < M)%nat) by (intros; now apply refs_bound).
  destruct (total_thm bv ba u D e1 m1 rho al b [1] M HK HS HM HD ltac:(now rewrite HL)) as [e2 [m2 [al' [Q1 [Q2 Q3]]]]]; auto.
  { intros _ j Hj. cbn in Hj. destruct j; [reflexivity|lia]. }
  exists e2, m2, al'. split; [exact Q1|]. split; [exact Q2|]. intros [o0 [R0 [E0 A0]]].
  set (w := fun o => if in_dec Nat.eq_dec o (refs u) then if in_dec Nat.eq_dec o (eqw u) then 0 else al' o else 0).
  assert (W0 : forall o, In o (refs u) -> ~ In o (eqw u) -> w o = al' o).
  { intros o H1 H2. unfold w. destruct (in_dec _ _ _); [|contradiction]. destruct (in_dec _ _ _); [contradiction|reflexivity]. }
  assert (W1 : forall o, ~ In o (refs u) \/ In o (eqw u) -> w o = 0).
  { intros o H. unfold w. destruct (in_dec _ _ _); [|reflexivity]. destruct (in_dec _ _ _); [reflexivity|]. tauto. }
  set (q := sumn M (fun o => al' o * w o)).
  assert (WW : forall o, al' o * w o = w o * w o).
  { intros o. unfold w. destruct (in_dec _ _ _); [|ring]. destruct (in_dec _ _ _); ring. }
  assert (QP : 0 < q).
  { unfold q. rewrite (sumn_ext M _ (fun o => w o * w o)) by (intros; apply WW).
    assert (X : forall n, 0 <= sumn n (fun o => w o * w o) /\ ((o0 < n)%nat -> 0 < sumn n (fun o => w o * w o))).
    { induction n as [|n [I1 I2]]; cbn [sumn]; [split; [lra|lia]|]. pose proof (Rle_0_sqr (w n)) as SQ. unfold Rsqr in SQ.
      split; [lra|]. intros Hn. destruct (Nat.eq_dec o0 n) as [<-|Hx].
      - assert (0 < w o0 * w o0) by (rewrite (W0 o0 R0 E0); change (0 < Rsqr (al' o0)); now apply Rsqr_pos_lt). lra.
      - specialize (I2 ltac:(lia)). lra. }
    apply X. now apply HB. }
  assert (NP : 0 < nrm1 M w).
  { destruct (nrm1_pos M w) as [P|P]; [exact P|]. exfalso. apply A0. rewrite <- (W0 o0 R0 E0).
    rewrite (nrm1_0 M w); auto. intros o Ho. apply W1. left. intros Hi. apply HB in Hi. lia. }
  destruct (Q3 (q / (2 * nrm1 M w))) as [dl [D1 D2]].
  { apply Rdiv_lt_0_compat; lra. }
  exists (dl / nrm1 M w). split; [apply Rdiv_lt_0_compat; lra|]. intros s [S1 S2] r R1 R2.
  assert (NS : nrm1 M (fun o => - s * w o) = s * nrm1 M w).
  { unfold nrm1. rewrite <- sumn_l. apply sumn_ext. intros o _. rewrite Rabs_mult, Rabs_Ropp, (Rabs_right s) by lra. reflexivity. }
  specialize (D2 (fun o => - s * w o)). rewrite NS in D2.
  assert (SL : s * nrm1 M w <= dl).
  { apply Rlt_le. apply (Rmult_lt_reg_r (/ nrm1 M w)); [now apply Rinv_0_lt_compat|].
    replace (s * nrm1 M w * / nrm1 M w) with s by (field; lra). exact S2. }
  specialize (D2 ltac:(intros o Ho; cbv beta; rewrite W1; [ring|]; destruct Ho as [Ho|Ho]; [tauto|left; intros Hi; apply HB in Hi; lia]) SL).
  assert (ER : shift rho (fun o => - s * w o) = r).
  { apply functional_extensionality. intros o. unfold shift. destruct (in_dec Nat.eq_dec o (refs u)) as [Ho|Ho].
    - destruct (in_dec Nat.eq_dec o (eqw u)) as [Hq|Hq]; [rewrite W1, R2 by tauto; ring|]. rewrite W0, R1 by assumption. ring.
    - rewrite W1, R2 by tauto. ring. }
  rewrite ER in D2. unfold dotp in D2. cbn [length sumn] in D2. change (el [1] 0) with 1 in D2.
  rewrite (sumn_ext M (fun o => al' o * (- s * w o)) (fun o => - s * (al' o * w o))) in D2 by (intros; ring).
  rewrite sumn_l in D2. fold q in D2.
  replace (q / (2 * nrm1 M w) * (s * nrm1 M w)) with (s * q / 2) in D2 by (field; lra).
  assert (0 < s * q) by now apply Rmult_lt_0_compat.
  apply Rabs_le_between in D2. lra.
Qed.
End Chain.
