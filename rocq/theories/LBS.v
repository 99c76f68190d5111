(** The Black-Scholes program. *)
From Coq Require Import Reals Lra FunctionalExtensionality.
From Coquelicot Require Import Coquelicot.
From Verif Require Import Base Num Expr Node Stat Machine Wf Pure LBase LKind LSimDef LMem LSimF LSimB LBind Session LUser
  Tape LTape LState LNrm LTop XR Spec Nudge RSess Grad LReal LScal LKA LKB LKM LVal LNudge LGrad LDiff LIndep LGrd LNGrad LPh Train LTrain.
Open Scope R_scope.
Set Bullet Behavior "Strict Subproofs".

(** ** The normal distribution *)
Lemma sqrt2_pos : 0 < sqrt 2. Proof. apply sqrt_lt_R0. lra. Qed.
Lemma Phi_erf x : 0.5 * (erf (x / sqrt 2) + 1) = Phi x.
Proof.
  pose proof sqrt2_pos as S2. pose proof PI_RGT_0 as HP. assert (SP : 0 < sqrt PI) by now apply sqrt_lt_R0.
  assert (Q : sqrt 2 * sqrt 2 = 2) by (apply sqrt_sqrt; lra).
  unfold erf, Phi. set (f := fun t => exp (- (t * t))).
  assert (CF : forall z, continuous f z) by (intros z; apply (ex_derive_continuous f); unfold f; auto_derive; exact I).
  assert (X : is_RInt f (/ sqrt 2 * 0 + 0) (/ sqrt 2 * x + 0) (RInt f 0 (x / sqrt 2))).
  { replace (/ sqrt 2 * 0 + 0) with 0 by ring. replace (/ sqrt 2 * x + 0) with (x / sqrt 2) by (unfold Rdiv; ring).
    apply (RInt_correct f). apply ex_RInt_continuous. intros z _. apply CF. }
  pose proof (is_RInt_comp_lin f (/ sqrt 2) 0 0 x _ X) as Y.
  assert (Z : is_RInt (fun t => exp (- (t * t) / 2) / sqrt (2 * PI)) 0 x (/ sqrt PI * RInt f 0 (x / sqrt 2))).
  { apply (is_RInt_scal _ _ _ (/ sqrt PI)) in Y. eapply is_RInt_ext; [|exact Y].
    intros t _. unfold scal; cbn; unfold mult; cbn. unfold f. rewrite sqrt_mult by lra.
    replace (- ((/ sqrt 2 * t + 0) * (/ sqrt 2 * t + 0))) with (- (t * t) / 2).
    - field. lra.
    - rewrite <- Q at 1. field. lra. }
  rewrite (is_RInt_unique _ _ _ _ Z). change (0.5) with (5 / 10). field. lra.
Qed.
Definition phi (x : R) : R := exp (- (x * x) / 2) / sqrt (2 * PI).
Lemma der_Phi x : is_derive Phi x (phi x).
Proof.
  unfold Phi. eapply der_eq; [apply der_plus; [apply der_const|]|apply Rplus_0_l].
  assert (CF : forall z, continuous phi z).
  { intros z; apply (ex_derive_continuous phi); unfold phi; auto_derive. exact I. }
  apply (is_derive_RInt phi (fun b => RInt phi 0 b) 0 x).
  - apply filter_forall. intros b. apply (RInt_correct phi). apply ex_RInt_continuous. intros; apply CF.
  - apply CF.
Qed.
Lemma Phi_opp x : Phi (- x) = 1 - Phi x.
Proof.
  unfold Phi. assert (CF : forall z, continuous phi z).
  { intros z; apply (ex_derive_continuous phi); unfold phi; auto_derive. exact I. }
  assert (X : is_RInt phi (-0) (- x) (RInt phi 0 (- x))).
  { rewrite Ropp_0. apply (RInt_correct phi). apply ex_RInt_continuous. intros; apply CF. }
  apply is_RInt_comp_opp in X.
  assert (Y : is_RInt phi 0 x (- RInt phi 0 (- x))).
  { apply is_RInt_opp in X. unfold opp in X; cbn in X. eapply is_RInt_ext; [|exact X].
    intros t _. cbn. unfold opp; cbn. unfold phi. replace (- t * - t) with (t * t) by ring. ring. }
  fold phi. change (fun t => exp (- (t * t) / 2) / sqrt (2 * PI)) with phi. rewrite (is_RInt_unique _ _ _ _ Y). lra.
Qed.

Section BS.
Variables K sigma tau r : R.
Hypothesis HK : 0 < K.
Hypothesis Hs : 0 < sigma.
Hypothesis Ht : 0 < tau.
Notation PV := (K * exp (- r * tau)).
Lemma vol_pos : 0 < sigma * sqrt tau.
Proof. apply Rmult_lt_0_compat; auto. now apply sqrt_lt_R0. Qed.
(** The terms from the densities cancel. *)
Lemma bs_cancel s : 0 < s -> s * phi (d1 K sigma tau r s) = PV * phi (d2 K sigma tau r s).
Proof.
  intros HS. unfold phi. set (x := d1 K sigma tau r s). set (y := d2 K sigma tau r s).
  assert (E : - (y * y) / 2 = - (x * x) / 2 + (ln s - ln K + r * tau)).
  { unfold y, d2. fold x. replace (ln s - ln K + r * tau) with (x * (sigma * sqrt tau) - (sigma * sqrt tau) * (sigma * sqrt tau) / 2).
    - field.
    - unfold x, d1. pose proof vol_pos as V. assert (Q : sqrt tau * sqrt tau = tau) by (apply sqrt_sqrt; lra).
      rewrite (ln_div s K) by lra. replace (sigma * sqrt tau * (sigma * sqrt tau)) with (sigma ^ 2 * tau) by (rewrite <- Q at 1; ring).
      field. assert (0 < sqrt tau) by now apply sqrt_lt_R0. lra. }
  rewrite E, exp_plus, exp_plus. unfold Rminus. rewrite exp_plus, exp_Ropp, !exp_ln by lra.
  replace (- r * tau) with (- (r * tau)) by ring. rewrite (exp_Ropp (r * tau)). field.
  pose proof (exp_pos (r * tau)). pose proof PI_RGT_0. assert (0 < sqrt (2 * PI)) by (apply sqrt_lt_R0; lra). lra.
Qed.
Lemma der_d1 s : 0 < s -> is_derive (d1 K sigma tau r) s (/ (s * (sigma * sqrt tau))).
Proof.
  intros HS. pose proof vol_pos as V. assert (0 < sqrt tau) by now apply sqrt_lt_R0.
  unfold d1. auto_derive; [apply Rdiv_lt_0_compat; lra|]. field. repeat split; lra.
Qed.
Lemma der_call s : 0 < s -> is_derive (call_price K sigma tau r) s (Phi (d1 K sigma tau r s)).
Proof.
  intros HS. pose proof (der_d1 s HS) as D1.
  assert (D2 : is_derive (d2 K sigma tau r) s (/ (s * (sigma * sqrt tau)))).
  { unfold d2. eapply der_eq; [apply der_minus; [exact D1|apply der_const]|lra]. }
  unfold call_price. eapply der_eq.
  - apply der_minus.
    + apply der_mult; [apply der_id|]. apply (der_comp Phi (d1 K sigma tau r)); [apply der_Phi|exact D1].
    + apply der_scal. apply (der_comp Phi (d2 K sigma tau r)); [apply der_Phi|exact D2].
  - pose proof (bs_cancel s HS) as C. set (q := / (s * (sigma * sqrt tau))) in *.
    transitivity (Phi (d1 K sigma tau r s) + q * (s * phi (d1 K sigma tau r s) - PV * phi (d2 K sigma tau r s))); [ring|].
    rewrite C. ring.
Qed.
Lemma parity s : put_price K sigma tau r s = call_price K sigma tau r s - s + PV.
Proof. unfold put_price, call_price. rewrite !Phi_opp. ring. Qed.
Lemma der_put s : 0 < s -> is_derive (put_price K sigma tau r) s (Phi (d1 K sigma tau r s) - 1).
Proof.
  intros HS. apply (der_ext (fun s => call_price K sigma tau r s - s + PV)); [intros x; now rewrite parity|].
  eapply der_eq; [apply der_plus; [apply der_minus; [now apply der_call|apply der_id]|apply der_const]|lra].
Qed.

(** ** The expressions *)
Lemma call_val D p : val D (bs_call K sigma tau r) p = [call_price K sigma tau r (p 0%nat)].
Proof.
  cbn. f_equal. unfold call_price. change (sigma * sigma / 2) with (sigma * sigma / 2).
  rewrite !Phi_erf. unfold d2, d1. replace (sigma ^ 2) with (sigma * sigma) by ring. ring.
Qed.
Lemma put_val D p : val D (bs_put K sigma tau r) p = [put_price K sigma tau r (p 0%nat)].
Proof.
  cbn. f_equal. unfold put_price.
  rewrite !Phi_erf. unfold d2, d1. replace (sigma ^ 2) with (sigma * sigma) by ring. ring.
Qed.
End BS.

Section Run.
Variable la : linalg xr.
Hypothesis LA : la_ok la.
Notation N := (XR la).
Notation E := (expr N (ann N)).
Notation U := (expr N unit).
Let LL : la_len N := la_ok_len la LA.
Lemma vwcells_drefs {T A} (u : expr T A) o : In o (vwcells u) -> In o (drefs u).
Proof. destruct u; cbn; tauto. Qed.
Lemma sdrefs_drefs {T A} (u : expr T A) : forall o, In o (sdrefs u) -> In o (drefs u).
Proof.
  induction u using expr_ind'; intros i Hi; cbn [sdrefs drefs] in *; auto; try tauto.
  - apply in_app_iff in Hi. destruct Hi as [Hi|Hi].
    + assert (X : In i (flat_map vwcells es)) by (destruct k; try destruct Hi; exact Hi).
      apply in_flat_map in X. destruct X as [y [Y1 Y2]]. apply in_flat_map. exists y. split; auto. now apply vwcells_drefs.
    + apply in_flat_map in Hi. destruct Hi as [y [Y1 Y2]]. apply in_flat_map. exists y. split; auto.
      rewrite Forall_forall in H. auto.
  - rewrite in_app_iff in *. intuition.
  - apply in_flat_map in Hi. destruct Hi as [y [Y1 Y2]]. apply in_flat_map. exists y. split; auto.
    rewrite Forall_forall in H. auto.
  - rewrite !in_app_iff in *. intuition.
Qed.
Lemma bind_session bv ba uv ua (u : U) m D rho al : fresh bv ba -> okexpr la u -> ctor_ok u = true -> mreal la u m D rho al ->
  exists e m0, bound bv ba uv ua u m = Ok (e, m0) /\ session la bv ba u D e m0 /\ mreal la u m0 D rho al.
Proof.
  intros HF HK HC HM.
  assert (HA : @avail N u m).
  { destruct HM as [H1 H2]. split; intros o Ho; [destruct (H1 o Ho) as [A B]; split; congruence|rewrite (H2 o Ho); discriminate]. }
  destruct (bind_safe N LL bv ba HF uv ua u m (proj1 HK) HC HA) as [e [m0 [B1 _]]].
  destruct (inv_bound LL bv ba HF u m _ _ e m0 (proj1 HK) HA B1) as [_ [B2 _]].
  exists e, m0. split; [exact B1|].
  assert (SD : forall o, In o (sdrefs u) -> m 4%nat o = Some (Fin (D o))).
  { intros o Ho. apply HM. now apply sdrefs_drefs. }
  split.
  - exists m, uv, ua, e, m0, (@nil (op N)). repeat (match goal with |- _ /\ _ => split end); auto.
  - destruct HF as [[F1 [F2 F3]] [F4 [F5 [F6 _]]]]. destruct HM as [H1 H2].
    split; intros o Ho; rewrite ?B2 by congruence; auto.
Qed.
Lemma run_once bv ba uv ua (u : U) m D rho al seed : fresh bv ba -> okexpr la u -> ctor_ok u = true -> opw u = [] ->
  mreal la u m D rho al -> dom D true false u rho -> length seed = size (shape_of u) -> (forall o, In o (writes u) -> al o = 0) ->
  exists e m0 e1 m1 rho' al', bound bv ba uv ua u m = Ok (e, m0) /\
    @autodiff N e (map Fin seed) m0 = Ok (e1, m1, map Fin (val D u rho)) /\
    mreal la u m1 D rho' al' /\ (forall o, ~ In o (writes u) -> rho' o = rho o) /\
    forall o, In o (refs u) -> ~ In o (eqw u) -> exists g, partials D u rho o g /\ al' o = al o + dotp seed g.
Proof.
  intros HF HK HC HO HM HD HL HZ. destruct (bind_session bv ba uv ua u m D rho al HF HK HC HM) as [e [m0 [B1 [B2 B3]]]].
  destruct (grad_full la LA bv ba u D e m0 rho al false seed HK B2 B3 HD HL ltac:(discriminate) HZ)
    as [e2 [m2 [al' [Q1 [Q2 [Q3 [Q4 [Q5 [Q6 [Q7 Q8]]]]]]]]]].
  exists e, m0, e2, m2, (fin_env D u rho), al'. split; [exact B1|]. split; [exact Q1|]. split.
  - split; [|exact Q7]. intros o Ho. split; [now apply Q6|now apply Q3].
  - split; [|exact Q8]. intros o Ho. apply env_keep; [apply HK|exact Ho].
Qed.
Lemma bs_call_ok K sigma tau r : okexpr la (bs_call K sigma tau r).
Proof. split; [reflexivity|split; [reflexivity|cbn; repeat split; repeat constructor; eexists; reflexivity]]. Qed.
Lemma bs_put_ok K sigma tau r : okexpr la (bs_put K sigma tau r).
Proof. split; [reflexivity|split; [reflexivity|cbn; repeat split; repeat constructor; eexists; reflexivity]]. Qed.
Lemma bs_dom (b : bool) K sigma tau r D rho : 0 < K -> 0 < sigma -> 0 < tau -> 0 < rho 0%nat ->
  dom D true false (if b then bs_call K sigma tau r else bs_put K sigma tau r) rho.
Proof.
  intros HK Hs Ht HS. pose proof sqrt2_pos. assert (0 < sqrt tau) by now apply sqrt_lt_R0.
  assert (0 < sigma * sqrt tau) by now apply Rmult_lt_0_compat.
  assert (0 < rho 0%nat / K) by now apply Rdiv_lt_0_compat.
  destruct b; cbn; repeat split; auto; intros; try lra; try (constructor; [eexists; reflexivity|constructor]);
    destruct i; try lia; lra.
Qed.
Lemma zero_mreal (u : U) m D rho al l : mreal la u m D rho al -> (forall o, In o (refs u) -> In o l) ->
  mreal la u (zero_adj l m) D rho (fun _ => 0).
Proof.
  intros [H1 H2] H. split.
  - intros o Ho. destruct (H1 o Ho) as [A1 A2]. unfold zero_adj. cbn [Nat.eqb andb]. split; [exact A1|].
    rewrite (proj2 (inw_true l o) (H o Ho)). now rewrite A2.
  - intros o Ho. unfold zero_adj. cbn [Nat.eqb andb]. auto.
Qed.
Lemma bs_grad D u f p g s : (forall q, val D u q = [f (q 0%nat)]) -> is_derive f (p 0%nat) s ->
  partials D (u : expr xr unit) p 0 g -> dotp [1] g = s.
Proof.
  intros HV HF HG. unfold dotp. cbn. rewrite Rplus_0_l, Rmult_1_l.
  apply (der_unique _ _ _ _ (HG 0%nat)). eapply der_ext; [|exact HF]. intros t. rewrite HV. reflexivity.
Qed.
Lemma bs_thm bv ba uv ua bv' ba' uv' ua' K sigma tau r D rho al m : 0 < K -> 0 < sigma -> 0 < tau -> 0 < rho 0%nat ->
  fresh bv ba -> fresh bv' ba' -> mreal la (bs_call K sigma tau r) m D rho al ->
  (forall o, In o [0; 1; 2; 3]%nat -> al o = 0) ->
  exists ec mc ec1 mc1 ep mp ep1 mp1,
    bound bv ba uv ua (bs_call K sigma tau r : U) m = Ok (ec, mc) /\
    @autodiff N ec [Fin 1] mc = Ok (ec1, mc1, [Fin (call_price K sigma tau r (rho 0%nat))]) /\
    mc1 1%nat 0%nat = Some (Fin (Phi (d1 K sigma tau r (rho 0%nat)))) /\
    bound bv' ba' uv' ua' (bs_put K sigma tau r : U) (zero_adj [0; 1; 2; 3]%nat mc1) = Ok (ep, mp) /\
    @autodiff N ep [Fin 1] mp = Ok (ep1, mp1, [Fin (put_price K sigma tau r (rho 0%nat))]) /\
    mp1 1%nat 0%nat = Some (Fin (Phi (d1 K sigma tau r (rho 0%nat)) - 1)).
Proof.
  intros HK Hs Ht HS HF HF' HM HZ.
  destruct (run_once bv ba uv ua (bs_call K sigma tau r) m D rho al [1] HF (bs_call_ok K sigma tau r) eq_refl eq_refl HM
    (bs_dom true K sigma tau r D rho HK Hs Ht HS) eq_refl) as [ec [mc [ec1 [mc1 [rho' [al' [A1 [A2 [A3 [A4 A5]]]]]]]]]].
  { intros o Ho. apply HZ. cbn in *. tauto. }
  assert (HM1 : mreal la (bs_put K sigma tau r) (zero_adj [0; 1; 2; 3]%nat mc1) D rho' (fun _ => 0)).
  { apply (zero_mreal _ mc1 D rho' al').
    - destruct A3 as [X1 X2]. split; [|intros o []]. intros o Ho. apply X1. cbn in *. tauto.
    - intros o Ho. cbn in *. tauto. }
  assert (R0 : rho' 0%nat = rho 0%nat) by (apply A4; cbn; intuition lia).
  destruct (run_once bv' ba' uv' ua' (bs_put K sigma tau r) _ D rho' (fun _ => 0) [1] HF' (bs_put_ok K sigma tau r) eq_refl eq_refl HM1
    (bs_dom false K sigma tau r D rho' HK Hs Ht ltac:(now rewrite R0)) eq_refl (fun _ _ => eq_refl))
    as [ep [mp [ep1 [mp1 [rho2 [al2 [B1 [B2 [B3 [B4 B5]]]]]]]]]].
  exists ec, mc, ec1, mc1, ep, mp, ep1, mp1. split; [exact A1|].
  split. { rewrite (call_val K sigma tau r D rho) in A2. exact A2. }
  split.
  { destruct A3 as [X _]. destruct (X 0%nat) as [_ ->]; [cbn; tauto|]. destruct (A5 0%nat) as [g [G1 ->]]; [cbn; tauto|cbn; intuition lia|].
    rewrite HZ by (cbn; tauto). rewrite (bs_grad D _ _ rho g _ (call_val K sigma tau r D) (der_call K sigma tau r HK Hs Ht _ HS) G1).
    now rewrite Rplus_0_l. }
  split; [exact B1|].
  split. { rewrite (put_val K sigma tau r D rho'), R0 in B2. exact B2. }
  destruct B3 as [X _]. destruct (X 0%nat) as [_ ->]; [cbn; tauto|]. destruct (B5 0%nat) as [g [G1 ->]]; [cbn; tauto|cbn; intuition lia|].
  rewrite <- R0 in HS. rewrite (bs_grad D _ _ rho' g _ (put_val K sigma tau r D) (der_put K sigma tau r HK Hs Ht _ HS) G1), R0.
  now rewrite Rplus_0_l.
Qed.
End Run.
