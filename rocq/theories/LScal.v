(** Scalar functions: the engine's exact arithmetic agrees with the
    specification, and the local derivatives are derivatives. *)
From Coq Require Import Reals Lra Psatz.
From Coquelicot Require Import Coquelicot.
From Verif Require Import Base Num Expr Node Stat Machine XR Spec LReal.
Open Scope R_scope.
Set Bullet Behavior "Strict Subproofs".

Lemma cosh_pos x : 0 < cosh x.
Proof. unfold cosh. pose proof (exp_pos x). pose proof (exp_pos (- x)). lra. Qed.
Lemma cosh_sinh x : cosh x * cosh x - sinh x * sinh x = 1.
Proof.
  unfold cosh, sinh. replace (_ - _) with (exp x * exp (- x)) by field.
  rewrite <- exp_plus. replace (x + - x) with 0 by ring. apply exp_0.
Qed.

Definition un_d (u : un) (x : R) : R :=
  match u with
  | UNeg => -1
  | USin => cos x
  | UCos => - sin x
  | UTan => 1 / (cos x * cos x)
  | UAsin => 1 / sqrt (1 - x * x)
  | UAcos => - (1 / sqrt (1 - x * x))
  | UAtan => 1 / (1 + x * x)
  | UExp => exp x
  | ULog => 1 / x
  | USqrt => 1 / 2 / sqrt x
  | UErf => 2 / sqrt PI * exp (- x * x)
  | USigmoid => exp (- x) / ((exp (- x) + 1) * (exp (- x) + 1))
  | USinh => cosh x
  | UCosh => sinh x
  | UTanh => 1 - tanh x * tanh x
  end.

Lemma der_cosh x : is_derive cosh x (sinh x).
Proof. apply is_derive_Reals, derivable_pt_lim_cosh. Qed.
Lemma der_sinh x : is_derive sinh x (cosh x).
Proof. apply is_derive_Reals, derivable_pt_lim_sinh. Qed.
Lemma der_erf x : is_derive erf x (2 / sqrt PI * exp (- (x * x))).
Proof.
  unfold erf. apply (der_scal (fun y => RInt (fun t => exp (- (t * t))) 0 y)).
  assert (C : forall y, continuous (fun t : R => exp (- (t * t))) y).
  { intros y. apply continuous_comp; [|apply continuous_exp].
    apply (continuous_opp (fun t : R => t * t)). apply (continuous_mult (fun t : R => t) (fun t : R => t)); apply continuous_id. }
  apply (is_derive_RInt (fun t : R => exp (- (t * t))) (fun y => RInt (fun t => exp (- (t * t))) 0 y) 0 x).
  - exists (mkposreal 1 Rlt_0_1). intros y _. apply (RInt_correct (V := R_CompleteNormedModule)). apply (ex_RInt_continuous (V := R_CompleteNormedModule)). intros. apply C.
  - apply C.
Qed.
Lemma der_asin x : -1 < x < 1 -> is_derive asin x (1 / sqrt (1 - x * x)).
Proof.
  intros H. replace (1 / sqrt (1 - x * x)) with (derive_pt asin x (derivable_pt_asin x H)).
  - apply is_derive_Reals, derive_pt_eq_1 with (derivable_pt_asin x H). reflexivity.
  - rewrite derive_pt_asin. unfold Rsqr. reflexivity.
Qed.
Lemma der_acos x : -1 < x < 1 -> is_derive acos x (- (1 / sqrt (1 - x * x))).
Proof.
  intros H. replace (- (1 / sqrt (1 - x * x))) with (derive_pt acos x (derivable_pt_acos x H)).
  - apply is_derive_Reals, derive_pt_eq_1 with (derivable_pt_acos x H). reflexivity.
  - rewrite derive_pt_acos. unfold Rsqr. field. apply Rgt_not_eq, sqrt_lt_R0. nra.
Qed.

Lemma un_der u x : un_dom true u x -> is_derive (un_s u) x (un_d u x).
Proof.
  destruct u; cbn; intros H.
  - eapply der_eq; [apply der_opp, der_id|]. reflexivity.
  - apply is_derive_Reals, derivable_pt_lim_sin.
  - apply is_derive_Reals, derivable_pt_lim_cos.
  - change (un_s UTan) with (fun y => sin y / cos y). eapply der_eq.
    + apply (is_derive_div sin cos x (cos x) (- sin x)); auto; apply is_derive_Reals; [apply derivable_pt_lim_sin|apply derivable_pt_lim_cos].
    + apply Rmult_eq_reg_r with (cos x * cos x); [|nra].
      transitivity (Rsqr (sin x) + Rsqr (cos x)); [unfold Rsqr; field; auto|]. rewrite sin2_cos2. field. auto.
  - now apply der_asin.
  - now apply der_acos.
  - apply is_derive_Reals. replace (1 / (1 + x * x)) with (/ (1 + x ^ 2)) by (field; nra). apply derivable_pt_lim_atan.
  - apply is_derive_Reals, derivable_pt_lim_exp.
  - apply is_derive_Reals. replace (1 / x) with (/ x) by (field; lra). apply derivable_pt_lim_ln; auto.
  - apply is_derive_Reals. replace (1 / 2 / sqrt x) with (/ (2 * sqrt x)). 2: { pose proof (sqrt_lt_R0 x H). field. lra. }
    now apply derivable_pt_lim_sqrt.
  - replace (- x * x) with (- (x * x)) by ring. apply der_erf.
  - pose proof (exp_pos (- x)). change (un_s USigmoid) with (fun y => 1 / (1 + exp (- y))).
    auto_derive; [lra|]. field. lra.
  - apply der_sinh.
  - apply der_cosh.
  - pose proof (cosh_pos x). pose proof (cosh_sinh x). change (un_s UTanh) with (fun y => sinh y / cosh y). unfold tanh. eapply der_eq.
    + apply (is_derive_div sinh cosh x (cosh x) (sinh x)); [apply der_sinh|apply der_cosh|lra].
    + cbn. field_simplify; [|lra..]. f_equal.
Qed.
Lemma un_dom_tf u x : un_dom true u x -> un_dom false u x.
Proof. destruct u; cbn; auto; lra. Qed.

Section S.
Variable la : linalg xr.
Notation N := (XR la).

Lemma in11_t x : -1 <= x <= 1 -> in11 x = true.
Proof. intros H. unfold in11. now rewrite !rleb_t by lra. Qed.
Lemma un_fin u x : un_dom false u x -> un_f N u (Fin x) = Fin (un_s u x).
Proof.
  destruct u; cbn; intros H; auto.
  - rewrite reqb_f by auto. reflexivity.
  - now rewrite in11_t.
  - now rewrite in11_t.
  - rewrite reqb_f, rltb_t by lra. reflexivity.
  - rewrite rleb_t by lra. reflexivity.
  - pose proof (exp_pos (- x)). rewrite reqb_f by lra. reflexivity.
Qed.
Lemma un_bfin u s x : un_dom true u x -> un_b N u (Fin s) (Fin x) (Fin (un_s u x)) = Fin (s * un_d u x).
Proof.
  destruct u; cbn; intros H; auto.
  - f_equal; ring.
  - f_equal; ring.
  - rewrite reqb_f by nra. f_equal. field. auto.
  - assert (0 < 1 + - (x * x)) by nra. rewrite rleb_t by lra.
    pose proof (sqrt_lt_R0 _ H0). rewrite reqb_f by lra. f_equal. unfold Rminus. field. lra.
  - assert (0 < 1 + - (x * x)) by nra. rewrite rleb_t by lra.
    pose proof (sqrt_lt_R0 _ H0). rewrite reqb_f by lra. cbn. f_equal. unfold Rminus. field. lra.
  - rewrite reqb_f by nra. f_equal. field. nra.
  - rewrite reqb_f by lra. f_equal. field. lra.
  - pose proof (sqrt_lt_R0 _ H). rewrite reqb_f by lra. f_equal. field. lra.
  - f_equal. ring.
  - pose proof (exp_pos (- x)). rewrite reqb_f by nra. f_equal. field. lra.
Qed.

(** ** Powers *)
Lemma powp_fin p x : powp N p (Fin x) = Fin (x ^ Pos.to_nat p).
Proof.
  induction p; cbn [powp].
  - rewrite IHp. cbn. f_equal. rewrite Pos2Nat.inj_xI. cbn. rewrite Nat.add_0_r, pow_add. ring.
  - rewrite IHp. cbn. f_equal. rewrite Pos2Nat.inj_xO. cbn. rewrite Nat.add_0_r, pow_add. ring.
  - cbn. reflexivity.
Qed.
Lemma powfunc_fin z x : ((z < 0)%Z -> x <> 0) -> powfunc N z (Fin x) = Fin (powerRZ x z).
Proof.
  intros H. destruct z; cbn [powfunc powerRZ]; auto.
  - apply powp_fin.
  - cbn [neqb XR n0 xeqb]. rewrite reqb_f by (apply H; lia). cbn [n1 ndiv].
    change (ndiv N (n1 N) (Fin x)) with (xdiv (Fin 1) (Fin x)). rewrite xdiv_fin by (apply H; lia).
    rewrite powp_fin. f_equal. unfold Rdiv. rewrite Rmult_1_l. now rewrite pow_inv.
Qed.
Lemma pow_fin s z x : ((z < 0)%Z -> x <> 0) -> pow_f N s z (Fin x) = Fin (powerRZ x z).
Proof.
  intros H. unfold pow_f. destruct (is_scl s); [now apply powfunc_fin|].
  cbn. unfold xpow. destruct (Z.eqb_spec z 0) as [->|]; [reflexivity|].
  destruct (Z.ltb_spec z 0); rewrite ?andb_false_r; auto. rewrite reqb_f by auto. reflexivity.
Qed.
End S.
Definition pow_d (z : Z) (x : R) : R :=
  match z with
  | Z0 => 0
  | Zpos p => INR (Pos.to_nat p) * x ^ pred (Pos.to_nat p)
  | Zneg p => - INR (Pos.to_nat p) * / x ^ S (Pos.to_nat p)
  end.
Lemma pow_der z x : ((z < 0)%Z -> x <> 0) -> is_derive (fun y => powerRZ y z) x (pow_d z x).
Proof.
  intros H. destruct z; cbn [powerRZ pow_d].
  - apply der_const.
  - eapply der_eq; [apply (is_derive_pow (fun y => y) _ x 1), der_id|]. ring.
  - specialize (H ltac:(lia)). set (n := Pos.to_nat p).
    eapply der_eq.
    + apply (is_derive_inv (fun y => y ^ n) x (INR n * 1 * x ^ pred n)).
      * apply (is_derive_pow (fun y => y) n x 1), der_id.
      * now apply pow_nonzero.
    + assert (x ^ n <> 0) by now apply pow_nonzero. cbn [pow].
      assert (n <> 0)%nat by (unfold n; lia). destruct n as [|n]; [lia|]. cbn [pow pred].
      cbn [pow] in H0. assert (x ^ n <> 0) by (intros HH; rewrite HH in H0; lra). field. auto.
Qed.
Lemma IZR_pos p : IZR (Z.pos p) = INR (Pos.to_nat p).
Proof. now rewrite INR_IZR_INZ, positive_nat_Z. Qed.
Section S2.
Variable la : linalg xr.
Notation N := (XR la).
Lemma pow_bfin z s x : (z <> 0)%Z -> (z <> 1)%Z -> ((z < 0)%Z -> x <> 0) ->
  pow_b N z (Fin s) (Fin x) (Fin (powerRZ x z)) = Fin (s * pow_d z x).
Proof.
  intros H0 H1 H. unfold pow_b. destruct z as [|p|p]; [lia| |].
  - cbn [Z.ltb Z.compare]. cbn. unfold reqb. destruct (Req_EM_T x 0) as [->|HX].
    + f_equal. rewrite pow_i by lia. ring.
    + destruct (Req_EM_T x 0); [tauto|]. f_equal. rewrite IZR_pos. 
      assert (HP : (Pos.to_nat p <> 0)%nat) by lia. destruct (Pos.to_nat p); [lia|]. cbn [pow pred]. field. auto.
  - cbn [Z.ltb Z.compare]. specialize (H ltac:(lia)). cbn. rewrite reqb_f by auto. cbn. f_equal.
    change (Z.neg p) with (- Z.pos p)%Z. rewrite opp_IZR, IZR_pos.
    assert (x ^ Pos.to_nat p <> 0) by now apply pow_nonzero. field. auto.
Qed.

(** ** Binary operators *)
Definition bi_dx (b : bi) (x y : R) : R :=
  match b with BAdd | BSub => 1 | BMul => y | BDiv => 1 / y | _ => 0 end.
Definition bi_dy (b : bi) (x y : R) : R :=
  match b with BAdd => 1 | BSub => -1 | BMul => x | BDiv => - x / (y * y) | _ => 0 end.
Lemma bi_der b (f g : R -> R) (t a c : R) : cmp b = false -> (b = BDiv -> g t <> 0) ->
  is_derive f t a -> is_derive g t c ->
  is_derive (fun t => bi_s b (f t) (g t)) t (bi_dx b (f t) (g t) * a + bi_dy b (f t) (g t) * c).
Proof.
  intros HC HD Hf Hg. destruct b; try discriminate HC; cbn.
  - eapply der_eq; [apply der_plus; eauto|ring].
  - eapply der_eq; [apply der_minus; eauto|ring].
  - eapply der_eq; [apply der_mult; eauto|ring].
  - specialize (HD eq_refl). eapply der_eq; [apply (is_derive_div f g); eauto|]. field. auto.
Qed.
Lemma bi_fin b d f g sq x y : bi_dom d b sq f g x y -> bi_f N sq b (Fin x) (Fin y) = Fin (bi_s b x y).
Proof.
  destruct b; cbn; intros H; auto.
  - now rewrite reqb_f.
  - unfold nofb, b2r. now destruct (rltb x y).
  - rewrite xleb_fin. unfold nofb, b2r. now destruct (rleb x y).
  - unfold nofb, b2r. now destruct (rltb y x).
  - rewrite xleb_fin. unfold nofb, b2r. now destruct (rleb y x).
  - unfold nofb, b2r. now destruct (reqb x y).
  - unfold nofb, b2r. now destruct (reqb x y).
  - destruct sq.
    + unfold ntrue, nofb, b2r. cbn. now destruct (reqb x 0), (reqb y 0).
    + destruct H as [[H1 H2] _]. unfold nmin. cbn.
      destruct H1 as [->| ->], H2 as [->| ->]; unfold b2r;
      repeat (rewrite reqb_refl || (rewrite reqb_f by lra) || (rewrite rltb_t by lra) || (rewrite rltb_f by lra)); reflexivity.
  - destruct sq.
    + unfold ntrue, nofb, b2r. cbn. now destruct (reqb x 0), (reqb y 0).
    + destruct H as [[H1 H2] _]. unfold nmax. cbn.
      destruct H1 as [->| ->], H2 as [->| ->]; unfold b2r;
      repeat (rewrite reqb_refl || (rewrite reqb_f by lra) || (rewrite rltb_t by lra) || (rewrite rltb_f by lra)); reflexivity.
Qed.
Lemma bi_blfin b s x y : cmp b = false -> (b = BDiv -> y <> 0) ->
  bi_bl N b (Fin s) (Fin x) (Fin y) (Fin (bi_s b x y)) = Fin (s * bi_dx b x y).
Proof.
  intros HC H. destruct b; try discriminate HC; cbn.
  - f_equal; ring.
  - f_equal; ring.
  - reflexivity.
  - specialize (H eq_refl). rewrite reqb_f by auto. f_equal. field. auto.
Qed.
Lemma bi_brfin b s x y : cmp b = false -> (b = BDiv -> y <> 0) ->
  bi_br N b (Fin s) (Fin x) (Fin y) (Fin (bi_s b x y)) = Fin (s * bi_dy b x y).
Proof.
  intros HC H. destruct b; try discriminate HC; cbn.
  - f_equal; ring.
  - f_equal; ring.
  - reflexivity.
  - specialize (H eq_refl). rewrite reqb_f by auto. f_equal. field. auto.
Qed.
Definition oe_dx (q : oe) (x y : R) : R :=
  match q with OAdd | OSub => 1 | OMul => y | ODiv => 1 / y end.
Definition oe_dy (q : oe) (x y : R) : R :=
  match q with OAdd => 1 | OSub => -1 | OMul => x | ODiv => - x / (y * y) end.
Lemma oe_der q (f g : R -> R) (t a c : R) : (q = ODiv -> g t <> 0) ->
  is_derive f t a -> is_derive g t c ->
  is_derive (fun t => oe_s q (f t) (g t)) t (oe_dx q (f t) (g t) * a + oe_dy q (f t) (g t) * c).
Proof.
  intros HD Hf Hg. destruct q; cbn.
  - eapply der_eq; [apply der_plus; eauto|ring].
  - eapply der_eq; [apply der_minus; eauto|ring].
  - eapply der_eq; [apply der_mult; eauto|ring].
  - specialize (HD eq_refl). eapply der_eq; [apply (is_derive_div f g); eauto|]. field. auto.
Qed.
Lemma oe_fin q x y : (q = ODiv -> y <> 0) -> oe_f N q (Fin x) (Fin y) = Fin (oe_s q x y).
Proof. destruct q; cbn; intros H; auto. now rewrite reqb_f by auto. Qed.
Lemma oe_blfin q s x y : (q = ODiv -> y <> 0) -> oe_bl N q (Fin s) (Fin x) (Fin y) = Fin (s * oe_dx q x y).
Proof.
  intros H. destruct q; cbn; try (f_equal; ring). specialize (H eq_refl). rewrite reqb_f by auto. f_equal. field. auto.
Qed.
Lemma oe_brfin q s x y : (q = ODiv -> y <> 0) -> oe_br N q (Fin s) (Fin x) (Fin y) = Fin (s * oe_dy q x y).
Proof.
  intros H. destruct q; cbn; try (f_equal; ring). specialize (H eq_refl).
  rewrite reqb_f by nra. f_equal. field. auto.
Qed.
(** Comparisons are constant near the points of their region. *)
Lemma near (f g : R -> R) t (P : R -> R -> Prop) : continuous f t -> continuous g t ->
  (forall x y, P x y -> exists e : posreal, forall x' y', Rabs (x' - x) < e -> Rabs (y' - y) < e -> P x' y') ->
  P (f t) (g t) -> locally t (fun t' => P (f t') (g t')).
Proof.
  intros Hf Hg HP H. destruct (HP _ _ H) as [e He].
  specialize (Hf (ball (f t) e) (locally_ball _ e)). specialize (Hg (ball (g t) e) (locally_ball _ e)).
  unfold filtermap in Hf, Hg.
  apply (filter_imp (fun x => ball (f t) e (f x) /\ ball (g t) e (g x))).
  - intros x [H1 H2]. apply He; [exact H1|exact H2].
  - apply filter_and; assumption.
Qed.
Lemma near_lt f g t : continuous f t -> continuous g t -> f t < g t -> locally t (fun t' : R => f t' < g t').
Proof.
  intros Hf Hg H. apply (near f g t (fun x y => x < y)); auto. intros x y L.
  assert (P : 0 < (y - x) / 2) by lra. exists (mkposreal _ P). cbn. intros x' y' A B.
  apply Rabs_def2 in A. apply Rabs_def2 in B. lra.
Qed.
Lemma near_ne f g t : continuous f t -> continuous g t -> f t <> g t ->
  (f t < g t /\ locally t (fun t' : R => f t' < g t')) \/ (g t < f t /\ locally t (fun t' : R => g t' < f t')).
Proof.
  intros Hf Hg H. destruct (Rtotal_order (f t) (g t)) as [L|[L|L]]; [left|tauto|right]; split; auto; now apply near_lt.
Qed.
Lemma cmp_flat b d sq ff gf (f g : R -> R) t : cmp b = true -> d = true ->
  continuous f t -> continuous g t ->
  (ff = true -> locally t (fun t' => f t' = f t)) -> (gf = true -> locally t (fun t' => g t' = g t)) ->
  bi_dom d b sq ff gf (f t) (g t) ->
  locally t (fun t' => bi_s b (f t') (g t') = bi_s b (f t) (g t)).
Proof.
  intros HC -> Cf Cg Hf Hg HD.
  assert (B : ff = true -> gf = true -> locally t (fun t' => bi_s b (f t') (g t') = bi_s b (f t) (g t))).
  { intros H1 H2. apply (filter_imp (fun t' => f t' = f t /\ g t' = g t)); [intros x [-> ->]; auto|].
    apply filter_and; auto. }
  assert (NZ : forall (h : R -> R) hf, continuous h t -> (hf = true -> locally t (fun t' => h t' = h t)) ->
     hf = true \/ h t <> 0 -> locally t (fun t' => reqb (h t') 0 = reqb (h t) 0)).
  { intros h hf Ch Hh [H|H]; [eapply filter_imp; [|apply Hh; auto]; intros ? ->; auto|].
    destruct (near_ne h (fun _ => 0) t Ch (continuous_const 0 t) H) as [[A L]|[A L]];
    eapply filter_imp; [|exact L| |exact L]; intros x Hx; cbn in *; rewrite !reqb_f; auto; lra. }
  destruct b; try discriminate HC; cbn in HD |- *;
  try (destruct (HD eq_refl) as [[H1 H2]|H]; [now apply B|];
       destruct (near_ne f g t Cf Cg H) as [[A L]|[A L]]; eapply filter_imp; [|exact L| |exact L];
       intros x Hx; cbn in Hx |- *; f_equal; unfold rltb, rleb, reqb;
       repeat match goal with |- context [if ?a then _ else _] => destruct a end; auto; lra).
  - destruct sq.
    + destruct (HD eq_refl) as [H1 H2]. eapply filter_imp; [|apply filter_and; [apply (NZ f ff Cf Hf H1)|apply (NZ g gf Cg Hg H2)]].
      intros x [-> ->]. reflexivity.
    + destruct HD as [_ HD]. destruct (HD eq_refl). now apply B.
  - destruct sq.
    + destruct (HD eq_refl) as [H1 H2]. eapply filter_imp; [|apply filter_and; [apply (NZ f ff Cf Hf H1)|apply (NZ g gf Cg Hg H2)]].
      intros x [-> ->]. reflexivity.
    + destruct HD as [_ HD]. destruct (HD eq_refl). now apply B.
Qed.
End S2.
