(** Determinant, log-determinant, multivariate normal and Wishart nodes. *)
From Coq Require Import Reals Lra Psatz ClassicalEpsilon.
From Coquelicot Require Import Coquelicot.
From Verif Require Import Base Num Expr Node Stat Machine Wf Pure LBase LKind LState XR Spec LReal LScal LKA LKB LKS LMx LMat.
Open Scope R_scope.
Set Bullet Behavior "Strict Subproofs".
Local Arguments mkm : simpl never.
Local Arguments mm : simpl never.
Local Arguments mt : simpl never.

Lemma m_mkm n f i j : (i < n)%nat -> (j < n)%nat -> m_of n (mkm n n f) i j = f i j.
Proof. intros Hi Hj. unfold m_of, el. now rewrite mkm_nth. Qed.
Lemma ip_mm n l dv : length l = (n * n)%nat -> ip l dv = sumn n (fun i => sumn n (fun j => m_of n l i j * m_of n dv i j)).
Proof.
  intros L. rewrite (ip_mkm n n l dv (m_of n dv)) by auto. apply sumn_swap.
Qed.
Lemma ip_scal c l dv : ip (map (Rmult c) l) dv = c * ip l dv.
Proof.
  unfold ip. rewrite map_length, <- sumn_l. apply sumn_ext. intros i Hi. unfold el at 1.
  rewrite (nth_indep _ 0 (c * 0)) by now rewrite map_length. rewrite map_nth. fold (el l i). ring.
Qed.
Lemma map_mul_fin c l : map (xmul (Fin c)) (map Fin l) = map Fin (map (Rmult c) l).
Proof. rewrite !map_map. reflexivity. Qed.


(** *** Calculus of the multivariate normal and of the Wishart log-density *)
Lemma sumn4 n f : sumn n (fun i => sumn n (fun j => sumn n (fun p => sumn n (fun q => f i j p q))))
  = sumn n (fun p => sumn n (fun q => sumn n (fun i => sumn n (fun j => f i j p q)))).
Proof.
  transitivity (sumn n (fun i => sumn n (fun p => sumn n (fun q => sumn n (fun j => f i j p q))))).
  - apply sumn_ext. intros i _. rewrite sumn_swap. apply sumn_ext. intros p _. apply sumn_swap.
  - rewrite sumn_swap. apply sumn_ext. intros p _. apply sumn_swap.
Qed.
Lemma sumn_prod n m f g : sumn n (fun i => sumn m (fun j => f i * g j)) = sumn n f * sumn m g.
Proof. rewrite <- sumn_r. apply sumn_ext. intros i _. apply sumn_l. Qed.
Lemma sumn2_ext n f g : (forall i j, (i < n)%nat -> (j < n)%nat -> f i j = g i j) ->
  sumn n (fun i => sumn n (fun j => f i j)) = sumn n (fun i => sumn n (fun j => g i j)).
Proof. intros H. apply sumn_ext. intros i Hi. apply sumn_ext. intros j Hj. auto. Qed.
Lemma sumn2_plus n f g : sumn n (fun i => sumn n (fun j => f i j + g i j))
  = sumn n (fun i => sumn n (fun j => f i j)) + sumn n (fun i => sumn n (fun j => g i j)).
Proof. rewrite <- sumn_plus. apply sumn_ext. intros. apply sumn_plus. Qed.
Lemma sumn2_l n c f : sumn n (fun i => sumn n (fun j => c * f i j)) = c * sumn n (fun i => sumn n (fun j => f i j)).
Proof. rewrite <- sumn_l. apply sumn_ext. intros. apply sumn_l. Qed.
Lemma der_mvn n (S : R -> mat) (d : R -> nat -> R) t S' d' :
  derm n S t S' -> (forall i, (i < n)%nat -> is_derive (fun s => d s i) t (d' i)) -> posdef n (S t) ->
  let B := minv n (S t) in let z i := sumn n (fun p => B i p * d t p) in
  is_derive (fun s => - (1 / 2) * quad n (minv n (S s)) (d s) (d s) - 1 / 2 * ln (det n (S s))) t
    (sumn n (fun i => - z i * d' i) + sumn n (fun i => sumn n (fun j => - (1 / 2) * (B i j - z i * z j) * S' i j))).
Proof.
  intros HS Hd HP B z. pose proof (posdef_det n _ HP) as DP.
  assert (NZ : det n (S t) <> 0) by lra.
  pose proof (minv_symm n (S t) (proj1 HP)) as SB. fold B in SB.
  pose proof (der_minv n S t S' HS NZ) as HB. cbv beta in HB. fold B in HB.
  set (B' := fun i j => - sumn n (fun p => sumn n (fun q => B i p * S' p q * B q j))) in HB.
  eapply der_eq.
  - apply der_minus; [|apply (der_scal (fun s => ln (det n (S s)))), (der_lndet_pos n S t S' HS DP)].
    apply (der_scal (fun s => quad n (minv n (S s)) (d s) (d s))).
    apply (der_sumn n (fun i s => sumn n (fun j => d s i * minv n (S s) i j * d s j))). intros i Hi.
    apply (der_sumn n (fun j s => d s i * minv n (S s) i j * d s j)). intros j Hj.
    apply (der_mult (fun s => d s i * minv n (S s) i j) (fun s => d s j)); [|auto].
    apply (der_mult (fun s => d s i) (fun s => minv n (S s) i j)); [auto|apply (HB i j Hi Hj)].
  - cbv beta. fold B.
    assert (Q1 : sumn n (fun i => sumn n (fun j => d' i * B i j * d t j)) = sumn n (fun i => d' i * z i)).
    { apply sumn_ext. intros i Hi. unfold z. rewrite <- sumn_l. apply sumn_ext. intros. ring. }
    assert (Q2 : sumn n (fun i => sumn n (fun j => d t i * B i j * d' j)) = sumn n (fun i => d' i * z i)).
    { rewrite sumn_swap. apply sumn_ext. intros j Hj. unfold z. rewrite <- sumn_l. apply sumn_ext. intros i Hi.
      rewrite (SB i j) by auto. ring. }
    assert (Q3 : sumn n (fun i => sumn n (fun j => d t i * B' i j * d t j)) = - sumn n (fun p => sumn n (fun q => z p * z q * S' p q))).
    { rewrite <- sumn_opp. rewrite (sumn2_ext n _ (fun i j => sumn n (fun p => sumn n (fun q => - (d t i * B i p * S' p q * B q j * d t j))))).
      - rewrite sumn4. apply sumn_ext. intros p Hp. rewrite <- sumn_opp. apply sumn_ext. intros q Hq.
        transitivity (sumn n (fun i => sumn n (fun j => (- S' p q * (B p i * d t i)) * (B q j * d t j)))).
        + apply sumn2_ext. intros i j Hi Hj. rewrite (SB i p) by auto. ring.
        + rewrite sumn_prod, sumn_l. unfold z. ring.
      - intros i j Hi Hj. unfold B'. rewrite (sumn_ext n (fun p => sumn n (fun q => - (d t i * B i p * S' p q * B q j * d t j)))
          (fun p => - (d t i * d t j) * sumn n (fun q => B i p * S' p q * B q j))).
        + rewrite sumn_l. ring.
        + intros p Hp. rewrite <- sumn_l. apply sumn_ext. intros. ring. }
    assert (Q4 : sumn n (fun i => sumn n (fun j => S' i j * B j i)) = sumn n (fun i => sumn n (fun j => B i j * S' i j))).
    { apply sumn2_ext. intros i j Hi Hj. rewrite (SB j i) by auto. ring. }
    rewrite Q4.
    rewrite (sumn2_ext n _ (fun i j => (d' i * B i j * d t j + d t i * B' i j * d t j) + d t i * B i j * d' j))
      by (intros; unfold B'; ring).
    rewrite !sumn2_plus, Q1, Q2, Q3.
    rewrite (sumn2_ext n (fun i j => - (1 / 2) * (B i j - z i * z j) * S' i j)
      (fun i j => - (1 / 2) * (B i j * S' i j) + 1 / 2 * (z i * z j * S' i j))) by (intros; field).
    rewrite sumn2_plus, !sumn2_l.
    rewrite (sumn_ext n (fun i => - z i * d' i) (fun i => - (d' i * z i))) by (intros; ring). rewrite sumn_opp. field.
Qed.
Lemma der_wish n (X V : R -> mat) (nu : R -> R) t X' V' nu' :
  derm n X t X' -> derm n V t V' -> is_derive nu t nu' -> posdef n (X t) -> posdef n (V t) ->
  let B := minv n (X t) in let W := minv n (V t) in
  is_derive (fun s => (nu s - INR n - 1) / 2 * ln (det n (X s))
      - 1 / 2 * sumn n (fun i => sumn n (fun j => X s i j * minv n (V s) j i)) - nu s / 2 * ln (det n (V s))) t
    (sumn n (fun i => sumn n (fun j => 1 / 2 * ((nu t - INR n - 1) * B i j - W i j) * X' i j)) +
     sumn n (fun i => sumn n (fun j => 1 / 2 * (sumn n (fun p => W i p * sumn n (fun q => X t p q * W q j)) - nu t * W i j) * V' i j)) +
     (1 / 2 * ln (det n (X t)) - 1 / 2 * ln (det n (V t))) * nu').
Proof.
  intros HX HV Hn PX PV B W. pose proof (posdef_det n _ PX) as DX. pose proof (posdef_det n _ PV) as DV.
  pose proof (minv_symm n (X t) (proj1 PX)) as SB. fold B in SB.
  pose proof (minv_symm n (V t) (proj1 PV)) as SW. fold W in SW. pose proof (proj1 PX) as SX.
  pose proof (der_minv n V t V' HV ltac:(lra)) as HW. cbv beta in HW. fold W in HW.
  set (W' := fun i j => - sumn n (fun p => sumn n (fun q => W i p * V' p q * W q j))) in HW.
  eapply der_eq.
  - apply der_minus; [apply der_minus|].
    + apply (der_mult (fun s => (nu s - INR n - 1) / 2) (fun s => ln (det n (X s)))); [|apply (der_lndet_pos n X t X' HX DX)].
      apply (der_ext (fun s => / 2 * (nu s - INR n - 1))); [intros; field|].
      apply (der_scal (fun s => nu s - INR n - 1)). apply der_minus; [apply der_minus; [exact Hn|]|]; apply der_const.
    + apply (der_scal (fun s => sumn n (fun i => sumn n (fun j => X s i j * minv n (V s) j i)))).
      apply (der_sumn n (fun i s => sumn n (fun j => X s i j * minv n (V s) j i))). intros i Hi.
      apply (der_sumn n (fun j s => X s i j * minv n (V s) j i)). intros j Hj.
      apply (der_mult (fun s => X s i j) (fun s => minv n (V s) j i)); [auto|apply (HW j i Hj Hi)].
    + apply (der_mult (fun s => nu s / 2) (fun s => ln (det n (V s)))); [|apply (der_lndet_pos n V t V' HV DV)].
      apply (der_ext (fun s => / 2 * nu s)); [intros; field|]. apply (der_scal nu), Hn.
  - cbv beta. fold B W.
    assert (Q1 : forall M' : mat, sumn n (fun i => sumn n (fun j => M' i j * B j i)) = sumn n (fun i => sumn n (fun j => B i j * M' i j))).
    { intros M'. apply sumn2_ext. intros i j Hi Hj. rewrite (SB j i) by auto. ring. }
    assert (Q2 : forall M' : mat, sumn n (fun i => sumn n (fun j => M' i j * W j i)) = sumn n (fun i => sumn n (fun j => W i j * M' i j))).
    { intros M'. apply sumn2_ext. intros i j Hi Hj. rewrite (SW j i) by auto. ring. }
    assert (Q3 : sumn n (fun i => sumn n (fun j => X t i j * W' j i))
      = - sumn n (fun i => sumn n (fun j => sumn n (fun p => W i p * sumn n (fun q => X t p q * W q j)) * V' i j))).
    { rewrite (sumn2_ext n _ (fun i j => sumn n (fun p => sumn n (fun q => - (X t i j * W j p * V' p q * W q i))))).
      - rewrite sumn4, <- sumn_opp. apply sumn_ext. intros p Hp. rewrite <- sumn_opp. apply sumn_ext. intros q Hq.
        transitivity (sumn n (fun i => sumn n (fun j => - V' p q * (W p j * (X t j i * W i q))))).
        + apply sumn2_ext. intros i j Hi Hj. rewrite (SX i j), (SW j p), (SW q i) by auto. ring.
        + rewrite sumn_swap, sumn2_l.
          rewrite (sumn_ext n (fun p0 => W p p0 * sumn n (fun q0 => X t p0 q0 * W q0 q)) (fun i => sumn n (fun j => W p i * (X t i j * W j q))))
            by (intros; now rewrite sumn_l). ring.
      - intros i j Hi Hj. unfold W'. rewrite (sumn_ext n (fun p => sumn n (fun q => - (X t i j * W j p * V' p q * W q i)))
          (fun p => - X t i j * sumn n (fun q => W j p * V' p q * W q i))).
        + rewrite sumn_l. ring.
        + intros p Hp. rewrite <- sumn_l. apply sumn_ext. intros. ring. }
    rewrite !sumn2_plus, Q3, (Q1 X'), (Q2 X'), (Q2 V').
    rewrite (sumn2_ext n (fun i j => 1 / 2 * ((nu t - INR n - 1) * B i j - W i j) * X' i j)
      (fun i j => ((nu t - INR n - 1) / 2) * (B i j * X' i j) + - (1 / 2) * (W i j * X' i j))) by (intros; field).
    rewrite (sumn2_ext n (fun i j => 1 / 2 * (sumn n (fun p => W i p * sumn n (fun q => X t p q * W q j)) - nu t * W i j) * V' i j)
      (fun i j => 1 / 2 * (sumn n (fun p => W i p * sumn n (fun q => X t p q * W q j)) * V' i j) + - (nu t / 2) * (W i j * V' i j))) by (intros; field).
    rewrite !sumn2_plus, !sumn2_l. field.
Qed.

Section K.
Variable la : linalg xr.
Hypothesis LA : la_ok la.
Notation N := (XR la).
Ltac nx := change (carrier (XR la)) with xr in *.

Lemma nprod_fin d : nprod N (map Fin d) = Fin (prodn (length d) (el d)).
Proof.
  change (nprod N (map Fin d)) with (fold_left (nmul N) (map Fin d) (n1 N)).
  assert (G : forall l a, fold_left (nmul N) (map Fin l) (Fin a) = Fin (a * prodn (length l) (el l))).
  { induction l as [|x l IH]; intros a; cbn [map fold_left length].
    - cbn. f_equal. ring.
    - change (nmul N (Fin a) (Fin x)) with (Fin (a * x)). rewrite IH. f_equal. rewrite prodn_S.
      change (el (x :: l) 0) with x. change (fun i => el (x :: l) (S i)) with (el l). ring. }
  change (n1 N) with (Fin 1). rewrite G. f_equal. ring.
Qed.
Lemma sq_facts k ss : (exists f, k = KDet f \/ k = KLogDet f) -> kshape_ok k ss = true ->
  exists n, ss = [Sh Mat n n].
Proof.
  intros [f [-> | ->]]; destruct ss as [|[k r c] [|]]; unfold kshape_ok; cbn; rewrite ?andb_false_r; try discriminate;
  rewrite !andb_true_iff; intros [_ [H1 H2]]; apply Nat.eqb_eq in H2; subst; destruct k; try discriminate; eauto.
Qed.
Definition fdom (f : fact) (n : nat) (A : mat) : Prop := match f with LU => det n A <> 0 | _ => posdef n A end.
Lemma fdom_det f n A : fdom f n A -> det n A <> 0.
Proof. destruct f; cbn; auto; intros H; apply Rgt_not_eq, posdef_det, H. Qed.
Lemma det_f_fin f n x : length x = (n * n)%nat -> fdom f n (m_of n x) ->
  det_f N f n (map Fin x) = Fin (det n (m_of n x)) /\ det_valid N f n (map Fin x) = true.
Proof.
  intros L HD. pose proof (fdom_det f n _ HD) as NZ. destruct f; cbn in HD; unfold det_f, det_valid; change (nla N) with la; nx.
  - split; [now apply (la_lu_det la LA)|now apply (la_lu_ok la LA)].
  - destruct (la_ldlt la LA n x L HD) as [H1 [[d [H2 [H3 H4]]] _]]. rewrite H2, nprod_fin, H3, H4. split; auto.
    rewrite H1. change (neqb N) with xeqb. cbn. rewrite reqb_f by auto. reflexivity.
  - destruct (la_llt la LA n x L HD) as [H1 _]. rewrite H1. unfold nsq. cbn. split.
    + f_equal. apply sqrt_sqrt. apply Rlt_le, posdef_det, HD.
    + apply (la_llt_ok la LA); auto. apply HD.
Qed.
Lemma xabs_fin r : nabs N (Fin r) = Fin (Rabs r). Proof. reflexivity. Qed.
Lemma nlog_fin r : 0 < r -> nlog N (Fin r) = Fin (ln r).
Proof. intros H. change (nlog N) with xlog. now apply xlog_fin. Qed.
Lemma logdet_f_fin f n x : length x = (n * n)%nat -> fdom f n (m_of n x) ->
  logdet_f N f n (map Fin x) = Fin (ln (Rabs (det n (m_of n x)))) /\ logdet_valid N f n (map Fin x) = true.
Proof.
  intros L HD. pose proof (fdom_det f n _ HD) as NZ. pose proof (Rabs_pos_lt _ NZ) as PA.
  destruct f; cbn in HD; unfold logdet_valid, logdet_f; change (nla N) with la; nx.
  - rewrite (la_lu_det la LA) by auto. rewrite xabs_fin, nlog_fin by auto. split; auto. now apply (la_lu_ok la LA).
  - destruct (la_ldlt la LA n x L HD) as [H1 [[d [H2 [H3 H4]]] _]]. rewrite H2, nprod_fin, H3, H4, xabs_fin, nlog_fin by auto.
    split; auto.
  - destruct (la_llt la LA n x L HD) as [H1 _]. pose proof (posdef_det n _ HD) as DP. rewrite H1, xabs_fin.
    assert (SP : 0 < sqrt (det n (m_of n x))) by now apply sqrt_lt_R0.
    rewrite (Rabs_right (sqrt _)) by lra. rewrite nlog_fin by auto. split.
    + change (Fin (2 * ln (sqrt (det n (m_of n x)))) = Fin (ln (Rabs (det n (m_of n x))))). f_equal.
      rewrite Rabs_right by lra. rewrite <- (sqrt_sqrt (det n (m_of n x))) at 2 by lra. rewrite ln_mult by auto. ring.
    + apply (la_llt_ok la LA); auto. apply HD.
Qed.
Lemma det_bmap_fin f n x : length x = (n * n)%nat -> fdom f n (m_of n x) ->
  det_bmap N f n (map Fin x) = map Fin (mkm n n (fun i j => minv n (m_of n x) j i)).
Proof.
  intros L HD. destruct f; cbn in HD; unfold det_bmap; change (nla N) with la; nx.
  - rewrite (la_lu_inv la LA) by auto. rewrite mt_fin by apply mkm_length. f_equal. apply mkm_ext. intros. now apply m_mkm.
  - destruct (la_ldlt la LA n x L HD) as [_ [_ H]]. rewrite H. f_equal. apply mkm_ext. intros.
    apply minv_symm; auto. apply HD.
  - destruct (la_llt la LA n x L HD) as [_ H]. rewrite H. f_equal. apply mkm_ext. intros.
    apply minv_symm; auto. apply HD.
Qed.

Lemma KV_det f : KV la (KDet f).
Proof.
  intros cs fl ss s u vs HS HD HL _ HDom. destruct (sq_facts _ _ (ex_intro _ f (or_introl eq_refl)) HS) as [n ->].
  assert (L0 : length (nth 0 vs []) = (n * n)%nat) by (apply (lensR_nth vs _ 0 HL); cbn; lia).
  unfold kf. cbn [kfwd snd]. rewrite arg_fin. unfold nth_sh. cbn [nth rows kden map].
  destruct (det_f_fin f n (nth 0 vs []) L0) as [E _]; [destruct f; exact HDom|]. nx. rewrite E. reflexivity.
Qed.
Lemma KV_logdet f : KV la (KLogDet f).
Proof.
  intros cs fl ss s u vs HS HD HL _ HDom. destruct (sq_facts _ _ (ex_intro _ f (or_intror eq_refl)) HS) as [n ->].
  assert (L0 : length (nth 0 vs []) = (n * n)%nat) by (apply (lensR_nth vs _ 0 HL); cbn; lia).
  unfold kf. cbn [kfwd snd]. rewrite arg_fin. unfold nth_sh. cbn [nth rows kden map].
  destruct (logdet_f_fin f n (nth 0 vs []) L0) as [E _]; [destruct f; exact HDom|]. nx. rewrite E. reflexivity.
Qed.
Lemma curves_derm cs fl ss vs dvs t0 i n : curves cs fl ss vs dvs t0 ->
  derm n (fun t => m_of n (nth i (vs t) [])) t0 (m_of n (nth i dvs [])).
Proof. intros HC a b _ _. unfold m_of. apply (cv_der _ _ _ _ _ _ HC). Qed.
Lemma KA_det f : KA la (KDet f).
Proof.
  intros cs fl ss s u vs dvs t0 HS HD HC HG HDom. destruct (sq_facts _ _ (ex_intro _ f (or_introl eq_refl)) HS) as [n ->].
  assert (L0 : length (nth 0 (vs t0) []) = (n * n)%nat) by (apply (lensR_nth _ _ 0 (cv_len _ _ _ _ _ _ HC t0)); cbn; lia).
  set (x := nth 0 (vs t0) []) in *. set (dx := nth 0 dvs []).
  assert (FD : fdom f n (m_of n x)) by (destruct f; exact HDom). pose proof (fdom_det _ _ _ FD) as NZ.
  set (d := det n (m_of n x)) in *.
  set (G := sumn n (fun i => sumn n (fun j => m_of n dx i j * minv n (m_of n x) j i))).
  exists [d * G]. split; [reflexivity|]. split.
  { apply (der_one (fun t => det n (m_of n (nth 0 (vs t) [])))).
    apply (der_det_minv n (fun t => m_of n (nth 0 (vs t) []))); auto. eapply curves_derm; eauto. }
  intros seed LS HU. destruct seed as [|sv [|]]; try discriminate LS.
  destruct (det_f_fin f n x L0 FD) as [E1 E2].
  exists (fun _ => if reqb sv 0 then None else Some (map (Rmult (sv * d)) (mkm n n (fun i j => minv n (m_of n x) j i)))).
  split; [|split].
  - intros i Hi. unfold seeds, kf. cbn [kfwd kseed kpre vsel kget]. unfold nth_sh. cbn [nth rows].
    rewrite arg_fin. fold x. cbn [ma map]. unfold hd0. cbn [hd].
    change (neqb N) with xeqb. change (n0 N) with (Fin 0). cbn [xeqb]. nx. rewrite E1, E2. fold d.
    destruct (reqb sv 0); cbn [orb negb option_map]; auto. f_equal.
    rewrite det_bmap_fin by auto. exact (map_mul_fin (sv * d) _).
  - intros i l Hi E. assert (i = 0)%nat by (cbn in Hi; lia). subst i. split; [|discriminate 2].
    destruct (reqb sv 0); inversion E; subst l. rewrite map_length, mkm_length. reflexivity.
  - cbn [length sumn]. fold dx. unfold ip at 1. cbn [length sumn]. change (el [sv] 0) with sv. change (el [d * G] 0) with (d * G).
    unfold reqb. destruct (Req_EM_T sv 0) as [->|Z]; [ring|]. rewrite ip_scal, (ip_mm n) by apply mkm_length.
    rewrite !Rplus_0_l, <- Rmult_assoc. f_equal. apply sumn_ext. intros i Hi. apply sumn_ext. intros j Hj.
    rewrite m_mkm by auto. ring.
Qed.
Lemma KA_logdet f : KA la (KLogDet f).
Proof.
  intros cs fl ss s u vs dvs t0 HS HD HC HG HDom. destruct (sq_facts _ _ (ex_intro _ f (or_intror eq_refl)) HS) as [n ->].
  assert (L0 : length (nth 0 (vs t0) []) = (n * n)%nat) by (apply (lensR_nth _ _ 0 (cv_len _ _ _ _ _ _ HC t0)); cbn; lia).
  set (x := nth 0 (vs t0) []) in *. set (dx := nth 0 dvs []).
  assert (FD : fdom f n (m_of n x)) by (destruct f; exact HDom). pose proof (fdom_det _ _ _ FD) as NZ.
  set (G := sumn n (fun i => sumn n (fun j => m_of n dx i j * minv n (m_of n x) j i))).
  exists [G]. split; [reflexivity|]. split.
  { apply (der_one (fun t => ln (Rabs (det n (m_of n (nth 0 (vs t) [])))))).
    apply (der_lndet n (fun t => m_of n (nth 0 (vs t) []))); auto. eapply curves_derm; eauto. }
  intros seed LS HU. destruct seed as [|sv [|]]; try discriminate LS.
  destruct (logdet_f_fin f n x L0 FD) as [E1 E2].
  exists (fun _ => if reqb sv 0 then None else Some (map (Rmult sv) (mkm n n (fun i j => minv n (m_of n x) j i)))).
  split; [|split].
  - intros i Hi. unfold seeds, kf. cbn [kfwd kseed kpre vsel kget]. unfold nth_sh. cbn [nth rows].
    rewrite arg_fin. fold x. cbn [ma map]. unfold hd0. cbn [hd].
    change (neqb N) with xeqb. change (n0 N) with (Fin 0). cbn [xeqb]. nx. rewrite E2.
    destruct (reqb sv 0); cbn [orb negb option_map]; auto. f_equal.
    rewrite det_bmap_fin by auto. exact (map_mul_fin sv _).
  - intros i l Hi E. assert (i = 0)%nat by (cbn in Hi; lia). subst i. split; [|discriminate 2].
    destruct (reqb sv 0); inversion E; subst l. rewrite map_length, mkm_length. reflexivity.
  - cbn [length sumn]. fold dx. unfold ip at 1. cbn [length sumn]. change (el [sv] 0) with sv. change (el [G] 0) with G.
    unfold reqb. destruct (Req_EM_T sv 0) as [->|Z]; [ring|]. rewrite ip_scal, (ip_mm n) by apply mkm_length.
    rewrite !Rplus_0_l. f_equal. apply sumn_ext. intros i Hi. apply sumn_ext. intros j Hj.
    rewrite m_mkm by auto. ring.
Qed.

(** *** Log-density nodes with matrices *)
Definition SM (q : stat) : Prop := forall cs fl ss vs gs s0 d u,
  forallb shape_ok ss = true -> stat_shape_ok q ss = true -> lensR vs ss ->
  (forall i, nth i cs false = true -> nth i gs (Ok []) = Ok (map Fin (nth i vs []))) ->
  stat_init N q cs ss gs = Ok s0 -> sdom d u q cs fl ss vs ->
  exists s1, stat_fwd N q cs ss s0 (FF vs) = Ok (s1, Fin (sden q ss vs)) /\
    (d = true -> exists G : nat -> list R,
      (forall i, (i < length ss)%nat -> length (G i) = size (nth_sh ss i)) /\
      (forall cv dvs t0, curves cs fl ss cv dvs t0 -> cv t0 = vs ->
        is_derive (fun t => sden q ss (cv t)) t0 (sumn (length ss) (fun i => ip (G i) (nth i dvs [])))) /\
      forall seed i, seed <> 0 -> (i < length ss)%nat ->
        stat_bwd N q cs ss s1 (Fin seed) (FF vs) i = Some (map Fin (map (Rmult seed) (G i))) \/
        stat_bwd N q cs ss s1 (Fin seed) (FF vs) i = None /\ (nth i cs false = true \/ nth i fl false = true)).

Lemma KV_SM q : SM q -> KV la (KStat q).
Proof.
  intros HM cs fl ss s u vs HS HD HL [gs [s0 [HI [HG HN]]]] HDom.
  unfold kshape_ok in HS. apply andb_true_iff in HS. destruct HS as [HW HS].
  destruct (HM cs fl ss vs gs s0 false u HW HS HL HG HI HDom) as [s1 [E1 _]].
  destruct (stat_run la q cs ss s (FF vs) gs s0 s1 _ HI HN E1) as [s' [E2 _]]. rewrite E2. reflexivity.
Qed.
Lemma KA_SM q : SM q -> KA la (KStat q).
Proof.
  intros HM cs fl ss s u vs dvs t0 HS HK HC [gs [s0 [HI [HG HN]]]] HDom.
  unfold kshape_ok in HS. apply andb_true_iff in HS. destruct HS as [HW HS].
  destruct (HM cs fl ss (vs t0) gs s0 true u HW HS (cv_len _ _ _ _ _ _ HC t0) HG HI HDom) as [s1 [E1 HB]].
  destruct (HB eq_refl) as [G [GL [GD GB]]].
  destruct (stat_run la q cs ss s (FF (vs t0)) gs s0 s1 _ HI HN E1) as [s' [E2 EB]].
  exists [sumn (length ss) (fun i => ip (G i) (nth i dvs []))]. split; [reflexivity|]. split.
  { apply (der_one (fun t => sden q ss (vs t))). now apply GD. }
  intros seed LS HU. destruct seed as [|sv [|]]; try discriminate LS. clear LS.
  assert (CZ : forall i, nth i cs false = true \/ nth i fl false = true -> forall j, el (nth i dvs []) j = 0).
  { intros i Hi j. eapply der_unique; [apply (cv_der _ _ _ _ _ _ HC)|].
    apply der_loc_const with (c := el (nth i (vs t0) []) j). destruct Hi as [Hi|Hi].
    - apply filter_forall. intros t. now rewrite (cv_cst _ _ _ _ _ _ HC i Hi t).
    - eapply filter_imp; [|apply (cv_flat _ _ _ _ _ _ HC i Hi)]. intros t E. now rewrite E. }
  assert (CH : exists sd : nat -> option (list R), forall i, (i < length ss)%nat ->
    stat_bwd N q cs ss s' (Fin sv) (FF (vs t0)) i = option_map (map Fin) (sd i) /\
    match sd i with None => sv * ip (G i) (nth i dvs []) = 0
    | Some l => length l = size (nth_sh ss i) /\ ip l (nth i dvs []) = sv * ip (G i) (nth i dvs []) end).
  { apply (fin_choice _ (fun i o => stat_bwd N q cs ss s' (Fin sv) (FF (vs t0)) i = option_map (map Fin) o /\
    match o with None => sv * ip (G i) (nth i dvs []) = 0
    | Some l => length l = size (nth_sh ss i) /\ ip l (nth i dvs []) = sv * ip (G i) (nth i dvs []) end) None).
    intros i Hi. destruct (Req_EM_T sv 0) as [Z|NZ].
    - exists None. split; [|rewrite Z; ring].
      unfold stat_bwd. change (neqb N) with xeqb. change (n0 N) with (Fin 0). cbn [xeqb]. rewrite reqb_t by auto. reflexivity.
    - destruct (GB sv i NZ Hi) as [B|[B B2]].
      + exists (Some (map (Rmult sv) (G i))). split; [rewrite EB; exact B|]. rewrite map_length. split; auto. apply ip_scal.
      + exists None. split; [rewrite EB; exact B|]. unfold ip. rewrite sumn_0; [ring|]. intros j Hj. rewrite CZ by auto. ring. }
  destruct CH as [sd HSD]. exists sd. split; [|split].
  - intros i Hi. unfold seeds. rewrite E2. cbn [kseed kpre vsel kget]. apply (HSD i Hi).
  - intros i l Hi E. destruct (HSD i Hi) as [_ H]. rewrite E in H. split; [apply H|discriminate 2].
  - unfold ip at 1. cbn [length sumn]. change (el [sv] 0) with sv.
    change (el [sumn (length ss) (fun i => ip (G i) (nth i dvs []))] 0) with (sumn (length ss) (fun i => ip (G i) (nth i dvs []))).
    rewrite Rplus_0_l, <- sumn_l. apply sumn_ext. intros i Hi. destruct (HSD i Hi) as [_ H]. destruct (sd i); [symmetry; apply H|exact H].
Qed.

Notation vec n := (Sh Vec n 1).
Notation sqm n := (Sh Mat n n).
Lemma mkm1 {X} n (f : nat -> nat -> X) : mkm n 1 f = tab n (fun i => f i 0%nat).
Proof. rewrite mkm_S. reflexivity. Qed.
Lemma norm_upd_m_fin st n x : length x = (n * n)%nat -> posdef n (m_of n x) ->
  exists st', norm_upd_m N st n (map Fin x) = st' /\ fa st' = true /\
    sa st' = Fin (1 / 2 * ln (det n (m_of n x))) /\ ma st' = map Fin (mkm n n (minv n (m_of n x))).
Proof.
  intros L HP. eexists. split; [reflexivity|]. unfold norm_upd_m. change (nla N) with la. nx.
  rewrite (proj2 (la_llt_ok la LA n x L (proj1 HP)) HP). destruct (la_llt la LA n x L HP) as [H1 H2]. rewrite H1, H2.
  pose proof (posdef_det n _ HP) as DP. assert (SP : 0 < sqrt (det n (m_of n x))) by now apply sqrt_lt_R0.
  cbn [fa sa ma]. repeat split. rewrite nlog_fin by auto. f_equal.
  rewrite <- (sqrt_sqrt (det n (m_of n x))) at 2 by lra. rewrite ln_mult by auto. field.
Qed.
(** d = x - mean, z = S^-1 d *)
Lemma SM_norm q n x y z (vy : list R) sy (dl : list R) :
  (q = NormVSM /\ sy = scl /\ vy = [y] /\ dl = tab n (fun i => el x i - y) \/
   q = NormVVM /\ sy = vec n /\ length vy = n /\ dl = tab n (fun i => el x i - el vy i)) ->
  length x = n -> length z = (n * n)%nat ->
  forall cs fl gs s0 d u,
  (forall i, nth i cs false = true -> nth i gs (Ok []) = Ok (map Fin (nth i [x; vy; z] []))) ->
  stat_init N q cs [vec n; sy; sqm n] gs = Ok s0 -> sdom d u q cs fl [vec n; sy; sqm n] [x; vy; z] ->
  exists s1, stat_fwd N q cs [vec n; sy; sqm n] s0 (FF [x; vy; z]) = Ok (s1, Fin (sden q [vec n; sy; sqm n] [x; vy; z])) /\
    (exists G : nat -> list R,
      (forall i, (i < 3)%nat -> length (G i) = size (nth_sh [vec n; sy; sqm n] i)) /\
      (forall cv dvs t0, curves cs fl [vec n; sy; sqm n] cv dvs t0 -> cv t0 = [x; vy; z] ->
        is_derive (fun t => sden q [vec n; sy; sqm n] (cv t)) t0 (sumn 3 (fun i => ip (G i) (nth i dvs [])))) /\
      forall seed i, seed <> 0 -> (i < 3)%nat ->
        stat_bwd N q cs [vec n; sy; sqm n] s1 (Fin seed) (FF [x; vy; z]) i = Some (map Fin (map (Rmult seed) (G i))) \/
        stat_bwd N q cs [vec n; sy; sqm n] s1 (Fin seed) (FF [x; vy; z]) i = None /\ (nth i cs false = true \/ nth i fl false = true)).
Proof.
  intros HQ Lx Lz cs fl gs s0 d u HG HI HD.
  assert (HP : posdef n (m_of n z)) by (destruct HQ as [[-> _]|[-> _]]; exact HD).
  destruct (norm_upd_m_fin s0 n z Lz HP) as [st1 [EU [F1 [F2 F3]]]].
  (* cache before the value *)
  assert (HC : exists st, (if cst cs 2 then s0 else norm_upd_m N s0 n (map Fin z)) = st /\ fa st = true /\
    sa st = Fin (1 / 2 * ln (det n (m_of n z))) /\ ma st = map Fin (mkm n n (minv n (m_of n z)))).
  { unfold cst. destruct (nth 2 cs false) eqn:C2; [|eauto].
    exists s0. split; auto. destruct (norm_upd_m_fin (sst0 N) n z Lz HP) as [st2 [EU2 FF2]].
    assert (EI : stat_init N q cs [vec n; sy; sqm n] gs = Ok st2).
    { destruct HQ as [[-> _]|[-> _]]; unfold stat_init, cst; nx; rewrite C2; rewrite (HG 2%nat C2); cbn [bindR nth nth_sh rows]; unfold nth_sh; cbn [nth rows]; nx; now rewrite EU2. }
    rewrite HI in EI. injection EI as ->. exact FF2. }
  destruct HC as [st [EC [C1 [C2 C3]]]].
  set (B := minv n (m_of n z)) in *.
  set (zz := fun i => sumn n (fun p => B i p * el dl p)).
  assert (Ld : length dl = n) by (destruct HQ as [[_ [_ [_ ->]]]|[_ [_ [_ ->]]]]; apply tab_len).
  assert (EZ : mm N n n 1 (ma st) (map Fin dl) = map Fin (tab n zz)).
  { rewrite C3, mm_fin by (rewrite ?mkm_length; lia). rewrite mkm1. f_equal. apply tab_ext. intros i Hi.
    apply sumn_ext. intros p Hp. rewrite m_mkm by auto. unfold m_of. reflexivity. }
  assert (EDl : match q with NormVSM => map (fun a => nsub N a (hd0 N (arg N (FF [x; vy; z]) 1))) (arg N (FF [x; vy; z]) 0)
                 | _ => map2 (nsub N) (arg N (FF [x; vy; z]) 0) (arg N (FF [x; vy; z]) 1) end = map Fin dl).
  { rewrite !arg_fin. cbn [nth]. nx. rewrite (fin_list x n Lx).
    destruct HQ as [[-> [_ [-> ->]]]|[-> [_ [Lv ->]]]].
    - unfold hd0. cbn [map hd]. rewrite tab_map, tab_map. apply tab_ext. intros i Hi. reflexivity.
    - rewrite (fin_list vy n Lv), tab_map2, tab_map. apply tab_ext. intros i Hi. reflexivity. }
  assert (EV : vdot N (map Fin dl) (map Fin (tab n zz)) = Fin (quad n B (el dl) (el dl))).
  { unfold vdot. change (nmul N) with xmul; change (nsum N) with xsum. nx. rewrite (fin_list dl n Ld), tab_map, tab_map2. apply xsum_tab. intros i Hi. cbn. f_equal. unfold zz, quad.
    rewrite <- sumn_l. apply sumn_ext. intros. ring. }
  assert (ES : sden q [vec n; sy; sqm n] [x; vy; z] = - (1 / 2) * quad n B (el dl) (el dl) - 1 / 2 * ln (det n (m_of n z))).
  { assert (EQ : quad n B (el dl) (el dl) = quad n B (fun i => ent (vec n) x i - ent sy vy i) (fun i => ent (vec n) x i - ent sy vy i)).
    { apply sumn2_ext. intros i j Hi Hj. destruct HQ as [[-> [-> [-> ->]]]|[-> [-> [Lv ->]]]]; rewrite !el_tab by auto; reflexivity. }
    rewrite EQ. destruct HQ as [[-> [-> _]]|[-> [-> _]]]; reflexivity. }
  exists (set_mb N st (map Fin (tab n zz))).
  assert (EF : stat_fwd N q cs [vec n; sy; sqm n] s0 (FF [x; vy; z]) = Ok (set_mb N st (map Fin (tab n zz)), Fin (sden q [vec n; sy; sqm n] [x; vy; z]))).
  { assert (LA0 : length (arg N (FF [x; vy; z]) 0) = n) by (rewrite arg_fin; cbn [nth]; now rewrite map_length).
    rewrite ES.
    destruct HQ as [[-> _]|[-> _]]; unfold stat_fwd; rewrite LA0; unfold nth_sh; cbn [nth rows];
      rewrite (arg_fin la [x; vy; z] 2); cbn [nth]; nx; rewrite EC, C1; cbn [negb];
      rewrite EDl, EZ; cbn [set_mb mb sa]; rewrite EV, C2;
      reflexivity. }
  split; [exact EF|].
  set (G1 := match q with NormVSM => [sumn n zz] | _ => tab n zz end).
  set (G := fun i => match i with O => tab n (fun i => - zz i) | 1%nat => G1
                     | _ => mkm n n (fun i j => - (1 / 2) * (B i j - zz i * zz j)) end).
  exists G. split; [|split].
  - intros i Hi. destruct i as [|[|[|i]]]; [| | |lia]; unfold nth_sh; cbn [nth G].
    + rewrite tab_len. unfold size. cbn. lia.
    + unfold G1. destruct HQ as [[-> [-> _]]|[-> [-> _]]]; [reflexivity|]. rewrite tab_len. unfold size. cbn. lia.
    + rewrite mkm_length. reflexivity.
  - intros cv dvs t0 HCV E0.
    set (dd := fun t i => ent (vec n) (nth 0 (cv t) []) i - ent sy (nth 1 (cv t) []) i).
    set (dd' := fun i => ent (vec n) (nth 0 dvs []) i - ent sy (nth 1 dvs []) i).
    assert (DE : forall i, (i < n)%nat -> dd t0 i = el dl i).
    { intros i Hi. unfold dd. rewrite E0. cbn [nth]. destruct HQ as [[-> [-> [-> ->]]]|[-> [-> [Lv ->]]]]; rewrite el_tab by auto; reflexivity. }
    pose proof (der_mvn n (fun t => m_of n (nth 2 (cv t) [])) dd t0 (m_of n (nth 2 dvs [])) dd') as HM.
    cbv zeta in HM. cbv beta in HM. rewrite E0 in HM. cbn [nth] in HM.
    assert (EQf : forall t, sden q [vec n; sy; sqm n] (cv t) =
      - (1 / 2) * quad n (minv n (m_of n (nth 2 (cv t) []))) (dd t) (dd t) - 1 / 2 * ln (det n (m_of n (nth 2 (cv t) [])))).
    { intros t. destruct HQ as [[-> [-> _]]|[-> [-> _]]]; reflexivity. }
    eapply der_ext; [intros t; symmetry; apply EQf|].
    eapply der_eq; [apply HM; auto|].
    + eapply curves_derm; eauto.
    + intros i Hi. apply (der_minus (fun t => ent (vec n) (nth 0 (cv t) []) i) (fun t => ent sy (nth 1 (cv t) []) i));
        eapply der_ent; eauto.
    + fold B. cbn [sumn]. rewrite Rplus_0_l.
      assert (EZZ : forall i, sumn n (fun p => B i p * dd t0 p) = zz i).
      { intros i. apply sumn_ext. intros p Hp. now rewrite DE. }
      assert (I0 : ip (G 0%nat) (nth 0 dvs []) = sumn n (fun i => - zz i * el (nth 0 dvs []) i)).
      { unfold ip. cbn [G]. rewrite tab_len. apply sumn_ext. intros i Hi. now rewrite el_tab. }
      assert (I1 : ip (G 1%nat) (nth 1 dvs []) = sumn n (fun i => zz i * ent sy (nth 1 dvs []) i)).
      { cbn [G]. unfold G1. destruct HQ as [[-> [-> _]]|[-> [-> _]]].
        - apply (ip_agg scl n zz). discriminate.
        - apply (ip_agg (vec n) n zz). intros _. unfold size. cbn. lia. }
      assert (I2 : ip (G 2%nat) (nth 2 dvs []) = sumn n (fun i => sumn n (fun j => - (1 / 2) * (B i j - zz i * zz j) * m_of n (nth 2 dvs []) i j))).
      { cbn [G]. rewrite (ip_mm n) by apply mkm_length. apply sumn2_ext. intros. now rewrite m_mkm. }
      rewrite I0, I1, I2. f_equal.
      * rewrite <- sumn_plus. apply sumn_ext. intros i Hi. rewrite EZZ. unfold dd'. change (ent (vec n) (nth 0 dvs []) i) with (el (nth 0 dvs []) i). ring.
      * apply sumn2_ext. intros i j Hi Hj. now rewrite !EZZ.
  - intros seed i NZ Hi.
    assert (ESD : neqb N (Fin seed) (n0 N) = false) by (change (reqb seed 0 = false); now apply reqb_f).
    assert (ENZ : forall k, (k < n)%nat -> nth k (map Fin (tab n zz)) (n0 N) = Fin (zz k)).
    { intros k Hk. change (n0 N) with (Fin 0). nx. rewrite nth_fin by now rewrite tab_len. now rewrite el_tab. }
    destruct i as [|[|[|i]]]; [| | |lia].
    + left. transitivity (Some (map (fun zi => nmul N (nopp N (Fin seed)) zi) (map Fin (tab n zz)))).
      * destruct HQ as [[-> _]|[-> _]]; unfold stat_bwd; rewrite ESD; cbn [set_mb fa mb]; rewrite C1; reflexivity.
      * f_equal. cbn [G]. rewrite !tab_map. apply tab_ext. intros k Hk. cbn. f_equal. ring.
    + left. unfold G, G1. destruct HQ as [[-> _]|[-> _]]; unfold stat_bwd; rewrite ESD; cbn [set_mb fa mb]; rewrite C1; cbn [negb]; f_equal.
      * cbn [map]. f_equal. change (nsum N) with xsum. rewrite tab_map. nx. rewrite xsum_fin. reflexivity.
      * rewrite !tab_map. apply tab_ext. intros k Hk. reflexivity.
    + destruct (nth 2 cs false) eqn:EC2.
      * right. split; auto. destruct HQ as [[-> _]|[-> _]]; unfold stat_bwd, cst; rewrite ESD; cbn [set_mb fa mb]; rewrite C1, EC2; reflexivity.
      * left. transitivity (Some (mkm n n (fun r q => nmul N (nmul N (nopp N (nhalf N)) (Fin seed))
            (nsub N (mget (n0 N) n (ma st) r q) (nmul N (nth r (map Fin (tab n zz)) (n0 N)) (nth q (map Fin (tab n zz)) (n0 N))))))).
        -- destruct HQ as [[-> _]|[-> _]]; unfold stat_bwd, cst; rewrite ESD; cbn [set_mb fa mb ma]; rewrite C1, EC2; reflexivity.
        -- f_equal. cbn [G]. rewrite !mkm_map. apply mkm_ext. intros a b Ha Hb.
           nx. rewrite !ENZ by auto. unfold mget. rewrite C3. change (n0 N) with (Fin 0). nx. rewrite nth_fin by (rewrite mkm_length; nia).
           change (el (mkm n n B) (b * n + a)) with (m_of n (mkm n n B) a b). rewrite m_mkm by auto. cbn. f_equal. field.
Qed.

Lemma sqmat_eq n s : is_sqmat n s = true -> s = Sh Mat n n.
Proof. unfold is_sqmat. intros H. now apply shape_eqb_eq in H. Qed.
Lemma vecn_eq n s : is_vecn n s = true -> s = Sh Vec n 1.
Proof. unfold is_vecn. intros H. now apply shape_eqb_eq in H. Qed.
Lemma SM_NormVSM : SM NormVSM.
Proof.
  intros cs fl ss vs gs s0 d u HW HS HL HG HI HD.
  destruct ss as [|a [|b [|c [|]]]]; try discriminate HS. cbn in HS. unfold nth_sh in HS. cbn [nth] in HS.
  rewrite !andb_true_iff in HS. destruct HS as [[H1 H2] H3]. remember (rows a) as n eqn:En; clear En.
  apply vecn_eq in H1. apply sqmat_eq in H3. cbn [forallb] in HW. rewrite !andb_true_iff in HW.
  apply scl_eq in H2; [|apply HW]. subst a b c.
  inversion HL as [|x ? ? ? Lx HL1]; subst. inversion HL1 as [|y ? ? ? Ly HL2]; subst. inversion HL2 as [|z ? ? ? Lz HL3]; subst.
  inversion HL3; subst. unfold size in Lx, Ly, Lz. cbn [rows cols] in Lx, Ly, Lz. rewrite Nat.mul_1_r in Lx.
  destruct y as [|y [|]]; try discriminate Ly.
  destruct (SM_norm NormVSM n x y z [y] scl (tab n (fun i => el x i - y)) ltac:(left; auto) Lx Lz cs fl gs s0 d u HG HI HD) as [s1 [E HB]].
  exists s1. split; [exact E|]. intros _. exact HB.
Qed.
Lemma SM_NormVVM : SM NormVVM.
Proof.
  intros cs fl ss vs gs s0 d u HW HS HL HG HI HD.
  destruct ss as [|a [|b [|c [|]]]]; try discriminate HS. cbn in HS. unfold nth_sh in HS. cbn [nth] in HS.
  rewrite !andb_true_iff in HS. destruct HS as [[H1 H2] H3]. remember (rows a) as n eqn:En; clear En.
  apply vecn_eq in H1. apply sqmat_eq in H3. apply vecn_eq in H2. subst a b c.
  inversion HL as [|x ? ? ? Lx HL1]; subst. inversion HL1 as [|y ? ? ? Ly HL2]; subst. inversion HL2 as [|z ? ? ? Lz HL3]; subst.
  inversion HL3; subst. unfold size in Lx, Ly, Lz. cbn [rows cols] in Lx, Ly, Lz. rewrite Nat.mul_1_r in Lx, Ly.
  destruct (SM_norm NormVVM n x 0 z y (vec n) (tab n (fun i => el x i - el y i)) ltac:(right; auto) Lx Lz cs fl gs s0 d u HG HI HD) as [s1 [E HB]].
  exists s1. split; [exact E|]. intros _. exact HB.
Qed.

(** *** Wishart *)
Lemma mkm_map2 {X Y Z} (h : X -> Y -> Z) r c f g : map2 h (mkm r c f) (mkm r c g) = mkm r c (fun i j => h (f i j) (g i j)).
Proof.
  induction c; [reflexivity|]. rewrite !mkm_S.
  assert (G : forall (a a' : list X) (b b' : list Y), length a = length b -> map2 h (a ++ a') (b ++ b') = map2 h a b ++ map2 h a' b').
  { induction a; destruct b; cbn; try discriminate; auto. intros. f_equal. auto. }
  rewrite G by now rewrite !mkm_length. rewrite IHc, tab_map2. reflexivity.
Qed.
Lemma ntrace_fin n l : length l = (n * n)%nat -> ntrace N n (map Fin l) = Fin (sumn n (fun i => m_of n l i i)).
Proof.
  intros L. unfold ntrace. change (nsum N) with xsum. apply (xsum_tab n (fun i => mget (n0 N) n (map Fin l) i i)).
  intros i Hi. unfold mget. change (n0 N) with (Fin 0). nx. rewrite nth_fin by (rewrite L; nia). reflexivity.
Qed.
Lemma llt_fin n x : length x = (n * n)%nat -> posdef n (m_of n x) ->
  llt_ok _ (nla N) n (map Fin x) = true /\ nlog N (llt_ldet _ (nla N) n (map Fin x)) = Fin (1 / 2 * ln (det n (m_of n x))) /\
  llt_inv _ (nla N) n (map Fin x) = map Fin (mkm n n (minv n (m_of n x))).
Proof.
  intros L HP. change (nla N) with la. nx. destruct (la_llt la LA n x L HP) as [H1 H2].
  split; [exact (proj2 (la_llt_ok la LA n x L (proj1 HP)) HP)|]. rewrite H1, H2. split; auto.
  pose proof (posdef_det n _ HP) as DP. assert (SP : 0 < sqrt (det n (m_of n x))) by now apply sqrt_lt_R0.
  rewrite nlog_fin by auto. f_equal.
  rewrite <- (sqrt_sqrt (det n (m_of n x))) at 2 by lra. rewrite ln_mult by auto. field.
Qed.
Lemma SM_Wish : SM Wish.
Proof.
  intros cs fl ss vs gs s0 d u HW HS HL HG HI HD.
  destruct ss as [|a [|b [|c [|]]]]; try discriminate HS. cbn in HS. unfold nth_sh in HS. cbn [nth] in HS.
  rewrite !andb_true_iff in HS. destruct HS as [[H1 H2] H3]. remember (rows a) as n eqn:En; clear En.
  apply sqmat_eq in H1. apply sqmat_eq in H2. cbn [forallb] in HW. rewrite !andb_true_iff in HW.
  apply scl_eq in H3; [|apply HW]. subst a b c.
  inversion HL as [|x ? ? ? Lx HL1]; subst. inversion HL1 as [|v ? ? ? Lv HL2]; subst. inversion HL2 as [|z ? ? ? Lz HL3]; subst.
  inversion HL3; subst. unfold size in Lx, Lv, Lz. cbn [rows cols] in Lx, Lv, Lz.
  destruct z as [|nu [|]]; try discriminate Lz. clear HL HL1 HL2 HL3 Lz HW.
  cbn [sdom] in HD. unfold nth_sh in HD. cbn [nth rows] in HD. destruct HD as [PX [PV [HN [HC HF]]]]. change (el [nu] 0) with nu in HN.
  destruct (llt_fin n x Lx PX) as [X1 [X2 X3]]. destruct (llt_fin n v Lv PV) as [V1 [V2 V3]].
  set (B := minv n (m_of n x)) in *. set (W := minv n (m_of n v)) in *.
  set (lx := 1 / 2 * ln (det n (m_of n x))) in *. set (lv := 1 / 2 * ln (det n (m_of n v))) in *.
  set (XW := mkm n n (fun i j => sumn n (fun p => m_of n x i p * W p j))).
  assert (EM : mm N n n n (map Fin x) (map Fin (mkm n n W)) = map Fin XW).
  { rewrite mm_fin by (rewrite ?mkm_length; auto). f_equal. apply mkm_ext. intros i j Hi Hj. apply sumn_ext. intros p Hp.
    now rewrite m_mkm. }
  (* state after feval's updates *)
  set (up1 := if cst cs 1 then s0 else wish_updv N s0 n (map Fin v)).
  set (up2 := if cst cs 0 then up1 else wish_updx N up1 n (map Fin x)).
  assert (HU : fa up2 = true /\ fb up2 = true /\ sa up2 = Fin lx /\ sb up2 = Fin lv /\
               ma up2 = map Fin (mkm n n B) /\ mb up2 = map Fin (mkm n n W) /\ mc up2 = map Fin XW).
  { assert (UV : forall st, fb (wish_updv N st n (map Fin v)) = true /\ sb (wish_updv N st n (map Fin v)) = Fin lv /\
        mb (wish_updv N st n (map Fin v)) = map Fin (mkm n n W) /\ sa (wish_updv N st n (map Fin v)) = sa st /\
        fa (wish_updv N st n (map Fin v)) = fa st /\ ma (wish_updv N st n (map Fin v)) = ma st /\ mc (wish_updv N st n (map Fin v)) = mc st).
    { intros st. unfold wish_updv. nx. rewrite V1, V2, V3. cbn. auto 10. }
    assert (UX : forall st : sst N, fb st = true -> mb st = map Fin (mkm n n W) ->
        fb (wish_updx N st n (map Fin x)) = true /\ sb (wish_updx N st n (map Fin x)) = sb st /\
        mb (wish_updx N st n (map Fin x)) = mb st /\ sa (wish_updx N st n (map Fin x)) = Fin lx /\
        fa (wish_updx N st n (map Fin x)) = true /\ ma (wish_updx N st n (map Fin x)) = map Fin (mkm n n B) /\
        mc (wish_updx N st n (map Fin x)) = map Fin XW).
    { intros st F1 F2. unfold wish_updx. nx. rewrite F1, X1, X2, X3, F2, EM. cbn. auto 10. }
    unfold stat_init in HI. unfold nth_sh in HI. cbn [nth rows] in HI. unfold up2, up1, cst in *.
    destruct (nth 0 cs false) eqn:C0.
    - pose proof (HC eq_refl) as C1. rewrite C1 in *. nx. rewrite (HG 1%nat C1), (HG 0%nat C0) in HI. cbn [bindR nth] in HI. injection HI as <-.
      destruct (UV (sst0 N)) as [A1 [A2 [A3 _]]]. destruct (UX _ A1 A3) as [B1 [B2 [B3 [B4 [B5 [B6 B7]]]]]].
      nx. rewrite B2, B3. auto 10.
    - destruct (nth 1 cs false) eqn:C1.
      + nx. rewrite (HG 1%nat C1) in HI. cbn [bindR nth] in HI. injection HI as <-.
        destruct (UV (sst0 N)) as [A1 [A2 [A3 _]]]. destruct (UX _ A1 A3) as [B1 [B2 [B3 [B4 [B5 [B6 B7]]]]]].
        nx. rewrite B2, B3. auto 10.
      + destruct (UV s0) as [A1 [A2 [A3 _]]]. destruct (UX _ A1 A3) as [B1 [B2 [B3 [B4 [B5 [B6 B7]]]]]].
        nx. rewrite B2, B3. auto 10. }
  destruct HU as [U1 [U2 [U3 [U4 [U5 [U6 U7]]]]]].
  assert (EOK : wish_ok N up2 n (Fin nu) = true).
  { unfold wish_ok. rewrite U1, U2. cbn [andb]. change (xltb (Fin (IZR (Z.of_nat n))) (Fin (nu + 1)) = true). cbn.
    rewrite IZN. apply rltb_t. lra. }
  exists up2. split.
  { unfold stat_fwd. unfold nth_sh. cbn [nth rows]. rewrite !arg_fin. cbn [nth]. unfold hd0. cbn [map hd]. nx. fold up1. fold up2. rewrite EOK. cbn [negb].
    rewrite U3, U4, U7, ntrace_fin by apply mkm_length.
    change (nofn N n) with (Fin (IZR (Z.of_nat n))). rewrite IZN.
    apply f_equal, f_equal2; [reflexivity|]. cbn. f_equal. unfold nth_sh. cbn [nth rows]. fold W.
    change (el [nu] 0) with nu. unfold lx, lv.
    rewrite (sumn_ext n (fun i => m_of n XW i i) (fun i => sumn n (fun j => m_of n x i j * W j i)))
      by (intros; unfold XW; now rewrite m_mkm). change (fun i : nat => sumn n (fun j : nat => nth (j * n + i) x 0 * W j i)) with (fun i : nat => sumn n (fun j : nat => m_of n x i j * W j i)). field. }
  intros HT.
  set (WXW := fun i j => sumn n (fun p => W i p * sumn n (fun q => m_of n x p q * W q j))).
  exists (fun i => match i with
    | O => mkm n n (fun i j => 1 / 2 * ((nu - INR n - 1) * B i j - W i j))
    | 1%nat => mkm n n (fun i j => 1 / 2 * (WXW i j - nu * W i j))
    | _ => [lx - lv] end).
  split; [|split].
  - intros i Hi. cbn in Hi. destruct i as [|[|[|i]]]; [| | |lia]; rewrite ?mkm_length; reflexivity.
  - intros cv dvs t0 HCV E0.
    pose proof (der_wish n (fun t => m_of n (nth 0 (cv t) [])) (fun t => m_of n (nth 1 (cv t) [])) (fun t => el (nth 2 (cv t) []) 0) t0
      (m_of n (nth 0 dvs [])) (m_of n (nth 1 dvs [])) (el (nth 2 dvs []) 0)
      (curves_derm _ _ _ _ _ _ 0 n HCV) (curves_derm _ _ _ _ _ _ 1 n HCV) (cv_der _ _ _ _ _ _ HCV 2%nat 0%nat)) as HM.
    cbv zeta in HM. cbv beta in HM. rewrite E0 in HM. cbn [nth] in HM. specialize (HM PX PV). fold B W lx lv in HM. change (el [nu] 0) with nu in HM.
    eapply der_eq; [exact HM|]. cbn [length sumn].
    rewrite !(ip_mm n) by apply mkm_length. rewrite Rplus_0_l. f_equal; [f_equal|].
    + apply sumn2_ext. intros. now rewrite m_mkm.
    + apply sumn2_ext. intros. now rewrite m_mkm.
    + unfold ip. cbn. ring.
  - intros seed i NZ Hi. cbn [length] in Hi.
    assert (ESD : neqb N (Fin seed) (n0 N) = false) by (change (reqb seed 0 = false); now apply reqb_f).
    assert (EWX : mm N n n n (mb up2) (mc up2) = map Fin (mkm n n WXW)).
    { rewrite U6, U7, mm_fin by apply mkm_length. f_equal. apply mkm_ext. intros a b Ha Hb. apply sumn_ext. intros p Hp.
      unfold XW. now rewrite !m_mkm by auto. }
    destruct i as [|[|[|i]]]; [| | |lia].
    + left. unfold stat_bwd. rewrite ESD. unfold nth_sh. cbn [nth rows]. rewrite !arg_fin. cbn [nth map]. unfold hd0. cbn [hd]. nx. rewrite EOK. cbn [negb].
      f_equal. rewrite U5, U6. rewrite !mkm_map, mkm_map2. apply mkm_ext. intros a b Ha Hb.
      change (nofn N n) with (Fin (IZR (Z.of_nat n))). rewrite IZN. cbn. f_equal. field.
    + left. unfold stat_bwd. rewrite ESD. unfold nth_sh. cbn [nth rows]. rewrite !arg_fin. cbn [nth map]. unfold hd0. cbn [hd]. nx. rewrite EOK. cbn [negb].
      f_equal. rewrite EWX, U6. rewrite !mkm_map, mkm_map2. apply mkm_ext. intros a b Ha Hb. cbn. f_equal. field.
    + right. split; [|right; now apply HF].
      unfold stat_bwd. rewrite ESD. unfold nth_sh. cbn [nth rows]. rewrite !arg_fin. cbn [nth map]. unfold hd0. cbn [hd]. nx. rewrite EOK. reflexivity.
Qed.

Lemma KV_all k : KV la k.
Proof.
  destruct k as [| | | | | | | | | | | |q]; try (apply KV_un || apply KV_pow || apply KV_trans || apply KV_sumE || apply KV_prodE || apply KV_norm
    || apply KV_det || apply KV_logdet || apply KV_bin || apply KV_dot || apply KV_sumI || apply KV_prodI).
  destruct q; try (apply KV_stat_ew; reflexivity); apply KV_SM; [apply SM_NormVSM|apply SM_NormVVM|apply SM_Wish].
Qed.
Lemma KA_all k : KA la k.
Proof.
  destruct k as [| | | | | | | | | | | |q]; try (apply KA_un || apply KA_pow || apply KA_trans || apply KA_sumE || apply KA_prodE || apply KA_norm
    || apply KA_det || apply KA_logdet || apply KA_bin || apply KA_dot || apply KA_sumI || apply KA_prodI).
  destruct q; try (apply KA_stat_ew; reflexivity); apply KA_SM; [apply SM_NormVSM|apply SM_NormVVM|apply SM_Wish].
Qed.
Lemma la_ok_len : la_len N.
Proof. intros n X. exact (la_lens la LA n X). Qed.
End K.

(** ** The contract can be met *)
Definition rx (x : xr) : R := match x with Fin r => r | _ => 0 end.
Definition xmat (n : nat) (X : list xr) : mat := m_of n (map rx X).
Definition exact_la : linalg xr := {|
  lu_det := fun n X => Fin (det n (xmat n X));
  lu_ok := fun n X => negb (reqb (det n (xmat n X)) 0);
  lu_inv := fun n X => map Fin (mkm n n (minv n (xmat n X)));
  ldlt_d := fun n X => match n with O => [] | S k => Fin (det n (xmat n X)) :: repeat (Fin 1) k end;
  ldlt_ok := fun _ _ => true;
  ldlt_inv := fun n X => map Fin (mkm n n (minv n (xmat n X)));
  llt_ldet := fun n X => Fin (sqrt (det n (xmat n X)));
  llt_ok := fun n X => if excluded_middle_informative (posdef n (xmat n X)) then true else false;
  llt_inv := fun n X => map Fin (mkm n n (minv n (xmat n X)))
|}.
Lemma xmat_fin n x : xmat n (map Fin x) = m_of n x.
Proof. unfold xmat. rewrite map_map. cbn. now rewrite map_id. Qed.
Lemma prodn_ones k : prodn k (fun _ => 1) = 1.
Proof. induction k; cbn; lra. Qed.
Lemma exact_la_ok : la_ok exact_la.
Proof.
  constructor; cbn [lu_det lu_ok lu_inv ldlt_d ldlt_ok ldlt_inv llt_ldet llt_ok llt_inv exact_la]; intros n x; rewrite ?xmat_fin.
  - reflexivity.
  - intros _. unfold reqb. destruct (Req_EM_T _ 0); cbn; split; auto; try discriminate; tauto.
  - reflexivity.
  - intros _ _. split; auto. split; auto. destruct n as [|k].
    + exists []. cbn. auto.
    + exists (det (S k) (m_of (S k) x) :: repeat 1 k). cbn [map length]. rewrite repeat_length. repeat split.
      * f_equal. induction k; cbn; auto. now f_equal.
      * rewrite prodn_S. change (el (_ :: repeat 1 k) 0) with (det (S k) (m_of (S k) x)).
        change (fun i => el (_ :: repeat 1 k) (S i)) with (fun i => el (repeat 1 k) i).
        rewrite (prodn_ext k _ (fun _ => 1)); [rewrite prodn_ones; ring|].
        intros i Hi. unfold el. rewrite (nth_indep _ 0 1) by now rewrite repeat_length. apply nth_repeat.
  - intros _ _. destruct (excluded_middle_informative _); split; auto; try discriminate; try contradiction.
  - auto.
  - rewrite !map_length, !mkm_length. auto.
Qed.
