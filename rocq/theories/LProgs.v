(** Values and gradients of the programs of Progs.v. *)
From Coq Require Import Reals Lra.
From Coquelicot Require Import Coquelicot.
From Verif Require Import Base Num Expr Node Stat Machine Wf Pure LBase LKind LSimDef LMem LSimF LSimB LBind Session LUser
  Tape LTape LState LNrm LTop XR Spec Nudge RSess Grad LReal LScal LKA LKB LKM LVal LNudge LGrad LDiff LIndep LGrd LNGrad LPh Train LTrain Progs.
Open Scope R_scope.
Set Bullet Behavior "Strict Subproofs".

(** ** The quadratic form *)
Lemma el_map_fin (S : list R) i : el (map fval (map Fin S)) i = el S i.
Proof. now rewrite map_map, map_id. Qed.
Lemma el_mkm r c f i j : (i < r)%nat -> (j < c)%nat -> el (mkm r c f) (j * r + i)%nat = f i j.
Proof. intros H1 H2. unfold el. now apply mkm_nth. Qed.
Lemma quad_val n S D r : length S = (n * n)%nat -> val D (quad_u n S) r = [quad n (m_of n S) r r].
Proof.
  intros HS. unfold quad_u, val. rewrite den_comp. cbn [fst]. rewrite !dens_cons. cbn [fst map shape_of].
  unfold val at 1. rewrite den_comp. cbn [fst]. rewrite !dens_cons. cbn [fst map shape_of].
  unfold val at 1. rewrite den_comp. cbn [fst]. rewrite !dens_cons. cbn [fst map shape_of].
  unfold val, fin_env. cbn [den fst snd kshape nth_sh nth rows cols kind].
  rewrite map_map, (map_ext _ (fun x => x)), map_id by reflexivity.
  set (x := map r (seq 0 (size (Sh Mat n 1)))).
  assert (X : forall i, (i < n)%nat -> m_of n x i 0%nat = r i).
  { intros i Hi. unfold m_of, x, el. cbn [Nat.mul Nat.add size rows cols]. rewrite nth_cells; [reflexivity|]. cbn. lia. }
  cbn [kden kshape nth_sh nth rows cols kind map].
  assert (T : forall f p, (p < n)%nat -> m_of 1 (mkm 1 n f) 0%nat p = f 0%nat p).
  { intros f p Hp. unfold m_of. now rewrite el_mkm by lia. }
  change (mkm 1 1 ?f) with [f 0%nat 0%nat]. f_equal. unfold quad.
  rewrite sumn_swap. apply sumn_ext. intros j Hj. rewrite T, X by exact Hj. rewrite <- sumn_r.
  apply sumn_ext. intros i Hi. rewrite T, X by exact Hi. reflexivity.
Qed.
Lemma quad_der n A r o : (o < n)%nat ->
  is_derive (fun t => quad n A (set1 r o t) (set1 r o t)) (r o) (sumn n (fun j => (A o j + A j o) * r j)).
Proof.
  intros Ho. unfold quad. eapply der_eq.
  - apply der_sumn. intros i Hi. apply der_sumn. intros j Hj. apply der_mult; [|apply (set1_der r o j)].
    apply der_mult; [apply (set1_der r o i)|apply der_const].
  - cbn beta. rewrite set1_same.
    rewrite (sumn_ext n _ (fun i => sumn n (fun j => A i j * r j) * ind o i + r i * A i o)).
    + rewrite sumn_plus, sumn_ind, <- sumn_plus by exact Ho. apply sumn_ext. intros. ring.
    + intros i Hi. rewrite <- (sumn_ind n o (fun j => r i * A i j) Ho), <- sumn_r, <- sumn_plus. apply sumn_ext. intros j Hj. cbn. ring.
Qed.

(** ** The integration tests *)
Lemma f_val D r : val D int_f r = [sin (r 0%nat) * cos (r 1%nat) + (r 2%nat + r 3%nat * r 4%nat)].
Proof. reflexivity. Qed.
Lemma h_val D r : val D int_h r = [r 0%nat * r 4%nat].
Proof. reflexivity. Qed.
Lemma dens_un D u r n : forall a, dens D (map (fun i => un1 u (sv i)) (seq a n)) r = (map (fun i => [un_s u (r i)]) (seq a n), r).
Proof. induction n as [|n IH]; intros a; [reflexivity|]. cbn [seq map]. rewrite dens_cons. unfold fin_env. cbn. now rewrite IH. Qed.
Lemma sumi_val D u r n : den D (EComp (KSumI Scl) tt (map (fun i => un1 u (sv i)) (seq 0 n))) r =
  ([sumn n (fun i => un_s u (r i))], r).
Proof.
  rewrite den_comp, dens_un. cbn [fst snd]. f_equal. cbn. f_equal. rewrite map_length, seq_length. apply sumn_ext. intros p Hp.
  rewrite (nth_indep _ [] [un_s u (r 0%nat)]) by now rewrite map_length, seq_length.
  rewrite (map_nth (fun i => [un_s u (r i)])), seq_nth by exact Hp. reflexivity.
Qed.
Lemma den_glue D (a b : P2) r : den D (EGlue tt a b) r = den D b (snd (den D a r)).
Proof. cbn [den]. now destruct (den D a r). Qed.
Lemma den_eq D sh o (y : P2) r : den D (EEq tt sh o y) r = (fst (den D y r), put (snd (den D y r)) o (fst (den D y r))).
Proof. cbn [den]. now destruct (den D y r). Qed.
Lemma g_val D r n : val D (int_g n) r = [sumn n (fun i => sin (r i)) ^ 2 - sumn n (fun i => cos (r i))].
Proof.
  unfold int_g, val. rewrite den_glue, !den_eq, sumi_val. cbn [fst snd]. set (r1 := put r n _).
  unfold bi2 at 1. rewrite den_comp, !dens_cons. unfold val, fin_env.
  replace (snd (den D (bi2 BMul (sv n) (sv n)) r1)) with r1 by reflexivity. rewrite sumi_val.
  assert (R : r1 n = sumn n (fun i => sin (r i))).
  { unfold r1, put. cbn [length]. rewrite Nat.leb_refl. replace (n <? n + 1)%nat with true by (symmetry; apply Nat.ltb_lt; lia).
    cbn [andb]. rewrite Nat.sub_diag. reflexivity. }
  cbn. rewrite R. f_equal. rewrite Rmult_1_r. f_equal. apply sumn_ext. intros i Hi. unfold r1, put.
  replace (n <=? i)%nat with false by (symmetry; apply Nat.leb_gt; lia). reflexivity.
Qed.
Lemma g_der n r o : (o < n)%nat ->
  is_derive (fun t => sumn n (fun i => sin (set1 r o t i)) ^ 2 - sumn n (fun i => cos (set1 r o t i))) (r o)
    (2 * sumn n (fun i => sin (r i)) * cos (r o) + sin (r o)).
Proof.
  intros Ho. assert (DS : is_derive (fun t => sumn n (fun i => sin (set1 r o t i))) (r o) (cos (r o))).
  { eapply der_eq; [apply der_sumn; intros i Hi; apply (der_comp sin (fun t => set1 r o t i)); [apply is_derive_sin|apply (set1_der r o i)]|].
    cbn beta. rewrite set1_same, sumn_ind by exact Ho. reflexivity. }
  assert (DC : is_derive (fun t => sumn n (fun i => cos (set1 r o t i))) (r o) (- sin (r o))).
  { eapply der_eq; [apply der_sumn; intros i Hi; apply (der_comp cos (fun t => set1 r o t i)); [apply is_derive_cos|apply (set1_der r o i)]|].
    cbn beta. rewrite set1_same, (sumn_ind n o (fun i => - sin (r i))) by exact Ho. reflexivity. }
  eapply der_eq; [apply der_minus; [|exact DC]; apply (der_comp (fun x => x ^ 2) (fun t => sumn n (fun i => sin (set1 r o t i)))); [|exact DS]|].
  - auto_derive; [exact I|reflexivity].
  - cbn beta. rewrite set1_same. cbn. ring.
Qed.

Section Progs.
Variable la : linalg xr.
Hypothesis LA : la_ok la.
Notation N := (XR la).
Notation E := (expr N (ann N)).
Notation U := (expr N unit).
Lemma fin_all (l : list R) : Forall is_fin (map Fin l).
Proof. induction l; cbn; constructor; auto. eexists. reflexivity. Qed.
Lemma quad_ok n S : length S = (n * n)%nat -> okexpr la (quad_u n S).
Proof.
  intros HS. split; [|split; [reflexivity|cbn; repeat split; apply fin_all]].
  cbn. unfold shape_ok, shape_eqb. cbn. rewrite map_length, HS. rewrite ?Nat.eqb_refl, ?andb_true_r, ?Nat.eqb_refl. reflexivity.
Qed.
Lemma quad_thm bv ba n S D rho al s (e : E) m : length S = (n * n)%nat ->
  session la bv ba (quad_u n S) D e m -> mreal la (quad_u n S) m D rho al ->
  exists e2 m2, @autodiff N e [Fin s] m = Ok (e2, m2, [Fin (quad n (m_of n S) rho rho)]) /\
    forall i, (i < n)%nat -> m2 0%nat i = Some (Fin (rho i)) /\
      m2 1%nat i = Some (Fin (al i + s * sumn n (fun j => (m_of n S i j + m_of n S j i) * rho j))).
Proof.
  intros HS H HM.
  destruct (grad_full la LA bv ba (quad_u n S) D e m rho al false [s] (quad_ok n S HS) H HM) as [e2 [m2 [al' [Q1 [_ [Q3 [_ [Q5 [_ [_ Q8]]]]]]]]]].
  { cbn. repeat split; auto; try apply fin_all. }
  { reflexivity. }
  { discriminate. }
  { intros o []. }
  exists e2, m2. rewrite quad_val in Q1 by exact HS. split; [exact Q1|]. intros i Hi.
  assert (R : In i (refs (quad_u n S))). { cbn. rewrite !app_nil_r. apply in_or_app. left. apply in_seq. lia. }
  split; [apply Q5; [exact R|intros []]|]. rewrite (Q3 i R). destruct (Q8 i R) as [g [G1 ->]]; [intros []|]. do 3 f_equal.
  unfold dotp. cbn. rewrite Rplus_0_l. f_equal.
  apply (der_unique _ _ _ _ (G1 0%nat)). eapply der_ext; [|now apply quad_der]. intros t. cbn beta. now rewrite quad_val.
Qed.
Lemma prog1 bv ba (u : U) (f : (nat -> R) -> R) D rho al s (e : E) m : okexpr la u -> size (shape_of u) = 1%nat ->
  (forall r, val D u r = [f r]) -> dom D true false u rho -> session la bv ba u D e m -> mreal la u m D rho al ->
  (forall o, In o (writes u) -> al o = 0) ->
  exists e2 m2, @autodiff N e [Fin s] m = Ok (e2, m2, [Fin (f rho)]) /\
    forall o d, In o (refs u) -> ~ In o (eqw u) -> is_derive (fun t => f (set1 rho o t)) (rho o) d ->
      m2 0%nat o = Some (Fin (rho o)) /\ m2 1%nat o = Some (Fin (al o + s * d)).
Proof.
  intros HK HS HV HD H HM HZ.
  destruct (grad_full la LA bv ba u D e m rho al false [s] HK H HM HD) as [e2 [m2 [al' [Q1 [_ [Q3 [_ [Q5 [_ [_ Q8]]]]]]]]]]; auto.
  { discriminate. }
  exists e2, m2. rewrite HV in Q1. split; [exact Q1|]. intros o d R W HF. split; [now apply Q5|]. rewrite (Q3 o R).
  destruct (Q8 o R W) as [g [G1 ->]]. do 3 f_equal. unfold dotp. cbn. rewrite Rplus_0_l. f_equal.
  apply (der_unique _ _ _ _ (G1 0%nat)). eapply der_ext; [|exact HF]. intros t. cbn beta. now rewrite HV.
Qed.
Lemma f_ok : okexpr la int_f.
Proof. split; [reflexivity|split; [reflexivity|cbn; tauto]]. Qed.
Lemma h_ok : okexpr la int_h.
Proof. split; [reflexivity|split; [reflexivity|cbn; tauto]]. Qed.
Definition f_grad (r : nat -> R) (o : nat) : R :=
  match o with
  | 0%nat => cos (r 0%nat) * cos (r 1%nat)
  | 1%nat => - sin (r 0%nat) * sin (r 1%nat)
  | 2%nat => 1
  | 3%nat => r 4%nat
  | _ => r 3%nat
  end.
Lemma f_thm bv ba D rho al s (e : E) m : session la bv ba int_f D e m -> mreal la int_f m D rho al ->
  (forall o, In o [5; 6; 7]%nat -> al o = 0) ->
  exists e2 m2, @autodiff N e [Fin s] m = Ok (e2, m2, [Fin (sin (rho 0%nat) * cos (rho 1%nat) + (rho 2%nat + rho 3%nat * rho 4%nat))]) /\
    forall o, (o < 5)%nat -> m2 0%nat o = Some (Fin (rho o)) /\ m2 1%nat o = Some (Fin (al o + s * f_grad rho o)).
Proof.
  intros H HM HZ.
  destruct (prog1 bv ba int_f _ D rho al s e m f_ok eq_refl (f_val D) ltac:(cbn; repeat split; auto) H HM HZ) as [e2 [m2 [Q1 Q2]]].
  exists e2, m2. split; [exact Q1|]. intros o Ho. apply Q2.
  - destruct o as [|[|[|[|[|o]]]]]; cbn; try tauto. lia.
  - cbn. lia.
  - destruct o as [|[|[|[|[|o]]]]]; [..|lia]; cbn; auto_derive; auto; ring.
Qed.
Lemma h_thm bv ba D rho al s (e : E) m : session la bv ba int_h D e m -> mreal la int_h m D rho al -> al 5%nat = 0 ->
  exists e2 m2, @autodiff N e [Fin s] m = Ok (e2, m2, [Fin (rho 0%nat * rho 4%nat)]) /\
    m2 1%nat 0%nat = Some (Fin (al 0%nat + s * rho 4%nat)) /\ m2 1%nat 4%nat = Some (Fin (al 4%nat + s * rho 0%nat)) /\
    forall o, (o = 1 \/ o = 2 \/ o = 3)%nat -> m2 1%nat o = m 1%nat o.
Proof.
  intros H HM HZ.
  destruct (prog1 bv ba int_h _ D rho al s e m h_ok eq_refl (h_val D) ltac:(cbn; repeat split; auto) H HM) as [e2 [m2 [Q1 Q2]]].
  { intros o [X|[]]. now rewrite <- X. }
  exists e2, m2. split; [exact Q1|]. split; [|split].
  - apply Q2; [cbn; tauto|cbn; lia|]. cbn. auto_derive; auto. ring.
  - apply Q2; [cbn; tauto|cbn; lia|]. cbn. auto_derive; auto. ring.
  - intros o Ho.
    destruct (call_frame la LA bv ba int_h D e m (@OpDiff N [Fin s]) e2 m2 h_ok H) as [_ F].
    + reflexivity.
    + exact I.
    + cbn [step]. change (carrier N) with xr in *. now rewrite Q1.
    + apply F; [auto|lia|]. cbn. lia.
Qed.
Lemma seqs_wfs u a n : forallb wfs (map (fun i => un1 u (sv i)) (seq a n)) = true.
Proof. revert a. induction n as [|n IH]; intros a; cbn; auto. Qed.
Lemma seqs_shape u a n : map shape_of (map (fun i => un1 u (sv i)) (seq a n)) = repeat scl n.
Proof. revert a. induction n as [|n IH]; intros a; cbn [seq map repeat]; [reflexivity|]. rewrite IH. reflexivity. Qed.
Lemma seqs_nil {Y} (h : P2 -> list Y) u a n : (forall i, h (un1 u (sv i)) = []) -> flat_map h (map (fun i => un1 u (sv i)) (seq a n)) = [].
Proof. intros H. revert a. induction n as [|n IH]; intros a; cbn; auto. now rewrite H, IH. Qed.
Lemma seqs_refs u a n : flat_map refs (map (fun i => un1 u (sv i)) (seq a n)) = seq a n.
Proof. revert a. induction n as [|n IH]; intros a; cbn; auto. f_equal. apply IH. Qed.
Lemma seqs_disc u a n : forallb disc (map (fun i => un1 u (sv i)) (seq a n)) = true.
Proof. revert a. induction n as [|n IH]; intros a; cbn; auto. Qed.
Lemma seqs_later u a n : later writes (map (fun i => un1 u (sv i)) (seq a n)) = true.
Proof. revert a. induction n as [|n IH]; intros a; cbn [seq map later]; auto. rewrite IH, (seqs_nil writes) by reflexivity. reflexivity. Qed.
Lemma seqs_cfin u a n : cfin (EComp (KSumI Scl) tt (map (fun i => un1 u (sv i)) (seq a n))).
Proof. revert a. induction n as [|n IH]; intros a; cbn; auto. split; [cbn; auto|]. apply (IH (S a)). Qed.
Lemma scls_ok n : kshape_ok (KSumI Scl) (repeat scl n) = true.
Proof.
  unfold kshape_ok. rewrite andb_true_iff. split; [induction n; cbn; auto|]. unfold same_shapes. destruct n; cbn [repeat]; auto.
  change (scl :: repeat scl n) with (repeat scl (S n)). rewrite andb_true_iff. split; [reflexivity|].
  generalize (S n). intros k. induction k; cbn; auto.
Qed.
Lemma seqs_wf u n : wfs (EComp (KSumI Scl) tt (map (fun i => un1 u (sv i)) (seq 0 n))) = true.
Proof. cbn [wfs]. rewrite seqs_wfs, seqs_shape, scls_ok. cbn. induction (seq 0 n); cbn; auto. Qed.
Lemma seqs_di u n : disc (EComp (KSumI Scl) tt (map (fun i => un1 u (sv i)) (seq 0 n))) = true.
Proof. cbn [disc]. rewrite seqs_disc, seqs_later. reflexivity. Qed.
Lemma g_ok n : okexpr la (int_g n).
Proof.
  change (okexpr la (int_g n)) with (wfs (int_g n) = true /\ disc (int_g n) = true /\ cfin (int_g n)). unfold int_g, bi2. split; [|split].
  - set (a := EComp (KSumI Scl) tt (map (fun i => un1 USin (sv i)) (seq 0 n))).
    set (b := EComp (KSumI Scl) tt (map (fun i => un1 UCos (sv i)) (seq 0 n))).
    assert (A1 : wfs a = true) by apply seqs_wf. assert (B1 : wfs b = true) by apply seqs_wf.
    assert (A2 : shape_of a = scl) by reflexivity. assert (B2 : shape_of b = scl) by reflexivity.
    assert (A3 : rhs_ok a = true) by reflexivity. assert (B3 : gettable b = true) by reflexivity. clearbody a b.
    cbn [wfs map shape_of forallb]. rewrite A1, A2, A3, B1, B2, B3. reflexivity.
  - set (a := EComp (KSumI Scl) tt (map (fun i => un1 USin (sv i)) (seq 0 n))).
    set (b := EComp (KSumI Scl) tt (map (fun i => un1 UCos (sv i)) (seq 0 n))).
    assert (A1 : disc a = true) by apply seqs_di. assert (B1 : disc b = true) by apply seqs_di.
    assert (A2 : refs a = seq 0 n) by apply seqs_refs. assert (B2 : refs b = seq 0 n) by apply seqs_refs.
    assert (B3 : writes b = []) by (apply (seqs_nil writes); reflexivity).
    assert (B4 : eqw b = []) by (apply (seqs_nil eqw); reflexivity).
    assert (B5 : opw b = []) by (apply (seqs_nil opw); reflexivity). clearbody a b.
    assert (J : forall o, (n <= o)%nat -> dj [o] (seq 0 n) = true).
    { intros o Ho. unfold dj. cbn [forallb]. rewrite andb_true_r, negb_true_iff. destruct (existsb _ _) eqn:Q; auto.
      apply existsb_exists in Q. destruct Q as [x [Q1 Q2]]. apply in_seq in Q1. apply Nat.eqb_eq in Q2. lia. }
    assert (J2 : dj [S n] (n :: n :: seq 0 n) = true).
    { specialize (J (S n) ltac:(lia)). unfold dj in *. cbn [forallb existsb] in *. replace (S n =? n)%nat with false by (symmetry; apply Nat.eqb_neq; lia). exact J. }
    assert (J3 : dj [S n] (n :: seq 0 n) = true).
    { specialize (J (S n) ltac:(lia)). unfold dj in *. cbn [forallb existsb] in *. replace (S n =? n)%nat with false by (symmetry; apply Nat.eqb_neq; lia). exact J. }
    cbn. rewrite ?A1, ?A2, ?B1, ?B2, ?B3, ?B4, ?B5. cbn. specialize (J n ltac:(lia)). cbn in J, J2, J3 |- *. rewrite ?app_nil_r, J, J2, J3. reflexivity.
  - cbn [cfin]. split; [apply seqs_cfin|]. cbn [cfin]. split; [cbn; auto|]. split; [apply seqs_cfin|exact I].
Qed.
Lemma g_thm bv ba n D rho al s (e : E) m : session la bv ba (int_g n) D e m -> mreal la (int_g n) m D rho al ->
  al n = 0 -> al (S n) = 0 ->
  exists e2 m2, @autodiff N e [Fin s] m = Ok (e2, m2, [Fin (sumn n (fun i => sin (rho i)) ^ 2 - sumn n (fun i => cos (rho i)))]) /\
    forall o, (o < n)%nat -> m2 0%nat o = Some (Fin (rho o)) /\
      m2 1%nat o = Some (Fin (al o + s * (2 * sumn n (fun i => sin (rho i)) * cos (rho o) + sin (rho o)))).
Proof.
  intros H HM Z1 Z2.
  assert (HW : writes (int_g n) = [n; S n]).
  { unfold int_g, bi2. cbn [writes flat_map app]. rewrite !(seqs_nil writes) by reflexivity. reflexivity. }
  assert (HE : eqw (int_g n) = [n; S n]).
  { unfold int_g, bi2. cbn [eqw flat_map app]. rewrite !(seqs_nil eqw) by reflexivity. reflexivity. }
  assert (HD : dom D true false (int_g n) rho).
  { assert (L : forall u us i a k r, (u = USin \/ u = UCos) -> doms D true us i (map (fun i => un1 u (sv i)) (seq a k)) r).
    { intros u us i a k r Hu. revert i a. induction k as [|k IH]; intros i a; cbn [seq map doms]; auto. split; [|apply IH].
      destruct Hu; subst; cbn; repeat split; auto. }
    assert (L2 : forall u w r, (u = USin \/ u = UCos) -> dom D true w (EComp (KSumI Scl) tt (map (fun i => un1 u (sv i)) (seq 0 n))) r).
    { intros u w r Hu. rewrite dom_comp. split; [now apply L|exact I]. }
    pose proof (fun w r => L2 USin w r (or_introl eq_refl)) as A. pose proof (fun w r => L2 UCos w r (or_intror eq_refl)) as B.
    unfold int_g, bi2. revert A B. generalize (EComp (KSumI Scl) tt (map (fun i => un1 USin (sv i)) (seq 0 n))).
    generalize (EComp (KSumI Scl) tt (map (fun i => un1 UCos (sv i)) (seq 0 n))). intros b a A B.
    cbn. repeat split; auto. }
  destruct (prog1 bv ba (int_g n) _ D rho al s e m (g_ok n) eq_refl (fun r => g_val D r n) HD H HM) as [e2 [m2 [Q1 Q2]]].
  { intros o Ho. change (In o (writes (int_g n))) in Ho. rewrite HW in Ho. destruct Ho as [X|[X|[]]]; now subst. }
  exists e2, m2. split; [exact Q1|]. intros o Ho. apply Q2.
  - unfold int_g. cbn [refs]. apply in_or_app. left. apply in_or_app. right. rewrite seqs_refs. apply in_seq. lia.
  - change (~ In o (eqw (int_g n))). rewrite HE. cbn. lia.
  - now apply g_der.
Qed.
End Progs.
