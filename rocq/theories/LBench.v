(** The benchmark program of Bench.v: value, derivatives, and the adjoints left by
    k calls without a reset. *)
From Coq Require Import Reals Lra FunctionalExtensionality.
From Coquelicot Require Import Coquelicot.
From Verif Require Import Base Num Expr Node Stat Machine Wf LKind Session Tape XR Spec Nudge RSess Grad LReal LScal LKA LKB LKM LVal LNudge LGrad LDiff LGrd LNGrad
  Train LTrain Progs LProgs Again LAgain Bench.
Local Open Scope R_scope.
Set Bullet Behavior "Strict Subproofs".

Lemma ndens_sv D p r n : forall a, ndens D p (map sv (seq a n)) r = (map (fun i => [r i]) (seq a n), r).
Proof. induction n as [|n IH]; intros a; [reflexivity|]. cbn [seq map]. rewrite ndens_cons. unfold nfin. cbn. now rewrite IH. Qed.
Lemma nsum_val D p r n : nden D p (EComp (KSumI Scl) tt (map sv (seq 0 n))) r = ([sumn n r], r).
Proof.
  rewrite nden_comp, ndens_sv. cbn [fst snd]. f_equal. cbn. f_equal. rewrite map_length, seq_length. apply sumn_ext. intros i Hi.
  rewrite (nth_indep _ [] [r 0%nat]) by now rewrite map_length, seq_length.
  rewrite (map_nth (fun i => [r i])), seq_nth by exact Hi. reflexivity.
Qed.
Lemma put1 r o v i : put r o [v] i = if (i =? o)%nat then v else r i.
Proof.
  unfold put. cbn [length]. destruct (i =? o)%nat eqn:Q.
  - apply Nat.eqb_eq in Q. subst. rewrite Nat.leb_refl. replace (o <? o + 1)%nat with true by (symmetry; apply Nat.ltb_lt; lia).
    cbn [andb]. now rewrite Nat.sub_diag.
  - apply Nat.eqb_neq in Q. destruct (o <=? i)%nat eqn:Q1; cbn [andb]; auto. apply Nat.leb_le in Q1.
    replace (i <? o + 1)%nat with false by (symmetry; apply Nat.ltb_ge; lia). reflexivity.
Qed.
Definition nw0 (p r : nat -> R) n := r 0%nat * r 1%nat - r 2%nat * sin (r 0%nat) + p n.
Definition nw1 (p r : nat -> R) n := r 1%nat * nw0 p r n - cos (nw0 p r n) + sumn n r + p (S n).
Definition nw2 (p r : nat -> R) n := nw1 p r n + exp (nw1 p r n - nw0 p r n) + p (S (S n)).
Definition bfin (n : nat) (a b c : R) (r : nat -> R) (i : nat) : R :=
  if (i =? S (S n))%nat then c else if (i =? S n)%nat then b else if (i =? n)%nat then a else r i.
Lemma nden_bench D p r n : (3 <= n)%nat ->
  fst (nden D p (bench_u n) r) = [nw2 p r n] /\ forall i, snd (nden D p (bench_u n) r) i = bfin n (nw0 p r n) (nw1 p r n) (nw2 p r n) r i.
Proof.
  intros Hn. rename n into m.
  unfold bench_u.
  assert (G : forall a b : P2, forall r, nden D p (EGlue tt a b) r = nden D p b (snd (nden D p a r))).
  { intros a b r0. cbn [nden]. now destruct (nden D p a r0). }
  assert (Q : forall o (y : P2) r v, nden D p y r = ([v], r) -> nden D p (EEq tt scl o y) r = ([v + p o], put r o [v + p o])).
  { intros o y r0 v E. cbn [nden]. rewrite E. cbn. now rewrite Nat.add_0_r. }
  rewrite !G. rewrite (Q m _ r (r 0%nat * r 1%nat - r 2%nat * sin (r 0%nat))) by reflexivity. cbn [snd].
  change (r 0%nat * r 1%nat - r 2%nat * sin (r 0%nat) + p m) with (nw0 p r m). set (r1 := put r m [nw0 p r m]).
  assert (R1 : forall i, r1 i = if (i =? m)%nat then nw0 p r m else r i) by (intros; apply put1). clearbody r1.
  assert (LO : forall i, (i < m)%nat -> r1 i = r i).
  { intros i Hi. rewrite R1. replace (i =? m)%nat with false by (symmetry; apply Nat.eqb_neq; lia). reflexivity. }
  assert (RM : r1 m = nw0 p r m) by (rewrite R1, Nat.eqb_refl; reflexivity).
  rewrite (Q (S m) _ r1 (r 1%nat * nw0 p r m - cos (nw0 p r m) + sumn m r)).
  2:{ unfold bi2 at 1. rewrite nden_comp, !ndens_cons. unfold nval, nfin.
      replace (snd (nden D p (bi2 BSub (bi2 BMul (sv 1) (sv m)) (un1 UCos (sv m))) r1)) with r1 by reflexivity.
      rewrite nsum_val. cbn. rewrite RM, (LO 1%nat) by lia. rewrite (sumn_ext m r1 r) by exact LO. reflexivity. }
  cbn [snd]. change (r 1%nat * nw0 p r m - cos (nw0 p r m) + sumn m r + p (S m)) with (nw1 p r m).
  set (r2 := put r1 (S m) [nw1 p r m]).
  assert (R2 : forall i, r2 i = if (i =? S m)%nat then nw1 p r m else r1 i) by (intros; apply put1). clearbody r2.
  rewrite (Q (S (S m)) _ r2 (nw1 p r m + exp (nw1 p r m - nw0 p r m))).
  2:{ assert (A : r2 (S m) = nw1 p r m) by (rewrite R2, Nat.eqb_refl; reflexivity).
      assert (B : r2 m = nw0 p r m) by (rewrite R2; replace (m =? S m)%nat with false by (symmetry; apply Nat.eqb_neq; lia); exact RM).
      rewrite <- A, <- B. reflexivity. }
  cbn [fst snd]. split; [reflexivity|]. intros i. rewrite put1, R2, R1. reflexivity.
Qed.

(** Derivatives with respect to x_j (3 <= j), w1 and w2. *)
Definition bG (n : nat) (c : R) (o : nat) : R :=
  if (o =? S (S n))%nat then 1 else c.
Definition bH (n : nat) (c : R) (o i : nat) : R :=
  if (i =? S (S n))%nat then (if (o =? S (S n))%nat then 1 else c)
  else if (i =? S n)%nat then (if (o =? S (S n))%nat then 0 else 1)
  else if (i =? n)%nat then 0 else ind o i.
Lemma bump_lo o x i : (i <> o)%nat -> bump o x i = 0.
Proof. intros H. unfold bump. now rewrite (proj2 (Nat.eqb_neq i o) H). Qed.
Lemma bump_at o x : bump o x o = x.
Proof. unfold bump. now rewrite Nat.eqb_refl. Qed.
Lemma sumn_bump n r o x : (o < n)%nat -> sumn n (fun i => r i + bump o x i) = sumn n r + x.
Proof.
  intros H. rewrite sumn_plus. f_equal. rewrite (sumn_ext n _ (fun i => x * ind o i)).
  - now rewrite (sumn_ind n o (fun _ => x)).
  - intros i Hi. unfold bump, ind. rewrite (Nat.eqb_sym i o). destruct (o =? i)%nat; ring.
Qed.
Lemma sumn_bump_hi n r o x : (n <= o)%nat -> sumn n (fun i => r i + bump o x i) = sumn n r.
Proof. intros H. apply sumn_ext. intros i Hi. rewrite bump_lo by lia. ring. Qed.
Definition obs (n o : nat) : Prop := (3 <= o < n \/ o = S n \/ o = S (S n))%nat.
Lemma nw_bump n r o x : (3 <= n)%nat -> obs n o ->
  let p := bump o x in let q := fun i => r i + bump o x i in
  nw0 p q n = bw0 r /\ nw1 p q n = bw1 n r + (if (o =? S (S n))%nat then 0 else x) /\
  nw2 p q n = (bw1 n r + (if (o =? S (S n))%nat then 0 else x)) + exp (bw1 n r + (if (o =? S (S n))%nat then 0 else x) - bw0 r)
              + (if (o =? S (S n))%nat then x else 0).
Proof.
  intros Hn Ho p q.
  assert (q0 : q 0%nat = r 0%nat) by (unfold q; rewrite bump_lo by (unfold obs in Ho; lia); ring).
  assert (q1 : q 1%nat = r 1%nat) by (unfold q; rewrite bump_lo by (unfold obs in Ho; lia); ring).
  assert (q2 : q 2%nat = r 2%nat) by (unfold q; rewrite bump_lo by (unfold obs in Ho; lia); ring).
  assert (W0 : nw0 p q n = bw0 r).
  { unfold nw0, bw0. rewrite q0, q1, q2. unfold p. rewrite bump_lo by (unfold obs in Ho; lia). ring. }
  assert (W1 : nw1 p q n = bw1 n r + (if (o =? S (S n))%nat then 0 else x)).
  { unfold nw1, bw1. rewrite W0, q1. unfold q, p. destruct Ho as [Ho|[Ho|Ho]].
    - rewrite sumn_bump, bump_lo by lia. replace (o =? S (S n))%nat with false by (symmetry; apply Nat.eqb_neq; lia). ring.
    - rewrite sumn_bump_hi by lia. subst o. rewrite bump_at. replace (S n =? S (S n))%nat with false by (symmetry; apply Nat.eqb_neq; lia). ring.
    - rewrite sumn_bump_hi, bump_lo by lia. subst o. rewrite Nat.eqb_refl. ring. }
  split; [exact W0|]. split; [exact W1|]. unfold nw2. rewrite W0, W1. f_equal. unfold p, bump. rewrite Nat.eqb_sym. reflexivity.
Qed.
Definition bc (n : nat) (r : nat -> R) : R := 1 + exp (bw1 n r - bw0 r).
Lemma bench_dv n D r o : (3 <= n)%nat -> obs n o -> dvalue D (bench_u n) r o 0%nat = bG n (bc n r) o.
Proof.
  intros Hn Ho. unfold dvalue. apply is_derive_unique. eapply der_ext.
  - intros x. unfold nval. rewrite (proj1 (nden_bench D _ _ n Hn)). destruct (nw_bump n r o x Hn Ho) as [_ [_ E]]. cbn [el nth]. symmetry. exact E.
  - unfold bG, bc. destruct (o =? S (S n))%nat; auto_derive; auto; rewrite ?Rplus_0_r; unfold Rminus; ring.
Qed.
Lemma bench_df n D r o i : (3 <= n)%nat -> obs n o -> dfinal D (bench_u n) r o i = bH n (bc n r) o i.
Proof.
  intros Hn Ho. unfold dfinal. apply is_derive_unique. eapply der_ext.
  - intros x. unfold nfin. rewrite (proj2 (nden_bench D (bump o x) (fun j => r j + bump o x j) n Hn) i). destruct (nw_bump n r o x Hn Ho) as [E0 [E1 E2]].
    cbv zeta in E0, E1, E2. rewrite E0, E1, E2. reflexivity.
  - unfold bfin, bH, bc. destruct (i =? S (S n))%nat; [|destruct (i =? S n)%nat; [|destruct (i =? n)%nat]].
    + destruct (o =? S (S n))%nat; auto_derive; auto; rewrite ?Rplus_0_r; unfold Rminus; ring.
    + destruct (o =? S (S n))%nat; auto_derive; auto; ring.
    + auto_derive; auto.
    + unfold bump, ind. rewrite (Nat.eqb_sym i o). destruct (o =? i)%nat; auto_derive; auto; ring.
Qed.

(** The recursion of the adjoints and its solution. *)
Lemma sumn_bH n c al o : (3 <= n)%nat -> obs n o -> sumn (3 + n) (fun i => al i * bH n c o i) =
  al (S (S n)) * (if (o =? S (S n))%nat then 1 else c) + al (S n) * (if (o =? S (S n))%nat then 0 else 1) + (if (o <? n)%nat then al o else 0).
Proof.
  intros Hn Ho. change (3 + n)%nat with (S (S (S n))). cbn [sumn]. unfold bH at 2 3 4. rewrite !Nat.eqb_refl.
  replace (n =? S (S n))%nat with false by (symmetry; apply Nat.eqb_neq; lia).
  replace (n =? S n)%nat with false by (symmetry; apply Nat.eqb_neq; lia).
  replace (S n =? S (S n))%nat with false by (symmetry; apply Nat.eqb_neq; lia).
  rewrite (sumn_ext n _ (fun i => al i * ind o i)).
  2:{ intros i Hi. unfold bH. replace (i =? S (S n))%nat with false by (symmetry; apply Nat.eqb_neq; lia).
      replace (i =? S n)%nat with false by (symmetry; apply Nat.eqb_neq; lia).
      replace (i =? n)%nat with false by (symmetry; apply Nat.eqb_neq; lia). reflexivity. }
  destruct (o <? n)%nat eqn:Q.
  - apply Nat.ltb_lt in Q. rewrite sumn_ind by exact Q. ring.
  - apply Nat.ltb_ge in Q. rewrite (sumn_ext n _ (fun _ => 0)).
    + rewrite sumn_0 by reflexivity. ring.
    + intros i Hi. unfold ind. replace (i =? o)%nat with false by (symmetry; apply Nat.eqb_neq; lia). ring.
Qed.
Lemma adj_bench n c k G H : (3 <= n)%nat -> (forall o, obs n o -> G o 0%nat = bG n c o) ->
  (forall o i, obs n o -> H o i = bH n c o i) -> forall al,
  let al' := adj_after (3 + n) G H (repeat [1] k) al in
  al' (S (S n)) = al (S (S n)) + INR k /\
  al' (S n) = al (S n) + (INR k * al (S (S n)) + INR k * (INR k + 1) / 2) * c /\
  forall j, (3 <= j < n)%nat -> al' j = al j + INR k * al (S n) +
    (INR k * (INR k + 1) / 2 * al (S (S n)) + INR k * (INR k + 1) * (INR k + 2) / 6) * c.
Proof.
  intros Hn HG HH. induction k as [|k IH]; intros al al'.
  - unfold al'. cbn [repeat adj_after INR]. repeat split; intros; field.
  - unfold al'. cbn [repeat adj_after].
    match goal with |- context [adj_after _ _ _ _ ?f] => set (al1 := f) end.
    assert (A : forall o, obs n o -> al1 o = bG n c o + (al (S (S n)) * (if (o =? S (S n))%nat then 1 else c) +
                al (S n) * (if (o =? S (S n))%nat then 0 else 1) + (if (o <? n)%nat then al o else 0))).
    { intros o Ho. unfold al1. rewrite (sumn_ext _ _ (fun i => al i * bH n c o i)) by (intros; now rewrite HH).
      rewrite sumn_bH by auto. f_equal. unfold dotp. cbn. rewrite HG by exact Ho. ring. }
    destruct (IH al1) as [I1 [I2 I3]]. rewrite S_INR.
    assert (A2 : al1 (S (S n)) = al (S (S n)) + 1).
    { rewrite A by (unfold obs; lia). unfold bG. rewrite Nat.eqb_refl. replace (S (S n) <? n)%nat with false by (symmetry; apply Nat.ltb_ge; lia). ring. }
    assert (A1 : al1 (S n) = al (S n) + (al (S (S n)) + 1) * c).
    { rewrite A by (unfold obs; lia). unfold bG. replace (S n =? S (S n))%nat with false by (symmetry; apply Nat.eqb_neq; lia).
      replace (S n <? n)%nat with false by (symmetry; apply Nat.ltb_ge; lia). ring. }
    split; [|split].
    + rewrite I1, A2. ring.
    + rewrite I2, A2, A1. field.
    + intros j Hj. rewrite (I3 j Hj), A2, A1, A by (unfold obs; lia). unfold bG.
      replace (j =? S (S n))%nat with false by (symmetry; apply Nat.eqb_neq; lia).
      replace (j <? n)%nat with true by (symmetry; apply Nat.ltb_lt; lia). field.
Qed.

Definition cls (n : nat) (rho r : nat -> R) : Prop := forall i, (i < n \/ S (S n) < i)%nat -> r i = rho i.
Lemma nw_cls n p r r' : (3 <= n)%nat -> (forall i, (i < n)%nat -> r i = r' i) -> nw0 p r n = nw0 p r' n /\ nw1 p r n = nw1 p r' n /\ nw2 p r n = nw2 p r' n.
Proof.
  intros Hn H. assert (W0 : nw0 p r n = nw0 p r' n) by (unfold nw0; now rewrite !H by lia).
  assert (W1 : nw1 p r n = nw1 p r' n) by (unfold nw1; rewrite W0, (H 1%nat), (sumn_ext n r r') by (auto; lia); reflexivity).
  unfold nw2. now rewrite W0, W1.
Qed.
Lemma bench_cls n D rho r o : (3 <= n)%nat -> cls n rho r ->
  (forall k, dvalue D (bench_u n) r o k = dvalue D (bench_u n) rho o k) /\ forall i, dfinal D (bench_u n) r o i = dfinal D (bench_u n) rho o i.
Proof.
  intros Hn HC.
  assert (Q : forall x, let q := fun s i => s i + bump o x i in
    nw0 (bump o x) (q r) n = nw0 (bump o x) (q rho) n /\ nw1 (bump o x) (q r) n = nw1 (bump o x) (q rho) n /\ nw2 (bump o x) (q r) n = nw2 (bump o x) (q rho) n).
  { intros x q. apply nw_cls; auto. intros i Hi. unfold q. now rewrite HC by lia. }
  split; intros i; unfold dvalue, dfinal; apply Derive_ext; intros x; destruct (Q x) as [Q0 [Q1 Q2]]; cbv beta in Q0, Q1, Q2.
  - unfold nval. rewrite (proj1 (nden_bench D (bump o x) (fun j => r j + bump o x j) n Hn)), (proj1 (nden_bench D (bump o x) (fun j => rho j + bump o x j) n Hn)).
    now rewrite Q2.
  - unfold nfin. rewrite (proj2 (nden_bench D (bump o x) (fun j => r j + bump o x j) n Hn)), (proj2 (nden_bench D (bump o x) (fun j => rho j + bump o x j) n Hn)).
    rewrite Q0, Q1, Q2. unfold bfin. destruct (i =? S (S n))%nat eqn:E1; auto. destruct (i =? S n)%nat eqn:E2; auto. destruct (i =? n)%nat eqn:E3; auto.
    apply Nat.eqb_neq in E1, E2, E3. now rewrite HC by lia.
Qed.

Lemma svs_nil {Y} (h : P2 -> list Y) a n : (forall i, h (sv i) = []) -> flat_map h (map sv (seq a n)) = [].
Proof. intros H. revert a. induction n as [|n IH]; intros a; cbn; auto. now rewrite H, IH. Qed.
Lemma svs_refs a n : flat_map refs (map sv (seq a n)) = seq a n.
Proof. revert a. induction n as [|n IH]; intros a; cbn; auto. f_equal. apply IH. Qed.
Lemma svs_shape a n : map shape_of (map sv (seq a n)) = repeat scl n.
Proof. revert a. induction n as [|n IH]; intros a; cbn [seq map repeat]; [reflexivity|]. rewrite IH. reflexivity. Qed.
Lemma svs_all (P : P2 -> bool) a n : (forall i, P (sv i) = true) -> forallb P (map sv (seq a n)) = true.
Proof. intros H. revert a. induction n as [|n IH]; intros a; cbn; auto. now rewrite H, IH. Qed.
Lemma svs_later a n : later writes (map sv (seq a n)) = true.
Proof. revert a. induction n as [|n IH]; intros a; cbn [seq map later]; auto. rewrite IH, (svs_nil writes) by reflexivity. reflexivity. Qed.
Notation bsum n := (EComp (KSumI Scl) tt (map sv (seq 0 n))).
Lemma svs_cfin a n : cfin (EComp (KSumI Scl) tt (map sv (seq a n))).
Proof. revert a. induction n as [|n IH]; intros a; cbn; auto. split; [exact I|]. apply (IH (S a)). Qed.
Lemma bsum_facts n : wfs (bsum n) = true /\ disc (bsum n) = true /\ cfin (bsum n) /\ shape_of (bsum n) = scl /\ gettable (bsum n) = true /\
  refs (bsum n) = seq 0 n /\ writes (bsum n) = [] /\ eqw (bsum n) = [] /\ opw (bsum n) = [].
Proof.
  split; [|split; [|split; [|split; [|split; [|split; [|split; [|split]]]]]]].
  - cbn [wfs]. rewrite svs_shape, scls_ok, !svs_all by reflexivity. reflexivity.
  - cbn [disc]. rewrite svs_later, !svs_all by reflexivity. reflexivity.
  - apply svs_cfin.
  - reflexivity.
  - reflexivity.
  - apply svs_refs.
  - now apply (svs_nil writes).
  - now apply (svs_nil eqw).
  - now apply (svs_nil opw).
Qed.
Lemma dj1 o l : ~ In o l -> dj [o] l = true.
Proof.
  intros H. unfold dj. cbn [forallb]. rewrite andb_true_r, negb_true_iff. destruct (existsb _ _) eqn:Q; auto.
  apply existsb_exists in Q. destruct Q as [x [Q1 Q2]]. apply Nat.eqb_eq in Q2. subst. tauto.
Qed.
Lemma bench_facts n : (3 <= n)%nat -> wfs (bench_u n) = true /\ disc (bench_u n) = true /\ cfin (bench_u n) /\ opw (bench_u n) = [] /\
  (forall o, In o (refs (bench_u n)) -> (o < 3 + n)%nat) /\ (forall o, (o < 3 + n)%nat -> In o (refs (bench_u n))).
Proof.
  intros Hn. destruct (bsum_facts n) as [B1 [B2 [B3 [B4 [B5 [B6 [B7 [B8 B9]]]]]]]]. unfold bench_u, bi2, un1 in *.
  set (b := bsum n) in *. clearbody b. split; [|split; [|split; [|split; [|split]]]].
  - cbn [wfs map shape_of forallb]. rewrite B1, B4, B5. reflexivity.
  - cbn -[dj]. rewrite ?B2, ?B6, ?B7, ?B8, ?B9. cbn -[dj]. rewrite !dj1; [reflexivity|..]; cbn; rewrite ?in_app_iff; cbn; rewrite ?in_seq; try lia.
  - cbn. repeat split; auto.
  - cbn. rewrite B9. reflexivity.
  - intros o. cbn. rewrite B6. rewrite ?in_app_iff. cbn. rewrite ?in_app_iff. cbn. rewrite ?in_seq. lia.
  - intros o Ho. cbn. rewrite B6. rewrite ?in_app_iff. cbn. rewrite ?in_app_iff. cbn. rewrite ?in_seq. lia.
Qed.
Lemma bench_dom n D b r : (3 <= n)%nat -> dom D true b (bench_u n) r.
Proof.
  intros Hn.
  assert (L : forall us i a k r, doms D true us i (map sv (seq a k)) r).
  { intros us i a k. revert i a. induction k as [|k IH]; intros i a r0; cbn [seq map doms]; auto. split; [exact I|apply IH]. }
  assert (L2 : forall w r, dom D true w (bsum n) r).
  { intros w r0. rewrite dom_comp. split; [apply L|exact I]. }
  unfold bench_u, bi2, un1. revert L2. generalize (bsum n). intros a A. cbn. repeat split; auto.
Qed.
Lemma set1_hi (r : nat -> R) o t i : (i <> o)%nat -> set1 r o t i = r i.
Proof. intros H. unfold set1. now rewrite (proj2 (Nat.eqb_neq i o) H). Qed.
Lemma bench_der n r j : (3 <= j < n)%nat -> is_derive (fun t => f_test1 n (set1 r j t)) (r j) (bc n r).
Proof.
  intros Hj.
  assert (W0 : forall t, bw0 (set1 r j t) = bw0 r) by (intros; unfold bw0; now rewrite !set1_hi by lia).
  assert (DS : is_derive (fun t => sumn n (set1 r j t)) (r j) 1).
  { eapply der_eq; [apply der_sumn; intros i Hi; apply (set1_der r j i)|]. cbn beta.
    rewrite (sumn_ext n _ (fun i => 1 * ind j i)) by (intros; rewrite Rmult_1_l; reflexivity). now rewrite (sumn_ind n j (fun _ => 1)) by lia. }
  assert (DW : is_derive (fun t => bw1 n (set1 r j t)) (r j) 1).
  { apply (der_ext (fun t => r 1%nat * bw0 r - cos (bw0 r) + sumn n (set1 r j t))); [intros t; unfold bw1; rewrite W0, set1_hi by lia; reflexivity|].
    eapply der_eq; [apply der_plus; [apply der_const|exact DS]|]. ring. }
  unfold f_test1. apply (der_ext (fun t => bw1 n (set1 r j t) + exp (bw1 n (set1 r j t) - bw0 r))); [intros t; now rewrite W0|].
  eapply der_eq.
  - apply der_plus; [exact DW|]. apply (der_comp exp (fun t => bw1 n (set1 r j t) - bw0 r)); [apply is_derive_exp|].
    apply der_minus; [exact DW|apply der_const].
  - cbn beta. rewrite set1_same. unfold bc. ring.
Qed.
Lemma bw_cls n r r' : (3 <= n)%nat -> (forall i, (i < n)%nat -> r i = r' i) -> bw0 r = bw0 r' /\ bw1 n r = bw1 n r'.
Proof.
  intros Hn H. assert (W : bw0 r = bw0 r') by (unfold bw0; now rewrite !H by lia). split; auto. unfold bw1. rewrite W, (H 1%nat), (sumn_ext n r r') by (auto; lia). reflexivity.
Qed.
Lemma den_bench n D r : (3 <= n)%nat -> val D (bench_u n) r = [f_test1 n r] /\
  forall i, fin_env D (bench_u n) r i = bfin n (bw0 r) (bw1 n r) (f_test1 n r) r i.
Proof.
  intros Hn. destruct (bench_facts n Hn) as [W _]. unfold val, fin_env. rewrite <- (nden0 D (bench_u n) W).
  destruct (nden_bench D (fun _ : nat => 0) r n Hn) as [E1 E2].
  assert (Q0 : nw0 (fun _ : nat => 0) r n = bw0 r) by (unfold nw0, bw0; ring).
  assert (Q1 : nw1 (fun _ : nat => 0) r n = bw1 n r) by (unfold nw1, bw1; rewrite Q0; ring).
  assert (Q2 : nw2 (fun _ : nat => 0) r n = f_test1 n r) by (unfold nw2, f_test1; rewrite Q0, Q1; ring).
  split; [now rewrite E1, Q2|]. intros i. now rewrite E2, Q0, Q1, Q2.
Qed.

Section Bench.
Variable la : linalg xr.
Hypothesis LA : la_ok la.
Notation N := (XR la).
Notation E := (expr N (ann N)).
Lemma bench_ok n : (3 <= n)%nat -> okexpr la (bench_u n).
Proof. intros Hn. destruct (bench_facts n Hn) as [A [B [C _]]]. split; [exact A|split; [exact B|exact C]]. Qed.
Lemma bench_thm bv ba n D rho al k (e : E) m : (3 <= n)%nat ->
  session la bv ba (bench_u n) D e m -> mreal la (bench_u n) m D rho al -> al (S n) = 0 -> al (S (S n)) = 0 ->
  exists e2 m2, @adiffs N (repeat [Fin 1] k) e m = Ok (e2, m2, repeat [Fin (f_test1 n rho)] k) /\
    forall j, (3 <= j < n)%nat -> exists d, is_derive (fun t => f_test1 n (set1 rho j t)) (rho j) d /\ 1 < d /\
      m2 1%nat j = Some (Fin (al j + INR k * (INR k + 1) * (INR k + 2) / 6 * d)).
Proof.
  intros Hn HS HM Z1 Z2. destruct (bench_facts n Hn) as [_ [_ [_ [HO [HB HR]]]]].
  destruct (again_gen la LA bv ba (bench_u n) D (cls n rho) [f_test1 n rho] (dvalue D (bench_u n) rho) (dfinal D (bench_u n) rho)
              e m rho al true (repeat [1] k) (3 + n) (bench_ok n Hn) HS HM HO) as [e2 [m2 [Q1 Q2]]].
  - intros i _. reflexivity.
  - intros r HC. destruct (den_bench n D r Hn) as [V F]. split; [|split; [now apply bench_dom|split]].
    + intros i Hi. change (fin_env D (bench_u n) r i = rho i). rewrite F. unfold bfin.
      replace (i =? S (S n))%nat with false by (symmetry; apply Nat.eqb_neq; lia).
      replace (i =? S n)%nat with false by (symmetry; apply Nat.eqb_neq; lia).
      replace (i =? n)%nat with false by (symmetry; apply Nat.eqb_neq; lia). now apply HC.
    + change (val D (bench_u n) r = [f_test1 n rho]). rewrite V. unfold f_test1.
      destruct (bw_cls n r rho Hn) as [A B]; [intros i Hi; apply HC; lia|]. now rewrite A, B.
    + intros o _. now apply bench_cls.
  - intros s Hs. apply repeat_spec in Hs. subst s. split; [reflexivity|]. intros _ j Hj. cbn in Hj. assert (j = 0)%nat by lia. now subst.
  - exact HB.
  - exists e2, m2. rewrite repeat_length in Q1. split.
    { assert (X : map (map Fin) (repeat [1] k) = repeat [Fin 1] k) by (clear; induction k; cbn; congruence).
      change (carrier N) with xr in *. rewrite X in Q1. exact Q1. }
    intros j Hj. exists (bc n rho). split; [now apply bench_der|]. split; [unfold bc; pose proof (exp_pos (bw1 n rho - bw0 rho)); lra|].
    rewrite (Q2 j) by (apply HR; lia). do 2 f_equal.
    destruct (adj_bench n (bc n rho) k (dvalue D (bench_u n) rho) (dfinal D (bench_u n) rho) Hn) with (al := al) as [_ [_ X]].
    + intros o Ho. now apply bench_dv.
    + intros o i Ho. now apply bench_df.
    + rewrite (X j Hj), Z1, Z2. ring.
Qed.
End Bench.
