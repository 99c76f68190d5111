(** The loops of the sum and product benchmarks: adjoints left by k calls of
    autodiff without a reset. *)
From Coq Require Import Reals Lra FunctionalExtensionality.
From Coquelicot Require Import Coquelicot.
From Verif Require Import Base Num Expr Node Stat Machine Wf LKind Session Tape XR Spec Nudge RSess Grad LReal LScal LKA LKB LKM LVal LNudge LGrad LDiff LGrd LNGrad
  Train LTrain Progs LProgs Again LAgain Bench LBench BenchB LBenchB.
Local Open Scope R_scope.
Set Bullet Behavior "Strict Subproofs".

Lemma ndens_sq D p r l : ndens D p (map sq2 l) r = (map (fun i => [r i * r i]) l, r).
Proof. induction l as [|a l IH]; [reflexivity|]. cbn [map]. rewrite ndens_cons. unfold nval, nfin. cbn. now rewrite IH. Qed.
Lemma nden_sums D p r n : nden D p (EComp (KSumI Scl) tt (map sq2 (seq 0 n))) r = ([sumn n (fun i => r i * r i)], r).
Proof.
  rewrite nden_comp, ndens_sq. cbn [fst snd]. f_equal. cbn. f_equal. rewrite map_length, seq_length. apply sumn_ext. intros q Hq.
  apply (rg_nth (fun i r => r i * r i) r n q Hq).
Qed.
Lemma nden_prods D p r n : nden D p (EComp (KProdI Scl) tt (map sq2 (seq 0 n))) r = ([prodn n (fun i => r i * r i)], r).
Proof.
  rewrite nden_comp, ndens_sq. cbn [fst snd]. f_equal. cbn. f_equal. rewrite map_length, seq_length. apply prodn_ext. intros q Hq.
  apply (rg_nth (fun i r => r i * r i) r n q Hq).
Qed.

Section Two.
Variables (k : kd) (w : un) (n : nat) (F : (nat -> R) -> R) (dT : (nat -> R) -> nat -> R) (dw : R -> R).
Hypothesis Hk : k = KSumI Scl \/ k = KProdI Scl.
Hypothesis Hw : w = USin \/ w = UCos.
Hypothesis HF : forall D p r, nden D p (EComp k tt (map sq2 (seq 0 n))) r = ([F r], r).
Hypothesis HL : forall r r', (forall i, (i < n)%nat -> r i = r' i) -> F r = F r'.
Hypothesis HD : forall rho o, (o < n)%nat -> is_derive (fun t => F (set1 rho o t)) (rho o) (dT rho o).
Hypothesis HU : forall x, is_derive (un_s w) x (dw x).
Definition tz (p r : nat -> R) : R := F r + p n.
Definition tv (p r : nat -> R) : R := tz p r * tz p r + un_s w (tz p r) + p (S n).
Definition tfin (p r : nat -> R) (i : nat) : R := if (i =? S n)%nat then tv p r else if (i =? n)%nat then tz p r else r i.
Lemma nden_two D p r : fst (nden D p (two k w n) r) = [tv p r] /\ forall i, snd (nden D p (two k w n) r) i = tfin p r i.
Proof.
  unfold two.
  assert (G : forall a b : P2, forall r, nden D p (EGlue tt a b) r = nden D p b (snd (nden D p a r))).
  { intros a b r0. cbn [nden]. now destruct (nden D p a r0). }
  assert (Q : forall o (y : P2) r v, nden D p y r = ([v], r) -> nden D p (EEq tt scl o y) r = ([v + p o], put r o [v + p o])).
  { intros o y r0 v E. cbn [nden]. rewrite E. cbn. now rewrite Nat.add_0_r. }
  rewrite G. rewrite (Q n _ r (F r)) by apply HF. cbn [snd]. change (F r + p n) with (tz p r). set (r1 := put r n [tz p r]).
  assert (R1 : forall i, r1 i = if (i =? n)%nat then tz p r else r i) by (intros; apply put1). clearbody r1.
  assert (A : r1 n = tz p r) by (rewrite R1, Nat.eqb_refl; reflexivity).
  rewrite (Q (S n) _ r1 (tz p r * tz p r + un_s w (tz p r))) by (rewrite <- A; reflexivity).
  cbn [fst snd]. split; [reflexivity|]. intros i. rewrite put1, R1. reflexivity.
Qed.
Definition gz (rho : nat -> R) (o : nat) : R := if (o =? n)%nat then 1 else if (o <? n)%nat then dT rho o else 0.
Definition gv (rho : nat -> R) (o : nat) : R := (2 * F rho + dw (F rho)) * gz rho o + (if (o =? S n)%nat then 1 else 0).
Definition gH (rho : nat -> R) (o i : nat) : R := if (i =? S n)%nat then gv rho o else if (i =? n)%nat then gz rho o else ind o i.
Lemma bump_set1 rho o x : (fun i => rho i + bump o x i) = set1 rho o (rho o + x).
Proof.
  apply functional_extensionality. intros i. unfold bump, set1. rewrite (Nat.eqb_sym o i) || idtac. destruct (i =? o)%nat eqn:Q; [apply Nat.eqb_eq in Q; subst; ring|ring].
Qed.
Lemma tz_der rho o : is_derive (fun x => tz (bump o x) (fun i => rho i + bump o x i)) 0 (gz rho o).
Proof.
  unfold tz, gz. destruct (o =? n)%nat eqn:Q1; [|destruct (o <? n)%nat eqn:Q2].
  - apply Nat.eqb_eq in Q1. subst o. apply (der_ext (fun x => F rho + x)).
    + intros x. rewrite bump_at. f_equal. apply HL. intros i Hi. rewrite bump_lo by lia. ring.
    + auto_derive; auto.
  - apply Nat.ltb_lt in Q2. apply (der_ext (fun x => F (set1 rho o (rho o + x)))).
    + intros x. rewrite bump_set1, bump_lo by lia. ring.
    + eapply der_eq; [apply (der_comp (fun t => F (set1 rho o t)) (fun x => rho o + x) 0 (dT rho o))|].
      * rewrite Rplus_0_r. now apply HD.
      * auto_derive; auto.
      * ring.
  - apply Nat.ltb_ge in Q2. apply Nat.eqb_neq in Q1. apply (der_ext (fun x => F rho)).
    + intros x. rewrite (bump_lo o x n) by lia. rewrite Rplus_0_r. apply HL. intros i Hi. rewrite bump_lo by lia. ring.
    + apply der_const.
Qed.
Lemma bump0 o i : bump o 0 i = 0.
Proof. unfold bump. destruct (_ =? _)%nat; reflexivity. Qed.
Lemma tz_0 rho o : tz (bump o 0) (fun i => rho i + bump o 0 i) = F rho.
Proof. unfold tz. rewrite bump0, Rplus_0_r. apply HL. intros i Hi. rewrite bump0. ring. Qed.
Lemma tv_der rho o : is_derive (fun x => tv (bump o x) (fun i => rho i + bump o x i)) 0 (gv rho o).
Proof.
  unfold tv, gv. pose proof (tz_der rho o) as Z. eapply der_eq.
  - apply der_plus; [apply der_plus; [apply der_mult; exact Z|]|].
    + apply (der_comp (un_s w) (fun x => tz (bump o x) (fun i => rho i + bump o x i)) 0 (dw (F rho)) (gz rho o)); [rewrite tz_0; apply HU|exact Z].
    + apply (der_ext (fun x => x * (if (o =? S n)%nat then 1 else 0)) (fun x => bump o x (S n))).
      * intros x. destruct (o =? S n)%nat eqn:Q; [apply Nat.eqb_eq in Q; subst; rewrite bump_at; ring|apply Nat.eqb_neq in Q; rewrite bump_lo by lia; ring].
      * auto_derive; [exact I|]. reflexivity.
  - cbn beta. rewrite tz_0. ring.
Qed.
Lemma two_dv D rho o : dvalue D (two k w n) rho o 0%nat = gv rho o.
Proof.
  unfold dvalue. apply is_derive_unique. eapply der_ext; [|apply tv_der].
  intros x. unfold nval. rewrite (proj1 (nden_two D _ _)). reflexivity.
Qed.
Lemma two_df D rho o i : dfinal D (two k w n) rho o i = gH rho o i.
Proof.
  unfold dfinal. apply is_derive_unique. eapply der_ext.
  - intros x. unfold nfin. rewrite (proj2 (nden_two D (bump o x) (fun j => rho j + bump o x j)) i). unfold tfin. reflexivity.
  - unfold gH. destruct (i =? S n)%nat; [apply tv_der|destruct (i =? n)%nat; [apply tz_der|]].
    unfold bump, ind. rewrite (Nat.eqb_sym i o) || idtac. destruct (_ =? _)%nat; auto_derive; auto; ring.
Qed.
Definition cls2 (rho r : nat -> R) : Prop := forall i, (i < n \/ S n < i)%nat -> r i = rho i.
Lemma two_cls D rho r o : cls2 rho r ->
  (forall j, dvalue D (two k w n) r o j = dvalue D (two k w n) rho o j) /\ forall i, dfinal D (two k w n) r o i = dfinal D (two k w n) rho o i.
Proof.
  intros HC.
  assert (Z : forall x, tz (bump o x) (fun i => r i + bump o x i) = tz (bump o x) (fun i => rho i + bump o x i)).
  { intros x. unfold tz. f_equal. apply HL. intros i Hi. now rewrite HC by lia. }
  assert (V : forall x, tv (bump o x) (fun i => r i + bump o x i) = tv (bump o x) (fun i => rho i + bump o x i)).
  { intros x. unfold tv. now rewrite Z. }
  split; intros i; unfold dvalue, dfinal; apply Derive_ext; intros x.
  - unfold nval. rewrite !(proj1 (nden_two D (bump o x) _)). now rewrite V.
  - unfold nfin. rewrite !(proj2 (nden_two D (bump o x) _) i). unfold tfin. rewrite V, Z.
    destruct (i =? S n)%nat eqn:E1; auto. destruct (i =? n)%nat eqn:E2; auto. apply Nat.eqb_neq in E1, E2. now rewrite HC by lia.
Qed.
Lemma sumn_gH rho al o : sumn (2 + n) (fun i => al i * gH rho o i) = al (S n) * gv rho o + al n * gz rho o + (if (o <? n)%nat then al o else 0).
Proof.
  change (2 + n)%nat with (S (S n)). cbn [sumn]. unfold gH at 2 3. rewrite !Nat.eqb_refl.
  replace (n =? S n)%nat with false by (symmetry; apply Nat.eqb_neq; lia).
  rewrite (sumn_ext n _ (fun i => al i * ind o i)).
  2:{ intros i Hi. unfold gH. replace (i =? S n)%nat with false by (symmetry; apply Nat.eqb_neq; lia).
      replace (i =? n)%nat with false by (symmetry; apply Nat.eqb_neq; lia). reflexivity. }
  destruct (o <? n)%nat eqn:Q.
  - apply Nat.ltb_lt in Q. rewrite sumn_ind by exact Q. ring.
  - apply Nat.ltb_ge in Q. rewrite sumn_0; [ring|]. intros i Hi. unfold ind. replace (i =? o)%nat with false by (symmetry; apply Nat.eqb_neq; lia). ring.
Qed.
Lemma adj_two rho K G H (c := 2 * F rho + dw (F rho)) : (forall o, G o 0%nat = gv rho o) -> (forall o i, H o i = gH rho o i) -> forall al,
  let al' := adj_after (2 + n) G H (repeat [1] K) al in
  al' (S n) = al (S n) + INR K /\ al' n = al n + (INR K * al (S n) + INR K * (INR K + 1) / 2) * c /\
  forall j, (j < n)%nat -> al' j = al j + (INR K * al n + (INR K * (INR K + 1) / 2 * al (S n) + INR K * (INR K + 1) * (INR K + 2) / 6) * c) * dT rho j.
Proof.
  intros HG HH. induction K as [|K IH]; intros al al'.
  - unfold al'. cbn [repeat adj_after INR]. repeat split; intros; field.
  - unfold al'. cbn [repeat adj_after].
    match goal with |- context [adj_after _ _ _ _ ?f] => set (al1 := f) end.
    assert (A : forall o, al1 o = gv rho o + (al (S n) * gv rho o + al n * gz rho o + (if (o <? n)%nat then al o else 0))).
    { intros o. unfold al1. rewrite (sumn_ext _ _ (fun i => al i * gH rho o i)) by (intros; now rewrite HH).
      rewrite sumn_gH. f_equal. unfold dotp. cbn. rewrite HG. ring. }
    destruct (IH al1) as [I1 [I2 I3]]. rewrite S_INR.
    assert (A2 : al1 (S n) = al (S n) + 1).
    { rewrite A. unfold gv, gz. rewrite Nat.eqb_refl. replace (S n =? n)%nat with false by (symmetry; apply Nat.eqb_neq; lia).
      replace (S n <? n)%nat with false by (symmetry; apply Nat.ltb_ge; lia). ring. }
    assert (A1 : al1 n = al n + (al (S n) + 1) * c).
    { rewrite A. unfold gv, gz. rewrite Nat.eqb_refl. replace (n =? S n)%nat with false by (symmetry; apply Nat.eqb_neq; lia).
      rewrite Nat.ltb_irrefl. unfold c. ring. }
    split; [|split].
    + rewrite I1, A2. ring.
    + rewrite I2, A2, A1. field.
    + intros j Hj. rewrite (I3 j Hj), A2, A1, A. unfold gv, gz. fold c.
      replace (j =? S n)%nat with false by (symmetry; apply Nat.eqb_neq; lia).
      replace (j =? n)%nat with false by (symmetry; apply Nat.eqb_neq; lia).
      replace (j <? n)%nat with true by (symmetry; apply Nat.ltb_lt; lia). field.
Qed.
Lemma two_den D r (la : linalg xr) : val D (two k w n) r = [F r * F r + un_s w (F r)] /\
  forall i, (i < n \/ S n < i)%nat -> fin_env D (two k w n) r i = r i.
Proof.
  destruct (two_ok la k w n Hk Hw) as [W _]. unfold val, fin_env. rewrite <- (nden0 D (two k w n) W).
  destruct (nden_two D (fun _ : nat => 0) r) as [E1 E2]. split.
  - rewrite E1. unfold tv, tz. now rewrite !Rplus_0_r.
  - intros i Hi. rewrite E2. unfold tfin. replace (i =? S n)%nat with false by (symmetry; apply Nat.eqb_neq; lia).
    replace (i =? n)%nat with false by (symmetry; apply Nat.eqb_neq; lia). reflexivity.
Qed.
Lemma two_domT D b r : dom D true b (two k w n) r.
Proof.
  unfold two, bi2. assert (A : forall b r, dom D true b (EComp k tt (map sq2 (seq 0 n))) r).
  { intros b0 r0. apply (rg_dom _ _ sq2_plain); auto. intros i b1 _. cbn. repeat split; auto. }
  revert A. generalize (EComp k tt (map sq2 (seq 0 n))). intros a A. destruct Hw; subst; cbn; repeat split; auto.
Qed.
Lemma two_loop (la : linalg xr) (LA : la_ok la) bv ba D rho al K (e : expr (XR la) (ann (XR la))) m :
  session la bv ba (two k w n) D e m -> mreal la (two k w n) m D rho al -> al n = 0 -> al (S n) = 0 ->
  exists e2 m2, @adiffs (XR la) (repeat [Fin 1] K) e m = Ok (e2, m2, repeat [Fin (F rho * F rho + un_s w (F rho))] K) /\
    m2 1%nat n = Some (Fin (INR K * (INR K + 1) / 2 * (2 * F rho + dw (F rho)))) /\ m2 1%nat (S n) = Some (Fin (INR K)) /\
    forall j, (j < n)%nat -> m2 1%nat j = Some (Fin (al j + INR K * (INR K + 1) * (INR K + 2) / 6 * ((2 * F rho + dw (F rho)) * dT rho j))).
Proof.
  intros HS HM Z1 Z2.
  assert (RF : forall o, In o (refs (two k w n)) <-> (o < 2 + n)%nat).
  { intros o. unfold two, bi2. cbn [refs flat_map]. rewrite in_app_iff. cbn [refs flat_map In size].
    change (flat_map refs (map sq2 (seq 0 n))) with (flat_map (@refs xr unit) (map sq2 (seq 0 n))).
    pose proof (sq2_refs o 0 n) as SR. cbn. rewrite ?in_app_iff. cbn. rewrite SR. lia. }
  assert (HO : opw (two k w n) = []).
  { unfold two, bi2. destruct Hw; subst; cbn; rewrite ?(rg_nil _ opw) by reflexivity; auto. }
  destruct (again_gen la LA bv ba (two k w n) D (cls2 rho) [F rho * F rho + un_s w (F rho)] (dvalue D (two k w n) rho) (dfinal D (two k w n) rho)
              e m rho al true (repeat [1] K) (2 + n) (two_ok la k w n Hk Hw) HS HM HO) as [e2 [m2 [Q1 Q2]]].
  - intros i _. reflexivity.
  - intros r HC. destruct (two_den D r la) as [V FE]. split; [|split; [apply two_domT|split]].
    + intros i Hi. change (fin_env D (two k w n) r i = rho i). rewrite FE by exact Hi. now apply HC.
    + change (val D (two k w n) r = [F rho * F rho + un_s w (F rho)]). rewrite V. rewrite (HL r rho); auto.
    + intros o _. now apply two_cls.
  - intros s Hs. apply repeat_spec in Hs. subst s. split; [reflexivity|]. intros _ j Hj. cbn in Hj. assert (j = 0)%nat by lia. now subst.
  - intros o Ho. now apply RF.
  - exists e2, m2. rewrite repeat_length in Q1. split.
    { assert (X : map (map Fin) (repeat [1] K) = repeat [Fin 1] K) by (clear; induction K; cbn; congruence).
      change (carrier (XR la)) with xr in *. rewrite X in Q1. exact Q1. }
    destruct (adj_two rho K (dvalue D (two k w n) rho) (dfinal D (two k w n) rho)) with (al := al) as [X1 [X2 X3]].
    { intros o. apply two_dv. }
    { intros o i. apply two_df. }
    split; [|split].
    + rewrite (Q2 n) by (apply RF; lia). rewrite X2, Z1, Z2. do 2 f_equal. ring.
    + rewrite (Q2 (S n)) by (apply RF; lia). rewrite X1, Z2. do 2 f_equal. ring.
    + intros j Hj. rewrite (Q2 j) by (apply RF; lia). rewrite (X3 j Hj), Z1, Z2. do 2 f_equal. field.
Qed.
End Two.
Section Inst.
Variable la : linalg xr.
Hypothesis LA : la_ok la.
Notation N := (XR la).
Notation E := (expr N (ann N)).
Lemma sumb_loop bv ba n D rho al k (e : E) m (S := sumn n (fun i => rho i * rho i)) :
  session la bv ba (sumb_u n) D e m -> mreal la (sumb_u n) m D rho al -> al n = 0 -> al (Datatypes.S n) = 0 ->
  exists e2 m2, @adiffs N (repeat [Fin 1] k) e m = Ok (e2, m2, repeat [Fin (S ^ 2 + sin S)] k) /\
    forall o, (o < n)%nat -> m2 1%nat o = Some (Fin (al o + INR k * (INR k + 1) * (INR k + 2) / 6 * ((2 * S + cos S) * (2 * rho o)))).
Proof.
  intros H HM Z1 Z2.
  destruct (two_loop (KSumI Scl) USin n (fun r => sumn n (fun i => r i * r i)) (fun r o => 2 * r o) cos) with (la := la) (bv := bv) (ba := ba) (D := D) (rho := rho) (al := al) (K := k) (e := e) (m := m)
    as [e2 [m2 [Q1 [_ [_ Q2]]]]]; auto.
  - intros. apply nden_sums.
  - intros r r' Hr. apply sumn_ext. intros i Hi. now rewrite Hr.
  - intros r o Ho. eapply der_eq; [apply der_sumn; intros i Hi; apply der_mult; apply (set1_der r o i)|].
    cbn beta. rewrite set1_same. rewrite (sumn_ext n _ (fun i => (2 * r i) * ind o i)); [now apply (sumn_ind n o (fun i => 2 * r i))|]. intros i Hi. ring.
  - intros x. apply is_derive_sin.
  - exists e2, m2. split; [|exact Q2]. rewrite Q1. unfold S. cbn [un_s]. replace (sumn n (fun i => rho i * rho i) ^ 2) with (sumn n (fun i => rho i * rho i) * sumn n (fun i => rho i * rho i)) by ring. reflexivity.
Qed.
Lemma prodb_loop bv ba n D rho al k (e : E) m (P := prodn n (fun i => rho i * rho i)) :
  session la bv ba (prodb_u n) D e m -> mreal la (prodb_u n) m D rho al -> al n = 0 -> al (S n) = 0 ->
  exists e2 m2, @adiffs N (repeat [Fin 1] k) e m = Ok (e2, m2, repeat [Fin (P ^ 2 + cos P)] k) /\
    forall o, (o < n)%nat -> m2 1%nat o = Some (Fin (al o + INR k * (INR k + 1) * (INR k + 2) / 6 * ((2 * P - sin P) *
      (2 * rho o * prodn n (fun i => if (i =? o)%nat then 1 else rho i * rho i))))).
Proof.
  intros H HM Z1 Z2.
  destruct (two_loop (KProdI Scl) UCos n (fun r => prodn n (fun i => r i * r i)) (fun r o => 2 * r o * prodn n (fun i => if (i =? o)%nat then 1 else r i * r i)) (fun x => - sin x)) with (la := la) (bv := bv) (ba := ba) (D := D) (rho := rho) (al := al) (K := k) (e := e) (m := m)
    as [e2 [m2 [Q1 [_ [_ Q2]]]]]; auto.
  - intros. apply nden_prods.
  - intros r r' Hr. apply prodn_ext. intros i Hi. now rewrite Hr.
  - intros r o Ho. eapply der_eq; [apply (der_prodn n (fun i t => set1 r o t i * set1 r o t i) (r o)); intros i Hi; apply der_mult; apply (set1_der r o i)|].
    cbn beta. rewrite set1_same. unfold prodx.
    rewrite (sumn_ext n _ (fun i => (2 * r i * prodn n (fun j => if (j =? i)%nat then 1 else r j * r j)) * ind o i)).
    + apply (sumn_ind n o (fun i => 2 * r i * prodn n (fun j => if (j =? i)%nat then 1 else r j * r j)) Ho).
    + intros i Hi. ring.
  - intros x. apply is_derive_cos.
  - exists e2, m2. split; [|exact Q2]. rewrite Q1. unfold P. cbn [un_s]. replace (prodn n (fun i => rho i * rho i) ^ 2) with (prodn n (fun i => rho i * rho i) * prodn n (fun i => rho i * rho i)) by ring. reflexivity.
Qed.
End Inst.
