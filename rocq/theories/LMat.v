(** Calculus of determinants and inverses, in terms of Spec.v. *)
From Coq Require Import Reals Lra Psatz.
From Coquelicot Require Import Coquelicot.
From Verif Require Import Base Num Expr XR Spec LReal LMx.
Open Scope R_scope.
Set Bullet Behavior "Strict Subproofs".

Definition dlt (i j : nat) : R := if Nat.eqb i j then 1 else 0.
Lemma sumn_dlt_l n i f : (i < n)%nat -> sumn n (fun j => dlt i j * f j) = f i.
Proof.
  intros H. rewrite (sumn_one n i); auto; unfold dlt; [now rewrite Nat.eqb_refl, Rmult_1_l|].
  intros j _ E. destruct (Nat.eqb_spec i j); [congruence|ring].
Qed.
Lemma sumn_dlt_r n i f : (i < n)%nat -> sumn n (fun j => f j * dlt j i) = f i.
Proof.
  intros H. rewrite (sumn_one n i); auto; unfold dlt; [now rewrite Nat.eqb_refl, Rmult_1_r|].
  intros j _ E. destruct (Nat.eqb_spec j i); [congruence|ring].
Qed.
Definition derm (n : nat) (A : R -> mat) (t : R) (A' : mat) : Prop :=
  forall i j, (i < n)%nat -> (j < n)%nat -> is_derive (fun s => A s i j) t (A' i j).

Lemma skip_lt n p i : (i < n)%nat -> (skip p i < S n)%nat.
Proof. unfold skip. destruct (i <? p)%nat; lia. Qed.
Lemma der_det_rows n : forall (A : R -> mat) t A', derm n A t A' ->
  is_derive (fun s => det n (A s)) t (sumn n (fun i => det n (setrow (A t) i (A' i)))).
Proof.
  induction n as [|n IH]; intros A t A' H; [exact (der_const 1 t)|].
  assert (HM : forall j, (j < S n)%nat -> derm n (fun s => minor (A s) 0 j) t (minor A' 0 j)).
  { intros j Hj i k Hi Hk. unfold minor. apply H; now apply skip_lt. }
  eapply der_eq.
  - apply (der_sumn (S n) (fun j s => (-1) ^ j * A s 0%nat j * det n (minor (A s) 0 j))). intros j Hj.
    apply (der_mult (fun s => (-1) ^ j * A s 0%nat j) (fun s => det n (minor (A s) 0 j))).
    + apply (der_scal (fun s => A s 0%nat j)). apply H; lia.
    + apply (IH (fun s => minor (A s) 0 j)), HM, Hj.
  - rewrite (sumn_S n (fun i => det (S n) (setrow (A t) i (A' i)))). rewrite sumn_plus. apply f_equal2; [reflexivity|].
    rewrite (sumn_ext (S n) _ (fun j => sumn n (fun i => (-1) ^ j * A t 0%nat j * det n (setrow (minor (A t) 0 j) i (minor A' 0 j i)))))
        by (intros; now rewrite sumn_l).
      rewrite sumn_swap. apply sumn_ext. intros i Hi.
      change (det (S n) (setrow (A t) (S i) (A' (S i)))) with
        (sumn (S n) (fun j => (-1) ^ j * setrow (A t) (S i) (A' (S i)) 0%nat j * det n (minor (setrow (A t) (S i) (A' (S i))) 0 j))).
      apply sumn_ext. intros j Hj. unfold setrow at 2. cbn [Nat.eqb]. f_equal.
Qed.
Lemma der_det n A t A' : derm n A t A' ->
  is_derive (fun s => det n (A s)) t (sumn n (fun i => sumn n (fun j => A' i j * cof n (A t) i j))).
Proof.
  intros H. eapply der_eq; [apply der_det_rows, H|]. apply sumn_ext. intros i Hi. now apply det_setrow.
Qed.

(** ** Inverse *)
Lemma minv_cof n A i j : minv n A i j = cof n A j i / det n A.
Proof. unfold minv, cof. now rewrite (Nat.add_comm i j). Qed.
Lemma minv_r n A i j : det n A <> 0 -> (i < n)%nat -> (j < n)%nat -> sumn n (fun p => A i p * minv n A p j) = dlt i j.
Proof.
  intros HD Hi Hj. rewrite (sumn_ext n _ (fun p => A i p * cof n A j p * / det n A))
    by (intros; rewrite minv_cof; unfold Rdiv; ring).
  rewrite sumn_r, mul_adj by auto. unfold dlt. destruct (Nat.eqb i j); [field; auto|ring].
Qed.
Lemma minv_l n A i j : det n A <> 0 -> (i < n)%nat -> (j < n)%nat -> sumn n (fun p => minv n A i p * A p j) = dlt i j.
Proof.
  intros HD Hi Hj. rewrite (sumn_ext n _ (fun p => cof n A p i * A p j * / det n A))
    by (intros; rewrite minv_cof; unfold Rdiv; ring).
  rewrite sumn_r, adj_mul by auto. unfold dlt. destruct (Nat.eqb i j); [field; auto|ring].
Qed.
Lemma cof_symm n A i j : symm n A -> (i < n)%nat -> (j < n)%nat -> cof n A i j = cof n A j i.
Proof.
  intros HS Hi Hj. unfold cof. rewrite (Nat.add_comm i j). f_equal.
  rewrite <- (det_transp _ (minor A j i)). apply det_ext. intros a b Ha Hb. unfold minor.
  destruct n; [lia|]. cbn in Ha, Hb. apply HS; now apply skip_lt.
Qed.
Lemma minv_symm n A : symm n A -> symm n (minv n A).
Proof. intros HS i j Hi Hj. rewrite !minv_cof. now rewrite (cof_symm n A j i). Qed.
Lemma cof_minv n A i j : det n A <> 0 -> cof n A i j = det n A * minv n A j i.
Proof. intros H. rewrite minv_cof. field. auto. Qed.
Lemma minv_ext n A B : (forall i j, (i < n)%nat -> (j < n)%nat -> A i j = B i j) ->
  forall i j, (i < n)%nat -> (j < n)%nat -> minv n A i j = minv n B i j.
Proof.
  intros H i j Hi Hj. unfold minv. rewrite (@det_ext n A B H). do 2 f_equal. apply det_ext.
  destruct n; [lia|]. cbn. intros a b Ha Hb. unfold minor. apply H; now apply skip_lt.
Qed.
Lemma der_cof n A t A' i j : derm n A t A' -> (i < n)%nat -> (j < n)%nat ->
  exists c, is_derive (fun s => cof n (A s) i j) t c.
Proof.
  intros H Hi Hj. eexists. apply (der_scal (fun s => det (pred n) (minor (A s) i j))).
  apply (der_det (pred n) (fun s => minor (A s) i j) t (minor A' i j)).
  destruct n; [lia|]. cbn. intros a b Ha Hb. unfold minor. apply H; now apply skip_lt.
Qed.
Lemma ex_der_minv n A t A' i j : derm n A t A' -> det n (A t) <> 0 -> (i < n)%nat -> (j < n)%nat ->
  ex_derive (fun s => minv n (A s) i j) t.
Proof.
  intros H HD Hi Hj. destruct (der_cof n A t A' j i H Hj Hi) as [c Hc].
  apply (ex_derive_ext (fun s => cof n (A s) j i / det n (A s))); [intros; now rewrite minv_cof|].
  apply ex_derive_div; [now exists c|eexists; apply der_det; eauto|auto].
Qed.
Lemma choose2 n (P : nat -> nat -> R -> Prop) : (forall i j, (i < n)%nat -> (j < n)%nat -> exists c, P i j c) ->
  exists F : mat, forall i j, (i < n)%nat -> (j < n)%nat -> P i j (F i j).
Proof.
  intros H.
  assert (G : forall m k, (m <= n)%nat -> (k < n)%nat -> exists F : nat -> R, forall j, (j < m)%nat -> P k j (F j)).
  { induction m; intros k Hm Hk; [exists (fun _ => 0); lia|]. destruct (IHm k ltac:(lia) Hk) as [F HF].
    destruct (H k m Hk ltac:(lia)) as [c Hc]. exists (fun j => if Nat.eqb j m then c else F j).
    intros j Hj. destruct (Nat.eqb_spec j m); [now subst|apply HF; lia]. }
  assert (G2 : forall m, (m <= n)%nat -> exists F : mat, forall i j, (i < m)%nat -> (j < n)%nat -> P i j (F i j)).
  { induction m; intros Hm; [exists (fun _ _ => 0); lia|]. destruct (IHm ltac:(lia)) as [F HF].
    destruct (G n m ltac:(lia) ltac:(lia)) as [r Hr]. exists (fun i => if Nat.eqb i m then r else F i).
    intros i j Hi Hj. destruct (Nat.eqb_spec i m); [subst; now apply Hr|apply HF; lia]. }
  destruct (G2 n ltac:(lia)) as [F HF]. eauto.
Qed.
(** (A^-1)' = - A^-1 A' A^-1 *)
Lemma der_minv n A t A' : derm n A t A' -> det n (A t) <> 0 ->
  derm n (fun s => minv n (A s)) t
    (fun i j => - sumn n (fun p => sumn n (fun q => minv n (A t) i p * A' p q * minv n (A t) q j))).
Proof.
  intros H HD.
  destruct (choose2 n (fun i j c => is_derive (fun s => minv n (A s) i j) t c)) as [B' HB].
  { intros i j Hi Hj. destruct (ex_der_minv n A t A' i j H HD Hi Hj) as [c Hc]. eauto. }
  set (B := minv n (A t)).
  assert (HL : locally t (fun s => det n (A s) <> 0)).
  { pose proof (der_cont _ _ _ (der_det n A t A' H)) as HC.
    apply (HC (fun y => y <> 0)). apply open_neq. auto. }
  assert (HP : forall i j, (i < n)%nat -> (j < n)%nat ->
    sumn n (fun p => A t i p * B' p j) = - sumn n (fun p => A' i p * B p j)).
  { intros i j Hi Hj.
    assert (E : sumn n (fun p => A' i p * B p j + A t i p * B' p j) = 0).
    { eapply der_unique.
      - apply (der_sumn n (fun p s => A s i p * minv n (A s) p j)). intros p Hp.
        apply (der_mult (fun s => A s i p) (fun s => minv n (A s) p j)); [apply H|apply HB]; auto.
      - apply der_loc_const with (c := dlt i j). eapply filter_imp; [|apply HL]. intros s Hs. now apply minv_r. }
    rewrite sumn_plus in E. lra. }
  intros i j Hi Hj. eapply der_eq; [apply HB; auto|].
  transitivity (sumn n (fun p => sumn n (fun q => B i p * A t p q * B' q j))).
  - rewrite sumn_swap. rewrite (sumn_ext n _ (fun q => dlt i q * B' q j)).
    + symmetry. now apply (sumn_dlt_l n i (fun q => B' q j)).
    + intros q Hq. rewrite sumn_r. f_equal. now apply minv_l.
  - rewrite <- sumn_opp. apply sumn_ext. intros p Hp.
    rewrite (sumn_ext n _ (fun q => B i p * (A t p q * B' q j))) by (intros; ring).
    rewrite sumn_l, HP by auto. rewrite (sumn_ext n (fun q => B i p * A' p q * B q j) (fun q => B i p * (A' p q * B q j))) by (intros; ring).
    rewrite sumn_l. ring.
Qed.
Lemma der_det_minv n A t A' : derm n A t A' -> det n (A t) <> 0 ->
  is_derive (fun s => det n (A s)) t (det n (A t) * sumn n (fun i => sumn n (fun j => A' i j * minv n (A t) j i))).
Proof.
  intros H HD. eapply der_eq; [apply der_det, H|]. rewrite <- sumn_l. apply sumn_ext. intros i Hi.
  rewrite <- sumn_l. apply sumn_ext. intros j Hj. rewrite cof_minv by auto. ring.
Qed.
Lemma der_lnabs (x : R) : x <> 0 -> is_derive (fun y => ln (Rabs y)) x (/ x).
Proof.
  intros H. destruct (Rtotal_order x 0) as [L|[E|L]]; [|now elim H|].
  - apply is_derive_ext_loc with (f := fun y => ln (- y)).
    + apply (filter_imp (fun y => y < 0)); [intros y Hy; now rewrite Rabs_left|]. now apply open_lt.
    + eapply der_eq; [apply (der_comp ln (fun y => - y)); [apply is_derive_ln; lra|apply der_opp, der_id]|]. field. auto.
  - apply is_derive_ext_loc with (f := fun y => ln y).
    + apply (filter_imp (fun y => y > 0)); [intros y Hy; rewrite Rabs_right; auto; lra|]. now apply open_gt.
    + now apply is_derive_ln.
Qed.
Lemma der_lndet n A t A' : derm n A t A' -> det n (A t) <> 0 ->
  is_derive (fun s => ln (Rabs (det n (A s)))) t (sumn n (fun i => sumn n (fun j => A' i j * minv n (A t) j i))).
Proof.
  intros H HD. eapply der_eq.
  - apply (der_comp (fun y => ln (Rabs y)) (fun s => det n (A s))); [now apply der_lnabs|apply der_det_minv; eauto].
  - field. auto.
Qed.
Lemma der_lndet_pos n A t A' : derm n A t A' -> 0 < det n (A t) ->
  is_derive (fun s => ln (det n (A s))) t (sumn n (fun i => sumn n (fun j => A' i j * minv n (A t) j i))).
Proof.
  intros H HD. eapply der_eq.
  - apply (der_comp ln (fun s => det n (A s))); [now apply is_derive_ln|apply der_det_minv; [eauto|lra]].
  - field. lra.
Qed.

(** ** Positive definite matrices *)
Lemma quad_ext n A B x y : (forall i j, (i < n)%nat -> (j < n)%nat -> A i j = B i j) -> quad n A x y = quad n B x y.
Proof. intros H. apply sumn_ext. intros i Hi. apply sumn_ext. intros j Hj. now rewrite H. Qed.
Lemma posdef_ker n A x : posdef n A -> (exists i, (i < n)%nat /\ x i <> 0) ->
  (forall j, (j < n)%nat -> sumn n (fun i => x i * A i j) = 0) -> False.
Proof.
  intros [_ HP] HX HK. specialize (HP x HX). unfold quad in HP. rewrite sumn_swap in HP.
  rewrite (sumn_0 n) in HP; [lra|]. intros j Hj. rewrite sumn_r, HK by auto. ring.
Qed.
Lemma sq_pos n x : (exists i, (i < n)%nat /\ x i <> 0) -> 0 < sumn n (fun i => x i * x i).
Proof.
  intros [i [Hi HX]]. 
  assert (G : forall m, 0 <= sumn m (fun i => x i * x i)).
  { induction m; cbn; [lra|]. pose proof (Rle_0_sqr (x m)) as Q. unfold Rsqr in Q. lra. }
  induction n; [lia|]. cbn. pose proof (Rle_0_sqr (x n)) as Q. unfold Rsqr in Q. specialize (G n).
  destruct (Nat.eq_dec i n) as [->|].
  - assert (0 < x n * x n) by (destruct (Rtotal_order (x n) 0) as [?|[?|?]]; [nra|contradiction|nra]). lra.
  - specialize (IHn ltac:(lia)). lra.
Qed.
Lemma quad_dlt n x : quad n dlt x x = sumn n (fun i => x i * x i).
Proof.
  apply sumn_ext. intros i Hi. rewrite (sumn_ext n _ (fun j => dlt i j * (x i * x j))) by (intros; ring).
  now apply (sumn_dlt_l n i (fun j => x i * x j)).
Qed.
Lemma posdef_mix n A t : posdef n A -> 0 <= t <= 1 -> posdef n (fun i j => t * A i j + (1 - t) * dlt i j).
Proof.
  intros [HS HP] Ht. split.
  - intros i j Hi Hj. rewrite (HS i j) by auto. unfold dlt. now rewrite Nat.eqb_sym.
  - intros x HX. specialize (HP x HX). pose proof (sq_pos n x HX) as Q.
    replace (quad n _ x x) with (t * quad n A x x + (1 - t) * quad n dlt x x).
    + rewrite quad_dlt. destruct (Req_dec t 0) as [->|]; [lra|]. assert (0 < t * quad n A x x) by (apply Rmult_lt_0_compat; lra).
      assert (0 <= (1 - t) * sumn n (fun i => x i * x i)) by (apply Rmult_le_pos; lra). lra.
    + unfold quad. rewrite <- !sumn_l, <- sumn_plus. apply sumn_ext. intros i Hi.
      rewrite <- !sumn_l, <- sumn_plus. apply sumn_ext. intros j Hj. ring.
Qed.
Lemma posdef_det n A : posdef n A -> 0 < det n A.
Proof.
  intros HP. set (M := fun t i j => t * A i j + (1 - t) * dlt i j).
  assert (NZ : forall t, 0 <= t <= 1 -> det n (M t) <> 0).
  { intros t Ht E. destruct (@det_zero_ker n (M t) E) as [x [HX HK]].
    exact (posdef_ker n (M t) x (posdef_mix n A t HP Ht) HX HK). }
  assert (E1 : det n (M 1) = det n A) by (apply det_ext; intros; unfold M; ring).
  assert (E0 : det n (M 0) = 1).
  { etransitivity; [|exact (det_id n)]. apply det_ext. intros i j _ _. unfold M, dlt. destruct (Nat.eqb i j); ring. }
  destruct (Rtotal_order (det n A) 0) as [L|[L|L]]; [exfalso|exfalso|lra].
  - destruct (IVT (fun t => - det n (M t)) 0 1) as [t [Ht Et]].
    + intros t. apply derivable_continuous_pt. apply ex_derive_Reals_0. eexists. apply (der_opp (fun t => det n (M t))).
      apply (der_det n M t (fun i j => A i j - dlt i j)). intros i j Hi Hj. unfold M.
      generalize (A i j) (dlt i j). intros a b. auto_derive; auto; ring.
    + lra.
    + lra.
    + lra.
    + apply (NZ t Ht). lra.
  - apply (NZ 1); lra.
Qed.
