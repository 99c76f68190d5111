(** Values and gradients of the programs of BenchC.v. *)
From Coq Require Import Reals Lra.
From Coquelicot Require Import Coquelicot.
From Verif Require Import Base Num Expr Node Stat Machine Wf Pure LBase LKind LSimDef LMem LSimF LSimB LBind Session LUser
  Tape LTape LState LNrm LTop XR Spec Nudge RSess Grad LReal LScal LKA LKB LMat LKM LVal LNudge LGrad LDiff LIndep LGrd LNGrad LPh Train LTrain Progs LProgs LBenchB BenchC.
Open Scope R_scope.
Set Bullet Behavior "Strict Subproofs".

Definition sig_at (n : nat) (r : nat -> R) : mat := fun i j => r (n + n + (j * n + i))%nat.
Definition dif_at (n : nat) (r : nat -> R) : nat -> R := fun i => r i - r (n + i)%nat.
Definition mvn_g (n : nat) (r : nat -> R) : R :=
  - (1 / 2) * quad n (minv n (sig_at n r)) (dif_at n r) (dif_at n r) - 1 / 2 * ln (det n (sig_at n r)).
Lemma nth_cells r o k i : (i < k)%nat -> nth i (map r (seq o k)) 0 = r (o + i)%nat.
Proof. intros H. rewrite (nth_indep _ 0 (r 0%nat)) by now rewrite map_length, seq_length. rewrite map_nth, seq_nth by exact H. reflexivity. Qed.
Lemma m_cells n r i j : (i < n)%nat -> (j < n)%nat -> m_of n (map r (seq (n + n) (n * n))) i j = sig_at n r i j.
Proof. intros Hi Hj. unfold m_of, sig_at, el. rewrite nth_cells by nia. reflexivity. Qed.
Lemma mvn_val D n r : val D (mvn_u n) r = [mvn_g n r].
Proof.
  unfold val, mvn_u. rewrite den_comp. cbn. f_equal. unfold mvn_g. rewrite (LMx.det_ext (m_cells n r)). f_equal. f_equal.
  apply sumn2_ext. intros i j Hi Hj. rewrite Nat.mul_1_r, !nth_cells by auto. unfold dif_at.
  rewrite (minv_ext n _ _ (m_cells n r)) by auto. reflexivity.
Qed.
Section M.
Variable la : linalg xr.
Hypothesis LA : la_ok la.
Notation N := (XR la).
Notation E := (expr N (ann N)).
Lemma mvn_okx n : okexpr la (mvn_u n).
Proof.
  split; [|split].
  - cbn. unfold is_vecn, is_sqmat, shape_eqb. cbn. now rewrite !Nat.eqb_refl.
  - reflexivity.
  - cbn. tauto.
Qed.
Lemma posdef_ext n A B : (forall i j, (i < n)%nat -> (j < n)%nat -> A i j = B i j) -> posdef n A -> posdef n B.
Proof.
  intros H [S P]. split.
  - intros i j Hi Hj. rewrite <- !H by auto. now apply S.
  - intros x Hx. rewrite <- (quad_ext n A B x x H). now apply P.
Qed.
Lemma mvn_dom D n r : posdef n (sig_at n r) -> dom D true false (mvn_u n) r.
Proof.
  intros P. unfold mvn_u. rewrite dom_comp. split; [cbn; tauto|]. cbn.
  apply (posdef_ext n (sig_at n r)); auto. intros i j Hi Hj. symmetry. now apply m_cells.
Qed.
(** the three partial derivatives *)
Lemma mvn_der n r o (B := minv n (sig_at n r)) (w := fun i => sumn n (fun p => B i p * dif_at n r p)) : posdef n (sig_at n r) ->
  is_derive (fun t => mvn_g n (set1 r o t)) (r o)
    (sumn n (fun i => - w i * (ind o i - ind o (n + i))) +
     sumn n (fun i => sumn n (fun j => - (1 / 2) * (B i j - w i * w j) * ind o (n + n + (j * n + i))))).
Proof.
  intros P. assert (P' : posdef n (sig_at n (set1 r o (r o)))) by now rewrite set1_same.
  pose proof (der_mvn n (fun t => sig_at n (set1 r o t)) (fun t => dif_at n (set1 r o t)) (r o)
    (fun i j => ind o (n + n + (j * n + i))) (fun i => ind o i - ind o (n + i))) as H.
  cbv zeta beta in H. rewrite set1_same in H. apply H; auto.
  - intros i j Hi Hj. apply (set1_der r o).
  - intros i Hi. apply (der_minus (fun t => set1 r o t i) (fun t => set1 r o t (n + i)%nat)); apply set1_der.
Qed.
Lemma ind_no o i : i <> o -> ind o i = 0.
Proof. intros H. unfold ind. apply Nat.eqb_neq in H. now rewrite H. Qed.
Lemma ind_sh o i k : ind (k + o) (k + i) = ind o i.
Proof. unfold ind. destruct (i =? o)%nat eqn:Q; [apply Nat.eqb_eq in Q; subst; now rewrite Nat.eqb_refl|]. apply Nat.eqb_neq in Q. replace (k + i =? k + o)%nat with false; auto. symmetry. apply Nat.eqb_neq. lia. Qed.
Lemma sum2_0 n (f : nat -> nat -> R) : (forall i j, (i < n)%nat -> (j < n)%nat -> f i j = 0) -> sumn n (fun i => sumn n (fun j => f i j)) = 0.
Proof. intros H. apply sumn_0. intros i Hi. apply sumn_0. intros j Hj. now apply H. Qed.
Lemma mvn_parts n r (B := minv n (sig_at n r)) (w := fun i => sumn n (fun p => B i p * dif_at n r p)) : posdef n (sig_at n r) ->
  (forall i, (i < n)%nat -> is_derive (fun t => mvn_g n (set1 r i t)) (r i) (- w i)) /\
  (forall i, (i < n)%nat -> is_derive (fun t => mvn_g n (set1 r (n + i)%nat t)) (r (n + i)%nat) (w i)) /\
  (forall i j, (i < n)%nat -> (j < n)%nat ->
     is_derive (fun t => mvn_g n (set1 r (n + n + (j * n + i))%nat t)) (r (n + n + (j * n + i))%nat) (- (1 / 2) * (B i j - w i * w j))).
Proof.
  intros P. assert (MD : forall o, is_derive (fun t => mvn_g n (set1 r o t)) (r o)
    (sumn n (fun i => - w i * (ind o i - ind o (n + i))) +
     sumn n (fun i => sumn n (fun j => - (1 / 2) * (B i j - w i * w j) * ind o (n + n + (j * n + i)))))) by (intros o; exact (mvn_der n r o P)).
  clearbody w. clearbody B. split; [|split].
  - intros i Hi. eapply der_eq; [apply (MD i)|].
    rewrite sum2_0 by (intros p q Hp Hq; rewrite ind_no by lia; ring).
    rewrite (sumn_ext n _ (fun p => - w p * ind i p)); [rewrite (sumn_ind n i (fun p => - w p) Hi); ring|].
    intros p Hp. rewrite (ind_no i (n + p)) by lia. ring.
  - intros i Hi. eapply der_eq; [apply (MD (n + i)%nat)|].
    rewrite sum2_0 by (intros p q Hp Hq; rewrite ind_no by lia; ring).
    rewrite (sumn_ext n _ (fun p => w p * ind i p)); [rewrite (sumn_ind n i w Hi); ring|].
    intros p Hp. rewrite (ind_no (n + i) p) by lia. rewrite ind_sh. ring.
  - intros i j Hi Hj. eapply der_eq; [apply (MD (n + n + (j * n + i))%nat)|].
    rewrite (sumn_0 n (fun p => - w p * _)) by (intros p Hp; rewrite !ind_no by lia; ring). rewrite Rplus_0_l.
    rewrite (sumn_ext n _ (fun p => - (1 / 2) * (B p j - w p * w j) * ind i p)).
    + apply (sumn_ind n i (fun p => - (1 / 2) * (B p j - w p * w j)) Hi).
    + intros p Hp. rewrite (sumn_ext n _ (fun q => (- (1 / 2) * (B p q - w p * w q) * ind i p) * ind j q)).
      * apply (sumn_ind n j (fun q => - (1 / 2) * (B p q - w p * w q) * ind i p) Hj).
      * intros q Hq. rewrite ind_sh. rewrite !Rmult_assoc. do 2 f_equal.
        unfold ind. destruct (Nat.eq_dec p i) as [->|N1]; [destruct (Nat.eq_dec q j) as [->|N2]|].
        -- rewrite !Nat.eqb_refl. ring.
        -- rewrite (proj2 (Nat.eqb_neq q j) N2), (proj2 (Nat.eqb_neq (q * n + i) (j * n + i))) by (intros X; apply N2, (Nat.mul_cancel_r q j n); lia). ring.
        -- rewrite (proj2 (Nat.eqb_neq p i) N1), (proj2 (Nat.eqb_neq (q * n + p) (j * n + i))) by (intros X; destruct (lt_eq_lt_dec q j) as [[C|C]|C]; [nia|subst; lia|nia]). ring.
Qed.
Lemma mvn_refs n o : (o < n + n + n * n)%nat -> In o (refs (mvn_u n)).
Proof.
  intros H. unfold mvn_u. cbn. unfold size. cbn [rows cols]. rewrite app_nil_r, Nat.mul_1_r. rewrite !in_app_iff, !in_seq. lia.
Qed.
Lemma mvn_thm bv ba n D rho al s (e : E) m (S := sig_at n rho) (B := minv n S) (d := dif_at n rho) (w := fun i => sumn n (fun p => B i p * d p)) :
  session la bv ba (mvn_u n) D e m -> mreal la (mvn_u n) m D rho al -> posdef n S ->
  exists e2 m2, @autodiff N e [Fin s] m = Ok (e2, m2, [Fin (- (1 / 2) * quad n B d d - 1 / 2 * ln (det n S))]) /\
    (forall i, (i < n)%nat -> m2 1%nat i = Some (Fin (al i + s * - w i)) /\
       m2 1%nat (n + i)%nat = Some (Fin (al (n + i)%nat + s * w i))) /\
    forall i j, (i < n)%nat -> (j < n)%nat -> m2 1%nat (n + n + (j * n + i))%nat =
       Some (Fin (al (n + n + (j * n + i))%nat + s * (- (1 / 2) * (B i j - w i * w j)))).
Proof.
  intros H HM P.
  destruct (prog1 la LA bv ba (mvn_u n) _ D rho al s e m (mvn_okx n) eq_refl (mvn_val D n) (mvn_dom D n rho P) H HM) as [e2 [m2 [Q1 Q2]]].
  { intros o Ho. destruct Ho. }
  destruct (mvn_parts n rho P) as [P1 [P2 P3]].
  exists e2, m2. split; [exact Q1|]. split; [intros i Hi; split|intros i j Hi Hj].
  - apply (Q2 i); [apply mvn_refs; lia|intros []|now apply P1].
  - apply (Q2 (n + i)%nat); [apply mvn_refs; lia|intros []|now apply P2].
  - apply (Q2 (n + n + (j * n + i))%nat); [apply mvn_refs; nia|intros []|now apply P3].
Qed.
Lemma mvn_loop bv ba n D rho al k (e : E) m (S := sig_at n rho) (B := minv n S) (d := dif_at n rho) (w := fun i => sumn n (fun p => B i p * d p)) :
  session la bv ba (mvn_u n) D e m -> mreal la (mvn_u n) m D rho al -> posdef n S ->
  exists e2 m2, run (repeat (OpDiff (N := N) [Fin 1]) k) (e, m) = Ok (e2, m2) /\
    (forall i, (i < n)%nat -> m2 1%nat i = Some (Fin (al i + INR k * - w i)) /\
       m2 1%nat (n + i)%nat = Some (Fin (al (n + i)%nat + INR k * w i))) /\
    forall i j, (i < n)%nat -> (j < n)%nat -> m2 1%nat (n + n + (j * n + i))%nat =
       Some (Fin (al (n + n + (j * n + i))%nat + INR k * (- (1 / 2) * (B i j - w i * w j)))).
Proof.
  intros H HM P.
  destruct (loop1 la LA bv ba (mvn_u n) _ D rho al k e m (mvn_okx n) eq_refl eq_refl (mvn_val D n) (mvn_dom D n rho P) H HM) as [e2 [m2 [Q1 Q2]]].
  destruct (mvn_parts n rho P) as [P1 [P2 P3]].
  exists e2, m2. split; [exact Q1|]. split; [intros i Hi; split|intros i j Hi Hj].
  - apply (Q2 i); [apply mvn_refs; lia|now apply P1].
  - apply (Q2 (n + i)%nat); [apply mvn_refs; lia|now apply P2].
  - apply (Q2 (n + n + (j * n + i))%nat); [apply mvn_refs; nia|now apply P3].
Qed.
(** ** make_cov *)
Lemma low_det k : forall A : mat, (forall i j, (i < j)%nat -> A i j = 0) -> (forall i, A i i = 10) -> det k A = 10 ^ k.
Proof.
  induction k as [|k IH]; intros A L G; [reflexivity|]. cbn [det].
  rewrite (sumn_ext (Datatypes.S k) _ (fun j => (10 * 10 ^ k) * ind 0 j)).
  - rewrite (sumn_ind (Datatypes.S k) 0 (fun _ => 10 * 10 ^ k)) by lia. reflexivity.
  - intros j Hj. destruct j as [|j].
    + rewrite G, IH; [cbn; ring| |].
      * intros a b Hab. unfold minor, skip. cbn. apply L. lia.
      * intros a. unfold minor, skip. cbn. apply G.
    + rewrite (L 0%nat (Datatypes.S j)) by lia. rewrite ind_no by lia. ring.
Qed.
Lemma cov_det n r : det n (make_cov n r) = (10 ^ n) ^ 2.
Proof.
  assert (L : det n (cov_lower r) = 10 ^ n).
  { apply low_det.
    - intros i j H. unfold cov_lower. replace (i =? j)%nat with false by (symmetry; apply Nat.eqb_neq; lia).
      replace (i <? j)%nat with true by (symmetry; now apply Nat.ltb_lt). reflexivity.
    - intros i. unfold cov_lower. now rewrite Nat.eqb_refl. }
  unfold make_cov. pose proof (LMx.det_mul n (cov_lower r) (fun i j => cov_lower r j i)) as M. cbv beta in M. rewrite M, (@LMx.det_transp n (cov_lower r)), L. cbn. ring.
Qed.
(** the columns of L combined: sum_i x_i L_ip *)
Lemma low_ker n (A : mat) x : (forall i j, (i < j)%nat -> A i j = 0) -> (forall i, A i i <> 0) ->
  (forall p, (p < n)%nat -> sumn n (fun i => x i * A i p) = 0) -> forall i, (i < n)%nat -> x i = 0.
Proof.
  intros L G H. assert (K : forall k i, (k <= n)%nat -> (n - k <= i < n)%nat -> x i = 0).
  { induction k as [|k IH]; intros i Hk Hi; [lia|].
    destruct (Nat.eq_dec i (n - Datatypes.S k)) as [Q|Q]; [|apply IH; lia].
    assert (Z : x i * A i i = 0); [|apply Rmult_integral in Z; destruct Z as [Z|Z]; [exact Z|exfalso; now apply (G i)]].
    rewrite <- (H i) by lia. rewrite <- (sumn_ind n i (fun p => x p * A p p)) by lia. apply sumn_ext. intros p Hp.
    destruct (lt_eq_lt_dec p i) as [[C|C]|C].
    - rewrite (L p i C), ind_no by lia. ring.
    - subst p. unfold ind. rewrite Nat.eqb_refl. ring.
    - rewrite (IH p) by lia. ring. }
  intros i Hi. apply (K n); lia.
Qed.
Lemma cov_quad n r x : quad n (make_cov n r) x x = sumn n (fun p => sumn n (fun i => x i * cov_lower r i p) * sumn n (fun i => x i * cov_lower r i p)).
Proof.
  unfold quad, make_cov. 
  rewrite (sumn2_ext n _ (fun i j => sumn n (fun p => (x i * cov_lower r i p) * (x j * cov_lower r j p)))).
  - rewrite (sumn_ext n (fun p => _ * _) (fun p => sumn n (fun i => sumn n (fun j => (x i * cov_lower r i p) * (x j * cov_lower r j p))))) by (intros p Hp; symmetry; apply sumn_prod).
    rewrite (sumn_ext n _ (fun i => sumn n (fun p => sumn n (fun j => (x i * cov_lower r i p) * (x j * cov_lower r j p))))) by (intros i Hi; apply (sumn_swap n n (fun j p => (x i * cov_lower r i p) * (x j * cov_lower r j p)))).
    exact (sumn_swap n n (fun i p => sumn n (fun j => (x i * cov_lower r i p) * (x j * cov_lower r j p)))).
  - intros i j Hi Hj. rewrite <- sumn_l, Rmult_comm, <- sumn_l. apply sumn_ext. intros. ring.
Qed.
Lemma cov_posdef n r : posdef n (make_cov n r).
Proof.
  split; [intros i j Hi Hj; unfold make_cov; apply sumn_ext; intros; ring|].
  intros x [i [Hi Hx]]. rewrite cov_quad. apply (sq_pos n (fun p => sumn n (fun i => x i * cov_lower r i p))).
  assert (NN : ~ forall p, (p < n)%nat -> sumn n (fun i => x i * cov_lower r i p) = 0).
  { intros H. apply Hx. apply (low_ker n (cov_lower r) x); auto.
    - intros a b Hab. unfold cov_lower. replace (a =? b)%nat with false by (symmetry; apply Nat.eqb_neq; lia).
      replace (a <? b)%nat with true by (symmetry; now apply Nat.ltb_lt). reflexivity.
    - intros a. unfold cov_lower. rewrite Nat.eqb_refl. lra. }
  destruct (Classical_Pred_Type.not_all_ex_not _ _ NN) as [p Hp]. exists p. apply Classical_Prop.imply_to_and in Hp. exact Hp.
Qed.
Lemma cov_llt n r : llt_ok _ la n (map Fin (mkm n n (make_cov n r))) = true.
Proof.
  apply (la_llt_ok la LA).
  - apply mkm_length.
  - intros i j Hi Hj. rewrite !m_mkm by auto. apply (proj1 (cov_posdef n r)); auto.
  - apply (posdef_ext n (make_cov n r)); [|apply cov_posdef]. intros i j Hi Hj. now rewrite m_mkm.
Qed.
Lemma cov_bench bv ba n D rho al k q (e : E) m :
  session la bv ba (mvn_u n) D e m -> mreal la (mvn_u n) m D rho al ->
  (forall i, (i < n + n)%nat -> rho i = 0) ->
  (forall i j, (i < n)%nat -> (j < n)%nat -> rho (n + n + (j * n + i))%nat = make_cov n q i j) ->
  (exists e2 m2, @autodiff N e [Fin 1] m = Ok (e2, m2, [Fin (- (INR n * ln 10))])) /\
  exists e2 m2, run (repeat (OpDiff (N := N) [Fin 1]) k) (e, m) = Ok (e2, m2) /\
    (forall i, (i < n + n)%nat -> m2 1%nat i = Some (Fin (al i))) /\
    forall i j, (i < n)%nat -> (j < n)%nat -> m2 1%nat (n + n + (j * n + i))%nat =
       Some (Fin (al (n + n + (j * n + i))%nat - INR k / 2 * minv n (make_cov n q) i j)).
Proof.
  intros H HM Z HS.
  assert (P : posdef n (sig_at n rho)) by (apply (posdef_ext n (make_cov n q)); [intros; symmetry; now apply HS|apply cov_posdef]).
  assert (D0 : forall i, (i < n)%nat -> dif_at n rho i = 0) by (intros i Hi; unfold dif_at; rewrite !Z by lia; ring).
  assert (W0 : forall i, sumn n (fun p => minv n (sig_at n rho) i p * dif_at n rho p) = 0).
  { intros i. apply sumn_0. intros p Hp. rewrite D0 by auto. ring. }
  split.
  - destruct (mvn_thm bv ba n D rho al 1 e m H HM P) as [e2 [m2 [A _]]]. exists e2, m2. rewrite A. do 3 f_equal.
    rewrite (LMx.det_ext (n := n) (A := sig_at n rho) (B := make_cov n q) HS). rewrite cov_det.
    unfold quad. rewrite sum2_0 by (intros i j Hi Hj; rewrite (D0 i Hi); ring).
    assert (T : 0 < 10 ^ n) by (apply pow_lt; lra). f_equal. rewrite ln_pow by auto. rewrite ln_pow by lra. cbn. field.
  - destruct (mvn_loop bv ba n D rho al k e m H HM P) as [e2 [m2 [A [B C]]]]. exists e2, m2. split; [exact A|]. split.
    + intros i Hi. destruct (lt_dec i n) as [L|L].
      * rewrite (proj1 (B i L)), W0. do 2 f_equal. ring.
      * replace i with (n + (i - n))%nat by lia. rewrite (proj2 (B (i - n)%nat ltac:(lia))), W0. do 2 f_equal. ring.
    + intros i j Hi Hj. rewrite (C i j Hi Hj), !W0. do 2 f_equal.
      rewrite (minv_ext n (sig_at n rho) (make_cov n q) HS) by auto. field.
Qed.
End M.
