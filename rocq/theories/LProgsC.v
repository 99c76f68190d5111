(** Gradients of the remaining programs of ProgsB.v. *)
From Coq Require Import Reals Lra FunctionalExtensionality.
From Coquelicot Require Import Coquelicot.
From Verif Require Import Base Num Expr Node Stat Machine Wf Pure LBase LKind LSimDef LMem LSimF LSimB LBind Session LUser
  Tape LTape LState LNrm LTop XR Spec Nudge RSess Grad LReal LScal LKA LKB LKM LVal LNudge LGrad LDiff LIndep LGrd LNGrad LPh Train LTrain Progs LProgs ProgsB LProgsB.
Local Open Scope R_scope.
Set Bullet Behavior "Strict Subproofs".

Lemma djs l m : (forall x, In x l -> ~ In x m) -> dj l m = true.
Proof.
  unfold dj. rewrite forallb_forall. intros H x Hx. rewrite negb_true_iff. destruct (existsb _ _) eqn:Q; auto.
  apply existsb_exists in Q. destruct Q as [z [Q1 Q2]]. apply Nat.eqb_eq in Q2. subst. now apply H in Hx.
Qed.
Section P.
Variable la : linalg xr.
Hypothesis LA : la_ok la.
Notation N := (XR la).
Notation E := (expr N (ann N)).

(** ** leaf_opeq_head_tail *)
Lemma ht_ok n : (1 <= n)%nat -> okexpr la (ht_u n).
Proof.
  intros Hn. assert (M : Nat.max n 1 = n) by lia. assert (Z : (n * 1 =? 0)%nat = false) by (apply Nat.eqb_neq; lia).
  change (okexpr la (ht_u n)) with (wfs (ht_u n) = true /\ disc (ht_u n) = true /\ cfin (ht_u n)). unfold ht_u. split; [|split].
  - cbn -[Nat.max Nat.mul Nat.eqb]. unfold kshape_ok, shape_eqb, shape_ok, size. cbn -[Nat.max Nat.mul Nat.eqb].
    rewrite ?M, ?(Nat.max_comm 1 n), ?M, ?Z, ?Nat.eqb_refl. reflexivity.
  - cbn -[dj cells]. rewrite ?dj_nil. reflexivity.
  - cbn. repeat split; auto.
Qed.
Lemma ht_thm bv ba n D rho al s (e : E) m : (1 <= n)%nat ->
  session la bv ba (ht_u n) D e m -> mreal la (ht_u n) m D rho al -> (forall o, (1 <= o <= n)%nat -> al o = 0) ->
  exists e2 m2, @autodiff N e [Fin s] m = Ok (e2, m2, [Fin (sumn n (fun i => rho (S i) + rho (S n) * rho i))]) /\
    m2 0%nat (S n) = Some (Fin (rho (S n))) /\ m2 1%nat (S n) = Some (Fin (al (S n) + s * sumn n rho)) /\
    forall i, (i <= n)%nat -> m2 0%nat i = Some (Fin (rho i)) /\
      m2 1%nat i = Some (Fin (al i + s * ((if (i <? n)%nat then rho (S n) else 0) + (if (i =? 0)%nat then 0 else 1)))).
Proof.
  intros Hn H HM HZ.
  assert (RF : forall o, In o (refs (ht_u n)) <-> (o <= S n)%nat).
  { intros o. unfold ht_u. cbn -[cells]. rewrite !in_app_iff. unfold cells, size. cbn [rows cols]. rewrite !in_seq. cbn. lia. }
  assert (WR : forall o, In o (writes (ht_u n)) -> (1 <= o <= n)%nat).
  { intros o. unfold ht_u. cbn -[cells]. rewrite !app_nil_r. unfold cells, size. cbn [rows cols]. rewrite in_seq. lia. }
  destruct (prog1 la LA bv ba (ht_u n) (ht_f n) D rho al s e m (ht_ok n Hn) eq_refl) as [e2 [m2 [Q1 Q2]]]; auto.
  { intros r. now apply ht_val. }
  { cbn. repeat split; auto. }
  exists e2, m2. split; [exact Q1|].
  assert (K := fun o (Ho : (o <= S n)%nat) => Q2 o _ (proj2 (RF o) Ho) (fun x => x) (ht_der n rho o Ho)).
  destruct (K (S n)) as [K1 K2]; [lia|]. rewrite Nat.eqb_refl in K2. split; [exact K1|]. split; [exact K2|].
  intros i Hi. destruct (K i) as [K3 K4]; [lia|]. replace (i =? S n)%nat with false in K4 by (symmetry; apply Nat.eqb_neq; lia). auto.
Qed.

(** ** foreach *)
Lemma fe_eqw n a k : flat_map eqw (map (fe_step n) (seq a k)) = seq (n + S a) k.
Proof. revert a. induction k as [|k IH]; intros a; [reflexivity|]. cbn [seq map flat_map]. rewrite IH. replace (n + S (S a))%nat with (S (n + S a)) by lia. reflexivity. Qed.
Lemma fe_wr n a k : flat_map writes (map (fe_step n) (seq a k)) = seq (n + S a) k.
Proof. revert a. induction k as [|k IH]; intros a; [reflexivity|]. cbn [seq map flat_map]. rewrite IH. replace (n + S (S a))%nat with (S (n + S a)) by lia. reflexivity. Qed.
Lemma fe_refs1 n i : refs (fe_step n i) = [(n + S i)%nat; fe_prod n i; S i].
Proof. reflexivity. Qed.
Lemma fe_prod_le n i : (fe_prod n i <= n + i)%nat. Proof. destruct i; cbn; lia. Qed.
Lemma fe_later n k : forall a, (a + k <= n)%nat -> later eqw (map (fe_step n) (seq a k)) = true.
Proof.
  induction k as [|k IH]; intros a Ha; [reflexivity|]. cbn [seq map later]. rewrite IH, andb_true_r by lia. rewrite fe_eqw, fe_refs1.
  apply djs. intros x Hx. apply in_seq in Hx. pose proof (fe_prod_le n a). cbn. lia.
Qed.
Lemma fe_refs n o : In o (flat_map refs (map (fe_step n) (seq 0 n))) <-> (o < 2 * n + 1)%nat /\ (1 <= n)%nat.
Proof.
  rewrite in_flat_map. split.
  - intros [y [Hy Ho]]. apply in_map_iff in Hy. destruct Hy as [i [<- Hi]]. apply in_seq in Hi. rewrite fe_refs1 in Ho.
    pose proof (fe_prod_le n i). cbn in Ho. lia.
  - intros [Ho Hn]. destruct (Nat.eq_dec o 0) as [->|Q].
    { exists (fe_step n 0). split; [apply in_map, in_seq; lia|]. rewrite fe_refs1. cbn. auto. }
    destruct (le_lt_dec o n) as [Q1|Q1].
    + exists (fe_step n (o - 1)). split; [apply in_map, in_seq; lia|]. rewrite fe_refs1. cbn. lia.
    + exists (fe_step n (o - n - 1)). split; [apply in_map, in_seq; lia|]. rewrite fe_refs1. cbn. lia.
Qed.
Definition fe_for n : P2 := EFor tt Scl (map (fe_step n) (seq 0 n)).
Lemma fe_for_wf n : (1 <= n)%nat -> wfs (fe_for n) = true /\ shape_of (fe_for n) = scl /\ rhs_ok (fe_for n) = true.
Proof.
  intros Hn. unfold fe_for. cbn [wfs].
  assert (A : forall l, forallb wfs (map (fe_step n) l) = true).
  { induction l as [|i l IH]; [reflexivity|]. cbn [map forallb]. rewrite IH. unfold fe_step. cbn [wfs bi2 sv]. cbn. reflexivity. }
  assert (B : forall l, map shape_of (map (fe_step n) l) = map (fun _ => scl) l) by (intros; rewrite map_map; reflexivity).
  assert (C : forall l, existsb is_const (map (fe_step n) l) = false) by (induction l; auto).
  assert (S1 : forall l, forallb (fun b => sk_eqb (kind b) Scl) (map (fun _ : nat => scl) l) = true) by (induction l; auto).
  assert (S2 : forall l, last (map (fun _ : nat => scl) l) scl = scl) by (induction l as [|x [|y l] IH]; auto).
  rewrite A, B, C. destruct n as [|n]; [lia|]. unfold for_shapes. rewrite S1.
  assert (G : forall l, l <> [] -> gettable (last (map (fe_step (S n)) l) (EVar scl 0)) = true).
  { induction l as [|x [|y l] IH]; intros HL; [congruence|reflexivity|]. apply IH. discriminate. }
  assert (L : map (fun _ : nat => scl) (seq 0 (S n)) = scl :: map (fun _ : nat => scl) (seq 1 n)) by reflexivity. 
  split; [|split].
  - rewrite L. rewrite <- L, S2. specialize (G (seq 0 (S n))). cbn [seq map] in G |- *. rewrite G by discriminate. reflexivity.
  - cbn [seq map]. reflexivity.
  - reflexivity.
Qed.
Lemma fe_ok n : (1 <= n)%nat -> okexpr la (fe_u n).
Proof.
  intros Hn. destruct (fe_for_wf n Hn) as [W [S1 R1]].
  change (okexpr la (fe_u n)) with (wfs (fe_u n) = true /\ disc (fe_u n) = true /\ cfin (fe_u n)).
  assert (RF := fe_refs n). pose proof (fe_later n n 0 (le_n _)) as LT.
  assert (DA : disc (fe_for n) = true).
  { unfold fe_for. cbn [disc]. rewrite LT, andb_true_r. rewrite forallb_map. apply forallb_forall. intros i Hi. apply in_seq in Hi.
    unfold fe_step. cbn -[dj cells fe_prod]. apply djs. intros x [<-|[]]. pose proof (fe_prod_le n i). change (fe_prod n (S i)) with (n + S i)%nat. cbn -[fe_prod]. lia. }
  assert (CF : cfin (fe_for n)).
  { unfold fe_for. cbn [cfin]. generalize (seq 0 n). intros l. induction l as [|i l IH]; [exact I|]. split; [|exact IH]. cbn. auto. }
  assert (RR : forall o, In o (refs (fe_for n)) -> (o < 2 * n + 1)%nat) by (intros o Ho; now apply RF).
  unfold fe_u. fold (fe_for n). split; [|split].
  - revert W S1 R1. generalize (fe_for n). intros a W S1 R1. cbn [wfs]. rewrite W, S1, R1. reflexivity.
  - revert DA RR. generalize (fe_for n). intros a DA RR. unfold bi2, sv.
    cbn [disc forallb later flat_map writes opw eqw refs kpure klazy map shape_of negb nilb orb andb app tl]. rewrite DA, ?dj_nil. cbn [andb].
    assert (CC : forall o, cells scl o = [o]) by reflexivity. rewrite !CC, ?app_nil_r.
    rewrite !(andb_true_r). rewrite ?andb_true_iff. repeat split; auto. all: apply djs; intros x; rewrite ?in_app_iff; intros [<-|[]] X.
    + apply RR in X. lia.
    + cbn [In app] in X. lia.
    + destruct X as [[X|[]]|X]; [lia|]. apply RR in X. lia.
  - revert CF. generalize (fe_for n). intros a CF. cbn. tauto.
Qed.
Lemma fe_thm bv ba n D rho al s (e : E) m : (1 <= n)%nat ->
  session la bv ba (fe_u n) D e m -> mreal la (fe_u n) m D rho al -> (forall o, (n < o <= 2 * n + 2)%nat -> al o = 0) ->
  exists e2 m2, @autodiff N e [Fin s] m = Ok (e2, m2, [Fin (prodn (S n) rho * prodn (S n) rho + rho 0%nat)]) /\
    forall i, (i <= n)%nat -> m2 0%nat i = Some (Fin (rho i)) /\
      m2 1%nat i = Some (Fin (al i + s * ((if (i =? 0)%nat then 1 else 0) + 2 * prodn (S n) rho * prodn (S n) (set1 rho i 1)))).
Proof.
  intros Hn H HM HZ.
  assert (HW : forall o, In o (writes (fe_u n)) -> (n < o <= 2 * n + 2)%nat).
  { intros o. unfold fe_u. cbn [writes bi2 sv flat_map]. rewrite fe_wr. cbn [cells scl size rows cols seq app Nat.mul]. cbn -[Nat.mul].
    rewrite !in_app_iff, in_seq. cbn -[Nat.mul]. lia. }
  assert (HE : forall o, In o (eqw (fe_u n)) -> (n < o)%nat).
  { intros o Ho. apply HW. revert Ho. apply eqw_writes. }
  destruct (prog1 la LA bv ba (fe_u n) (fe_f n) D rho al s e m (fe_ok n Hn) eq_refl) as [e2 [m2 [Q1 Q2]]]; auto.
  { intros r. now apply fe_val. }
  { assert (F : forall w r, dom D true w (fe_for n) r).
    { intros w r. unfold fe_for. rewrite dom_for. generalize (seq 0 n). intros l. revert r. induction l as [|i l IH]; intros r; cbn [map domf]; auto.
      split; [|apply IH]. cbn. repeat split; auto. }
    unfold fe_u. fold (fe_for n). revert F. generalize (fe_for n). intros a F. cbn. repeat split; auto. }
  exists e2, m2. split; [exact Q1|]. intros i Hi. apply Q2.
  - unfold fe_u. cbn [refs]. apply in_or_app. left. apply in_or_app. right. apply fe_refs. lia.
  - intros X. apply HE in X. lia.
  - now apply fe_der.
Qed.

(** ** mat_scl_reduction *)
Lemma mr_val D p q r : val D (mr_u p q) r = [sumn (p * q) (fun i => r i * r i)].
Proof.
  unfold val, mr_u. rewrite den_glue, !den_eq. cbn [fst snd].
  rewrite (den_bi D BMul _ _ r (map r (seq 0 (p * q))) (map r (seq 0 (p * q)))) by reflexivity. cbn [fst snd].
  match goal with |- context [put r (p * q) (tab ?k ?f)] => replace (tab k f) with (tab (p * q) (fun i => r i * r i)) end.
  2:{ match goal with |- _ = tab ?k _ => replace k with (p * q)%nat by (cbn; unfold size; cbn [rows cols]; rewrite !Nat.max_id; reflexivity) end.
      apply tab_ext. intros i Hi. unfold ent. cbn. now rewrite el_cells. }
  set (r1 := put r (p * q) _). cbn. f_equal. unfold size. cbn [rows cols]. apply sumn_ext. intros i Hi. rewrite el_cells by exact Hi. unfold r1. rewrite put_at, tab_len.
  replace ((p * q <=? p * q + i) && (p * q + i <? p * q + p * q))%nat with true by (symmetry; apply andb_true_iff; split; [apply Nat.leb_le|apply Nat.ltb_lt]; lia).
  rewrite el_tab by lia. now replace (p * q + i - p * q)%nat with i by lia.
Qed.
Lemma mr_ok p q : okexpr la (mr_u p q).
Proof.
  change (okexpr la (mr_u p q)) with (wfs (mr_u p q) = true /\ disc (mr_u p q) = true /\ cfin (mr_u p q)). unfold mr_u. split; [|split].
  - cbn -[Nat.max Nat.mul Nat.eqb]. unfold kshape_ok, shape_eqb, shape_ok, size. cbn -[Nat.max Nat.mul Nat.eqb].
    rewrite ?Nat.max_id, ?Nat.eqb_refl. reflexivity.
  - unfold bi2. cbn [disc forallb later flat_map writes opw eqw refs kpure klazy map shape_of negb nilb orb andb app tl]. rewrite ?app_nil_r, ?dj_nil. cbn [andb].
    unfold cells, size. cbn [rows cols scl kind]. rewrite !andb_true_r. 
    rewrite ?andb_true_iff. repeat split; auto; apply djs; intros x; rewrite ?in_app_iff, ?in_seq; cbn; lia.
  - cbn. repeat split; auto.
Qed.
Lemma mr_thm bv ba p q D rho al s (e : E) m :
  session la bv ba (mr_u p q) D e m -> mreal la (mr_u p q) m D rho al -> (forall o, (p * q <= o <= 2 * (p * q))%nat -> al o = 0) ->
  exists e2 m2, @autodiff N e [Fin s] m = Ok (e2, m2, [Fin (sumn (p * q) (fun i => rho i * rho i))]) /\
    forall i, (i < p * q)%nat -> m2 0%nat i = Some (Fin (rho i)) /\ m2 1%nat i = Some (Fin (al i + s * (2 * rho i))).
Proof.
  intros H HM HZ.
  assert (HW : forall o, In o (writes (mr_u p q)) -> (p * q <= o <= 2 * (p * q))%nat).
  { intros o. unfold mr_u, bi2. cbn [writes flat_map]. rewrite !app_nil_r. unfold cells, size. cbn [rows cols scl]. rewrite in_app_iff, !in_seq. lia. }
  destruct (prog1 la LA bv ba (mr_u p q) (fun r => sumn (p * q) (fun i => r i * r i)) D rho al s e m (mr_ok p q) eq_refl (mr_val D p q)) as [e2 [m2 [Q1 Q2]]]; auto.
  { cbn. repeat split; auto. }
  exists e2, m2. split; [exact Q1|]. intros i Hi. apply Q2.
  - unfold mr_u, bi2. cbn [refs flat_map]. rewrite !in_app_iff. left. right. left. unfold cells, size. cbn [rows cols]. apply in_seq. lia.
  - intros X. apply eqw_writes in X. apply HW in X. lia.
  - eapply der_eq; [apply der_sumn; intros j Hj; apply der_mult; apply (set1_der rho i j)|]. cbn beta. rewrite set1_same.
    rewrite (sumn_ext _ _ (fun j => 2 * rho j * ind i j)) by (intros; ring). now rewrite (sumn_ind (p * q) i (fun j => 2 * rho j)).
Qed.

(** ** sumnode *)
Definition sn_f (n : nat) (r : nat -> R) : R := sumn n (fun i => cos (sin (r i) * r i)).
Lemma sn_dens D r n : forall a, dens D (map sn_step (seq a n)) r = (map (fun i => [cos (sin (r i) * r i)]) (seq a n), r).
Proof. induction n as [|n IH]; intros a; [reflexivity|]. cbn [seq map]. rewrite dens_cons. unfold fin_env. cbn. now rewrite IH. Qed.
Lemma sn_val D n r : val D (sn_u n) r = [sn_f n r].
Proof.
  unfold val, sn_u. rewrite den_comp, sn_dens. cbn [fst snd]. cbn. f_equal. rewrite map_length, seq_length. apply sumn_ext. intros p Hp.
  rewrite (nth_indep _ [] [cos (sin (r 0%nat) * r 0%nat)]) by now rewrite map_length, seq_length.
  rewrite (map_nth (fun i => [cos (sin (r i) * r i)])), seq_nth by exact Hp. reflexivity.
Qed.
Lemma sn_nil (h : P2 -> list nat) l : (forall i, h (sn_step i) = []) -> flat_map h (map sn_step l) = [].
Proof. intros H. induction l as [|i l IH]; cbn; auto. now rewrite H, IH. Qed.
Lemma sn_ok n : okexpr la (sn_u n).
Proof.
  change (okexpr la (sn_u n)) with (wfs (sn_u n) = true /\ disc (sn_u n) = true /\ cfin (sn_u n)). unfold sn_u. split; [|split].
  - cbn [wfs]. assert (A : forall l, forallb wfs (map sn_step l) = true) by (induction l; auto).
    assert (B : forall a k, map shape_of (map sn_step (seq a k)) = repeat scl k).
    { intros a k. revert a. induction k as [|k IH]; intros a; cbn [seq map repeat]; [reflexivity|]. rewrite IH. reflexivity. }
    rewrite A, B, scls_ok. cbn. induction (seq 0 n); cbn; auto.
  - cbn [disc]. assert (A : forall l, forallb disc (map sn_step l) = true) by (induction l; auto).
    assert (B : forall l, later writes (map sn_step l) = true).
    { induction l as [|i l IH]; auto. cbn [map later]. rewrite IH, (sn_nil writes) by reflexivity. reflexivity. }
    rewrite A, B. reflexivity.
  - cbn [cfin]. generalize (seq 0 n). intros l. induction l as [|i l IH]; [exact I|]. split; [|exact IH]. cbn. auto.
Qed.
Lemma sn_thm bv ba n D rho al s (e : E) m : session la bv ba (sn_u n) D e m -> mreal la (sn_u n) m D rho al ->
  exists e2 m2, @autodiff N e [Fin s] m = Ok (e2, m2, [Fin (sumn n (fun i => cos (sin (rho i) * rho i)))]) /\
    forall i, (i < n)%nat -> m2 0%nat i = Some (Fin (rho i)) /\
      m2 1%nat i = Some (Fin (al i + s * (- sin (sin (rho i) * rho i) * (cos (rho i) * rho i + sin (rho i))))).
Proof.
  intros H HM.
  destruct (prog1 la LA bv ba (sn_u n) (sn_f n) D rho al s e m (sn_ok n) eq_refl (sn_val D n)) as [e2 [m2 [Q1 Q2]]]; auto.
  { unfold sn_u. rewrite dom_comp. split; [|exact I].
    assert (L : forall us l k r, doms D true us k (map sn_step l) r).
    { intros us. induction l as [|i l IH]; intros k r; cbn [map doms]; auto. split; [|apply IH]. cbn. repeat split; auto. }
    apply L. }
  { intros o Ho. unfold sn_u in Ho. cbn [writes] in Ho. rewrite (sn_nil writes) in Ho by reflexivity. destruct Ho. }
  exists e2, m2. split; [exact Q1|]. intros i Hi. apply Q2.
  - unfold sn_u. cbn [refs]. apply in_flat_map. exists (sn_step i). split; [apply in_map, in_seq; lia|]. cbn. auto.
  - unfold sn_u. cbn [eqw]. rewrite (sn_nil eqw) by reflexivity. intros [].
  - unfold sn_f. eapply der_eq.
    + apply der_sumn. intros j Hj. apply (der_comp (fun x => cos (sin x * x)) (fun t => set1 rho i t j)); [|apply (set1_der rho i j)].
      auto_derive; [exact I|reflexivity].
    + cbn beta. rewrite set1_same.
      match goal with |- sumn n ?f = _ => rewrite (sumn_ext n f (fun j => - sin (sin (rho j) * rho j) * (cos (rho j) * rho j + sin (rho j)) * ind i j)) by (intros; cbv beta; ring) end.
      now rewrite (sumn_ind n i (fun j => - sin (sin (rho j) * rho j) * (cos (rho j) * rho j + sin (rho j)))).
Qed.
End P.
