(** Values and gradients of the programs of ProgsB.v. *)
From Coq Require Import Reals Lra FunctionalExtensionality.
From Coquelicot Require Import Coquelicot.
From Verif Require Import Base Num Expr Node Stat Machine Wf Pure LBase LKind LSimDef LMem LSimF LSimB LBind Session LUser
  Tape LTape LState LNrm LTop XR Spec Nudge RSess Grad LReal LScal LKA LKB LKM LVal LNudge LGrad LDiff LIndep LGrd LNGrad LPh Train LTrain Progs LProgs ProgsB.
Local Open Scope R_scope.
Set Bullet Behavior "Strict Subproofs".

Lemma put_at r o l i : put r o l i = if ((o <=? i) && (i <? o + length l))%nat then el l (i - o) else r i.
Proof. reflexivity. Qed.
Lemma den_bi D b (x y : P2) r vx vy : den D x r = (vx, r) -> den D y r = (vy, r) ->
  den D (bi2 b x y) r = (tab (size (kshape (KBin b) [shape_of x; shape_of y])) (fun i => bi_s b (ent (shape_of x) vx i) (ent (shape_of y) vy i)), r).
Proof. intros E1 E2. unfold bi2. rewrite den_comp, !dens_cons. unfold val, fin_env. rewrite E1. cbn [snd fst]. rewrite E2. reflexivity. Qed.
Lemma den_op D q sh o (y : P2) r v : den D y r = (v, r) ->
  den D (EOpEq q tt sh o y) r = (tab (size sh) (fun i => oe_s q (r (o + i)%nat) (ent (shape_of y) v i)),
     fun i => if ((o <=? i) && (i <? o + size sh))%nat then oe_s q (r i) (ent (shape_of y) v (i - o)%nat) else r i).
Proof.
  intros E. cbn [den]. rewrite E. f_equal. apply functional_extensionality. intros i. rewrite put_at, tab_len.
  destruct ((o <=? i) && (i <? o + size sh))%nat eqn:Q; auto. apply andb_true_iff in Q. destruct Q as [Q1 Q2].
  apply Nat.leb_le in Q1. apply Nat.ltb_lt in Q2. rewrite el_tab by lia. now replace (o + (i - o))%nat with i by lia.
Qed.

(** ** leaf_opeq_many_nested.  Environments are described by the vector and the scalar. *)
Definition vs (n : nat) (v : nat -> R) (s : R) (r : nat -> R) : Prop := (forall i, (i < n)%nat -> r i = v i) /\ r n = s.
Lemma opv D n q (y : P2) g v s r w : vs n v s r -> den D y r = (w, r) -> (forall i, (i < n)%nat -> ent (shape_of y) w i = g i) ->
  vs n (fun i => oe_s q (v i) (g i)) s (snd (den D (EOpEq q tt (Sh Vec n 1) 0 y) r)).
Proof.
  intros [H1 H2] E G. rewrite (den_op D q _ 0 y r w E). cbn [snd]. change (size (Sh Vec n 1)) with (n * 1)%nat. rewrite Nat.mul_1_r. split.
  - intros i Hi. cbn [Nat.leb andb Nat.add]. rewrite (proj2 (Nat.ltb_lt i n) Hi), Nat.sub_0_r, H1, G by exact Hi. reflexivity.
  - cbn [Nat.leb andb Nat.add]. now rewrite Nat.ltb_irrefl.
Qed.
Lemma ops D n q (y : P2) c v s r w : vs n v s r -> den D y r = (w, r) -> ent (shape_of y) w 0 = c ->
  vs n v (oe_s q s c) (snd (den D (EOpEq q tt scl n y) r)).
Proof.
  intros [H1 H2] E G. rewrite (den_op D q _ n y r w E). cbn [snd size scl rows cols Nat.mul]. split.
  - intros i Hi. rewrite (proj2 (Nat.leb_gt n i) Hi). cbn [andb]. auto.
  - rewrite Nat.leb_refl. replace (n <? n + (1 + 0))%nat with true by (symmetry; apply Nat.ltb_lt; lia). cbn [andb].
    now rewrite Nat.sub_diag, H2, G.
Qed.
Lemma ent_vec n l i : ent (Sh Vec n 1) l i = el l i. Proof. reflexivity. Qed.
Lemma ent_scl l i : ent scl l i = el l 0. Proof. reflexivity. Qed.
Lemma el_cells (r : nat -> R) o n i : (i < n)%nat -> el (map r (seq o n)) i = r (o + i)%nat.
Proof. intros H. unfold el. now apply nth_cells. Qed.
Definition oA (v s : R) := v * s.
Definition oB (v s : R) := oA v s + (oA v s - s).
Definition oS (s : R) := s * (s - 2) / 1.
Definition oC (v s : R) := oB v s - 2 * oB v s.
Definition oF (v s : R) := oC v s * -1 - oS s.
Definition oG (v s : R) := oF v s / oS s.
Definition opeq_f (n : nat) (r : nat -> R) : R := sumn n (fun i => oG (r i) (r n)).
Definition o1 n : P2 := EOpEq OMul tt (Sh Vec n 1) 0 (sv n).
Definition o2 n : P2 := EOpEq OAdd tt (Sh Vec n 1) 0 (bi2 BSub (vc n 0) (sv n)).
Definition o3 n : P2 := EOpEq OMul tt scl n (bi2 BSub (sv n) (cs 2)).
Definition o4 n : P2 := EOpEq ODiv tt scl n (cs 1).
Definition o5 n : P2 := EOpEq OSub tt (Sh Vec n 1) 0 (bi2 BMul (cs 2) (vc n 0)).
Definition o6 n : P2 := EOpEq OMul tt (Sh Vec n 1) 0 (cs (-1)).
Definition o7 n : P2 := EOpEq OSub tt (Sh Vec n 1) 0 (sv n).
Definition o8 n : P2 := EOpEq ODiv tt (Sh Vec n 1) 0 (sv n).
Definition run_to D (l : list P2) (r : nat -> R) : nat -> R := fold_left (fun r e => snd (den D e r)) l r.
Lemma opeq_envs D n r : (1 <= n)%nat -> let v := r in let s := r n in
  vs n (fun i => oA (v i) s) s (run_to D [o1 n] r) /\
  vs n (fun i => oB (v i) s) s (run_to D [o1 n; o2 n] r) /\
  vs n (fun i => oB (v i) s) (s * (s - 2)) (run_to D [o1 n; o2 n; o3 n] r) /\
  vs n (fun i => oB (v i) s) (oS s) (run_to D [o1 n; o2 n; o3 n; o4 n] r) /\
  vs n (fun i => oC (v i) s) (oS s) (run_to D [o1 n; o2 n; o3 n; o4 n; o5 n] r) /\
  vs n (fun i => oC (v i) s * -1) (oS s) (run_to D [o1 n; o2 n; o3 n; o4 n; o5 n; o6 n] r) /\
  vs n (fun i => oF (v i) s) (oS s) (run_to D [o1 n; o2 n; o3 n; o4 n; o5 n; o6 n; o7 n] r) /\
  vs n (fun i => oG (v i) s) (oS s) (run_to D [o1 n; o2 n; o3 n; o4 n; o5 n; o6 n; o7 n; o8 n] r).
Proof.
  intros Hn v s. cbn [run_to fold_left]. unfold run_to. cbn [fold_left].
  assert (H0 : vs n v s r) by (split; auto).
  assert (H1 : vs n (fun i => oA (v i) s) s (snd (den D (o1 n) r))).
  { apply (opv D n OMul (sv n) (fun _ => s) v s r [r n]); auto. }
  set (r1 := snd (den D (o1 n) r)) in *. clearbody r1.
  assert (H2 : vs n (fun i => oB (v i) s) s (snd (den D (o2 n) r1))).
  { apply (opv D n OAdd (bi2 BSub (vc n 0) (sv n)) (fun i => oA (v i) s - s) _ s r1 (tab n (fun i => r1 i - r1 n))); auto.
    - rewrite (den_bi D BSub (vc n 0) (sv n) r1 (map r1 (seq 0 (n * 1))) [r1 n]) by reflexivity. f_equal.
      match goal with |- tab ?k _ = _ => replace k with n by (unfold size; cbn [kshape nth_sh nth shape_of vc sv cs scl rows cols]; lia) end.
      rewrite Nat.mul_1_r. apply tab_ext. intros i Hi. cbn. rewrite el_cells by exact Hi. reflexivity.
    - intros i Hi. destruct H1 as [A B]. unfold ent. cbn. rewrite el_tab by exact Hi. now rewrite (A i Hi), B. }
  set (r2 := snd (den D (o2 n) r1)) in *. clearbody r2.
  assert (H3 : vs n (fun i => oB (v i) s) (s * (s - 2)) (snd (den D (o3 n) r2))).
  { apply (ops D n OMul (bi2 BSub (sv n) (cs 2)) (s - 2) _ s r2 [r2 n - 2]); auto. destruct H2 as [_ B]. cbn. now rewrite B. }
  set (r3 := snd (den D (o3 n) r2)) in *. clearbody r3.
  assert (H4 : vs n (fun i => oB (v i) s) (oS s) (snd (den D (o4 n) r3))).
  { apply (ops D n ODiv (cs 1) 1 _ _ r3 [1]); auto. }
  set (r4 := snd (den D (o4 n) r3)) in *. clearbody r4.
  assert (H5 : vs n (fun i => oC (v i) s) (oS s) (snd (den D (o5 n) r4))).
  { apply (opv D n OSub (bi2 BMul (cs 2) (vc n 0)) (fun i => 2 * oB (v i) s) _ _ r4 (tab n (fun i => 2 * r4 i))); auto.
    - rewrite (den_bi D BMul (cs 2) (vc n 0) r4 [2] (map r4 (seq 0 (n * 1)))) by reflexivity. f_equal.
      match goal with |- tab ?k _ = _ => replace k with n by (unfold size; cbn [kshape nth_sh nth shape_of vc sv cs scl rows cols]; lia) end.
      rewrite Nat.mul_1_r. apply tab_ext. intros i Hi. cbn. rewrite el_cells by exact Hi. reflexivity.
    - intros i Hi. destruct H4 as [A B]. unfold ent. cbn. rewrite el_tab by exact Hi. now rewrite (A i Hi). }
  set (r5 := snd (den D (o5 n) r4)) in *. clearbody r5.
  assert (H6 : vs n (fun i => oC (v i) s * -1) (oS s) (snd (den D (o6 n) r5))).
  { apply (opv D n OMul (cs (-1)) (fun _ => -1) _ _ r5 [-1]); auto. }
  set (r6 := snd (den D (o6 n) r5)) in *. clearbody r6.
  assert (H7 : vs n (fun i => oF (v i) s) (oS s) (snd (den D (o7 n) r6))).
  { apply (opv D n OSub (sv n) (fun _ => oS s) _ _ r6 [r6 n]); auto. intros i Hi. exact (proj2 H6). }
  set (r7 := snd (den D (o7 n) r6)) in *. clearbody r7.
  assert (H8 : vs n (fun i => oG (v i) s) (oS s) (snd (den D (o8 n) r7))).
  { apply (opv D n ODiv (sv n) (fun _ => oS s) _ _ r7 [r7 n]); auto. intros i Hi. exact (proj2 H7). }
  repeat (split; [assumption|]). exact H8.
Qed.
Lemma opeq_val D n r : (1 <= n)%nat -> val D (opeq_u n) r = [opeq_f n r].
Proof.
  intros Hn. destruct (opeq_envs D n r Hn) as [_ [_ [_ [_ [_ [_ [_ [H _]]]]]]]]. unfold val, opeq_u, glues. cbn [fold_left].
  rewrite !den_glue. fold (o1 n). fold (o2 n). fold (o3 n). fold (o4 n). fold (o5 n). fold (o6 n). fold (o7 n). fold (o8 n).
  unfold run_to in H. cbn [fold_left] in H. match goal with |- context [den D (EComp KSumE tt [vc n 0]) ?x] => set (r8 := x) in * end. clearbody r8.
  cbn. f_equal. unfold opeq_f. unfold size. cbn [rows cols]. rewrite Nat.mul_1_r. apply sumn_ext. intros i Hi. rewrite el_cells by exact Hi. now apply H.
Qed.
Lemma opeq_dom D n r : (1 <= n)%nat -> r n <> 0 -> r n <> 2 -> dom D true false (opeq_u n) r.
Proof.
  intros Hn S0 S2. destruct (opeq_envs D n r Hn) as [_ [_ [_ [_ [_ [_ [H _]]]]]]]. unfold opeq_u, glues. cbn [fold_left].
  fold (o1 n). fold (o2 n). fold (o3 n). fold (o4 n). fold (o5 n). fold (o6 n). fold (o7 n). fold (o8 n).
  unfold run_to in H. cbn [fold_left] in H. cbn [dom]. unfold fin_env. rewrite !den_glue.
  assert (B : forall w b x y rr, (b = BSub \/ b = BMul) -> dom D true (w && ones (KBin b) [shape_of x; shape_of y] 0) x rr ->
     dom D true (w && ones (KBin b) [shape_of x; shape_of y] 1) y (fin_env D x rr) -> dom D true w (bi2 b x y) rr).
  { intros w b x y rr Hb H1 H2. unfold bi2. cbn [dom map]. split; [split; [exact H1|split; [exact H2|exact I]]|]. destruct Hb; subst b; cbn; auto. }
  match goal with |- context [dom D true false (o8 n) ?x] => set (r7 := x) in * end.
  assert (D8 : dom D true false (o8 n) r7).
  { split; [exact I|]. intros i Hi. change (r7 n <> 0). rewrite (proj2 H). unfold oS. intros X. apply Rmult_integral in X. destruct X as [X|X]; [|lra].
    apply Rmult_integral in X. lra. }
  clearbody r7. repeat split; auto; try (apply B; auto; cbn; auto); try apply (Forall_cons (Fin _)); try (now exists 0);
  try (repeat constructor; eexists; reflexivity); try exact (proj2 D8).
  all: intros i Hi; cbn; lra.
Qed.
Lemma dj_nil (l : list nat) : dj l [] = true.
Proof. unfold dj. induction l; cbn; auto. Qed.

(** ** leaf_opeq_head_tail *)
Definition ht_f (n : nat) (r : nat -> R) : R := sumn n (fun i => r (S i) + r (S n) * r i).
Lemma ht_val D n r : (1 <= n)%nat -> val D (ht_u n) r = [ht_f n r].
Proof.
  intros Hn. unfold val, ht_u. rewrite den_glue.
  rewrite (den_op D OAdd _ 1 _ r _ (den_bi D BMul (sv (S n)) (vc n 0) r [r (S n)] (map r (seq 0 (n * 1))) eq_refl eq_refl)). cbn [snd].
  cbn -[Nat.leb Nat.ltb]. f_equal. unfold size, ht_f. cbn [rows cols]. rewrite Nat.mul_1_r. apply sumn_ext. intros i Hi. rewrite el_cells by exact Hi.
  cbn [Nat.add]. replace ((1 <=? S i) && (S i <? S n))%nat with true by (symmetry; apply andb_true_iff; split; [apply Nat.leb_le|apply Nat.ltb_lt]; lia).
  f_equal. cbn [Nat.sub]. rewrite Nat.sub_0_r. unfold ent, size. cbn -[Nat.max]. rewrite nth_cells by (destruct n; lia). cbn [Nat.add]. now rewrite el_cells.
Qed.
Lemma ht_der n r o : (o <= S n)%nat -> is_derive (fun t => ht_f n (set1 r o t)) (r o)
  (if (o =? S n)%nat then sumn n r else (if (o <? n)%nat then r (S n) else 0) + (if (o =? 0)%nat then 0 else 1)).
Proof.
  intros Ho. unfold ht_f. eapply der_eq.
  - apply der_sumn. intros i Hi. apply der_plus; [apply (set1_der r o (S i))|]. apply der_mult; [apply (set1_der r o (S n))|apply (set1_der r o i)].
  - cbn beta. rewrite set1_same. destruct (o =? S n)%nat eqn:Q.
    + apply Nat.eqb_eq in Q. subst o. apply sumn_ext. intros i Hi. unfold ind. rewrite Nat.eqb_refl.
      replace (S i =? S n)%nat with false by (symmetry; apply Nat.eqb_neq; lia). replace (i =? S n)%nat with false by (symmetry; apply Nat.eqb_neq; lia). ring.
    + apply Nat.eqb_neq in Q. rewrite (sumn_ext n _ (fun i => ind o (S i) + r (S n) * ind o i)).
      2:{ intros i Hi. unfold ind at 2. replace (S n =? o)%nat with false by (symmetry; apply Nat.eqb_neq; lia). ring. }
      rewrite sumn_plus, Rplus_comm. f_equal.
      * destruct (o <? n)%nat eqn:Q1; [apply Nat.ltb_lt in Q1; now rewrite (sumn_ind n o (fun _ => r (S n)))|].
        apply Nat.ltb_ge in Q1. apply sumn_0. intros i Hi. unfold ind. replace (i =? o)%nat with false by (symmetry; apply Nat.eqb_neq; lia). ring.
      * destruct o as [|o]; [apply sumn_0; reflexivity|]. cbn [Nat.eqb]. rewrite (sumn_ext n _ (fun i => 1 * ind o i)) by (intros; unfold ind; cbn; ring).
        now rewrite (sumn_ind n o (fun _ => 1)) by lia.
Qed.

(** ** foreach *)
Lemma put1 r o v i : put r o [v] i = if (i =? o)%nat then v else r i.
Proof.
  unfold put. cbn [length]. destruct (i =? o)%nat eqn:Q.
  - apply Nat.eqb_eq in Q. subst. rewrite Nat.leb_refl. replace (o <? o + 1)%nat with true by (symmetry; apply Nat.ltb_lt; lia).
    cbn [andb]. now rewrite Nat.sub_diag.
  - apply Nat.eqb_neq in Q. destruct (o <=? i)%nat eqn:Q1; cbn [andb]; auto. apply Nat.leb_le in Q1.
    replace (i <? o + 1)%nat with false by (symmetry; apply Nat.ltb_ge; lia). reflexivity.
Qed.
Definition fe_f (n : nat) (r : nat -> R) : R := prodn (S n) r * prodn (S n) r + r 0%nat.
Lemma fe_step_den D n i r : den D (fe_step n i) r = ([r (fe_prod n i) * r (S i)], put r (fe_prod n (S i)) [r (fe_prod n i) * r (S i)]).
Proof. reflexivity. Qed.
Lemma fe_go D n k : forall a r, (a + k <= n)%nat -> r (fe_prod n a) = prodn (S a) r -> 
  (forall j, (j <= n)%nat -> snd (dens D (map (fe_step n) (seq a k)) r) j = r j) /\
  fst (dens D (map (fe_step n) (seq a k)) r) = map (fun i => [prodn (S (S i)) r]) (seq a k).
Proof.
  induction k as [|k IH]; intros a r Hk H; [split; reflexivity|].
  cbn [seq map]. rewrite dens_cons. unfold val, fin_env. rewrite fe_step_den. cbn [fst snd].
  set (r1 := put r (fe_prod n (S a)) _).
  assert (R1 : forall i, r1 i = if (i =? n + S a)%nat then r (fe_prod n a) * r (S a) else r i) by (intros; apply put1).
  assert (LO : forall j, (j <= n)%nat -> r1 j = r j).
  { intros j Hj. rewrite R1. replace (j =? n + S a)%nat with false by (symmetry; apply Nat.eqb_neq; lia). reflexivity. }
  assert (PR : forall q, (q <= S n)%nat -> prodn q r1 = prodn q r).
  { intros q Hq. induction q as [|q IQ]; [reflexivity|]. cbn [prodn]. rewrite IQ, LO by lia. reflexivity. }
  destruct (IH (S a) r1) as [A B]; [lia| |].
  { cbn [fe_prod]. rewrite R1, Nat.eqb_refl, PR by lia. rewrite H. reflexivity. }
  split; [intros j Hj; rewrite A, LO by exact Hj; reflexivity|]. rewrite B. f_equal.
  - rewrite H. reflexivity.
  - apply map_ext_in. intros i Hi. apply in_seq in Hi. rewrite PR by lia. reflexivity.
Qed.
Lemma fe_val D n r : (1 <= n)%nat -> val D (fe_u n) r = [fe_f n r].
Proof.
  intros Hn. unfold val, fe_u. rewrite den_glue, !den_eq, den_for.
  destruct (fe_go D n n 0 r) as [A B]; [lia|cbn; ring|]. rewrite B.
  assert (L : last (map (fun i => [prodn (S (S i)) r]) (seq 0 n)) [] = [prodn (S n) r]).
  { destruct n as [|n]; [lia|]. rewrite seq_S, map_app. cbn [map]. rewrite last_last. reflexivity. }
  cbn [snd fst]. rewrite L. set (r1 := snd _) in *. clearbody r1.
  set (r2 := put r1 (2 * n + 1) _).
  assert (R2 : forall i, r2 i = if (i =? 2 * n + 1)%nat then prodn (S n) r else r1 i) by (intros; apply put1).
  clearbody r2. change (fst (den D (bi2 BAdd (bi2 BMul (sv (2 * n + 1)) (sv (2 * n + 1))) (sv 0)) r2)) with [r2 (2 * n + 1)%nat * r2 (2 * n + 1)%nat + r2 0%nat].
  unfold fe_f. rewrite (R2 (2 * n + 1)%nat), Nat.eqb_refl, (R2 0%nat). replace (0 =? 2 * n + 1)%nat with false by (symmetry; apply Nat.eqb_neq; lia).
  now rewrite A by lia.
Qed.
Lemma prodn_set1 n r o t : prodn n (set1 r o t) = if (o <? n)%nat then t * prodn n (set1 r o 1) else prodn n r.
Proof.
  induction n as [|n IH]; [reflexivity|]. cbn [prodn]. rewrite IH. destruct (o <? n)%nat eqn:Q.
  - apply Nat.ltb_lt in Q. replace (o <? S n)%nat with true by (symmetry; apply Nat.ltb_lt; lia).
    unfold set1 at 2 4. replace (n =? o)%nat with false by (symmetry; apply Nat.eqb_neq; lia). ring.
  - apply Nat.ltb_ge in Q. destruct (o =? n)%nat eqn:Q1.
    + apply Nat.eqb_eq in Q1. subst o. replace (n <? S n)%nat with true by (symmetry; apply Nat.ltb_lt; lia).
      assert (X : prodn n (set1 r n 1) = prodn n r).
      { assert (Y : forall q, (q <= n)%nat -> prodn q (set1 r n 1) = prodn q r).
        { induction q as [|q IQ]; intros Hq; [reflexivity|]. cbn [prodn]. rewrite IQ by lia. unfold set1. replace (q =? n)%nat with false by (symmetry; apply Nat.eqb_neq; lia). reflexivity. }
        apply Y. lia. }
      rewrite X. unfold set1. rewrite Nat.eqb_refl. ring.
    + apply Nat.eqb_neq in Q1. replace (o <? S n)%nat with false by (symmetry; apply Nat.ltb_ge; lia).
      unfold set1. replace (n =? o)%nat with false by (symmetry; apply Nat.eqb_neq; lia). reflexivity.
Qed.
Lemma fe_der n r o : (o <= n)%nat -> is_derive (fun t => fe_f n (set1 r o t)) (r o)
  ((if (o =? 0)%nat then 1 else 0) + 2 * prodn (S n) r * prodn (S n) (set1 r o 1)).
Proof.
  intros Ho. set (P := prodn (S n) (set1 r o 1)).
  assert (HP : prodn (S n) r = r o * P).
  { rewrite <- (set1_same r o) at 1. rewrite prodn_set1. replace (o <? S n)%nat with true by (symmetry; apply Nat.ltb_lt; lia). reflexivity. }
  apply (der_ext (fun t => t * P * (t * P) + set1 r o t 0%nat)).
  { intros t. unfold fe_f. rewrite (prodn_set1 (S n) r o t). replace (o <? S n)%nat with true by (symmetry; apply Nat.ltb_lt; lia). reflexivity. }
  eapply der_eq; [apply der_plus; [|apply (set1_der r o 0)]|].
  - apply (der_ext (fun t => t * t * (P * P))); [intros t; ring|]. auto_derive; [exact I|reflexivity].
  - cbn beta. rewrite HP. unfold ind. rewrite Nat.eqb_sym. destruct (o =? 0)%nat; ring.
Qed.
Section P.
Variable la : linalg xr.
Hypothesis LA : la_ok la.
Notation N := (XR la).
Notation E := (expr N (ann N)).
Lemma opeq_ok n : (1 <= n)%nat -> okexpr la (opeq_u n).
Proof.
  intros Hn. assert (M : Nat.max n 1 = n) by lia. assert (M' : (match n with 0%nat => 1%nat | S m' => S m' end = n)) by (destruct n; [lia|reflexivity]).
  assert (Z : (n * 1 =? 0)%nat = false) by (apply Nat.eqb_neq; lia).
  change (okexpr la (opeq_u n)) with (wfs (opeq_u n) = true /\ disc (opeq_u n) = true /\ cfin (opeq_u n)).
  unfold opeq_u, glues. cbn [fold_left]. split; [|split].
  - cbn -[Nat.max Nat.mul Nat.eqb]. unfold kshape_ok, shape_eqb, shape_ok, size. cbn -[Nat.max Nat.mul Nat.eqb].
    rewrite ?M, ?(Nat.max_comm 1 n), ?M, ?Z, ?Nat.eqb_refl. reflexivity.
  - cbn -[dj cells]. rewrite ?dj_nil. reflexivity.
  - cbn. repeat split; auto; try (repeat constructor; eexists; reflexivity).
Qed.
Lemma opeq_der n r o : (1 <= n)%nat -> (o <= n)%nat -> r n <> 0 -> r n <> 2 ->
  is_derive (fun t => opeq_f n (set1 r o t)) (r o)
    (if (o <? n)%nat then 2 / (r n - 2) else - (1 / (r n - 2) ^ 2) * (2 * sumn n r - INR n)).
Proof.
  intros Hn Ho S0 S2. assert (SS : r n * (r n - 2) <> 0) by (intros X; apply Rmult_integral in X; destruct X; lra).
  unfold opeq_f. destruct (o <? n)%nat eqn:Q.
  - apply Nat.ltb_lt in Q.
    assert (DG : forall x, is_derive (fun x => oG x (r n)) x (2 / (r n - 2))).
    { intros x. unfold oG, oF, oC, oB, oA, oS. eapply der_eq; [auto_derive; [lra|reflexivity]|]. field. split; lra. }
    eapply der_eq.
    + apply der_sumn. intros i Hi. apply (der_ext (fun t => oG (set1 r o t i) (r n))).
      { intros t. unfold set1 at 3. replace (n =? o)%nat with false by (symmetry; apply Nat.eqb_neq; lia). reflexivity. }
      apply (der_comp (fun x => oG x (r n)) (fun t => set1 r o t i)); [apply DG|apply (set1_der r o i)].
    + cbn beta. rewrite (sumn_ind n o (fun _ => 2 / (r n - 2))) by exact Q. reflexivity.
  - apply Nat.ltb_ge in Q. assert (o = n) by lia. subst o. eapply der_eq.
    + apply der_sumn. intros i Hi. apply (der_ext (fun t => oG (r i) t)).
      { intros t. unfold set1. rewrite Nat.eqb_refl. replace (i =? n)%nat with false by (symmetry; apply Nat.eqb_neq; lia). reflexivity. }
      unfold oG, oF, oC, oB, oA, oS. auto_derive; [lra|reflexivity].
    + cbn beta. assert (X : INR n = sumn n (fun _ => 1)).
      { clear. induction n; [reflexivity|]. rewrite S_INR. cbn. lra. }
      rewrite X, <- sumn_l, <- sumn_minus, <- sumn_l. apply sumn_ext. intros i Hi. cbn. field. split; lra.
Qed.
Lemma opeq_closed n r : r n <> 0 -> r n <> 2 -> opeq_f n r = 1 / (r n - 2) * (2 * sumn n r - INR n) - INR n.
Proof.
  intros S0 S2. unfold opeq_f. assert (X : INR n = sumn n (fun _ => 1)).
  { clear. induction n; [reflexivity|]. rewrite S_INR. cbn. lra. }
  rewrite X, <- sumn_l, <- sumn_minus, <- sumn_l, <- sumn_minus. apply sumn_ext. intros i Hi. unfold oG, oF, oC, oB, oA, oS. field. split; lra.
Qed.
Lemma opeq_thm bv ba n D rho al s (e : E) m : (1 <= n)%nat -> rho n <> 0 -> rho n <> 2 ->
  session la bv ba (opeq_u n) D e m -> mreal la (opeq_u n) m D rho al -> (forall o, (o <= n)%nat -> al o = 0) ->
  exists e2 m2, @autodiff N e [Fin s] m = Ok (e2, m2, [Fin (1 / (rho n - 2) * (2 * sumn n rho - INR n) - INR n)]) /\
    m2 0%nat n = Some (Fin (rho n)) /\ m2 1%nat n = Some (Fin (s * (- (1 / (rho n - 2) ^ 2) * (2 * sumn n rho - INR n)))) /\
    forall i, (i < n)%nat -> m2 0%nat i = Some (Fin (rho i)) /\ m2 1%nat i = Some (Fin (s * (2 / (rho n - 2)))).
Proof.
  intros Hn S0 S2 H HM HZ.
  assert (RF : forall o, In o (refs (opeq_u n)) <-> (o <= n)%nat).
  { intros o. unfold opeq_u, glues. cbn [fold_left]. cbn -[cells]. rewrite !in_app_iff. unfold cells, size. cbn [rows cols].
    rewrite !in_seq. cbn. lia. }
  destruct (prog1 la LA bv ba (opeq_u n) (opeq_f n) D rho al s e m (opeq_ok n Hn) eq_refl) as [e2 [m2 [Q1 Q2]]]; auto.
  { intros r. now apply opeq_val. }
  { now apply opeq_dom. }
  { intros o Ho. apply HZ, RF. apply writes_refs in Ho. exact Ho. }
  exists e2, m2. rewrite opeq_closed in Q1 by assumption. split; [exact Q1|].
  assert (K : forall o, (o <= n)%nat -> m2 0%nat o = Some (Fin (rho o)) /\ m2 1%nat o =
     Some (Fin (al o + s * if (o <? n)%nat then 2 / (rho n - 2) else - (1 / (rho n - 2) ^ 2) * (2 * sumn n rho - INR n)))).
  { intros o Ho. apply Q2; [now apply RF|intros []|now apply opeq_der]. }
  destruct (K n (le_n n)) as [K1 K2]. rewrite Nat.ltb_irrefl, HZ, Rplus_0_l in K2 by lia. split; [exact K1|]. split; [exact K2|].
  intros i Hi. destruct (K i) as [K3 K4]; [lia|]. rewrite (proj2 (Nat.ltb_lt i n) Hi), HZ, Rplus_0_l in K4 by lia. auto.
Qed.
End P.
