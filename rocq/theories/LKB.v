(** Binary operators, matrix products, iterated sums and products. *)
From Coq Require Import Reals Lra Psatz.
From Coquelicot Require Import Coquelicot.
From Verif Require Import Base Num Expr Node Stat Machine Wf Pure LBase LKind LState XR Spec LReal LScal LKA.
Open Scope R_scope.
Set Bullet Behavior "Strict Subproofs".

Lemma loc_tab n (F : R -> nat -> R) t0 : (forall i, (i < n)%nat -> locally t0 (fun t => F t i = F t0 i)) ->
  locally t0 (fun t => tab n (F t) = tab n (F t0)).
Proof.
  induction n; intros H; [apply filter_forall; reflexivity|].
  apply (filter_imp (fun t => tab n (F t) = tab n (F t0) /\ F t n = F t0 n)).
  - intros t [E1 E2]. now rewrite !tab_S, E1, E2.
  - apply filter_and; [apply IHn; intros; apply H; lia|apply H; lia].
Qed.
Lemma prodn_S n f : prodn (S n) f = f 0%nat * prodn n (fun i => f (S i)).
Proof. induction n; [cbn; lra|]. change (prodn (S (S n)) f) with (prodn (S n) f * f (S n)). rewrite IHn. cbn. lra. Qed.
Lemma prodx_S0 n f : prodx (S n) 0 f = prodn n (fun i => f (S i)).
Proof. unfold prodx. rewrite prodn_S. cbn [Nat.eqb]. rewrite Rmult_1_l. reflexivity. Qed.
Lemma prodx_SS n k f : prodx (S n) (S k) f = f 0%nat * prodx n k (fun i => f (S i)).
Proof. unfold prodx. rewrite prodn_S. reflexivity. Qed.

Section K.
Variable la : linalg xr.
Notation N := (XR la).
Ltac nx := change (carrier (XR la)) with xr in *.

Lemma bin_facts b ss : kshape_ok (KBin b) ss = true -> exists a c, ss = [a; c] /\
  let n := size (kshape (KBin b) ss) in
  (is_scl a = true -> size a = 1%nat) /\ (is_scl a = false -> size a = n) /\
  (is_scl c = true -> size c = 1%nat) /\ (is_scl c = false -> size c = n) /\
  (is_scl a = true -> is_scl c = true -> n = 1%nat).
Proof.
  destruct ss as [|a [|c [|]]]; unfold kshape_ok; rewrite ?andb_false_r; try discriminate.
  intros H. exists a, c. split; auto. apply andb_true_iff in H. destruct H as [H1 H2]. cbn in H1.
  rewrite !andb_true_iff in H1. destruct H1 as [A [C _]].
  pose proof (scl_size a A) as SA. pose proof (scl_size c C) as SC.
  destruct a as [ka ra ca], c as [kc rc cc]. unfold is_scl, size in *. cbn in *.
  destruct ka, kc; cbn in *;
    rewrite ?andb_true_iff, ?negb_true_iff, ?Nat.eqb_eq, ?Nat.eqb_neq in *;
    repeat match goal with H : _ /\ _ |- _ => destruct H end; subst;
    try (unfold shape_eqb in *; cbn in *; rewrite ?andb_true_iff, ?Nat.eqb_eq in *;
         repeat match goal with H : _ /\ _ |- _ => destruct H end; subst; try discriminate);
    repeat split; intros; try discriminate; try nia;
    rewrite ?Nat.max_id; try lia; try (destruct ra, ca; lia); try (destruct rc, cc; lia);
    repeat match goal with |- context [match ?x with _ => _ end] => is_var x; destruct x end; lia.
Qed.

Lemma bc_fin s n v : length v = size s -> (is_scl s = true -> size s = 1%nat) -> (is_scl s = false -> size s = n) ->
  bc N s n (map Fin v) = tab n (fun i => Fin (ent s v i)).
Proof.
  intros L H1 H2. unfold bc, ent. destruct (is_scl s).
  - rewrite H1 in L by auto. destruct v as [|x [|]]; try discriminate L. cbn. apply (tab_repeat (Fin x)).
  - nx. apply fin_list. rewrite L. auto.
Qed.
Lemma red_fin a c n g : (is_scl a = true -> is_scl c = true -> n = 1%nat) ->
  red N a c (tab n (fun i => Fin (g i))) = map Fin (agg a n g).
Proof.
  intros H. unfold red, agg. destruct (is_scl a), (is_scl c); cbn [andb negb].
  - rewrite H by auto. cbn. f_equal. f_equal. lra.
  - cbn [map]. f_equal. apply xsum_fin.
  - apply fin_tab.
  - apply fin_tab.
Qed.
Lemma KV_bin b : KV la (KBin b).
Proof.
  intros cs fl ss s u vs HS HD HL _ HDom.
  destruct (bin_facts b ss HS) as [a [c [-> [F1 [F2 [F3 [F4 F5]]]]]]].
  assert (L0 : length (nth 0 vs []) = size a) by (apply (lensR_nth vs [a; c] 0 HL); cbn; lia).
  assert (L1 : length (nth 1 vs []) = size c) by (apply (lensR_nth vs [a; c] 1 HL); cbn; lia).
  unfold kf. cbn [kfwd snd]. unfold nth_sh at 1 2. cbn [nth]. rewrite !arg_fin. unfold bin_fwd. nx.
  rewrite !bc_fin by auto. rewrite tab_map2. cbn [kden]. rewrite tab_map. apply tab_ext. intros i Hi.
  unfold nth_sh. cbn [nth]. eapply bi_fin. apply (HDom i Hi).
Qed.
Lemma KF_bin b cs fl ss u vs dvs t0 : cmp b = true -> kshape_ok (KBin b) ss = true -> curves cs fl ss vs dvs t0 ->
  kdom true u (KBin b) cs fl ss (vs t0) ->
  locally t0 (fun t => kden (KBin b) ss (vs t) = kden (KBin b) ss (vs t0)).
Proof.
  intros HC HS HV HDom.
  apply (loc_tab _ (fun t i => bi_s b (ent (nth_sh ss 0) (nth 0 (vs t) []) i) (ent (nth_sh ss 1) (nth 1 (vs t) []) i))).
  intros i Hi.
  apply (cmp_flat b true (is_scl (nth_sh ss 0) && is_scl (nth_sh ss 1)) (nth 0 fl false) (nth 1 fl false)
    (fun t => ent (nth_sh ss 0) (nth 0 (vs t) []) i) (fun t => ent (nth_sh ss 1) (nth 1 (vs t) []) i)); auto.
  - eapply der_cont, (der_ent _ _ _ _ _ _ 0 i _ HV).
  - eapply der_cont, (der_ent _ _ _ _ _ _ 1 i _ HV).
  - intros Hf. eapply filter_imp; [|apply (cv_flat _ _ _ _ _ _ HV 0 Hf)]. intros t ->. reflexivity.
  - intros Hf. eapply filter_imp; [|apply (cv_flat _ _ _ _ _ _ HV 1 Hf)]. intros t ->. reflexivity.
Qed.
Lemma is_cmp_cmp b : is_cmp b = cmp b. Proof. now destruct b. Qed.
Lemma KA_bin b : KA la (KBin b).
Proof.
  intros cs fl ss s u vs dvs t0 HS HD HC HG HDom.
  destruct (cmp b) eqn:EC.
  - (* comparisons *)
    exists (tab (size (kshape (KBin b) ss)) (fun _ => 0)). split; [apply tab_len|]. split.
    + intros j. replace (el (tab _ (fun _ => 0)) j) with 0.
      2: { destruct (Nat.lt_ge_cases j (size (kshape (KBin b) ss))) as [L|L]; [now rewrite el_tab|].
           rewrite el_out; auto. now rewrite tab_len. }
      apply der_loc_const with (c := el (kden (KBin b) ss (vs t0)) j).
      eapply filter_imp; [|apply (KF_bin b cs fl ss u vs dvs t0 EC HS HC HDom)]. intros t ->. reflexivity.
    + intros seed LS HU. exists (fun _ => None). split; [|split].
      * intros i Hi. unfold seeds, kf. cbn [kfwd kseed]. rewrite is_cmp_cmp, EC. reflexivity.
      * discriminate 2.
      * rewrite (sumn_0 (length ss)) by auto. unfold ip. rewrite LS. apply sumn_0. intros i Hi. rewrite el_tab by auto. ring.
  - destruct (bin_facts b ss HS) as [a [c [-> [F1 [F2 [F3 [F4 F5]]]]]]].
    set (n := size (kshape (KBin b) [a; c])) in *.
    assert (L0 : length (nth 0 (vs t0) []) = size a) by (apply (lensR_nth _ [a; c] 0 (cv_len _ _ _ _ _ _ HC t0)); cbn; lia).
    assert (L1 : length (nth 1 (vs t0) []) = size c) by (apply (lensR_nth _ [a; c] 1 (cv_len _ _ _ _ _ _ HC t0)); cbn; lia).
    set (x := nth 0 (vs t0) []) in *. set (y := nth 1 (vs t0) []) in *.
    set (dx := nth 0 dvs []). set (dy := nth 1 dvs []).
    assert (ND : forall i, (i < n)%nat -> b = BDiv -> ent c y i <> 0).
    { intros i Hi Eb. specialize (HDom i Hi). cbn in HDom. rewrite Eb in HDom. exact HDom. }
    exists (tab n (fun i => bi_dx b (ent a x i) (ent c y i) * ent a dx i + bi_dy b (ent a x i) (ent c y i) * ent c dy i)).
    split; [apply tab_len|]. split.
    + apply (der_tab n (fun t i => bi_s b (ent a (nth 0 (vs t) []) i) (ent c (nth 1 (vs t) []) i))). intros i Hi.
      apply (bi_der b (fun t => ent a (nth 0 (vs t) []) i) (fun t => ent c (nth 1 (vs t) []) i)); auto.
      * apply (der_ent _ _ _ _ _ _ 0 i _ HC).
      * apply (der_ent _ _ _ _ _ _ 1 i _ HC).
    + intros seed LS HU.
      set (gl := fun i => el seed i * bi_dx b (ent a x i) (ent c y i)).
      set (gr := fun i => el seed i * bi_dy b (ent a x i) (ent c y i)).
      exists (fun i => match i with O => Some (agg a n gl) | _ => Some (agg c n gr) end).
      assert (EF : bin_fwd N b a c n (map Fin x) (map Fin y) = tab n (fun i => Fin (bi_s b (ent a x i) (ent c y i)))).
      { unfold bin_fwd. nx. rewrite !bc_fin by auto. rewrite tab_map2. apply tab_ext. intros i Hi.
        eapply bi_fin. apply (HDom i Hi). }
      split; [|split].
      * intros i Hi. unfold seeds, kf. cbn [kfwd kseed kpre]. rewrite is_cmp_cmp, EC.
        unfold vsel. cbn [kget]. rewrite is_cmp_cmp, EC. cbn [negb].
        rewrite !arg_fin. unfold nth_sh. cbn [nth]. fold x y n. rewrite EF.
        destruct i as [|[|i]]; [| |cbn in Hi; lia]; cbn [option_map]; f_equal.
        -- unfold bin_bl. nx. rewrite map_length, LS, !bc_fin by auto. rewrite (fin_list _ _ LS), tab_map4.
           rewrite <- (red_fin a c n gl) by auto. f_equal. apply tab_ext. intros i Hi'. apply bi_blfin; auto.
        -- unfold bin_br. nx. rewrite map_length, LS, !bc_fin by auto. rewrite (fin_list _ _ LS), tab_map4.
           assert (EB : red N c a (tab n (fun i => bi_br N b (Fin (el seed i)) (Fin (ent a x i)) (Fin (ent c y i))
                          (Fin (bi_s b (ent a x i) (ent c y i))))) = map Fin (agg c n gr)).
           { rewrite <- (red_fin c a n gr) by auto. f_equal. apply tab_ext. intros i Hi'. apply bi_brfin; auto. }
           destruct b; try exact EB. destruct (is_scl c && negb (is_scl a)) eqn:E; [|exact EB].
           apply andb_true_iff in E. destruct E as [E1 E2]. unfold agg. rewrite E1. cbn [map].
           f_equal. etransitivity; [apply f_equal, (xsum_fin n (el seed))|]. cbn. f_equal.
           unfold gr. rewrite <- sumn_opp. apply sumn_ext. intros. cbn. ring.
      * intros i l Hi E. destruct i as [|[|i]]; [| |cbn in Hi; lia]; injection E as <-.
        -- split; [apply agg_len; auto|]. cbn [ones]. unfold nth_sh. cbn [nth]. intros Hu HO j Hj.
           assert (G : forall i, (i < n)%nat -> gl i = 1).
           { intros i Hi'. unfold gl. rewrite HU by (auto; lia). destruct b; try discriminate HO; cbn; ring. }
           unfold agg in *. destruct (is_scl a) eqn:EA.
           ++ destruct (is_scl c) eqn:ECc; [|destruct b; discriminate HO].
              rewrite F5 in * by auto. cbn in Hj. assert (j = 0)%nat by lia. subst j.
              change (el [sumn 1 gl] 0) with (0 + gl 0%nat). rewrite G by lia. ring.
           ++ rewrite tab_len in Hj. rewrite el_tab by auto. now apply G.
        -- split; [apply agg_len; auto|]. cbn [ones]. unfold nth_sh. cbn [nth]. intros Hu HO j Hj.
           destruct b; try discriminate HO.
           assert (G : forall i, (i < n)%nat -> gr i = 1).
           { intros i Hi'. unfold gr. rewrite HU by (auto; lia). cbn. ring. }
           unfold agg in *. destruct (is_scl c) eqn:ECc.
           ++ destruct (is_scl a) eqn:EA; [|discriminate HO].
              rewrite F5 in * by auto. cbn in Hj. assert (j = 0)%nat by lia. subst j.
              change (el [sumn 1 gr] 0) with (0 + gr 0%nat). rewrite G by lia. ring.
           ++ rewrite tab_len in Hj. rewrite el_tab by auto. now apply G.
      * cbn [length sumn]. fold dx dy. rewrite !ip_agg by auto. rewrite Rplus_0_l, <- sumn_plus.
        unfold ip. rewrite LS. apply sumn_ext. intros i Hi. rewrite el_tab by auto. unfold gl, gr. ring.
Qed.

(** *** Matrix product *)
Lemma mm_fin r k c x y : length x = (r * k)%nat -> length y = (k * c)%nat ->
  mm N r k c (map Fin x) (map Fin y) = map Fin (mkm r c (fun i j => sumn k (fun p => m_of r x i p * m_of k y p j))).
Proof.
  intros L1 L2. unfold mm, mget. rewrite mkm_map. apply mkm_ext. intros i j Hi Hj.
  etransitivity; [|apply xsum_fin]. cbn [nsum XR]. unfold xsum. f_equal. apply tab_ext. intros p Hp.
  change (n0 N) with (Fin 0). nx. rewrite !nth_fin by nia. reflexivity.
Qed.
Lemma KV_dot : KV la KDot.
Proof.
  intros cs fl ss s u vs HS HD HL _ HDom.
  destruct ss as [|a [|c [|]]]; unfold kshape_ok in HS; rewrite ?andb_false_r in HS; try discriminate HS.
  apply andb_true_iff in HS. destruct HS as [_ HS]. rewrite !andb_true_iff, Nat.eqb_eq in HS. destruct HS as [_ HS].
  assert (L0 : length (nth 0 vs []) = size a) by (apply (lensR_nth vs [a; c] 0 HL); cbn; lia).
  assert (L1 : length (nth 1 vs []) = size c) by (apply (lensR_nth vs [a; c] 1 HL); cbn; lia).
  unfold kf. cbn [kfwd snd]. unfold nth_sh. cbn [nth]. rewrite !arg_fin. rewrite mm_fin; auto.
  rewrite L1. unfold size. now rewrite HS.
Qed.
Lemma KA_dot : KA la KDot.
Proof.
  intros cs fl ss s u vs dvs t0 HS HD HC HG HDom.
  destruct ss as [|a [|b [|]]]; unfold kshape_ok in HS; rewrite ?andb_false_r in HS; try discriminate HS.
  apply andb_true_iff in HS. destruct HS as [_ HS]. rewrite !andb_true_iff, Nat.eqb_eq in HS. destruct HS as [_ HS].
  assert (L0 : length (nth 0 (vs t0) []) = size a) by (apply (lensR_nth _ [a; b] 0 (cv_len _ _ _ _ _ _ HC t0)); cbn; lia).
  assert (L1 : length (nth 1 (vs t0) []) = size b) by (apply (lensR_nth _ [a; b] 1 (cv_len _ _ _ _ _ _ HC t0)); cbn; lia).
  unfold size in L0, L1. rewrite <- HS in L1.
  set (r := rows a) in *. set (c := cols a) in *. set (p := cols b) in *.
  set (x := nth 0 (vs t0) []) in *. set (y := nth 1 (vs t0) []) in *.
  set (dx := nth 0 dvs []). set (dy := nth 1 dvs []).
  exists (mkm r p (fun i j => sumn c (fun q => m_of r dx i q * m_of c y q j + m_of r x i q * m_of c dy q j))).
  cbn [kshape]. unfold nth_sh at 1 2 3. cbn [nth]. unfold size at 1. cbn [rows cols]. fold r p.
  split; [apply mkm_length|]. split.
  - apply (der_mkm r p (fun t i j => sumn c (fun q => m_of r (nth 0 (vs t) []) i q * m_of c (nth 1 (vs t) []) q j))).
    intros i j Hi Hj. apply (der_sumn c (fun q t => m_of r (nth 0 (vs t) []) i q * m_of c (nth 1 (vs t) []) q j)).
    intros q Hq. apply (der_mult (fun t => m_of r (nth 0 (vs t) []) i q) (fun t => m_of c (nth 1 (vs t) []) q j));
    unfold m_of; apply (cv_der _ _ _ _ _ _ HC).
  - intros seed LS HU. unfold size in LS. cbn [rows cols] in LS.
    set (s0 := mkm r c (fun i q => sumn p (fun j => m_of r seed i j * m_of p (mkm p c (fun j q => m_of c y q j)) j q))).
    set (s1 := mkm c p (fun q j => sumn r (fun i => m_of c (mkm c r (fun q i => m_of r x i q)) q i * m_of r seed i j))).
    exists (fun i => match i with O => Some s0 | _ => Some s1 end). split; [|split].
    + intros i Hi. unfold seeds, kf. cbn [kfwd kseed kpre vsel kget].
      rewrite !arg_fin. unfold nth_sh. cbn [nth]. fold x y r c p.
      destruct i as [|[|i]]; [| |cbn in Hi; lia]; cbn [option_map]; f_equal.
      * rewrite (mt_fin la c p y L1). rewrite mm_fin; auto. now rewrite mkm_length.
      * rewrite (mt_fin la r c x L0). rewrite mm_fin; auto. now rewrite mkm_length.
    + intros i l Hi E. destruct i as [|[|i]]; [| |cbn in Hi; lia]; injection E as <-.
      * split; [apply mkm_length|]. discriminate 2.
      * split; [|discriminate 2]. unfold s1, nth_sh. cbn [nth]. rewrite mkm_length. unfold size. now rewrite <- HS.
    + cbn [length sumn]. fold dx dy.
      rewrite (ip_mkm r p seed _ (fun i j => sumn c (fun q => m_of r dx i q * m_of c y q j + m_of r x i q * m_of c dy q j)))
        by (auto; intros; unfold el; now rewrite mkm_nth).
      rewrite (ip_mkm r c s0 dx (m_of r dx)) by (auto; apply mkm_length).
      rewrite (ip_mkm c p s1 dy (m_of c dy)) by (auto; apply mkm_length).
      rewrite Rplus_0_l.
      assert (E0 : sumn c (fun q => sumn r (fun i => m_of r s0 i q * m_of r dx i q))
        = sumn p (fun j => sumn r (fun i => sumn c (fun q => m_of r seed i j * (m_of r dx i q * m_of c y q j))))).
      { transitivity (sumn c (fun q => sumn r (fun i => sumn p (fun j => m_of r seed i j * (m_of r dx i q * m_of c y q j))))).
        - apply sumn_ext. intros q Hq. apply sumn_ext. intros i Hi.
          unfold m_of at 1. unfold el, s0. rewrite mkm_nth by auto. rewrite <- sumn_r. apply sumn_ext. intros j Hj.
          assert (EM : m_of p (mkm p c (fun j q => m_of c y q j)) j q = m_of c y q j) by (unfold m_of at 1, el at 1; now rewrite mkm_nth).
          rewrite EM. ring.
        - rewrite sumn_swap. rewrite (sumn_swap p r). apply sumn_ext. intros i Hi. apply sumn_swap. }
      assert (E1 : sumn p (fun j => sumn c (fun q => m_of c s1 q j * m_of c dy q j))
        = sumn p (fun j => sumn r (fun i => sumn c (fun q => m_of r seed i j * (m_of r x i q * m_of c dy q j))))).
      { apply sumn_ext. intros j Hj. rewrite (sumn_swap r c). apply sumn_ext. intros q Hq.
        unfold m_of at 1. unfold el, s1. rewrite mkm_nth by auto. rewrite <- sumn_r. apply sumn_ext. intros i Hi.
        assert (EM : m_of c (mkm c r (fun q i => m_of r x i q)) q i = m_of r x i q) by (unfold m_of at 1, el at 1; now rewrite mkm_nth).
        rewrite EM. ring. }
      rewrite E0, E1. rewrite <- sumn_plus. apply sumn_ext. intros j Hj. rewrite <- sumn_plus. apply sumn_ext. intros i Hi.
      rewrite <- sumn_plus, <- sumn_l. apply sumn_ext. intros q Hq. ring.
Qed.

(** *** Iterated sum and product *)
Lemma foldv_add n l : forall a, Forall (fun v => length v = n) l ->
  fold_left (map2 xadd) (FF l) (tab n (fun i => Fin (a i))) =
  tab n (fun i => Fin (a i + sumn (length l) (fun p => el (nth p l []) i))).
Proof.
  induction l as [|v l IH]; intros a H; cbn [FF map fold_left length].
  - apply tab_ext. intros. f_equal. cbn. ring.
  - inversion H as [|? ? Hv Hl]; subst. rewrite (fin_list v _ eq_refl), tab_map2.
    cbn [xadd]. unfold FF in IH. rewrite (IH (fun i => a i + el v i)) by auto. apply tab_ext. intros i Hi. f_equal.
    rewrite sumn_S. cbn [nth]. ring.
Qed.
Lemma foldv_mul n l : forall a, Forall (fun v => length v = n) l ->
  fold_left (map2 xmul) (FF l) (tab n (fun i => Fin (a i))) =
  tab n (fun i => Fin (a i * prodn (length l) (fun p => el (nth p l []) i))).
Proof.
  induction l as [|v l IH]; intros a H; cbn [FF map fold_left length].
  - apply tab_ext. intros. f_equal. cbn. ring.
  - inversion H as [|? ? Hv Hl]; subst. rewrite (fin_list v _ eq_refl), tab_map2.
    cbn [xmul]. unfold FF in IH. rewrite (IH (fun i => a i * el v i)) by auto. apply tab_ext. intros i Hi. f_equal.
    rewrite prodn_S. cbn [nth]. ring.
Qed.
Lemma iter_facts q ss : forallb shape_ok ss = true -> same_shapes q ss = true ->
  Forall (fun s => size s = size (iter_shape q ss)) ss.
Proof.
  destruct ss as [|a l]; [constructor|]. intros H1 H2. cbn [same_shapes] in H2. apply andb_true_iff in H2. destruct H2 as [H2 H3].
  assert (SZ : size (iter_shape q (a :: l)) = size a).
  { cbn in H1. apply andb_true_iff in H1. destruct H1 as [H1 _]. destruct a as [k r c]. destruct k, q; try discriminate H2; cbn.
    - cbn in H1. rewrite andb_true_iff, !Nat.eqb_eq in H1. destruct H1 as [-> ->]. reflexivity.
    - reflexivity.
    - reflexivity. }
  rewrite SZ. apply Forall_forall. rewrite forallb_forall in H3. intros s Hs. specialize (H3 s Hs).
  apply shape_eqb_eq in H3. now rewrite H3.
Qed.
Lemma iter_lens vs ss n : Forall (fun s => size s = n) ss -> lensR vs ss -> Forall (fun v => length v = n) vs.
Proof. intros HF HL. revert HF. induction HL; intros HF; inversion HF; subst; constructor; auto; congruence. Qed.
Lemma nth_sizes ss n i : Forall (fun s => size s = n) ss -> (i < length ss)%nat -> size (nth_sh ss i) = n.
Proof. intros H Hi. rewrite Forall_forall in H. apply H. now apply nth_In. Qed.
Lemma KV_sumI q : KV la (KSumI q).
Proof.
  intros cs fl ss s u vs HS HD HL _ HDom. unfold kshape_ok in HS. apply andb_true_iff in HS. destruct HS as [H1 H2].
  pose proof (iter_lens _ _ _ (iter_facts q ss H1 H2) HL) as LV.
  unfold kf. cbn [kfwd snd kden kshape]. change (n0 N) with (Fin 0). change (nadd N) with xadd. nx.
  rewrite (tab_repeat (Fin 0)). rewrite (foldv_add _ vs (fun _ => 0)) by auto. rewrite tab_map. apply tab_ext.
  intros. f_equal. ring.
Qed.
Lemma KA_sumI q : KA la (KSumI q).
Proof.
  intros cs fl ss s u vs dvs t0 HS HD HC HG HDom. unfold kshape_ok in HS. apply andb_true_iff in HS. destruct HS as [H1 H2].
  pose proof (iter_facts q ss H1 H2) as LS0. cbn [kshape]. set (n := size (iter_shape q ss)) in *.
  assert (LV : forall t, length (vs t) = length ss) by (intros; apply lensR_len, (cv_len _ _ _ _ _ _ HC)).
  exists (tab n (fun i => sumn (length ss) (fun p => el (nth p dvs []) i))). split; [apply tab_len|]. split.
  - cbn [kden kshape]. fold n. apply (der_tab n (fun t i => sumn (length (vs t)) (fun p => el (nth p (vs t) []) i))).
    intros i Hi. eapply der_ext.
    + intros t. rewrite (LV t). reflexivity.
    + apply (der_sumn _ (fun p t => el (nth p (vs t) []) i)). intros. apply (cv_der _ _ _ _ _ _ HC).
  - intros seed LS HU. exists (fun _ => Some seed). split; [|split].
    + intros i Hi. unfold seeds, kf. reflexivity.
    + intros i l Hi E. injection E as <-. rewrite (nth_sizes _ _ _ LS0 Hi). auto.
    + unfold ip. rewrite LS. rewrite sumn_swap. apply sumn_ext. intros i Hi. rewrite el_tab by auto. now rewrite sumn_l.
Qed.
Lemma others_list (g : list R -> R) vs i : (i < length vs)%nat ->
  prodn (length (firstn i vs ++ skipn (S i) vs)) (fun p => g (nth p (firstn i vs ++ skipn (S i) vs) []))
  = prodx (length vs) i (fun p => g (nth p vs [])).
Proof.
  revert i. induction vs as [|v l IH]; intros i Hi; cbn in Hi; [lia|]. destruct i.
  - cbn [firstn skipn app length]. rewrite prodx_S0. reflexivity.
  - cbn [firstn skipn app length]. rewrite prodn_S, prodx_SS. cbn [nth]. f_equal. apply IH. lia.
Qed.
Lemma KV_prodI q : KV la (KProdI q).
Proof.
  intros cs fl ss s u vs HS HD HL _ HDom. unfold kshape_ok in HS. apply andb_true_iff in HS. destruct HS as [H1 H2].
  pose proof (iter_lens _ _ _ (iter_facts q ss H1 H2) HL) as LV.
  unfold kf. cbn [kfwd snd kden kshape]. change (n1 N) with (Fin 1). change (nmul N) with xmul. nx.
  rewrite (tab_repeat (Fin 1)). rewrite (foldv_mul _ vs (fun _ => 1)) by auto. rewrite tab_map. apply tab_ext.
  intros. f_equal. ring.
Qed.
Lemma KA_prodI q : KA la (KProdI q).
Proof.
  intros cs fl ss s u vs dvs t0 HS HD HC HG HDom. unfold kshape_ok in HS. apply andb_true_iff in HS. destruct HS as [H1 H2].
  pose proof (iter_facts q ss H1 H2) as LS0. cbn [kshape]. set (n := size (iter_shape q ss)) in *.
  assert (LV : forall t, length (vs t) = length ss) by (intros; apply lensR_len, (cv_len _ _ _ _ _ _ HC)).
  pose proof (iter_lens _ _ _ LS0 (cv_len _ _ _ _ _ _ HC t0)) as LVn.
  set (m := length ss) in *. set (V := vs t0) in *.
  assert (LVV : length V = m) by apply LV.
  exists (tab n (fun i => sumn m (fun p => el (nth p dvs []) i * prodx m p (fun r => el (nth r V []) i)))).
  split; [apply tab_len|]. split.
  - cbn [kden kshape]. fold n. apply (der_tab n (fun t i => prodn (length (vs t)) (fun p => el (nth p (vs t) []) i))).
    intros i Hi. eapply der_ext.
    + intros t. rewrite (LV t). reflexivity.
    + apply (der_prodn _ (fun p t => el (nth p (vs t) []) i)). intros. apply (cv_der _ _ _ _ _ _ HC).
  - intros seed LS HU. exists (fun p => Some (tab n (fun i => el seed i * prodx m p (fun r => el (nth r V []) i)))). split; [|split].
    + intros p Hp. unfold seeds, kf. cbn [kfwd kseed kpre vsel kget option_map kshape]. fold n.
      change (n1 N) with (Fin 1). change (nmul N) with xmul. change (ndiv N) with xdiv. nx.
      assert (EN : nth p (FF V) [] = map Fin (nth p V [])) by apply (arg_fin la V p). rewrite EN.
      assert (Lp : length (nth p V []) = n) by (apply (proj1 (Forall_forall _ _) LVn), nth_In; rewrite LVV; auto).
      rewrite !(tab_repeat (Fin 1)). 
      rewrite (foldv_mul n V (fun _ => 1)) by auto. rewrite tab_len. rewrite (fin_list _ _ Lp). rewrite (fin_list _ _ LS).
      destruct (@anyzero N (tab n (fun i => Fin (el (nth p V []) i)))) eqn:EZ.
      * assert (EO : firstn p (FF V) ++ skipn (S p) (FF V) = FF (firstn p V ++ skipn (S p) V)).
        { unfold FF. now rewrite firstn_map, skipn_map, map_app. }
        rewrite EO. rewrite foldv_mul.
        2: { apply Forall_app. split.
             - rewrite <- (firstn_skipn p V) in LVn. apply Forall_app in LVn. tauto.
             - rewrite <- (firstn_skipn (S p) V) in LVn. apply Forall_app in LVn. tauto. }
        rewrite tab_map2, tab_map. f_equal. apply tab_ext. intros i Hi. cbn [xmul]. f_equal.
        rewrite (others_list (fun v => el v i) V p) by (rewrite LVV; auto). rewrite LVV. ring.
      * rewrite tab_map3, tab_map. f_equal. apply tab_ext. intros i Hi.
        assert (NZ : el (nth p V []) i <> 0).
        { intros E. assert (HH : @anyzero N (tab n (fun i => Fin (el (nth p V []) i))) = true); [|congruence].
          unfold anyzero. apply existsb_exists. exists (Fin 0). split; [|apply reqb_refl].
          rewrite <- E. unfold tab. apply in_map_iff. exists i. split; auto. apply in_seq. lia. }
        cbn [xmul]. rewrite xdiv_fin by auto. f_equal. rewrite LVV.
        rewrite <- (prodx_mul m p (fun r => el (nth r V []) i)) by auto. field. auto.
    + intros i l Hi E. injection E as <-. rewrite tab_len, (nth_sizes _ _ _ LS0 Hi). split; auto. discriminate 2.
    + unfold ip. rewrite LS.
      transitivity (sumn m (fun p => sumn n (fun i => el seed i * (el (nth p dvs []) i * prodx m p (fun r => el (nth r V []) i))))).
      * rewrite sumn_swap. apply sumn_ext. intros i Hi. rewrite el_tab by auto. now rewrite sumn_l.
      * apply sumn_ext. intros p Hp. rewrite tab_len. apply sumn_ext. intros i Hi. rewrite el_tab by auto. ring.
Qed.
End K.
