(** Size facts about the local computations. *)
From Verif Require Import Base Num Expr Node Stat Machine Wf LBase.

Local Arguments mkm : simpl never.
Local Arguments mm : simpl never.
Local Arguments mt : simpl never.
Section Kind.
Context (N : num).
Notation T := (carrier N).

Definition lens (vs : list (list T)) (ss : list shape) : Prop :=
  Forall2 (fun v s => length v = size s) vs ss.

Lemma lens_arg vs ss i : lens vs ss -> i < length ss ->
  length (arg N vs i) = size (nth_sh ss i).
Proof.
  intros H. revert i. induction H; intros [|i] Hi; cbn in *; try lia; auto.
  apply IHForall2; lia.
Qed.
Lemma lens_length vs ss : lens vs ss -> length vs = length ss.
Proof. induction 1; cbn; auto. Qed.

Lemma bc_length s n (v : list T) :
  length (bc N s n v) = if is_scl s then n else length v.
Proof. unfold bc. destruct (is_scl s); auto using repeat_length. Qed.

Lemma is_scl_size s : shape_ok s = true -> is_scl s = true -> s = scl.
Proof.
  unfold shape_ok, is_scl. destruct s as [[] r c]; cbn; try discriminate.
  rewrite andb_true_iff, !Nat.eqb_eq. intros [-> ->] _. reflexivity.
Qed.

Definition bin_ok (a b : shape) : Prop :=
  shape_ok a = true /\ shape_ok b = true /\
  if is_scl a || is_scl b then size a <> 0 /\ size b <> 0 else a = b.

Lemma kshape_bin k a b : kshape_ok (KBin k) [a; b] = true -> bin_ok a b.
Proof.
  unfold kshape_ok, bin_ok. rewrite andb_true_iff. cbn [forallb].
  rewrite !andb_true_iff. intros [[Ha [Hb _]] H]. split; [auto|split; [auto|]].
  destruct (is_scl a || is_scl b).
  - rewrite andb_true_iff, !negb_true_iff, !Nat.eqb_neq in H. exact H.
  - now apply shape_eqb_eq in H.
Qed.

Lemma bin_size k a b : bin_ok a b ->
  (is_scl a = true -> size (kshape (KBin k) [a; b]) = size b /\ size a = 1) /\
  (is_scl b = true -> size (kshape (KBin k) [a; b]) = size a /\ size b = 1) /\
  (is_scl a = false -> is_scl b = false -> size (kshape (KBin k) [a; b]) = size a /\ size b = size a).
Proof.
  intros [Ha [Hb H]]. repeat split.
  - intros. pose proof (is_scl_size _ Ha H0). subst a. cbn in H. cbn.
    unfold size in *; cbn. destruct (rows b), (cols b); cbn; lia.
  - intros. rewrite (is_scl_size _ Ha H0). reflexivity.
  - intros. pose proof (is_scl_size _ Hb H0). subst b. rewrite orb_true_r in H. cbn.
    unfold size in *; cbn. destruct (rows a), (cols a); cbn in *; lia.
  - intros. rewrite (is_scl_size _ Hb H0). reflexivity.
  - rewrite H0, H1 in H; cbn in H. subst b. unfold size; cbn. now rewrite !Nat.max_id.
  - rewrite H0, H1 in H; cbn in H. now subst b.
Qed.

Lemma fold_map2_length (g : T -> T -> T) vs n acc :
  Forall (fun v => length v = n) vs -> length acc = n ->
  length (fold_left (map2 g) vs acc) = n.
Proof.
  revert acc. induction vs; intros acc Hv Ha; cbn; auto.
  inv Hv. apply IHvs; auto. rewrite map2_length. lia.
Qed.

Lemma same_shapes_iter s vs ss :
  forallb shape_ok ss = true -> same_shapes s ss = true -> lens vs ss ->
  Forall (fun v => length v = size (iter_shape s ss)) vs.
Proof.
  unfold same_shapes. destruct ss as [|a ss].
  - intros _ _ H. inv H. constructor.
  - rewrite andb_true_iff, sk_eqb_eq. intros Hok [Hk Hs] H.
    assert (E : iter_shape s (a :: ss) = a).
    { destruct a as [[] r c]; cbn in *; subst s; cbn; auto.
      rewrite !andb_true_iff, !Nat.eqb_eq in Hok. destruct Hok as [[-> ->] _]. reflexivity. }
    rewrite E. clear - H Hs. revert Hs. induction H; cbn; [constructor|].
    rewrite andb_true_iff. intros [Hy Hs]. constructor; auto.
    apply shape_eqb_eq in Hy. now subst.
Qed.

Lemma iter_len s vs ss : Forall (fun v : list T => length v = size (iter_shape s ss)) vs ->
  forall (g : T -> T -> T) z, length (fold_left (map2 g) vs (repeat z (size (iter_shape s ss))))
  = size (iter_shape s ss).
Proof. intros. apply fold_map2_length; auto. apply repeat_length. Qed.

Ltac one ss H :=
  destruct ss as [|?a [|? ?]]; unfold kshape_ok in H; rewrite ?andb_false_r in H; try discriminate H.

Lemma stat_fwd_ok q cs ss s vs :
  kdim_ok (KStat q) ss = true -> stat_shape_ok q ss = true -> lens vs ss ->
  exists s' x, stat_fwd N q cs ss s vs = Ok (s', x).
Proof.
  intros Hd Hs HL.
  assert (H0 : q = UniVSS \/ q = UniVSV \/ q = UniVVS -> arg N vs 0 <> []).
  { intros Hq.
    assert (length (arg N vs 0) = rows (nth_sh ss 0) * 1 /\ rows (nth_sh ss 0) <> 0).
    { rewrite (lens_arg vs ss 0 HL).
      2: { destruct ss; [|cbn; lia]. destruct Hq as [->|[->| ->]]; discriminate. }
      split.
      - destruct ss as [|a [|b [|c [|]]]];
          destruct Hq as [->|[->| ->]]; try discriminate; cbn in Hs;
          rewrite !andb_true_iff in Hs; destruct Hs as [[Hs _] _]; unfold is_vecn in Hs;
          apply shape_eqb_eq in Hs; unfold size; rewrite Hs at 2; reflexivity.
      - destruct Hq as [->|[->| ->]]; cbn in Hd; rewrite negb_true_iff, Nat.eqb_neq in Hd; exact Hd. }
    intros E. rewrite E in H. cbn in H. lia. }
  destruct q; cbn; try (eexists; eexists; reflexivity);
    repeat match goal with
           | |- context [if ?b then _ else _] => destruct b; cbn
           end; try (eexists; eexists; reflexivity);
    (destruct (arg N vs 0) eqn:EA; [exfalso; apply H0; auto|]; cbn;
     repeat match goal with
           | |- context [if ?b then _ else _] => destruct b; cbn
           end; eexists; eexists; reflexivity).
Qed.

Lemma kfwd_ok k cs ss s vs :
  kshape_ok k ss = true -> kdim_ok k ss = true -> lens vs ss ->
  exists s' v, kfwd k cs ss s vs = Ok (s', v) /\ length v = size (kshape k ss).
Proof.
  intros Hs Hd HL.
  assert (HA : forall i, i < length ss -> length (arg N vs i) = size (nth_sh ss i))
    by (intros; apply lens_arg; auto).
  destruct k; cbn [kfwd].
  - one ss Hs. eexists; eexists; split; [reflexivity|]. rewrite map_length. apply HA; cbn; lia.
  - one ss Hs. eexists; eexists; split; [reflexivity|]. rewrite map_length. apply HA; cbn; lia.
  - eexists; eexists; split; [reflexivity|]. unfold mt. rewrite mkm_length. cbn. unfold size. cbn. lia.
  - eexists; eexists; split; [reflexivity|]. reflexivity.
  - eexists; eexists; split; [reflexivity|]. reflexivity.
  - eexists; eexists; split; [reflexivity|]. reflexivity.
  - eexists; eexists; split; [reflexivity|]. reflexivity.
  - eexists; eexists; split; [reflexivity|]. reflexivity.
  - destruct ss as [|sa [|sb [|]]];
      try (unfold kshape_ok in Hs; rewrite andb_false_r in Hs; discriminate Hs).
    eexists; eexists; split; [reflexivity|]. unfold bin_fwd.
    rewrite map2_length, !bc_length.
    pose proof (HA 0 ltac:(cbn; lia)) as H0. pose proof (HA 1 ltac:(cbn; lia)) as H1.
    cbn [nth_sh nth] in *. rewrite H0, H1. clear H0 H1.
    apply kshape_bin in Hs. pose proof (bin_size b sa sb Hs) as [B1 [B2 B3]].
    destruct (is_scl sa) eqn:Ea, (is_scl sb) eqn:Eb;
      try (destruct (B1 eq_refl)); try (destruct (B2 eq_refl));
      try (destruct (B3 eq_refl eq_refl)); lia.
  - eexists; eexists; split; [reflexivity|]. unfold mm. rewrite mkm_length. reflexivity.
  - eexists; eexists; split; [reflexivity|]. cbn [kshape].
    unfold kshape_ok in Hs. apply andb_true_iff in Hs. destruct Hs as [Hs1 Hs2].
    apply iter_len. apply same_shapes_iter; auto; now destruct ss.
  - eexists; eexists; split; [reflexivity|]. cbn [kshape].
    unfold kshape_ok in Hs. apply andb_true_iff in Hs. destruct Hs as [Hs1 Hs2].
    apply iter_len. apply same_shapes_iter; auto; now destruct ss.
  - unfold kshape_ok in Hs. apply andb_true_iff in Hs. destruct Hs as [Hs1 Hs2].
    assert (Hs3 : stat_shape_ok s0 ss = true) by (now destruct ss).
    destruct (stat_fwd_ok s0 cs ss s vs Hd Hs3 HL) as [s' [x E]]. rewrite E. cbn.
    eexists; eexists; split; reflexivity.
Qed.

(** Sizes of what the decompositions return: the only assumption on Eigen used
    in memory-safety results. *)
Definition la_len : Prop := forall n X,
  length (lu_inv T (nla N) n X) = n * n /\ length (ldlt_inv T (nla N) n X) = n * n /\
  length (llt_inv T (nla N) n X) = n * n.

(** Sizes of the matrices a node object holds, between evaluations and after
    feval. *)
Definition stpre (k : kd) (ss : list shape) (s : sst N) : Prop :=
  match k with
  | KStat Wish =>
      let n := rows (nth_sh ss 0) in
      (fa s = true -> length (ma s) = n * n /\ length (mc s) = n * n) /\
      (fb s = true -> length (mb s) = n * n)
  | _ => True
  end.
Definition stpost (k : kd) (ss : list shape) (s : sst N) : Prop :=
  match k with
  | KStat (NormVSM | NormVVM) => fa s = true -> length (mb s) = rows (nth_sh ss 0)
  | _ => stpre k ss s
  end.
Lemma stpost_pre k ss s : stpost k ss s -> stpre k ss s.
Proof. destruct k; cbn; auto. destruct s0; cbn; auto. Qed.

Lemma wish_shapes ss : stat_shape_ok Wish ss = true ->
  exists n, nth_sh ss 0 = Sh Mat n n /\ nth_sh ss 1 = Sh Mat n n.
Proof.
  destruct ss as [|a [|b [|c [|]]]]; cbn; try discriminate.
  rewrite !andb_true_iff. intros [[Ha Hb] _]. unfold is_sqmat in *.
  apply shape_eqb_eq in Ha. apply shape_eqb_eq in Hb. exists (rows a). split.
  - change (a = Sh Mat (rows a) (rows a)). exact Ha.
  - change (b = Sh Mat (rows a) (rows a)). exact Hb.
Qed.

Lemma stat_fwd_post (LL : la_len) q cs ss s vs s' x :
  stat_shape_ok q ss = true -> lens vs ss -> stpre (KStat q) ss s ->
  stat_fwd N q cs ss s vs = Ok (s', x) -> stpost (KStat q) ss s'.
Proof.
  intros Hs HL Hp.
  destruct q; cbn [stpost stpre]; try (intros; exact I).
  - (* NormVSM *) cbn. destruct (cst cs 2); cbn.
    + destruct (fa s) eqn:Ef; cbn; intros H; inv H; cbn.
      * intros _. unfold mm. rewrite mkm_length.
        rewrite (lens_arg vs ss 0 HL); [|destruct ss; [discriminate|cbn; lia]].
        destruct ss as [|a [|b [|c [|]]]]; cbn in Hs; try discriminate.
        rewrite !andb_true_iff in Hs. destruct Hs as [[Hs _] _]. unfold is_vecn in Hs.
        apply shape_eqb_eq in Hs. unfold nth_sh; cbn. unfold size. rewrite Hs at 2. cbn. lia.
      * congruence.
    + unfold norm_upd_m. destruct (llt_ok _ _ _ _); cbn; intros H; inv H; cbn; [|congruence].
      intros _. unfold mm. rewrite mkm_length.
      rewrite (lens_arg vs ss 0 HL); [|destruct ss; [discriminate|cbn; lia]].
      destruct ss as [|a [|b [|c [|]]]]; cbn in Hs; try discriminate.
      rewrite !andb_true_iff in Hs. destruct Hs as [[Hs _] _]. unfold is_vecn in Hs.
      apply shape_eqb_eq in Hs. unfold nth_sh; cbn. unfold size. rewrite Hs at 2. cbn. lia.
  - (* NormVVM *) cbn. destruct (cst cs 2); cbn.
    + destruct (fa s) eqn:Ef; cbn; intros H; inv H; cbn.
      * intros _. unfold mm. rewrite mkm_length.
        rewrite (lens_arg vs ss 0 HL); [|destruct ss; [discriminate|cbn; lia]].
        destruct ss as [|a [|b [|c [|]]]]; cbn in Hs; try discriminate.
        rewrite !andb_true_iff in Hs. destruct Hs as [[Hs _] _]. unfold is_vecn in Hs.
        apply shape_eqb_eq in Hs. unfold nth_sh; cbn. unfold size. rewrite Hs at 2. cbn. lia.
      * congruence.
    + unfold norm_upd_m. destruct (llt_ok _ _ _ _); cbn; intros H; inv H; cbn; [|congruence].
      intros _. unfold mm. rewrite mkm_length.
      rewrite (lens_arg vs ss 0 HL); [|destruct ss; [discriminate|cbn; lia]].
      destruct ss as [|a [|b [|c [|]]]]; cbn in Hs; try discriminate.
      rewrite !andb_true_iff in Hs. destruct Hs as [[Hs _] _]. unfold is_vecn in Hs.
      apply shape_eqb_eq in Hs. unfold nth_sh; cbn. unfold size. rewrite Hs at 2. cbn. lia.
  - (* Wish *) destruct (wish_shapes _ Hs) as [n [E0 E1]]. cbn [stat_fwd stpre] in *.
    rewrite E0, E1 in *. cbn [rows] in *.
    assert (P1 : let s1 := if cst cs 1 then s else wish_updv N s n (arg N vs 1) in
                 (fa s1 = true -> length (ma s1) = n * n /\ length (mc s1) = n * n) /\
                 (fb s1 = true -> length (mb s1) = n * n)).
    { cbn. destruct (cst cs 1); auto. unfold wish_updv.
      destruct (llt_ok _ _ _ _); cbn; split; try apply Hp; try congruence.
      intros _. apply LL. }
    cbn in P1. revert P1.
    generalize (if cst cs 1 then s else wish_updv N s n (arg N vs 1)). intros s1 P1.
    assert (P2 : let s2 := if cst cs 0 then s1 else wish_updx N s1 n (arg N vs 0) in
                 (fa s2 = true -> length (ma s2) = n * n /\ length (mc s2) = n * n) /\
                 (fb s2 = true -> length (mb s2) = n * n)).
    { cbn. destruct (cst cs 0); auto. unfold wish_updx.
      destruct (fb s1) eqn:Ef; [|rewrite Ef; auto].
      destruct (llt_ok _ _ _ _); cbn; split; try apply P1; try congruence; try (rewrite Ef; apply P1).
      intros _. split; [apply LL|]. unfold mm. now rewrite mkm_length. }
    cbn in P2. revert P2.
    generalize (if cst cs 0 then s1 else wish_updx N s1 n (arg N vs 0)). intros s2 P2.
    destruct (wish_ok _ _ _ _); cbn; intros H; inv H; exact P2.
Qed.

Lemma kfwd_post (LL : la_len) k cs ss s vs s' v :
  kshape_ok k ss = true -> lens vs ss -> stpre k ss s ->
  kfwd k cs ss s vs = Ok (s', v) -> stpost k ss s'.
Proof.
  intros Hs HL Hp. destruct k; try (intros; exact I). cbn [kfwd].
  intros H. apply bindR_ok in H. destruct H as [[s2 x] [E H]]. inv H.
  eapply stat_fwd_post; eauto.
  unfold kshape_ok in Hs. apply andb_true_iff in Hs. destruct Hs as [_ Hs]. now destruct ss.
Qed.

Lemma fold_mul_length (vs : list (list T)) n acc :
  Forall (fun v => length v = n) vs -> length acc = n ->
  length (fold_left (map2 (nmul N)) vs acc) = n.
Proof. apply fold_map2_length. Qed.

Ltac lsolve := repeat first
  [ rewrite map_length | rewrite map2_length | rewrite map3_length
  | rewrite mkm_length | rewrite repeat_length ].


Ltac ifs := repeat match goal with
  | |- context [if ?b then _ else _] => destruct b eqn:?
  end.

Lemma stat_bwd_len q cs ss s seed vs i l :
  forallb shape_ok ss = true ->
  stat_shape_ok q ss = true -> lens vs ss -> stpost (KStat q) ss s -> i < length ss ->
  stat_bwd N q cs ss s seed vs i = Some l -> length l = size (nth_sh ss i).
Proof.
  intros Hok Hs HL Hp Hi. unfold stat_bwd.
  destruct (neqb N seed (n0 N)); [discriminate|].
  assert (L0 := lens_arg vs ss 0 HL).
  assert (L1 := lens_arg vs ss 1 HL).
  assert (L2 := lens_arg vs ss 2 HL).
  assert (SC : forall x, In x ss -> is_scl x = true -> x = scl).
  { intros x Hx. rewrite forallb_forall in Hok. apply is_scl_size; auto. }
  destruct q;
  (destruct ss as [|a [|b [|c [|]]]]; cbn in Hs; try discriminate Hs;
   rewrite ?andb_true_iff in Hs; unfold is_vecn, is_sqmat in Hs;
   repeat match goal with
   | H : _ /\ _ |- _ => destruct H
   | H : shape_eqb _ _ = true |- _ => apply shape_eqb_eq in H
   | H : is_scl ?x = true |- _ => apply SC in H; [|cbn; auto; fail]
   end;
   cbn [length] in *;
   try specialize (L0 ltac:(lia)); try specialize (L1 ltac:(lia));
   try specialize (L2 ltac:(lia)); cbn [nth_sh nth stpost stpre] in *;
   try match type of Hp with _ => 
       match goal with H : a = Sh _ (rows a) _ |- _ => 
         let n := fresh "n" in set (n := rows a) in *; clearbody n end end;
   subst; unfold size in *; cbn [rows cols scl] in *;
   destruct i as [|[|[|i]]]; try lia; cbn [nth_sh nth rows cols scl];
   ifs; intros EQ; try discriminate EQ; inv EQ; lsolve; cbn [length]; try lia).
  all: repeat match goal with
       | H : negb _ = false |- _ => apply negb_false_iff in H
       | H : wish_ok _ _ _ _ = true |- _ => unfold wish_ok in H; rewrite !andb_true_iff in H
       | H : _ /\ _ |- _ => destruct H
       end.
  all: try (rewrite Hp by assumption; lia).
  all: repeat match goal with
       | H : fa ?u = true -> _, H' : fa ?u = true |- _ => specialize (H H')
       | H : fb ?u = true -> _, H' : fb ?u = true |- _ => specialize (H H')
       | H : _ /\ _ |- _ => destruct H
       end; unfold mm; rewrite ?mkm_length; lia.
Qed.

Lemma In_firstn {A} (x : A) n l : In x (firstn n l) -> In x l.
Proof. intros H. rewrite <- (firstn_skipn n l). apply in_or_app; auto. Qed.
Lemma In_skipn {A} (x : A) n l : In x (skipn n l) -> In x l.
Proof. intros H. rewrite <- (firstn_skipn n l). apply in_or_app; auto. Qed.

Lemma prodE_b_length seed f (vs : list T) : length (prodE_b N seed f vs) = length vs.
Proof. unfold prodE_b. now rewrite map_length, seq_length. Qed.

Lemma red_length a b (l : list T) :
  length (red N a b l) = if is_scl a && negb (is_scl b) then 1 else length l.
Proof. unfold red. destruct (is_scl a && negb (is_scl b)); auto. Qed.

Lemma iter_nth s ss i : forallb shape_ok ss = true -> same_shapes s ss = true ->
  i < length ss -> size (nth_sh ss i) = size (iter_shape s ss).
Proof.
  intros H1 H2 Hi.
  assert (HF : Forall (fun v : list T => length v = size (iter_shape s ss))
                      (map (fun sh => repeat (n0 N) (size sh)) ss)).
  { apply same_shapes_iter; auto. clear. induction ss; constructor; auto using repeat_length. }
  rewrite Forall_map, Forall_forall in HF.
  specialize (HF (nth_sh ss i)). rewrite repeat_length in HF. apply HF. now apply nth_In.
Qed.

Lemma for_iter s ss : forallb shape_ok ss = true -> for_shapes s ss = true -> ss <> [] ->
  last ss scl = iter_shape s ss.
Proof.
  intros H1 H2 HN. destruct ss as [|a l]; [congruence|]. unfold for_shapes in H2. apply andb_true_iff in H2.
  destruct H2 as [H2 H3]. apply shape_eqb_eq in H3.
  assert (EL : forall d, last (a :: l) d = last (a :: l) a).
  { clear. revert a. induction l as [|b l IH]; intros a d; [reflexivity|].
    change (last (b :: l) d = last (b :: l) a). rewrite (IH b d), (IH b a). reflexivity. }
  rewrite EL, H3. cbn [forallb] in H1, H2. apply andb_true_iff in H1. apply andb_true_iff in H2.
  destruct H1 as [H1 _], H2 as [H2 _]. apply sk_eqb_eq in H2. subst s.
  destruct a as [[] r c]; cbn in *; auto.
  rewrite andb_true_iff, !Nat.eqb_eq in H1. destruct H1 as [-> ->]. reflexivity.
Qed.
Lemma for_last_len s vs ss : forallb shape_ok ss = true -> for_shapes s ss = true -> lens vs ss -> vs <> [] ->
  length (last vs []) = size (iter_shape s ss).
Proof.
  intros H1 H2 HL HN. assert (HS : ss <> []) by (intros ->; inversion HL; subst; congruence).
  rewrite <- (for_iter s ss H1 H2 HS). clear H1 H2 HN. revert HS.
  induction HL as [|v sh vs ss L HL IH]; intros HS; [congruence|].
  destruct HL as [|v2 sh2 vs ss L2 HL]; [exact L|]. apply IH. discriminate.
Qed.
Lemma kshape_kassert k ss : kshape_ok k ss = true -> kassert k ss = true.
Proof.
  intros H. destruct k; try exact H; unfold kshape_ok in H; apply andb_true_iff in H; destruct H as [H1 H2].
  - destruct ss as [|a [|c [|]]]; try discriminate H2. cbn [kassert]. rewrite H1. cbn [andb].
    destruct (is_scl a || is_scl c) eqn:Q; [reflexivity|]. exact H2.
  - unfold kassert. rewrite H1. destruct ss as [|a l]; [reflexivity|]. cbn [same_shapes] in H2.
    apply andb_true_iff in H2. destruct H2 as [H2 H3]. apply sk_eqb_eq in H2. subst s. cbn [andb].
    apply forallb_forall. intros c Hc. rewrite forallb_forall in H3. specialize (H3 c Hc). apply shape_eqb_eq in H3. subst c.
    now apply sk_eqb_eq.
  - unfold kassert. rewrite H1. destruct ss as [|a l]; [reflexivity|]. cbn [same_shapes] in H2.
    apply andb_true_iff in H2. destruct H2 as [H2 H3]. apply sk_eqb_eq in H2. subst s. cbn [andb].
    apply forallb_forall. intros c Hc. rewrite forallb_forall in H3. specialize (H3 c Hc). apply shape_eqb_eq in H3. subst c.
    now apply sk_eqb_eq.
  - assert (G : forallb shape_ok ss && sks_eqb (kinds ss) (stat_kinds s) = true).
    { rewrite H1. cbn [andb]. destruct s; cbn [stat_shape_ok] in H2; destruct ss as [|a [|c [|d [|]]]]; try discriminate H2;
        rewrite ?andb_true_iff in H2; unfold is_vecn, is_sqmat in H2;
        repeat match goal with
               | H : _ /\ _ |- _ => destruct H
               | H : shape_eqb _ _ = true |- _ => apply shape_eqb_eq in H
               | H : is_scl ?a = true |- _ =>
                   assert (kind a = Scl) by (unfold is_scl in H; destruct (kind a); [reflexivity|discriminate|discriminate]); clear H
               end;
        unfold kinds; cbn [map];
        repeat match goal with H : ?a = Sh _ _ _ |- context[kind ?a] => rewrite H
               | H : kind ?a = _ |- context[kind ?a] => rewrite H end; reflexivity. }
    destruct s; try exact G; unfold kassert, kshape_ok; now rewrite H1, H2.
Qed.
Definition vlens (k : kd) (vs : list (list T)) (ss : list shape) : Prop :=
  if kget k then lens vs ss else True.

Lemma kseed_len (LL : la_len) k cs ss s ad vs f i l :
  kshape_ok k ss = true -> stpost k ss s -> vlens k vs ss ->
  length ad = size (kshape k ss) -> length f = size (kshape k ss) -> i < length ss ->
  kseed k cs ss s ad vs f i = Some l -> length l = size (nth_sh ss i).
Proof.
  intros Hs Hp HL Had Hf Hi. unfold vlens in HL.
  assert (Hs' := Hs). unfold kshape_ok in Hs'. apply andb_true_iff in Hs'.
  destruct Hs' as [Hok Hs'].
  destruct k; cbn [kget kseed] in *.
  - one ss Hs. cbn in Hi. assert (i = 0) by lia. subst. intros H; inv H.
    pose proof (lens_arg _ _ 0 HL ltac:(cbn; lia)) as L0. cbn in *.
    rewrite map3_length. lia.
  - one ss Hs. cbn in Hi. assert (i = 0) by lia. subst.
    destruct (z =? 0)%Z; [intros H; inv H; apply repeat_length|].
    destruct (z =? 1)%Z; [intros H; inv H; auto|]. cbn in HL.
    pose proof (lens_arg _ _ 0 HL ltac:(cbn; lia)) as L0.
    intros H; inv H. rewrite map3_length. cbn in *. lia.
  - one ss Hs. cbn in Hi. assert (i = 0) by lia. subst. intros H; inv H.
    unfold mt. rewrite mkm_length. reflexivity.
  - one ss Hs. cbn in Hi. assert (i = 0) by lia. subst. intros H; inv H.
    apply repeat_length.
  - one ss Hs. cbn in Hi. assert (i = 0) by lia. subst. intros H; inv H.
    rewrite prodE_b_length. apply (lens_arg _ _ 0 HL). cbn; lia.
  - one ss Hs. cbn in Hi. assert (i = 0) by lia. subst. intros H; inv H.
    rewrite map_length. apply (lens_arg _ _ 0 HL). cbn; lia.
  - one ss Hs. cbn in Hi. assert (i = 0) by lia. subst.
    destruct (_ || _); [discriminate|]. intros H; inv H. rewrite map_length.
    cbn in *. rewrite andb_true_iff, Nat.eqb_eq in Hs'. destruct Hs' as [_ Hc].
    unfold size. rewrite <- Hc.
    destruct f0; cbn; [unfold mt; rewrite mkm_length; auto|apply LL|apply LL].
  - one ss Hs. cbn in Hi. assert (i = 0) by lia. subst.
    destruct (_ || _); [discriminate|]. intros H; inv H. rewrite map_length.
    cbn in *. rewrite andb_true_iff, Nat.eqb_eq in Hs'. destruct Hs' as [_ Hc].
    unfold size. rewrite <- Hc.
    destruct f0; cbn; [unfold mt; rewrite mkm_length; auto|apply LL|apply LL].
  - destruct ss as [|sa [|sb [|]]]; try discriminate Hs'.
    destruct (is_cmp b) eqn:Ec; [discriminate|]. cbn in HL.
    pose proof (lens_arg _ _ 0 HL ltac:(cbn; lia)) as L0.
    pose proof (lens_arg _ _ 1 HL ltac:(cbn; lia)) as L1.
    cbn [nth_sh nth] in L0, L1.
    pose proof (bin_size b sa sb (kshape_bin _ _ _ Hs)) as [B1 [B2 B3]].
    destruct i as [|[|]]; [| |cbn in Hi; lia]; cbn [nth_sh nth]; intros H; inv H.
    + unfold bin_bl. rewrite red_length, map4_length, !bc_length, L0, L1.
      destruct (is_scl sa) eqn:Ea, (is_scl sb) eqn:Eb; cbn [andb negb];
        try (destruct (B1 eq_refl)); try (destruct (B2 eq_refl));
        try (destruct (B3 eq_refl eq_refl)); lia.
    + assert (BR : length (red N sb sa (map4 (bi_br N b) ad (bc N sa (length ad) (arg N vs 0))
               (bc N sb (length ad) (arg N vs 1)) f)) = size sb).
      { rewrite red_length, map4_length, !bc_length, L0, L1.
        destruct (is_scl sa) eqn:Ea, (is_scl sb) eqn:Eb; cbn [andb negb];
        try (destruct (B1 eq_refl)); try (destruct (B2 eq_refl));
        try (destruct (B3 eq_refl eq_refl)); lia. }
      unfold bin_br. destruct b; try exact BR.
      destruct (is_scl sb && negb (is_scl sa)) eqn:Ex; try exact BR.
      apply andb_true_iff in Ex. destruct Ex as [Ex _]. destruct (B2 Ex). auto.
  - destruct ss as [|sa [|sb [|]]]; try discriminate Hs'.
    destruct i as [|[|]]; [| |cbn in Hi; lia]; cbn [nth_sh nth]; intros H; inv H;
      unfold mm; rewrite mkm_length; [reflexivity|].
    rewrite !andb_true_iff, Nat.eqb_eq in Hs'. destruct Hs' as [_ ->]. reflexivity.
  - intros H; inv H. rewrite Had. cbn [kshape]. symmetry. apply iter_nth; auto; now destruct ss.
  - assert (Hss : same_shapes s0 ss = true) by (now destruct ss).
    pose proof (lens_arg _ _ i HL Hi) as Li. unfold arg in Li.
    pose proof (iter_nth s0 ss i Hok Hss Hi). cbn [kshape] in *.
    destruct (anyzero _); intros E; inv E; [rewrite map2_length|rewrite map3_length]; lia.
  - apply stat_bwd_len; auto; now destruct ss.
Qed.

Lemma kpre_len k ss i vs f f1 :
  kshape_ok k ss = true -> vlens k vs ss -> length f = size (kshape k ss) ->
  kpre k i vs f = Some f1 -> length f1 = size (kshape k ss).
Proof.
  intros Hs HL Hf. destruct k; try discriminate. cbn [kpre kshape] in *.
  destruct (anyzero _); [|discriminate]. intros H; inv H. rewrite <- Hf.
  apply fold_mul_length; [|apply repeat_length].
  unfold kshape_ok in Hs. apply andb_true_iff in Hs. destruct Hs as [Hok Hs].
  cbn in HL. apply (same_shapes_iter s) in HL; auto; try (now destruct ss).
  rewrite Hf. rewrite Forall_forall in *. intros v Hv.
  apply HL. apply in_app_or in Hv. destruct Hv as [Hv|Hv].
  - eapply In_firstn; eauto.
  - destruct vs; [destruct Hv|]. right. eapply In_skipn; exact Hv.
Qed.
End Kind.
