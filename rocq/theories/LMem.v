(** Environments, memory updates, references and cache contents. *)
From Verif Require Import Base Num Expr Node Stat Machine Wf Pure LBase LKind LSimDef.

Section SimM.
Context {N : num}.
Notation T := (carrier N).
Notation E := (expr T (ann N)).
Notation env := (nat -> T).
Context {bv ba : nat}.
Context {V W : nat -> Prop}.
Context {D : env}.
Notation lay := (lay bv ba).
Notation lays := (lays bv ba).
Notation MR := (MR V W D).
Notation refR := (refR bv V).
Notation K := (K bv ba V).
Notation Ks := (Ks bv ba V).

Implicit Types (m : mem T) (l : list T) (r : env).

(** ** Environments *)
Lemma rdv_length (r : env) o n : length (rdv r o n) = n.
Proof. clear D W V ba bv. unfold rdv. now rewrite map_length, seq_length. Qed.
Lemma rdv_nth (r : env) o n i d : i < n -> nth i (rdv r o n) d = r (o + i).
Proof. clear D W V ba bv.
  intros H. unfold rdv. rewrite nth_indep with (d' := r 0) by (rewrite map_length, seq_length; lia).
  rewrite map_nth, seq_nth; auto.
Qed.
Lemma rdv_ext (r r' : env) o n : (forall i, o <= i < o + n -> r i = r' i) -> rdv r o n = rdv r' o n.
Proof. clear D W V ba bv. intros H. unfold rdv. apply map_ext_in. intros i Hi. apply in_seq in Hi. apply H; lia. Qed.
Lemma upd_in (r : env) o l i : o <= i < o + length l -> upd r o l i = nth (i - o) l (n0 N).
Proof. clear D W V ba bv.
  intros H. unfold upd. rewrite (proj2 (Nat.leb_le o i)), (proj2 (Nat.ltb_lt i _)) by lia. auto.
Qed.
Lemma upd_out (r : env) o l i : ~ (o <= i < o + length l) -> upd r o l i = r i.
Proof. clear D W V ba bv.
  intros H. unfold upd.
  destruct (Nat.leb_spec o i), (Nat.ltb_spec i (o + length l)); cbn; auto. lia.
Qed.
Lemma upd_rdv (r : env) o n i : upd r o (rdv r o n) i = r i.
Proof. clear D W V ba bv.
  destruct (le_lt_dec o i); [destruct (le_lt_dec (o + n) i)|].
  - apply upd_out. rewrite rdv_length. lia.
  - rewrite upd_in by (rewrite rdv_length; lia). rewrite rdv_nth by lia. f_equal; lia.
  - apply upd_out. lia.
Qed.
Lemma rdv_upd (r : env) o l : rdv (upd r o l) o (length l) = l.
Proof. clear D W V ba bv.
  apply nth_ext with (d := n0 N) (d' := n0 N); [apply rdv_length|].
  rewrite rdv_length. intros i Hi. rewrite rdv_nth by auto. rewrite upd_in by lia.
  f_equal. lia.
Qed.
Lemma rdp_plen (r : env) p : length (rdp r p) = match p with PV _ n => n | PL l => length l end.
Proof. clear D W V ba bv. destruct p; cbn; auto using rdv_length. Qed.

(** ** Memory updates *)
Definition updm (m : mem T) b o (l : list T) (m' : mem T) : Prop :=
  forall b' o', m' b' o' =
    if (b' =? b) && ((o <=? o') && (o' <? o + length l)) then Some (nth (o' - o) l (n0 N))
    else m b' o'.
Lemma updm_in m b o l m' i : updm m b o l m' -> o <= i < o + length l ->
  m' b i = Some (nth (i - o) l (n0 N)).
Proof. clear D W V ba bv.
  intros H Hi. rewrite H, Nat.eqb_refl, (proj2 (Nat.leb_le o i)), (proj2 (Nat.ltb_lt i _)) by lia. auto.
Qed.
Lemma updm_out m b o l m' b' i : updm m b o l m' -> ~ (b' = b /\ o <= i < o + length l) ->
  m' b' i = m b' i.
Proof. clear D W V ba bv.
  intros H Hi. rewrite H.
  destruct (Nat.eqb_spec b' b), (Nat.leb_spec o i), (Nat.ltb_spec i (o + length l)); cbn; auto. lia.
Qed.
Lemma store_ok m b o l : (forall i, o <= i < o + length l -> m b i <> None) ->
  exists m', store m (Ptr b o) l = Ok m' /\ updm m b o l m'.
Proof. clear D W V ba bv. intros H. apply wrn_ok. intros i Hi. apply H. lia. Qed.
Lemma updm_load m b o l m' : updm m b o l m' -> load m' (Ptr b o) (length l) = Ok l.
Proof. clear D W V ba bv.
  intros H. cbn. apply (rdn_ok _ _ _ _ _ (n0 N)). split; auto. intros i Hi.
  rewrite (updm_in m b o l m') by (auto; lia). do 2 f_equal; lia.
Qed.
Lemma updm_fr m b o l m' : updm m b o l m' ->
  fr (fun b' o' => b' = b /\ o <= o' < o + length l) m m'.
Proof. clear D W V ba bv.
  intros H. split.
  - intros b' o' Hn. eapply updm_out; eauto.
  - intros b' o' Hn. rewrite H. destruct (_ && _); congruence.
Qed.
Lemma load_rdv m b o n (r : env) : (forall i, o <= i < o + n -> m b i = Some (r i)) ->
  load m (Ptr b o) n = Ok (rdv r o n).
Proof. clear D W V ba bv.
  intros H. cbn. apply (rdn_ok _ _ _ _ _ (n0 N)). split; [apply rdv_length|].
  intros i Hi. rewrite H by lia. now rewrite rdv_nth.
Qed.
Lemma load_inv m b o n l : load m (Ptr b o) n = Ok l ->
  length l = n /\ forall i, o <= i < o + n -> m b i = Some (nth (i - o) l (n0 N)).
Proof. clear D W V ba bv.
  intros H. cbn in H. apply (rdn_ok _ _ _ _ _ (n0 N)) in H. destruct H as [L R].
  split; auto. intros i Hi. specialize (R (i - o) ltac:(lia)). rewrite <- R. f_equal; lia.
Qed.
Lemma load_frame m m' b o n l : (forall i, o <= i < o + n -> m' b i = m b i) ->
  load m (Ptr b o) n = Ok l -> load m' (Ptr b o) n = Ok l.
Proof. clear D W V ba bv.
  intros H HL. apply load_inv in HL. destruct HL as [L R]. cbn.
  apply (rdn_ok _ _ _ _ _ (n0 N)). split; auto. intros i Hi. rewrite H, R by lia. do 2 f_equal; lia.
Qed.
Lemma store_same m p l : load m p (length l) = Ok l ->
  exists m', store m p l = Ok m' /\ forall b o, m' b o = m b o.
Proof. clear D W V ba bv.
  destruct p as [|b o]; intros H.
  - destruct l; cbn in *; [eauto|discriminate].
  - destruct (store_ok m b o l) as [m' [E1 U]].
    { intros i Hi. apply load_inv in H. destruct H as [_ R]. rewrite R by lia. discriminate. }
    exists m'; split; auto. intros b' o'.
    apply load_inv in H. destruct H as [_ R]. rewrite U.
    destruct (Nat.eqb_spec b' b), (Nat.leb_spec o o'), (Nat.ltb_spec o' (o + length l)); cbn; auto.
    subst. rewrite R by lia. auto.
Qed.

Lemma fr_refl P (m : mem T) : fr P m m.
Proof. clear D W V. split; auto. Qed.
Lemma fr_weak (P Q : nat -> nat -> Prop) (m m' : mem T) :
  (forall b o, P b o -> Q b o) -> fr P m m' -> fr Q m m'.
Proof. clear D W V. intros H [H1 H2]. split; auto. Qed.
Lemma fr_trans (P Q : nat -> nat -> Prop) (m1 m2 m3 : mem T) :
  fr P m1 m2 -> fr Q m2 m3 -> fr (fun b o => P b o \/ Q b o) m1 m3.
Proof. clear D W V.
  intros [H1 H2] [H3 H4]. split; auto. intros b o H. rewrite H3 by tauto. apply H1. tauto.
Qed.
Lemma fr_same P (m m' : mem T) : (forall b o, m' b o = m b o) -> fr P m m'.
Proof. clear D W V. intros H. split; intros; rewrite H; auto. Qed.

Lemma MR_upd0 m m' r a o l : updm m 0 o l m' -> MR m r a -> MR m' (upd r o l) a.
Proof.
  intros U [H1 H2]. split.
  - intros i Hi. destruct (H1 i Hi) as [E0 E1]. split.
    + unfold upd. rewrite U. cbn [Nat.eqb andb]. destruct (_ && _); auto.
    + rewrite (updm_out m 0 o l m') by (auto; lia). auto.
  - intros i Hi. rewrite (updm_out m 0 o l m') by (auto; lia). auto.
Qed.
Lemma MR_upd1 m m' r a o l : updm m 1 o l m' -> MR m r a -> MR m' r (upd a o l).
Proof.
  intros U [H1 H2]. split.
  - intros i Hi. destruct (H1 i Hi) as [E0 E1]. split.
    + rewrite (updm_out m 1 o l m') by (auto; lia). auto.
    + unfold upd. rewrite U. cbn [Nat.eqb andb]. destruct (_ && _); auto.
  - intros i Hi. rewrite (updm_out m 1 o l m') by (auto; lia). auto.
Qed.
Lemma MR_fr P m m' r a : fr P m m' -> (forall b o, P b o -> b <> 0 /\ b <> 1 /\ b <> 4) ->
  MR m r a -> MR m' r a.
Proof.
  intros [F _] HP [H1 H2]. split.
  - intros i Hi. destruct (H1 i Hi) as [E0 E1].
    rewrite !F; auto; intros X; apply HP in X; tauto.
  - intros i Hi. rewrite F; auto; intros X; apply HP in X; tauto.
Qed.
Lemma MR_alloc0 m r a o : MR m r a -> V o -> m 0 o <> None.
Proof. intros [H _] Ho. destruct (H o Ho) as [-> _]. discriminate. Qed.
Lemma MR_alloc1 m r a o : MR m r a -> V o -> m 1 o <> None.
Proof. intros [H _] Ho. destruct (H o Ho) as [_ ->]. discriminate. Qed.
Lemma MR_load0 m r a o n : MR m r a -> (forall i, o <= i < o + n -> V i) ->
  load m (Ptr 0 o) n = Ok (rdv r o n).
Proof. intros [H _] HV. apply load_rdv. intros. now apply H, HV. Qed.
Lemma MR_load1 m r a o n : MR m r a -> (forall i, o <= i < o + n -> V i) ->
  load m (Ptr 1 o) n = Ok (rdv a o n).
Proof. intros [H _] HV. apply load_rdv. intros. now apply H, HV. Qed.

(** ** References *)
Lemma refR_read m r a v v' n q p : MR m r a -> refR m v v' n q p ->
  rdref m q = Ok (rdp r p) /\ length (rdp r p) = n.
Proof.
  intros HM H. destruct p; cbn in *.
  - destruct H as [-> [-> HV]]. split; [|apply rdv_length]. cbn. eapply MR_load0; eauto.
  - intuition.
Qed.
Lemma refR_frame m m' v v' n q p :
  (forall o, v <= o < v' -> m' bv o = m bv o) -> (forall o, m' 4 o = m 4 o) ->
  refR m v v' n q p -> refR m' v v' n q p.
Proof.
  intros H1 H2. destruct p; cbn; auto. intros [L [R C]]. split; auto. split; auto.
  destruct q as [[|b c] k|]; cbn in *; auto.
  destruct C as [->|[[-> C]| ->]]; [exact R| |]; eapply (load_frame m); cbn; eauto.
  intros i Hi. apply H1. lia.
Qed.
Lemma refR_mono m v v' w w' n q p : w <= v -> v' <= w' -> refR m v v' n q p -> refR m w w' n q p.
Proof.
  intros H1 H2. destruct p; cbn; auto. intros [L [R C]]. split; auto. split; auto.
  destruct q as [[|b c] k|]; auto. lia.
Qed.

Lemma strip_shape (e e' : E) : strip e' = strip e -> shape_of e' = shape_of e.
Proof. clear D W V ba bv. intros H. rewrite <- (shape_of_amap (fun a => set_st a (sst0 N)) e'). fold (@strip N e').
  rewrite H. apply shape_of_amap. Qed.
Lemma strip_const (e e' : E) : strip e' = strip e -> is_const e' = is_const e.
Proof. clear D W V ba bv. intros H. rewrite <- (is_const_amap (fun a => set_st a (sst0 N)) e'). fold (@strip N e').
  rewrite H. apply is_const_amap. Qed.
Lemma strip_gettable (e e' : E) : strip e' = strip e -> gettable e' = gettable e.
Proof. clear D W V ba bv. intros H. rewrite <- (gettable_amap (fun a => set_st a (sst0 N)) e'). fold (@strip N e').
  rewrite H. apply gettable_amap. Qed.
Lemma strip_wfs (e e' : E) : strip e' = strip e -> wfs e' = wfs e.
Proof. clear D W V ba bv. intros H. rewrite <- (wfs_amap (fun a => set_st a (sst0 N)) e'). fold (@strip N e').
  rewrite H. apply wfs_amap. Qed.
Lemma strips_shape (es es' : list E) : map strip es' = map strip es ->
  map shape_of es' = map shape_of es.
Proof. clear D W V ba bv.
  revert es'; induction es; destruct es'; cbn; try congruence.
  intros H. inv H. f_equal; auto using strip_shape.
Qed.
Lemma strips_const (es es' : list E) : map strip es' = map strip es ->
  map is_const es' = map is_const es.
Proof. clear D W V ba bv.
  revert es'; induction es; destruct es'; cbn; try congruence.
  intros H. inv H. f_equal; auto using strip_const.
Qed.
Lemma strips_gettable (es es' : list E) : map strip es' = map strip es ->
  forallb gettable es' = forallb gettable es.
Proof. clear D W V ba bv.
  revert es'; induction es; destruct es'; cbn; try congruence.
  intros H. inv H. f_equal; auto using strip_gettable.
Qed.
Lemma strip_dptr (e e' : E) : strip e' = strip e -> dptr e' = dptr e.
Proof. clear D W V ba bv.
  intros H.
  assert (G : forall e : E, dptr (strip e) = dptr e) by (intros []; reflexivity).
  now rewrite <- G, H, G.
Qed.

Lemma getref_dptr (e : E) : is_const e = false -> getref e = RMem (fst (dptr e)) (size (shape_of e)).
Proof. clear D W V ba bv. destruct e; cbn; congruence. Qed.

(** ** Frame for the cache contents *)

Lemma K_le e : forall x t m v a v' a', K x e t m v a v' a' -> v <= v' /\ a <= a'.
Proof. clear D W.
  assert (KS : forall m es, Forall (fun e => forall x t m v a v' a',
      K x e t m v a v' a' -> v <= v' /\ a <= a') es ->
      forall ts v a v' a', Ks m v' a' es ts v a -> v <= v' /\ a <= a').
  { intros m es H. induction H; intros [|t ts] v a v' a'; cbn; try tauto; try lia.
    intros [v2 [a2 [H1 H2]]]. apply H in H1. apply IHForall in H2. lia. }
  induction e using expr_ind'; intros x tt m v a' v' a0 [HG HH]; cbn in HH; try lia.
  - destruct HH as [_ [_ [_ [_ [v1 [a1 [H1 [_ H2]]]]]]]]. apply (KS m es H) in H1.
    destruct x; [|destruct (kaux k), (kadj k)]; lia.
  - destruct HH as [_ [ty [_ HH]]]. eauto.
  - destruct HH as [_ [ty [v1 [a1 [_ [H1 H2]]]]]]. apply IHe in H1. lia.
  - destruct HH as [tl [tr [v1 [a1 [_ [H1 [H2 _]]]]]]]. apply IHe1 in H1. apply IHe2 in H2. lia.
  - destruct HH as [H1 _]. now apply (KS m es H) in H1.
  - destruct HH as [tc [tb [v1 [a1 [v2 [a2 [_ [H1 [H2 [H3 _]]]]]]]]]].
    apply IHe1 in H1. apply lay_le in H2. apply lay_le in H3. lia.
Qed.
Lemma Ks_le m es : forall ts v a v' a', Ks m v' a' es ts v a -> v <= v' /\ a <= a'.
Proof. clear D W.
  induction es; intros [|t ts] v a' v' a0; cbn; try tauto; try lia.
  intros [v2 [a2 [H1 H2]]]. apply K_le in H1. apply IHes in H2. lia.
Qed.

Lemma K_frame e : forall x t m m' v a v' a',
  (forall o, v <= o < v' -> m' bv o = m bv o) -> (forall o, m' 4 o = m 4 o) ->
  K x e t m v a v' a' -> K x e t m' v a v' a'.
Proof. clear D W.
  assert (KS : forall m m' es, Forall (fun e => forall x t m m' v a v' a',
      (forall o, v <= o < v' -> m' bv o = m bv o) -> (forall o, m' 4 o = m 4 o) ->
      K x e t m v a v' a' -> K x e t m' v a v' a') es ->
      forall ts v a v' a', (forall o, v <= o < v' -> m' bv o = m bv o) -> (forall o, m' 4 o = m 4 o) ->
      Ks m v' a' es ts v a -> Ks m' v' a' es ts v a).
  { intros m m' es H. induction H; intros [|t ts] v a v' a' F F4; cbn; try tauto.
    intros [v2 [a2 [H1 H2]]]. pose proof (K_le _ _ _ _ _ _ _ _ H1). pose proof (Ks_le _ _ _ _ _ _ _ H2).
    exists v2, a2. split.
    - apply H with m; auto. intros; apply F; lia.
    - apply IHForall; auto. intros; apply F; lia. }
  induction e using expr_ind'; intros x tt m m' v a' v' a0 F F4 HK; pose proof (K_le _ _ _ _ _ _ _ _ HK) as LE;
    rewrite ?K_comp, ?K_eq, ?K_opeq, ?K_glue, ?K_for, ?K_if in *;
    destruct HK as [HG HH]; cbv zeta in *;
    (split; [intros G; eapply refR_frame; eauto; now apply HG|]); auto.
  - destruct HH as [H1 [H2 [H3 [H4 [v1 [a1 [H5 [H6 H7]]]]]]]].
    repeat (split; [assumption|]). exists v1, a1. split; [|split; assumption].
    apply (KS m m' es H); auto. intros; apply F. destruct x; lia.
  - destruct HH as [HT [ty [H1 H2]]]. eauto 8.
  - destruct HH as [HT [ty [v1 [a1 [H1 [H2 [H3 [H4 [H5 [H6 H7]]]]]]]]]].
    pose proof (K_le _ _ _ _ _ _ _ _ H2). split; [assumption|].
    exists ty, v1, a1. split; [assumption|]. split; [apply IHe with m; auto; intros; apply F; lia|].
    split; [|repeat split; assumption].
    rewrite H4 in *. eapply (load_frame m); eauto. intros; apply F; lia.
  - destruct HH as [tl [tr [v1 [a1 [H1 [H2 [H3 [H4 H5]]]]]]]].
    pose proof (K_le _ _ _ _ _ _ _ _ H2). pose proof (K_le _ _ _ _ _ _ _ _ H3).
    exists tl, tr, v1, a1. split; auto. split; [apply IHe1 with m; auto; intros; apply F; lia|].
    split; auto. apply IHe2 with m; auto; intros; apply F; lia.
  - destruct HH as [H1 H2]. split; auto. apply (KS m m' es H); auto.
  - destruct HH as [tc [tb [v1 [a1 [v2 [a2 [H1 [H2 [H3 [H4 H5]]]]]]]]]].
    pose proof (K_le _ _ _ _ _ _ _ _ H2). pose proof (lay_le _ _ _ _ _ _ _ _ _ H3).
    pose proof (lay_le _ _ _ _ _ _ _ _ _ H4).
    exists tc, tb, v1, a1, v2, a2. split; auto.
    split; [apply IHe1 with m; auto; intros; apply F; lia|]. split; auto. split; auto.
    destruct (tp tc); auto. destruct (ntrue _ _).
    + apply IHe2 with m; auto; intros; apply F; lia.
    + apply IHe3 with m; auto; intros; apply F; lia.
Qed.
Lemma Ks_frame m m' es : forall ts v a v' a',
  (forall o, v <= o < v' -> m' bv o = m bv o) -> (forall o, m' 4 o = m 4 o) ->
  Ks m v' a' es ts v a -> Ks m' v' a' es ts v a.
Proof. clear D W.
  induction es; intros [|t ts] v a' v' a0 F F4; cbn; try tauto.
  intros [v2 [a2 [H1 H2]]]. pose proof (K_le _ _ _ _ _ _ _ _ H1). pose proof (Ks_le _ _ _ _ _ _ _ H2).
  exists v2, a2. split.
  - apply K_frame with m; auto. intros; apply F; lia.
  - apply IHes; auto. intros; apply F; lia.
Qed.

Lemma lays_le' v' a' (es : list E) v a : lays v' a' es v a -> v <= v' /\ a <= a'.
Proof. apply lays_le. apply Forall_forall. intros e _. apply lay_le. Qed.

Lemma lay_strip (e : E) : forall x v a v' a', lay x (strip e) v a v' a' <-> lay x e v a v' a'.
Proof. clear D W V.
  assert (LS : forall es : list E, Forall (fun e => forall x v a v' a',
      lay x (strip e) v a v' a' <-> lay x e v a v' a') es ->
      forall v a v' a', lays v' a' (map strip es) v a <-> lays v' a' es v a).
  { intros es H. induction H; cbn; [tauto|]. intros v a v' a'.
    split; intros [v2 [a2 [H1 H2]]]; exists v2, a2; split; try (now apply IHForall); now apply H. }
  assert (SD : forall e : E, dptr (strip e) = dptr e) by (intros []; reflexivity).
  induction e using expr_ind'; intros x v a' v' a0; try reflexivity.
  - change (strip (EComp k a es)) with (EComp k (set_st a (sst0 N)) (map strip es)).
    rewrite !lay_comp. cbv zeta.
    assert (SS : map shape_of (map strip es) = map shape_of es) by apply shapes_amap. rewrite !SS.
    split; intros [v1 [a1 [H1 H2]]]; exists v1, a1; (split; [now apply (LS es H)|exact H2]).
  - cbn [strip amap lay]. fold (@strip N e). rewrite IHe. reflexivity.
  - cbn [strip amap lay]. fold (@strip N e).
    split; intros [v1 [a1 [H1 H2]]]; exists v1, a1; (split; [now apply IHe|exact H2]).
  - cbn [strip amap lay]. fold (@strip N e1). fold (@strip N e2). rewrite SD.
    split; intros [v1 [a1 [H1 [H2 H3]]]]; exists v1, a1;
      (split; [now apply IHe1|split; [now apply IHe2|exact H3]]).
  - change (strip (EFor a s es)) with (EFor (set_st a (sst0 N)) s (map strip es)).
    rewrite !lay_for, <- map_rev. rewrite (LS es H).
    assert (X : match map strip (rev es) with [] => True | y :: _ => av (set_st a (sst0 N)) = fst (dptr y) end
      <-> match rev es with [] => True | y :: _ => av a = fst (dptr y) end).
    { destruct (rev es); cbn; [tauto|]. now rewrite SD. }
    destruct x; [reflexivity|]. rewrite X. reflexivity.
  - cbn [strip amap lay]. fold (@strip N e1). fold (@strip N e2). fold (@strip N e3).
    split; intros [v1 [a1 [v2 [a2 [H1 [H2 H3]]]]]]; exists v1, a1, v2, a2;
      (split; [now apply IHe1|split; [now apply IHe2|now apply IHe3]]).
Qed.
Lemma lay_same (e e' : E) x v a v' a' : strip e' = strip e -> lay x e v a v' a' -> lay x e' v a v' a'.
Proof. clear D W V. intros H HL. apply lay_strip. rewrite H. now apply lay_strip. Qed.

Lemma kshape_shape_ok k ss : kshape_ok k ss = true -> shape_ok (kshape k ss) = true.
Proof. clear D W V ba bv.
  intros Hs. assert (Hs' := Hs). unfold kshape_ok in Hs'. apply andb_true_iff in Hs'.
  destruct Hs' as [Hok Hs'].
  assert (IT : forall s, same_shapes s ss = true -> shape_ok (iter_shape s ss) = true).
  { intros s Hm. destruct ss as [|b ss]; [now destruct s|]. cbn in Hok.
    apply andb_true_iff in Hok. destruct Hok as [Hb _]. cbn [same_shapes] in Hm. rewrite andb_true_iff in Hm.
    destruct Hm as [Hk _]. apply sk_eqb_eq in Hk. destruct s; cbn; auto.
    unfold shape_ok in *. rewrite Hk in Hb. auto. }
  destruct k; try reflexivity;
    try (destruct ss as [|c [|? ?]]; try discriminate Hs'; cbn in *; now rewrite andb_true_r in Hok).
  - destruct ss as [|c [|d [|? ?]]]; try discriminate Hs'. cbn in Hok. rewrite !andb_true_iff in Hok.
    destruct Hok as [Hc [Hd _]]. destruct c as [[] rc cc], d as [[] rd cd]; cbn in *;
      rewrite ?andb_true_iff, ?Nat.eqb_eq in *; auto; intuition subst; auto;
      unfold shape_eqb in Hs'; cbn in Hs'; discriminate.
  - destruct ss as [|c [|d [|? ?]]]; try discriminate Hs'. cbn in Hok. rewrite !andb_true_iff in *.
    destruct Hok as [Hc [Hd _]]. destruct d as [[] rd cd]; cbn in *; auto. destruct Hs' as [[_ ?] _]; discriminate.
  - apply IT. now destruct ss.
  - apply IT. now destruct ss.
Qed.
Lemma wfs_shape (e : E) : wfs e = true -> shape_ok (shape_of e) = true.
Proof. clear D W V ba bv.
  induction e using expr_ind'; cbn; intros HW; auto; rewrite ?andb_true_iff in HW.
  - tauto.
  - destruct HW as [[[_ HW] _] _]. now apply kshape_shape_ok.
  - tauto.
  - tauto.
  - apply IHe2. tauto.
  - destruct HW as [[[H1 H2] _] _]. destruct es as [|y es]; [now destruct s|].
    unfold for_shapes in H2. cbn [map forallb] in H1, H2. rewrite !andb_true_iff in H2. apply andb_true_iff in H1. destruct H1 as [H1 _]. inv H.
    specialize (H4 H1). destruct H2 as [[H2 _] _]. apply sk_eqb_eq in H2. destruct s; cbn; auto.
    unfold shape_ok in *. rewrite H2 in H4. auto.
  - apply IHe2. tauto.
Qed.

Lemma chk_ok n (l : list T) : length l = n -> chk n l = Ok l.
Proof. clear D W V ba bv. intros <-. unfold chk. now rewrite Nat.eqb_refl. Qed.

Lemma oe_fwd_length q s x y : is_scl s = true \/ length y = length x ->
  length (oe_fwd N q s x y) = length x.
Proof. clear D W V ba bv.
  intros H. unfold oe_fwd. rewrite map2_length, bc_length.
  destruct (is_scl s); [lia|]. destruct H; [discriminate|lia].
Qed.

End SimM.
