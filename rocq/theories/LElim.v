(** Placeholder elimination. *)
From Coq Require Import Reals Lra FunctionalExtensionality.
From Coquelicot Require Import Coquelicot.
From Verif Require Import Base Num Expr Node Stat Machine Wf Pure LBase LKind LSimDef LMem LSimF LSimB LBind Session LUser
  Tape LTape LState LNrm LTop XR Spec RSess Grad LReal LScal LKA LKB LKM LVal LGrad LDiff LIndep LGrd Elim.
Open Scope R_scope.
Set Bullet Behavior "Strict Subproofs".

(** ** Regions grow when seeds are known and operands are piecewise constant *)
Lemma sdom_grow d u u' q cs fl fl' ss vs : (u = true -> u' = true) -> (forall i, nth i fl false = true -> nth i fl' false = true) ->
  sdom d u q cs fl ss vs -> sdom d u' q cs fl' ss vs.
Proof.
  intros HU HF. pose proof (HF 0%nat) as F0. pose proof (HF 1%nat) as F1. pose proof (HF 2%nat) as F2.
  destruct q; cbn [sdom]; auto; intros H; decompose [and] H; repeat (match goal with |- _ /\ _ => split end); auto; intros X;
    match goal with H : d = true -> _ |- _ => specialize (H X) end; tauto.
Qed.
Lemma kdom_grow d u u' k cs fl fl' ss vs : (u = true -> u' = true) -> (forall i, nth i fl false = true -> nth i fl' false = true) ->
  kdom d u k cs fl ss vs -> kdom d u' k cs fl' ss vs.
Proof.
  intros HU HF. destruct k; cbn [kdom]; auto.
  - intros HD i Hi. specialize (HD i Hi). pose proof (HF 0%nat) as F0. pose proof (HF 1%nat) as F1.
    destruct b; cbn [bi_dom] in *; auto; try (intros E; specialize (HD E); tauto);
      destruct (_ && _); try (intros E; specialize (HD E); tauto);
      destruct HD as [HD1 HD2]; (split; [exact HD1|intros E; specialize (HD2 E); tauto]).
  - now apply sdom_grow.
Qed.
Section Elim.
Notation X := (expr xr unit).
Variable D : nat -> R.
Definition GROW (e : X) : Prop := forall d u u' r, (u = true -> u' = true) -> dom D d u e r -> dom D d u' e r.
Lemma dom_grow e : GROW e.
Proof.
  induction e using expr_ind'; intros d u u' r HU HD; auto.
  - rewrite dom_comp in *. destruct HD as [H1 H2]. split; [|eapply kdom_grow; eauto].
    clear H2. revert H1. generalize 0%nat. revert r. generalize (map shape_of es). intros ss.
    induction H; intros r i; cbn; auto. intros [H1 H2]. split; [|auto].
    eapply H; [|exact H1]. rewrite !andb_true_iff. tauto.
  - cbn in *. destruct HD. split; eauto.
  - rewrite dom_for in *. revert r HD. induction H; intros r; cbn; auto. intros [H1 H2]. split; [|auto].
    eapply H; [|exact H1]. destruct l; auto.
  - cbn in *. destruct HD as [H1 [H2 H3]]. split; eauto. split; auto. destruct (reqb _ _); eauto.
Qed.

Variable w : nat.
Variable sh : shape.
Variable y : X.
Hypothesis WY : wfs y = true.
Hypothesis SY : shape_of y = sh.
Hypothesis CY : is_const y = false.
Hypothesis GY : gettable y = true.
Hypothesis NY : writes y = [].
Notation sb := (subst w sh y).

Lemma hit s o : (o =? w)%nat && shape_eqb s sh = true -> o = w /\ s = sh.
Proof. rewrite andb_true_iff, Nat.eqb_eq. intros [? H]. apply shape_eqb_eq in H. auto. Qed.
Lemma sb_shape f : shape_of (sb f) = shape_of f.
Proof.
  induction f using expr_ind'; cbn [subst shape_of]; auto.
  - destruct (_ && _) eqn:Q; auto. apply hit in Q. destruct Q as [-> ->]. exact SY.
  - f_equal. rewrite map_map. apply map_ext_Forall. exact H.
  - f_equal. rewrite map_map. apply map_ext_Forall. exact H.
Qed.
Lemma sb_shapes es : map shape_of (map sb es) = map shape_of es.
Proof. rewrite map_map. apply map_ext. exact sb_shape. Qed.
Lemma sb_const f : is_const (sb f) = is_const f.
Proof. destruct f; cbn [subst]; auto. destruct (_ && _); auto. Qed.
Lemma sb_flat f : flat f = true -> flat (sb f) = true.
Proof. destruct f; cbn [subst]; auto. Qed.
Lemma sb_get f : gettable f = true -> gettable (sb f) = true.
Proof. destruct f; cbn [subst]; auto. destruct (_ && _); auto. Qed.
Lemma eqw_nil : eqw y = [].
Proof.
  destruct (eqw y) as [|o l] eqn:Q; auto. exfalso. assert (In o (writes y)) by (apply eqw_writes; rewrite Q; now left).
  rewrite NY in H. exact H.
Qed.
Lemma opw_nil : opw y = [].
Proof.
  destruct (opw y) as [|o l] eqn:Q; auto. exfalso. assert (In o (writes y)) by (apply opw_writes; rewrite Q; now left).
  rewrite NY in H. exact H.
Qed.
Lemma fm_sb {Y} (g : X -> list Y) es : Forall (fun f => g (sb f) = g f) es -> flat_map g (map sb es) = flat_map g es.
Proof. induction 1 as [|f l H H1 IH]; cbn; auto. now rewrite H, IH. Qed.
Lemma sb_writes f : writes (sb f) = writes f.
Proof.
  induction f using expr_ind'; cbn [subst writes]; auto; try (now apply fm_sb); try congruence.
  destruct (_ && _); auto.
Qed.
Lemma sb_eqw f : eqw (sb f) = eqw f.
Proof.
  induction f using expr_ind'; cbn [subst eqw]; auto; try (now apply fm_sb); try congruence.
  destruct (_ && _); auto. exact eqw_nil.
Qed.
Lemma sb_opw f : opw (sb f) = opw f.
Proof.
  induction f using expr_ind'; cbn [subst opw]; auto; try (now apply fm_sb); try congruence.
  destruct (_ && _); auto. exact opw_nil.
Qed.
Lemma sb_refs f o : In o (refs (sb f)) -> In o (refs f) \/ In o (refs y).
Proof.
  assert (L : forall es, Forall (fun f => In o (refs (sb f)) -> In o (refs f) \/ In o (refs y)) es ->
    In o (flat_map refs (map sb es)) -> In o (flat_map refs es) \/ In o (refs y)).
  { induction 1 as [|f' l H H1 IH]; cbn; auto. rewrite !in_app_iff. tauto. }
  induction f using expr_ind'; cbn [subst refs]; auto; rewrite ?in_app_iff; try (now apply L); try tauto.
  destruct (_ && _); auto.
Qed.
Lemma sb_drefs f o : In o (drefs (sb f)) -> In o (drefs f) \/ In o (drefs y).
Proof.
  assert (L : forall es, Forall (fun f => In o (drefs (sb f)) -> In o (drefs f) \/ In o (drefs y)) es ->
    In o (flat_map drefs (map sb es)) -> In o (flat_map drefs es) \/ In o (drefs y)).
  { induction 1 as [|f' l H H1 IH]; cbn; auto. rewrite !in_app_iff. tauto. }
  induction f using expr_ind'; cbn [subst drefs]; auto; rewrite ?in_app_iff; try (now apply L); try tauto.
  destruct (_ && _); auto.
Qed.
Lemma all_sb (p : X -> bool) es : Forall (fun f => p f = true -> p (sb f) = true) es -> forallb p es = true -> forallb p (map sb es) = true.
Proof. induction 1 as [|f' l H H1 IH]; cbn; auto. rewrite !andb_true_iff. intros [? ?]. split; auto. Qed.
Lemma sb_wfs f : wfs f = true -> wfs (sb f) = true.
Proof.
  induction f using expr_ind'; cbn [subst wfs]; auto.
  - intros H. destruct (_ && _); auto.
  - rewrite !andb_true_iff, sb_shapes, !orb_true_iff. intros [[[W1 W2] W3] W4]. repeat split; auto; [now apply all_sb|].
    destruct W4 as [W4|W4]; [auto|right]. revert W4. apply all_sb. apply Forall_forall. intros f _. apply sb_get.
  - rewrite !andb_true_iff, sb_shape. intros [[[W1 W2] W3] W4]. repeat split; auto. destruct f; auto; discriminate W4.
  - rewrite !andb_true_iff, sb_shape. intros [[[W1 W2] W3] W4]. repeat split; auto. now apply sb_get.
  - rewrite !andb_true_iff, !negb_true_iff, sb_const. intros [[[W1 W2] W3] W4]. repeat split; auto. now apply sb_get.
  - rewrite !andb_true_iff, !negb_true_iff, sb_shapes. intros [[[W1 W2] W3] W4]. repeat split; auto; [now apply all_sb| |].
    + rewrite <- W3. clear -CY. induction es; cbn; auto. now rewrite sb_const, IHes.
    + destruct es as [|z l]; auto. cbn [map]. change (sb z :: map sb l) with (map sb (z :: l)).
      assert (Q : forall l z, last (map sb (z :: l)) (EVar scl 0) = sb (last (z :: l) (EVar scl 0))).
      { induction l0 as [|b l0 IH]; intros; auto. cbn [map last] in *. apply (IH b). }
      rewrite Q. now apply sb_get.
  - rewrite !andb_true_iff, !sb_shape. intros [[[[[W1 W2] W3] W4] W5] W6]. repeat split; auto. destruct f1; auto; discriminate W5.
Qed.
Lemma sb_cfin f : cfin y -> cfin f -> cfin (sb f).
Proof.
  intros HY. induction f using expr_ind'; cbn [subst cfin]; auto; try tauto.
  - destruct (_ && _); auto.
  - induction H; cbn; auto. intros [? ?]. split; [auto|]. match goal with IH : _ -> _, Q : _ |- _ => exact (IH Q) end.
  - induction H; cbn; auto. intros [? ?]. split; [auto|]. match goal with IH : _ -> _, Q : _ |- _ => exact (IH Q) end.
Qed.
Lemma dj_spec l m : dj l m = true <-> forall x, In x l -> ~ In x m.
Proof.
  unfold dj. rewrite forallb_forall. split; intros H x Hx.
  - specialize (H x Hx). rewrite negb_true_iff in H. intros Hm. assert (existsb (Nat.eqb x) m = true) by (apply existsb_exists; exists x; split; [auto|apply Nat.eqb_refl]). congruence.
  - rewrite negb_true_iff. destruct (existsb _ _) eqn:Q; auto. apply existsb_exists in Q. destruct Q as [z [Q1 Q2]]. apply Nat.eqb_eq in Q2. subst. now apply H in Hx.
Qed.
(** [f] assigns no variable of [y]. *)
Definition apart (f : X) : Prop := forall o, In o (writes f) -> ~ In o (refs y).
Lemma sb_dj l f : (forall o, In o l -> ~ In o (refs y)) -> dj l (refs f) = true -> dj l (refs (sb f)) = true.
Proof. rewrite !dj_spec. intros H1 H2 x Hx HR. destruct (sb_refs _ _ HR); [now apply (H2 x)|now apply (H1 x)]. Qed.
Lemma sb_later (g : X -> list nat) es : (forall f, g (sb f) = g f) -> (forall o, In o (flat_map g es) -> ~ In o (refs y)) ->
  later g es = true -> later g (map sb es) = true.
Proof.
  intros H. induction es as [|f l IH]; cbn; auto. rewrite !andb_true_iff. intros HA [L1 L2]. split.
  - rewrite fm_sb by (apply Forall_forall; auto). apply sb_dj; auto. intros o Ho. apply HA, in_or_app. auto.
  - apply IH; auto. intros o Ho. apply HA, in_or_app. auto.
Qed.
Lemma eqw_w (f : X) o : In o (eqw f) -> In o (writes f).
Proof. apply eqw_writes. Qed.
Lemma sb_disc f : disc y = true -> apart f -> disc f = true -> disc (sb f) = true.
Proof.
  intros DY. induction f using expr_ind'; cbn [subst disc]; auto; unfold apart in *; cbn [writes] in *.
  - intros _ _. destruct (_ && _); auto.
  - rewrite !andb_true_iff, !orb_true_iff, sb_shapes. intros HA [[[D1 D2] D3] D4].
    assert (HF : Forall (fun f => disc f = true -> disc (sb f) = true) es).
    { apply Forall_forall. intros f Hf. rewrite Forall_forall in H. apply H; auto. intros o Ho. apply HA, in_flat_map. eauto. }
    repeat split.
    + now apply all_sb.
    + apply sb_later; auto. exact sb_writes.
    + destruct D3 as [D3|D3]; [auto|right]. revert D3. apply all_sb. apply Forall_forall. intros f _. now rewrite sb_writes.
    + destruct D4 as [D4|D4]; [auto|right]. assert (Q : tl (map sb es) = map sb (tl es)) by now destruct es. rewrite Q.
      revert D4. apply all_sb. apply Forall_forall. intros f _. now rewrite sb_opw.
  - rewrite !andb_true_iff. intros HA [D1 D2]. split.
    + apply IHf; auto. intros x Hx. apply HA, in_or_app. auto.
    + apply sb_dj; auto. intros x Hx. apply HA, in_or_app. auto.
  - rewrite !andb_true_iff, sb_writes, sb_opw, sb_shape. intros HA [[D1 D2] D3]. repeat split; auto.
    apply IHf; auto. intros x Hx. apply HA, in_or_app. auto.
  - rewrite !andb_true_iff, sb_eqw. intros HA [[D1 D2] D3]. repeat split; auto.
    + apply IHf1; auto. intros x Hx. apply HA, in_or_app. auto.
    + apply IHf2; auto. intros x Hx. apply HA, in_or_app. auto.
    + apply sb_dj; auto. intros x Hx. apply HA, in_or_app. right. now apply eqw_w.
  - rewrite !andb_true_iff. intros HA [D1 D2]. split.
    + revert D1. apply all_sb. apply Forall_forall. intros f Hf. rewrite Forall_forall in H. apply H; auto. intros o Ho. apply HA, in_flat_map. eauto.
    + apply sb_later; auto; [exact sb_eqw|]. intros o Ho. apply HA. apply in_flat_map in Ho. destruct Ho as [f [F1 F2]].
      apply in_flat_map. exists f. split; auto. now apply eqw_w.
  - rewrite !andb_true_iff, sb_writes, !sb_eqw. intros HA [[[[D1 D2] D3] D4] D5]. repeat split; auto.
    + apply IHf1; auto. intros x Hx. apply HA. rewrite !in_app_iff. auto.
    + apply IHf2; auto. intros x Hx. apply HA. rewrite !in_app_iff. auto.
    + apply IHf3; auto. intros x Hx. apply HA. rewrite !in_app_iff. auto.
    + apply sb_dj; auto. intros x Hx. apply HA. rewrite !in_app_iff in *. destruct Hx as [Hx|Hx]; apply eqw_w in Hx; auto.
Qed.

(** ** Meaning *)
(** [r]: without the placeholder; [r']: with it; [r0]: when it was assigned. *)
Variable r0 : nat -> R.
Record rel (r r' : nat -> R) : Prop := {
  rel_off : forall o, ~ In o (cells sh w) -> r' o = r o;
  rel_at : map r' (cells sh w) = val D y r0;
  rel_y : forall o, In o (refs y) -> r o = r0 o }.
Lemma rel_val r r' : rel r r' -> val D y r = val D y r0.
Proof.
  intros H. destruct (indep D y r r0 WY) as [X _]; auto. intros o Ho. apply (rel_y _ _ H). now apply inputs_refs.
Qed.
Lemma y_env r : fin_env D y r = r.
Proof. apply functional_extensionality. intros o. apply env_keep; auto. rewrite NY. auto. Qed.
Definition SUB (f : X) : Prop := forall r r', wfs f = true -> whole w sh f = true -> apart f -> rel r r' ->
  val D (sb f) r = val D f r' /\ rel (fin_env D (sb f) r) (fin_env D f r') /\
  forall d u, dom D d false y r0 -> dom D d u f r' -> dom D d u (sb f) r.
Lemma rel_put r r' o l : (forall i, (o <= i < o + length l)%nat -> ~ In i (cells sh w) /\ ~ In i (refs y)) -> rel r r' ->
  rel (put r o l) (put r' o l).
Proof.
  intros HL [R1 R2 R3]. split.
  - intros i Hi. unfold put. destruct (_ && _); auto.
  - rewrite <- R2. apply map_ext_in. intros i Hi. unfold put. destruct (_ && _) eqn:Q; auto.
    rewrite andb_true_iff, Nat.leb_le, Nat.ltb_lt in Q. now apply HL in Q.
  - intros i Hi. unfold put. destruct (_ && _) eqn:Q; auto.
    rewrite andb_true_iff, Nat.leb_le, Nat.ltb_lt in Q. now apply HL in Q.
Qed.
Lemma SUBs es : Forall SUB es -> forall r r', forallb wfs es = true -> forallb (whole w sh) es = true ->
  (forall o, In o (flat_map writes es) -> ~ In o (refs y)) -> rel r r' ->
  fst (dens D (map sb es) r) = fst (dens D es r') /\ rel (snd (dens D (map sb es) r)) (snd (dens D es r')) /\
  (forall d us i, dom D d false y r0 -> doms D d us i es r' -> doms D d us i (map sb es) r) /\
  (forall d u, dom D d false y r0 -> domf D d u es r' -> domf D d u (map sb es) r).
Proof.
  induction 1 as [|f l HF H IH]; intros r r' HW HH HA HR.
  - cbn. auto.
  - cbn [forallb] in HW, HH. apply andb_true_iff in HW, HH. destruct HW as [W1 W2], HH as [H1 H2].
    destruct (HF r r' W1 H1) as [A1 [A2 A3]]; auto. { intros o Ho. apply HA. cbn. apply in_or_app. auto. }
    destruct (IH _ _ W2 H2 ltac:(intros o Ho; apply HA; cbn; apply in_or_app; auto) A2) as [B1 [B2 [B3 B4]]].
    cbn [map]. rewrite !dens_cons. cbn [fst snd]. split; [congruence|]. split; [exact B2|]. split.
    + intros d us i HY. cbn [doms]. intros [X1 X2]. split; [auto|]. exact (B3 d us (S i) HY X2).
    + intros d u HY. cbn [domf]. intros [X1 X2]. split; [|exact (B4 d u HY X2)].
      destruct l; cbn [map]; apply A3; auto.
Qed.
Lemma sub_all f : SUB f.
Proof.
  induction f using expr_ind'; intros r r' HW HH HA HR.
  - cbn [subst]. destruct (_ && _) eqn:Q.
    + apply hit in Q. destruct Q as [-> ->]. split; [|split].
      * rewrite (rel_val _ _ HR). symmetry. exact (rel_at _ _ HR).
      * rewrite y_env. exact HR.
      * intros d u HY _. apply (dom_grow y d false u); [discriminate|].
        destruct (indep D y r r0 WY) as [_ [_ X]]; [|now apply X].
        intros o Ho. apply (rel_y _ _ HR). now apply inputs_refs.
    + cbn [whole] in HH. rewrite Q in HH. cbn in HH. rewrite dj_spec in HH. split; [|split; [exact HR|auto]].
      cbn. apply map_ext_in. intros i Hi. symmetry. apply (rel_off _ _ HR). now apply HH.
  - cbn. auto.
  - cbn. auto.
  - cbn [subst wfs whole] in *. rewrite !andb_true_iff in HW.
    destruct (SUBs es H r r' ltac:(tauto) HH HA HR) as [B1 [B2 [B3 B4]]]. unfold val, fin_env.
    rewrite !den_comp, sb_shapes. cbn [fst snd]. split; [now rewrite B1|]. split; [exact B2|].
    intros d u HY. rewrite !dom_comp, sb_shapes. intros [X1 X2]. split; [auto|]. rewrite B1.
    rewrite map_map, (map_ext _ is_const) by exact sb_const.
    eapply kdom_grow; [| |exact X2]; auto.
    intros i. clear. revert i. induction es as [|f l IH]; intros [|i]; cbn; auto. apply sb_flat.
  - cbn [wfs whole] in *. rewrite andb_true_iff in HH. rewrite !andb_true_iff in HW. destruct HW as [[[W1 _] W2] _], HH as [H1 H2]. apply shape_eqb_eq in W2.
    destruct (IHf r r' W1 H2) as [A1 [A2 A3]]; auto. { intros x Hx. apply HA. cbn. apply in_or_app. auto. }
    pose proof (val_len D f r' W1) as HL. rewrite dj_spec in H1.
    cbn [subst]. split; [|split; [|intros d u HY; cbn [dom]; auto]].
    + unfold val in *. cbn [den]. destruct (den D (sb f) r), (den D f r'). exact A1.
    + unfold val, fin_env in *. cbn [den]. destruct (den D (sb f) r) as [v r1], (den D f r') as [v' r1']. cbn [fst snd] in *. subst v.
      apply rel_put; auto. intros i Hi. rewrite HL, <- W2 in Hi. apply in_cells in Hi. split; [now apply H1|]. apply HA. cbn. apply in_or_app. auto.
  - cbn [wfs whole] in *. rewrite andb_true_iff in HH. rewrite !andb_true_iff in HW. destruct HW as [[[W1 _] W2] _], HH as [H1 H2].
    destruct (IHf r r' W1 H2) as [A1 [A2 A3]]; auto. { intros x Hx. apply HA. cbn. apply in_or_app. auto. }
    rewrite dj_spec in H1. cbn [subst].
    assert (EW : tab (size sh0) (fun i => oe_s q (fin_env D (sb f) r (o + i)%nat) (ent (shape_of (sb f)) (val D (sb f) r) i)) =
                 tab (size sh0) (fun i => oe_s q (fin_env D f r' (o + i)%nat) (ent (shape_of f) (val D f r') i))).
    { apply map_ext_in. intros i Hi. apply in_seq in Hi. rewrite sb_shape, A1. f_equal. symmetry. apply (rel_off _ _ A2). apply H1. apply in_cells. lia. }
    split; [|split].
    + unfold val, fin_env in *. cbn [den]. destruct (den D (sb f) r), (den D f r'). exact EW.
    + unfold val, fin_env in *. cbn [den]. destruct (den D (sb f) r) as [v r1], (den D f r') as [v' r1']. cbn [fst snd] in *. rewrite EW.
      apply rel_put; auto. intros i Hi. unfold tab in Hi. rewrite map_length, seq_length in Hi. apply in_cells in Hi. split; [now apply H1|]. apply HA. cbn. apply in_or_app. auto.
    + intros d u HY. cbn [dom]. rewrite sb_shape, A1. intros [X1 X2]. split; auto.
  - cbn [wfs whole] in *. rewrite andb_true_iff in HH. rewrite !andb_true_iff in HW. destruct HW as [[[W1 W2] _] _], HH as [H1 H2].
    destruct (IHf1 r r' W1 H1) as [A1 [A2 A3]]; auto. { intros x Hx. apply HA. cbn. apply in_or_app. auto. }
    destruct (IHf2 _ _ W2 H2 ltac:(intros x Hx; apply HA; cbn; apply in_or_app; auto) A2) as [B1 [B2 B3]].
    cbn [subst]. split; [|split].
    + unfold val, fin_env in *. cbn [den]. destruct (den D (sb f1) r), (den D f1 r'). exact B1.
    + unfold val, fin_env in *. cbn [den]. destruct (den D (sb f1) r), (den D f1 r'). exact B2.
    + intros d u HY. cbn [dom]. intros [X1 X2]. split; auto.
  - cbn [subst wfs whole] in *. rewrite !andb_true_iff in HW.
    destruct (SUBs es H r r' ltac:(tauto) HH HA HR) as [B1 [B2 [B3 B4]]]. unfold val, fin_env.
    rewrite !den_for. cbn [fst snd]. split; [now rewrite B1|]. split; [exact B2|].
    intros d u HY. rewrite !dom_for. auto.
  - cbn [wfs whole] in *. rewrite !andb_true_iff in HH. rewrite !andb_true_iff in HW. destruct HW as [[[[[W1 W2] W3] _] _] _], HH as [[H1 H2] H3].
    destruct (IHf1 r r' W1 H1) as [A1 [A2 A3]]; auto. { intros x Hx. apply HA. cbn. rewrite !in_app_iff. auto. }
    destruct (IHf2 _ _ W2 H2 ltac:(intros x Hx; apply HA; cbn; rewrite !in_app_iff; auto) A2) as [B1 [B2 B3]].
    destruct (IHf3 _ _ W3 H3 ltac:(intros x Hx; apply HA; cbn; rewrite !in_app_iff; auto) A2) as [C1 [C2 C3]].
    cbn [subst]. split; [|split].
    + unfold val, fin_env in *. cbn [den]. destruct (den D (sb f1) r), (den D f1 r'). cbn [fst snd] in *. subst. destruct (reqb _ _); auto.
    + unfold val, fin_env in *. cbn [den]. destruct (den D (sb f1) r), (den D f1 r'). cbn [fst snd] in *. subst. destruct (reqb _ _); auto.
    + intros d u HY. cbn [dom]. rewrite A1. intros [X1 [X2 X3]]. split; auto. split.
      * intros Hd. destruct (X2 Hd); [left; now apply sb_flat|auto].
      * destruct (reqb _ _); auto.
Qed.
End Elim.

Section Thm.
Variable la : linalg xr.
Hypothesis LA : la_ok la.
Notation N := (XR la).
Notation E := (expr N (ann N)).
Notation U := (expr N unit).
Variables (w : nat) (sh : shape) (y f : U) (D : nat -> R).
Notation u := (EGlue tt (EEq tt sh w y) f : U).
Notation v := (subst w sh y f : U).
Hypothesis HK : okexpr la u.
Hypothesis NY : writes y = [].
Hypothesis CY : is_const y = false.
Hypothesis GY : gettable y = true.
Hypothesis WH : whole w sh f = true.
Hypothesis OP : forall o, In o (opw f) -> ~ In o (refs y).

Lemma el_facts : wfs y = true /\ shape_of y = sh /\ disc y = true /\ wfs f = true /\ disc f = true /\ apart y f /\
  cfin (y : expr xr unit) /\ cfin (f : expr xr unit) /\ forall o, In o (cells sh w) -> ~ In o (refs y).
Proof.
  destruct HK as [W [C F]]. cbn [wfs] in W. cbn [disc refs] in C. cbn [cfin] in F. rewrite !andb_true_iff in W. rewrite !andb_true_iff in C.
  destruct W as [[[[[[W1 W2] W3] W4] W5] _] _], C as [[[C1 C2] C3] C4]. apply shape_eqb_eq in W3. rewrite dj_spec in C2. rewrite dj_spec in C4.
  repeat (match goal with |- _ /\ _ => split end); try tauto; auto.
  intros o Ho. destruct (writes_or f o Ho) as [X|X]; [|auto]. intros Z. apply (C4 o X). apply in_or_app. auto.
Qed.
Lemma el_rel r : rel D w sh y r r (put r w (val D y r)).
Proof.
  destruct el_facts as [W1 [S1 _]]. pose proof (val_len D y r W1) as HL. change (carrier N) with xr in *. rewrite S1 in HL. split; auto.
  - intros o Ho. rewrite in_cells in Ho. unfold put. rewrite HL. destruct (_ && _) eqn:Q; auto.
    rewrite andb_true_iff, Nat.leb_le, Nat.ltb_lt in Q. tauto.
  - unfold cells. apply nth_ext with (d := 0) (d' := 0); rewrite map_length, seq_length; [auto|].
    intros i Hi. rewrite (nth_indep _ 0 (put r w (val D y r) 0%nat)) by (rewrite map_length, seq_length; exact Hi).
    rewrite map_nth, seq_nth by exact Hi. unfold put. rewrite HL.
    replace ((w <=? w + i)%nat && (w + i <? w + size sh)%nat) with true
      by (symmetry; rewrite andb_true_iff, Nat.leb_le, Nat.ltb_lt; lia).
    unfold el. f_equal. lia.
Qed.
(** Without the placeholder the expression is well-formed, means the same and is
    differentiable wherever it was. *)
Lemma el_ok : okexpr la v.
Proof.
  destruct el_facts as [W1 [S1 [D1 [W2 [D2 [A [F1 [F2 _]]]]]]]]. split; [|split].
  - now apply sb_wfs.
  - now apply sb_disc.
  - now apply sb_cfin.
Qed.
Lemma el_den r : val D v r = val D u r /\ (forall o, ~ In o (cells sh w) -> fin_env D v r o = fin_env D u r o) /\
  forall d b, dom D d b u r -> dom D d b v r.
Proof.
  destruct el_facts as [W1 [S1 [D1 [W2 [D2 [A _]]]]]].
  destruct (sub_all D w sh y W1 S1 CY NY r f r _ W2 WH A (el_rel r)) as [Q1 [Q2 Q3]].
  pose proof (y_env D y W1 NY r) as YE.
  assert (EV : den D (u : expr xr unit) r = den D (f : expr xr unit) (put r w (val D y r))).
  { cbn [den]. unfold val. unfold fin_env in YE. destruct (den D y r) as [a r1]. cbn [fst snd] in *. now subst r1. }
  unfold val, fin_env in *. rewrite EV. split; [exact Q1|]. split.
  - intros o Ho. symmetry. now apply (rel_off _ _ _ _ _ _ _ Q2).
  - intros d b. cbn [dom]. intros [X1 X2]. apply Q3; auto. unfold fin_env in X2. cbn [den] in X2.
    destruct (den D y r) as [a r1]. cbn [fst snd] in *. now subst r1.
Qed.
Lemma el_partials rho o g : partials D u rho o g <-> partials D v rho o g.
Proof.
  assert (Q : forall t, val D (v : expr xr unit) (set1 rho o t) = val D (u : expr xr unit) (set1 rho o t)) by (intros t; apply el_den).
  unfold partials. split; intros H k; specialize (H k); (eapply der_ext; [|exact H]); intros t; cbn; now rewrite Q.
Qed.

Variables bv ba bv' ba' : nat.
Lemma el_refs o : In o (refs v) -> In o (refs u).
Proof. intros H. destruct (sb_refs D w sh y f o H); cbn; rewrite !in_app_iff; auto. Qed.
Lemma el_nocell o : In o (refs v) -> ~ In o (cells sh w).
Proof.
  destruct el_facts as [W1 [S1 [_ [_ [_ [_ [_ [_ X]]]]]]]]. intros H1 H2. revert H1. generalize WH. clear -X H2 S1.
  assert (L : forall es, Forall (fun f : U => whole w sh f = true -> In o (refs (subst w sh y f)) -> False) es ->
    forallb (whole w sh) es = true -> In o (flat_map refs (map (subst w sh y) es)) -> False).
  { induction 1 as [|g l H1 H3 IH]; cbn; auto. rewrite andb_true_iff, in_app_iff. tauto. }
  induction f using expr_ind'; cbn [subst whole refs]; rewrite ?andb_true_iff, ?in_app_iff, ?dj_spec.
  - destruct (_ && _) eqn:Q; [intros _; now apply X|]. cbn. rewrite dj_spec. intros H1 H3. now apply (H1 o).
  - auto.
  - auto.
  - now apply L.
  - intros [H1 H3] [H4|H4]; [now apply (H1 o)|auto].
  - intros [H1 H3] [H4|H4]; [now apply (H1 o)|auto].
  - tauto.
  - now apply L.
  - tauto.
Qed.
Lemma elim_eval (e e' : E) m m' rho al b : session la bv ba u D e m -> session la bv' ba' v D e' m' ->
  mreal la u m D rho al -> mreal la v m' D rho al -> dom D false b u rho ->
  exists e2 m2 e2' m2' x, @evaluate N e m = Ok (e2, m2, x) /\ @evaluate N e' m' = Ok (e2', m2', x) /\
    forall o, In o (refs v) -> m2' 0%nat o = m2 0%nat o /\ m2' 1%nat o = m2 1%nat o.
Proof.
  intros S S' M M' HD. destruct (el_den rho) as [V1 [V2 V3]].
  destruct (value_thm la LA bv ba u D e m rho al b HK S M HD) as [e2 [m2 [Q1 [_ Q2]]]].
  destruct (value_thm la LA bv' ba' v D e' m' rho al b el_ok S' M' (V3 _ _ HD)) as [e2' [m2' [R1 [_ R2]]]].
  change (carrier N) with xr in *. rewrite V1 in R1. exists e2, m2, e2', m2', (map Fin (val D (u : expr xr unit) rho)).
  split; [exact Q1|]. split; [exact R1|]. intros o Ho. destruct (proj1 R2 o Ho) as [-> ->].
  destruct (proj1 Q2 o (el_refs o Ho)) as [-> ->]. split; [|reflexivity]. do 2 f_equal. apply V2. now apply el_nocell.
Qed.
Lemma elim_diff (e e' : E) m m' rho al b seed : session la bv ba u D e m -> session la bv' ba' v D e' m' ->
  mreal la u m D rho al -> mreal la v m' D rho al -> dom D true b u rho -> length seed = size (shape_of f) ->
  (b = true -> forall j, (j < length seed)%nat -> el seed j = 1) -> (forall o, In o (writes u) -> al o = 0) ->
  exists e2 m2 e2' m2' x, @autodiff N e (map Fin seed) m = Ok (e2, m2, x) /\ @autodiff N e' (map Fin seed) m' = Ok (e2', m2', x) /\
    forall o, In o (refs v) -> ~ In o (eqw f) -> m2' 0%nat o = m2 0%nat o /\ m2' 1%nat o = m2 1%nat o.
Proof.
  intros S S' M M' HD HL HB HZ. destruct (el_den rho) as [V1 [V2 V3]]. destruct el_facts as [W1 [S1 _]].
  destruct (grad_full la LA bv ba u D e m rho al b seed HK S M HD HL HB HZ) as [e2 [m2 [a2 [Q1 [_ [Q3 [_ [Q5 [_ [_ Q8]]]]]]]]]].
  destruct (grad_full la LA bv' ba' v D e' m' rho al b seed el_ok S' M' (V3 _ _ HD)) as [e2' [m2' [a2' [R1 [_ [R3 [_ [R5 [_ [_ R8]]]]]]]]]].
  { pose proof (sb_shape w sh y S1 f) as X. change (carrier N) with xr in *. now rewrite X. }
  { exact HB. }
  { intros o Ho. apply HZ. cbn. apply in_or_app. right. pose proof (sb_writes w sh y NY f) as X. change (carrier N) with xr in *. now rewrite X in Ho. }
  change (carrier N) with xr in *. rewrite V1 in R1. exists e2, m2, e2', m2', (map Fin (val D (u : expr xr unit) rho)).
  split; [exact Q1|]. split; [exact R1|]. intros o Ho Hn.
  assert (N1 : ~ In o (eqw (u : expr xr unit))).
  { cbn. rewrite !in_app_iff, (eqw_nil y NY). intros [[X|[]]|X]; [|auto]. now apply (el_nocell o Ho). }
  assert (N2 : ~ In o (eqw (v : expr xr unit))) by now rewrite (sb_eqw w sh y NY f).
  rewrite (R5 o Ho N2), (Q5 o (el_refs o Ho) N1), (R3 o Ho), (Q3 o (el_refs o Ho)). split; [reflexivity|]. do 2 f_equal.
  destruct (R8 o Ho N2) as [g [G1 ->]]. destruct (Q8 o (el_refs o Ho) N1) as [h [H1 ->]]. f_equal. apply dotp_ext. intros k.
  apply el_partials in H1. exact (partials_unique la v D rho o g h k G1 H1).
Qed.
End Thm.
