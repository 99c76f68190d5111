(** Size checks: what the constructors let through. *)
From Verif Require Import Base Num Expr Node Stat Machine Wf LBase LKind LSimDef LMem Session LUser LFind Usage.

Section Shape.
Context (N : num).
Notation T := (carrier N).
Notation U := (expr T unit).

(** ** Witnesses *)
Definition vc (n o : nat) : U := EVar (Sh Vec n 1) o.
Definition sc (o : nat) : U := EVar scl o.
Definition mt2 (n o : nat) : U := EVar (Sh Mat n n) o.
(** Log-densities of a 2-vector with a 3-vector parameter, and of a 2x2 matrix
    with a 1x1 scale. *)
Definition densities : list U :=
  map (fun q => EComp (KStat q) tt [vc 2 0; vc 3 2; sc 5]) [NormVVS; CauVVS; UniVVS] ++
  map (fun q => EComp (KStat q) tt [vc 2 0; sc 5; vc 3 2]) [NormVSV; CauVSV; UniVSV] ++
  map (fun q => EComp (KStat q) tt [vc 2 0; vc 3 2; vc 2 5]) [NormVVV; CauVVV; UniVVV] ++
  [EComp (KStat BerVV) tt [vc 2 0; vc 3 2];
   EComp (KStat Wish) tt [mt2 2 0; mt2 1 4; ECst scl [n1 N]]].
(** sum and prod over the range {x, y} of a 2-vector and a 3-vector *)
Definition ranges : list U :=
  map (fun k => EComp k tt [vc 2 0; vc 3 2]) [KSumI Vec; KProdI Vec].
(** sin(x), then exp(y) *)
Definition two : list U := [EComp (KUn USin) tt [vc 2 0]; EComp (KUn UExp) tt [vc 3 2]].
Definition two_for : U := EFor tt Vec two.
Definition two_glue : U := match two with [a; b] => EGlue tt a b | _ => sc 0 end.
(** x * c with an empty vector c *)
Definition empty_mul : U := EComp (KBin BMul) tt [sc 0; ECst (Sh Vec 0 1) []].

Lemma av8 (u : U) f : forallb (fun o => o <? 8) (refs u) = true -> drefs u = [] -> avail u (mem8 N f).
Proof.
  intros H D. split.
  - intros o Ho. rewrite forallb_forall in H. specialize (H o Ho). unfold mem8. rewrite H. split; discriminate.
  - rewrite D. intros o [].
Qed.
Definition passes_then_fails (u : U) (f : nat -> T) : Prop :=
  avail u (mem8 N f) /\ (exists c, bound 2 3 (any N) (any N) u (mem8 N f) = Ok c) /\
  bind_eval N u (mem8 N f) = Err UBshape.
Lemma dens_w f : Forall (fun u => passes_then_fails u f) densities.
Proof.
  unfold densities. cbn [map app].
  repeat (constructor; [split; [apply av8; reflexivity|split; [eexists; reflexivity|reflexivity]]|]). constructor.
Qed.
Lemma range_w f : Forall (fun u => passes_then_fails u f) ranges.
Proof.
  unfold ranges. cbn [map app].
  repeat (constructor; [split; [apply av8; reflexivity|split; [eexists; reflexivity|reflexivity]]|]). constructor.
Qed.
Lemma empty_w f : passes_then_fails empty_mul f.
Proof. split; [apply av8; reflexivity|split; [eexists; reflexivity|reflexivity]]. Qed.
Lemma for_w f : passes_then_fails two_for f /\
  exists e m, bind_eval N two_glue (mem8 N f) = Ok (e, m, map (fun i => nexp N (f i)) [2; 3; 4]).
Proof.
  split; [split; [apply av8; reflexivity|split; [eexists; reflexivity|reflexivity]]|].
  eexists _, _. reflexivity.
Qed.

(** ** What is checked *)
Lemma stat_checked q ss : skchecked q = true -> forallb shape_ok ss = true -> kassert (KStat q) ss = true ->
  stat_shape_ok q ss = true.
Proof.
  intros HC HO HK. destruct q; try discriminate HC; cbn [kassert] in HK;
    try (unfold kshape_ok in HK; rewrite HO in HK; exact HK);
    rewrite HO in HK; cbn [andb] in HK; unfold kinds in HK;
    destruct ss as [|a [|b [|c [|d ss]]]]; cbn [map sks_eqb stat_kinds] in HK; rewrite ?andb_false_r in HK; try discriminate HK;
    rewrite ?andb_true_iff in HK; cbn [forallb] in HO; rewrite ?andb_true_iff in HO;
    unfold stat_shape_ok, nth_sh, is_vecn, is_scl; cbn [nth];
    repeat match goal with H : _ /\ _ |- _ => destruct H end;
    repeat match goal with H : sk_eqb _ _ = true |- _ => apply sk_eqb_eq in H end;
    repeat match goal with H : kind ?a = _ |- _ => destruct a; cbn in H; subst end; cbn; rewrite ?andb_true_r; auto;
    cbn in *; repeat match goal with H : (_ =? 1) = true |- _ => apply Nat.eqb_eq in H; subst end;
    apply shape_eqb_eq; reflexivity.
Qed.
Lemma scl_range ss : forallb shape_ok ss = true -> forallb (fun b => sk_eqb (kind b) Scl) ss = true -> forall b, In b ss -> b = scl.
Proof.
  intros H1 H2 b Hb. rewrite forallb_forall in H1, H2. specialize (H1 b Hb). specialize (H2 b Hb).
  apply sk_eqb_eq in H2. destruct b as [k r c]. cbn in *. subst k. cbn in H1. apply andb_true_iff in H1. destruct H1 as [A B].
  apply Nat.eqb_eq in A, B. subst. reflexivity.
Qed.
Lemma scl_same ss : forallb shape_ok ss = true -> forallb (fun b => sk_eqb (kind b) Scl) ss = true -> same_shapes Scl ss = true.
Proof.
  intros H1 H2. pose proof (scl_range ss H1 H2) as H. destruct ss as [|a l]; [reflexivity|]. cbn [same_shapes].
  apply andb_true_iff. split.
  - cbn in H2. now apply andb_true_iff in H2.
  - apply forallb_forall. intros b Hb. apply shape_eqb_eq. rewrite (H b Hb), (H a (or_introl eq_refl)). reflexivity.
Qed.
Lemma checked_kind k ss : kchecked k = true -> knonempty k ss = true -> forallb shape_ok ss = true ->
  kassert k ss = true -> kshape_ok k ss = true.
Proof.
  intros HC HN HO HK. destruct k; try exact HK; cbn [kchecked] in HC.
  - destruct ss as [|a [|c [|]]]; cbn [kassert] in HK; try (unfold kshape_ok in HK; rewrite andb_false_r in HK; discriminate HK). unfold kshape_ok. rewrite HO. cbn [andb].
    apply andb_true_iff in HK. destruct HK as [_ HK]. cbn [knonempty] in HN.
    destruct (is_scl a || is_scl c); [exact HN|exact HK].
  - apply sk_eqb_eq in HC. subst. unfold kassert in HK. rewrite HO in HK. unfold kshape_ok. rewrite HO. cbn [andb] in *.
    apply scl_same in HK; auto.
  - apply sk_eqb_eq in HC. subst. unfold kassert in HK. rewrite HO in HK. unfold kshape_ok. rewrite HO. cbn [andb] in *.
    apply scl_same in HK; auto.
  - unfold kshape_ok. rewrite HO. cbn [andb]. pose proof (stat_checked s ss HC HO HK) as Q. now destruct ss.
Qed.

Lemma last_in {X} (l : list X) b d : In (last (b :: l) d) (b :: l).
Proof. revert b. induction l as [|c l IH]; intros b; [left; reflexivity|right; apply IH]. Qed.
Lemma mks_shapes (es : list U) m (LL : la_len N) : forall es', mks es m = Ok es' -> map shape_of es' = map shape_of es.
Proof.
  induction es as [|y l IH]; cbn; intros es' HM; [inversion HM; reflexivity|].
  apply bindR_ok in HM. destruct HM as [y' [H1 HM]]. apply bindR_ok in HM. destruct HM as [l' [H2 HM]]. inversion HM; subst.
  cbn. rewrite (IH l' H2). f_equal. destruct (mk_inv LL y m y' H1) as [<- _]. symmetry. apply shape_er.
Qed.
Lemma mk_shape_ok (LL : la_len N) (u : U) m e : mk u m = Ok e -> shape_of e = shape_of u.
Proof. intros H. destruct (mk_inv LL u m e H) as [<- _]. symmetry. apply shape_er. Qed.
Lemma mks_consts (es : list U) m (LL : la_len N) : forall es', mks es m = Ok es' -> existsb is_const es' = existsb is_const es.
Proof.
  induction es as [|y l IH]; cbn; intros es' HM; [inversion HM; reflexivity|].
  apply bindR_ok in HM. destruct HM as [y' [H1 HM]]. apply bindR_ok in HM. destruct HM as [l' [H2 HM]]. inversion HM; subst.
  cbn. rewrite (IH l' H2). f_equal. destruct (mk_inv LL y m y' H1) as [<- _]. symmetry. apply const_er.
Qed.
Lemma wfs_shapes (es : list U) : forallb wfs es = true -> forallb shape_ok (map shape_of es) = true.
Proof.
  intros H. rewrite forallb_map. apply forallb_forall. intros y Hy. rewrite forallb_forall in H.
  rewrite <- (shape_of_amap (fun _ => ann0 N) y). apply wfs_shape. rewrite wfs_amap. auto.
Qed.
Lemma build_wfs (LL : la_len N) (u : U) m : forall e, mk u m = Ok e -> checked u = true -> usage u = true -> wfs u = true.
Proof.
  assert (LST : forall es : list U, Forall (fun u => forall e, mk u m = Ok e -> checked u = true -> usage u = true -> wfs u = true) es ->
     forall es', mks es m = Ok es' -> forallb checked es = true -> forallb usage es = true -> forallb wfs es = true).
  { induction 1 as [|y l HY H IH]; intros es' HM HC HU; [reflexivity|]. cbn in *.
    apply bindR_ok in HM. destruct HM as [y' [H1 HM]]. apply bindR_ok in HM. destruct HM as [l' [H2 HM]].
    apply andb_true_iff in HC. apply andb_true_iff in HU. destruct HC, HU. rewrite (HY y' H1), (IH l' H2); auto. }
  induction u using expr_ind'; intros e HM HC HU.
  - cbn in *. now destruct (shape_ok sh).
  - cbn in *. now destruct (_ && _).
  - cbn in *. now destruct (shape_ok sh).
  - cbn [mk] in HM. apply bindR_ok in HM. destruct HM as [es' [H1 HM]].
    change (mks es m = Ok es') in H1. cbn [checked usage] in HC, HU. apply andb_true_iff in HC. rewrite !andb_true_iff in HU.
    destruct HC as [C1 C2], HU as [[[U1 U2] U3] U4].
    assert (W := LST es H es' H1 C2 U1). cbn [wfs].
    rewrite (mks_shapes es m LL es' H1) in HM. destruct (kassert k (map shape_of es)) eqn:KA; [|discriminate].
    rewrite W, U2, U4, (checked_kind k _ C1 U3 (wfs_shapes es W) KA). reflexivity.
  - cbn [mk] in HM. apply bindR_ok in HM. destruct HM as [e' [H1 HM]]. cbn [checked usage] in HC, HU.
    apply andb_true_iff in HU. destruct HU as [U1 U2].
    rewrite (mk_shape_ok LL u m e' H1) in HM. destruct (_ && _) eqn:Q; [|discriminate]. rewrite !andb_true_iff in Q.
    cbn [wfs]. rewrite (IHu e' H1 HC U1), U2. destruct Q as [[-> ->] _]. reflexivity.
  - cbn [mk] in HM. apply bindR_ok in HM. destruct HM as [e' [H1 HM]]. cbn [checked usage] in HC, HU.
    apply andb_true_iff in HU. destruct HU as [U1 U2].
    rewrite (mk_shape_ok LL u m e' H1) in HM. destruct (_ && _) eqn:Q; [|discriminate]. rewrite !andb_true_iff in Q.
    cbn [wfs]. rewrite (IHu e' H1 HC U1), U2. destruct Q as [-> ->]. reflexivity.
  - cbn [mk] in HM. apply bindR_ok in HM. destruct HM as [e1' [H1 HM]]. apply bindR_ok in HM. destruct HM as [e2' [H2 HM]].
    cbn [checked usage] in HC, HU. apply andb_true_iff in HC. rewrite !andb_true_iff in HU. destruct HC as [C1 C2], HU as [[U1 U2] U3].
    assert (IC : is_const e2' = is_const u2) by (destruct (mk_inv LL u2 m e2' H2) as [<- _]; symmetry; apply const_er).
    rewrite IC in HM. destruct (is_const u2) eqn:Q; [discriminate|].
    cbn [wfs]. rewrite (IHu1 _ H1 C1 U1), (IHu2 _ H2 C2 U2), U3, Q. reflexivity.
  - cbn [mk] in HM. apply bindR_ok in HM. destruct HM as [es' [H1 HM]].
    change (mks es m = Ok es') in H1. cbn [checked usage] in HC, HU. rewrite !andb_true_iff in HC. rewrite !andb_true_iff in HU.
    destruct HC as [C1 C2], HU as [U1 U2]. apply sk_eqb_eq in C1. subst s.
    assert (W := LST es H es' H1 C2 U1). rewrite (mks_shapes es m LL es' H1), (mks_consts es m LL es' H1) in HM.
    destruct (_ && _) eqn:Q; [|discriminate]. apply andb_true_iff in Q. destruct Q as [Q1 Q2].
    cbn [wfs]. rewrite W, Q2. unfold for_shapes. rewrite Q1. pose proof (scl_range _ (wfs_shapes es W) Q1) as SR.
    destruct es as [|y l]; [discriminate U2|].
    assert (SL : last (map shape_of (y :: l)) (shape_of y) = scl).
    { apply SR. apply last_in. }
    cbn [map] in *. rewrite SL, (SR (shape_of y) (or_introl eq_refl)). cbn [andb]. rewrite U2.
    assert (shape_eqb scl scl = true) as -> by reflexivity. reflexivity.
  - cbn [mk] in HM. apply bindR_ok in HM. destruct HM as [e1' [H1 HM]]. apply bindR_ok in HM. destruct HM as [e2' [H2 HM]].
    apply bindR_ok in HM. destruct HM as [e3' [H3 HM]].
    cbn [checked usage] in HC, HU. rewrite !andb_true_iff in HC. rewrite !andb_true_iff in HU. destruct HC as [[C1 C2] C3], HU as [[[U1 U2] U3] U4].
    rewrite (mk_shape_ok LL _ _ _ H1), (mk_shape_ok LL _ _ _ H2), (mk_shape_ok LL _ _ _ H3) in HM.
    destruct (_ && _) eqn:Q; [|discriminate]. apply andb_true_iff in Q. destruct Q as [Q1 Q2].
    cbn [wfs]. rewrite (IHu1 _ H1 C1 U1), (IHu2 _ H2 C2 U2), (IHu3 _ H3 C3 U3), Q1, Q2, U4. reflexivity.
Qed.
Lemma build_safe (LL : la_len N) bv ba (HF : fresh bv ba) uv ua (u : U) m e m0 ops :
  checked u = true -> usage u = true -> avail u m -> bound bv ba uv ua u m = Ok (e, m0) ->
  Forall (op_ok (size (shape_of u))) ops -> exists c, run ops (e, m0) = Ok c.
Proof.
  intros HC HU HA HB HO. pose proof HB as HB'. unfold bound in HB'. apply bindR_ok in HB'. destruct HB' as [e0 [HM _]].
  pose proof (build_wfs LL u m e0 HM HC HU) as HW.
  destruct (inv_bound LL bv ba HF u m uv ua e m0 HW HA HB) as [HI _].
  destruct (run_ok LL bv ba HF u _ _ ops HO e m0 HI) as [e' [m' [R _]]]. eauto.
Qed.
End Shape.
