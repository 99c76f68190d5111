(** The refinement theorems at the level of client code. *)
From Verif Require Import Base Num Expr Node Stat Machine Wf Pure LBase LKind LSimDef LMem LSimF LSimB LBind Session.

Section User.
Context {N : num}.
Notation T := (carrier N).
Notation E := (expr T (ann N)).
Notation U := (expr T unit).
Notation env := (nat -> T).
Hypothesis LL : la_len N.

(** ** Construction *)
Definition mks : list U -> mem T -> res (list E) :=
  fun es m => (fix go es := match es with
                | [] => Ok []
                | x :: t => x' <- mk x m ;; t' <- go t ;; Ok (x' :: t')
                end) es.
Definition er (e : E) : U := amap (fun _ => tt) e.

Lemma stat_init_pre q cs ss gs s : stat_shape_ok q ss = true ->
  stat_init N q cs ss gs = Ok s -> stpre N (KStat q) ss s.
Proof.
  intros Hs. destruct q; try (intros; exact I). cbn [stat_init stpre].
  destruct (wish_shapes _ Hs) as [n [E0 E1]]. rewrite E0, E1. cbn [rows].
  intros H. apply bindR_ok in H. destruct H as [s1 [H1 H2]].
  assert (P1 : fa s1 = false /\ (fb s1 = true -> length (mb s1) = n * n)).
  { destruct (cst cs 1); [|inversion H1; cbn; split; [reflexivity|discriminate]].
    apply bindR_ok in H1. destruct H1 as [v [_ H1]]. inversion H1. unfold wish_updv.
    destruct (llt_ok _ _ _ _); cbn; split; auto; try discriminate. intros _. apply LL. }
  destruct P1 as [P1 P2].
  destruct (cst cs 0).
  - apply bindR_ok in H2. destruct H2 as [v [_ H2]]. inversion H2. unfold wish_updx.
    destruct (fb s1) eqn:Ef; [|split; [congruence|intros Hf; congruence]].
    destruct (llt_ok _ _ _ _); cbn; (split; [intros HH; try discriminate HH|auto]).
    split; [apply LL|]. unfold mm. apply mkm_length.
  - inversion H2. subst. split; auto. congruence.
Qed.

Lemma mk_inv (e : U) m : forall e0, mk e m = Ok e0 -> er e0 = e /\ (wfs e = true -> stok e0).
Proof.
  assert (LST : forall es, Forall (fun e : U => forall e0, mk e m = Ok e0 -> er e0 = e /\ (wfs e = true -> stok e0)) es ->
     forall es0, mks es m = Ok es0 -> map er es0 = es /\ (forallb wfs es = true -> stoks es0)).
  { induction 1 as [|y l HY H IH]; intros es0 HM; cbn in HM.
    - inversion HM. cbn. auto.
    - apply bindR_ok in HM. destruct HM as [y' [H1 HM]].
      apply bindR_ok in HM. destruct HM as [l' [H2 HM]]. inversion HM; subst.
      destruct (HY _ H1). destruct (IH _ H2). cbn. split; [congruence|]. intros HW. apply andb_true_iff in HW. destruct HW. auto. }
  induction e using expr_ind'; intros e0 HM; cbn [mk] in HM.
  - destruct (shape_ok sh); inversion HM. cbn. auto.
  - destruct (_ && _); inversion HM. cbn. auto.
  - destruct (shape_ok sh); inversion HM. cbn. auto.
  - apply bindR_ok in HM. destruct HM as [es' [H1 HM]].
    destruct (LST es H es' H1) as [L1 L2].
    destruct (kassert k (map shape_of es')); [|discriminate].
    apply bindR_ok in HM. destruct HM as [s [H2 HM]]. inversion HM; subst. destruct a.
    split; [reflexivity|]. intros HW. cbn [wfs] in HW. rewrite !andb_true_iff in HW. destruct HW as [[[W1 KS] _] _].
    cbn [stok]. split; [|exact (L2 W1)]. cbn [set_st st].
    rewrite map_map in KS. rewrite (map_ext (fun x => shape_of (er x)) shape_of) in KS by (intros y; unfold er; apply shape_of_amap).
    unfold kshape_ok in KS. apply andb_true_iff in KS. destruct KS as [_ KS].
    destruct k; try exact I. eapply stat_init_pre; [|exact H2]. now destruct (map shape_of es').
  - apply bindR_ok in HM. destruct HM as [e' [H1 HM]]. destruct (IHe _ H1) as [<- S1].
    destruct (_ && _); inversion HM. destruct a. split; [reflexivity|]. intros HW. cbn [wfs] in HW. rewrite !andb_true_iff in HW. apply S1. tauto.
  - apply bindR_ok in HM. destruct HM as [e' [H1 HM]]. destruct (IHe _ H1) as [<- S1].
    destruct (_ && _); inversion HM. destruct a. split; [reflexivity|]. intros HW. cbn [wfs] in HW. rewrite !andb_true_iff in HW. apply S1. tauto.
  - apply bindR_ok in HM. destruct HM as [e1' [H1 HM]]. destruct (IHe1 _ H1) as [<- S1].
    apply bindR_ok in HM. destruct HM as [e2' [H2 HM]]. destruct (IHe2 _ H2) as [<- S2].
    destruct (is_const _); inversion HM. destruct a. split; [reflexivity|]. intros HW. cbn [wfs] in HW. rewrite !andb_true_iff in HW.
    cbn. split; [apply S1|apply S2]; tauto.
  - apply bindR_ok in HM. destruct HM as [es' [H1 HM]].
    destruct (LST es H es' H1) as [L1 L2].
    destruct (_ && _); inversion HM; subst. destruct a. split; [reflexivity|]. intros HW. cbn [wfs] in HW. rewrite !andb_true_iff in HW. apply L2. tauto.
  - apply bindR_ok in HM. destruct HM as [e1' [H1 HM]]. destruct (IHe1 _ H1) as [<- S1].
    apply bindR_ok in HM. destruct HM as [e2' [H2 HM]]. destruct (IHe2 _ H2) as [<- S2].
    apply bindR_ok in HM. destruct HM as [e3' [H3 HM]]. destruct (IHe3 _ H3) as [<- S3].
    destruct (_ && _); inversion HM. destruct a. split; [reflexivity|]. intros HW. cbn [wfs] in HW. rewrite !andb_true_iff in HW.
    cbn. repeat split; [apply S1|apply S2|apply S3]; tauto.
Qed.

Lemma getref_leaf (u : U) (x : E) m : er x = u -> leaf u = true -> avail u m ->
  exists l, rdref m (getref x) = Ok l /\ (wfs u = true -> length l = size (shape_of u)).
Proof.
  intros <- HL [A1 A2]. destruct x; try discriminate HL; cbn [er amap refs drefs shape_of wfs] in *; cbn [getref rdref load].
  - destruct (rdn_total m 0 o (size sh)) as [l [H1 H2]]; [|eauto].
    intros i Hi. apply (A1 (o + i)). unfold cells. apply in_seq. lia.
  - eexists. split; [reflexivity|]. intros HW. apply andb_true_iff in HW. now apply Nat.eqb_eq, HW.
  - destruct (rdn_total m 4 o (size sh)) as [l [H1 H2]]; [|eauto].
    intros i Hi. apply (A2 (o + i)). unfold cells. apply in_seq. lia.
Qed.

Lemma is_const_leaf (u : U) : is_const u = true -> leaf u = true.
Proof. now destruct u. Qed.
Lemma shape_er (e : E) : shape_of (er e) = shape_of e.
Proof. unfold er. now rewrite shape_of_amap. Qed.
Lemma const_er (e : E) : is_const (er e) = is_const e.
Proof. now destruct e. Qed.

Lemma minco_ok l : l <> [] -> exists x, minco N l = Ok x.
Proof. destruct l; [congruence|eexists; reflexivity]. Qed.
Lemma maxco_ok l : l <> [] -> exists x, maxco N l = Ok x.
Proof. destruct l; [congruence|eexists; reflexivity]. Qed.

Lemma meanco_ok l : l <> [] -> exists x, meanco N l = Ok x.
Proof. destruct l; [congruence|eexists; reflexivity]. Qed.

Lemma avail_app_l (u : U) (l : list U) m :
  (forall y, In y l -> avail y m) -> In u l -> avail u m.
Proof. auto. Qed.

Lemma stat_init_ok q (es' : list E) m :
  let us := map er es' in
  forallb wfs us = true -> (forall y, In y us -> avail y m) ->
  stat_shape_ok q (map shape_of es') = true -> kdim_ok (KStat q) (map shape_of es') = true ->
  match q, us with
      | UniVSV, [x; _; y] | UniVVS, [x; y; _] => negb (is_const x) || leaf y
      | NormVSS, x :: _ => negb (is_const x) || negb (rows (shape_of x) =? 0)
      | _, _ => true
  end = true ->
  exists s, stat_init N q (map is_const es') (map shape_of es') (map (fun x => rdref m (getref x)) es') = Ok s.
Proof.
  intros us HW HA HS HD HC.
  assert (G : forall x, In x es' -> leaf (er x) = true ->
     exists l, rdref m (getref x) = Ok l /\ length l = size (shape_of x)).
  { intros x Hx HL. destruct (getref_leaf (er x) x m eq_refl HL) as [l [H1 H2]].
    - apply HA. unfold us. now apply in_map.
    - exists l. split; [exact H1|]. rewrite <- shape_er. apply H2.
      rewrite forallb_forall in HW. apply HW. unfold us. now apply in_map. }
  assert (GC : forall x, In x es' -> is_const x = true ->
     exists l, rdref m (getref x) = Ok l /\ length l = size (shape_of x)).
  { intros x Hx HL. apply G; auto. apply is_const_leaf. now rewrite const_er. }
  assert (NE : forall x l, In x es' -> length l = size (shape_of x) -> rows (shape_of x) <> 0 ->
     is_vecn (rows (shape_of x)) (shape_of x) = true -> l <> @nil T).
  { intros x l _ HL HR HV ->. apply shape_eqb_eq in HV. rewrite HV in HL. unfold size in HL. cbn in HL. lia. }
  destruct q, es' as [|x [|y [|z [|? ?]]]]; try discriminate HS;
    cbn [map stat_init nth kdim_ok nth_sh] in *; unfold cst; cbn [nth];
    try (eexists; reflexivity).
  all: try (assert (VX : is_vecn (rows (shape_of x)) (shape_of x) = true)
             by (unfold stat_shape_ok in HS; cbn in HS; rewrite !andb_true_iff in HS; tauto);
            assert (RX : rows (shape_of x) <> 0)
             by (unfold nth_sh in HD; cbn in HD; intros E0; rewrite E0 in HD; discriminate HD);
            pose proof (fun l => NE x l ltac:(cbn; auto)) as NX).
  all: try (assert (FX := GC x ltac:(cbn; auto))); try (assert (FY := GC y ltac:(cbn; auto)));
       try (assert (FZ := GC z ltac:(cbn; auto))).
  all: subst us; cbn [map] in HC; rewrite ?const_er in HC.
  all: try (assert (LY := G y ltac:(cbn; auto))); try (assert (LZ := G z ltac:(cbn; auto))).
  all: repeat match goal with
       | H : is_const ?x = true -> _ |- _ => destruct (is_const x); [destruct (H eq_refl) as [? [? ?]]|]; clear H
       | H : rdref _ _ = Ok _ |- _ => rewrite H in *; clear H
       end; cbn [andb bindR negb orb] in *; try (eexists; reflexivity).
  all: cbn [bindR uni_updx].
  all: repeat match goal with
       | H : leaf (er ?y) = true, H1 : leaf (er ?y) = true -> _ |- _ => destruct (H1 H) as [? [-> ?]]; clear H1
       end; cbn [bindR uni_updx].
  all: repeat match goal with
       | |- context [minco N ?l] => destruct (minco_ok l) as [? ->]; [eapply NX; eauto|]
       | |- context [maxco N ?l] => destruct (maxco_ok l) as [? ->]; [eapply NX; eauto|]
       | HL : length ?l = size (shape_of ?x) |- context [meanco N ?l] =>
           destruct (meanco_ok l) as [? ->];
           [apply (NE x); [cbn; auto|exact HL| |unfold stat_shape_ok in HS; cbn in HS; rewrite !andb_true_iff in HS; tauto];
            rewrite shape_er in HC; intros E0; rewrite E0 in HC; discriminate HC|]
       end; cbn [bindR]; eauto.
Qed.

Lemma mk_ok (u : U) m : wfs u = true -> ctor_ok u = true -> avail u m -> exists e, mk u m = Ok e.
Proof.
  assert (LST : forall es, Forall (fun u : U => wfs u = true -> ctor_ok u = true -> avail u m -> exists e, mk u m = Ok e) es ->
     forallb wfs es = true -> forallb ctor_ok es = true -> (forall y, In y es -> avail y m) ->
     exists es', mks es m = Ok es').
  { induction 1 as [|y l HY H IH]; cbn; intros W1 W2 HA; [eauto|].
    apply andb_true_iff in W1, W2. destruct W1, W2.
    destruct HY as [y' E1]; auto. destruct IH as [l' E2]; auto.
    unfold mks in E2. rewrite E1. cbn. rewrite E2. cbn. eauto. }
  induction u using expr_ind'; intros HW HC HA.
  - cbn in *. rewrite HW. eauto.
  - cbn in *. rewrite HW. eauto.
  - cbn in *. rewrite HW. eauto.
  - cbn [wfs ctor_ok] in HW, HC. rewrite !andb_true_iff in HW. destruct HW as [[[W1 W2] W3] W4].
    apply andb_true_iff in HC. destruct HC as [C1 C2].
    assert (HAs : forall y, In y es -> avail y m).
    { intros y Hy. destruct HA as [A1 A2]. cbn in A1, A2. split.
      - intros o Ho. apply A1. apply in_flat_map; eauto.
      - intros o Ho. apply A2. apply in_flat_map; eauto. }
    destruct (LST es H W1 C1 HAs) as [es' E1].
    cbn [mk]. change (_ es) with (mks es m) at 1. rewrite E1. cbn [bindR].
    assert (X : map er es' = es).
    { clear - LL E1. revert es' E1. induction es as [|y l IH]; cbn; intros es' E1; [inversion E1; reflexivity|].
      apply bindR_ok in E1. destruct E1 as [y' [Q1 E1]]. apply bindR_ok in E1. destruct E1 as [l' [Q2 E1]].
      inversion E1. cbn. rewrite (proj1 (mk_inv _ _ _ Q1)). f_equal. apply IH, Q2. }
    assert (SS : map shape_of es' = map shape_of es).
    { rewrite <- X. rewrite map_map. apply map_ext. intros; now rewrite shape_er. }
    rewrite SS, (kshape_kassert _ _ W2).
    assert (exists s, match k with
       | KStat q => stat_init N q (map is_const es') (map shape_of es) (map (fun x => rdref m (getref x)) es')
       | _ => Ok (sst0 N) end = Ok s) as [s ->]; [|cbn; eauto].
    destruct k; try (eexists; reflexivity). rewrite <- SS.
    unfold kshape_ok in W2. apply andb_true_iff in W2. destruct W2 as [_ W2].
    apply stat_init_ok; rewrite ?X, ?SS; auto.
  - cbn [wfs ctor_ok] in HW, HC. rewrite !andb_true_iff in HW. destruct HW as [[[W1 W2] W3] W4].
    destruct IHu as [e1 E1]; auto.
    { destruct HA as [A1 A2]. cbn in A1, A2. split; auto. intros o' Ho. apply A1, in_or_app; auto. }
    cbn [mk]. rewrite E1. cbn [bindR]. destruct (mk_inv _ _ _ E1) as [<- _]. rewrite shape_er in W3. rewrite W2, W3.
    destruct e1; try discriminate W4; cbn; eauto.
  - cbn [wfs ctor_ok] in HW, HC. rewrite !andb_true_iff in HW. destruct HW as [[[W1 W2] W3] W4].
    destruct IHu as [e1 E1]; auto.
    { destruct HA as [A1 A2]. cbn in A1, A2. split; auto. intros o' Ho. apply A1, in_or_app; auto. }
    cbn [mk]. rewrite E1. cbn [bindR]. destruct (mk_inv _ _ _ E1) as [<- _]. rewrite shape_er in W3. rewrite W2, W3.
    cbn; eauto.
  - cbn [wfs ctor_ok] in HW, HC. rewrite !andb_true_iff in HW. destruct HW as [[[W1 W2] W3] W4].
    apply andb_true_iff in HC. destruct HC as [C1 C2].
    destruct HA as [A1 A2]. cbn in A1, A2.
    destruct IHu1 as [e1 E1]; auto. { split; intros; [apply A1|apply A2]; apply in_or_app; auto. }
    destruct IHu2 as [e2 E2]; auto. { split; intros; [apply A1|apply A2]; apply in_or_app; auto. }
    cbn [mk]. rewrite E1, E2. cbn [bindR]. destruct (mk_inv _ _ _ E2) as [<- _]. rewrite const_er in W4.
    apply negb_true_iff in W4. rewrite W4. eauto.
  - cbn [wfs ctor_ok] in HW, HC. rewrite !andb_true_iff in HW. destruct HW as [[[W1 W2] W3] W4].
    assert (HAs : forall y, In y es -> avail y m).
    { intros y Hy. destruct HA as [A1 A2]. cbn in A1, A2. split.
      - intros o Ho. apply A1. apply in_flat_map; eauto.
      - intros o Ho. apply A2. apply in_flat_map; eauto. }
    destruct (LST es H W1 HC HAs) as [es' E1].
    cbn [mk]. change (_ es) with (mks es m) at 1. rewrite E1. cbn [bindR].
    assert (X : map er es' = es).
    { clear - LL E1. revert es' E1. induction es as [|y l IH]; cbn; intros es' E1; [inversion E1; reflexivity|].
      apply bindR_ok in E1. destruct E1 as [y' [Q1 E1]]. apply bindR_ok in E1. destruct E1 as [l' [Q2 E1]].
      inversion E1. cbn. rewrite (proj1 (mk_inv _ _ _ Q1)). f_equal. apply IH, Q2. }
    assert (SS : map shape_of es' = map shape_of es).
    { rewrite <- X. rewrite map_map. apply map_ext. intros; now rewrite shape_er. }
    assert (SC : existsb is_const es' = existsb is_const es).
    { rewrite <- X. clear. induction es'; cbn; [reflexivity|]. now rewrite const_er, IHes'. }
    unfold for_shapes in W2. apply andb_true_iff in W2. destruct W2 as [W2 _]. rewrite SS, W2, SC, W3. cbn. eauto.
  - cbn [wfs ctor_ok] in HW, HC. rewrite !andb_true_iff in HW. destruct HW as [[[[[W1 W2] W3] W4] W5] W6].
    rewrite !andb_true_iff in HC. destruct HC as [[C1 C2] C3].
    destruct HA as [A1 A2]. cbn in A1, A2.
    destruct IHu1 as [e1 E1]; auto. { split; intros; [apply A1|apply A2]; rewrite !in_app_iff; auto. }
    destruct IHu2 as [e2 E2]; auto. { split; intros; [apply A1|apply A2]; rewrite !in_app_iff; auto. }
    destruct IHu3 as [e3 E3]; auto. { split; intros; [apply A1|apply A2]; rewrite !in_app_iff; auto. }
    cbn [mk]. rewrite E1, E2, E3. cbn [bindR].
    destruct (mk_inv _ _ _ E1) as [<- _]. destruct (mk_inv _ _ _ E2) as [<- _]. destruct (mk_inv _ _ _ E3) as [<- _].
    rewrite shape_er in W4. rewrite !shape_er in W6. rewrite W4, W6. cbn. eauto.
Qed.


(** ** State of a bound expression between calls *)
Variables bv ba : nat.
Hypothesis HF : fresh bv ba.

(** [e] is bound in [m], to caches of sizes [cv],[ca], and was written [u]. *)
Definition inv (u : U) (cv ca : nat) (e : E) (m : mem T) : Prop :=
  er e = u /\ wfs u = true /\ stok e /\ lay bv ba None e 0 0 cv ca /\
  alc m bv 0 cv /\ alc m ba 0 ca /\ avail u m.

Lemma inv_keeps u cv ca e m m' : inv u cv ca e m ->
  (forall b o, m b o <> None -> m' b o <> None) -> inv u cv ca e m'.
Proof.
  intros [H1 [H2 [H3 [H4 [H5 [H6 [H7 H8]]]]]]] HK.
  split; [exact H1|]. split; [exact H2|]. split; [exact H3|]. split; [exact H4|].
  split; [intros o Ho; apply HK; auto|]. split; [intros o Ho; apply HK; auto|].
  split; [intros o Ho; split; apply HK; apply (H7 o Ho)|intros o Ho; apply HK; auto].
Qed.

Lemma inv_bound u m uv ua e m' : wfs u = true -> avail u m ->
  bound bv ba uv ua u m = Ok (e, m') ->
  inv u (fst (csize e)) (snd (csize e)) e m' /\
  (forall b o, b <> bv -> b <> ba -> m' b o = m b o) /\
  (forall o, m' bv o <> None <-> o < fst (csize e)) /\
  (forall o, m' ba o <> None <-> o < snd (csize e)).
Proof.
  intros HW HA. unfold bound. intros HB. apply bindR_ok in HB. destruct HB as [e0 [HM HB]].
  destruct (mk_inv u m e0 HM) as [HE HS]. specialize (HS HW).
  assert (HW0 : wfs e0 = true).
  { rewrite <- HE in HW. unfold er in HW. now rewrite wfs_amap in HW. }
  unfold ad_bind in HB. pose proof (BD_all bv ba e0 0 0 HW0) as B.
  destruct (bindc bv ba e0 0 0) as [[e1 v1] a1]. destruct B as [-> [-> [L1 S1]]].
  inversion HB; subst e m'. clear HB. destruct HF as [[F1 [F2 F3]] [F4 [F5 [F6 F7]]]].
  assert (CS : csize e1 = csize e0).
  { clear - S1. revert e1 S1. induction e0 using expr_ind'; intros e1 HE; destruct e1; try discriminate HE;
      assert (HE' := HE); unfold sk in HE; cbn [amap] in HE; inversion HE; subst; cbn [csize]; auto.
    - rewrite (sk_single _ _ HE'). f_equal. f_equal.
      match goal with HH : map _ es0 = map _ es |- _ => rename HH into HM end.
      clear - H HM. revert es0 HM. induction H; intros [|y' es']; try discriminate; cbn; auto.
      intros HM. inversion HM. f_equal; [eapply H; eauto|eapply IHForall; eauto].
    - rewrite (IHe0 e1) by assumption. rewrite (sk_single e0 e1) by assumption. reflexivity.
    - rewrite (IHe0 e1) by assumption. reflexivity.
    - rewrite (IHe0_1 e1_1), (IHe0_2 e1_2) by assumption. reflexivity.
    - f_equal.
      match goal with HH : map _ es0 = map _ es |- _ => rename HH into HM end.
      clear - H HM. revert es0 HM. induction H; intros [|y' es']; try discriminate; cbn; auto.
      intros HM. inversion HM. f_equal; [eapply H; eauto|eapply IHForall; eauto].
    - rewrite (IHe0_1 e1_1), (IHe0_2 e1_2), (IHe0_3 e1_3) by assumption. reflexivity. }
  rewrite CS.
  assert (HER : er e1 = u).
  { rewrite <- HE. unfold er, sk in *. clear - S1. revert e1 S1.
    assert (X : forall e : E, amap (fun _ => tt) e = amap (fun _ : sst N => tt) (amap st e)).
    { clear. induction e using expr_ind'; cbn [amap]; try congruence; f_equal; try assumption.
      - rewrite map_map. now apply map_ext_Forall.
      - rewrite map_map. now apply map_ext_Forall. }
    intros e1 S1. now rewrite (X e1), (X e0), S1. }
  assert (MEM : forall b o, alloc (alloc m bv (fst (csize e0)) uv) ba (snd (csize e0)) ua b o =
     if b =? ba then (if o <? snd (csize e0) then Some (ua o) else None)
     else if b =? bv then (if o <? fst (csize e0) then Some (uv o) else None) else m b o) by reflexivity.
  assert (NB : forall b o, b <> bv -> b <> ba ->
     alloc (alloc m bv (fst (csize e0)) uv) ba (snd (csize e0)) ua b o = m b o).
  { intros b o N1 N2. rewrite MEM. apply Nat.eqb_neq in N1. apply Nat.eqb_neq in N2. now rewrite N1, N2. }
  assert (AB : forall o, alloc (alloc m bv (fst (csize e0)) uv) ba (snd (csize e0)) ua bv o <> None <->
     o < fst (csize e0)).
  { intros o. rewrite MEM. rewrite Nat.eqb_refl. replace (bv =? ba) with false by (symmetry; apply Nat.eqb_neq; auto).
    destruct (Nat.ltb_spec o (fst (csize e0))); split; intros; auto; try congruence; lia. }
  assert (AA : forall o, alloc (alloc m bv (fst (csize e0)) uv) ba (snd (csize e0)) ua ba o <> None <->
     o < snd (csize e0)).
  { intros o. rewrite MEM. rewrite Nat.eqb_refl.
    destruct (Nat.ltb_spec o (snd (csize e0))); split; intros; auto; try congruence; lia. }
  split; [|auto]. split; [exact HER|]. split; [exact HW|].
  split; [eapply sk_stok; eauto|]. split; [exact L1|].
  split; [intros o Ho; apply AB; lia|]. split; [intros o Ho; apply AA; lia|].
  destruct HA as [A1 A2]. split.
  - intros o Ho. rewrite !NB by auto. auto.
  - intros o Ho. rewrite NB by auto. auto.
Qed.

Theorem bound_ok (u : U) m (uv ua : env) : wfs u = true -> ctor_ok u = true -> avail u m ->
  exists e m', bound bv ba uv ua u m = Ok (e, m').
Proof.
  intros HW HC HA. destruct (mk_ok u m HW HC HA) as [e E1]. unfold bound. rewrite E1. cbn [bindR].
  destruct (ad_bind bv ba uv ua e m) as [e' m']. eauto.
Qed.

(** ** Layout *)
Lemma cover_app b l l' : cover b (l ++ l') = cover b l ++ cover b l'.
Proof. unfold cover. apply flat_map_app. Qed.
Lemma seq_split a b c : a <= b <= c -> seq a (c - a) = seq a (b - a) ++ seq b (c - b).
Proof. intros H. replace (c - a) with ((b - a) + (c - b)) by lia. rewrite seq_app. do 2 f_equal. lia. Qed.
Lemma seq_glue a b n : a <= b -> seq a (b - a) ++ seq b n = seq a (b + n - a).
Proof. intros H. rewrite (seq_split a b (b + n)) by lia. do 2 f_equal. lia. Qed.
Lemma cover_one b o n : cover b [(Ptr b o, n)] = seq o n.
Proof. unfold cover. cbn. rewrite Nat.eqb_refl. apply app_nil_r. Qed.
Lemma cover_other b b' o n : b' <> b -> cover b [(Ptr b' o, n)] = [].
Proof. intros H. unfold cover. cbn. apply Nat.eqb_neq in H. now rewrite H. Qed.

Lemma lay_cover (e : E) : forall x v a v' a', lay bv ba x e v a v' a' ->
  cover bv (vviews e) = seq v (v' - v) /\ cover ba (aviews e) = seq a (a' - a).
Proof.
  destruct HF as [[F1 [F2 F3]] [F4 [F5 [F6 F7]]]].
  assert (LST : forall es, Forall (fun e : E => forall x v a v' a', lay bv ba x e v a v' a' ->
      cover bv (vviews e) = seq v (v' - v) /\ cover ba (aviews e) = seq a (a' - a)) es ->
      forall v' a' v a, lays bv ba v' a' es v a ->
      v <= v' /\ a <= a' /\ cover bv (flat_map vviews es) = seq v (v' - v) /\
      cover ba (flat_map aviews es) = seq a (a' - a)).
  { induction 1 as [|y l HY H IH]; intros v' a' v a HL; cbn in HL.
    - destruct HL as [-> ->]. rewrite !Nat.sub_diag. cbn. auto with arith.
    - destruct HL as [v2 [a2 [L1 L2]]]. pose proof (lay_le _ bv ba _ _ _ _ _ _ L1) as [M1 M2].
      destruct (HY _ _ _ _ _ L1) as [Q1 Q2]. destruct (IH _ _ _ _ L2) as [B1 [B2 [B3 B4]]].
      split; [lia|]. split; [lia|]. cbn [flat_map]. rewrite !cover_app, Q1, Q2, B3, B4.
      split; symmetry; apply seq_split; lia. }
  induction e using expr_ind'; intros x v a1 v' a1' HL.
  - cbn in HL. destruct HL as [-> ->]. rewrite !Nat.sub_diag. cbn. auto.
  - cbn in HL. destruct HL as [-> ->]. rewrite !Nat.sub_diag. cbn. auto.
  - cbn in HL. destruct HL as [-> ->]. rewrite !Nat.sub_diag. cbn. auto.
  - rewrite lay_comp in HL. cbv zeta in HL. destruct HL as [v1 [a2 [L1 [X1 X2]]]].
    destruct (LST es H _ _ _ _ L1) as [B1 [B2 [B3 B4]]].
    cbn [vviews aviews shape_of]. rewrite !(cover_app _ (flat_map _ _)), B3, B4. destruct x as [c|].
    + destruct X2 as [Y1 [Y2 [Y3 [-> ->]]]]. rewrite Y1, Y2, Y3. rewrite cover_other by auto.
      split; [apply app_nil_r|]. destruct (kadj k); cbn [app].
      * rewrite cover_other by auto. apply app_nil_r.
      * cbn. apply app_nil_r.
    + destruct X2 as [Y1 [Y2 [-> ->]]]. rewrite Y1, cover_one.
      split; [apply seq_glue; lia|].
      assert (KD : kaux k = true -> kadj k = false) by (destruct k; cbn; congruence).
      destruct (kaux k) eqn:KA.
      * rewrite KD, X1 by auto. cbn [app]. rewrite cover_one. apply seq_glue; lia.
      * destruct (kadj k); cbn [app].
        -- rewrite Y2 by auto. rewrite cover_one. apply seq_glue; lia.
        -- cbn. apply app_nil_r.
  - cbn [lay vviews aviews] in HL |- *. destruct HL as [HL _]. eauto.
  - cbn [lay vviews aviews] in HL |- *. destruct HL as [v1 [a2 [L1 [_ [-> [-> [-> ->]]]]]]].
    destruct (IHe _ _ _ _ _ L1) as [Q1 Q2]. pose proof (lay_le _ bv ba _ _ _ _ _ _ L1) as [M1 M2].
    rewrite !cover_app, !cover_one, Q1, Q2.
    split; apply seq_glue; lia.
  - cbn [lay vviews aviews] in HL |- *. destruct HL as [v1 [a2 [L1 [L2 _]]]].
    destruct (IHe1 _ _ _ _ _ L1) as [Q1 Q2]. pose proof (lay_le _ bv ba _ _ _ _ _ _ L1) as [M1 M2].
    destruct (IHe2 _ _ _ _ _ L2) as [Q3 Q4]. pose proof (lay_le _ bv ba _ _ _ _ _ _ L2) as [M3 M4].
    rewrite !cover_app, Q1, Q2, Q3, Q4. split; symmetry; apply seq_split; lia.
  - rewrite lay_for in HL. destruct HL as [HL _]. destruct (LST es H _ _ _ _ HL) as [_ [_ B]]. exact B.
  - cbn [lay vviews aviews] in HL |- *. destruct HL as [v1 [a2 [v2 [a3 [L1 [L2 L3]]]]]].
    destruct (IHe1 _ _ _ _ _ L1) as [Q1 Q2]. pose proof (lay_le _ bv ba _ _ _ _ _ _ L1) as [M1 M2].
    destruct (IHe2 _ _ _ _ _ L2) as [Q3 Q4]. pose proof (lay_le _ bv ba _ _ _ _ _ _ L2) as [M3 M4].
    destruct (IHe3 _ _ _ _ _ L3) as [Q5 Q6]. pose proof (lay_le _ bv ba _ _ _ _ _ _ L3) as [M5 M6].
    rewrite !cover_app, Q1, Q2, Q3, Q4, Q5, Q6.
    rewrite (seq_split v v1 v'), (seq_split v1 v2 v'), (seq_split a1 a2 a1'), (seq_split a2 a3 a1') by lia. auto.
Qed.

Definition renv (m : mem T) (b : nat) : env := fun o => match m b o with Some x => x | None => n0 N end.
Definition vset (u : U) : nat -> Prop := fun o => In o (refs u).
Definition wset (u : U) : nat -> Prop := fun o => In o (drefs u).

Lemma MR_renv u m : avail u m -> MR (vset u) (wset u) (renv m 4) m (renv m 0) (renv m 1).
Proof.
  intros [A1 A2]. split.
  - intros o Ho. destruct (A1 o Ho) as [Q1 Q2]. unfold renv.
    destruct (m 0 o), (m 1 o); congruence || auto.
  - intros o Ho. specialize (A2 o Ho). unfold renv. destruct (m 4 o); congruence || auto.
Qed.

Lemma inv_pre u cv ca e m : inv u cv ca e m -> pre (V := vset u) (W := wset u) None e.
Proof.
  intros [H1 [H2 [H3 _]]]. subst u. unfold er in *. rewrite wfs_amap in H2.
  destruct HF as [Fb Fa]. apply (pre_intro (D := fun _ => n0 N) Fb Fa); auto.
  - intros o Ho. unfold vset. now rewrite refs_amap.
  - intros o Ho. unfold wset. now rewrite drefs_amap.
Qed.

Lemma inv_preB u cv ca e m : inv u cv ca e m -> preB (V := vset u) None e.
Proof.
  intros [H1 [H2 [H3 _]]]. subst u. unfold er in *. rewrite wfs_amap in H2.
  destruct HF as [Fb Fa]. apply (preB_intro (W := fun _ => True) (D := fun _ => n0 N) Fb Fa); auto.
  intros o Ho. unfold vset. now rewrite refs_amap.
Qed.

Lemma er_strip (e e' : E) : strip e' = strip e -> er e' = er e.
Proof.
  assert (X : forall e : E, er e = amap (fun _ => tt) (strip e)).
  { clear. unfold er, strip. induction e using expr_ind'; cbn [amap]; try congruence; f_equal; try assumption.
      - rewrite map_map. now apply map_ext_Forall.
      - rewrite map_map. now apply map_ext_Forall. }
  intros H. rewrite (X e'), (X e), H. reflexivity.
Qed.

Definition EP (u : U) (cv : nat) : nat -> nat -> Prop := fun b o =>
  (b = bv /\ o < cv) \/ (b = 0 /\ In o (writes u)).
Definition DP (u : U) (cv ca : nat) : nat -> nat -> Prop := fun b o =>
  (b = bv /\ o < cv) \/ (b = ba /\ o < ca) \/ (b = 0 /\ In o (writes u)) \/ (b = 1 /\ In o (refs u)).

(** evaluate never fails on a bound expression; its effect is that of [pf]. *)
Theorem evaluate_ok u cv ca e m D r al : inv u cv ca e m ->
  MR (vset u) (wset u) D m r al ->
  exists e' m', let '(t, r', p) := pf D None e r in
    evaluate e m = Ok (e', m', rdp r' p) /\
    inv u cv ca e' m' /\ MR (vset u) (wset u) D m' r' al /\ fr (EP u cv) m m' /\
    K bv ba (vset u) None e' t m' 0 0 cv ca /\ length (rdp r' p) = size (shape_of u).
Proof.
  intros HI HM. pose proof HI as [H1 [H2 [H3 [H4 [H5 [H6 H7]]]]]]. destruct HF as [Fb Fa].
  destruct (FS_all Fb Fa LL e None 0 0 cv ca m r al H4 (inv_pre _ _ _ _ _ HI) HM H5) as [e' [m' [q [E1 Q]]]].
  exists e', m'. unfold evaluate. rewrite E1. cbn [bindR].
  destruct (pf D None e r) as [[t r'] p].
  destruct Q as [Q1 [Q2 [Q3 [Q4 [Q5 [Q6 Q7]]]]]].
  destruct (refR_read _ _ _ _ _ _ _ _ Q3 Q4) as [E2 L2]. rewrite E2. cbn [bindR].
  assert (SU : shape_of u = shape_of e) by (subst u; unfold er; now rewrite shape_of_amap).
  assert (WU : writes u = writes e) by (subst u; unfold er; now rewrite writes_amap).
  split; [reflexivity|]. split; [|split; [exact Q3|split; [|split; [exact Q5|congruence]]]].
  - assert (LE : lay bv ba None e' 0 0 cv ca) by (apply lay_strip; rewrite Q1; now apply lay_strip).
    eapply inv_keeps; [|apply Q7]. split; [rewrite <- H1; now apply er_strip|].
    split; [exact H2|]. split; [exact Q2|]. split; [exact LE|]. auto.
  - eapply fr_weak; [|exact Q7]. unfold FP, EP. cbn [xin]. rewrite WU. intros b o. intuition lia.
Qed.

Theorem autodiff_ok u cv ca e m D r al seed : inv u cv ca e m ->
  MR (vset u) (wset u) D m r al -> length seed = size (shape_of u) ->
  exists e' m', let '(t, r1, p) := pf D None e r in
    let '(_, r2, al2) := pb None e' t seed r1 al in
    autodiff e seed m = Ok (e', m', rdp r1 p) /\
    inv u cv ca e' m' /\ MR (vset u) (wset u) D m' r2 al2 /\ fr (DP u cv ca) m m' /\
    strip e' = strip e.
Proof.
  intros HI HM HL. pose proof HI as [H1 [H2 [H3 [H4 [H5 [H6 H7]]]]]]. destruct HF as [Fb Fa].
  destruct (FS_all Fb Fa LL e None 0 0 cv ca m r al H4 (inv_pre _ _ _ _ _ HI) HM H5) as [e' [m' [q [E1 Q]]]].
  unfold autodiff, evaluate. rewrite E1. cbn [bindR].
  destruct (pf D None e r) as [[t r'] p].
  destruct Q as [Q1 [Q2 [Q3 [Q4 [Q5 [Q6 Q7]]]]]].
  destruct (refR_read _ _ _ _ _ _ _ _ Q3 Q4) as [E2 L2]. rewrite E2. cbn [bindR].
  assert (ER : er e' = u) by (rewrite <- H1; now apply er_strip).
  assert (SU : shape_of u = shape_of e') by (rewrite <- ER; unfold er; now rewrite shape_of_amap).
  assert (WU : writes u = writes e') by (rewrite <- ER; unfold er; now rewrite writes_amap).
  assert (RU : refs u = refs e') by (rewrite <- ER; unfold er; now rewrite refs_amap).
  assert (WU2 : writes u = writes e) by (subst u; unfold er; now rewrite writes_amap).
  assert (I1 : inv u cv ca e' m').
  { assert (LE : lay bv ba None e' 0 0 cv ca) by (apply lay_strip; rewrite Q1; now apply lay_strip).
    eapply inv_keeps; [|apply Q7]. split; [exact ER|].
    split; [exact H2|]. split; [exact Q2|]. split; [exact LE|]. auto. }
  destruct (BS_all Fb Fa LL e' None t seed 0 0 cv ca m' r' al Q5 (inv_preB _ _ _ _ _ I1) Q3)
    as [m2 [E3 QQ]]; [apply I1|congruence|].
  exists e', m2. rewrite E3. cbn [bindR].
  destruct (pb None e' t seed r' al) as [[q2 r2] al2]. destruct QQ as [M2 [_ F2]].
  split; [reflexivity|]. split; [eapply inv_keeps; [exact I1|apply F2]|]. split; [exact M2|]. split; [|exact Q1].
  eapply fr_weak; [|eapply fr_trans; [exact Q7|exact F2]]. unfold FP, BP, DP. cbn [xin].
  rewrite <- WU2, <- WU, <- RU. intros b o. intuition lia.
Qed.

Theorem run_ok u cv ca ops : Forall (op_ok (size (shape_of u))) ops -> forall e m,
  inv u cv ca e m -> exists e' m', run ops (e, m) = Ok (e', m') /\ inv u cv ca e' m'.
Proof.
  induction 1 as [|o l HO H IH]; intros e m HI; [exists e, m; auto|].
  assert (HM : MR (vset u) (wset u) (renv m 4) m (renv m 0) (renv m 1)) by (apply MR_renv, HI).
  cbn [run]. destruct o as [|seed|f]; cbn [step op_ok] in *.
  - destruct (evaluate_ok _ _ _ _ _ _ _ _ HI HM) as [e' [m' Q]].
    destruct (pf _ None e _) as [[t r'] p]. destruct Q as [E1 [I1 _]]. rewrite E1. cbn [bindR]. auto.
  - destruct (autodiff_ok _ _ _ _ _ _ _ _ seed HI HM HO) as [e' [m' Q]].
    destruct (pf _ None e _) as [[t r'] p]. destruct (pb None e' t seed r' _) as [[q2 r2] al2].
    destruct Q as [E1 [I1 _]]. rewrite E1. cbn [bindR]. auto.
  - cbn [bindR]. apply IH. eapply inv_keeps; eauto.
Qed.

Definition no_user (o : op N) : Prop := match o with OpUser _ => False | _ => True end.
Theorem run_frame u cv ca ops : Forall (op_ok (size (shape_of u))) ops -> Forall no_user ops ->
  forall e m e' m', inv u cv ca e m -> run ops (e, m) = Ok (e', m') -> fr (DP u cv ca) m m'.
Proof.
  induction 1 as [|o l HO H IH]; intros HU e m e1 m1 HI HR.
  { inversion HR. apply fr_refl. }
  inversion HU as [|? ? U1 U2]; subst.
  assert (HM : MR (vset u) (wset u) (renv m 4) m (renv m 0) (renv m 1)) by (apply MR_renv, HI).
  cbn [run] in HR. destruct o as [|seed|f]; cbn [step op_ok no_user] in *; [| |destruct U1].
  - destruct (evaluate_ok _ _ _ _ _ _ _ _ HI HM) as [e' [m' Q]].
    destruct (pf _ None e _) as [[t r'] p]. destruct Q as [E1 [I1 [_ [F1 _]]]]. rewrite E1 in HR. cbn [bindR] in HR.
    eapply fr_weak; [|eapply fr_trans; [exact F1|eapply IH; eauto]].
    unfold EP, DP. intros b o'. tauto.
  - destruct (autodiff_ok _ _ _ _ _ _ _ _ seed HI HM HO) as [e' [m' Q]].
    destruct (pf _ None e _) as [[t r'] p]. destruct (pb None e' t seed r' _) as [[q2 r2] al2].
    destruct Q as [E1 [I1 [_ [F1 _]]]]. rewrite E1 in HR. cbn [bindR] in HR.
    eapply fr_weak; [|eapply fr_trans; [exact F1|eapply IH; eauto]]. unfold DP. intros b o'. tauto.
Qed.
End User.

(** ** Statements used in the property files *)
Section Client.
Context (N : num).
Notation T := (carrier N).
Notation U := (expr T unit).
Hypothesis LL : la_len N.
Variables bv ba : nat.
Hypothesis HF : fresh bv ba.

Lemma bind_safe (uv ua : nat -> T) (u : U) (m : mem T) :
  wfs u = true -> ctor_ok u = true -> avail u m ->
  exists e m0, bound bv ba uv ua u m = Ok (e, m0) /\
    cover bv (vviews e) = seq 0 (fst (csize e)) /\
    cover ba (aviews e) = seq 0 (snd (csize e)) /\
    (forall o, m0 bv o <> None <-> o < fst (csize e)) /\
    (forall o, m0 ba o <> None <-> o < snd (csize e)) /\
    forall ops, Forall (op_ok (size (shape_of u))) ops -> exists c, run ops (e, m0) = Ok c.
Proof.
  intros HW HC HA. destruct (bound_ok LL bv ba u m uv ua HW HC HA) as [e [m0 HB]].
  exists e, m0. split; [exact HB|].
  destruct (inv_bound LL bv ba HF u m uv ua e m0 HW HA HB) as [HI [_ [H1 H2]]].
  pose proof HI as [_ [_ [_ [HL _]]]]. destruct (lay_cover bv ba HF e None 0 0 _ _ HL) as [Q1 Q2].
  rewrite Nat.sub_0_r in Q1, Q2.
  split; [exact Q1|]. split; [exact Q2|]. split; [exact H1|]. split; [exact H2|].
  intros ops HO. destruct (run_ok LL bv ba HF u _ _ ops HO e m0 HI) as [e' [m' [R _]]]. eauto.
Qed.

Lemma bind_frame (uv ua : nat -> T) (u : U) (m : mem T) e m0 ops e' m' :
  wfs u = true -> avail u m -> bound bv ba uv ua u m = Ok (e, m0) ->
  Forall (op_ok (size (shape_of u))) ops -> Forall no_user ops ->
  run ops (e, m0) = Ok (e', m') ->
  (forall b o, b <> bv -> b <> ba -> m0 b o = m b o) /\
  forall b o, b <> bv -> b <> ba ->
    ~ (b = 0 /\ In o (writes u)) -> ~ (b = 1 /\ In o (refs u)) -> m' b o = m b o.
Proof.
  intros HW HA HB HO HN HR.
  destruct (inv_bound LL bv ba HF u m uv ua e m0 HW HA HB) as [HI [H0 _]].
  split; [exact H0|]. intros b o N1 N2 N3 N4. rewrite <- (H0 b o N1 N2).
  apply (run_frame LL bv ba HF u _ _ ops HO HN e m0 e' m' HI HR). unfold DP. tauto.
Qed.

Lemma eval_frame (uv ua : nat -> T) (u : U) (m : mem T) e m0 ops e' m' e'' m'' v :
  wfs u = true -> avail u m -> bound bv ba uv ua u m = Ok (e, m0) ->
  Forall (op_ok (size (shape_of u))) ops -> run ops (e, m0) = Ok (e', m') ->
  evaluate e' m' = Ok (e'', m'', v) ->
  forall b o, b <> bv -> ~ (b = 0 /\ In o (writes u)) -> m'' b o = m' b o.
Proof.
  intros HW HA HB HO HR HE b o N1 N2.
  destruct (inv_bound LL bv ba HF u m uv ua e m0 HW HA HB) as [HI _].
  destruct (run_ok LL bv ba HF u _ _ ops HO e m0 HI) as [e1 [m1 [R I1]]]. rewrite R in HR.
  inversion HR; subst e1 m1. clear HR.
  destruct (evaluate_ok LL bv ba HF u _ _ e' m' _ _ _ I1 (MR_renv u m' (proj2 (proj2 (proj2 (proj2 (proj2 (proj2 I1))))))))
    as [e1 [m1 Q]].
  destruct (pf _ None e' _) as [[t r'] p]. destruct Q as [E1 [_ [_ [F1 _]]]].
  rewrite E1 in HE. inversion HE; subst. apply F1. unfold EP. tauto.
Qed.
End Client.
