(** Binding: construction and ad::bind produce an expression whose views are laid
    out as [lay] requires, within caches of the size [csize]. *)
From Verif Require Import Base Num Expr Node Stat Machine Wf Pure LBase LKind LSimDef LMem.

Section Bind.
Context {N : num}.
Notation T := (carrier N).
Notation E := (expr T (ann N)).
Variables bv ba : nat.
Notation lay := (lay (N := N) bv ba).
Notation lays := (lays (N := N) bv ba).

Definition bindcs : list E -> nat -> nat -> list E * nat * nat :=
  fix go es v a := match es with
                   | [] => ([], v, a)
                   | x :: t => let '(x', v1, a1) := bindc bv ba x v a in
                               let '(t', v2, a2) := go t v1 a1 in
                               (x' :: t', v2, a2)
                   end.
Lemma bindc_comp k an es v a :
  bindc bv ba (EComp k an es) v a =
  (let '(es', v1, a1) := bindcs es v a in
   let n := size (kshape k (map shape_of es)) in
   let '(an1, a2) := if kaux k
                     then (set_aux an (xv an) (Ptr ba a1), a1 + size (nth_sh (map shape_of es) 0))
                     else (an, a1) in
   if kadj k then (EComp k (set_own an1 (Ptr bv v1) (Ptr ba a2)) es', v1 + n, a2 + n)
   else (EComp k (set_own an1 (Ptr bv v1) Null) es', v1 + n, a2)).
Proof. reflexivity. Qed.
Lemma bindc_for an s es v a :
  bindc bv ba (EFor an s es) v a =
  (let '(es', v1, a1) := bindcs es v a in
   match rev es' with
   | [] => (EFor an s es', v1, a1)
   | x :: _ => (EFor (set_own an (fst (dptr x)) (snd (dptr x))) s es', v1, a1)
   end).
Proof. reflexivity. Qed.

Definition sk (e : E) := amap (T := T) st e.
Lemma sk_shape e e' : sk e' = sk e -> shape_of e' = shape_of e.
Proof. intros H. rewrite <- (shape_of_amap st e'), <- (shape_of_amap st e). unfold sk in H. now rewrite H. Qed.
Lemma sk_shapes (es es' : list E) : map sk es' = map sk es -> map shape_of es' = map shape_of es.
Proof.
  revert es'; induction es; intros [|e' es']; cbn; try discriminate; auto.
  intros H. inversion H. f_equal; auto using sk_shape.
Qed.

Lemma sk_stok e : forall e', sk e' = sk e -> stok e -> stok e'.
Proof.
  induction e using expr_ind'; intros e' HE; destruct e'; try discriminate HE;
    unfold sk in HE; cbn [amap] in HE; inversion HE; subst; cbn [stok]; auto.
  - intros [Q1 Q2].
    match goal with HH : map _ es0 = map _ es |- _ => rename HH into HM end.
    split; [rewrite (sk_shapes es es0 HM); congruence|].
    clear - H Q2 HM. revert es0 HM Q2. induction H; intros [|y' es']; try discriminate; cbn; auto.
    intros HM [S1 S2]. inversion HM. split; [eapply H; eauto|eapply IHForall; eauto].
  - intros [Q1 Q2]. split; auto.
  - intros Q2.
    match goal with HH : map _ es0 = map _ es |- _ => rename HH into HM end.
    clear - H Q2 HM. revert es0 HM Q2. induction H; intros [|y' es']; try discriminate; cbn; auto.
    intros HM [S1 S2]. inversion HM. split; [eapply H; eauto|eapply IHForall; eauto].
  - intros [Q1 [Q2 Q3]]. split; auto.
Qed.

Lemma fst_padd2 p q : fst (padd2 p q) = fst p + fst q. Proof. reflexivity. Qed.
Lemma snd_padd2 p q : snd (padd2 p q) = snd p + snd q. Proof. reflexivity. Qed.
Lemma single_le (e : E) : fst (single e) <= fst (csize e) /\ snd (single e) <= snd (csize e).
Proof. destruct e; cbn [single csize]; unfold padd2; cbn [fst snd]; lia. Qed.

Lemma sk_setroot e p q : sk (setroot e p q) = sk e.
Proof. destruct e; reflexivity. Qed.
Lemma sk_single e e' : sk e' = sk e -> single e' = single e.
Proof.
  destruct e, e'; try discriminate; intros H; assert (H' := H); unfold sk in H; cbn [amap] in H; inversion H; subst; auto.
  apply sk_shape in H'. cbn [single]. rewrite H'. 
  match goal with HH : map _ _ = map _ _ |- _ => rewrite (sk_shapes _ _ HH) end. reflexivity.
Qed.

Lemma lay_setroot e c v a v' a' : rhs_ok e = true -> lay None e v a v' a' ->
  lay (Some c) (setroot e (Ptr 0 c) (Ptr 1 c)) v a (v' - fst (single e)) (a' - snd (single e)).
Proof.
  intros HR. destruct e; cbn [setroot single fst snd]; try discriminate HR; rewrite ?Nat.sub_0_r; auto.
  - rewrite !lay_comp. cbv zeta. intros [v1 [a1 [H1 [H2 [H3 [H4 [-> ->]]]]]]].
    assert (KA : kaux k = false) by (destruct k; try reflexivity; discriminate HR).
    rewrite KA in *. exists v1, a1. split; [exact H1|]. split; [exact H2|]. cbn [set_own av aa].
    cbn [shape_of]. repeat (split; [reflexivity|]). destruct (kadj k); lia.
  - cbn [LSimDef.lay]. intros [H1 H2]. split; auto.
  - cbn [LSimDef.lay]. intros [v1 [a1 [H1 [H2 H3]]]]. exists v1, a1. auto.
  - rewrite !lay_for. intros [H1 H2]. split; auto.
Qed.

Definition BD (e : E) : Prop := forall v a, wfs e = true ->
  let '(e', v', a') := bindc bv ba e v a in
  v' = v + fst (csize e) /\ a' = a + snd (csize e) /\ lay None e' v a v' a' /\ sk e' = sk e.

Lemma BDs (es : list E) : Forall BD es -> forall v a, forallb wfs es = true ->
  let '(es', v', a') := bindcs es v a in
  v' = v + fst (fold_right padd2 (0, 0) (map csize es)) /\
  a' = a + snd (fold_right padd2 (0, 0) (map csize es)) /\
  lays v' a' es' v a /\ map sk es' = map sk es.
Proof.
  intros H. induction H as [|y l HY H IH]; intros v a HW.
  - cbn. rewrite !Nat.add_0_r. auto.
  - cbn [forallb] in HW. apply andb_true_iff in HW. destruct HW as [W1 W2].
    change (bindcs (y :: l) v a) with
      (let '(x', v1, a1) := bindc bv ba y v a in
       let '(t', v2, a2) := bindcs l v1 a1 in (x' :: t', v2, a2)).
    specialize (HY v a W1). destruct (bindc bv ba y v a) as [[y' v1] a1]. destruct HY as [-> [-> [L1 S1]]].
    specialize (IH (v + fst (csize y)) (a + snd (csize y)) W2).
    destruct (bindcs l _ _) as [[l' v2] a2]. destruct IH as [-> [-> [L2 S2]]].
    cbn [map fold_right]. rewrite fst_padd2, snd_padd2. split; [lia|]. split; [lia|]. split.
    + exists (v + fst (csize y)), (a + snd (csize y)). auto.
    + congruence.
Qed.

Theorem BD_all e : BD e.
Proof.
  induction e using expr_ind'; intros v a0 HW.
  - cbn. rewrite !Nat.add_0_r. auto.
  - cbn. rewrite !Nat.add_0_r. auto.
  - cbn. rewrite !Nat.add_0_r. auto.
  - rewrite bindc_comp. cbn [wfs] in HW. rewrite !andb_true_iff in HW. destruct HW as [[[HW _] _] _].
    pose proof (BDs es H v a0 HW) as B. destruct (bindcs es v a0) as [[es' v1] a1].
    destruct B as [-> [-> [L1 S1]]]. cbv zeta.
    cbn [csize single shape_of]. rewrite fst_padd2, snd_padd2. cbn [fst snd].
    set (F := fold_right padd2 (0, 0) (map csize es)) in *.
    assert (SK : forall an, st an = st a -> sk (EComp k an es') = sk (EComp k a es)).
    { intros an Ha. unfold sk in *. cbn [amap]. fold sk in *. rewrite Ha. f_equal. exact S1. }
    destruct (kaux k) eqn:KA.
    + assert (KD : kadj k = false) by (destruct k; try discriminate KA; reflexivity). rewrite KD.
      split; [lia|]. split; [lia|]. split; [|apply SK; reflexivity].
      rewrite lay_comp. cbv zeta. rewrite KA, KD. cbn [set_own set_aux xa av aa].
      rewrite (sk_shapes _ _ S1).
      eexists _, _. split; [exact L1|]. split; [auto|]. split; [auto|]. split; [discriminate|]. split; lia.
    + destruct (kadj k) eqn:KD; (split; [lia|]); (split; [lia|]); (split; [|apply SK; reflexivity]);
        rewrite lay_comp; cbv zeta; rewrite KA, KD; cbn [set_own set_aux xa av aa];
        rewrite (sk_shapes _ _ S1); eexists _, _; (split; [exact L1|]); (split; [discriminate|]);
        (split; [auto|]); (split; [auto; discriminate|]); split; lia.
  - cbn [wfs] in HW. rewrite !andb_true_iff in HW. destruct HW as [[[HW1 _] _] HW4].
    cbn [bindc csize]. specialize (IHe v a0 HW1). destruct (bindc bv ba e v a0) as [[e' v1] a1].
    destruct IHe as [-> [-> [L1 S1]]]. pose proof (single_le e) as SL. unfold psub2. cbn [fst snd].
    split; [lia|]. split; [lia|]. split.
    + cbn [LSimDef.lay]. split; [|reflexivity]. rewrite <- (sk_single _ _ S1). apply lay_setroot; auto.
      unfold sk in S1. rewrite <- (rhs_ok_amap st), S1, rhs_ok_amap. exact HW4.
    + unfold sk in *. cbn [amap]. fold sk. f_equal. pose proof (sk_setroot e' (Ptr 0 o) (Ptr 1 o)).
      unfold sk in *. congruence.
  - cbn [wfs] in HW. rewrite !andb_true_iff in HW. destruct HW as [[[HW1 _] _] HW4].
    cbn [bindc csize single]. specialize (IHe v a0 HW1). destruct (bindc bv ba e v a0) as [[e' v1] a1].
    destruct IHe as [-> [-> [L1 S1]]]. unfold padd2. cbn [fst snd].
    split; [lia|]. split; [lia|]. split.
    + cbn [LSimDef.lay]. eexists _, _. split; [exact L1|]. cbn. auto.
    + unfold sk in *. cbn [amap]. cbn [set_aux set_own st]. congruence.
  - cbn [wfs] in HW. rewrite !andb_true_iff in HW. destruct HW as [[[HW1 HW2] _] HW4].
    cbn [bindc csize]. specialize (IHe1 v a0 HW1). destruct (bindc bv ba e1 v a0) as [[e1' v1] a1].
    destruct IHe1 as [-> [-> [L1 S1]]].
    specialize (IHe2 (v + fst (csize e1)) (a0 + snd (csize e1)) HW2).
    destruct (bindc bv ba e2 _ _) as [[e2' v2] a2]. destruct IHe2 as [-> [-> [L2 S2]]].
    unfold padd2. cbn [fst snd]. split; [lia|]. split; [lia|]. split.
    + cbn [LSimDef.lay]. eexists _, _. split; [exact L1|]. split; [exact L2|]. reflexivity.
    + unfold sk in *. cbn [amap set_own st]. congruence.
  - rewrite bindc_for. cbn [wfs] in HW. rewrite !andb_true_iff in HW. destruct HW as [[[HW _] _] _].
    pose proof (BDs es H v a0 HW) as B. destruct (bindcs es v a0) as [[es' v1] a1].
    destruct B as [-> [-> [L1 S1]]]. cbn [csize].
    assert (SK : forall an, st an = st a -> sk (EFor an s es') = sk (EFor a s es)).
    { intros an Ha. unfold sk in *. cbn [amap]. fold sk in *. rewrite Ha. f_equal. exact S1. }
    destruct (rev es') eqn:ER; (split; [lia|]); (split; [lia|]); (split; [|apply SK; reflexivity]);
      rewrite lay_for, ER; (split; [exact L1|]); cbn; auto.
  - cbn [wfs] in HW. rewrite !andb_true_iff in HW. destruct HW as [[[[[HW1 HW2] HW3] _] _] _].
    cbn [bindc csize]. specialize (IHe1 v a0 HW1). destruct (bindc bv ba e1 v a0) as [[e1' v1] a1].
    destruct IHe1 as [-> [-> [L1 S1]]].
    specialize (IHe2 (v + fst (csize e1)) (a0 + snd (csize e1)) HW2).
    destruct (bindc bv ba e2 _ _) as [[e2' v2] a2]. destruct IHe2 as [-> [-> [L2 S2]]].
    specialize (IHe3 (v + fst (csize e1) + fst (csize e2)) (a0 + snd (csize e1) + snd (csize e2)) HW3).
    destruct (bindc bv ba e3 _ _) as [[e3' v3] a3]. destruct IHe3 as [-> [-> [L3 S3]]].
    unfold padd2. cbn [fst snd]. split; [lia|]. split; [lia|]. split.
    + cbn [LSimDef.lay]. eexists _, _, _, _. split; [exact L1|]. split; [exact L2|]. exact L3.
    + unfold sk in *. cbn [amap set_own st]. congruence.
Qed.
End Bind.
