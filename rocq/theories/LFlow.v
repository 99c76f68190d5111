(** Sequences and branches compared with separately bound statements. *)
From Verif Require Import Base Num Expr Node Stat Machine Wf Pure LBase LKind LSimDef LMem LSimF LSimB LBind Session LUser Flow.

Section Norm.
Context {N : num}.
Notation T := (carrier N).
Notation E := (expr T (ann N)).
Notation env := (nat -> T).

Lemma amap_amap {X A B C} (f : A -> B) (g : B -> C) (e : expr X A) : amap g (amap f e) = amap (fun a => g (f a)) e.
Proof.
  induction e using expr_ind'; cbn [amap]; try congruence; f_equal; rewrite map_map; now apply map_ext_Forall.
Qed.

(** ** Neither direction looks at pointers *)
Section F.
Variable f : ann N -> ann N.
Notation am := (amap (T := T) f).
Lemma consts_am (es : list E) : map is_const (map am es) = map is_const es.
Proof. rewrite map_map. apply map_ext. now intros []. Qed.

Lemma pb_am (e : E) : forall x t s r a, pb x (am e) t s r a = pb x e t s r a.
Proof.
  induction e using expr_ind'; intros x t s0 r a0; try reflexivity.
  - cbn [amap].
    destruct es as [|y0 l0]; [reflexivity|].
    rewrite !pb_comp by discriminate. cbv zeta.
    assert (SS : map shape_of (map am (y0 :: l0)) = map shape_of (y0 :: l0)) by apply shapes_amap.
    rewrite SS, consts_am. generalize (map shape_of (y0 :: l0)) (map is_const (y0 :: l0)). intros ss cs.
    match goal with |- match ?A with _ => _ end = match ?B with _ => _ end => assert (X : A = B); [|now rewrite X] end.
    match goal with |- pgo _ _ _ _ _ _ _ ?P _ _ _ _ _ = _ => generalize P end.
    generalize (tts t), r, (if kadj k then wx x a0 s0 else a0), (@nil (pref N)).
    clear SS. revert H. generalize (y0 :: l0). clear. intros l H ts0 r0 a1 pre0 P0. revert ts0 r0 a1 pre0.
    induction H as [|y l HY H IH]; intros ts r a1 pre; [reflexivity|].
    destruct ts as [|ty ts]; [reflexivity|]. cbn [pgo map]. 
    change ((pgo k (size (kshape k ss)) ss cs s0 x t P0) (pre ++ [tp ty]) (map am l) ts r a1)
      with (pgo k (size (kshape k ss)) ss cs s0 x t P0 (pre ++ [tp ty]) (map am l) ts r a1).
    rewrite IH. destruct (pgo _ _ _ _ _ _ _ _ _ l _ _ _) as [[[qs f0] r1] a2].
    destruct (if klazy k ss then _ else _) as [[vs fv] ad].
    destruct (match kpre k (length pre) vs fv with None => _ | _ => _ end) as [[f2 r2] fv2].
    destruct (kseed _ _ _ _ _ _ _ _); [|reflexivity]. now rewrite HY.
  - cbn [amap pb shape_of].
    destruct (tts t) as [|ty [|]]; auto. now rewrite IHe.
  - cbn [amap pb shape_of].
    destruct (tts t) as [|ty [|]]; auto. rewrite IHe. now rewrite shape_of_amap.
  - cbn [amap pb shape_of].
    destruct (tts t) as [|ty [|tz [|]]]; auto. rewrite IHe2. destruct (pb None e2 tz s0 r a0) as [[q r1] a1].
    rewrite IHe1. now rewrite !shape_of_amap.
  - cbn [amap]. rewrite !pb_for.
    assert (SS : map shape_of (map am es) = map shape_of es) by apply shapes_amap. rewrite SS.
    match goal with |- match ?A with _ => _ end = match ?B with _ => _ end => assert (X : A = B); [|now rewrite X] end.
    generalize (tts t), r, a0. clear SS. generalize (tp t). intros d.
    induction H as [|y l HY H IH]; intros ts r1 a1; [reflexivity|].
    destruct ts as [|ty ts]; [reflexivity|]. destruct l as [|z l]; [cbn; apply HY|].
    change (pfgo d s0 (map am (y :: z :: l)) (ty :: ts) r1 a1) with
     (let '(q, r1, a1) := pfgo d s0 (map am (z :: l)) ts r1 a1 in
       let '(_, r2, a2) := pb None (am y) ty (repeat (n0 N) (size (shape_of (am y)))) r1 a1 in (q, r2, a2)).
    rewrite IH. change (pfgo d s0 (y :: z :: l) (ty :: ts) r1 a1) with
     (let '(q, r1, a1) := pfgo d s0 (z :: l) ts r1 a1 in
       let '(_, r2, a2) := pb None y ty (repeat (n0 N) (size (shape_of y))) r1 a1 in (q, r2, a2)).
    destruct (pfgo d s0 (z :: l) ts r1 a1) as [[q r2] a2]. rewrite HY. now rewrite shape_of_amap.
  - cbn [amap pb].
    destruct (tts t) as [|ty [|tz [|]]]; auto. now rewrite IHe2, IHe3.
Qed.

Hypothesis Hf : forall a, st (f a) = st a.
Lemma pf_am D (e : E) : forall x r, pf D x (am e) r = pf D x e r.
Proof.
  induction e using expr_ind'; intros x r; try reflexivity.
  - cbn [amap]. rewrite !pf_comp. rewrite shapes_amap, consts_am, Hf. cbv zeta.
    match goal with |- match ?A with _ => _ end = match ?B with _ => _ end => assert (X : A = B); [|now rewrite X] end.
    revert r. induction H as [|y l HY H IH]; intros r; [reflexivity|]. cbn [map pfs].
    change ((fix go (es : list E) (r : env) {struct es} := _) (map am l)) with (pfs D (map am l)).
    change ((fix go (es : list E) (r : env) {struct es} := _) l) with (pfs D l).
    rewrite HY. destruct (pf D None y r) as [[t r1] p]. now rewrite IH.
  - cbn [amap pf shape_of]. now rewrite IHe.
  - cbn [amap pf shape_of]. rewrite IHe. now rewrite shape_of_amap.
  - cbn [amap pf shape_of]. rewrite IHe1. destruct (pf D None e1 r) as [[t r1] p]. rewrite IHe2. now rewrite shape_of_amap.
  - cbn [amap]. rewrite !pf_for. rewrite shapes_amap. cbv zeta.
    match goal with |- match ?A with _ => _ end = match ?B with _ => _ end => assert (X : A = B) end.
    { generalize (px x (size (iter_shape s (map shape_of es))) (@PL N [])). revert r.
      induction H as [|y l HY H IH]; intros r p0; [reflexivity|]. cbn [map pfsf].
      change ((fix go (es : list E) (r : env) p {struct es} := _) (map am l)) with (pfsf D (map am l)).
      change ((fix go (es : list E) (r : env) p {struct es} := _) l) with (pfsf D l).
      rewrite HY. destruct (pf D None y r) as [[t r1] p]. now rewrite IH. }
    rewrite X. destruct (pfsf D es r _) as [[ts r1] p]. now destruct es.
  - cbn [amap pf]. rewrite IHe1. destruct (pf D None e1 r) as [[t r1] p]. now rewrite IHe2, IHe3.
Qed.
End F.

Definition bare (s : sst N) : ann N := Ann Null Null Null Null s.
Lemma sk_bare (e : E) : amap bare (sk e) = amap (fun a => bare (st a)) e.
Proof. unfold sk. apply amap_amap. Qed.
Lemma pf_sk D (e e' : E) x r : sk e' = sk e -> pf D x e' r = pf D x e r.
Proof.
  intros H. rewrite <- (pf_am (fun a => bare (st a)) (fun _ => eq_refl) D e), <- (pf_am (fun a => bare (st a)) (fun _ => eq_refl) D e').
  now rewrite <- !sk_bare, H.
Qed.
Lemma pb_sk (e e' : E) x t s r a : sk e' = sk e -> pb x e' t s r a = pb x e t s r a.
Proof.
  intros H. rewrite <- (pb_am (fun a => bare (st a)) e), <- (pb_am (fun a => bare (st a)) e').
  now rewrite <- !sk_bare, H.
Qed.
Lemma pfsf_sk D (es es' : list E) : map sk es' = map sk es -> forall r p, pfsf D es' r p = pfsf D es r p.
Proof.
  revert es'. induction es as [|y l IH]; intros [|y' l'] H r p; try discriminate; [reflexivity|].
  injection H as H1 H2. cbn [pfsf]. 
  change ((fix go (es : list E) (r : env) p {struct es} := _) l') with (pfsf D l').
  change ((fix go (es : list E) (r : env) p {struct es} := _) l) with (pfsf D l).
  rewrite (pf_sk D y y' None r H1). destruct (pf D None y r) as [[t r1] p1]. now rewrite (IH l' H2).
Qed.
Lemma pb_er (e e' : E) x t s r a : er e' = er e -> pb x e' t s r a = pb x e t s r a.
Proof.
  intros H. rewrite <- (pb_am (fun _ => ann0 N) e), <- (pb_am (fun _ => ann0 N) e').
  assert (X : forall e : E, amap (fun _ : unit => ann0 N) (er e) = amap (fun _ => ann0 N) e)
    by (intros e0; exact (amap_amap (fun _ => tt) (fun _ : unit => ann0 N) e0)).
  now rewrite <- !X, H.
Qed.
Lemma er_sk (e e' : E) : sk e' = sk e -> er e' = er e.
Proof.
  assert (X : forall e : E, amap (fun _ => tt) (sk e) = er e)
    by (intros e0; exact (amap_amap st (fun _ : sst N => tt) e0)).
  intros H. now rewrite <- !X, H.
Qed.
Lemma pfgo_er (es es' : list E) d s : map er es' = map er es -> forall ts r a, pfgo d s es' ts r a = pfgo d s es ts r a.
Proof.
  revert es'. induction es as [|y l IH]; intros [|y' l'] H ts r a; try discriminate; [reflexivity|].
  injection H as H1 H2. destruct ts as [|t ts]; [reflexivity|].
  destruct l as [|z l], l' as [|z' l']; try discriminate; [cbn; now apply pb_er|].
  change (pfgo d s (y' :: z' :: l') (t :: ts) r a) with
     (let '(q, r1, a1) := pfgo d s (z' :: l') ts r a in
       let '(_, r2, a2) := pb None y' t (repeat (n0 N) (size (shape_of y'))) r1 a1 in (q, r2, a2)).
  change (pfgo d s (y :: z :: l) (t :: ts) r a) with
     (let '(q, r1, a1) := pfgo d s (z :: l) ts r a in
       let '(_, r2, a2) := pb None y t (repeat (n0 N) (size (shape_of y))) r1 a1 in (q, r2, a2)).
  rewrite (IH (z' :: l') H2). destruct (pfgo d s (z :: l) ts r a) as [[q r1] a1].
  rewrite <- (shape_er y'), H1, shape_er. now rewrite (pb_er y y') by assumption.
Qed.
End Norm.

(** ** What feval does to the nodes' own state *)
Section State.
Context {N : num}.
Notation T := (carrier N).
Notation E := (expr T (ann N)).
Notation S := (expr T (sst N)).
Notation env := (nat -> T).

Fixpoint skp (e : S) (t : tape N) {struct e} : S :=
  match e with
  | EVar _ _ | ECst _ _ | ECvw _ _ => e
  | EComp k _ es =>
      EComp k (tst t) ((fix go es ts {struct es} := match es, ts with
                                     | y :: l, ty :: lt => skp y ty :: go l lt
                                     | _, _ => []
                                     end) es (tts t))
  | EEq s sh o y => match tts t with [ty] => EEq s sh o (skp y ty) | _ => e end
  | EOpEq q s sh o y => match tts t with [ty] => EOpEq q s sh o (skp y ty) | _ => e end
  | EGlue s l r => match tts t with [tl; tr] => EGlue s (skp l tl) (skp r tr) | _ => e end
  | EFor s k es =>
      EFor s k ((fix go es ts {struct es} := match es, ts with
                                     | y :: l, ty :: lt => skp y ty :: go l lt
                                     | _, _ => []
                                     end) es (tts t))
  | EIf s c a b =>
      match tts t with
      | [tc; tb] =>
          match tp tc with
          | PL l => if ntrue N (hd0 N l) then EIf s (skp c tc) (skp a tb) b
                    else EIf s (skp c tc) a (skp b tb)
          | PV _ _ => e
          end
      | _ => e
      end
  end.
Definition skps : list S -> list (tape N) -> list S :=
  fix go es ts := match es, ts with
                  | y :: l, ty :: lt => skp y ty :: go l lt
                  | _, _ => []
                  end.
Lemma skp_comp k s es t : skp (EComp k s es) t = EComp k (tst t) (skps es (tts t)). Proof. reflexivity. Qed.
Lemma skp_for s k es t : skp (EFor s k es) t = EFor s k (skps es (tts t)). Proof. reflexivity. Qed.
Lemma sk_comp k a (es : list E) : sk (EComp k a es) = EComp k (st a) (map sk es). Proof. reflexivity. Qed.
Lemma sk_for a k (es : list E) : sk (EFor a k es) = EFor (st a) k (map sk es). Proof. reflexivity. Qed.
Lemma skps_app l1 : forall l2 ts1 ts2, length l1 = length ts1 -> skps (l1 ++ l2) (ts1 ++ ts2) = skps l1 ts1 ++ skps l2 ts2.
Proof.
  induction l1 as [|y l1 IH]; intros l2 [|t ts1] ts2 H; try discriminate; [reflexivity|]. cbn.
  f_equal. apply IH. now injection H.
Qed.

Context {bv ba : nat}.
Context {V W : nat -> Prop}.
Context {D : env}.
Hypothesis Hbv : bv <> 0 /\ bv <> 1 /\ bv <> 4.
Hypothesis Hba : ba <> 0 /\ ba <> 1 /\ ba <> 4 /\ ba <> bv.
Hypothesis LL : la_len N.
Notation lay := (lay bv ba).
Notation lays := (lays bv ba).
Notation MR := (MR V W D).

Definition SKP (e : E) : Prop := forall x v a v' a' m r al e' m' q,
  lay x e v a v' a' -> pre (V := V) (W := W) x e -> MR m r al -> alc m bv v v' ->
  feval e m = Ok (e', m', q) -> sk e' = skp (sk e) (fst (fst (pf D x e r))).

Lemma SKPs (es : list E) : Forall SKP es -> forall v a v' a' m r al es' m' qs im,
  lays v' a' es v a -> Forall (pre (V := V) (W := W) None) es -> MR m r al -> alc m bv v v' ->
  fevals es m = Ok (es', m', qs, im) ->
  map sk es' = skps (map sk es) (fst (fst (fst (pfs D es r)))).
Proof.
  induction 1 as [|y l Hy Hl IH]; intros v a v' a' m r al es' m' qs im HL HP HM HA HE.
  - cbn in HE. inversion HE. reflexivity.
  - destruct HL as [v2 [a2 [L1 L2]]]. inversion HP as [|? ? H1 H2]; subst.
    pose proof (lay_le _ _ _ _ _ _ _ _ _ L1) as LE1.
    assert (LE2 : v2 <= v' /\ a2 <= a') by (apply lays_le' in L2; exact L2).
    assert (A1 : alc m bv v v2) by (eapply alc_mono; eauto; lia).
    destruct (FS_all Hbv Hba LL y None v a v2 a2 m r al L1 H1 HM A1) as [y' [m1 [q [E1 Q]]]].
    pose proof (Hy None v a v2 a2 m r al y' m1 q L1 H1 HM A1 E1) as S1.
    cbn [fevals pfs] in *. rewrite E1 in HE. cbn [bindR] in HE.
    destruct (pf D None y r) as [[t r1] p]. destruct Q as [_ [_ [M1 [R1 [_ [_ F1]]]]]].
    destruct (refR_read _ _ _ _ _ _ _ _ M1 R1) as [RD LD]. rewrite RD in HE. cbn [bindR] in HE.
    change ((fix go (es : list E) (m : mem T) {struct es} := _) l m1) with (fevals l m1) in HE.
    change ((fix go (es : list E) (r : env) {struct es} := _) l r1) with (pfs D l r1).
    destruct (fevals l m1) as [[[[l' m2] qs2] im2]|] eqn:E2; [|discriminate]. cbn in HE. inversion HE; subst.
    pose proof (IH v2 a2 v' a' m1 r1 al l' m' qs2 im2 L2 H2 M1 ltac:(eapply alc_fr; [exact F1|]; eapply alc_mono; [exact HA|lia..]) E2) as S2.
    destruct (pfs D l r1) as [[[ts r2] ps] im3]. cbn in *. congruence.
Qed.
Lemma SKPf (es : list E) : Forall SKP es -> forall v a v' a' m r al es' m' p0,
  lays v' a' es v a -> Forall (pre (V := V) (W := W) None) es -> MR m r al -> alc m bv v v' ->
  fevalsf es m = Ok (es', m') ->
  map sk es' = skps (map sk es) (fst (fst (pfsf D es r p0))).
Proof.
  induction 1 as [|y l Hy Hl IH]; intros v a v' a' m r al es' m' p0 HL HP HM HA HE.
  - cbn in HE. inversion HE. reflexivity.
  - destruct HL as [v2 [a2 [L1 L2]]]. inversion HP as [|? ? H1 H2]; subst.
    pose proof (lay_le _ _ _ _ _ _ _ _ _ L1) as LE1.
    assert (LE2 : v2 <= v' /\ a2 <= a') by (apply lays_le' in L2; exact L2).
    assert (A1 : alc m bv v v2) by (eapply alc_mono; eauto; lia).
    destruct (FS_all Hbv Hba LL y None v a v2 a2 m r al L1 H1 HM A1) as [y' [m1 [q [E1 Q]]]].
    pose proof (Hy None v a v2 a2 m r al y' m1 q L1 H1 HM A1 E1) as S1.
    cbn [fevalsf pfsf] in *. rewrite E1 in HE. cbn [bindR] in HE.
    destruct (pf D None y r) as [[t r1] p]. destruct Q as [_ [_ [M1 [R1 [_ [_ F1]]]]]].
    change ((fix go (es : list E) (m : mem T) {struct es} := _) l m1) with (fevalsf l m1) in HE.
    change ((fix go (es : list E) (r : env) p {struct es} := _) l r1 p) with (pfsf D l r1 p).
    destruct (fevalsf l m1) as [[l' m2]|] eqn:E2; [|discriminate]. cbn in HE. inversion HE; subst.
    pose proof (IH v2 a2 v' a' m1 r1 al l' m' p L2 H2 M1 ltac:(eapply alc_fr; [exact F1|]; eapply alc_mono; [exact HA|lia..]) E2) as S2.
    destruct (pfsf D l r1 p) as [[ts r2] ps]. cbn in *. congruence.
Qed.

Ltac bnd H x HX := apply bindR_ok in H; destruct H as [x [HX H]].
Theorem SKP_all e : SKP e.
Proof.
  induction e using expr_ind'; intros x v a' v' a0 m r al e' m' q0 HL HP HM HA HE.
  - cbn in HE. inversion HE. reflexivity.
  - cbn in HE. inversion HE. reflexivity.
  - cbn in HE. inversion HE. reflexivity.
  - destruct (FS_all Hbv Hba LL (EComp k a es) x v a' v' a0 m r al HL HP HM HA) as [e1 [m1 [q1 [E1 Q]]]].
    rewrite E1 in HE. inversion HE; subst e1 m1 q1. clear HE.
    rewrite feval_comp in E1. rewrite lay_comp in HL. cbv zeta in HL. destruct HL as [v1 [a1 [L1 [_ L2]]]].
    assert (LE : v1 <= v') by (destruct x; [|destruct (kadj k), (kaux k)]; lia).
    bnd E1 X E2. destruct X as [[[es' m1] rs] im].
    pose proof (SKPs es H v a' v1 a1 m r al es' m1 rs im L1 (pre_comp Hbv Hba (D := D) x k a es HP) HM ltac:(eapply alc_mono; eauto) E2) as S1.
    bnd E1 vs E3. bnd E1 gd EG. bnd E1 X E4. destruct X as [s' val]. bnd E1 val2 E5. bnd E1 m2 E6. inversion E1; subst. clear E1.
    rewrite pf_comp in *. cbv zeta in *. destruct (pfs D es r) as [[[ts r1] ps] im2].
    destruct (kf _ _ _ _ _) as [s2 val3]. destruct Q as [_ [_ [_ [_ [KK _]]]]]. rewrite K_comp in KK.
    destruct KK as [_ [KK _]]. cbn [st set_st tst] in KK. cbn [fst snd tst tts] in *.
    rewrite !sk_comp, skp_comp. cbn [tst tts set_st st]. now rewrite KK, S1.
  - cbn [LSimDef.lay] in HL. destruct HL as [L1 L2]. cbn [feval] in HE. bnd HE X E1. destruct X as [[y' m1] q1].
    bnd HE vv E2. bnd HE vv2 E3. bnd HE m2 E4. bnd HE m3 E5. inversion HE; subst.
    pose proof (IHe (Some o) v a' v' a0 m r al y' m1 q1 L1) as S1. cbn [pf].
    destruct (pf D (Some o) e r) as [[t r1] p]. cbn [fst] in *. unfold sk in *. cbn [amap skp tts].
    f_equal. apply S1; auto. destruct HP as [P1 [P2 [P3 [P4 [P5 P6]]]]]. cbn [wfs stok refs drefs] in *.
    rewrite !andb_true_iff in P1. destruct P1 as [[[W1 W2] W3] W4]. apply shape_eqb_eq in W3.
    split; [exact W1|]. split; [exact P2|]. split; [intros; apply P3, in_or_app; auto|].
    split; [exact P4|]. split; [|intros _; exact W4].
    intros i Hi. apply P3, in_or_app. left. unfold xin in Hi. rewrite <- W3 in Hi. unfold cells. apply in_seq. lia.
  - cbn [LSimDef.lay] in HL. destruct HL as [v1 [a1 [L1 [L2 [L3 [L4 [L5 L6]]]]]]].
    cbn [feval] in HE. bnd HE old E0. bnd HE m0 E00. bnd HE X E1. destruct X as [[y' m1] q1].
    bnd HE vv E2. bnd HE vv2 E3. bnd HE vv3 E4. bnd HE m2 E5. bnd HE m3 E6. inversion HE; subst.
    destruct HP as [P1 [P2 [P3 [P4 [P5 P6]]]]]. cbn [wfs stok refs drefs] in *.
    rewrite !andb_true_iff in P1. destruct P1 as [[[W1 W2] W3] W4].
    pose proof (lay_le _ _ _ _ _ _ _ _ _ L1) as LE1.
    assert (LO : length old = size sh) by (apply load_inv in E0; apply E0).
    assert (U0 : updm m bv v1 old m0).
    { rewrite L3 in E00. destruct (store_ok m bv v1 old) as [m00 [Z1 Z2]].
      - intros i Hi. apply HA. lia.
      - rewrite E00 in Z1. inversion Z1; subst. exact Z2. }
    pose proof (updm_fr _ _ _ _ _ U0) as F0.
    assert (M0 : MR m0 r al).
    { eapply MR_fr; [exact F0| |exact HM]. cbn. intros b o0 [-> _]. exact Hbv. }
    pose proof (IHe None v a' v1 a1 m0 r al y' m1 q1 L1) as S1. cbn [pf].
    destruct (pf D None e r) as [[t r1] p]. cbn [fst] in *. unfold sk in *. cbn [amap skp tts].
    f_equal. apply S1; auto.
    + apply (pre_intro (D := D) Hbv Hba); auto. intros; apply P3, in_or_app; auto.
    + eapply alc_fr; [exact F0|]. eapply alc_mono; eauto; lia.
  - cbn [LSimDef.lay] in HL. destruct HL as [v1 [a1 [L1 [L2 L3]]]].
    cbn [feval] in HE. bnd HE X E1. destruct X as [[l' m1] q1]. bnd HE X E2. destruct X as [[r' m2] q2].
    bnd HE vv E3. bnd HE m3 E4. inversion HE; subst.
    destruct HP as [P1 [P2 [P3 [P4 [P5 P6]]]]]. cbn [wfs stok refs drefs] in *.
    rewrite !andb_true_iff in P1. destruct P1 as [[[W1 W2] W3] W4]. destruct P2 as [S1 S2].
    pose proof (lay_le _ _ _ _ _ _ _ _ _ L1) as LE1. pose proof (lay_le _ _ _ _ _ _ _ _ _ L2) as LE2.
    assert (PA : pre (V := V) (W := W) None e1).
    { apply (pre_intro (D := D) Hbv Hba); auto; intros; [apply P3|apply P4]; apply in_or_app; auto. }
    assert (PB : pre (V := V) (W := W) None e2).
    { apply (pre_intro (D := D) Hbv Hba); auto; intros; [apply P3|apply P4]; apply in_or_app; auto. }
    assert (A1 : alc m bv v v1) by (eapply alc_mono; eauto; lia).
    destruct (FS_all Hbv Hba LL e1 None v a' v1 a1 m r al L1 PA HM A1) as [y' [mm [qq [EE Q]]]].
    rewrite E1 in EE. inversion EE; subst y' mm qq. clear EE.
    pose proof (IHe1 None v a' v1 a1 m r al l' m1 q1 L1 PA HM A1 E1) as Z1. cbn [pf].
    destruct (pf D None e1 r) as [[t1 r1] p1]. destruct Q as [_ [_ [M1 [_ [_ [_ F1]]]]]].
    pose proof (IHe2 None v1 a1 v' a0 m1 r1 al r' m2 q2 L2 PB M1 ltac:(eapply alc_fr; [exact F1|]; eapply alc_mono; [exact HA|lia..]) E2) as Z2.
    destruct (pf D None e2 r1) as [[t2 r2] p2]. cbn [fst] in *. unfold sk in *. cbn [amap skp tts]. congruence.
  - rewrite lay_for in HL. destruct HL as [L1 L2]. rewrite feval_for in HE. bnd HE X E1. destruct X as [es' m1].
    pose proof (SKPf es H v a' v' a0 m r al es' m1 (px x (size (iter_shape s (map shape_of es))) (PL [])) L1
      (pre_for Hbv Hba (D := D) x a s es HP) HM HA E1) as S1.
    assert (X : e' = EFor a s es').
    { destruct (rev es'); [inversion HE; reflexivity|]. bnd HE gd EG. bnd HE vv E2. bnd HE m3 E3. inversion HE; reflexivity. }
    subst e'. rewrite pf_for. cbv zeta. destruct (pfsf D es r _) as [[ts r1] p]. cbn [fst] in *.
    rewrite !sk_for, skp_for. cbn [tts]. now rewrite S1.
  - cbn [LSimDef.lay] in HL. destruct HL as [v1 [a1 [v2 [a2 [L1 [L2 L3]]]]]].
    destruct HP as [P1 [P2 [P3 [P4 [P5 P6]]]]]. cbn [wfs stok refs drefs] in *.
    rewrite !andb_true_iff in P1. destruct P1 as [[[[[W1 W2] W3] W4] W5] W6]. destruct P2 as [S1 [S2 S3]].
    pose proof (lay_le _ _ _ _ _ _ _ _ _ L1) as LE1. pose proof (lay_le _ _ _ _ _ _ _ _ _ L2) as LE2.
    pose proof (lay_le _ _ _ _ _ _ _ _ _ L3) as LE3.
    assert (PA : pre (V := V) (W := W) None e1).
    { apply (pre_intro (D := D) Hbv Hba); auto; intros; [apply P3|apply P4]; rewrite !in_app_iff; auto. }
    assert (PB : pre (V := V) (W := W) None e2).
    { apply (pre_intro (D := D) Hbv Hba); auto; intros; [apply P3|apply P4]; rewrite !in_app_iff; auto. }
    assert (PC : pre (V := V) (W := W) None e3).
    { apply (pre_intro (D := D) Hbv Hba); auto; intros; [apply P3|apply P4]; rewrite !in_app_iff; auto. }
    assert (A1 : alc m bv v v1) by (eapply alc_mono; eauto; lia).
    cbn [feval] in HE. bnd HE X E1. destruct X as [[c' m1] q1]. bnd HE b E2.
    destruct (FS_all Hbv Hba LL e1 None v a' v1 a1 m r al L1 PA HM A1) as [y' [mm [qq [EE Q]]]].
    rewrite E1 in EE. inversion EE; subst y' mm qq. clear EE.
    pose proof (IHe1 None v a' v1 a1 m r al c' m1 q1 L1 PA HM A1 E1) as Z1. cbn [pf].
    destruct (pf D None e1 r) as [[t1 r1] p1] eqn:EP1. destruct Q as [_ [_ [M1 [R1 [_ [G1 F1]]]]]].
    destruct (refR_read _ _ _ _ _ _ _ _ M1 R1) as [RD LD]. rewrite RD in E2. inversion E2; subst b. clear E2.
    destruct (G1 ltac:(now destruct e1)) as [-> _].
    assert (TP : exists l, tp t1 = PL l).
    { clear - EP1 W5. destruct e1; try discriminate W5.
      - cbn [pf] in EP1. inversion EP1. eauto.
      - cbn [pf] in EP1. inversion EP1. eauto.
      - rewrite pf_comp in EP1. cbv zeta in EP1. destruct (pfs D es r) as [[[? ?] ?] ?]. destruct (kf _ _ _ _ _).
        inversion EP1. cbn. eauto. }
    destruct TP as [lc TP]. rewrite TP in *. cbn [rdp] in *. cbn [fst] in Z1.
    destruct (ntrue N (hd0 N lc)) eqn:NT.
    + bnd HE X E2. destruct X as [[a3 m2] q2]. inversion HE; subst.
      pose proof (IHe2 None v1 a1 v2 a2 m1 r1 al a3 m' q0 L2 PB M1 ltac:(eapply alc_fr; [exact F1|]; eapply alc_mono; [exact HA|lia..]) E2) as Z2.
      destruct (pf D None e2 r1) as [[t2 r2] p2]. cbn [fst] in *. unfold sk in *. cbn [amap skp tts]. rewrite TP, NT. congruence.
    + bnd HE X E2. destruct X as [[a3 m2] q2]. inversion HE; subst.
      pose proof (IHe3 None v2 a2 v' a0 m1 r1 al a3 m' q0 L3 PC M1 ltac:(eapply alc_fr; [exact F1|]; eapply alc_mono; [exact HA|lia..]) E2) as Z2.
      destruct (pf D None e3 r1) as [[t2 r2] p2]. cbn [fst] in *. unfold sk in *. cbn [amap skp tts]. rewrite TP, NT. congruence.
Qed.
End State.

(** ** Flattening *)
Section Flat.
Context {N : num}.
Notation T := (carrier N).
Notation E := (expr T (ann N)).
Notation env := (nat -> T).
Variable D : env.

Fixpoint flatt {A} (e : expr T A) (t : tape N) {struct e} : list (tape N) :=
  match e with
  | EGlue _ l r => match tts t with [tl; tr] => flatt l tl ++ flatt r tr | _ => [] end
  | EFor _ _ es =>
      match es with
      | [] => [t]
      | _ :: _ => (fix go (es : list (expr T A)) ts {struct es} :=
                     match es, ts with
                     | y :: l, ty :: lt => flatt y ty ++ go l lt
                     | _, _ => []
                     end) es (tts t)
      end
  | _ => [t]
  end.
Definition flatts {A} : list (expr T A) -> list (tape N) -> list (tape N) :=
  fix go es ts := match es, ts with
                  | y :: l, ty :: lt => flatt y ty ++ go l lt
                  | _, _ => []
                  end.
Lemma flatt_for {A} (a : A) s es t : es <> [] -> flatt (EFor a s es) t = flatts es (tts t).
Proof. destruct es; [congruence|reflexivity]. Qed.
Lemma stmts_for {A} (a : A) s (es : list (expr T A)) : es <> [] -> stmts (EFor a s es) = flat_map stmts es.
Proof. destruct es; [congruence|reflexivity]. Qed.
Lemma stmts_ne {A} (e : expr T A) : stmts e <> [].
Proof.
  induction e using expr_ind'; cbn; try discriminate.
  - intros H. apply app_eq_nil in H. now destruct H.
  - destruct H as [|y l HY H]; [discriminate|]. cbn. intros X. apply app_eq_nil in X. now destruct X.
Qed.

Lemma pfsf_cons (y : E) l r p0 : pfsf D (y :: l) r p0 =
  (let '(t, r1, p) := pf D None y r in let '(ts, r2, p2) := pfsf D l r1 p in (t :: ts, r2, p2)).
Proof. reflexivity. Qed.
Lemma pfsf_app (l1 : list E) : forall l2 r p0, pfsf D (l1 ++ l2) r p0 =
  (let '(ts1, r1, p1) := pfsf D l1 r p0 in let '(ts2, r2, p2) := pfsf D l2 r1 p1 in (ts1 ++ ts2, r2, p2)).
Proof.
  induction l1 as [|y l1 IH]; intros l2 r p0.
  - cbn [app]. change (pfsf D [] r p0) with (@nil (tape N), r, p0). cbv beta iota. now destruct (pfsf D l2 r p0) as [[? ?] ?].
  - cbn [app]. rewrite !pfsf_cons. destruct (pf D None y r) as [[t r1] p]. rewrite IH.
    destruct (pfsf D l1 r1 p) as [[ts1 r2] p1]. now destruct (pfsf D l2 r2 p1) as [[? ?] ?].
Qed.
Lemma pfsf_len (l : list E) : forall r p0 ts r' p, pfsf D l r p0 = (ts, r', p) -> length ts = length l.
Proof.
  induction l as [|y l IH]; intros r p0 ts r' p H.
  - inversion H. reflexivity.
  - rewrite pfsf_cons in H. destruct (pf D None y r) as [[t r1] p1].
    destruct (pfsf D l r1 p1) as [[ts1 r2] p2] eqn:X. inversion H; subst. cbn. f_equal. eapply IH; eauto.
Qed.
Lemma pfsf_start (l : list E) r p0 p1 : l <> [] -> pfsf D l r p0 = pfsf D l r p1.
Proof. destruct l; [congruence|reflexivity]. Qed.

Definition PFL (e : E) : Prop := forall r t r' p p0, pf D None e r = (t, r', p) ->
  pfsf D (stmts e) r p0 = (flatt e t, r', p).
Lemma PFLs es : Forall PFL es -> forall r ts r' p p0, pfsf D es r p0 = (ts, r', p) ->
  pfsf D (flat_map stmts es) r p0 = (flatts es ts, r', p).
Proof.
  induction 1 as [|y l HY H IH]; intros r ts r' p p0 HE.
  - inversion HE. reflexivity.
  - rewrite pfsf_cons in HE. destruct (pf D None y r) as [[t r1] p1] eqn:E1.
    destruct (pfsf D l r1 p1) as [[ts1 r2] p2] eqn:E2. inversion HE; subst.
    cbn [flat_map]. rewrite pfsf_app, (HY _ _ _ _ p0 E1). now rewrite (IH _ _ _ _ _ E2).
Qed.
Lemma PFL_all e : PFL e.
Proof.
  induction e using expr_ind'; intros r t r' p p0 HE;
    try (cbn [stmts flatt]; rewrite pfsf_cons, HE; reflexivity).
  - cbn [pf] in HE. destruct (pf D None e1 r) as [[t1 r1] p1] eqn:E1. destruct (pf D None e2 r1) as [[t2 r2] p2] eqn:E2.
    cbn [px wx] in HE. inversion HE; subst. cbn [stmts flatt tts].
    now rewrite pfsf_app, (IHe1 _ _ _ _ p0 E1), (IHe2 _ _ _ _ p1 E2).
  - destruct es as [|y l].
    + cbn [stmts flatt]. rewrite pfsf_cons, HE. reflexivity.
    + rewrite pf_for in HE. cbv zeta in HE. 
      destruct (pfsf D (y :: l) r _) as [[ts r1] p1] eqn:E1. cbn [px wx] in HE. inversion HE; subst.
      rewrite stmts_for, flatt_for by discriminate. cbn [tts].
      rewrite (pfsf_start _ _ p0 (PL [])); [apply (PFLs _ H _ _ _ _ _ E1)|].
      cbn. intros X. apply app_eq_nil in X. now apply (stmts_ne y).
Qed.

(** Backward *)
Notation z e := (repeat (n0 N) (size (shape_of e))).
Lemma pfgo_cons d s (y w : E) l t ts r a : pfgo d s (y :: w :: l) (t :: ts) r a =
  (let '(q, r1, a1) := pfgo d s (w :: l) ts r a in let '(_, r2, a2) := pb None y t (z y) r1 a1 in (q, r2, a2)).
Proof. reflexivity. Qed.
Lemma pfgo_app d d' s (l1 : list E) : forall ts1 l2 ts2 r a, l1 <> [] -> l2 <> [] -> length ts1 = length l1 ->
  pfgo d s (l1 ++ l2) (ts1 ++ ts2) r a =
  (let '(q, r1, a1) := pfgo d s l2 ts2 r a in
   let '(_, r2, a2) := pfgo d' (z (last l1 (EVar scl 0))) l1 ts1 r1 a1 in (q, r2, a2)).
Proof.
  induction l1 as [|y l1 IH]; intros ts1 l2 ts2 r a N1 N2 HL; [congruence|].
  destruct ts1 as [|t ts1]; [discriminate|]. injection HL as HL. cbn [app].
  destruct l1 as [|y2 l1].
  - destruct ts1; [|discriminate]. destruct l2 as [|w l2]; [congruence|]. cbn [app last]. rewrite pfgo_cons. reflexivity.
  - change ((y2 :: l1) ++ l2) with (y2 :: (l1 ++ l2)). rewrite pfgo_cons.
    change (y2 :: (l1 ++ l2)) with ((y2 :: l1) ++ l2). rewrite IH by (auto; discriminate).
    destruct (pfgo d s l2 ts2 r a) as [[q r1] a1].
    change (last (y :: y2 :: l1) (EVar scl 0)) with (last (y2 :: l1) (EVar scl 0)). rewrite pfgo_cons.
    destruct (pfgo d' _ (y2 :: l1) ts1 r1 a1) as [[q2 r2] a2]. now destruct (pb None y t _ r2 a2) as [[? ?] ?].
Qed.

Lemma last_app {X} (l1 l2 : list X) d : l2 <> [] -> last (l1 ++ l2) d = last l2 d.
Proof.
  intros H. induction l1 as [|x l1 IH]; [reflexivity|]. cbn [app].
  destruct (l1 ++ l2) as [|y l] eqn:E; [apply app_eq_nil in E; now destruct E|]. exact IH.
Qed.
Lemma last_nth {X} (l : list X) d : last l d = nth (length l - 1) l d.
Proof.
  induction l as [|x l IH]; [reflexivity|]. destruct l as [|y l]; [reflexivity|].
  change (last (x :: y :: l) d) with (last (y :: l) d). rewrite IH. cbn. now rewrite Nat.sub_0_r.
Qed.
Lemma for_last {A} (a : A) s (es : list (expr T A)) : forallb wfs es = true -> for_shapes s (map shape_of es) = true ->
  es <> [] -> size (shape_of (last es (EVar scl 0))) = size (shape_of (EFor a s es)).
Proof.
  intros HW HS HN. cbn [shape_of].
  rewrite <- (for_iter s (map shape_of es)).
  - destruct (exists_last HN) as [l' [z ->]]. rewrite map_app. cbn [map]. now rewrite !last_last.
  - rewrite forallb_map. apply forallb_forall. intros y Hy. rewrite forallb_forall in HW. specialize (HW y Hy).
    rewrite <- (shape_of_amap (fun _ => ann0 N) y). apply wfs_shape. now rewrite wfs_amap.
  - exact HS.
  - intros Q. apply map_eq_nil in Q. auto.
Qed.
Lemma stmts_shape {A} (e : expr T A) : wfs e = true -> size (shape_of (last (stmts e) (EVar scl 0))) = size (shape_of e).
Proof.
  induction e using expr_ind'; intros HW; try reflexivity.
  - cbn [wfs stmts shape_of] in *. rewrite !andb_true_iff in HW. rewrite last_app by apply stmts_ne. apply IHe2. tauto.
  - destruct es as [|y l]; [reflexivity|]. rewrite stmts_for by discriminate.
    cbn [wfs] in HW. rewrite !andb_true_iff in HW. destruct HW as [[[W1 W2] _] _].
    rewrite <- (for_last a s (y :: l)) by (auto; discriminate). clear W2.
    revert y H W1. induction l as [|w l IH]; intros y H W1; inversion H as [|? ? HY H2]; subst.
    + cbn. rewrite app_nil_r. apply HY. cbn in W1. now rewrite andb_true_r in W1.
    + change (flat_map stmts (y :: w :: l)) with (stmts y ++ flat_map stmts (w :: l)).
      rewrite last_app; [|cbn; intros X; apply app_eq_nil in X; now apply (stmts_ne w)].
      change (last (y :: w :: l) (EVar scl 0)) with (last (w :: l) (EVar (T := T) (A := A) scl 0)).
      apply IH; auto. cbn [forallb] in *. apply andb_true_iff in W1. tauto.
Qed.

Lemma pfgo_d d d' s (l : list E) : forall ts r a, l <> [] -> length ts = length l -> pfgo d s l ts r a = pfgo d' s l ts r a.
Proof.
  induction l as [|y l IH]; intros [|t ts] r a NE HL; try discriminate; [congruence|].
  destruct l as [|w l]; [reflexivity|]. rewrite !pfgo_cons, IH; auto; discriminate.
Qed.

Definition PBL (e : E) : Prop := forall r0 t r0' p d s r a, wfs e = true -> pf D None e r0 = (t, r0', p) ->
  pb None e t s r a = pfgo d s (stmts e) (flatt e t) r a.
Lemma PBLs es : Forall PBL es -> forallb wfs es = true -> forall r0 p0 ts r0' p d s r a, pfsf D es r0 p0 = (ts, r0', p) ->
  pfgo d s es ts r a = pfgo d s (flat_map stmts es) (flatts es ts) r a.
Proof.
  induction 1 as [|y l HY H IH]; intros HW r0 p0 ts r0' p d s r a HE; [reflexivity|].
  cbn [forallb] in HW. apply andb_true_iff in HW. destruct HW as [W1 W2].
  rewrite pfsf_cons in HE. destruct (pf D None y r0) as [[t r1] p1] eqn:E1.
  destruct (pfsf D l r1 p1) as [[ts1 r2] p2] eqn:E2. inversion HE; subst.
  destruct l as [|w l].
  - inversion E2; subst. cbn [flat_map flatts]. rewrite !app_nil_r. cbn [pfgo]. now apply (HY r0 t r0' p d s r a).
  - rewrite pfgo_cons.
    change (flat_map stmts (y :: w :: l)) with (stmts y ++ flat_map stmts (w :: l)).
    change (flatts (y :: w :: l) (t :: ts1)) with (flatt y t ++ flatts (w :: l) ts1).
    rewrite (pfgo_app d d).
    + rewrite (IH W2 _ _ _ _ _ d s r a E2). destruct (pfgo d s (flat_map stmts (w :: l)) (flatts (w :: l) ts1) r a) as [[q r3] a3].
      rewrite (HY r0 t r1 p1 d _ r3 a3 W1 E1). now rewrite (stmts_shape y W1).
    + apply stmts_ne.
    + cbn. intros X. apply app_eq_nil in X. now apply (stmts_ne w).
    + pose proof (PFL_all y _ _ _ _ p0 E1) as Q. now apply pfsf_len in Q.
Qed.
Lemma PBL_all e : PBL e.
Proof.
  induction e using expr_ind'; intros r0 t r0' p d s0 r a0 HW HE; try reflexivity.
  - cbn [wfs] in HW. rewrite !andb_true_iff in HW. destruct HW as [[[W1 W2] _] _].
    cbn [pf] in HE. destruct (pf D None e1 r0) as [[t1 r1] p1] eqn:E1. destruct (pf D None e2 r1) as [[t2 r2] p2] eqn:E2.
    cbn [px wx] in HE. inversion HE; subst. cbn [stmts flatt tts pb].
    rewrite (pfgo_app d d); [|apply stmts_ne|apply stmts_ne|].
    + rewrite (IHe2 r1 t2 r0' p d s0 r a0 W2 E2). destruct (pfgo d s0 (stmts e2) (flatt e2 t2) r a0) as [[q r3] a3].
      rewrite (IHe1 r0 t1 r1 p1 d _ r3 a3 W1 E1). rewrite (stmts_shape e1 W1).
      now destruct (pfgo d _ (stmts e1) (flatt e1 t1) r3 a3) as [[? ?] ?].
    + pose proof (PFL_all e1 _ _ _ _ p1 E1) as Q. now apply pfsf_len in Q.
  - destruct es as [|y l]; [reflexivity|].
    cbn [wfs] in HW. rewrite !andb_true_iff in HW. destruct HW as [[[W1 _] _] _].
    rewrite pf_for in HE. cbv zeta in HE. 
    destruct (pfsf D (y :: l) r0 _) as [[ts r1] p1] eqn:E1. cbn [px wx] in HE. inversion HE; subst.
    rewrite pb_for, stmts_for, flatt_for by discriminate. cbn [tts tp px].
    rewrite (PBLs _ H W1 _ _ _ _ _ _ s0 r a0 E1).
    transitivity (pfgo p s0 (flat_map stmts (y :: l)) (flatts (y :: l) ts) r a0).
    { now destruct (pfgo p s0 _ _ r a0) as [[? ?] ?]. }
    pose proof (PFLs (y :: l) ltac:(apply Forall_forall; intros; apply PFL_all) _ _ _ _ _ E1) as Q. apply pfsf_len in Q.
    apply pfgo_d; [|exact Q]. cbn. intros X. apply app_eq_nil in X. now apply (stmts_ne y).
Qed.
End Flat.

Section FlatState.
Context {N : num}.
Notation T := (carrier N).
Notation E := (expr T (ann N)).
Notation env := (nat -> T).
Lemma stmts_amap {X A B} (f : A -> B) (e : expr X A) : stmts (amap f e) = map (amap f) (stmts e).
Proof.
  induction e using expr_ind'; try reflexivity.
  - cbn [amap stmts]. now rewrite map_app, IHe1, IHe2.
  - destruct es as [|y l]; [reflexivity|].
    change (stmts (amap f (EFor a s (y :: l)))) with (flat_map stmts (map (amap f) (y :: l))).
    change (stmts (EFor a s (y :: l))) with (flat_map stmts (y :: l)).
    induction H as [|w l' HY H IH]; [reflexivity|]. cbn [map flat_map]. now rewrite map_app, HY, IH.
Qed.
Lemma stmts_in {X A} (e : expr X A) : forall y, In y (stmts e) -> stmts y = [y].
Proof.
  induction e using expr_ind'; cbn; intros y HY;
    try (destruct HY as [<-|[]]; reflexivity).
  - apply in_app_iff in HY. destruct HY; auto.
  - destruct es as [|w l]; [destruct HY as [<-|[]]; reflexivity|].
    change (In y (flat_map stmts (w :: l))) in HY. apply in_flat_map in HY. destruct HY as [b [B1 B2]].
    rewrite Forall_forall in H. eauto.
Qed.

Variable D : env.
Definition SKF (e : E) : Prop := forall r t r' p, pf D None e r = (t, r', p) ->
  stmts (skp (sk e) t) = skps (map sk (stmts e)) (flatt e t).
Lemma SKFs es : Forall SKF es -> forall r ts r' p p0, pfsf D es r p0 = (ts, r', p) ->
  flat_map stmts (skps (map sk es) ts) = skps (map sk (flat_map stmts es)) (flatts es ts).
Proof.
  induction 1 as [|y l HY H IH]; intros r ts r' p p0 HE.
  - inversion HE. reflexivity.
  - rewrite pfsf_cons in HE. destruct (pf D None y r) as [[t r1] p1] eqn:E1.
    destruct (pfsf D l r1 p1) as [[ts1 r2] p2] eqn:E2. inversion HE; subst.
    cbn [flat_map map skps flatts]. rewrite map_app, skps_app.
    + change ((fix go (es : list (expr T (sst N))) (ts : list (tape N)) {struct es} : list (expr T (sst N)) :=
      match es with | [] => [] | y0 :: l0 => match ts with | [] => [] | ty :: lt => skp y0 ty :: go l0 lt end end) (map sk l) ts1)
        with (skps (map sk l) ts1).
      cbn [flat_map]. f_equal; [eapply HY; eauto|eapply IH; eauto].
    + rewrite map_length. pose proof (PFL_all D y _ _ _ _ p1 E1) as Q. now apply pfsf_len in Q.
Qed.
Lemma SKF_all e : SKF e.
Proof.
  induction e using expr_ind'; intros r t r' p HE; try reflexivity;
    try (cbn [stmts flatt map skps]; unfold sk; cbn [amap skp];
         repeat match goal with |- context [match ?l with [] => _ | _ :: _ => _ end] => destruct l; try reflexivity end; fail).
  - cbn [pf] in HE. destruct (pf D None e1 r) as [[t1 r1] p1] eqn:E1. destruct (pf D None e2 r1) as [[t2 r2] p2] eqn:E2.
    cbn [px wx] in HE. inversion HE; subst. unfold sk at 1. cbn [amap skp tts stmts flatt].
    change (amap st e1) with (sk e1). change (amap st e2) with (sk e2).
    rewrite map_app, skps_app.
    + now rewrite (IHe1 _ _ _ _ E1), (IHe2 _ _ _ _ E2).
    + rewrite map_length. pose proof (PFL_all D e1 _ _ _ _ p1 E1) as Q. now apply pfsf_len in Q.
  - destruct es as [|y l]; [reflexivity|].
    rewrite pf_for in HE. cbv zeta in HE.
    destruct (pfsf D (y :: l) r _) as [[ts r1] p1] eqn:E1. cbn [px wx] in HE. inversion HE; subst.
    pose proof (pfsf_len _ _ _ _ _ _ _ E1) as LL.
    rewrite sk_for, skp_for. cbn [tts].
    rewrite stmts_for by (destruct ts; [discriminate LL|cbn; discriminate]).
    rewrite stmts_for, flatt_for by discriminate. cbn [tts].
    eapply SKFs; eauto.
  - cbn [stmts flatt map skps]. unfold sk. cbn [amap skp]. destruct (tts t) as [|tc [|tb [|]]]; try reflexivity.
    destruct (tp tc); [reflexivity|]. now destruct (ntrue _ _).
Qed.
End FlatState.
