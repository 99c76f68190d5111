(** Backward passes that rewrite value caches (iterated products): the caches stay usable. *)
From Verif Require Import Base Num Expr Node Stat Machine Wf Pure LBase LKind LSimDef LMem LSimF LSimB Session LTop LBind LUser Adj LAdj.

Section Keep.
Context {N : num}.
Notation T := (carrier N).
Notation E := (expr T (ann N)).
Variables bv ba : nat.
Variable V : nat -> Prop.
Hypothesis HF : fresh bv ba.

(** Values are rewritten in the cells [v, v') of the cache only; nothing is freed. *)
Definition kq v v' (m m' : mem T) : Prop :=
  (forall o, ~ (v <= o < v') -> m' bv o = m bv o) /\
  (forall b o, b <> 0 -> b <> 1 -> b <> ba -> b <> bv -> m' b o = m b o) /\
  (forall b o, m b o <> None -> m' b o <> None).
Lemma kq_refl v v' m : kq v v' m m. Proof. repeat split; auto. Qed.
Lemma kq_trans v v' m1 m2 m3 : kq v v' m1 m2 -> kq v v' m2 m3 -> kq v v' m1 m3.
Proof. intros [A1 [B1 C1]] [A2 [B2 C2]]. repeat split; intros; auto; [rewrite A2, A1|rewrite B2, B1]; auto. Qed.
Lemma kq_weak v v' w w' m m' : w <= v -> v' <= w' -> kq v v' m m' -> kq w w' m m'.
Proof. intros H1 H2 [A [B C]]. split; [|auto]. intros o Ho. apply A. lia. Qed.
Lemma kq_4 v v' m m' : kq v v' m m' -> forall o, m' 4 o = m 4 o.
Proof. intros [A [B C]] o. destruct HF. apply B; lia. Qed.

Lemma wrn_kq b (l : list T) : forall o (m m' : mem T), wrn m b o l = Ok m' ->
  (forall b' o', b' <> b \/ o' < o \/ o + length l <= o' -> m' b' o' = m b' o') /\ (forall b o, m b o <> None -> m' b o <> None).
Proof.
  induction l as [|x l IH]; intros o m m' H; cbn in H; [inversion H; auto|].
  apply bindR_ok in H. destruct H as [m1 [H1 H2]]. destruct (IH _ _ _ H2) as [A B].
  unfold wr1 in H1. destruct (m b o) eqn:Q; [|discriminate]. inversion H1; subst m1. split.
  - intros b' o' Ho. cbn [length] in Ho. rewrite A by lia. destruct (Nat.eqb_spec b' b), (Nat.eqb_spec o' o); cbn; auto. lia.
  - intros b' o' Ho. apply B. destruct (_ && _); [discriminate|exact Ho].
Qed.
Lemma store_kq v v' m p l m' : store m p l = Ok m' ->
  (exists b c, p = Ptr b c /\ (b = 0 \/ b = 1 \/ b = ba \/ b = bv /\ v <= c /\ c + length l <= v')) -> kq v v' m m'.
Proof.
  intros H [b [c [-> Hb]]]. cbn in H. destruct (wrn_kq _ _ _ _ _ H) as [A B]. destruct HF as [F1 F2].
  repeat split; auto; intros; apply A; lia.
Qed.
Lemma var_kq v v' sh o s m m' : var_beval sh o s m = Ok m' -> kq v v' m m'.
Proof.
  unfold var_beval. intros H. apply bindR_ok in H. destruct H as [s' [_ H]]. apply bindR_ok in H. destruct H as [a [_ H]].
  eapply store_kq; [exact H|]. eauto 6.
Qed.
Lemma load_len (m : mem T) p n (l : list T) : load m p n = Ok l -> length l = n.
Proof.
  destruct p as [|b o]; [|intros H; apply load_inv in H; apply H]. destruct n; cbn; [intros H; inversion H; reflexivity|discriminate].
Qed.
Lemma load_alive (m m' : mem T) p n (l : list T) : (forall b o, m b o <> None -> m' b o <> None) -> load m p n = Ok l ->
  exists l' : list T, load m' p n = Ok l' /\ length l' = n.
Proof.
  intros H HL. destruct p as [|b o].
  - exists l. pose proof (load_len _ _ _ _ HL). destruct n; cbn in *; [auto|discriminate].
  - apply load_inv in HL. destruct HL as [L R].
    assert (A : forall i, o <= i < o + n -> m' b i <> None) by (intros; apply H; rewrite R by auto; discriminate).
    clear - A. revert o A. induction n as [|n IH]; intros o A; [exists []; auto|].
    destruct (m' b o) as [x|] eqn:Q; [|destruct (A o); [lia|auto]]. destruct (IH (S o)) as [l' [R L]]; [intros; apply A; lia|].
    exists (x :: l'). cbn in *. unfold rd1. rewrite Q. cbn. rewrite R. cbn. auto.
Qed.
Lemma fold_map2_len (ls : list (list T)) : forall acc, length (fold_left (map2 (nmul N)) ls acc) <= length acc.
Proof.
  induction ls as [|l ls IH]; intros acc; cbn; [lia|]. rewrite IH. clear. revert l. induction acc; intros [|b l]; cbn; try lia. specialize (IHacc l). lia.
Qed.
Lemma map2_len (f l : list T) : length (map2 (nmul N) f l) <= length f.
Proof. exact (fold_map2_len [l] f). Qed.
Lemma kpre_len k i vs (f f1 : list T) : kpre k i vs f = Some f1 -> length f1 <= length f.
Proof.
  destruct k; cbn; try discriminate. destruct (anyzero _); [|discriminate]. intros H. inversion H. subst f1.
  rewrite fold_map2_len. now rewrite repeat_length.
Qed.
Lemma kpre_aux k i vs (f f1 : list T) : kpre k i vs f = Some f1 -> kaux k = false.
Proof. destruct k; cbn; try discriminate. auto. Qed.

Notation K := (K bv ba V).
Notation Ks := (Ks bv ba V).
Notation lay := (lay bv ba).

Definition KS (e : E) : Prop := forall x t s m m' v a v' a', wfs e = true -> K x e t m v a v' a' -> beval e s m = Ok m' ->
  (exists t', K x e t' m' v a v' a') /\ kq v v' m m'.

(** Operands of a compute node, last first; [pv, pv') is the node's own cache. *)
Lemma bgo_K k an es n ss cs seed p0 v1 a1 v' l : Forall KS l -> forallb wfs l = true ->
  (exists b c, av an = Ptr b c /\ (b = 0 \/ b = bv /\ c = v1 /\ v1 + n = v')) -> (kaux k = true -> exists c, xa an = Ptr ba c) -> v1 <= v' ->
  length (snd (fst p0)) = n ->
  forall i ts w b m m', Ks m v1 a1 l ts w b -> bgo k an es n ss cs seed p0 i l m = Ok m' ->
  (exists ts', Ks m' v1 a1 l ts' w b) /\ kq w v' m m'.
Proof.
  intros HK HW HA HX HV HP. induction HK as [|y l HY HK IH]; intros i ts w b m m' H HB; cbn [bgo] in HB.
  - inversion HB; subst. split; [eauto|apply kq_refl].
  - cbn in HW. apply andb_prop in HW. destruct HW as [WY WL].
    destruct ts as [|ty ts]; [destruct H|]. destruct H as [w2 [b2 [KY KL]]]. change (Ks m v1 a1 l ts w2 b2) in KL.
    assert (LE1 := K_le _ _ _ _ _ _ _ _ KY). assert (LE2 := Ks_le _ _ _ _ _ _ _ KL).
    apply bindR_ok in HB. destruct HB as [m1 [B1 HB]]. destruct (IH WL _ _ _ _ _ _ KL B1) as [[ts' KL1] Q1].
    assert (KY1 : K None y ty m1 w b w2 b2) by (eapply K_frame; [| |exact KY]; intros; [apply (proj1 Q1); lia|eapply kq_4; eauto]).
    apply bindR_ok in HB. destruct HB as [[[vs f] ad] [P HB]].
    assert (LF : length f = n).
    { destruct (klazy k ss); [|rewrite <- HP; now inversion P]. unfold pack in P.
      apply bindR_ok in P. destruct P as [? [_ P]]. apply bindR_ok in P. destruct P as [f' [P1 P]].
      apply bindR_ok in P. destruct P as [? [_ P]]. inversion P; subst. eapply load_len; eauto. }
    assert (SQ : forall ma mb g, store ma (av an) g = Ok mb -> length g <= n -> kq v1 v' ma mb).
    { intros ma mb g HS HG. eapply store_kq; [exact HS|]. destruct HA as [b0 [c [-> HA]]]. exists b0, c. split; [reflexivity|]. lia. }
    apply bindR_ok in HB. destruct HB as [m2 [B2 HB]].
    assert (Q2 : kq v1 v' m1 m2).
    { destruct (kpre k i vs f) as [f1|] eqn:KP; [|inversion B2; apply kq_refl]. eapply SQ; [exact B2|]. apply kpre_len in KP. lia. }
    apply bindR_ok in HB. destruct HB as [m3 [B3 HB]].
    assert (KY2 : K None y ty m2 w b w2 b2) by (eapply K_frame; [| |exact KY1]; intros; [apply (proj1 Q2); lia|eapply kq_4; eauto]).
    assert (KL2 : Ks m2 v1 a1 l ts' w2 b2) by (eapply Ks_frame; [| |exact KL1]; intros; [apply (proj1 Q2); lia|eapply kq_4; eauto]).
    assert (G3 : (exists ty', K None y ty' m3 w b w2 b2) /\ kq w w2 m2 m3).
    { destruct (kseed _ _ _ _ _ _ _ _) as [s2|]; [|inversion B3; subst; split; [eauto|apply kq_refl]].
      apply bindR_ok in B3. destruct B3 as [s3 [_ B3]]. apply bindR_ok in B3. destruct B3 as [m4 [B4 B5]].
      assert (Q4 : kq w w m2 m4).
      { destruct (kaux k); [|inversion B4; apply kq_refl]. destruct (HX eq_refl) as [c HX']. rewrite HX' in B4.
        eapply store_kq; [exact B4|]. eauto 8. }
      destruct (HY None ty s3 m4 m3 w b w2 b2 WY) as [Y1 Y2]; [|exact B5|].
      - eapply K_frame; [| |exact KY2]; intros; [apply (proj1 Q4); lia|eapply kq_4; eauto].
      - split; [exact Y1|]. eapply kq_trans; [|exact Y2]. eapply kq_weak; [| |exact Q4]; lia. }
    destruct G3 as [[ty' KY3] Q3].
    assert (KL3 : Ks m3 v1 a1 l ts' w2 b2) by (eapply Ks_frame; [| |exact KL2]; intros; [apply (proj1 Q3); lia|eapply kq_4; eauto]).
    assert (Q4 : kq v1 v' m3 m').
    { destruct (kpre k i vs f) as [f1|] eqn:KP; [|inversion HB; apply kq_refl].
      apply bindR_ok in HB. destruct HB as [f2 [B4 HB]]. apply bindR_ok in HB. destruct HB as [v2 [B5 HB]].
      eapply SQ; [exact HB|]. apply load_len in B4. pose proof (map2_len f2 v2). lia. }
    split.
    + exists (ty' :: ts'). exists w2, b2. split.
      * eapply K_frame; [| |exact KY3]; intros; [apply (proj1 Q4); lia|eapply kq_4; eauto].
      * change (Ks m' v1 a1 l ts' w2 b2). eapply Ks_frame; [| |exact KL3]; intros; [apply (proj1 Q4); lia|eapply kq_4; eauto].
    + eapply kq_trans; [eapply kq_weak; [| |exact Q1]; lia|]. eapply kq_trans; [eapply kq_weak; [| |exact Q2]; lia|].
      eapply kq_trans; [eapply kq_weak; [| |exact Q3]; lia|]. eapply kq_weak; [| |exact Q4]; lia.
Qed.

Lemma fgo_K seed v' a' l : Forall KS l -> forallb wfs l = true ->
  forall ts w b m m', Ks m v' a' l ts w b -> fgo seed l m = Ok m' ->
  (exists ts', Ks m' v' a' l ts' w b) /\ kq w v' m m'.
Proof.
  intros HK HW. induction HK as [|y l HY HK IH]; intros ts w b m m' H HB; cbn [fgo] in HB.
  - inversion HB; subst. split; [eauto|apply kq_refl].
  - cbn in HW. apply andb_prop in HW. destruct HW as [WY WL].
    destruct ts as [|ty ts]; [destruct H|]. destruct H as [w2 [b2 [KY KL]]]. change (Ks m v' a' l ts w2 b2) in KL.
    assert (LE1 := K_le _ _ _ _ _ _ _ _ KY). assert (LE2 := Ks_le _ _ _ _ _ _ _ KL).
    destruct l as [|y2 l].
    + destruct ts; [|destruct KL]. destruct KL as [-> ->]. destruct (HY _ _ _ _ _ _ _ _ _ WY KY HB) as [[ty' A] B].
      split; [|exact B]. exists [ty'], w2, b2. split; [exact A|]. split; reflexivity.
    + apply bindR_ok in HB. destruct HB as [m1 [B1 B2]]. change (fgo seed (y2 :: l) m = Ok m1) in B1.
      destruct (IH WL _ _ _ _ _ KL B1) as [[ts' KL1] Q1].
      assert (KY1 : K None y ty m1 w b w2 b2) by (eapply K_frame; [| |exact KY]; intros; [apply (proj1 Q1); lia|eapply kq_4; eauto]).
      destruct (HY _ _ _ _ _ _ _ _ _ WY KY1 B2) as [[ty' A] B]. split.
      * exists (ty' :: ts'), w2, b2. split; [exact A|].
        change (Ks m' v' a' (y2 :: l) ts' w2 b2). eapply Ks_frame; [| |exact KL1]; intros; [apply (proj1 B); lia|eapply kq_4; eauto].
      * eapply kq_trans; [eapply kq_weak; [| |exact Q1]; lia|]. eapply kq_weak; [| |exact B]; lia.
Qed.

Lemma Ks_last (es : list E) : forall m ts v a v' a' y rl, Ks m v' a' es ts v a -> rev es = y :: rl ->
  exists ty tl w b, rev ts = ty :: tl /\ K None y ty m w b v' a' /\ v <= w.
Proof.
  induction es as [|e l IH]; intros m ts v a v' a' y rl H R; [discriminate|].
  destruct ts as [|t ts]; [destruct H|]. destruct H as [v2 [a2 [H1 H2]]]. change (Ks m v' a' l ts v2 a2) in H2.
  pose proof (K_le _ _ _ _ _ _ _ _ H1). cbn [rev] in *. destruct (rev l) as [|y1 r1] eqn:RL.
  - cbn in R. inversion R; subst y rl. assert (l = []) by (apply (f_equal (@rev _)) in RL; rewrite rev_involutive in RL; exact RL). subst l.
    destruct ts; [|destruct H2]. destruct H2 as [-> ->]. exists t, [], v, a. cbn. auto.
  - cbn in R. inversion R; subst y1 rl. destruct (IH _ _ _ _ _ _ _ _ H2 eq_refl) as [ty [tl [w [b [R1 [K1 L1]]]]]].
    exists ty, (tl ++ [t]), w, b. rewrite R1. split; [reflexivity|]. split; [exact K1|lia].
Qed.

Lemma KS_all (e : E) : KS e.
Proof.
  induction e using expr_ind'; intros x t s0 m m' v a0 v' a' HW HK HE.
  - cbn [beval] in HE. assert (Q := var_kq v v' _ _ _ _ _ HE). split; [|exact Q]. exists t.
    eapply K_frame; [| |exact HK]; intros; [|eapply kq_4; eauto]. destruct HK as [_ [-> ->]]. lia.
  - cbn in HE. inversion HE; subst. split; [eauto|apply kq_refl].
  - cbn in HE. inversion HE; subst. split; [eauto|apply kq_refl].
  - destruct es as [|e0 es0]; [cbn in HE; inversion HE; subst; split; [eauto|apply kq_refl]|].
    remember (e0 :: es0) as es eqn:EE. rewrite beval_comp in HE by (subst; discriminate). cbn zeta in HE. clear e0 es0 EE.
    rewrite K_comp in HK. cbn zeta in HK. destruct HK as [HG [Hst [Hpost [Htv [Htp [v1 [a1 [HKs [HX HA]]]]]]]]].
    specialize (HG eq_refl). set (n := size (kshape k (map shape_of es))) in *.
    cbn [wfs] in HW. rewrite !andb_true_iff in HW. destruct HW as [[[HW _] _] _].
    apply bindR_ok in HE. destruct HE as [s1 [_ HE]]. apply bindR_ok in HE. destruct HE as [m1 [HS HE]].
    assert (Q1 : kq v v m m1).
    { destruct (kadj k); [|inversion HS; apply kq_refl]. eapply store_kq; [exact HS|].
      destruct x; [destruct HA as [_ [_ [HA _]]]|destruct HA as [_ [HA _]]; specialize (HA eq_refl)]; eauto 8. }
    assert (LE := Ks_le _ _ _ _ _ _ _ HKs).
    assert (LV : v1 <= v') by (destruct x; [destruct HA as [_ [_ [_ [-> _]]]]|destruct HA as [_ [_ [-> _]]]]; lia).
    assert (KS1 : Ks m1 v1 a1 es (tts t) v a0) by (eapply Ks_frame; [| |exact HKs]; intros; [apply (proj1 Q1); lia|eapply kq_4; eauto]).
    apply bindR_ok in HE. destruct HE as [p0 [P HE]].
    assert (LF : length (snd (fst p0)) = n).
    { unfold pack in P. apply bindR_ok in P. destruct P as [? [_ P]]. apply bindR_ok in P. destruct P as [f' [P1 P]].
      apply bindR_ok in P. destruct P as [? [_ P]]. inversion P; subst. eapply load_len; eauto. }
    assert (HAV : exists b c, av a = Ptr b c /\ (b = 0 \/ b = bv /\ c = v1 /\ v1 + n = v')).
    { destruct x; [destruct HA as [_ [-> _]]|destruct HA as [-> [_ [-> _]]]]; eauto 8. }
    destruct (bgo_K k a es n _ _ s1 p0 v1 a1 v' es H HW HAV (fun q => ex_intro _ _ (HX q)) LV LF _ _ _ _ _ _ KS1 HE) as [[ts' KS2] Q2].
    assert (QQ : kq v v' m m') by (eapply kq_trans; [eapply kq_weak; [| |exact Q1]; lia|exact Q2]).
    split; [|exact QQ]. destruct x as [c|].
    + exists (Tp (tp t) (tv t) (tst t) (told t) ts'). rewrite K_comp. cbn zeta. fold n. cbn [tp tv tst told tts]. rewrite Htp in HG |- *. cbn [px] in HG |- *.
      split; [intros _; exact HG|]. repeat (split; [assumption || reflexivity|]). exists v1, a1. auto.
    + rewrite Htp in HG. cbn [px refR] in HG. destruct HG as [_ [HR _]]. cbn [rdref] in HR.
      destruct (load_alive m m' _ _ _ (proj2 (proj2 QQ)) HR) as [l' [R' L']].
      exists (Tp (PL l') l' (tst t) (told t) ts'). rewrite K_comp. cbn zeta. fold n. cbn [tp tv tst told tts px].
      split; [|repeat (split; [assumption || reflexivity|]); exists v1, a1; auto].
      intros _. cbn [refR rdref]. split; [exact L'|]. split; [exact R'|]. destruct HA as [-> [_ [-> _]]]. right. left. lia.
  - rewrite K_eq in HK. destruct HK as [HG [Htp [ty [Hts HK]]]]. cbn [wfs] in HW. rewrite !andb_true_iff in HW.
    cbn [beval] in HE. apply bindR_ok in HE. destruct HE as [m1 [H1 HE]]. apply bindR_ok in HE. destruct HE as [s1 [_ HE]].
    assert (Q1 := var_kq v v _ _ _ _ _ H1).
    destruct (IHe (Some o) ty s1 m1 m' v a0 v' a' ltac:(tauto)) as [[ty' K1] Q2]; [|exact HE|].
    { eapply K_frame; [| |exact HK]; intros; [apply (proj1 Q1); lia|eapply kq_4; eauto]. }
    assert (LE := K_le _ _ _ _ _ _ _ _ HK).
    split; [|eapply kq_trans; [eapply kq_weak; [| |exact Q1]; lia|exact Q2]].
    exists (Tp (tp t) (tv t) (tst t) (told t) [ty']). rewrite K_eq. cbn [tp tts]. rewrite Htp in HG |- *.
    split; [intros _; exact (HG eq_refl)|]. split; [reflexivity|]. eauto.
  - rewrite K_opeq in HK. destruct HK as [HG [Htp [ty [v1 [a1 [Hts [HK [Hold [XV [XA [EV EA]]]]]]]]]]].
    cbn [wfs] in HW. rewrite !andb_true_iff in HW.
    assert (LE := K_le _ _ _ _ _ _ _ _ HK).
    cbn [beval] in HE. cbn zeta in HE.
    repeat (let Q := fresh "Q" in apply bindR_ok in HE; destruct HE as [? [Q HE]]).
    assert (QA : kq v v m x5).
    { eapply kq_trans; [eapply var_kq; exact Q|]. eapply kq_trans; [eapply store_kq; [exact Q1|]; eauto 8|].
      eapply kq_trans; [eapply store_kq; [exact Q3|]; rewrite XA; eauto 8|]. eapply store_kq; [exact Q4|]. eauto 8. }
    assert (K5 : K None e ty x5 v a0 v1 a1) by (eapply K_frame; [| |exact HK]; intros; [apply (proj1 QA); lia|eapply kq_4; eauto]).
    destruct (IHe None ty _ x5 x8 v a0 v1 a1 ltac:(tauto) K5 Q7) as [[ty' K8] QB].
    assert (QC : kq v v x8 m') by (eapply store_kq; [exact HE|]; eauto 8).
    assert (QQ : kq v v1 m m').
    { eapply kq_trans; [eapply kq_weak; [| |exact QA]; lia|]. eapply kq_trans; [exact QB|]. eapply kq_weak; [| |exact QC]; lia. }
    split; [|eapply kq_weak; [| |exact QQ]; lia].
    exists (Tp (tp t) (tv t) (tst t) (told t) [ty']). rewrite K_opeq. cbn [tp tts told]. rewrite Htp in HG |- *.
    split; [intros _; exact (HG eq_refl)|]. split; [reflexivity|]. exists ty', v1, a1. split; [reflexivity|].
    split; [eapply K_frame; [| |exact K8]; intros; [apply (proj1 QC); lia|eapply kq_4; eauto]|].
    split; [|auto]. rewrite XV in *. eapply load_frame; [|exact Hold]. intros; apply (proj1 QQ); lia.
  - rewrite K_glue in HK. destruct HK as [HG [tl [tr [v1 [a1 [Hts [HK1 [HK2 [Htp AV]]]]]]]]].
    cbn [wfs] in HW. rewrite !andb_true_iff in HW. destruct HW as [[[HW1 HW2] HW3] HW4].
    assert (LE1 := K_le _ _ _ _ _ _ _ _ HK1). assert (LE2 := K_le _ _ _ _ _ _ _ _ HK2).
    cbn [beval] in HE. apply bindR_ok in HE. destruct HE as [m1 [B1 B2]].
    destruct (IHe2 _ _ _ _ _ _ _ _ _ HW2 HK2 B1) as [[tr' KR] Q1].
    assert (KL : K None e1 tl m1 v a0 v1 a1) by (eapply K_frame; [| |exact HK1]; intros; [apply (proj1 Q1); lia|eapply kq_4; eauto]).
    destruct (IHe1 _ _ _ _ _ _ _ _ _ HW1 KL B2) as [[tl' KL'] Q2].
    assert (KR' : K None e2 tr' m' v1 a1 v' a') by (eapply K_frame; [| |exact KR]; intros; [apply (proj1 Q2); lia|eapply kq_4; eauto]).
    split; [|eapply kq_trans; eapply kq_weak; [| |exact Q1| | |exact Q2]; lia].
    exists (Tp (px x (size (shape_of e2)) (tp tr')) (tv t) (tst t) (told t) [tl'; tr']). rewrite K_glue. cbn [tp tts]. split.
    + intros _. specialize (HG eq_refl). destruct x as [c|]; cbn [px] in *.
      * rewrite Htp in HG. exact HG.
      * rewrite AV. rewrite <- getref_dptr by (now destruct (is_const e2)).
        eapply refR_mono with (v := v1) (v' := v'); [lia|lia|]. eapply K_get; eauto.
    + exists tl', tr', v1, a1. auto 6.
  - rewrite K_for in HK. cbv zeta in HK. destruct HK as [HG [HKs [Htp AV]]].
    cbn [wfs] in HW. rewrite !andb_true_iff in HW. destruct HW as [[[HW1 HW2] HW3] HW4].
    rewrite beval_for in HE. destruct (fgo_K s0 v' a' es H HW1 _ _ _ _ _ HKs HE) as [[ts' KS1] Q]. split; [|exact Q].
    exists (Tp (px x (size (iter_shape s (map shape_of es))) (match rev ts' with [] => PL [] | y :: _ => tp y end)) (tv t) (tst t) (told t) ts').
    rewrite K_for. cbv zeta. cbn [tp tts]. split; [|auto]. intros _. specialize (HG eq_refl).
    destruct x as [c|]; cbn [px] in *; [rewrite Htp in HG; exact HG|].
    destruct (rev es) as [|y rl] eqn:R1.
    + assert (es = []) by (apply (f_equal (@rev _)) in R1; rewrite rev_involutive in R1; exact R1). subst es.
      destruct ts'; [|destruct KS1]. destruct (tts t); [|destruct HKs]. cbn in *. rewrite Htp in HG. cbn in HG.
      destruct HG as [G1 [G2 G3]]. split; [exact G1|]. split; [|exact G3].
      rewrite <- G1 in G2 |- *. destruct (av a); exact G2.
    + destruct (Ks_last _ _ _ _ _ _ _ _ _ KS1 R1) as [ty [tl [w [b [R2 [KY LW]]]]]]. rewrite R2, AV.
      assert (YE : y = last es (EVar scl 0) /\ In y es /\ es <> []).
      { split; [|split; [apply in_rev; rewrite R1; now left|destruct es; [discriminate|discriminate]]].
        rewrite <- (rev_involutive es), R1. cbn [rev]. now rewrite last_last. }
      destruct YE as [Y1 [Y2 Y3]].
      assert (SZ : size (iter_shape s (map shape_of es)) = size (shape_of y)).
      { rewrite Y1. destruct es as [|e0 es0]; [congruence|].
        rewrite <- (for_iter s (map shape_of (e0 :: es0))).
        - f_equal. clear. revert e0. induction es0 as [|e1 es0 IH]; intros; [reflexivity|]. apply IH.
        - apply forallb_forall. intros sh Hs. apply in_map_iff in Hs. destruct Hs as [e [<- He]].
          apply wfs_shape. rewrite forallb_forall in HW1. auto.
        - exact HW2.
        - discriminate. }
      rewrite SZ. rewrite <- getref_dptr.
      * eapply refR_mono; [exact LW|apply le_n|]. eapply K_get; [exact KY|]. rewrite Y1. destruct es; [congruence|exact HW4].
      * apply negb_true_iff in HW3. destruct (is_const y) eqn:EC; [|reflexivity].
        assert (existsb is_const es = true) by (apply existsb_exists; eauto). congruence.
  - rewrite K_if in HK. destruct HK as [_ [tc [tb [v1 [a1 [v2 [a2 [Hts [HKc [L1 [L2 HKb]]]]]]]]]]].
    cbn [wfs] in HW. rewrite !andb_true_iff in HW. destruct HW as [[[[[HW1 HW2] HW3] HW4] HW5] HW6].
    assert (LE1 := K_le _ _ _ _ _ _ _ _ HKc). assert (LL1 := L1). apply lay_le in LL1. assert (LL2 := L2). apply lay_le in LL2.
    assert (GC : gettable e1 = true) by now destruct e1.
    assert (GE := K_get _ _ _ _ _ _ _ _ HKc GC).
    cbn [beval] in HE. apply bindR_ok in HE. destruct HE as [b [RB HE]].
    destruct (tp tc) as [|l] eqn:TC; [destruct HKb|]. cbn [refR] in GE. destruct GE as [_ [GE _]]. rewrite GE in RB. inversion RB; subst b.
    destruct (ntrue N (hd0 N l)) eqn:NT.
    + destruct (IHe2 _ _ _ _ _ _ _ _ _ HW2 HKb HE) as [[tb' KB] Q]. split; [|eapply kq_weak; [| |exact Q]; lia].
      exists (Tp (tp t) (tv t) (tst t) (told t) [tc; tb']). rewrite K_if. split; [discriminate|].
      exists tc, tb', v1, a1, v2, a2. cbn [tts]. rewrite TC, NT. repeat (split; [assumption || reflexivity || idtac|]); auto.
      eapply K_frame; [| |exact HKc]; intros; [apply (proj1 Q); lia|eapply kq_4; eauto].
    + destruct (IHe3 _ _ _ _ _ _ _ _ _ HW3 HKb HE) as [[tb' KB] Q]. split; [|eapply kq_weak; [| |exact Q]; lia].
      exists (Tp (tp t) (tv t) (tst t) (told t) [tc; tb']). rewrite K_if. split; [discriminate|].
      exists tc, tb', v1, a1, v2, a2. cbn [tts]. rewrite TC, NT. repeat (split; [assumption || reflexivity || idtac|]); auto.
      eapply K_frame; [| |exact HKc]; intros; [apply (proj1 Q); lia|eapply kq_4; eauto].
Qed.
End Keep.

Section Step.
Context {N : num}.
Notation T := (carrier N).
Notation E := (expr T (ann N)).
Notation U := (expr T unit).
Hypothesis LL : la_len N.
Variables bv ba : nat.
Hypothesis HF : fresh bv ba.

Lemma inv_wfs (u : U) cv ca (e : E) m : inv bv ba u cv ca e m -> wfs e = true.
Proof. intros HI. apply (inv_preB bv ba HF) in HI. apply HI. Qed.

(** What passes and client writes leave alone. *)
Definition only (u : U) (m m' : mem T) : Prop :=
  (forall b o, m b o <> None -> m' b o <> None) /\
  (forall b o, b <> 0 -> b <> 1 -> b <> ba -> (b = bv -> noprod u = true) -> m' b o = m b o).

Lemma brun_all (u : U) cv ca (e : E) ops : Forall (bop_ok (size (shape_of u))) ops ->
  forall t m, inv bv ba u cv ca e m -> K bv ba (vset u) None e t m 0 0 cv ca ->
  exists m', brun e ops m = Ok m' /\ inv bv ba u cv ca e m' /\ only u m m'.
Proof.
  intros HO. pose proof HF as [Fb Fa]. induction HO as [|o l H HO IH]; intros t m HI HK.
  - exists m. split; [reflexivity|]. split; [exact HI|]. split; auto.
  - destruct o as [s|f]; cbn [bop_ok brun] in *.
    + pose proof HI as [H1 [H2 [H3 [H4 [H5 [H6 H7]]]]]].
      assert (HM : MR (vset u) (wset u) (renv m 4) m (renv m 0) (renv m 1)) by (apply MR_renv, HI).
      assert (SU : shape_of u = shape_of e) by (subst u; unfold er; now rewrite shape_of_amap).
      destruct (BS_all Fb Fa LL e None t s 0 0 cv ca m _ _ HK (inv_preB bv ba HF _ _ _ _ _ HI) HM H6) as [m1 [E1 _]]; [congruence|].
      destruct (KS_all bv ba (vset u) HF e None t s m m1 0 0 cv ca (inv_wfs _ _ _ _ _ HI) HK E1) as [[t1 K1] [Q1 [Q2 Q3]]].
      destruct (IH t1 m1) as [m' [R1 [R2 [R3 R4]]]]; [eapply inv_keeps; eauto|exact K1|].
      exists m'. rewrite E1. split; [exact R1|]. split; [exact R2|]. split; [auto|].
      intros b o A B C D. rewrite R4 by auto. destruct (Nat.eq_dec b bv) as [->|NB]; [|apply Q2; auto].
      assert (KP : kp ba true m m1).
      { eapply beval_kp; [exact H4|discriminate| |exact E1]. specialize (D eq_refl). subst u. unfold er in D. now rewrite noprod_amap in D. }
      apply KP; auto.
    + destruct (IH t (f m)) as [m' [R1 [R2 [R3 R4]]]].
      * eapply inv_keeps; [exact HI|]. intros b o. apply H.
      * eapply K_frame; [| |exact HK]; intros o; intros; apply H; lia.
      * exists m'. split; [exact R1|]. split; [exact R2|]. split.
        { intros b o Hb. apply R3. now apply H. }
        intros b o A B C D. rewrite R4 by auto. now apply H.
Qed.

Lemma adj_all uv ua (u : U) m e m0 ops e1 m1 e2 m2 v bops :
  wfs u = true -> avail u m -> bound bv ba uv ua u m = Ok (e, m0) ->
  Forall (op_ok (size (shape_of u))) ops -> run ops (e, m0) = Ok (e1, m1) ->
  evaluate e1 m1 = Ok (e2, m2, v) -> Forall (bop_ok (size (shape_of u))) bops ->
  exists m3, brun e2 bops m2 = Ok m3 /\
    (forall b o, m2 b o <> None -> m3 b o <> None) /\
    (forall b o, b <> 0 -> b <> 1 -> b <> ba -> (b = bv -> noprod u = true) -> m3 b o = m2 b o) /\
    (forall ops', Forall (op_ok (size (shape_of u))) ops' -> exists r, run ops' (e2, m3) = Ok r).
Proof.
  intros HW HA HB HO HR HE HBO.
  destruct (inv_bound LL bv ba HF u m uv ua e m0 HW HA HB) as [HI _].
  destruct (run_ok LL bv ba HF u _ _ ops HO e m0 HI) as [e1' [m1' [R I1]]]. rewrite R in HR. inversion HR; subst e1' m1'.
  assert (HM : MR (vset u) (wset u) (renv m1 4) m1 (renv m1 0) (renv m1 1)) by (apply MR_renv, I1).
  destruct (evaluate_ok LL bv ba HF u _ _ e1 m1 _ _ _ I1 HM) as [e3 [m3 Q]].
  destruct (pf _ _ _ _) as [[t r'] p]. destruct Q as [Q1 [Q2 [_ [_ [Q5 _]]]]]. rewrite HE in Q1. inversion Q1; subst e3 m3.
  destruct (brun_all u _ _ e2 bops HBO _ _ Q2 Q5) as [m4 [A1 [A2 [A3 A4]]]]. exists m4. split; [exact A1|]. split; [exact A3|]. split; [exact A4|].
  intros ops' HO'. destruct (run_ok LL bv ba HF u _ _ ops' HO' e2 m4 A2) as [e5 [m5 [R5 _]]]. eauto.
Qed.
End Step.
