(** Repeated backward passes after one evaluation. *)
From Verif Require Import Base Num Expr Node Stat Machine Wf Pure LBase LKind LSimDef LMem LSimF LSimB Session LTop LBind LUser Adj.

Section Keep.
Context {N : num}.
Notation T := (carrier N).
Notation E := (expr T (ann N)).
Variables bv ba : nat.

(** Only adjoints change, and the variables' values if [z]. *)
Variable z : bool.
Definition kp (m m' : mem T) : Prop := forall b o, b <> 1 -> b <> ba -> (z = true -> b <> 0) -> m' b o = m b o.
Lemma kp_refl m : kp m m. Proof. intros b o _ _ _. reflexivity. Qed.
Lemma kp_trans m1 m2 m3 : kp m1 m2 -> kp m2 m3 -> kp m1 m3.
Proof. intros H1 H2 b o A B C. rewrite H2, H1; auto. Qed.
Lemma wrn_kp b o (l : list T) : forall (m m' : mem T), wrn m b o l = Ok m' -> forall b' o', b' <> b -> m' b' o' = m b' o'.
Proof.
  revert o. induction l as [|v l IH]; intros o m m' H b' o' Hb; cbn in H; [congruence|].
  apply bindR_ok in H. destruct H as [m1 [H1 H2]]. rewrite (IH _ _ _ H2 b' o' Hb).
  unfold wr1 in H1. destruct (m b o); [|discriminate]. inversion H1; subst.
  destruct (Nat.eqb_spec b' b); [congruence|reflexivity].
Qed.
Lemma store_kp m p l m' : store m p l = Ok m' -> (exists b o, p = Ptr b o /\ (b = 1 \/ b = ba \/ z = true /\ b = 0)) -> kp m m'.
Proof.
  intros H [b [o [-> Hb]]] b' o' A B C. cbn in H. apply (wrn_kp b o l m m' H). intuition congruence.
Qed.
Lemma var_kp sh o s m m' : var_beval sh o s m = Ok m' -> kp m m'.
Proof.
  unfold var_beval. intros H. apply bindR_ok in H. destruct H as [s' [_ H]]. apply bindR_ok in H. destruct H as [a [_ H]].
  eapply store_kp; [exact H|]. eauto.
Qed.

Lemma lays_in v' a' (es : list E) : forall v a, lays bv ba v' a' es v a -> forall y, In y es -> exists v1 a1 v2 a2, lay bv ba None y v1 a1 v2 a2.
Proof.
  induction es as [|y l IH]; intros v a H w Hz; [destruct Hz|]. destruct H as [v2 [a2 [H1 H2]]].
  destruct Hz as [<-|Hz]; eauto.
Qed.

Lemma beval_kp (e : E) : forall x v a v' a' s m m', lay bv ba x e v a v' a' -> (z = false -> opw e = []) -> noprod e = true ->
  beval e s m = Ok m' -> kp m m'.
Proof.
  induction e using expr_ind'; intros x v a0 v' a' s0 m m' HL HO HP HE; cbn [opw noprod] in HO, HP.
  - cbn [beval] in HE. eapply var_kp; eauto.
  - cbn in HE. inversion HE. apply kp_refl.
  - cbn in HE. inversion HE. apply kp_refl.
  - destruct es as [|e0 es0]; [cbn in HE; inversion HE; apply kp_refl|].
    remember (e0 :: es0) as es eqn:EE. rewrite beval_comp in HE by (subst; discriminate). cbn zeta in HE.
    rewrite lay_comp in HL. cbn zeta in HL. destruct HL as [v1 [a1 [HL [HX HA]]]].
    apply andb_prop in HP. destruct HP as [HPk HPs].
    assert (KP : forall i vs f, kpre (N := N) k i vs f = None) by (intros; destruct k; auto; discriminate).
    apply bindR_ok in HE. destruct HE as [s1 [_ HE]]. apply bindR_ok in HE. destruct HE as [m1 [HS HE]].
    assert (K1 : kp m m1).
    { destruct (kadj k); [|inversion HS; apply kp_refl]. eapply store_kp; [exact HS|].
      destruct x; [destruct HA as [_ [_ [HA _]]]|destruct HA as [_ [HA _]]; specialize (HA eq_refl)]; eauto 8. }
    apply bindR_ok in HE. destruct HE as [p0 [_ HE]]. eapply kp_trans; [exact K1|].
    assert (HI : forall y, In y es -> forall s m m', beval y s m = Ok m' -> kp m m').
    { intros y Hy s2 ma mb HB. destruct (lays_in _ _ _ _ _ HL y Hy) as [w1 [b1 [w2 [b2 HY]]]].
      rewrite Forall_forall in H. eapply (H y Hy); [exact HY| | |exact HB].
      - intros Z. apply HO in Z. rewrite EE in *. clear - Z Hy. revert Z. induction (e0 :: es0) as [|w l IH]; [destruct Hy|].
        cbn. intros HO. apply app_eq_nil in HO. destruct Hy as [->|Hy]; [tauto|apply IH; tauto].
      - rewrite forallb_forall in HPs. auto. }
    clear EE e0 es0 H HS K1 HO HPs.
    assert (G : forall l i ma mb, incl l es -> bgo k a es (size (kshape k (map shape_of es))) (map shape_of es) (map is_const es) s1 p0 i l ma = Ok mb -> kp ma mb).
    { induction l as [|y l IH]; intros i ma mb Hl HB; cbn [bgo] in HB; [inversion HB; apply kp_refl|].
      apply bindR_ok in HB. destruct HB as [m2 [B1 HB]]. apply IH in B1; [|intros w Hw; apply Hl; now right].
      eapply kp_trans; [exact B1|]. apply bindR_ok in HB. destruct HB as [[[vs f] ad] [_ HB]]. rewrite KP in HB. cbn [bindR] in HB.
      apply bindR_ok in HB. destruct HB as [m3 [B2 HB]]. inversion HB; subst m3.
      destruct (kseed _ _ _ _ _ _ _ _) as [s2|]; [|inversion B2; apply kp_refl].
      apply bindR_ok in B2. destruct B2 as [s3 [_ B2]]. apply bindR_ok in B2. destruct B2 as [m4 [B3 B4]].
      apply HI in B4; [|apply Hl; now left]. eapply kp_trans; [|exact B4].
      destruct (kaux k); [|inversion B3; apply kp_refl]. eapply store_kp; [exact B3|]. rewrite HX by reflexivity. eauto 8. }
    eapply G; [|exact HE]. apply incl_refl.
  - cbn [beval] in HE. apply bindR_ok in HE. destruct HE as [m1 [H1 HE]]. apply bindR_ok in HE. destruct HE as [s1 [_ HE]].
    cbn [lay] in HL. destruct HL as [HL _]. eapply kp_trans; [eapply var_kp; exact H1|]. eapply IHe; eauto.
  - cbn [lay] in HL. destruct HL as [v1 [a1 [HL [_ [_ [HX _]]]]]].
    assert (IHK : forall s m m', beval e s m = Ok m' -> kp m m').
    { intros s2 ma mb HB. eapply IHe; [exact HL| |exact HP|exact HB]. intros Z. apply HO in Z. apply app_eq_nil in Z. tauto. }
    cbn [beval] in HE. cbn zeta in HE.
    repeat (let Q := fresh "Q" in apply bindR_ok in HE; destruct HE as [? [Q HE]]).
    eapply kp_trans; [eapply var_kp; exact Q|]. eapply (kp_trans _ x8).
    + eapply kp_trans; [|eapply kp_trans; [|eapply kp_trans; [|eapply IHK; exact Q7]]].
      * destruct (Bool.bool_dec z true) as [Z|Z]; [eapply store_kp; [exact Q1|]; eauto 8|].
        apply Bool.not_true_is_false in Z. apply HO in Z. apply app_eq_nil in Z. destruct Z as [Z _]. unfold cells in Z.
        destruct (size sh); [|discriminate]. assert (x1 = []) by (destruct (xv a); cbn in Q0; congruence). subst x1. cbn in Q1.
        inversion Q1. apply kp_refl.
      * eapply store_kp; [exact Q3|]. rewrite HX. eauto 8.
      * eapply store_kp; [exact Q4|]. eauto.
    + eapply store_kp; [exact HE|]. eauto.
  - cbn [lay] in HL. destruct HL as [v1 [a1 [H1 [H2 _]]]]. assert (HO' : z = false -> opw e1 = [] /\ opw e2 = []) by (intros Z; apply app_eq_nil; auto). apply andb_prop in HP.
    cbn [beval] in HE. apply bindR_ok in HE. destruct HE as [m1 [B1 B2]].
    eapply kp_trans; [eapply IHe2|eapply IHe1]; eauto; try tauto; intros Z; apply HO'; exact Z.
  - rewrite lay_for in HL. destruct HL as [HL _]. rewrite beval_for in HE.
    assert (HI : forall y, In y es -> forall s m m', beval y s m = Ok m' -> kp m m').
    { intros y Hy s2 ma mb HB. destruct (lays_in _ _ _ _ _ HL y Hy) as [w1 [b1 [w2 [b2 HY]]]].
      rewrite Forall_forall in H. eapply (H y Hy); [exact HY| | |exact HB].
      - intros Z. apply HO in Z. clear - Z Hy. induction es as [|w l IH]; [destruct Hy|].
        cbn in Z. rename Z into HO. apply app_eq_nil in HO. destruct Hy as [->|Hy]; [tauto|apply IH; tauto].
      - rewrite forallb_forall in HP. auto. }
    clear - HI HE. revert m m' HE. induction es as [|y l IH]; intros m m' HE; cbn [fgo] in HE; [inversion HE; apply kp_refl|].
    destruct l as [|y2 l]; [eapply HI; [|exact HE]; now left|]. apply bindR_ok in HE. destruct HE as [m1 [H1 H2]].
    apply IH in H1; [|intros w Hw; apply HI; now right]. apply HI in H2; [|now left]. eapply kp_trans; eauto.
  - cbn [lay] in HL. destruct HL as [v1 [a1 [v2 [a2 [H1 [H2 H3]]]]]]. assert (HO' : z = false -> opw e2 = [] /\ opw e3 = []) by (intros Z; apply HO in Z; apply app_eq_nil in Z; apply app_eq_nil; tauto).
    apply andb_prop in HP. destruct HP as [HP HP3]. apply andb_prop in HP.
    cbn [beval] in HE. apply bindR_ok in HE. destruct HE as [b [_ HE]].
    destruct (ntrue N (hd0 N b)); [eapply IHe2|eapply IHe3]; eauto; try tauto; intros Z; apply HO'; exact Z.
Qed.
End Keep.

Section Step.
Context {N : num}.
Notation T := (carrier N).
Notation E := (expr T (ann N)).
Notation U := (expr T unit).

Lemma noprod_amap {A B} (f : A -> B) (e : expr T A) : noprod (amap f e) = noprod e.
Proof.
  induction e using expr_ind'; cbn [amap noprod]; auto.
  - f_equal. induction H; cbn; [auto|]. now rewrite H, IHForall.
  - now rewrite IHe1, IHe2.
  - induction H; cbn; [auto|]. now rewrite H, IHForall.
  - now rewrite IHe1, IHe2, IHe3.
Qed.
End Step.
