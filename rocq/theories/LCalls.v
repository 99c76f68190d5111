(** Two sessions of one expression that agree on the variables, their adjoints
    and the constant buffers behave the same from there on. *)
From Verif Require Import Base Num Expr Node Stat Machine Wf Pure LBase LKind LSimDef LMem LSimF LSimB LBind
  Session LUser Tape LTape LState LNrm LTop LRest LSess LHid LFlow LSeq LFind Calls Spec.
Open Scope nat_scope.

Section Mk.
Context {N : num}.
Notation T := (carrier N).
Notation E := (expr T (ann N)).
Notation U := (expr T unit).

(** ** Constructors *)
Lemma stat_init_ext q cs ss (gs gs' : list (res (list T))) :
  (forall i, cst cs i = true -> nth i gs (Ok []) = nth i gs' (Ok [])) ->
  (q = UniVSV -> cst cs 0 = true -> nth 2 gs (Ok []) = nth 2 gs' (Ok [])) ->
  (q = UniVVS -> cst cs 0 = true -> nth 1 gs (Ok []) = nth 1 gs' (Ok [])) ->
  stat_init N q cs ss gs = stat_init N q cs ss gs'.
Proof.
  intros H HU1 HU2. pose proof (H 0) as H0. pose proof (H 1) as H1. pose proof (H 2) as H2. clear H.
  destruct q; cbn [stat_init]; cbv zeta; try specialize (HU1 eq_refl); try specialize (HU2 eq_refl);
    destruct (cst cs 0); destruct (cst cs 1); destruct (cst cs 2); cbn [andb];
    try specialize (H0 eq_refl); try specialize (H1 eq_refl); try specialize (H2 eq_refl);
    try specialize (HU1 eq_refl); try specialize (HU2 eq_refl);
    repeat match goal with HH : nth _ gs _ = _ |- _ => rewrite HH; clear HH end; reflexivity.
Qed.
Lemma rdn_ext' (m m' : mem T) b n : forall o, (forall i, o <= i < o + n -> m b i = m' b i) -> rdn m b o n = rdn m' b o n.
Proof.
  induction n as [|n IH]; intros o H; cbn; auto. unfold rd1. rewrite (H o) by lia. destruct (m' b o); cbn; auto.
  rewrite IH; auto. intros i Hi. apply H. lia.
Qed.
Lemma mk_const (u : U) m e : mk u m = Ok e -> is_const e = is_const u.
Proof.
  intros HE. destruct u; cbn [mk] in HE;
    repeat (match type of HE with
            | (if ?b then _ else _) = _ => destruct b; [|discriminate]
            | bindR _ _ = _ => apply bindR_ok in HE; destruct HE as [? [? HE]]; cbv beta zeta in HE
            | (if ?b then Err _ else _) = _ => destruct b; [discriminate|]
            end);
    inversion HE; subst; try reflexivity.
Qed.
(** What a constructor sees when it reads an operand. *)
Lemma mk_read (u : U) m m' e : (forall o, In o (vwcells u) -> m 4 o = m' 4 o) ->
  (forall o, In o (varcells u) -> m 0 o = m' 0 o) ->
  mk u m = Ok e -> rdref m (getref e) = rdref m' (getref e).
Proof.
  intros H4 H0 HE. destruct u; cbn [mk] in HE;
    repeat (match type of HE with
            | (if ?b then _ else _) = _ => destruct b; [|discriminate]
            | bindR _ _ = _ => apply bindR_ok in HE; destruct HE as [? [? HE]]; cbv beta zeta in HE
            | (if ?b then Err _ else _) = _ => destruct b; [discriminate|]
            end);
    inversion HE; subst; try reflexivity; cbn [getref rdref load]; apply rdn_ext'; intros i Hi.
  all: (apply H4 || apply H0); cbn [vwcells varcells]; apply in_seq; lia.
Qed.
Lemma mks_reads (es : list U) m m' : forall es', mks es m = Ok es' ->
  (forall o, In o (flat_map vwcells es) -> m 4 o = m' 4 o) ->
  forall i, (is_const (nth i es (ECst scl [])) = true \/
             (forall o, In o (varcells (nth i es (ECst scl []))) -> m 0 o = m' 0 o)) ->
  nth i (map (fun x => rdref m (getref x)) es') (Ok []) = nth i (map (fun x => rdref m' (getref x)) es') (Ok []).
Proof.
  induction es as [|y l IH]; cbn [mks]; intros es' EM H4 i Hi.
  { inversion EM. reflexivity. }
  apply bindR_ok in EM. destruct EM as [y' [Q1 EM]]. apply bindR_ok in EM. destruct EM as [l' [Q2 EM]].
  inversion EM; subst es'. clear EM. destruct i as [|i]; cbn [map nth] in *.
  - apply (mk_read y m m' y'); auto.
    + intros o Ho. apply H4. cbn. apply in_app_iff. auto.
    + destruct Hi as [Hi|Hi]; [|exact Hi]. destruct y; try discriminate Hi; intros ? [].
  - apply IH; auto. intros o Ho. apply H4. cbn. apply in_app_iff. auto.
Qed.
Lemma mk_reads (u : U) m m' : (forall o, In o (sdrefs u) -> m 4 o = m' 4 o) ->
  (forall o, In o (crefs u) -> m 0 o = m' 0 o) -> mk u m = mk u m'.
Proof.
  assert (LST : forall es : list U, Forall (fun u => (forall o, In o (sdrefs u) -> m 4 o = m' 4 o) ->
      (forall o, In o (crefs u) -> m 0 o = m' 0 o) -> mk u m = mk u m') es ->
    (forall o, In o (flat_map sdrefs es) -> m 4 o = m' 4 o) ->
    (forall o, In o (flat_map crefs es) -> m 0 o = m' 0 o) -> mks es m = mks es m').
  { induction 1 as [|y l HY H IH]; [reflexivity|]. cbn [flat_map]. intros H4 H0. cbn. unfold mks in IH.
    rewrite HY, IH; auto; intros; (apply H4 || apply H0); apply in_app_iff; auto. }
  induction u using expr_ind'; intros H4 H0; try reflexivity.
  - destruct a. rewrite !mk_comp. cbn [sdrefs crefs] in H4, H0.
    assert (A4 : forall o, In o (flat_map sdrefs es) -> m 4 o = m' 4 o) by (intros; apply H4, in_app_iff; auto).
    assert (A0 : forall o, In o (flat_map crefs es) -> m 0 o = m' 0 o) by (intros; apply H0, in_app_iff; auto).
    rewrite <- (LST es H A4 A0). destruct (mks es m) as [es'|] eqn:EM; [|reflexivity]. cbn [bindR].
    destruct (kassert k _) eqn:KA; [|reflexivity]. destruct k; auto.
    assert (C4 : forall o, In o (flat_map vwcells es) -> m 4 o = m' 4 o) by (intros; apply H4, in_app_iff; auto).
    assert (CI : forall i, cst (map is_const es') i = true -> is_const (nth i es (ECst scl [])) = true).
    { clear - EM. revert es' EM. induction es as [|y l IH]; intros es' EM i.
      - intros _. now destruct i.
      - cbn [mks] in EM. apply bindR_ok in EM. destruct EM as [y' [Q1 EM]]. apply bindR_ok in EM. destruct EM as [l' [Q2 EM]].
        inversion EM; subst es'. destruct i; cbn [map cst nth].
        + unfold cst. cbn. now rewrite (mk_const _ _ _ Q1).
        + apply (IH _ Q2). }
    assert (LN : length es' = length es).
    { clear - EM. revert es' EM. induction es as [|y l IH]; intros es' EM; [now inversion EM|].
      cbn [mks] in EM. apply bindR_ok in EM. destruct EM as [y' [Q1 EM]]. apply bindR_ok in EM. destruct EM as [l' [Q2 EM]].
      inversion EM; subst es'. cbn. f_equal. now apply IH. }
    match goal with |- context [stat_init N ?w _ _ _] => rename w into q end.
    rewrite (stat_init_ext q (map is_const es') (map shape_of es') (map (fun x => rdref m (getref x)) es') (map (fun x => rdref m' (getref x)) es')); auto.
    + intros i Hi. apply (mks_reads es); auto.
    + intros -> Hc. apply (mks_reads es); auto. apply CI in Hc.
      destruct es as [|x [|y [|z [|]]]]; cbn [nth] in *; auto.
      * right. intros o Ho. apply H0. rewrite Hc. apply in_app_iff. auto.
      * destruct es' as [|? [|? [|? [|]]]]; try discriminate LN; apply andb_true_iff in KA; destruct KA as [_ KA]; cbn in KA; rewrite ?andb_false_r in KA; discriminate KA.
    + intros -> Hc. apply (mks_reads es); auto. apply CI in Hc.
      destruct es as [|x [|y [|z [|]]]]; cbn [nth] in *; auto.
      * destruct es' as [|? [|? [|? [|]]]]; try discriminate LN; apply andb_true_iff in KA; destruct KA as [_ KA]; cbn in KA; rewrite ?andb_false_r in KA; discriminate KA.
      * right. intros o Ho. apply H0. rewrite Hc. apply in_app_iff. auto.
      * destruct es' as [|? [|? [|? [|]]]]; try discriminate LN; apply andb_true_iff in KA; destruct KA as [_ KA]; cbn in KA; rewrite ?andb_false_r in KA; discriminate KA.
  - cbn [mk sdrefs crefs] in *. now rewrite IHu.
  - cbn [mk sdrefs crefs] in *. now rewrite IHu.
  - cbn [mk sdrefs crefs] in *. rewrite IHu1, IHu2; auto; intros; (apply H4 || apply H0); apply in_app_iff; auto.
  - destruct a. rewrite !mk_for. now rewrite <- (LST es H).
  - cbn [mk sdrefs crefs] in *. rewrite IHu1, IHu2, IHu3; auto; intros; (apply H4 || apply H0); rewrite !in_app_iff; auto.
Qed.
End Mk.

Section Two.
Context (N : num).
Notation T := (carrier N).
Notation E := (expr T (ann N)).
Notation U := (expr T unit).
Hypothesis LL : la_len N.

(** [autodiff_ok], with the backward pass started from any environment that
    agrees with the one after the forward pass. *)
Lemma autodiff_alt bv ba (HF : fresh bv ba) (u : U) cv ca (e : E) m D r al seed t r' p r1 al1 : inv bv ba u cv ca e m ->
  MR (vset u) (wset u) D m r al -> length seed = size (shape_of u) ->
  pf D None e r = (t, r', p) -> (forall o, In o (refs u) -> r' o = r1 o) -> (forall o, In o (refs u) -> al o = al1 o) ->
  exists e' m', let '(_, r2, al2) := pb None e t seed r1 al1 in
    autodiff e seed m = Ok (e', m', rdp r' p) /\ inv bv ba u cv ca e' m' /\ MR (vset u) (wset u) D m' r2 al2 /\
    fr (DP bv ba u cv ca) m m'.
Proof.
  intros HI HM HL EPF HR HA. pose proof HI as [H1 [H2 [H3 [H4 [H5 [H6 H7]]]]]]. pose proof HF as [Fb Fa].
  destruct (FS_all Fb Fa LL e None 0 0 cv ca m r al H4 (inv_pre bv ba HF _ _ _ _ _ HI) HM H5) as [e' [m' [q [E1 Q]]]].
  unfold autodiff, evaluate. rewrite E1. cbn [bindR]. rewrite EPF in Q.
  destruct Q as [Q1 [Q2 [Q3 [Q4 [Q5 [Q6 Q7]]]]]].
  destruct (refR_read _ _ _ _ _ _ _ _ Q3 Q4) as [E2 L2]. rewrite E2. cbn [bindR].
  assert (ER : er e' = u) by (rewrite <- H1; now apply er_strip).
  assert (SU : shape_of u = shape_of e') by (rewrite <- ER; unfold er; now rewrite shape_of_amap).
  assert (WU : writes u = writes e') by (rewrite <- ER; unfold er; now rewrite writes_amap).
  assert (RU : refs u = refs e') by (rewrite <- ER; unfold er; now rewrite refs_amap).
  assert (WU2 : writes u = writes e) by (subst u; unfold er; now rewrite writes_amap).
  assert (I1 : inv bv ba u cv ca e' m').
  { assert (LE : lay bv ba None e' 0 0 cv ca) by (apply lay_strip; rewrite Q1; now apply lay_strip).
    eapply inv_keeps; [|apply Q7]. split; [exact ER|].
    split; [exact H2|]. split; [exact Q2|]. split; [exact LE|]. auto. }
  pose proof (MR_pt _ _ _ _ _ _ r1 al1 Q3 HR HA) as Q3'.
  destruct (BS_all Fb Fa LL e' None t seed 0 0 cv ca m' r1 al1 Q5 (inv_preB bv ba HF _ _ _ _ _ I1) Q3')
    as [m2 [E3 QQ]]; [apply I1|congruence|].
  exists e', m2. rewrite E3. cbn [bindR]. rewrite (pb_same e e') in QQ by exact Q1.
  destruct (pb None e t seed r1 al1) as [[q2 r2] al2]. destruct QQ as [M2 [_ F2]].
  split; [reflexivity|]. split; [eapply inv_keeps; [exact I1|apply F2]|]. split; [exact M2|].
  eapply fr_weak; [|eapply fr_trans; [exact Q7|exact F2]]. unfold FP, BP, DP. cbn [xin].
  rewrite <- WU2, <- WU, <- RU. intros b o. intuition lia.
Qed.

Variables bv ba bv' ba' : nat.
Hypothesis HF : fresh bv ba.
Hypothesis HF' : fresh bv' ba'.

(** What the two sessions share: the values of the variables that are not
    assigned before they are read, all adjoints, the constant buffers. *)
Definition agr (u : U) (m m' : mem T) : Prop :=
  (forall o, In o (refs u) -> ~ In o (da u) -> m 0 o = m' 0 o) /\
  (forall o, In o (refs u) -> m 1 o = m' 1 o) /\
  (forall o, In o (drefs u) -> m 4 o = m' 4 o).

Lemma both u cv ca cv' ca' (e1 e3 : E) m1 m3 : disc u = true ->
  inv bv ba u cv ca e1 m1 -> inv bv' ba' u cv' ca' e3 m3 -> nrm e3 = nrm e1 -> agr u m1 m3 ->
  let D := renv m1 4 in let r1 := renv m1 0 in let r3 := renv m3 0 in
  exists t1 r1' t3 r3', tf D e1 r1 = (t1, r1') /\ tf D e3 r3 = (t3, r3') /\
    MR (vset u) (wset u) D m1 r1 (renv m1 1) /\ MR (vset u) (wset u) D m3 r3 (renv m3 1) /\
    nv t1 = nv t3 /\ SB e1 t1 t3 /\ (forall o, In o (refs u) -> r1' o = r3' o).
Proof.
  intros HD I1 I3 HN [HV [HA HC]] D r1 r3.
  destruct (inv_facts _ _ _ _ _ _ _ I1) as [F1 [F2 [F3 [F4 [F5 [F6 F7]]]]]].
  assert (A1 : avail u m1) by apply I1. assert (A3 : avail u m3) by apply I3.
  assert (M1 : MR (vset u) (wset u) D m1 r1 (renv m1 1)) by (apply MR_renv, A1).
  assert (M3 : MR (vset u) (wset u) D m3 r3 (renv m3 1)).
  { pose proof (MR_renv u m3 A3) as [Q1 Q2]. split; [exact Q1|]. intros o Ho. rewrite Q2 by exact Ho.
    unfold D, renv. now rewrite HC by exact Ho. }
  destruct (tf D e1 r1) as [t1 r1'] eqn:T1. destruct (tf D e3 r3) as [t3 r3'] eqn:T3.
  assert (DU : da e1 = da u) by (destruct I1 as [<- _]; unfold er; now rewrite da_amap).
  assert (HH : forall o, In o (refs e1) -> ~ In o (asg e1 t1) -> r1 o = r3 o).
  { intros o Ho Hn. unfold r1, r3, renv. rewrite HV; auto; [congruence|].
    intros X. apply Hn. rewrite <- DU in X. eapply da_asg; eauto. }
  rewrite <- F2 in HD.
  destruct (TI_all D e1 e3 r1 r3 t1 r1' t3 r3' (eq_sym HN) F1 HD T1 T3 HH) as [[S1 _] [S2 S3]].
  pose proof (TS_all D e1 e3 r1 r3 t1 r1' t3 r3' (eq_sym HN) F1 HD T1 T3 HH) as S4.
  exists t1, r1', t3, r3'. repeat (split; [assumption || reflexivity|]).
  intros o Ho. destruct (in_dec Nat.eq_dec o (asg e1 t1)) as [X|X]; [auto|].
  apply S3. apply HH; auto. congruence.
Qed.

Lemma eval_both u cv ca cv' ca' (e1 e3 : E) m1 m3 : disc u = true ->
  inv bv ba u cv ca e1 m1 -> inv bv' ba' u cv' ca' e3 m3 -> nrm e3 = nrm e1 -> agr u m1 m3 ->
  exists e2 m2 e4 m4 v, evaluate e1 m1 = Ok (e2, m2, v) /\ evaluate e3 m3 = Ok (e4, m4, v) /\
    inv bv ba u cv ca e2 m2 /\ inv bv' ba' u cv' ca' e4 m4 /\ nrm e4 = nrm e2 /\ agr u m2 m4 /\
    (forall o, In o (refs u) -> m2 0 o = m4 0 o).
Proof.
  intros HD I1 I3 HN HG.
  destruct (both u cv ca cv' ca' e1 e3 m1 m3 HD I1 I3 HN HG) as [t1 [r1' [t3 [r3' [T1 [T3 [M1 [M3 [S1 [S2 S3]]]]]]]]]].
  destruct (top_eval LL bv ba HF u cv ca e1 m1 _ _ _ t1 r1' I1 HD M1 T1) as [e2 [m2 [E1 [I2 [M2 [Z2 N2]]]]]].
  destruct (top_eval LL bv' ba' HF' u cv' ca' e3 m3 _ _ _ t3 r3' I3 HD M3 T3) as [e4 [m4 [E3 [I4 [M4 [Z4 N4]]]]]].
  assert (V : forall o, In o (refs u) -> m2 0 o = m4 0 o).
  { intros o Ho. destruct M2 as [M2 _], M4 as [M4 _]. rewrite (proj1 (M2 o Ho)), (proj1 (M4 o Ho)). f_equal. auto. }
  destruct HG as [G1 [G2 G3]].
  exists e2, m2, e4, m4, (nv t1). split; [exact E1|]. split; [now rewrite S1|].
  split; [exact I2|]. split; [exact I4|]. split; [congruence|]. split; [|exact V].
  split; [auto|]. split.
  - intros o Ho. destruct M2 as [M2 _], M4 as [M4 _]. rewrite (proj2 (M2 o Ho)), (proj2 (M4 o Ho)). f_equal.
    unfold renv. now rewrite G2.
  - intros o Ho. destruct M2 as [_ M2], M4 as [_ M4]. now rewrite (M2 o Ho), (M4 o Ho).
Qed.

Lemma diff_both u cv ca cv' ca' (e1 e3 : E) m1 m3 seed : disc u = true -> length seed = size (shape_of u) ->
  inv bv ba u cv ca e1 m1 -> inv bv' ba' u cv' ca' e3 m3 -> nrm e3 = nrm e1 -> agr u m1 m3 ->
  exists e2 m2 e4 m4 v, autodiff e1 seed m1 = Ok (e2, m2, v) /\ autodiff e3 seed m3 = Ok (e4, m4, v) /\
    inv bv ba u cv ca e2 m2 /\ inv bv' ba' u cv' ca' e4 m4 /\ nrm e4 = nrm e2 /\ agr u m2 m4 /\
    (forall o, In o (refs u) -> m2 0 o = m4 0 o).
Proof.
  intros HD HL I1 I3 HN HG.
  destruct (both u cv ca cv' ca' e1 e3 m1 m3 HD I1 I3 HN HG) as [t1 [r1' [t3 [r3' [T1 [T3 [M1 [M3 [S1 [S2 S3]]]]]]]]]].
  destruct (inv_facts _ _ _ _ _ _ _ I1) as [F1 [F2 [F3 [F4 [F5 [F6 F7]]]]]].
  destruct (inv_facts _ _ _ _ _ _ _ I3) as [K1 [K2 [K3 [K4 [K5 [K6 K7]]]]]].
  set (D := renv m1 4) in *.
  destruct (pf D None e1 (renv m1 0)) as [[tt1 ra] p1] eqn:P1.
  destruct (pf D None e3 (renv m3 0)) as [[tt3 rc] p3] eqn:P3.
  pose proof I1 as [_ [_ [HS1 _]]]. pose proof I3 as [_ [_ [HS3 _]]].
  assert (HD1 : disc e1 = true) by congruence. assert (HD3 : disc e3 = true) by congruence.
  destruct (TF_all D LL e1 None (renv m1 0) (renv m1 0) tt1 ra p1 t1 r1' F1 HD1 HS1 ltac:(intros X; congruence) ltac:(intros o X; destruct X)
     ltac:(auto) P1 T1) as [-> [B1 [B2 [B3 [B4 B5]]]]].
  destruct (TF_all D LL e3 None (renv m3 0) (renv m3 0) tt3 rc p3 t3 r3' K1 HD3 HS3 ltac:(intros X; congruence) ltac:(intros o X; destruct X)
     ltac:(auto) P3 T3) as [-> [C1 [C2 [C3 [C4 C5]]]]].
  destruct HG as [G1 [G2 G3]].
  destruct (autodiff_alt bv ba HF u cv ca e1 m1 D _ _ seed tt1 ra (tp tt1) ra (renv m1 1) I1 M1 HL P1 ltac:(auto) ltac:(auto)) as [e2 [m2 Q2]].
  destruct (autodiff_alt bv' ba' HF' u cv' ca' e3 m3 D _ _ seed tt3 rc (tp tt3) ra (renv m1 1) I3 M3 HL P3) as [e4 [m4 Q4]].
  { intros o Ho. rewrite C3, B3 by (intros []). symmetry. auto. }
  { intros o Ho. unfold renv. now rewrite G2. }
  rewrite (pb_er e1 e3) in Q4 by (destruct I1 as [-> _], I3 as [-> _]; reflexivity).
  pose proof (RE_all e1 e3 None tt1 tt3 t1 t3 _ _ (eq_sym HN) B1 C1 S2) as TT.
  rewrite <- (PE_all e1 None tt1 tt3 t1 seed ra (renv m1 1) F1 HD1 ltac:(congruence) ltac:(cbn; tauto) B1 B2 TT) in Q4.
  destruct (pb None e1 tt1 seed ra (renv m1 1)) as [[q r2] al2].
  destruct Q2 as [E2 [I2 [M2 Z2]]], Q4 as [E4 [I4 [M4 Z4]]].
  rewrite (RT_val _ _ _ _ _ B1) in E2. rewrite (RT_val _ _ _ _ _ C1), <- S1 in E4.
  exists e2, m2, e4, m4, (nv t1). split; [exact E2|]. split; [exact E4|].
  split; [exact I2|]. split; [exact I4|].
  split. { rewrite (autodiff_nrm _ _ _ _ _ _ E2), (autodiff_nrm _ _ _ _ _ _ E4). exact HN. }
  assert (V : forall o, In o (refs u) -> m2 0 o = m4 0 o).
  { intros o Ho. destruct M2 as [M2 _], M4 as [M4 _]. now rewrite (proj1 (M2 o Ho)), (proj1 (M4 o Ho)). }
  split; [|exact V]. split; [auto|]. split.
  - intros o Ho. destruct M2 as [M2 _], M4 as [M4 _]. now rewrite (proj2 (M2 o Ho)), (proj2 (M4 o Ho)).
  - intros o Ho. destruct M2 as [_ M2], M4 as [_ M4]. now rewrite (M2 o Ho), (M4 o Ho).
Qed.

Lemma setc_keeps (m : mem T) b o x b' o' : m b' o' <> None -> setc m b o x b' o' <> None.
Proof.
  unfold setc. destruct (Nat.eqb_spec b' b); destruct (Nat.eqb_spec o' o); cbn; subst; auto. destruct (m b o); congruence.
Qed.
Lemma setc_same (m m' : mem T) b o x b' o' : m b' o' = m' b' o' -> setc m b o x b' o' = setc m' b o x b' o'.
Proof.
  unfold setc. destruct (Nat.eqb_spec b' b); destruct (Nat.eqb_spec o' o); cbn; subst; auto. intros ->. reflexivity.
Qed.
Lemma setc_agr u m m' b o x : agr u m m' -> agr u (setc m b o x) (setc m' b o x).
Proof. intros [H1 [H2 H3]]. repeat split; intros; apply setc_same; auto. Qed.

Lemma calls_both u cv ca cv' ca' l : disc u = true -> forallb (seed_ok (size (shape_of u))) l = true ->
  forall (e1 e3 : E) m1 m3,
  inv bv ba u cv ca e1 m1 -> inv bv' ba' u cv' ca' e3 m3 -> nrm e3 = nrm e1 -> agr u m1 m3 ->
  exists e2 m2 e4 m4 vs, calls l e1 m1 = Ok (e2, m2, vs) /\ calls l e3 m3 = Ok (e4, m4, vs) /\ agr u m2 m4 /\
    (existsb is_run l = true \/ (forall o, In o (refs u) -> m1 0 o = m3 0 o) -> forall o, In o (refs u) -> m2 0 o = m4 0 o).
Proof.
  intros HD. induction l as [|c l IH]; intros HS e1 e3 m1 m3 I1 I3 HN HG.
  - exists e1, m1, e3, m3, []. repeat (split; [reflexivity || assumption|]). intros [X|X]; [discriminate|exact X].
  - cbn [forallb] in HS. apply andb_true_iff in HS. destruct HS as [HC HS]. specialize (IH HS).
    destruct c as [|s|o x|o x|o x]; cbn [calls seed_ok existsb is_run orb] in *.
    + destruct (eval_both u cv ca cv' ca' e1 e3 m1 m3 HD I1 I3 HN HG) as [e2 [m2 [e4 [m4 [v [E2 [E4 [I2 [I4 [N2 [G2 V2]]]]]]]]]]].
      destruct (IH e2 e4 m2 m4 I2 I4 N2 G2) as [e5 [m5 [e6 [m6 [vs [E5 [E6 [G5 V5]]]]]]]].
      exists e5, m5, e6, m6, (v :: vs). rewrite E2, E4. cbn [bindR]. rewrite E5, E6. cbn [bindR].
      repeat (split; [reflexivity || assumption|]). auto.
    + apply Nat.eqb_eq in HC.
      destruct (diff_both u cv ca cv' ca' e1 e3 m1 m3 s HD HC I1 I3 HN HG) as [e2 [m2 [e4 [m4 [v [E2 [E4 [I2 [I4 [N2 [G2 V2]]]]]]]]]]].
      destruct (IH e2 e4 m2 m4 I2 I4 N2 G2) as [e5 [m5 [e6 [m6 [vs [E5 [E6 [G5 V5]]]]]]]].
      exists e5, m5, e6, m6, (v :: vs). rewrite E2, E4. cbn [bindR]. rewrite E5, E6. cbn [bindR].
      repeat (split; [reflexivity || assumption|]). auto.
    + destruct (IH e1 e3 (setc m1 0 o x) (setc m3 0 o x)) as [e5 [m5 [e6 [m6 [vs [E5 [E6 [G5 V5]]]]]]]]; auto using setc_agr.
      * eapply inv_keeps; [exact I1|]. intros; now apply setc_keeps.
      * eapply inv_keeps; [exact I3|]. intros; now apply setc_keeps.
      * exists e5, m5, e6, m6, vs. repeat (split; [assumption|]). intros [X|X]; apply V5; [auto|right].
        intros i Hi. apply setc_same. auto.
    + destruct (IH e1 e3 (setc m1 1 o x) (setc m3 1 o x)) as [e5 [m5 [e6 [m6 [vs [E5 [E6 [G5 V5]]]]]]]]; auto using setc_agr.
      * eapply inv_keeps; [exact I1|]. intros; now apply setc_keeps.
      * eapply inv_keeps; [exact I3|]. intros; now apply setc_keeps.
      * exists e5, m5, e6, m6, vs. repeat (split; [assumption|]). intros [X|X]; apply V5; [auto|right].
        intros i Hi. apply setc_same. auto.
    + destruct (IH e1 e3 (setc m1 4 o x) (setc m3 4 o x)) as [e5 [m5 [e6 [m6 [vs [E5 [E6 [G5 V5]]]]]]]]; auto using setc_agr.
      * eapply inv_keeps; [exact I1|]. intros; now apply setc_keeps.
      * eapply inv_keeps; [exact I3|]. intros; now apply setc_keeps.
      * exists e5, m5, e6, m6, vs. repeat (split; [assumption|]). intros [X|X]; apply V5; [auto|right].
        intros i Hi. apply setc_same. auto.
Qed.

Theorem sess_both (uv ua uv' ua' : nat -> T) (u : U) m m' e e' m0 m0' ops ops' e1 m1 e3 m3 l :
  wfs u = true -> disc u = true -> avail u m -> avail u m' ->
  bound bv ba uv ua u m = Ok (e, m0) -> bound bv' ba' uv' ua' u m' = Ok (e', m0') ->
  (forall o, In o (sdrefs u) -> m 4 o = m' 4 o) -> (forall o, In o (crefs u) -> m 0 o = m' 0 o) ->
  Forall (op_ok (size (shape_of u))) ops -> run ops (e, m0) = Ok (e1, m1) ->
  Forall (op_ok (size (shape_of u))) ops' -> run ops' (e', m0') = Ok (e3, m3) ->
  agr u m1 m3 -> forallb (seed_ok (size (shape_of u))) l = true ->
  exists e2 m2 e4 m4 vs, calls l e1 m1 = Ok (e2, m2, vs) /\ calls l e3 m3 = Ok (e4, m4, vs) /\ agr u m2 m4 /\
    (existsb is_run l = true \/ (forall o, In o (refs u) -> m1 0 o = m3 0 o) -> forall o, In o (refs u) -> m2 0 o = m4 0 o).
Proof.
  intros HW HD HA HA' HB HB' HS HC HO HR HO' HR' HG HL.
  destruct (inv_bound LL bv ba HF u m uv ua e m0 HW HA HB) as [HI _].
  destruct (inv_bound LL bv' ba' HF' u m' uv' ua' e' m0' HW HA' HB') as [HI' _].
  destruct (run_ok LL bv ba HF u _ _ ops HO e m0 HI) as [x1 [y1 [R I1]]]. rewrite R in HR. inversion HR; subst x1 y1.
  destruct (run_ok LL bv' ba' HF' u _ _ ops' HO' e' m0' HI') as [x3 [y3 [R3 I3]]]. rewrite R3 in HR'. inversion HR'; subst x3 y3.
  destruct (bound_nrm LL bv ba uv ua u m e m0 HW HB) as [e0 [M0 N0]].
  destruct (bound_nrm LL bv' ba' uv' ua' u m' e' m0' HW HB') as [e0' [M0' N0']].
  rewrite <- (mk_reads u m m' HS HC), M0 in M0'. inversion M0'; subst e0'.
  eapply calls_both; eauto. rewrite (run_nrm _ _ _ _ _ R), (run_nrm _ _ _ _ _ R3). congruence.
Qed.
End Two.

(** ** A constructor that keeps what it saw *)
Definition mem48 (f g : nat -> toy) : mem toy := fun b o =>
  if o <? 8 then match b with 0 => Some (f o) | 1 => Some 0%Z | 4 => Some (g o) | _ => None end else None.
Definition u48u {N : num} : expr N unit :=
  EComp (KStat UniVSV) tt [ECvw (Sh Vec 1 1) 0; ECvw scl 1; EVar (Sh Vec 1 1) 0].
Lemma stale_constructor (gg := fun o => if o =? 0 then 2%Z else 0%Z) :
  wfs (@u48u toy) = true /\ disc (@u48u toy) = true /\ sdrefs (@u48u toy) = [0; 1] /\ crefs (@u48u toy) = [0] /\
  avail (@u48u toy) (mem48 (fun _ => 3%Z) gg) /\ avail (@u48u toy) (mem48 (fun _ => 1%Z) gg) /\
  exists e m0 e' m0', bound 2 3 (any toy) (any toy) u48u (mem48 (fun _ => 3%Z) gg) = Ok (e, m0) /\
    bound 2 3 (any toy) (any toy) u48u (mem48 (fun _ => 1%Z) gg) = Ok (e', m0') /\
    (forall b o, b = 1 \/ b = 4 -> m0 b o = setc m0' 0 0 (3%Z : toy) b o) /\ m0 0 0 = setc m0' 0 0 (3%Z : toy) 0 0 /\
    exists m2 m4 e2 e4 v v', evaluate e m0 = Ok (e2, m2, v) /\ evaluate e' (setc m0' 0 0 (3%Z : toy)) = Ok (e4, m4, v') /\
      v <> v'.
Proof.
  do 4 (split; [reflexivity|]).
  split. { split; cbn; intros o Ho; repeat (destruct Ho as [<-|Ho]; [try split; discriminate|]); destruct Ho. }
  split. { split; cbn; intros o Ho; repeat (destruct Ho as [<-|Ho]; [try split; discriminate|]); destruct Ho. }
  do 4 eexists. split; [reflexivity|]. split; [reflexivity|].
  split. { intros b o [X|X]; subst b; reflexivity. }
  split; [reflexivity|]. do 6 eexists. split; [reflexivity|]. split; [reflexivity|]. discriminate.
Qed.
