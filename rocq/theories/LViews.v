(** What the views returned by evaluate and autodiff show later on. *)
From Coq Require Import Reals Lra.
From Verif Require Import Base Num Expr Node Stat Machine Wf Pure LBase LKind LSimDef LMem LSimF LSimB LBind
  Session LUser Tape LTape LState LNrm LTop OwnBind Views.
Set Bullet Behavior "Strict Subproofs".

Section Keep.
Context {N : num}.
Notation T := (carrier N).
Notation E := (expr T (ann N)).
Notation env := (nat -> T).
Variable D : env.
Hypothesis LL : la_len N.

(** Only prod over iterators rewrites its value. *)
Lemma pgo_keep k n ss cs seed t P0 l : match k with KProdI _ => False | _ => True end ->
  forall pre ts (r a : env) qs f r' a', pgo (N := N) k n ss cs seed None t P0 pre l ts r a = (qs, f, r', a') -> f = tv t.
Proof.
  intros HK. induction l as [|y l IH]; intros pre ts r a qs f r' a' H; [cbn in H; now inversion H|].
  destruct ts as [|ty ts]; [cbn in H; now inversion H|]. cbn [pgo] in H.
  destruct (pgo k n ss cs seed None t P0 (pre ++ [tp ty]) l ts r a) as [[[qs1 f1] r1] a1] eqn:E1.
  apply IH in E1. subst f1.
  destruct (if klazy k ss then _ else P0) as [[vs fv] ad].
  assert (KN : kpre (N := N) k (length pre) vs fv = None) by (destruct k; try reflexivity; destruct HK).
  rewrite KN in H. destruct (match kseed k cs ss (tst t) ad vs fv (length pre) with None => _ | _ => _ end) as [[q2 r2] a2].
  now inversion H.
Qed.

Lemma keep_all (e : E) : forall t t' seed r a q r' a',
  wfs e = true -> disc e = true -> RT None e t t' r -> WT e t' -> prod_ok e t' ->
  length seed = size (shape_of e) -> pb None e t seed r a = (q, r', a') -> root_kept e = true ->
  rdp r' q = nv t' /\ (own_root e = true -> exists l, q = PL l).
Proof.
  induction e using expr_ind'; intros t t' seed r a0 qr r' a' Hw Hd R W PO SL P HK;
    pose proof (TB_all D LL) as TB0.
  - cbn in P. inversion P; subst. split; [eapply RT_val; eauto|discriminate].
  - cbn in P. inversion P; subst. split; [eapply RT_val; eauto|]. intros _. destruct R as [_ R]. eauto.
  - cbn in P. inversion P; subst. split; [eapply RT_val; eauto|]. intros _. destruct R as [_ R]. eauto.
  - pose proof P as P'. destruct es as [|e0 es0].
    + cbn in P. inversion P; subst. split; [eapply RT_val; eauto|]. intros _. destruct R as [_ [_ [_ [R _]]]]. eauto.
    + rewrite pb_comp in P by discriminate. cbn zeta in P.
      match type of P with context [pgo ?k ?n ?ss ?cs ?sd ?x ?t ?p ?pre ?l ?ts ?r ?a] =>
        destruct (pgo k n ss cs sd x t p pre l ts r a) as [[[qs f] r2] a2] eqn:PG end.
      inversion P; subst qr r' a'. split; [|cbn [px]; eauto].
      assert (KP : (exists s, k = KProdI s) \/ match k with KProdI _ => False | _ => True end) by (destruct k; eauto).
      destruct KP as [[s ->]|KP].
      * cbn [root_kept] in HK. apply nilb_spec in HK.
        destruct (TB0 _ None t t' seed r a0 a0 _ _ _ Hw Hd ltac:(congruence) ltac:(cbn; tauto) R W PO SL ltac:(auto)
          ltac:(discriminate) P') as [_ [_ [_ [X _]]]]. exact (proj2 (X HK)).
      * apply pgo_keep in PG; [|exact KP]. subst f. cbn [px rdp]. apply R.
  - cbn [root_kept] in HK. apply nilb_spec in HK. split; [|discriminate].
    destruct (TB0 _ None t t' seed r a0 a0 _ _ _ Hw Hd ltac:(congruence) ltac:(cbn; tauto) R W PO SL ltac:(auto)
      ltac:(discriminate) P) as [_ [_ [_ [X _]]]]. exact (proj2 (X HK)).
  - discriminate.
  - cbn [root_kept] in HK. apply andb_true_iff in HK. destruct HK as [K1 K2].
    cbn [wfs disc] in Hw, Hd. rewrite !andb_true_iff in Hw. rewrite !andb_true_iff in Hd.
    destruct Hw as [[[Hw1 Hw2] Hw3] Hw4]. destruct Hd as [[Hd1 Hd2] Hd3].
    pose proof (dj_spec _ _ Hd3) as DJ.
    destruct R as [R1 [tl [tr [tl' [tr' [E1 [E2 [R2 [R3 R4]]]]]]]]].
    destruct W as [W1 [tl2 [tr2 [E3 [EV [W2 W3]]]]]]. rewrite E2 in E3. inversion E3; subst tl2 tr2; clear E3.
    cbn [prod_ok] in PO. rewrite E2 in PO. destruct PO as [PO1 PO2].
    cbn [pb shape_of] in P, SL. rewrite E1 in P.
    destruct (pb None e2 tr seed r a0) as [[q1 r1] a1] eqn:P1.
    destruct (pb None e1 tl (repeat (n0 N) (size (shape_of e1))) r1 a1) as [[q2 r2] a2] eqn:P2.
    inversion P; subst qr r' a'; clear P. cbn [px].
    destruct (IHe2 tr tr' seed r a0 q1 r1 a1 Hw2 Hd2 R3 W3 PO2 SL P1 K1) as [V1 O1].
    split; [|exact O1]. rewrite EV, <- V1.
    destruct (own_root e2) eqn:OR.
    + destruct (O1 eq_refl) as [l ->]. reflexivity.
    + cbn in K2. apply nilb_spec in K2. apply rdp_pt.
      destruct (TB0 _ None tr tr' seed r a0 a0 _ _ _ Hw2 Hd2 ltac:(congruence) ltac:(cbn; tauto) R3 W3 PO2 SL ltac:(auto)
        ltac:(discriminate) P1) as [A1 _].
      assert (RL : RT None e1 tl tl' r1).
      { eapply RT_ext; [exact W2| |apply xval_none|exact R4]. intros i Hi. symmetry. apply A1; [|cbn; auto]. intros Hj. exact (DJ i Hj Hi). }
      destruct (TB0 e1 None tl tl' _ r1 a1 a1 q2 r2 a2 Hw1 Hd1 ltac:(congruence) ltac:(cbn; tauto) RL W2 PO1 (repeat_length _ _)
        ltac:(auto) ltac:(discriminate) P2) as [_ [_ [_ [X _]]]]. exact (proj1 (X K2)).
  - cbn [root_kept] in HK. apply nilb_spec in HK. split; [|discriminate].
    destruct (TB0 _ None t t' seed r a0 a0 _ _ _ Hw Hd ltac:(congruence) ltac:(cbn; tauto) R W PO SL ltac:(auto)
      ltac:(discriminate) P) as [_ [_ [_ [X _]]]]. exact (proj2 (X HK)).
  - discriminate.
Qed.
End Keep.

Section Mach.
Context {N : num}.
Notation T := (carrier N).
Notation E := (expr T (ann N)).
Notation U := (expr T unit).
Notation env := (nat -> T).
Hypothesis LL : la_len N.
Variables bv ba : nat.
Hypothesis HF : fresh bv ba.

Lemma getref_strip (e e' : E) : strip e' = strip e -> getref e' = getref e.
Proof.
  intros H. assert (S : shape_of e' = shape_of e).
  { rewrite <- (shape_of_amap (fun a => set_st a (sst0 N)) e'), <- (shape_of_amap (fun a => set_st a (sst0 N)) e).
    unfold strip in H. now rewrite H. }
  destruct e, e'; try discriminate H; unfold strip in H; cbn [amap] in H; inversion H; subst; auto;
    cbn [getref own]; rewrite S; congruence.
Qed.

Lemma own_root_amap {A B} (h : A -> B) (e : expr T A) : own_root (amap h e) = own_root e.
Proof. induction e using expr_ind'; cbn [amap own_root]; auto. Qed.
Lemma kept_amap {A B} (h : A -> B) (e : expr T A) : root_kept (amap h e) = root_kept e.
Proof.
  induction e using expr_ind'; cbn [amap root_kept]; auto.
  - pose proof (opw_amap h (EComp k a es)) as X. cbn [amap] in X. destruct k; auto. now rewrite X.
  - pose proof (opw_amap h (EEq a sh o e)) as X. cbn [amap] in X. now rewrite X.
  - now rewrite own_root_amap, opw_amap, IHe2.
  - pose proof (opw_amap h (EFor a s es)) as X. cbn [amap] in X. now rewrite X.
Qed.

(** Results with the shape of a scalar are copies. *)
Lemma diff_scl (e : E) seed m e' m' v : is_scl (shape_of e) = true -> autodiff e seed m = Ok (e', m', v) ->
  autodiff_v e seed m = Ok (e', m', RCst v).
Proof.
  intros HS. unfold autodiff, autodiff_v, evaluate, evaluate_v, hand. rewrite HS.
  destruct (feval e m) as [[[e1 m1] r]|]; [|discriminate]. cbn [bindR].
  destruct (rdref m1 r) as [w|]; [|discriminate]. cbn [bindR].
  destruct (beval e1 seed m1) as [m2|]; [|discriminate]. cbn [bindR]. intros H. now inversion H.
Qed.

Lemma eval_view u cv ca (e : E) m D r al : inv bv ba u cv ca e m -> MR (vset u) (wset u) D m r al ->
  gettable u = true -> is_scl (shape_of u) = false ->
  exists e' m' v, evaluate e m = Ok (e', m', v) /\ evaluate_v e m = Ok (e', m', getref e) /\ strip e' = strip e /\
    rdref m' (getref e) = Ok v.
Proof.
  intros HI HM HG HS. pose proof HI as [H1 [H2 [H3 [H4 [H5 [H6 H7]]]]]]. pose proof HF as [Fb Fa].
  destruct (FS_all Fb Fa LL e None 0 0 cv ca m r al H4 (inv_pre bv ba HF _ _ _ _ _ HI) HM H5) as [e' [m' [q [E1 Q]]]].
  destruct (pf D None e r) as [[t r'] p]. destruct Q as [Q1 [Q2 [Q3 [Q4 [Q5 [Q6 Q7]]]]]].
  destruct (refR_read _ _ _ _ _ _ _ _ Q3 Q4) as [E2 L2].
  assert (GE : gettable e = true) by (subst u; unfold er in HG; now rewrite gettable_amap in HG).
  assert (SE : is_scl (shape_of e) = false) by (subst u; unfold er in HS; now rewrite shape_of_amap in HS).
  destruct (Q6 GE) as [-> ->]. rewrite (getref_strip _ _ Q1) in *.
  exists e', m', (rdp r' (tp t)). unfold evaluate, evaluate_v, hand. rewrite E1, SE. cbn [bindR].
  rewrite E2. auto.
Qed.

Lemma diff_view u cv ca (e : E) m D r al seed : inv bv ba u cv ca e m -> MR (vset u) (wset u) D m r al ->
  length seed = size (shape_of u) -> gettable u = true -> is_scl (shape_of u) = false ->
  exists e' m', let '(t, r1, p) := pf D None e r in
    let '(q, r2, al2) := pb None e t seed r1 al in
    autodiff_v e seed m = Ok (e', m', getref e) /\ strip e' = strip e /\
    refR bv (vset u) m' 0 cv (size (shape_of u)) (getref e) q /\ rdref m' (getref e) = Ok (rdp r2 q) /\ tp t = p.
Proof.
  intros HI HM HL HG HS. pose proof HI as [H1 [H2 [H3 [H4 [H5 [H6 H7]]]]]]. pose proof HF as [Fb Fa].
  destruct (FS_all Fb Fa LL e None 0 0 cv ca m r al H4 (inv_pre bv ba HF _ _ _ _ _ HI) HM H5) as [e' [m' [q [E1 Q]]]].
  destruct (pf D None e r) as [[t r'] p]. destruct Q as [Q1 [Q2 [Q3 [Q4 [Q5 [Q6 Q7]]]]]].
  assert (GE : gettable e = true) by (subst u; unfold er in HG; now rewrite gettable_amap in HG).
  assert (SE : is_scl (shape_of e) = false) by (subst u; unfold er in HS; now rewrite shape_of_amap in HS).
  destruct (Q6 GE) as [-> ->].
  assert (ER : er e' = u) by (rewrite <- H1; now apply er_strip).
  assert (SU : shape_of u = shape_of e') by (rewrite <- ER; unfold er; now rewrite shape_of_amap).
  assert (GE' : gettable e' = true) by (rewrite <- ER in HG; unfold er in HG; now rewrite gettable_amap in HG).
  assert (I1 : inv bv ba u cv ca e' m').
  { assert (LE : lay bv ba None e' 0 0 cv ca) by (apply lay_strip; rewrite Q1; now apply lay_strip).
    eapply inv_keeps; [|apply Q7]. split; [exact ER|].
    split; [exact H2|]. split; [exact Q2|]. split; [exact LE|]. auto. }
  destruct (BS_all Fb Fa LL e' None t seed 0 0 cv ca m' r' al Q5 (inv_preB bv ba HF _ _ _ _ _ I1) Q3)
    as [m2 [E3 QQ]]; [apply I1|congruence|].
  exists e', m2. rewrite (pb_same e e') in QQ by exact Q1.
  destruct (pb None e t seed r' al) as [[q2 r2] al2]. destruct QQ as [M2 [G2 F2]]. specialize (G2 GE').
  rewrite (getref_strip _ _ Q1) in *. rewrite <- SU in G2.
  destruct (refR_read _ _ _ _ _ _ _ _ M2 G2) as [E4 _].
  unfold autodiff_v, evaluate_v, hand. rewrite E1, SE. cbn [bindR]. rewrite E3. auto.
Qed.

Theorem kept_gen u cv ca (e : E) m D r al t r' seed : inv bv ba u cv ca e m -> disc u = true ->
  MR (vset u) (wset u) D m r al -> tf D e r = (t, r') -> prod_ok e t -> length seed = size (shape_of u) ->
  root_kept u = true ->
  exists e' m' h, autodiff_v e seed m = Ok (e', m', h) /\ rdref m' h = Ok (nv t).
Proof.
  intros HI HD HM HT HP HL HK. destruct (is_scl (shape_of u)) eqn:HS.
  - destruct (top_diff LL bv ba HF u cv ca e m D r al t r' seed HI HD HM HT HP HL) as [e' [m' [r2 [E1 _]]]].
    exists e', m', (RCst (nv t)). split; [|reflexivity]. apply diff_scl; auto.
    destruct (inv_facts _ _ _ _ _ _ _ HI) as [F1 [F2 [F3 [F4 [F5 [F6 F7]]]]]]. now rewrite F7.
  - assert (HG : gettable u = true) by (destruct u; auto; discriminate HK).
    destruct (diff_view u cv ca e m D r al seed HI HM HL HG HS) as [e' [m' Q]].
    destruct (inv_facts _ _ _ _ _ _ _ HI) as [F1 [F2 [F3 [F4 [F5 [F6 F7]]]]]].
    destruct (pf D None e r) as [[t0 r0] p] eqn:EP. destruct (pb None e t0 seed r0 al) as [[q r2] al2] eqn:EB.
    destruct Q as [Q1 [Q2 [Q3 [Q4 Q5]]]]. exists e', m', (getref e). split; [exact Q1|]. rewrite Q4. f_equal.
    pose proof HI as [HU [_ [HST _]]]. rewrite <- F2 in HD.
    destruct (TF_all D LL e None r r t0 r0 p t r' F1 HD HST ltac:(intros X; congruence) ltac:(intros o X; destruct X)
       ltac:(auto) EP HT) as [_ [P1 [P2 [P3 [P4 P5]]]]].
    assert (KE : root_kept e = true).
    { rewrite <- HU in HK. unfold er in HK. now rewrite kept_amap in HK. }
    apply (keep_all D LL e t0 t seed r0 al q r2 al2); auto. congruence.
Qed.

(** op= at the root: the view shows the restored variable. *)
Theorem opeq_gen q0 sh o y cv ca (e : E) m D r al t r' seed (u := EOpEq q0 tt sh o y) : inv bv ba u cv ca e m ->
  disc u = true -> MR (vset u) (wset u) D m r al -> tf D e r = (t, r') -> prod_ok e t -> length seed = size sh ->
  is_scl sh = false -> (forall i, In i (cells sh o) -> ~ In i (eqw u)) ->
  exists e' m', autodiff_v e seed m = Ok (e', m', RMem (Ptr 0 o) (size sh)) /\
    rdref m' (RMem (Ptr 0 o) (size sh)) = Ok (rdv r o (size sh)).
Proof.
  intros HI HD HM HT HP HL HS HE.
  destruct (top_diff LL bv ba HF u cv ca e m D r al t r' seed HI HD HM HT HP HL) as [e1 [m1 [r2 [E1 [E2 [E3 [E4 [E5 [E6 _]]]]]]]]].
  destruct (diff_view u cv ca e m D r al seed HI HM HL eq_refl HS) as [e' [m' Q]].
  destruct (pf D None e r) as [[t0 r0] p] eqn:EP. destruct (pb None e t0 seed r0 al) as [[q r3] al2] eqn:EB.
  destruct Q as [Q1 [Q2 [Q3 [Q4 Q5]]]].
  assert (GR : getref e = RMem (Ptr 0 o) (size sh)).
  { destruct HI as [HU [_ [_ [HY _]]]]. destruct e; try discriminate HU. unfold er, u in HU. cbn [amap] in HU. inversion HU; subst.
    cbn [lay] in HY. cbn [getref own shape_of]. f_equal. clear - HY. firstorder. }
  assert (EM : m' = m1).
  { unfold autodiff, autodiff_v, evaluate, evaluate_v in *. destruct (feval e m) as [[[e2 m2] rr]|]; [|discriminate]. cbn [bindR] in *.
    destruct (rdref m2 rr); [|discriminate]. destruct (hand e m2 rr); [|discriminate]. cbn [bindR] in *.
    destruct (beval e2 seed m2); [|discriminate]. cbn [bindR] in *. congruence. }
  exists e', m'. rewrite <- GR. split; [exact Q1|]. rewrite GR, EM. cbn [rdref].
  assert (VO : forall i, o <= i < o + size sh -> vset u i).
  { intros i Hi. unfold vset, u. cbn [refs]. apply in_or_app. left. apply in_seq. lia. }
  rewrite (MR_load0 _ _ _ _ _ E3 VO). f_equal. apply rdv_ext. intros i Hi. apply E6, HE. apply in_seq. lia.
Qed.

Lemma eval_scl (e : E) m e' m' v : is_scl (shape_of e) = true -> evaluate e m = Ok (e', m', v) ->
  evaluate_v e m = Ok (e', m', RCst v).
Proof.
  intros HS. unfold evaluate, evaluate_v, hand. rewrite HS.
  destruct (feval e m) as [[[e1 m1] r]|]; [|discriminate]. cbn [bindR].
  destruct (rdref m1 r) as [w|]; [|discriminate]. cbn [bindR]. intros H. now inversion H.
Qed.

Lemma run_strip u cv ca ops : Forall (op_ok (size (shape_of u))) ops -> forall (e : E) (m : mem T) (e' : E) m',
  inv bv ba u cv ca e m -> run ops (e, m) = Ok (e', m') -> inv bv ba u cv ca e' m' /\ strip e' = strip e.
Proof.
  induction 1 as [|o l HO H IH]; intros e m e1 m1 HI HR.
  { inversion HR; subst. auto. }
  assert (HM : MR (vset u) (wset u) (renv m 4) m (renv m 0) (renv m 1)) by (apply MR_renv, HI).
  cbn [run] in HR. destruct o as [|seed|f]; cbn [step op_ok] in *.
  - pose proof HI as [H1 [H2 [H3 [H4 [H5 [H6 H7]]]]]]. pose proof HF as [Fb Fa].
    destruct (FS_all Fb Fa LL e None 0 0 cv ca m _ _ H4 (inv_pre bv ba HF _ _ _ _ _ HI) HM H5) as [e2 [m2 [q [G1 G2]]]].
    destruct (evaluate_ok LL bv ba HF _ _ _ _ _ _ _ _ HI HM) as [e' [m' Q]].
    destruct (pf _ None e _) as [[t r'] p]. destruct G2 as [G2 _]. destruct Q as [E1 [I1 _]]. rewrite E1 in HR. cbn [bindR] in HR.
    assert (e' = e2).
    { unfold evaluate in E1. rewrite G1 in E1. cbn [bindR] in E1. destruct (rdref m2 q); [|discriminate]. cbn [bindR] in E1. congruence. }
    subst e'. destruct (IH _ _ _ _ I1 HR) as [X Y]. split; [exact X|congruence].
  - destruct (autodiff_ok LL bv ba HF _ _ _ _ _ _ _ _ seed HI HM HO) as [e' [m' Q]].
    destruct (pf _ None e _) as [[t r'] p]. destruct (pb None e' t seed r' _) as [[q2 r2] al2].
    destruct Q as [E1 [I1 [_ [_ G1]]]]. rewrite E1 in HR. cbn [bindR] in HR.
    destruct (IH _ _ _ _ I1 HR) as [X Y]. split; [exact X|congruence].
  - cbn [bindR] in HR. apply (IH e (f m)); auto. eapply inv_keeps; eauto.
Qed.

(** Every call returns the same view. *)
Theorem view_again (uv ua : nat -> T) (u : U) (m : mem T) e m0 ops e1 m1 ops' e2 m2 :
  wfs u = true -> avail u m -> bound bv ba uv ua u m = Ok (e, m0) ->
  gettable u = true -> is_scl (shape_of u) = false ->
  Forall (op_ok (size (shape_of u))) ops -> run ops (e, m0) = Ok (e1, m1) ->
  Forall (op_ok (size (shape_of u))) ops' -> run ops' (e1, m1) = Ok (e2, m2) ->
  exists h, (exists e1' m1', evaluate_v e1 m1 = Ok (e1', m1', h)) /\
    (exists e2' m2' v, evaluate e2 m2 = Ok (e2', m2', v) /\ evaluate_v e2 m2 = Ok (e2', m2', h) /\ rdref m2' h = Ok v) /\
    (forall seed, length seed = size (shape_of u) -> exists e1' m1', autodiff_v e1 seed m1 = Ok (e1', m1', h)).
Proof.
  intros HW HA HB HG HS HO HR HO' HR'.
  destruct (inv_bound LL bv ba HF u m uv ua e m0 HW HA HB) as [HI _].
  destruct (run_strip u _ _ ops HO e m0 e1 m1 HI HR) as [I1 S1].
  destruct (run_strip u _ _ ops' HO' e1 m1 e2 m2 I1 HR') as [I2 S2].
  assert (HM1 : MR (vset u) (wset u) (renv m1 4) m1 (renv m1 0) (renv m1 1)) by (apply MR_renv, I1).
  assert (HM2 : MR (vset u) (wset u) (renv m2 4) m2 (renv m2 0) (renv m2 1)) by (apply MR_renv, I2).
  exists (getref e1). split; [|split].
  - destruct (eval_view u _ _ e1 m1 _ _ _ I1 HM1 HG HS) as [e' [m' [v [_ [Q _]]]]]. eauto.
  - destruct (eval_view u _ _ e2 m2 _ _ _ I2 HM2 HG HS) as [e' [m' [v [Q1 [Q2 [_ Q3]]]]]].
    rewrite (getref_strip _ _ S2) in Q2, Q3. exists e', m', v. auto.
  - intros seed HL. destruct (diff_view u _ _ e1 m1 _ _ _ seed I1 HM1 HL HG HS) as [e' [m' Q]].
    destruct (pf _ None e1 _) as [[t0 r0] p]. destruct (pb None e1 t0 seed r0 _) as [[q r2] al2]. destruct Q as [Q _]. eauto.
Qed.

(** The storage of a temporary's root is gone. *)
Theorem view_temp (uv ua : nat -> T) (u : U) (m : mem T) seed k es : u = EComp k tt es ->
  wfs u = true -> ctor_ok u = true -> avail u m -> length seed = size (shape_of u) ->
  is_scl (shape_of u) = false -> 0 < size (shape_of u) ->
  exists m' h, autodiff_temp bv ba uv ua u seed m = Ok (m', h) /\ rdref m' h = Err UBoob.
Proof.
  intros Hu HW HC HA HL HS Hn. destruct (bound_ok LL bv ba u m uv ua HW HC HA) as [e [m0 HB]].
  destruct (inv_bound LL bv ba HF u m uv ua e m0 HW HA HB) as [HI _].
  assert (HM : MR (vset u) (wset u) (renv m0 4) m0 (renv m0 0) (renv m0 1)) by (apply MR_renv, HI).
  assert (HG : gettable u = true) by now subst u.
  destruct (diff_view u _ _ e m0 _ _ _ seed HI HM HL HG HS) as [e' [m' Q]].
  destruct (pf _ None e _) as [[t0 r0] p]. destruct (pb None e t0 seed r0 _) as [[q r2] al2]. destruct Q as [Q _].
  exists (drop (Some ba) (drop (Some bv) m')), (getref e). unfold autodiff_temp, eb_bind. rewrite HB. cbn [bindR eb_e].
  rewrite Q. cbn [bindR]. split; [reflexivity|].
  destruct HI as [H1 [_ [_ [HY _]]]]. rewrite Hu in H1. destruct e as [| | |k0 an es0| | | | |]; try discriminate.
  unfold er in H1. cbn [amap] in H1. injection H1 as -> He.
  assert (SS : map shape_of es = map shape_of es0).
  { rewrite <- He, map_map. apply map_ext. intros a. apply shape_of_amap. }
  rewrite lay_comp in HY. destruct HY as [v1 [a1 [_ [_ [HY _]]]]].
  cbn [getref own rdref]. rewrite HY. subst u. cbn [shape_of] in *. rewrite SS in Hn.
  destruct (size (kshape k (map shape_of es0))) as [|n]; [lia|].
  unfold load. cbn. unfold rd1, drop. rewrite Nat.eqb_refl. destruct (bv =? ba); reflexivity.
Qed.
End Mach.
