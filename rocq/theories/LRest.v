(** The backward pass puts back what op= overwrote, in every arithmetic; and what
    the variables hold after it satisfies every predicate that is closed under
    multiplication and holds of the values met in the forward pass. *)
From Verif Require Import Base Num Expr Node Stat Machine Wf Pure LBase LKind LSimDef LMem LSimF LSimB LBind
  Session LUser Tape LTape LState LNrm LTop.

Section Rest.
Context {N : num}.
Notation T := (carrier N).
Notation E := (expr T (ann N)).
Notation env := (nat -> T).
Notation rec := (rec N).
Implicit Types (r a : env).

Definition TR (e : E) : Prop := forall x t t' seed r a q r' a',
  wfs e = true -> disc e = true -> (x <> None -> rhs_ok e = true) ->
  (forall o, xin x (size (shape_of e)) o -> ~ In o (refs e)) ->
  RT x e t t' r -> WT e t' -> pb x e t seed r a = (q, r', a') ->
  forall o, ~ In o (eqw e) -> ~ xin x (size (shape_of e)) o -> r' o = rs e t' r o.

Lemma pre_le k i (vs : list (list T)) f g : kpre k i vs f = Some g -> length g <= length f.
Proof.
  destruct k; try discriminate. cbn [kpre]. destruct (anyzero _); [|discriminate]. intros H; inversion H; subst; clear H.
  assert (X : forall l b, length (fold_left (map2 (nmul N)) l b) <= length b).
  { induction l as [|v l IH]; intros b; cbn; [lia|]. etransitivity; [apply IH|]. rewrite map2_length. lia. }
  etransitivity; [apply X|]. now rewrite repeat_length.
Qed.
Lemma wx_le x r v n o : (x <> None -> length v <= n) -> ~ xin x n o -> wx x r v o = r o.
Proof. destruct x as [c|]; cbn; auto. intros L H. apply upd_out. specialize (L ltac:(discriminate)). lia. Qed.

Lemma loop_tr k x t (t' : rec) seed (es : list E) n ss cs P0 :
  (kpure k = true -> forallb (fun y => nilb (writes y)) es = true) ->
  (forall o, xin x n o -> ~ In o (flat_map refs es)) ->
  Forall TR es -> forallb wfs es = true -> forallb disc es = true -> later writes es = true ->
  forall pre lts lts' r a qs f r' a',
  RTs r es lts lts' -> WTs es lts' ->
  pgo k n ss cs seed x t P0 pre es lts r a = (qs, f, r', a') ->
  forall o, ~ In o (flat_map eqw es) -> ~ xin x n o -> r' o = rsl es lts' r o.
Proof.
  intros Hpu Hxr HT. induction HT as [|y l TY HT IH]; intros Hw Hd Hlat pre lts lts' r a qs f r' a' R W P o Ho Hx.
  - destruct lts; cbn in P; inversion P; subst; reflexivity.
  - destruct lts as [|ty lts]; [destruct R|]. destruct lts' as [|ty' lts']; [destruct R|].
    cbn [RTs WTs] in R, W. destruct R as [RY R], W as [WY W].
    cbn [forallb] in Hw, Hd. apply andb_true_iff in Hw. apply andb_true_iff in Hd. destruct Hw as [HwY HwL], Hd as [HdY HdL].
    apply later_hd in Hlat. destruct Hlat as [HLy HLl].
    cbn [pgo] in P. fold (pgo k n ss cs seed x t P0) in P.
    destruct (pgo k n ss cs seed x t P0 (pre ++ [tp ty]) l lts r a) as [[[qs1 f1] r1] a1] eqn:PG.
    assert (Hpl : kpure k = true -> forallb (fun y => nilb (writes y)) l = true).
    { intros Hk. specialize (Hpu Hk). cbn in Hpu. apply andb_true_iff in Hpu. apply Hpu. }
    assert (Hxl : forall o, xin x n o -> ~ In o (flat_map refs l)).
    { intros i Hi Hj. apply (Hxr i Hi). cbn. apply in_or_app. auto. }
    pose proof (IH Hpl Hxl HwL HdL HLl _ _ _ _ _ _ _ _ _ R W PG) as A1. clear IH.
    assert (Hxy : forall o, xin x n o -> ~ In o (refs y)).
    { intros i Hi Hj. apply (Hxr i Hi). cbn. apply in_or_app. auto. }
    assert (RY1 : forall i, In i (refs y) -> r i = r1 i).
    { intros i Hi. symmetry. assert (NE : ~ In i (flat_map writes l)) by (intros Hj; eauto).
      rewrite A1.
      - apply rsl_out; auto. intros Hj. apply NE. apply (fm_sub opw writes l); auto.
        apply Forall_forall. intros; now apply opw_writes.
      - intros Hj. apply NE. apply (fm_sub eqw writes l); auto. apply Forall_forall. intros; now apply eqw_writes.
      - intros Hj. apply (Hxy i); auto. }
    cbn in Ho. rewrite in_app_iff in Ho. cbn [rsl].
    set (PK := if klazy k ss then (vsel k (map (rdp r1) (pre ++ tp ty :: qs1)), rx x r1 n f1, adv k n seed x a1) else P0) in P.
    assert (FK : klazy k ss = true -> x <> None -> length (snd (fst PK)) = n).
    { intros Hk Hn. unfold PK. rewrite Hk. cbn. destruct x; [|congruence]. cbn. apply rdv_length. }
    destruct PK as [[vs fv] ad]. cbn [fst snd] in FK.
    destruct (kpre k (length pre) vs fv) as [g|] eqn:KP.
    + destruct (kpre_lazy _ _ _ _ _ ss KP) as [Hk Hp].
      destruct (kseed_some k cs ss (tst t) ad vs g (length pre) Hp) as [sd KS]. rewrite KS in P.
      destruct (pb None y ty sd (wx x r1 g) a1) as [[q r2] a2] eqn:PB.
      inversion P; subst qs f r' a'; clear P.
      assert (LG : x <> None -> length g <= n).
      { intros Hn. rewrite <- (FK Hk Hn). eapply pre_le; eauto. }
      assert (RYg : RT None y ty ty' (wx x r1 g)).
      { eapply RT_ext; [exact WY| |intros ? X; discriminate X|exact RY]. intros i Hi. rewrite (wx_le x r1 g n i LG); [auto|].
        intros Hj. apply (Hxy i); auto. }
      rewrite (wx_le x r2 _ n); auto.
      2:{ intros Hn. rewrite map2_length. destruct x; [|congruence]. cbn. rewrite rdv_length. lia. }
      rewrite (TY None ty ty' sd _ _ _ _ _ HwY HdY ltac:(congruence) ltac:(cbn; tauto) RYg WY PB) by (cbn; tauto).
      apply rs_pt. rewrite (wx_le x r1 g n) by auto. apply A1; tauto.
    + destruct (kseed k cs ss (tst t) ad vs fv (length pre)) as [sd|] eqn:KS.
      * destruct (pb None y ty sd r1 a1) as [[q r2] a2] eqn:PB. inversion P; subst qs f r' a'; clear P.
        assert (RYg : RT None y ty ty' r1) by (eapply RT_ext; [exact WY| |intros ? X; discriminate X|exact RY]; auto).
        rewrite (TY None ty ty' sd _ _ _ _ _ HwY HdY ltac:(congruence) ltac:(cbn; tauto) RYg WY PB) by (cbn; tauto).
        apply rs_pt. apply A1; tauto.
      * assert (Hp : kpure k = true).
        { destruct (kpure k) eqn:Hp; auto. destruct (kseed_some k cs ss (tst t) ad vs fv (length pre) Hp). congruence. }
        specialize (Hpu Hp). cbn in Hpu. apply andb_true_iff in Hpu. destruct Hpu as [HwN _]. apply nilb_spec in HwN.
        inversion P; subst qs f r' a'; clear P. rewrite rs_out; auto.
        intros Hi. apply opw_writes in Hi. rewrite HwN in Hi. destruct Hi.
Qed.

Lemma listf_tr es : Forall TR es -> es <> [] -> forall d seed r a q r' a' ts ts',
  forallb wfs es = true -> forallb disc es = true -> later eqw es = true ->
  RTf r es ts ts' -> WTs es ts' -> pfgo d seed es ts r a = (q, r', a') ->
  forall o, ~ In o (flat_map eqw es) -> r' o = rsl es ts' r o.
Proof.
  induction 1 as [|y l HY H IH]; [congruence|].
  intros _ d seed r a q r' a' [|t ts] [|t' ts'] Hw Hd Hl R W P o Ho; cbn [RTf WTs] in R, W; try tauto.
  destruct R as [R1 R2], W as [W1 W2].
  cbn [forallb] in Hw, Hd. apply andb_true_iff in Hw. apply andb_true_iff in Hd.
  destruct Hw as [Hw1 Hw2], Hd as [Hd1 Hd2]. apply later_hd in Hl. destruct Hl as [Hl1 Hl2].
  cbn in Ho. rewrite in_app_iff in Ho.
  destruct l as [|z l].
  - destruct ts; [|destruct R2]. destruct ts'; [|destruct R2]. cbn [pfgo] in P. cbn [rsl] in R1.
    cbn [rsl]. apply (HY None t t' seed r a q r' a' Hw1 Hd1 ltac:(congruence) ltac:(cbn; tauto) R1 W1 P); [tauto|cbn; auto].
  - change (pfgo d seed (y :: z :: l) (t :: ts) r a) with
      (let '(q, r1, a1) := pfgo d seed (z :: l) ts r a in
       let '(_, r2, a2) := pb None y t (repeat (n0 N) (size (shape_of y))) r1 a1 in (q, r2, a2)) in P.
    destruct (pfgo d seed (z :: l) ts r a) as [[q1 r1] a1] eqn:P1.
    destruct (pb None y t (repeat (n0 N) (size (shape_of y))) r1 a1) as [[q2 r2] a2] eqn:P2.
    inversion P; subst q r' a'; clear P.
    pose proof (IH ltac:(discriminate) d seed r a q1 r1 a1 ts ts' Hw2 Hd2 Hl2 R2 W2 P1) as A1.
    assert (RY : RT None y t t' r1).
    { eapply RT_ext; [exact W1| |intros ? X; discriminate X|exact R1]. intros i Hi. symmetry. apply A1. intros Hj. eauto. }
    change (rsl (y :: z :: l) (t' :: ts') r) with (rs y t' (rsl (z :: l) ts' r)).
    rewrite (HY None t t' _ r1 a1 q2 r2 a2 Hw1 Hd1 ltac:(congruence) ltac:(cbn; tauto) RY W1 P2) by (cbn; tauto).
    apply rs_pt. apply A1. tauto.
Qed.

Lemma TR_all e : TR e.
Proof.
  induction e using expr_ind'; intros x t t' seed r a0 q0 r' a' Hw Hd Hx Hxr R W P i Hi Hxi.
  - cbn in P. now inversion P.
  - cbn in P. now inversion P.
  - cbn in P. now inversion P.
  - (* EComp *)
    destruct es as [|e0 es0].
    { cbn in P. inversion P; subst q0 r' a'. rewrite rs_comp. destruct (kpure k); destruct (nts t'); reflexivity. }
    assert (NE : e0 :: es0 <> []) by discriminate.
    set (es := e0 :: es0) in *. clearbody es.
    rewrite (pb_comp _ _ _ _ _ _ _ _ NE) in P. cbn zeta in P.
    cbn [wfs disc] in Hw, Hd. rewrite !andb_true_iff in Hw. rewrite !andb_true_iff in Hd.
    destruct Hw as [[[Hw1 Hw2] Hw3] Hw4]. destruct Hd as [[[Hd1 Hd2] Hd3] Hd4].
    destruct R as [R1 [R2 [R3 [R4 R5]]]]. destruct W as [W1 [W2 W3]].
    change (RTs r es (tts t) (nts t')) in R5. change (WTs es (nts t')) in W3.
    cbn [shape_of] in Hxr, W1, Hxi.
    match type of P with context [pgo ?w1 ?w2 ?w3 ?w4 ?w5 ?w6 ?w7 ?w8 [] ?w9 ?v1 ?v2 ?v3] => destruct (pgo w1 w2 w3 w4 w5 w6 w7 w8 [] w9 v1 v2 v3) as [[[qs f] r2] a2] eqn:PG end.
    inversion P; subst q0 r' a'; clear P.
    assert (L3 : kpure k = true -> forallb (fun y => nilb (writes y)) es = true).
    { intros Hk. rewrite Hk in Hd3. exact Hd3. }
    rewrite (loop_tr k x t t' seed es _ _ _ _ L3 Hxr H Hw1 Hd1 Hd2 _ _ _ _ _ _ _ _ _ R5 W3 PG) by auto.
    rewrite rs_comp. destruct (kpure k) eqn:Hp; auto. apply rsl_out; auto. intros Hj. apply in_flat_map in Hj.
    destruct Hj as [y [Hy Hj]]. specialize (L3 eq_refl). rewrite forallb_forall in L3. specialize (L3 y Hy). apply nilb_spec in L3.
    apply opw_writes in Hj. rewrite L3 in Hj. destruct Hj.
  - (* EEq *)
    cbn [wfs disc] in Hw, Hd. rewrite !andb_true_iff in Hw. rewrite !andb_true_iff in Hd.
    destruct Hw as [[[Hw1 Hw2] Hw3] Hw4]. destruct Hd as [Hd1 Hd2]. apply shape_eqb_eq in Hw3.
    pose proof (dj_spec _ _ Hd2) as DJ.
    destruct R as [R1 [R2 [R3 [ty [ty' [E1 [E2 R4]]]]]]]. destruct W as [W1 [ty2 [E3 [E4 W2]]]].
    rewrite E2 in E3. inversion E3; subst ty2; clear E3.
    cbn [pb shape_of] in P. rewrite E1 in P. cbn zeta in P.
    match type of P with context [pb ?w1 ?w2 ?w3 ?w4 ?w5 ?w6] => destruct (pb w1 w2 w3 w4 w5 w6) as [[q1 r1] a2] eqn:P1 end.
    inversion P; subst q0 r' a'; clear P.
    assert (XR : forall i, xin (Some o) (size (shape_of e)) i -> ~ In i (refs e)).
    { cbn. intros j Hj Hk. apply (DJ j); auto. apply in_cells. rewrite Hw3. lia. }
    cbn in Hi. rewrite in_app_iff, in_cells in Hi. cbn [rs]. rewrite E2.
    apply (IHe (Some o) ty ty' _ r _ q1 r1 a2 Hw1 Hd1 ltac:(auto) XR R4 W2 P1); [tauto|]. cbn. rewrite <- Hw3. tauto.
  - (* EOpEq *)
    cbn [wfs disc] in Hw, Hd. rewrite !andb_true_iff in Hw. rewrite !andb_true_iff in Hd.
    destruct Hw as [[[Hw1 Hw2] Hw3] Hw4]. destruct Hd as [[Hd1 Hd2] Hd3].
    destruct R as [R1 [R2 [R3 [ty [ty' [E1 [E2 R4]]]]]]]. destruct W as [W1 [W3 [ty2 [E3 W2]]]].
    rewrite E2 in E3. inversion E3; subst ty2; clear E3.
    cbn [pb shape_of] in P. rewrite E1 in P. cbn zeta in P. rewrite R3 in P.
    match type of P with context [pb ?w1 ?w2 ?w3 ?w4 ?w5 ?w6] => destruct (pb w1 w2 w3 w4 w5 w6) as [[q1 r1] a2] eqn:P1 end.
    inversion P; subst q0 r' a'; clear P. cbn in Hi. cbn [rs]. rewrite E2.
    apply (IHe None ty ty' _ _ _ q1 r1 a2 Hw1 Hd1 ltac:(congruence) ltac:(cbn; tauto) R4 W2 P1); [tauto|]. cbn. auto.
  - (* EGlue *)
    cbn [wfs disc] in Hw, Hd. rewrite !andb_true_iff in Hw. rewrite !andb_true_iff in Hd.
    destruct Hw as [[[Hw1 Hw2] Hw3] Hw4]. destruct Hd as [[Hd1 Hd2] Hd3].
    pose proof (dj_spec _ _ Hd3) as DJ.
    destruct R as [R1 [tl [tr [tl' [tr' [E1 [E2 [R2 [R3 R4]]]]]]]]].
    destruct W as [W1 [tl2 [tr2 [E3 [EV [W2 W3]]]]]]. rewrite E2 in E3. inversion E3; subst tl2 tr2; clear E3.
    cbn [pb shape_of] in P. rewrite E1 in P.
    destruct (pb None e2 tr seed r a0) as [[q1 r1] a1] eqn:P1.
    destruct (pb None e1 tl (repeat (n0 N) (size (shape_of e1))) r1 a1) as [[q2 r2] a2] eqn:P2.
    inversion P; subst q0 r' a'; clear P.
    pose proof (IHe2 None tr tr' seed r a0 q1 r1 a1 Hw2 Hd2 ltac:(congruence) ltac:(cbn; tauto) R3 W3 P1) as A1.
    assert (RL : RT None e1 tl tl' r1).
    { eapply RT_ext; [exact W2| |intros ? X; discriminate X|exact R4]. intros j Hj. symmetry. apply A1; [|cbn; auto]. intros Hk. eauto. }
    cbn in Hi. rewrite in_app_iff in Hi. cbn [rs]. rewrite E2.
    rewrite (IHe1 None tl tl' _ r1 a1 q2 r2 a2 Hw1 Hd1 ltac:(congruence) ltac:(cbn; tauto) RL W2 P2) by (cbn; tauto).
    apply rs_pt. apply A1; cbn; tauto.
  - (* EFor *)
    rewrite pb_for in P. destruct es as [|e0 es0].
    { cbn in P. inversion P; subst q0 r' a'; clear P. rewrite rs_for. destruct (nts t'); reflexivity. }
    assert (NE : e0 :: es0 <> []) by discriminate.
    set (es := e0 :: es0) in *. clearbody es.
    cbn [wfs disc] in Hw, Hd. rewrite !andb_true_iff in Hw. rewrite !andb_true_iff in Hd.
    destruct Hw as [[[Hw1 Hw2] Hw3] Hw4]. destruct Hd as [Hd1 Hd2].
    destruct R as [R1 [R2 R3]]. destruct W as [W1 [EV W2]].
    change (RTf r es (tts t) (nts t')) in R3. change (WTs es (nts t')) in W2.
    destruct (pfgo (tp t) seed es (tts t) r a0) as [[q1 r1] a1] eqn:P1.
    inversion P; subst q0 r' a'; clear P. rewrite rs_for.
    apply (listf_tr es H NE _ _ _ _ _ _ _ _ _ Hw1 Hd1 Hd2 R3 W2 P1). exact Hi.
  - (* EIf *)
    cbn [wfs disc] in Hw, Hd. rewrite !andb_true_iff in Hw. rewrite !andb_true_iff in Hd.
    destruct Hw as [[[[[Hw1 Hw2] Hw3] Hw4] Hw5] Hw6]. destruct Hd as [[[[Hd1 Hd2] Hd3] Hd4] _].
    destruct R as [R1 [tc [tb [tc' [tb' [E1 [E2 [R2 [R3 R4]]]]]]]]].
    destruct W as [W1 [tc2 [tb2 [E3 [EV [W2 W3]]]]]]. rewrite E2 in E3. inversion E3; subst tc2 tb2; clear E3.
    cbn [pb shape_of] in P. rewrite E1, R2 in P. cbn [rdp] in P.
    cbn [rs]. rewrite E2. cbn in Hi. rewrite !in_app_iff in Hi.
    destruct (ntrue N (hd0 N (nv tc'))).
    + apply (IHe2 None tb tb' seed r a0 q0 r' a' Hw2 Hd3 ltac:(congruence) ltac:(cbn; tauto) R4 W3 P); cbn; tauto.
    + apply (IHe3 None tb tb' seed r a0 q0 r' a' Hw3 Hd4 ltac:(congruence) ltac:(cbn; tauto) R4 W3 P); cbn; tauto.
Qed.

(** ** Closed predicates *)
Variable Q : T -> Prop.
Hypothesis Q1 : Q (n1 N).
Hypothesis Qm : forall y z, Q y -> Q z -> Q (nmul N y z).
Definition pQ (p : pref N) : Prop := match p with PV _ _ => True | PL l => Forall Q l end.

Lemma rdv_Q r o n : (forall i, Q (r i)) -> Forall Q (rdv r o n).
Proof. intros H. unfold rdv. apply Forall_forall. intros v Hv. apply in_map_iff in Hv. destruct Hv as [i [<- _]]. auto. Qed.
Lemma rdp_Q r p : (forall i, Q (r i)) -> pQ p -> Forall Q (rdp r p).
Proof. destruct p; cbn; auto. intros. now apply rdv_Q. Qed.
Lemma map2_Q l l' : Forall Q l -> Forall Q l' -> Forall Q (map2 (nmul N) l l').
Proof. intros H. revert l'. induction H; intros l' H'; [constructor|]. destruct H'; cbn; constructor; auto. Qed.
Lemma upd_Q r o l : (forall i, Q (r i)) -> Forall Q l -> forall i, Q (upd r o l i).
Proof.
  intros H HL i. destruct (Nat.leb_spec o i); [destruct (Nat.ltb_spec i (o + length l))|].
  - replace i with (o + (i - o)) by lia. rewrite upd_in by lia. rewrite Forall_forall in HL. apply HL. apply nth_In. lia.
  - rewrite upd_out by lia. auto.
  - rewrite upd_out by lia. auto.
Qed.
Lemma wx_Q x r l : (forall i, Q (r i)) -> Forall Q l -> forall i, Q (wx x r l i).
Proof. destruct x; cbn; auto. intros. now apply upd_Q. Qed.
Lemma rx_Q x r n l : (forall i, Q (r i)) -> Forall Q l -> Forall Q (rx x r n l).
Proof. destruct x; cbn; auto. intros. now apply rdv_Q. Qed.
Lemma In_sub {X} (x : X) i l : In x (firstn i l ++ skipn (S i) l) -> In x l.
Proof.
  rewrite in_app_iff. intros [H|H].
  - rewrite <- (firstn_skipn i l). apply in_or_app. auto.
  - rewrite <- (firstn_skipn (S i) l). apply in_or_app. auto.
Qed.
Lemma fold_Q gl : forall b, Forall (Forall Q) gl -> Forall Q b -> Forall Q (fold_left (map2 (nmul N)) gl b).
Proof.
  induction gl as [|v l IH]; intros b HL HB; [exact HB|]. cbn [fold_left]. inversion HL; subst. apply IH; auto. now apply map2_Q.
Qed.
Lemma kpre_Q k i vs f g : Forall (Forall Q) vs -> kpre k i vs f = Some g -> Forall Q g.
Proof.
  intros HV. destruct k; try discriminate. cbn [kpre]. destruct (anyzero _); [|discriminate]. intros H; inversion H; subst; clear H.
  assert (HL : Forall (Forall Q) (firstn i vs ++ skipn (S i) vs)).
  { rewrite Forall_forall in *. intros v Hv. apply HV. eapply In_sub; eauto. }
  assert (HR : Forall Q (repeat (n1 N) (length f))).
  { apply Forall_forall. intros v Hv. apply repeat_spec in Hv. now subst. }
  exact (fold_Q _ _ HL HR).
Qed.
Lemma vsel_Q k vs : Forall (Forall Q) vs -> Forall (Forall Q) (vsel k vs).
Proof.
  unfold vsel. destruct (kget k); auto. intros _. apply Forall_forall. intros v Hv. apply in_map_iff in Hv.
  destruct Hv as [? [<- _]]. constructor.
Qed.

(** Tapes whose captured values satisfy [Q]. *)
Fixpoint QT (e : E) (t : tape N) {struct e} : Prop :=
  pQ (tp t) /\
  match e with
  | EVar _ _ | ECst _ _ | ECvw _ _ => True
  | EComp k an es =>
      Forall Q (tv t) /\
      (fix go (l : list E) (ts : list (tape N)) : Prop :=
         match l, ts with
         | [], [] => True
         | y :: l, ty :: ts => QT y ty /\ go l ts
         | _, _ => False
         end) es (tts t)
  | EEq _ sh o y => forall ty, tts t = [ty] -> QT y ty
  | EOpEq _ _ sh o y => Forall Q (told t) /\ forall ty, tts t = [ty] -> QT y ty
  | EGlue _ l r0 => forall tl tr, tts t = [tl; tr] -> QT l tl /\ QT r0 tr
  | EFor _ s es =>
      (fix go (l : list E) (ts : list (tape N)) : Prop :=
         match l, ts with
         | [], [] => True
         | y :: l, ty :: ts => QT y ty /\ go l ts
         | _, _ => False
         end) es (tts t)
  | EIf _ c t0 f => forall tc tb, tts t = [tc; tb] ->
      exists l, tp tc = PL l /\ if ntrue N (hd0 N l) then QT t0 tb else QT f tb
  end.
Definition QTs : list E -> list (tape N) -> Prop :=
  fix go (l : list E) (ts : list (tape N)) : Prop :=
         match l, ts with
         | [], [] => True
         | y :: l, ty :: ts => QT y ty /\ go l ts
         | _, _ => False
         end.
Lemma QT_tp e t : QT e t -> pQ (tp t).
Proof. destruct e; intros [H _]; exact H. Qed.

Definition QB (e : E) : Prop := forall x t seed r a q r' a', QT e t -> (forall i, Q (r i)) ->
  pb x e t seed r a = (q, r', a') -> (forall i, Q (r' i)) /\ pQ q.

Lemma loop_q k x t seed n ss cs P0 es : Forall QB es -> Forall Q (tv t) -> Forall (Forall Q) (fst (fst P0)) ->
  forall pre lts r a qs f r' a', Forall pQ pre -> QTs es lts -> (forall i, Q (r i)) ->
  pgo k n ss cs seed x t P0 pre es lts r a = (qs, f, r', a') ->
  (forall i, Q (r' i)) /\ Forall Q f /\ Forall pQ qs.
Proof.
  intros HB HT HP. induction HB as [|y l HY HB IH]; intros pre lts r a qs f r' a' Hpre HL HR P.
  - destruct lts; cbn in P; inversion P; subst; auto.
  - destruct lts as [|ty lts]; [destruct HL|].
    destruct HL as [LY HL].
    cbn [pgo] in P. fold (pgo k n ss cs seed x t P0) in P.
    destruct (pgo k n ss cs seed x t P0 (pre ++ [tp ty]) l lts r a) as [[[qs1 f1] r1] a1] eqn:PG.
    destruct (IH (pre ++ [tp ty]) lts r a qs1 f1 r1 a1) as [A1 [A2 A3]]; auto.
    { apply Forall_app. split; auto. constructor; [eapply QT_tp; eauto|constructor]. }
    set (PK := if klazy k ss then (vsel k (map (rdp r1) (pre ++ tp ty :: qs1)), rx x r1 n f1, adv k n seed x a1) else P0) in P.
    assert (FK : Forall (Forall Q) (fst (fst PK))).
    { unfold PK. destruct (klazy k ss); auto. cbn [fst]. apply vsel_Q. apply Forall_forall. intros v Hv. apply in_map_iff in Hv.
      destruct Hv as [p [<- Hp]]. apply rdp_Q; auto. apply in_app_iff in Hp. rewrite Forall_forall in Hpre, A3.
      destruct Hp as [Hp|[<-|Hp]]; auto. eapply QT_tp; eauto. }
    destruct PK as [[vs fv] ad]. cbn [fst] in FK.
    destruct (kpre k (length pre) vs fv) as [g|] eqn:KP.
    + pose proof (kpre_Q _ _ _ _ _ FK KP) as HG.
      assert (WG : forall i, Q (wx x r1 g i)) by (now apply wx_Q).
      destruct (kseed k cs ss (tst t) ad vs g (length pre)) as [sd|].
      * destruct (pb None y ty sd (wx x r1 g) a1) as [[q r2] a2] eqn:PB. inversion P; subst qs f r' a'; clear P.
        destruct (HY None ty sd _ _ _ _ _ LY WG PB) as [B1 B2].
        assert (HW : Forall Q (map2 (nmul N) (rx x r2 n match x with Some _ => f1 | None => g end) (rdp r2 q))).
        { apply map2_Q; [|now apply rdp_Q]. apply rx_Q; auto. destruct x; auto. }
        split; [now apply wx_Q|]. split; [destruct x; auto|]. constructor; auto.
      * inversion P; subst qs f r' a'; clear P. pose proof (QT_tp _ _ LY) as B2.
        assert (HW : Forall Q (map2 (nmul N) (rx x (wx x r1 g) n match x with Some _ => f1 | None => g end) (rdp (wx x r1 g) (tp ty)))).
        { apply map2_Q; [|now apply rdp_Q]. apply rx_Q; auto. destruct x; auto. }
        split; [now apply wx_Q|]. split; [destruct x; auto|]. constructor; auto.
    + destruct (kseed k cs ss (tst t) ad vs fv (length pre)) as [sd|].
      * destruct (pb None y ty sd r1 a1) as [[q r2] a2] eqn:PB. inversion P; subst qs f r' a'; clear P.
        destruct (HY None ty sd _ _ _ _ _ LY A1 PB) as [B1 B2]. split; auto.
      * inversion P; subst qs f r' a'; clear P. split; auto. split; auto. constructor; auto. eapply QT_tp; eauto.
Qed.
Lemma listf_q es : Forall QB es -> forall d seed ts r a q r' a', QTs es ts -> pQ d -> (forall i, Q (r i)) ->
  pfgo d seed es ts r a = (q, r', a') -> (forall i, Q (r' i)) /\ pQ q.
Proof.
  induction 1 as [|y l HY H IH]; intros d seed [|t ts] r a q r' a' HT Hd HR P; try (now destruct HT).
  { cbn in P. inversion P; subst; auto. }
  destruct HT as [TY HT]. destruct l as [|z l].
  - cbn [pfgo] in P. eapply HY; eauto.
  - change (pfgo d seed (y :: z :: l) (t :: ts) r a) with
      (let '(q, r1, a1) := pfgo d seed (z :: l) ts r a in
       let '(_, r2, a2) := pb None y t (repeat (n0 N) (size (shape_of y))) r1 a1 in (q, r2, a2)) in P.
    destruct (pfgo d seed (z :: l) ts r a) as [[q1 r1] a1] eqn:P1.
    destruct (pb None y t (repeat (n0 N) (size (shape_of y))) r1 a1) as [[q2 r2] a2] eqn:P2.
    inversion P; subst q r' a'; clear P. destruct (IH _ _ _ _ _ _ _ _ HT Hd HR P1) as [A1 A2].
    destruct (HY _ _ _ _ _ _ _ _ TY A1 P2) as [B1 _]. auto.
Qed.
Lemma px_Q x n p : pQ p -> pQ (px x n p).
Proof. destruct x; cbn; auto. Qed.

Lemma QB_all e : QB e.
Proof.
  induction e using expr_ind'; intros x t seed r a0 q0 r' a' HT HR P; pose proof (QT_tp _ _ HT) as TP.
  - cbn in P. inversion P; subst; auto.
  - cbn in P. inversion P; subst; auto.
  - cbn in P. inversion P; subst; auto.
  - destruct es as [|e0 es0]; [cbn in P; inversion P; subst; auto|].
    assert (NE : e0 :: es0 <> []) by discriminate. set (es := e0 :: es0) in *. clearbody es.
    rewrite (pb_comp _ _ _ _ _ _ _ _ NE) in P. cbn zeta in P. destruct HT as [_ [HV HT]]. change (QTs es (tts t)) in HT.
    match type of P with context [pgo ?w1 ?w2 ?w3 ?w4 ?w5 ?w6 ?w7 ?w8 [] ?w9 ?v1 ?v2 ?v3] => destruct (pgo w1 w2 w3 w4 w5 w6 w7 w8 [] w9 v1 v2 v3) as [[[qs f] r2] a2] eqn:PG end.
    inversion P; subst q0 r' a'; clear P.
    match type of PG with context [pgo _ _ _ _ _ _ _ ?P0 [] _ _ _ _] => assert (HP : Forall (Forall Q) (fst (fst P0))) end.
    { cbn [fst]. apply vsel_Q. revert HT. generalize (tts t). clear - HR. induction es as [|y l IH]; intros [|ty ts] HT; try (now destruct HT); [constructor|].
      destruct HT as [H1 H2]. cbn [map]. constructor; [apply rdp_Q; auto; eapply QT_tp; eauto|]. apply IH, H2. }
    destruct (loop_q _ _ _ _ _ _ _ _ es H HV HP _ _ _ _ _ _ _ _ (Forall_nil _) HT HR PG) as [A1 [A2 A3]].
    split; auto. apply px_Q. exact A2.
  - cbn [pb] in P. destruct HT as [_ HT]. destruct (tts t) as [|ty [|? ?]]; try (inversion P; subst; now auto).
    cbn zeta in P. match type of P with context [pb ?w1 ?w2 ?w3 ?w4 ?w5 ?w6] => destruct (pb w1 w2 w3 w4 w5 w6) as [[q1 r1] a2] eqn:P1 end.
    inversion P; subst; clear P. destruct (IHe _ _ _ _ _ _ _ _ (HT _ eq_refl) HR P1). auto.
  - cbn [pb] in P. destruct HT as [_ [HO HT]]. destruct (tts t) as [|ty [|? ?]]; try (inversion P; subst; now auto).
    cbn zeta in P. match type of P with context [pb ?w1 ?w2 ?w3 ?w4 ?w5 ?w6] => destruct (pb w1 w2 w3 w4 w5 w6) as [[q1 r1] a2] eqn:P1 end.
    inversion P; subst; clear P. destruct (IHe _ _ _ _ _ _ _ _ (HT _ eq_refl) (upd_Q _ _ _ HR HO) P1). auto.
  - cbn [pb] in P. destruct HT as [_ HT]. destruct (tts t) as [|tl [|tr [|? ?]]]; try (inversion P; subst; now auto).
    destruct (HT _ _ eq_refl) as [T1 T2].
    destruct (pb None e2 tr seed r a0) as [[q1 r1] a1] eqn:P1.
    destruct (pb None e1 tl (repeat (n0 N) (size (shape_of e1))) r1 a1) as [[q2 r2] a2] eqn:P2.
    inversion P; subst; clear P. destruct (IHe2 _ _ _ _ _ _ _ _ T2 HR P1) as [A1 A2].
    destruct (IHe1 _ _ _ _ _ _ _ _ T1 A1 P2). split; auto. now apply px_Q.
  - rewrite pb_for in P. destruct HT as [_ HT]. change (QTs es (tts t)) in HT.
    destruct (pfgo (tp t) seed es (tts t) r a0) as [[q1 r1] a1] eqn:P1. inversion P; subst; clear P.
    destruct (listf_q es H _ _ _ _ _ _ _ _ HT TP HR P1). split; auto. now apply px_Q.
  - cbn [pb] in P. destruct HT as [_ HT]. destruct (tts t) as [|tc [|tb [|? ?]]]; try (inversion P; subst; now auto).
    destruct (HT _ _ eq_refl) as [l [EL HB]]. rewrite EL in P. cbn [rdp] in P. destruct (ntrue _ _); eauto.
Qed.

(** Records whose captured values satisfy [Q]. *)
Fixpoint RQ (e : E) (t : rec) {struct e} : Prop :=
  Forall Q (nv t) /\
  match e with
  | EVar _ _ | ECst _ _ | ECvw _ _ => True
  | EComp _ _ es | EFor _ _ es =>
      (fix go (l : list E) (ts : list rec) : Prop :=
         match l, ts with
         | y :: l, ty :: ts => RQ y ty /\ go l ts
         | _, _ => True
         end) es (nts t)
  | EEq _ _ _ y => forall ty, nts t = [ty] -> RQ y ty
  | EOpEq _ _ _ _ y => Forall Q (no t) /\ forall ty, nts t = [ty] -> RQ y ty
  | EGlue _ l r0 => forall tl tr, nts t = [tl; tr] -> RQ l tl /\ RQ r0 tr
  | EIf _ c t0 f => forall tc tb, nts t = [tc; tb] -> if ntrue N (hd0 N (nv tc)) then RQ t0 tb else RQ f tb
  end.
Definition RQs : list E -> list rec -> Prop :=
  fix go (l : list E) (ts : list rec) : Prop :=
         match l, ts with
         | y :: l, ty :: ts => RQ y ty /\ go l ts
         | _, _ => True
         end.
Lemma RQ_nv e t : RQ e t -> Forall Q (nv t).
Proof. destruct e; intros [H _]; exact H. Qed.

Definition RQT (e : E) : Prop := forall x t t' r, RT x e t t' r -> RQ e t' -> QT e t.
Lemma RQTs_all es : Forall RQT es -> forall ts ts' r, RTs r es ts ts' -> RQs es ts' -> QTs es ts.
Proof.
  induction 1 as [|y l HY H IH]; intros [|t ts] [|t' ts'] r; cbn [RTs RQs QTs]; try tauto.
  intros [R1 R2] [A1 A2]. split; [eapply HY; eauto|]. eapply IH; eauto.
Qed.
Lemma RQTf_all es : Forall RQT es -> forall ts ts' r, RTf r es ts ts' -> RQs es ts' -> QTs es ts.
Proof.
  induction 1 as [|y l HY H IH]; intros [|t ts] [|t' ts'] r; cbn [RTf RQs QTs]; try tauto.
  intros [R1 R2] [A1 A2]. split; [eapply HY; eauto|]. eapply IH; eauto.
Qed.
Lemma QTs_rev es ts : QTs es ts -> pQ (match rev ts with [] => PL [] | y :: _ => tp y end).
Proof.
  intros H. assert (HF : Forall (fun t => pQ (tp t)) ts).
  { revert es H. induction ts as [|t ts IH]; intros [|y es] H; try (now destruct H).
    destruct H as [H1 H2]. constructor; [eapply QT_tp; eauto|eauto]. }
  apply Forall_rev in HF. destruct (rev ts); [constructor|]. now inversion HF.
Qed.
Lemma RQT_all e : RQT e.
Proof.
  induction e using expr_ind'; intros x t t' r R A; pose proof (RQ_nv _ _ A) as AV; cbn [RT RQ QT] in *.
  - destruct R as [_ ->]. cbn. auto.
  - destruct R as [_ ->]. cbn. auto.
  - destruct R as [_ ->]. cbn. auto.
  - destruct R as [_ [-> [_ [-> R]]]]. destruct A as [_ A]. split; [now apply px_Q|]. split; [auto|].
    exact (RQTs_all es H _ _ _ R A).
  - destruct R as [_ [-> [_ [ty [ty' [E1 [E2 R]]]]]]]. destruct A as [_ A]. split; [exact I|].
    rewrite E1. intros tz Hz. inversion Hz; subst tz. eauto.
  - destruct R as [_ [-> [-> [ty [ty' [E1 [E2 R]]]]]]]. destruct A as [_ [A0 A]]. split; [exact I|]. split; [auto|].
    rewrite E1. intros tz Hz. inversion Hz; subst tz. eauto.
  - destruct R as [_ [tl [tr [tl' [tr' [E1 [E2 [-> [R1 R2]]]]]]]]]. destruct A as [_ A]. destruct (A _ _ E2) as [A1 A2].
    assert (B1 : QT e2 tr) by eauto. assert (B2 : QT e1 tl) by eauto.
    split; [apply px_Q; eapply QT_tp; eauto|]. rewrite E1. intros y1 y2 Hz. inversion Hz; subst. auto.
  - destruct R as [_ [-> R]]. destruct A as [_ A]. pose proof (RQTf_all es H _ _ _ R A) as B.
    split; [apply px_Q; eapply QTs_rev; exact B|exact B].
  - destruct R as [_ [tc [tb [tc' [tb' [E1 [E2 [E3 [-> R]]]]]]]]]. destruct A as [_ A]. specialize (A _ _ E2).
    assert (B : if ntrue N (hd0 N (nv tc')) then QT e2 tb else QT e3 tb) by (destruct (ntrue _ _); eauto).
    split; [destruct (ntrue _ _); eapply QT_tp; exact B|]. rewrite E1. intros y1 y2 Hz. inversion Hz; subst. eauto.
Qed.
End Rest.

Section Top.
Context {N : num}.
Notation T := (carrier N).
Notation E := (expr T (ann N)).
Hypothesis LL : la_len N.
Variables bv ba : nat.
Hypothesis HF : fresh bv ba.

Theorem top_rest u cv ca (e : E) m D r al t r' seed : inv bv ba u cv ca e m -> disc u = true ->
  MR (vset u) (wset u) D m r al -> tf D e r = (t, r') -> length seed = size (shape_of u) ->
  exists e' m' r2 al2, autodiff e seed m = Ok (e', m', nv t) /\ inv bv ba u cv ca e' m' /\
    MR (vset u) (wset u) D m' r2 al2 /\ fr (DP bv ba u cv ca) m m' /\ nrm e' = nrm e /\
    (forall o, ~ In o (eqw u) -> r2 o = r o) /\
    forall Q : T -> Prop, Q (n1 N) -> (forall y z, Q y -> Q z -> Q (nmul N y z)) -> RQ Q e t -> (forall o, Q (r' o)) -> forall o, Q (r2 o).
Proof.
  intros HI HD HM HT HL. destruct (inv_facts _ _ _ _ _ _ _ HI) as [F1 [F2 [F3 [F4 [F5 [F6 F7]]]]]].
  destruct (autodiff_ok LL bv ba HF u cv ca e m D r al seed HI HM HL) as [e' [m' Q]]. exists e', m'.
  destruct (pf D None e r) as [[t0 r0] p] eqn:EP. destruct (pb None e' t0 seed r0 al) as [[q r2] al2] eqn:EB.
  destruct Q as [Q1 [Q2 [Q3 [Q4 Q5]]]].
  pose proof HI as [_ [_ [HS _]]]. rewrite <- F2 in HD.
  destruct (TF_all D LL e None r r t0 r0 p t r' F1 HD HS ltac:(intros X; congruence) ltac:(intros o X; destruct X)
     ltac:(auto) EP HT) as [-> [P1 [P2 [P3 [P4 P5]]]]].
  rewrite (RT_val _ _ _ _ _ P1) in Q1.
  rewrite (pb_same e e') in EB by exact Q5.
  pose proof (TR_all e None t0 t seed r0 al q r2 al2 F1 HD ltac:(intros X; congruence) ltac:(intros o X; destruct X) P1 P2 EB) as B1.
  exists r2, al2.
  split; [exact Q1|]. split; [exact Q2|]. split; [exact Q3|split; [exact Q4|split; [eapply autodiff_nrm; eauto|split]]].
  - intros o Ho. rewrite <- F4 in Ho. rewrite B1; auto. rewrite <- P5 by auto. apply rs_pt. apply P3. intros [].
  - intros Q HQ1 HQm HR HE. apply (QB_all Q HQ1 HQm e None t0 seed r0 al q r2 al2); auto.
    + eapply RQT_all; eauto.
    + intros i. rewrite P3; [auto|intros []].
Qed.
End Top.
