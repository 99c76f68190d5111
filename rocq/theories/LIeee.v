(** Lemmas: programs run in checked dyadic arithmetic, in boxes, in binary64 and
    over the reals. *)
From Coq Require Import ZArith Reals Lra Lia List Bool.
From Coquelicot Require Import Coquelicot.
From Flocq Require Import Core BinarySingleNaN.
From Verif Require Import Base Num Expr Node Stat Machine Wf Session LKind LSimDef LBind LUser LFind Tape XR Spec RSess LReal LVal LKM Grad LGrd
  Ieee IeeeSpec LParam LCmap LDyad.
Set Bullet Behavior "Strict Subproofs".
Local Open Scope R_scope.

Lemma prelB md L : redok md L -> @prel Dyad (B64 md L) exactB.
Proof.
  intros RO. constructor; try (intros; exact I).
  - split; [reflexivity|]. symmetry. apply fv_zero.
  - exact (b_Z md 1 0). - exact (b_Z md 1 (-1)). - intros z. exact (b_Z md z 0).
  - apply b_add. - apply b_sub. - apply b_mul. - apply b_div. - apply b_opp.
  - intros l l' H. exact (b_sum md l' l _ (proj1 (RO l')) H).
  - intros l l' H. exact (b_prod md l' l _ (proj2 (RO l')) H).
  - exact b_eq0.
Qed.
Lemma prelX : @prel Boxes Dyad inside.
Proof.
  constructor; try (intros; exact I).
  - exists 0%Z, (0, 0)%Z. split; [cbn; lia|]. split; reflexivity.
  - exists 1%Z, (1, 0)%Z. split; [cbn; lia|]. split; reflexivity.
  - exists 1%Z, (1, -1)%Z. split; [cbn; lia|]. split; reflexivity.
  - intros z. exact (in_chk (Z.abs z) 0 z 0 z eq_refl (Z.le_refl _)).
  - apply x_add. - apply x_sub. - apply x_mul. - intros. apply x_opp; auto.
  - exact x_sum.
  - intros. now left.
Qed.
Definition exactR (x : dy) (y : xr) : Prop := match x with Some z => y = Fin (dval z) | None => True end.
Lemma exactR_list l q : Forall2 exactR (map Some q) l -> l = map Fin (map dval q).
Proof.
  revert l. induction q as [|x q IH]; intros l H; cbn in H; inversion H; subst; cbn; [reflexivity|]. f_equal; [assumption|]. now apply IH.
Qed.
Lemma xsum_acc l a : fold_left xadd (map Fin l) (Fin a) = Fin (a + fold_right Rplus 0 l).
Proof. revert a. induction l as [|x l IH]; intros a; cbn; [f_equal; lra|]. rewrite IH. f_equal. lra. Qed.
Lemma xprod_acc l a : fold_left xmul (map Fin l) (Fin a) = Fin (a * fold_right Rmult 1 l).
Proof. revert a. induction l as [|x l IH]; intros a; cbn; [f_equal; lra|]. rewrite IH. f_equal. lra. Qed.
Lemma r_sum l l' : Forall2 exactR l l' -> exactR (dsum l) (xsum l').
Proof.
  intros H. destruct (dsum l) as [z|] eqn:K; [|exact I].
  assert (A : exists q, l = map Some q).
  { unfold dsum in K. destruct (alls l) as [q|] eqn:A; [|discriminate]. exists q. now apply alls_some. }
  destruct A as [q ->]. destruct (dsum_spec _ _ K) as [e [G [_ V]]]. cbn [exactR]. rewrite V, (sumat_fv q e G), (exactR_list _ _ H).
  unfold xsum. rewrite xsum_acc. f_equal. rewrite Rplus_0_l. clear. induction q; cbn; congruence.
Qed.
Lemma r_prod l l' : Forall2 exactR l l' -> exactR (dprod l) (xprod l').
Proof.
  intros H. destruct (dprod l) as [z|] eqn:K; [|exact I].
  assert (A : exists q, l = map Some q).
  { unfold dprod in K. destruct (alls l) as [q|] eqn:A; [|discriminate]. exists q. now apply alls_some. }
  destruct A as [q ->]. destruct (dprod_spec _ _ K) as [_ V]. cbn [exactR]. rewrite V, (prod_fv q), (exactR_list _ _ H).
  unfold xprod. rewrite xprod_acc. f_equal. rewrite Rmult_1_l. clear. induction q; cbn; congruence.
Qed.
Lemma prelR la : @prel Dyad (XR la) exactR.
Proof.
  constructor; try (intros; exact I); cbn.
  - f_equal. symmetry. apply fv_zero.
  - f_equal. unfold dval, fv, F2R. cbn. lra.
  - f_equal.
  - intros z. destruct (chk z 0) as [q|] eqn:K; [|exact I]. cbn. f_equal. destruct (chk_val _ _ _ K) as [-> _]. unfold fv, F2R. cbn. lra.
  - intros [[m1 e1]|] [[m2 e2]|] x' y'; cbn [exactR dadd dlift]; auto. intros -> ->. destruct (chk _ _) as [z|] eqn:K; [|exact I].
    cbn [exactR]. destruct (chk_val _ _ _ K) as [-> _]. rewrite <- (fv_add m1 e1 m2 e2) by lia. reflexivity.
  - intros [[m1 e1]|] [[m2 e2]|] x' y'; try (cbn; auto; fail). intros -> ->. unfold dsub.
    destruct (dopp (Some (m2, e2))) as [[m3 e3]|] eqn:O; [|exact I]. pose proof (dopp_some _ _ _ O) as VO. cbn [dadd dlift].
    destruct (chk _ _) as [z|] eqn:K; [|exact I].
    cbn [exactR]. destruct (chk_val _ _ _ K) as [-> _]. rewrite <- (fv_add m1 e1 m3 e3) by lia.
    change (fv m3 e3) with (dval (m3, e3)). rewrite VO. reflexivity.
  - intros [[m1 e1]|] [[m2 e2]|] x' y'; cbn [exactR dmul dlift]; auto. intros -> ->. destruct (chk _ _) as [z|] eqn:K; [|exact I].
    cbn [exactR]. destruct (chk_val _ _ _ K) as [-> _]. rewrite <- fv_mul. reflexivity.
  - intros [[m1 e1]|] [[m2 e2]|] x' y'; cbn [exactR ddiv dlift]; auto. intros -> ->.
    destruct (Z.eqb_spec m2 0) as [|NZ]; [exact I|]. destruct (Z.eqb_spec (m1 mod m2) 0) as [MD|]; [|exact I].
    destruct (chk _ _) as [z|] eqn:K; [|exact I]. destruct (fv_div m1 e1 m2 e2 NZ MD) as [E NZ'].
    cbn [exactR]. destruct (chk_val _ _ _ K) as [-> _]. rewrite <- E. unfold dval. cbn [fst snd xdiv].
    destruct (reqb (fv m2 e2) 0) eqn:Q; [|reflexivity]. exfalso. apply NZ'. unfold reqb in Q. destruct (Req_EM_T (fv m2 e2) 0); [assumption|discriminate].
  - intros [[m1 e1]|] x'; cbn [exactR dopp]; auto. intros ->. destruct (chk _ _) as [z|] eqn:K; [|exact I].
    cbn [exactR]. destruct (chk_val _ _ _ K) as [-> _]. rewrite fv_opp. reflexivity.
  - exact r_sum.
  - exact r_prod.
  - intros [[m e]|] x'; cbn [exactR].
    + intros ->. destruct (Z.eq_dec m 0) as [->|NZ].
      * right. split; [reflexivity|]. intros [[? ?]|] [[? ?]|] y; exact I.
      * left. cbn [xeqb]. unfold reqb. destruct (Req_EM_T _ _) as [E|]; [|reflexivity]. exfalso. apply NZ.
        unfold dval, fv in E. cbn [fst snd] in E. now apply eq_0_F2R in E.
    + intros _. right. split; [reflexivity|]. intros [[? ?]|] [[? ?]|] y; exact I.
Qed.

(** ** Programs over the reals *)
Lemma cfin_real {A} (u : expr b64 A) : cfin (cmap toreal u).
Proof.
  induction u using expr_ind'; cbn [cmap cfin]; auto.
  - clear. induction c; cbn; constructor; auto. now eexists.
  - induction H; cbn; auto.
  - induction H; cbn; auto.
Qed.
Lemma dom_poly {A} D (u : expr b64 A) : arithx u = true -> polyx u = true -> forall b r, dom D true b (cmap toreal u) r.
Proof.
  induction u using expr_ind'; intros HA HP b r; cbn [arithx polyx] in HA, HP; try discriminate HA; cbn [cmap].
  - exact I.
  - cbn [dom]. clear. induction c; cbn; constructor; auto. now eexists.
  - exact I.
  - apply andb_true_iff in HA. destruct HA as [HK HA]. apply andb_true_iff in HP. destruct HP as [HN HP]. rewrite dom_comp. split.
    + generalize (fun i : nat => (b && ones k (map shape_of (map (cmap toreal) es)) i)%bool). intros us. generalize 0%nat.
      revert r. induction H as [|y l HY H IH]; intros r i; cbn [map doms]; [exact I|].
      cbn [forallb] in HA, HP. apply andb_true_iff in HA. apply andb_true_iff in HP. destruct HA as [A1 A2], HP as [P1 P2].
      split; [now apply HY|]. apply IH; auto.
    + destruct k; try discriminate HN; cbn [kdom]; auto.
      * intros i _. destruct u; try discriminate HN. exact I.
      * intros i _. destruct b0; try discriminate HK; try discriminate HN; exact I.
  - cbn [dom]. now apply IHu.
  - cbn [dom]. destruct q; try discriminate HP; (split; [now apply IHu|exact I]).
  - apply andb_true_iff in HA. apply andb_true_iff in HP. cbn [dom]. split; [now apply IHu1|now apply IHu2].
  - rewrite dom_for. revert r. induction H as [|y l HY H IH]; intros r; cbn [map domf]; [exact I|].
    cbn [forallb] in HA, HP. apply andb_true_iff in HA. apply andb_true_iff in HP. destruct HA as [A1 A2], HP as [P1 P2].
    split; [now apply HY|]. apply IH; auto.
Qed.

Section Run.
Variables (md : mode) (L : libm).
Hypothesis LL : la_len (B64 md L).
Hypothesis RO : redok md L.
Notation NB := (B64 md L).
Variable u : expr NB unit.
Hypothesis HA : arithx u = true.
Hypothesis HW : wfs u = true.
Hypothesis HD : disc u = true.

Lemma usedB bv ba e m : @used NB bv ba u e m -> @used NB bv ba (cmap (fun x : b64 => x) u) e m.
Proof. now rewrite cmap_id. Qed.
Lemma exact_eval bv ba bv' ba' d w e m : @used Dyad bv ba (cmap todyad u) d w -> @used NB bv' ba' u e m -> mrel exactB u w m ->
  exists d1 w1 x e1 m1 y, @evaluate Dyad d w = Ok (d1, w1, x) /\ @evaluate NB e m = Ok (e1, m1, y) /\
    Forall2 exactB x y /\ mrel exactB u w1 m1.
Proof.
  intros U1 U2 HM.
  exact (par_eval Dyad_len LL exactB (prelB md L RO) todyad (fun x : b64 => x) todyad_exact bv ba bv' ba' u HA HW HD
    d e w m U1 (usedB _ _ _ _ U2) HM).
Qed.
Lemma exact_diff bv ba bv' ba' d w e m sd s : @used Dyad bv ba (cmap todyad u) d w -> @used NB bv' ba' u e m -> mrel exactB u w m ->
  length s = size (shape_of u) -> Forall2 exactB sd s ->
  exists d1 w1 x e1 m1 y, @autodiff Dyad d sd w = Ok (d1, w1, x) /\ @autodiff NB e s m = Ok (e1, m1, y) /\
    Forall2 exactB x y /\ forall o, In o (refs u) -> crel exactB (w1 1%nat o) (m1 1%nat o) /\
      (~ In o (eqw u) \/ opw u = [] -> crel exactB (w1 0%nat o) (m1 0%nat o)).
Proof.
  intros U1 U2 HM HL HS.
  exact (par_diff Dyad_len LL exactB (prelB md L RO) todyad (fun x : b64 => x) todyad_exact bv ba bv' ba' u HA HW HD
    d e w m sd s U1 (usedB _ _ _ _ U2) HM (eq_trans (F2_len _ _ _ HS) HL) HS).
Qed.

Notation uR := (cmap toreal u).
Lemma real_diff bv ba d w m sd s : @used Dyad bv ba (cmap todyad u) d w -> mrel exactB u w m ->
  length s = size (shape_of u) -> Forall2 exactB sd s ->
  dom (reals m 4) true false uR (reals m 0) -> (forall o, In o (writes u) -> reals m 1 o = 0) ->
  exists d1 w1 x, @autodiff Dyad d sd w = Ok (d1, w1, x) /\
    Forall2 exactR x (map Fin (val (reals m 4) uR (reals m 0))) /\
    forall o, In o (refs u) -> ~ In o (eqw u) -> exists g, partials (reals m 4) uR (reals m 0) o g /\
      crel exactR (w1 1%nat o) (Some (Fin (reals m 1 o + dotp (map B2R s) g))).
Proof.
  intros U1 HM HL HS HDM HZ. set (la := exact_la).
  assert (AU : arithx (uR : expr (XR la) unit) = true) by (rewrite <- HA; apply arithx_cmap).
  assert (OK : okexpr la uR).
  { split; [rewrite <- HW; apply wfs_cmap|]. split; [rewrite <- HD; apply disc_cmap|]. apply cfin_real. }
  assert (RF : forall o, In o (refs u) -> In o (refs uR)) by (intros o; rewrite refs_cmap; auto).
  assert (DF : forall o, In o (drefs u) -> In o (drefs uR)) by (intros o; rewrite drefs_cmap; auto).
  assert (WF : forall o, In o (writes uR) -> In o (writes u)) by (intros o; rewrite writes_cmap; auto).
  assert (EF : forall o, In o (eqw uR) -> In o (eqw u)) by (intros o; rewrite eqw_cmap; auto).
  assert (SF : shape_of uR = shape_of u) by apply shape_of_cmap.
  destruct (session_start la exact_la_ok 2 3 uR (reals m 4) (reals m 0) (reals m 1)) as [eR [mR [S1 S2]]];
    [cbv; intuition discriminate|exact OK|now apply ctor_arith|].
  assert (UX : @used (XR la) 2 3 uR eR mR).
  { destruct S1 as [m0 [uv [ua [e0 [m1 [ops [Q1 [Q2 [Q3 [Q4 [Q5 _]]]]]]]]]]]. exists m0, uv, ua, e0, m1, ops. auto 10. }
  assert (CX : forall b o a, crel exactB (w b o) (m b o) -> a = Some (Fin (reals m b o)) -> crel exactR (w b o) a).
  { intros b o a [x [y [E1 [E2 E3]]]] ->. exists x, (Fin (reals m b o)). split; [exact E1|]. split; [reflexivity|].
    unfold reals. rewrite E2. destruct x as [z|]; [|exact I]. cbn. f_equal. apply E3. }
  assert (MX : mrel exactR u w mR).
  { destruct HM as [HM1 HM2], S2 as [S2 S3]. split.
    - intros o Ho. destruct (HM1 o Ho), (S2 o (RF o Ho)). split; now apply CX.
    - intros o Ho. apply CX; [now apply HM2|]. exact (S3 o (DF o Ho)). }
  assert (SX : Forall2 exactR sd (map Fin (map B2R s))).
  { clear -HS. induction HS as [|x y l l' HX HS IH]; cbn; constructor; auto. destruct x as [z|]; [|exact I]. cbn. f_equal. apply HX. }
  destruct (par_diff Dyad_len (la_ok_len la exact_la_ok) exactR (prelR la) todyad toreal
    ltac:(intros c; pose proof (todyad_exact c) as K; destruct (todyad c); [destruct K as [_ K]; unfold toreal; cbn [exactR]; now rewrite K|exact I])
    bv ba 2%nat 3%nat u HA HW HD d eR w mR sd (map Fin (map B2R s)) U1 UX MX (eq_trans (F2_len _ _ _ HS) HL) SX)
    as [d1 [w1 [x [e1 [m1 [y [R1 [R2 [R3 R4]]]]]]]]].
  destruct (grad_full la exact_la_ok 2 3 uR (reals m 4) eR mR (reals m 0) (reals m 1) false (map B2R s) OK S1 S2 HDM)
    as [e2 [m2 [al [G1 [G2 [G3 [G4 [G5 [G6 [G7 G8]]]]]]]]]].
  { rewrite map_length. change (length s = size (shape_of uR)). now rewrite SF. }
  { discriminate. }
  { intros o Ho. apply HZ. now apply WF. }
  change (carrier (XR la)) with xr in *. rewrite G1 in R2. inversion R2; subst e1 m1 y. exists d1, w1, x. split; [exact R1|]. split; [exact R3|].
  intros o Ho Hn. destruct (G8 o (RF o Ho) (fun H => Hn (EF o H))) as [g [P1 P2]].
  exists g. split; [exact P1|]. destruct (R4 o Ho) as [R5 _]. rewrite (G3 o (RF o Ho)) in R5. now rewrite <- P2.
Qed.

Lemma exact_grad bv ba bv' ba' d w e m sd s : @used Dyad bv ba (cmap todyad u) d w -> @used NB bv' ba' u e m -> mrel exactB u w m ->
  length s = size (shape_of u) -> Forall2 exactB sd s ->
  dom (reals m 4) true false uR (reals m 0) -> (forall o, In o (writes u) -> reals m 1 o = 0) ->
  exists d1 w1 x e1 m1 y, @autodiff Dyad d sd w = Ok (d1, w1, x) /\ @autodiff NB e s m = Ok (e1, m1, y) /\
    (forall k z, nth_error x k = Some (Some z) ->
       exists q, nth_error y k = Some q /\ is_finite q = true /\ B2R q = el (val (reals m 4) uR (reals m 0)) k) /\
    forall o, In o (refs u) -> ~ In o (eqw u) -> exists g, partials (reals m 4) uR (reals m 0) o g /\
      forall z, w1 1%nat o = Some (Some z) ->
      exists q, m1 1%nat o = Some q /\ is_finite q = true /\ B2R q = reals m 1 o + dotp (map B2R s) g.
Proof.
  intros U1 U2 HM HL HS HDM HZ.
  destruct (exact_diff _ _ _ _ _ _ _ _ _ _ U1 U2 HM HL HS) as [d1 [w1 [x [e1 [m1 [y [E1 [E2 [E3 E4]]]]]]]]].
  destruct (real_diff _ _ _ _ _ _ _ U1 HM HL HS HDM HZ) as [d2 [w2 [x2 [R1 [R2 R3]]]]].
  rewrite E1 in R1. inversion R1; subst d2 w2 x2. exists d1, w1, x, e1, m1, y. split; [exact E1|]. split; [exact E2|]. split.
  - intros k z K. clear -E3 R2 K. revert R2 k K. generalize (val (reals m 4) uR (reals m 0)). induction E3 as [|a b l l' HAB H IH]; intros v R2 k K.
    + destruct k; discriminate.
    + destruct v as [|q v]; [inversion R2|]. cbn in R2. inversion R2; subst. destruct k as [|k]; cbn in K.
      * inversion K; subst. exists b. split; [reflexivity|]. destruct HAB as [B1 B2]. split; [exact B1|]. cbn. cbn in H3. inversion H3. exact B2.
      * cbn. apply (IH v H5 k K).
  - intros o Ho Hn. destruct (R3 o Ho Hn) as [g [P1 P2]]. exists g. split; [exact P1|]. intros z K.
    destruct P2 as [a [b [Q1 [Q2 Q3]]]]. destruct (E4 o Ho) as [[a' [b' [Q4 [Q5 Q6]]]] _].
    rewrite K in Q1, Q4. inversion Q1; inversion Q4; inversion Q2; subst. exists b'. split; [exact Q5|]. destruct Q6 as [Q6 Q7].
    split; [exact Q6|]. cbn in Q3. inversion Q3. congruence.
Qed.

Lemma box_grad bv ba bv' ba' x w e m sx s : polyx u = true ->
  @used Boxes bv ba (cmap tobox u) x w -> @used NB bv' ba' u e m -> mrel inboxB u w m ->
  length s = size (shape_of u) -> Forall2 inboxB sx s -> (forall o, In o (writes u) -> reals m 1 o = 0) ->
  exists x1 w1 v e1 m1 y, @autodiff Boxes x sx w = Ok (x1, w1, v) /\ @autodiff NB e s m = Ok (e1, m1, y) /\
    (forall k z, nth_error v k = Some (Some z) ->
       exists q, nth_error y k = Some q /\ inboxB (Some z) q /\ B2R q = el (val (reals m 4) uR (reals m 0)) k) /\
    forall o, In o (refs u) -> ~ In o (eqw u) -> exists g, partials (reals m 4) uR (reals m 0) o g /\
      forall z, w1 1%nat o = Some (Some z) ->
      exists q, m1 1%nat o = Some q /\ inboxB (Some z) q /\ B2R q = reals m 1 o + dotp (map B2R s) g.
Proof.
  intros HPO U1 U2 HM HL HS HZ.
  pose (wd := (fun b o => option_map todyad (m b o)) : mem Dyad).
  pose (ud := (cmap todyad u) : expr Dyad unit).
  assert (WD : wfs ud = true) by (rewrite <- HW; apply wfs_cmap).
  assert (CD : @ctor_ok Dyad ud = true) by (apply ctor_arith; rewrite <- HA; apply arithx_cmap).
  assert (F : fresh 2 3) by (cbv; intuition discriminate).
  assert (AV : @avail Dyad ud wd).
  { destruct HM as [HM1 HM2]. split; intros o Ho.
    - assert (Ho' : In o (refs u)) by (unfold ud in Ho; rewrite refs_cmap in Ho; exact Ho).
      destruct (HM1 o Ho') as [[? [? [_ [E1 _]]]] [? [? [_ [E2 _]]]]]. unfold wd. rewrite E1, E2. cbn. split; discriminate.
    - assert (Ho' : In o (drefs u)) by (unfold ud in Ho; rewrite drefs_cmap in Ho; exact Ho).
      destruct (HM2 o Ho') as [? [? [_ [E1 _]]]]. unfold wd. rewrite E1. discriminate. }
  destruct (bind_safe Dyad Dyad_len 2 3 F (fun _ => n0 Dyad) (fun _ => n0 Dyad) ud wd WD CD AV) as [d [w0 [B1 _]]].
  destruct (inv_bound Dyad_len 2 3 F ud wd _ _ d w0 WD AV B1) as [_ [B2 _]].
  assert (UD : @used Dyad 2 3 ud d w0).
  { exists wd, (fun _ => n0 Dyad), (fun _ => n0 Dyad), d, w0, []. split; [exact F|]. split; [exact AV|]. split; [exact B1|].
    split; [constructor|reflexivity]. }
  assert (CE : forall b o, b <> 2%nat -> b <> 3%nat -> crel inboxB (w b o) (m b o) -> crel exactB (w0 b o) (m b o) /\ crel inside (w b o) (w0 b o)).
  { intros b o H2 H3 [a [y [E1 [E2 E3]]]]. rewrite (B2 b o H2 H3). unfold wd. rewrite E2. cbn [option_map]. split.
    - exists (todyad y), y. split; [reflexivity|]. split; [reflexivity|apply todyad_exact].
    - exists a, (todyad y). split; [exact E1|]. split; [reflexivity|]. now apply inbox_inside. }
  assert (M1 : mrel exactB u w0 m).
  { destruct HM as [HM1 HM2]. split; [intros o Ho; destruct (HM1 o Ho); split|intros o Ho; specialize (HM2 o Ho)]; apply CE; auto. }
  assert (M2 : mrel inside u w w0).
  { destruct HM as [HM1 HM2]. split; [intros o Ho; destruct (HM1 o Ho); split|intros o Ho; specialize (HM2 o Ho)]; apply CE; auto. }
  assert (S1 : Forall2 exactB (map todyad s) s) by (clear; induction s; constructor; auto; apply todyad_exact).
  assert (S2 : Forall2 inside sx (map todyad s)).
  { clear -HS. induction HS; cbn; constructor; auto. now apply inbox_inside. }
  destruct (par_diff Boxes_len Dyad_len inside prelX tobox todyad tobox_in bv ba 2%nat 3%nat u HA HW HD
    x d w w0 sx (map todyad s) U1 UD M2 (eq_trans (F2_len _ _ _ HS) HL) S2) as [x1 [w1 [v [d1 [w2 [vd [R1 [R2 [R3 R4]]]]]]]]].
  destruct (exact_grad 2 3 bv' ba' d w0 e m (map todyad s) s UD U2 M1 HL S1 (dom_poly _ u HA HPO false _) HZ)
    as [d2 [w3 [vd' [e1 [m1 [y [Q1 [Q2 [Q3 Q4]]]]]]]]].
  destruct (exact_diff 2 3 bv' ba' d w0 e m (map todyad s) s UD U2 M1 HL S1) as [d3 [w4 [vd3 [e3 [m3 [y3 [T1 [T2 [T3 T4]]]]]]]]].
  rewrite Q1 in R2. inversion R2; subst d2 w3 vd'. rewrite Q1 in T1. inversion T1; subst d3 w4 vd3.
  rewrite Q2 in T2. inversion T2; subst e3 m3 y3. clear R2 T1 T2.
  exists x1, w1, v, e1, m1, y. split; [exact R1|]. split; [exact Q2|]. split.
  - intros k z K. assert (KD : exists zd q, nth_error vd k = Some (Some zd) /\ nth_error y k = Some q /\ inside (Some z) (Some zd) /\ exactB (Some zd) q).
    { clear -R3 T3 K. revert k K y T3. induction R3 as [|a b l l' HAB H IH]; intros k K y T3; [destruct k; discriminate|].
      inversion T3; subst. destruct k as [|k]; cbn in K.
      - inversion K; subst. destruct b as [zd|]; [|destruct z as [? ?], HAB as [? [? [_ [_ X]]]]; discriminate].
        exists zd, y0. auto.
      - cbn. eapply IH; eauto. }
    destruct KD as [zd [q [K1 [K2 [K3 K4]]]]]. destruct (Q3 k zd K1) as [q' [K5 [K6 K7]]].
    rewrite K2 in K5. inversion K5; subst q'. exists q. split; [exact K2|]. split; [|exact K7]. eapply inside_box; eauto.
  - intros o Ho Hn. destruct (Q4 o Ho Hn) as [g [P1 P2]]. exists g. split; [exact P1|]. intros z K.
    destruct (R4 o Ho) as [[a [b [C1 [C2 C3]]]] _]. destruct (T4 o Ho) as [[b' [q [C4 [C5 C6]]]] _].
    rewrite K in C1. inversion C1; subst a. rewrite C2 in C4. inversion C4; subst b'.
    destruct b as [zd|]; [|destruct z as [? ?], C3 as [? [? [_ [_ X]]]]; discriminate].
    destruct (P2 zd C2) as [q' [P3 [P4 P5]]]. rewrite C5 in P3. inversion P3; subst q'.
    exists q. split; [exact C5|]. split; [|exact P5]. eapply inside_box; eauto.
Qed.
End Run.
