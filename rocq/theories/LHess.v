(** Second derivatives. *)
From Coq Require Import ZArith Reals Lra Psatz List Bool Lia ClassicalEpsilon.
From Coquelicot Require Import Coquelicot.
From Verif Require Import Base Num Expr Node Stat Machine Wf Pure LBase LKind LSimDef LState Session LUser Tape LTape LNrm LTop XR Spec RSess Grad LReal LScal LKA LKB LKM LVal
  LDiff LIndep LGrd Forward FSpec LFwd Ieee LParam LCmap Hess HessSpec LCurve LSome.
Import ListNotations.
Set Bullet Behavior "Strict Subproofs".
Local Open Scope R_scope.

Lemma Curve_len : la_len Curve. Proof. intros n X. cbn. rewrite !repeat_length. auto. Qed.
Lemma Duo_len N : la_len (Duo N). Proof. intros n X. cbn. rewrite !repeat_length. auto. Qed.
Lemma second_arith k : second k = true -> arith k = true.
Proof. destruct k; try reflexivity; try discriminate. destruct b; try reflexivity; discriminate. Qed.
Lemma forallb_imp {A} (f g : A -> bool) l : Forall (fun x => f x = true -> g x = true) l -> forallb f l = true -> forallb g l = true.
Proof. induction 1; cbn; auto. intros Q. apply andb_true_iff in Q. destruct Q. rewrite H, IHForall; auto. Qed.
Lemma secx_arithx {T A} (e : expr T A) : secx e = true -> arithx e = true.
Proof.
  induction e using expr_ind'; cbn [secx arithx]; auto; intros HS; try discriminate.
  - apply andb_true_iff in HS. destruct HS as [H1 H2]. rewrite second_arith by auto. cbn. eapply forallb_imp; [|exact H2]. exact H.
  - apply andb_true_iff in HS. destruct HS as [H1 H2]. now rewrite IHe1, IHe2.
  - eapply forallb_imp; [|exact HS]. exact H.
Qed.
Lemma secx_cmap {T T' A} (f : T -> T') (e : expr T A) : secx (cmap f e) = secx e.
Proof.
  induction e using expr_ind'; cbn [cmap secx]; auto; try congruence.
  - now rewrite forallb_map, (forallb_ext_Forall (fun x => secx (cmap f x)) secx).
  - now rewrite forallb_map, (forallb_ext_Forall (fun x => secx (cmap f x)) secx).
Qed.
Lemma secx_amap {T A B} (f : A -> B) (e : expr T A) : secx (amap f e) = secx e.
Proof.
  induction e using expr_ind'; cbn [amap secx]; auto; try congruence.
  - now rewrite forallb_map, (forallb_ext_Forall (fun x => secx (amap f x)) secx).
  - now rewrite forallb_map, (forallb_ext_Forall (fun x => secx (amap f x)) secx).
Qed.
Lemma cfin_R {A} (u : expr R A) : cfin (cmap Fin u).
Proof.
  induction u using expr_ind'; cbn [cmap cfin]; auto.
  - clear. induction c; cbn; constructor; auto. now eexists.
  - induction H; cbn; auto.
  - induction H; cbn; auto.
Qed.
Lemma d_lin a b : ex_derive (fun t => a + t * b) 0. Proof. auto_derive. auto. Qed.
Lemma D_lin a b : Derive (fun t => a + t * b) 0 = b. Proof. apply is_derive_unique. auto_derive; auto. ring. Qed.
Definition lin (a b : R) : oc := Some (Crv (fun t => a + t * b) 1 Rlt_0_1 (d_lin a b)).
Lemma lin_t t a b : Rt t (lin a b) (Fin (a + t * b)). Proof. intros _. reflexivity. Qed.
Lemma lin_D la a b : RD la (lin a b) (du a b).
Proof. cbn. rewrite D_lin. unfold du. do 2 f_equal. f_equal. ring. Qed.
Lemma lin_S a b : So (lin a b) (Fin a). Proof. eexists. split; [reflexivity|]. cbn. f_equal. ring. Qed.

Section Second.
Variable la : linalg xr.
Hypothesis LA : la_ok la.
Notation N := (XR la).
Notation ND := (Duo N).
Let HKV := KV_all la LA.
Variable u : expr R unit.
Hypothesis HX : secx u = true.
Hypothesis HW : wfs u = true.
Hypothesis HD : disc u = true.
Notation uX := (uR u : expr N unit).
Notation uC := (cmap cst u : expr Curve unit).
Let HA : arithx u = true := secx_arithx u HX.
Variables (D rho d al be : nat -> R).
Let n := size (shape_of u).
Variables (s ds : nat -> R).
Notation sR t := (map (fun k => s k + t * ds k) (seq 0 n)).

(** A program bound over dual numbers. *)
Lemma dual_run : exists (e : expr ND (ann ND)) m, @used ND 2 3 (uD u) e m /\ dreal u m D rho d al be.
Proof.
  clear s ds. pose (w := (fun b o => if (b =? 0)%nat then Some (du (rho o) (d o)) else if (b =? 1)%nat then Some (du (al o) (be o))
    else if (b =? 4)%nat then Some (du (D o) 0) else None) : mem ND).
  assert (WC : wfs (@uD la u) = true) by (rewrite <- HW; apply wfs_cmap).
  assert (CC : @ctor_ok ND (uD u) = true) by (apply ctor_arith; rewrite <- HA; apply arithx_cmap).
  assert (F : fresh 2 3) by (cbv; intuition discriminate).
  assert (AV : @avail ND (uD u) w) by (split; intros o Ho; [split|]; discriminate).
  destruct (bind_safe ND (Duo_len N) 2 3 F (fun _ => n0 ND) (fun _ => n0 ND) (uD u) w WC CC AV) as [e [w0 [B1 _]]].
  destruct (inv_bound (Duo_len N) 2 3 F (uD u) w _ _ e w0 WC AV B1) as [_ [B2 _]].
  exists e, w0. split.
  - exists w, (fun _ => n0 ND), (fun _ => n0 ND), e, w0, []. split; [exact F|]. split; [exact AV|]. split; [exact B1|].
    split; [constructor|reflexivity].
  - split; intros o Ho; [split|]; rewrite B2 by discriminate; reflexivity.
Qed.
(** The run on curves. *)
Lemma curve_run : exists (eC : expr Curve (ann Curve)) wC, @used Curve 2 3 uC eC wC /\
  MR (N := Curve) (vset uC) (wset uC) (fun o => cst (D o)) wC (fun o => lin (rho o) (d o)) (fun o => lin (al o) (be o)).
Proof.
  pose (w := (fun b o => if (b =? 0)%nat then Some (lin (rho o) (d o)) else if (b =? 1)%nat then Some (lin (al o) (be o))
    else if (b =? 4)%nat then Some (cst (D o)) else None) : mem Curve).
  assert (WC : wfs uC = true) by (rewrite <- HW; apply wfs_cmap).
  assert (CC : @ctor_ok Curve uC = true) by (apply ctor_arith; rewrite <- HA; apply arithx_cmap).
  assert (F : fresh 2 3) by (cbv; intuition discriminate).
  assert (AV : @avail Curve uC w) by (split; intros o Ho; [split|]; discriminate).
  destruct (bind_safe Curve Curve_len 2 3 F (fun _ => n0 Curve) (fun _ => n0 Curve) uC w WC CC AV) as [eC [w0 [B1 _]]].
  destruct (inv_bound Curve_len 2 3 F uC w _ _ eC w0 WC AV B1) as [_ [B2 _]].
  exists eC, w0. split.
  - exists w, (fun _ => n0 Curve), (fun _ => n0 Curve), eC, w0, []. split; [exact F|]. split; [exact AV|]. split; [exact B1|].
    split; [constructor|reflexivity].
  - split; intros o Ho; [split|]; rewrite B2 by discriminate; reflexivity.
Qed.
Lemma okX : okexpr la uX.
Proof. split; [rewrite <- HW; apply wfs_cmap|]. split; [rewrite <- HD; apply disc_cmap|]. apply cfin_R. Qed.
Lemma x_run t : exists eX mX, @used N 2 3 uX eX mX /\ session la 2 3 uX D eX mX /\ mreal la uX mX D (line rho d t) (line al be t).
Proof.
  assert (AU : arithx uX = true) by (rewrite <- HA; apply arithx_cmap).
  destruct (session_start la LA 2 3 uX D (line rho d t) (line al be t)) as [eX [mX [S1 S2]]];
    [cbv; intuition discriminate|exact okX|now apply ctor_arith|].
  exists eX, mX. split; [|auto].
  destruct S1 as [m0 [uv [ua [e0 [m1 [ops [Q1 [Q2 [Q3 [Q4 [Q5 _]]]]]]]]]]]. exists m0, uv, ua, e0, m1, ops. auto 10.
Qed.

(** It keeps track of every number. *)
Lemma some_run (eC : expr Curve (ann Curve)) wC eX mX : @used Curve 2 3 uC eC wC ->
  MR (N := Curve) (vset uC) (wset uC) (fun o => cst (D o)) wC (fun o => lin (rho o) (d o)) (fun o => lin (al o) (be o)) ->
  @used N 2 3 uX eX mX -> mreal la uX mX D (line rho d 0) (line al be 0) -> dom D true false uX (line rho d 0) ->
  exists e1 w1 v e2 m2 v', @autodiff Curve eC (map (fun k => lin (s k) (ds k)) (seq 0 n)) wC = Ok (e1, w1, v) /\
    @autodiff N eX (map Fin (sR 0)) mX = Ok (e2, m2, v') /\ Forall2 So v v' /\
    forall o, In o (refs u) -> crel So (w1 1%nat o) (m2 1%nat o) /\ (eqw u = [] \/ opw u = [] -> crel So (w1 0%nat o) (m2 0%nat o)).
Proof.
  intros U1 M1 U2 [M2 M3] HDm.
  assert (WC : wfs uC = true) by (rewrite <- HW; apply wfs_cmap).
  destruct (used_inv Curve_len 2 3 uC _ _ WC U1) as [F1 [kv [ka I1]]].
  destruct (used_inv (la_ok_len la LA) 2 3 uX _ _ (proj1 okX) U2) as [F2 [kv' [ka' I2]]].
  assert (D1 : disc uC = true) by now rewrite disc_cmap.
  assert (AE : arithx eC = true).
  { rewrite <- (arithx_amap (fun _ => tt) eC). change (amap (fun _ => tt) eC) with (er eC).
    replace (er eC) with uC by (symmetry; apply I1). now rewrite arithx_cmap. }
  assert (SE : secx eX = true).
  { rewrite <- (secx_amap (fun _ => tt) eX). change (amap (fun _ => tt) eX) with (er eX).
    replace (er eX) with uX by (symmetry; apply I2). rewrite <- HX. apply secx_cmap. }
  assert (WE : wfs eX = true).
  { pose proof I2 as [E [W _]]. rewrite <- E in W. rewrite <- W. symmetry. apply (wfs_amap (fun _ => tt) eX). }
  destruct (tf (N := Curve) (fun o => cst (D o)) eC (fun o => lin (rho o) (d o))) as [t r] eqn:T1.
  destruct (tf (N := N) (liftE la D) eX (liftE la (line rho d 0))) as [t' r'] eqn:T2.
  assert (LC : length (map (fun k => lin (s k) (ds k)) (seq 0 n)) = size (shape_of uC)) by (rewrite map_length, seq_length, shape_of_cmap; reflexivity).
  assert (LX : length (map Fin (sR 0)) = size (shape_of uX)).
  { rewrite !map_length, seq_length. unfold uR. rewrite shape_of_cmap. reflexivity. }
  destruct (top_diff Curve_len 2 3 F1 _ kv ka eC wC _ _ _ t r (map (fun k => lin (s k) (ds k)) (seq 0 n)) I1 D1 M1 T1 (prod_arithx eC t AE) LC)
    as [e1 [w1 [r2 [A1 [A2 [A3 [_ [_ [A7 A8]]]]]]]]].
  assert (MX : MR (N := N) (vset uX) (wset uX) (liftE la D) mX (liftE la (line rho d 0)) (liftE la (line al be 0))) by (split; assumption).
  destruct (top_diff (la_ok_len la LA) 2 3 F2 _ kv' ka' eX mX _ _ _ t' r' (map Fin (sR 0)) I2 (proj1 (proj2 okX)) MX T2 (prod_arithx eX t' (secx_arithx eX SE)) LX)
    as [e2 [m2 [r2' [B1 [B2 [B3 [_ [_ [B7 B8]]]]]]]]].
  assert (HE : ER (N1 := Curve) (N2 := N) So eC eX) by (eapply ER_cmap; [exact so_cst|exact HA|apply I1|apply I2]).
  assert (DE : dom D true false eX (line rho d 0)).
  { apply (dom_amap (fun _ => tt) D). change (amap (fun _ => tt) eX) with (er eX). replace (er eX) with uX by (symmetry; apply I2). exact HDm. }
  assert (ER0 : forall a b, er_env (N1 := Curve) (N2 := N) So (fun o => lin (a o) (b o)) (liftE la (line a b 0))).
  { intros a b o. unfold liftE, line. replace (a o + 0 * b o) with (a o) by ring. apply lin_S. }
  destruct (ps_all la D HKV (fun o => cst (D o)) (fun o => so_cst _) eX eC false _ (line rho d 0) t r t' r' HE SE WE DE (ER0 rho d) T1 T2) as [C1 [C2 C3]].
  pose proof (bs_all la eX eC t t' (map (fun k => lin (s k) (ds k)) (seq 0 n)) (map Fin (sR 0)) (fun o => lin (al o) (be o)) (liftE la (line al be 0)) HE C1 C2) as C4.
  exists e1, w1, (nv t), e2, m2, (nv t'). split; [exact A1|]. split; [exact B1|]. split; [exact (ts_nv _ _ _ C1)|].
  intros o Ho. destruct A3 as [A3 _], B3 as [B3 _]. destruct (A3 o) as [A5 A6]; [unfold vset; now rewrite refs_cmap|].
  destruct (B3 o) as [B5 B6]; [unfold vset, uR; now rewrite refs_cmap|]. split.
  - eexists. eexists. split; [exact A6|]. split; [exact B6|]. apply C4.
    + rewrite map_map. apply F2_maps. intros k _. replace (s k + 0 * ds k) with (s k) by ring. apply lin_S.
    + apply ER0.
  - intros HG. eexists. eexists. split; [exact A5|]. split; [exact B5|]. destruct HG as [HG|HG].
    + rewrite A7 by (rewrite eqw_cmap, HG; intros []). rewrite B7 by (unfold uR; rewrite eqw_cmap, HG; intros []). apply ER0.
    + rewrite A8 by (now rewrite opw_cmap). rewrite B8 by (unfold uR; now rewrite opw_cmap). apply C3.
Qed.

Lemma dotp_map (f g : nat -> R) : dotp (map f (seq 0 n)) g = sumn n (fun k => f k * g k).
Proof.
  unfold dotp. rewrite map_length, seq_length. apply sumn_ext. intros k Hk. f_equal. unfold el.
  rewrite (nth_indep _ 0 (f 0%nat)) by (rewrite map_length, seq_length; exact Hk). rewrite map_nth, seq_nth by exact Hk. reflexivity.
Qed.
Lemma near0 (P : R -> Prop) : locally 0 P -> exists r, 0 < r /\ forall t, Rabs t < r -> P t.
Proof.
  intros [e He]. exists e. split; [apply cond_pos|]. intros t Ht. apply He. change (Rabs (t + - 0) < e).
  now replace (t + - 0) with t by ring.
Qed.
Lemma loc0 (P : R -> Prop) r : 0 < r -> (forall t, Rabs t < r -> P t) -> locally 0 P.
Proof.
  intros HR HP. exists (mkposreal r HR). assert (Q : forall t : R, Rabs (t + - 0) < r -> P t); [|exact Q].
  intros t Ht. apply HP. rewrite Ropp_0, Rplus_0_r in Ht. exact Ht.
Qed.
(** The partial derivatives as functions of the point. *)
Definition pd (o : nat) (t : R) (k : nat) : R := Derive (fun x => el (val D (uR u) (set1 (line rho d t) o x)) k) (line rho d t o).
Lemma second_thm bv ba e m : @used ND bv ba (uD u) e m -> dreal u m D rho d al be ->
  (forall o, In o (writes u) -> al o = 0 /\ be o = 0) -> locally 0 (fun t => dom D true false (uR u) (line rho d t)) ->
  exists e2 m2 v, @autodiff ND e (map (fun k => du (s k) (ds k)) (seq 0 n)) m = Ok (e2, m2, v) /\
    (length v = n /\ forall k, (k < n)%nat -> exists dv, is_derive (fun t => el (val D (uR u) (line rho d t)) k) 0 dv /\
       nth_error v k = Some (du (el (val D (uR u) (line rho d 0)) k) dv)) /\
    (forall o, In o (refs u) -> ~ In o (eqw u) ->
      locally 0 (fun t => partials D (uR u) (line rho d t) o (pd o t)) /\
      exists h, is_derive (fun t => sumn n (fun k => (s k + t * ds k) * pd o t k)) 0 h /\
        m2 1%nat o = Some (du (al o + sumn n (fun k => s k * pd o 0 k)) (be o + h))) /\
    ((forall o, In o (refs u) -> eqw u = [] \/ opw u = [] -> exists x y, m2 0%nat o = Some (du x y)) /\
     (forall o, In o (refs u) -> exists x y, m2 1%nat o = Some (du x y)) /\
     (forall o, In o (refs u) -> ~ In o (eqw u) -> m2 0%nat o = Some (du (rho o) (d o))) /\
     forall o, In o (drefs u) -> m2 4%nat o = Some (du (D o) 0)).
Proof.
  intros UD [M1 M2] HZ HL. destruct (near0 _ HL) as [rad [RP HL']].
  destruct curve_run as [eC [wC [UC [MC1 MC2]]]].
  assert (RF : forall o, In o (refs u) -> In o (refs uX)) by (intros o; unfold uR; rewrite refs_cmap; auto).
  assert (DF : forall o, In o (drefs u) -> In o (drefs uX)) by (intros o; unfold uR; rewrite drefs_cmap; auto).
  assert (WF : forall o, In o (writes uX) -> In o (writes u)) by (intros o; unfold uR; rewrite writes_cmap; auto).
  assert (EF : forall o, In o (eqw uX) -> In o (eqw u)) by (intros o; unfold uR; rewrite eqw_cmap; auto).
  assert (SF : shape_of uX = shape_of u) by apply shape_of_cmap.
  assert (MC1' : forall o, In o (refs u) -> wC 0%nat o = Some (lin (rho o) (d o)) /\ wC 1%nat o = Some (lin (al o) (be o))).
  { intros o Ho. apply MC1. unfold vset. now rewrite refs_cmap. }
  assert (MC2' : forall o, In o (drefs u) -> wC 4%nat o = Some (cst (D o))).
  { intros o Ho. apply MC2. unfold wset. now rewrite drefs_cmap. }
  set (sC := map (fun k => lin (s k) (ds k)) (seq 0 n)). set (sD := map (fun k => du (s k) (ds k)) (seq 0 n)).
  assert (LC : length sC = size (shape_of u)) by (unfold sC; rewrite map_length, seq_length; reflexivity).
  (* dual numbers *)
  assert (MD : mrel (RD la) u wC m).
  { split.
    - intros o Ho. destruct (MC1' o Ho) as [Q1 Q2], (M1 o Ho) as [Q3 Q4]. split.
      + exists (lin (rho o) (d o)), (du (rho o) (d o)). split; [exact Q1|]. split; [exact Q3|apply lin_D].
      + exists (lin (al o) (be o)), (du (al o) (be o)). split; [exact Q2|]. split; [exact Q4|apply lin_D].
    - intros o Ho. exists (cst (D o)), (du (D o) 0). split; [now apply MC2'|]. split; [now apply M2|apply cst_D]. }
  assert (SD : Forall2 (RD la) sC sD) by (apply F2_maps; intros; apply lin_D).
  destruct (par_diff Curve_len (Duo_len N) (RD la) (prelD la) cst (fun c => du c 0) (cst_D la) 2%nat 3%nat bv ba u HA HW HD eC e wC m sC sD UC UD MD LC SD)
    as [e1 [w1 [v [e2 [m2 [vD [P1 [P2 [P3 P4]]]]]]]]].
  (* the point itself *)
  assert (L0 : Rabs 0 < rad) by (rewrite Rabs_R0; exact RP).
  destruct (x_run 0) as [e0 [m0 [U0 [S0 MR0]]]].
  destruct (some_run eC wC e0 m0 UC (conj MC1 MC2) U0 MR0 (HL' 0 L0)) as [e1' [w1' [v' [e3 [m3 [v3 [R1 [R2 [R3 R4]]]]]]]]].
  fold sC in R1. change (carrier Curve) with oc in *. rewrite P1 in R1. inversion R1; subst e1' w1' v'. clear R1.
  (* neighbouring points *)
  assert (NB : forall t, Rabs t < rad -> exists mt al', Forall2 (Rt t) v (map Fin (val D (uR u) (line rho d t))) /\
    (forall o, In o (refs u) -> crel (Rt t) (w1 1%nat o) (mt 1%nat o) /\ mt 1%nat o = Some (Fin (al' o))) /\
    forall o, In o (refs u) -> ~ In o (eqw u) -> exists g, partials D (uR u) (line rho d t) o g /\
      al' o = line al be t o + sumn n (fun k => (s k + t * ds k) * g k)).
  { intros t Ht. destruct (x_run t) as [et [mt [Ut [St Mt]]]].
    assert (MX : mrel (Rt t) u wC mt).
    { destruct Mt as [T1 T2]. split.
      - intros o Ho. destruct (MC1' o Ho) as [Q1 Q2], (T1 o (RF o Ho)) as [Q3 Q4]. split.
        + eexists. eexists. split; [exact Q1|]. split; [exact Q3|apply lin_t].
        + eexists. eexists. split; [exact Q2|]. split; [exact Q4|apply lin_t].
      - intros o Ho. eexists. eexists. split; [now apply MC2'|]. split; [exact (T2 o (DF o Ho))|]. intros _. reflexivity. }
    assert (SX : Forall2 (Rt t) sC (map Fin (sR t))).
    { unfold sC. rewrite map_map. apply F2_maps. intros. apply lin_t. }
    destruct (par_diff Curve_len (la_ok_len la LA) (Rt t) (prelT la t) cst Fin (fun c _ => eq_refl) 2%nat 3%nat 2%nat 3%nat u HA HW HD eC et wC mt sC _ UC Ut MX LC SX)
      as [f1 [x1 [y1 [f2 [x2 [y2 [A1 [A2 [A3 A4]]]]]]]]].
    change (carrier Curve) with oc in *. rewrite P1 in A1. inversion A1; subst f1 x1 y1. clear A1.
    destruct (grad_full la LA 2 3 uX D et mt (line rho d t) (line al be t) false (sR t) okX St Mt (HL' t Ht))
      as [g1 [g2 [al' [G1 [G2 [G3 [G4 [G5 [G6 [G7 G8]]]]]]]]]].
    { rewrite map_length, seq_length. unfold n. now rewrite <- SF. }
    { discriminate. }
    { intros o Ho. destruct (HZ o (WF o Ho)) as [Z1 Z2]. unfold line. rewrite Z1, Z2. ring. }
    change (carrier N) with xr in *. rewrite G1 in A2. inversion A2; subst f2 x2 y2. clear A2.
    exists g2, al'. split; [exact A3|]. split.
    - intros o Ho. split; [apply A4; exact Ho|]. apply G3. now apply RF.
    - intros o Ho Hn. destruct (G8 o (RF o Ho) (fun H => Hn (EF o H))) as [g [K1 K2]]. exists g. split; [exact K1|].
      rewrite K2. f_equal. apply dotp_map. }
  exists e2, m2, vD. split; [exact P2|]. split; [|split].
  - destruct (NB 0 L0) as [m4 [a4 [N1 _]]].
    assert (LV : length (val D (uR u) (line rho d 0)) = n).
    { rewrite (val_len D uX _ (proj1 okX)). unfold n. now rewrite <- SF. }
    assert (LvD : length vD = n).
    { rewrite <- (F2_len _ _ _ P3), (F2_len _ _ _ N1), map_length. exact LV. }
    split; [exact LvD|]. intros k Hk.
    assert (Lv : length v = n) by (rewrite (F2_len _ _ _ P3); exact LvD).
    pose proof (F2_nth So (cst 0) (Fin 0) _ _ k (so_cst 0) R3) as [c [Q1 Q2]].
    pose proof (F2_nth (RD la) (cst 0) (du 0 0) _ _ k (cst_D la 0) P3) as Q3. change (carrier Curve) with oc in *. rewrite Q1 in Q3. cbn [RD] in Q3.
    exists (Derive (cf c) 0).
    assert (QT : forall t, Rabs t < Rmin rad (cr c) -> cf c t = el (val D (uR u) (line rho d t)) k).
    { intros t Ht. pose proof (Rmin_l rad (cr c)). pose proof (Rmin_r rad (cr c)). destruct (NB t ltac:(lra)) as [mt [at_ [NT _]]].
      pose proof (F2_nth (Rt t) (cst 0) (Fin 0) _ _ k (fun _ => eq_refl) NT) as Q4. change (carrier Curve) with oc in *. rewrite Q1 in Q4. cbn [Rt] in Q4.
      specialize (Q4 ltac:(lra)). rewrite (map_nth Fin) in Q4. inversion Q4. reflexivity. }
    assert (RM : 0 < Rmin rad (cr c)) by (apply Rmin_pos; [exact RP|apply cr_pos]). split.
    + eapply is_derive_ext_loc; [|apply Derive_correct, cf_d]. exact (loc0 _ _ RM QT).
    + rewrite (nth_error_nth' vD (du 0 0)) by (now rewrite LvD). f_equal. etransitivity; [exact Q3|]. unfold du. rewrite QT; [reflexivity|].
      now rewrite Rabs_R0.
  - intros o Ho Hn.
    assert (PG : forall t, Rabs t < rad -> forall g, partials D (uR u) (line rho d t) o g -> forall k, g k = pd o t k).
    { intros t Ht g Hg k. symmetry. apply is_derive_unique. apply Hg. }
    assert (PP : forall t, Rabs t < rad -> partials D (uR u) (line rho d t) o (pd o t)).
    { intros t Ht. destruct (NB t Ht) as [mt [at_ [_ [_ N3]]]]. destruct (N3 o Ho Hn) as [g [K1 _]].
      intros k. rewrite <- (PG t Ht g K1 k). apply K1. }
    split; [exact (loc0 _ _ RP PP)|].
    destruct (R4 o Ho) as [[x [y [X1 [X2 [c [X3 X4]]]]]] _]. subst x.
    assert (QT : forall t, Rabs t < Rmin rad (cr c) -> cf c t = line al be t o + sumn n (fun k => (s k + t * ds k) * pd o t k)).
    { intros t Ht. pose proof (Rmin_l rad (cr c)). pose proof (Rmin_r rad (cr c)). assert (Ht' : Rabs t < rad) by lra.
      destruct (NB t Ht') as [mt [at_ [_ [N2 N3]]]]. destruct (N2 o Ho) as [[x' [y' [Y1 [Y2 Y3]]]] Y4].
      rewrite X1 in Y1. inversion Y1; subst x'. cbn [Rt] in Y3. specialize (Y3 ltac:(lra)). rewrite Y4 in Y2. inversion Y2 as [Y5]. rewrite <- Y5 in Y3.
      assert (Y6 : cf c t = at_ o) by congruence. destruct (N3 o Ho Hn) as [g [K1 K2]]. rewrite Y6, K2. f_equal. apply sumn_ext. intros k Hk. f_equal. now apply PG. }
    assert (RM : 0 < Rmin rad (cr c)) by (apply Rmin_pos; [exact RP|apply cr_pos]).
    exists (Derive (cf c) 0 - be o). split.
    + eapply (is_derive_ext_loc (fun t => cf c t - (al o + t * be o))).
      * apply (loc0 _ _ RM). intros t Ht.
        assert (Q : cf c t - (al o + t * be o) = sumn n (fun k => (s k + t * ds k) * pd o t k)) by (rewrite QT by exact Ht; unfold line; ring).
        exact Q.
      * apply (is_derive_minus (cf c) (fun t => al o + t * be o)); [apply Derive_correct, cf_d|]. auto_derive; auto. ring.
    + destruct (P4 o Ho) as [[x' [y' [Y1 [Y2 Y3]]]] _]. rewrite X1 in Y1. inversion Y1; subst x'. cbn [RD] in Y3. rewrite Y2, Y3.
      unfold du. rewrite QT by (now rewrite Rabs_R0). do 2 f_equal; f_equal; [unfold line|ring].
      rewrite Rmult_0_l, Rplus_0_r. f_equal. apply sumn_ext. intros k Hk. ring.
  - destruct (used_inv (Duo_len N) bv ba (@uD la u) _ _ (eq_trans (wfs_cmap _ u) HW) UD) as [F1 [kv [ka I1]]].
    destruct (tf (N := ND) (fun o => du (D o) 0) e (fun o => du (rho o) (d o))) as [t r] eqn:T1.
    assert (MM : MR (N := ND) (vset (@uD la u)) (wset (@uD la u)) (fun o => du (D o) 0) m (fun o => du (rho o) (d o)) (fun o => du (al o) (be o))).
    { split; intros o Ho; [apply M1; unfold vset, uD in Ho|apply M2; unfold wset, uD in Ho].
      - now rewrite refs_cmap in Ho.
      - now rewrite drefs_cmap in Ho. }
    assert (AE : arithx e = true).
    { rewrite <- (arithx_amap (fun _ => tt) e). change (amap (fun _ => tt) e) with (er e).
      replace (er e) with (@uD la u) by (symmetry; apply I1). unfold uD. now rewrite arithx_cmap. }
    destruct (top_diff (Duo_len N) bv ba F1 (@uD la u) kv ka e m _ _ _ t r sD I1 ltac:(unfold uD; now rewrite disc_cmap) MM T1 (prod_arithx e t AE)
      ltac:(unfold sD, uD; rewrite map_length, seq_length, shape_of_cmap; reflexivity)) as [e4 [m4 [r2 [A1 [A2 [A3 [_ [_ [A7 A8]]]]]]]]].
    change (carrier ND) with (dual N) in *. rewrite P2 in A1. inversion A1; subst e4 m4. clear A1. destruct A3 as [A3 A4]. split; [|split; [|split]].
    + intros o Ho HG. destruct (R4 o Ho) as [_ X]. destruct (X HG) as [x [y [X1 [_ [c [X3 _]]]]]]. subst x.
      destruct (P4 o Ho) as [_ Y]. destruct Y as [x' [y' [Y1 [Y2 Y3]]]]; [destruct HG as [HG|HG]; [left; rewrite HG; intros []|now right]|].
      rewrite X1 in Y1. inversion Y1; subst x'. cbn [RD] in Y3. rewrite Y2, Y3. now do 2 eexists.
    + intros o Ho. destruct (R4 o Ho) as [[x [y [X1 [_ [c [X3 _]]]]]] _]. subst x.
      destruct (P4 o Ho) as [[x' [y' [Y1 [Y2 Y3]]]] _]. rewrite X1 in Y1. inversion Y1; subst x'. cbn [RD] in Y3. rewrite Y2, Y3. now do 2 eexists.
    + intros o Ho Hn. destruct (A3 o) as [A5 _]; [unfold vset, uD; now rewrite refs_cmap|]. rewrite A5, A7; [reflexivity|]. unfold uD. now rewrite eqw_cmap.
    + intros o Ho. apply A4. unfold wset, uD. now rewrite drefs_cmap.
Qed.
End Second.

Lemma da_cmap {T T' A} (f : T -> T') (e : expr T A) : da (cmap f e) = da e.
Proof. induction e using expr_ind'; cbn; auto; try congruence; [| |now rewrite IHe1, IHe2, IHe3]; rewrite flat_map_map; now apply flat_map_ext_Forall. Qed.
Lemma inputs_cmap {T T' A} (f : T -> T') (e : expr T A) : inputs (cmap f e) = inputs e.
Proof.
  induction e using expr_ind'; cbn [cmap inputs]; rewrite ?da_cmap; auto; try congruence;
    induction H as [|y l Hy Hl IH]; cbn; auto; rewrite da_cmap; congruence.
Qed.
Lemma run_app' {N : num} (l l' : list (@op N)) c : run (l ++ l') c = (c1 <- run l c ;; run l' c1).
Proof. revert c. induction l; intros c; cbn [app run]; [reflexivity|]. destruct (step a c); cbn; auto. Qed.
Lemma used_op {N : num} bv ba (u : expr N unit) e m o e' m' : used bv ba u e m -> op_ok (size (shape_of u)) o -> step o (e, m) = Ok (e', m') -> used bv ba u e' m'.
Proof.
  intros [m0 [uv [ua [e0 [m1 [ops [F [HV [HB [HO HR]]]]]]]]]] K S. exists m0, uv, ua, e0, m1, (ops ++ [o]). repeat (split; [assumption|]). split.
  - apply Forall_app. split; auto.
  - rewrite run_app', HR. cbn [bindR run]. now rewrite S.
Qed.
Lemma second_deriv la (LA : la_ok la) (u : expr R unit) bv ba e m D rho d al be s ds : let n := size (shape_of u) in
  secx u = true -> wfs u = true -> disc u = true -> @used (Duo (XR la)) bv ba (uD u) e m -> dreal u m D rho d al be ->
  (forall o, In o (writes u) -> al o = 0 /\ be o = 0) -> locally 0 (fun t => dom D true false (uR u) (line rho d t)) ->
  exists e2 m2 v, @autodiff (Duo (XR la)) e (map (fun k => du (s k) (ds k)) (seq 0 n)) m = Ok (e2, m2, v) /\
    (length v = n /\ forall k, (k < n)%nat -> exists dv, is_derive (fun t => el (val D (uR u) (line rho d t)) k) 0 dv /\
       nth_error v k = Some (du (el (val D (uR u) (line rho d 0)) k) dv)) /\
    forall o, In o (refs u) -> ~ In o (eqw u) ->
      exists (G : R -> nat -> R) h, locally 0 (fun t => partials D (uR u) (line rho d t) o (G t)) /\
        is_derive (fun t => sumn n (fun k => (s k + t * ds k) * G t k)) 0 h /\
        m2 1%nat o = Some (du (al o + sumn n (fun k => s k * G 0 k)) (be o + h)).
Proof.
  intros n HX HW HD HU HM HZ HL.
  destruct (second_thm la LA u HX HW HD D rho d al be s ds bv ba e m HU HM HZ HL) as [e2 [m2 [v [Q1 [Q2 [Q3 _]]]]]].
  exists e2, m2, v. split; [exact Q1|]. split; [exact Q2|]. intros o Ho Hn. destruct (Q3 o Ho Hn) as [K1 [h [K2 K3]]].
  exists (pd u D rho d o), h. auto.
Qed.
Section Loop.
Variable la : linalg xr.
Hypothesis LA : la_ok la.
Notation N := (XR la).
Notation ND := (Duo N).
Variable u : expr R unit.
Hypothesis HX : secx u = true.
Hypothesis HW : wfs u = true.
Hypothesis HD : disc u = true.
Hypothesis H1 : size (shape_of u) = 1%nat.
Hypothesis HI : forall o, In o (eqw u) -> ~ In o (inputs u).
Hypothesis HG : eqw u = [] \/ opw u = [].
Variables D rho : nat -> R.

Lemma reset_keeps' l : @keeps ND (reset_adjs N l).
Proof. intros m b o H. unfold reset_adjs. destruct (_ && _); [|exact H]. destruct (m b o); [discriminate|congruence]. Qed.
Lemma aim_keeps o t : @keeps ND (aim N o t).
Proof. intros m b i H. unfold aim. destruct (_ && _); [|exact H]. destruct (m b i); [discriminate|congruence]. Qed.
Lemma tangents_ok (P : nat -> R -> Prop) (m : mem ND) os : (forall o, In o os -> exists x h, P o h /\ m 1%nat o = Some (du x h)) ->
  exists col, tangents N m os = Ok (map Fin col) /\ Forall2 P os col.
Proof.
  induction os as [|o l IH]; intros H; [exists []; split; [reflexivity|constructor]|].
  destruct (H o (or_introl eq_refl)) as [x [h [Q1 Q2]]]. destruct IH as [col [Q3 Q4]]; [intros; apply H; now right|].
  exists (h :: col). split; [|constructor; auto]. cbn [tangents]. unfold rd1. change (carrier ND) with (dual N) in *. rewrite Q2. cbn [bindR]. rewrite Q3. reflexivity.
Qed.
(** Moving along the coordinate [i]. *)
Lemma line_set1 rho1 d i t o : (forall o, ~ In o (eqw u) -> rho1 o = rho o) -> (forall o, ~ In o (eqw u) -> d o = ind i o) -> ~ In o (eqw u) ->
  line rho1 d t o = set1 rho i (rho i + t) o.
Proof.
  intros Q1 Q2 Ho. unfold line, set1. rewrite Q1, Q2 by exact Ho. unfold ind. destruct (Nat.eqb_spec o i) as [->|]; ring.
Qed.
Lemma line_sm rho1 d i t : (forall o, ~ In o (eqw u) -> rho1 o = rho o) -> (forall o, ~ In o (eqw u) -> d o = ind i o) ->
  sm (line rho1 d t) (set1 rho i (rho i + t)) (inputs (uR u)).
Proof. intros Q1 Q2 o Ho. apply line_set1; auto. intros X. apply (HI o X). unfold uR in Ho. now rewrite inputs_cmap in Ho. Qed.
Definition tang (prev : option nat) (o : nat) : R := match prev with Some p => ind p o | None => 0 end.

Lemma hess_ind bv ba vars os : (forall o, In o (refs u) -> In o vars) -> (forall o, In o os -> In o (refs u) /\ ~ In o (eqw u)) ->
  forall is prev e m rho1 d al be, (forall i, In i is -> In i (refs u) /\ ~ In i (eqw u) /\ locally (rho i) (fun x => dom D true false (uR u) (set1 rho i x))) ->
  @used ND bv ba (uD u) e m -> dreal u m D rho1 d al be ->
  (forall o, ~ In o (eqw u) -> rho1 o = rho o) -> (forall o, ~ In o (eqw u) -> d o = tang prev o) ->
  exists e2 m2 g cols, hess N vars os prev is e m = Ok (e2, m2, map Fin g, map (map Fin) cols) /\
    Forall2 (partial1 D u rho) is g /\ Forall2 (fun i => Forall2 (partial2 D u rho i) os) is cols /\
    forall o, In o (refs u) -> ~ In o (eqw u) -> exists t, m2 0%nat o = Some (du (rho o) t).
Proof.
  intros HV HO. induction is as [|i is IH]; intros prev e m rho1 d al be HS HU HM HR HT.
  - exists e, m, [], []. split; [reflexivity|]. split; [constructor|]. split; [constructor|]. intros o Ho Hn.
    destruct HM as [M1 _]. destruct (M1 o Ho) as [M1' _]. exists (d o). rewrite M1', HR by exact Hn. reflexivity.
  - destruct (HS i (or_introl eq_refl)) as [I1 [I2 I3]].
    set (m0 := match prev with Some p => aim N p (Fin 0) (reset_adjs N vars m) | None => reset_adjs N vars m end).
    set (d1 := fun o => if (o =? i)%nat then 1 else match prev with Some p => if (o =? p)%nat then 0 else d o | None => d o end).
    assert (U0 : @used ND bv ba (uD u) e (aim N i (Fin 1) m0)).
    { eapply (used_op bv ba (uD u) e m0 (OpUser (aim N i (Fin 1)))); [|apply aim_keeps|reflexivity].
      assert (UR : @used ND bv ba (uD u) e (reset_adjs N vars m)).
      { eapply (used_op bv ba (uD u) e m (OpUser (reset_adjs N vars))); [exact HU|apply reset_keeps'|reflexivity]. }
      unfold m0. destruct prev as [p|]; [|exact UR].
      eapply (used_op bv ba (uD u) e _ (OpUser (aim N p (Fin 0)))); [exact UR|apply aim_keeps|reflexivity]. }
    assert (MM : dreal u (aim N i (Fin 1) m0) D rho1 d1 (fun _ => 0) (fun _ => 0)).
    { destruct HM as [M1 M2]. split.
      - intros o Ho. destruct (M1 o Ho) as [Q1 Q2]. assert (EV : existsb (Nat.eqb o) vars = true) by (apply inw_true; auto). split.
        + unfold aim at 1. cbn [Nat.eqb andb]. unfold m0, d1. destruct prev as [p|]; unfold aim, reset_adjs; cbn [Nat.eqb andb];
            change (carrier ND) with (dual N) in *; rewrite Q1; destruct (o =? i)%nat; try destruct (o =? p)%nat; reflexivity.
        + unfold aim at 1. cbn [Nat.eqb andb]. unfold m0. destruct prev as [p|]; unfold aim, reset_adjs; cbn [Nat.eqb andb]; rewrite EV;
            change (carrier ND) with (dual N) in *; rewrite Q2; reflexivity.
      - intros o Ho. unfold m0. destruct prev as [p|]; unfold aim, reset_adjs; cbn [Nat.eqb andb]; auto. }
    assert (DT : forall o, ~ In o (eqw u) -> d1 o = ind i o).
    { intros o Ho. unfold d1, ind. destruct (o =? i)%nat; [reflexivity|]. rewrite HT by exact Ho. unfold tang, ind. destruct prev as [p|]; [|reflexivity].
      destruct (o =? p)%nat; reflexivity. }
    assert (LD : locally 0 (fun t => dom D true false (uR u) (line rho1 d1 t))).
    { destruct I3 as [r Hr]. apply (loc0 _ r (cond_pos r)). intros t Ht.
      apply (indep D (uR u) (set1 rho i (rho i + t)) (line rho1 d1 t) (eq_trans (wfs_cmap _ u) HW)).
      - intros o Ho. symmetry. now apply line_sm.
      - apply Hr. change (Rabs (rho i + t + - rho i) < r). now replace (rho i + t + - rho i) with t by ring. }
    destruct (second_thm la LA u HX HW HD D rho1 d1 (fun _ => 0) (fun _ => 0) (fun _ => 1) (fun _ => 0) bv ba e _ U0 MM ltac:(auto) LD)
      as [e2 [m2 [v [P1 [[P2 P3] [P4 [P5 [P6 [P7 P8]]]]]]]]].
    rewrite H1 in *. cbn [seq map] in P1.
    destruct (P3 0%nat ltac:(lia)) as [g [G1 G2]].
    assert (NX : exists rho2 d2 al2 be2, dreal u m2 D rho2 d2 al2 be2 /\ (forall o, ~ In o (eqw u) -> rho2 o = rho o) /\ forall o, ~ In o (eqw u) -> d2 o = tang (Some i) o).
    { set (get := fun b o => match m2 b o with Some (Dual (Fin x) (Fin y)) => (x, y) | _ => (0, 0) end).
      exists (fun o => if existsb (Nat.eqb o) (eqw u) then fst (get 0%nat o) else rho o), (fun o => if existsb (Nat.eqb o) (eqw u) then snd (get 0%nat o) else ind i o),
        (fun o => fst (get 1%nat o)), (fun o => snd (get 1%nat o)).
      split; [split|split].
      - intros o Ho. split.
        + destruct (existsb (Nat.eqb o) (eqw u)) eqn:EE.
          * destruct (P5 o Ho HG) as [x [y Q]]. unfold get. rewrite Q. reflexivity.
          * assert (Hn : ~ In o (eqw u)) by (intros X; apply inw_true in X; congruence). rewrite P7 by auto. rewrite HR, DT by auto. reflexivity.
        + destruct (P6 o Ho) as [x [y Q]]. unfold get. rewrite Q. reflexivity.
      - exact P8.
      - intros o Ho. destruct (existsb (Nat.eqb o) (eqw u)) eqn:EE; [apply inw_true in EE; contradiction|reflexivity].
      - intros o Ho. destruct (existsb (Nat.eqb o) (eqw u)) eqn:EE; [apply inw_true in EE; contradiction|reflexivity]. }
    destruct NX as [rho2 [d2 [al2 [be2 [N1 [N2 N3]]]]]].
    assert (U2 : @used ND bv ba (uD u) e2 m2).
    { eapply (used_op bv ba (uD u) e _ (OpDiff [du 1 0])); [exact U0| |].
      - unfold op_ok, uD. rewrite shape_of_cmap, H1. reflexivity.
      - cbn [step]. change (carrier ND) with (dual N) in *. rewrite P1. reflexivity. }
    destruct (IH (Some i) e2 m2 rho2 d2 al2 be2 ltac:(intros; apply HS; now right) U2 N1 N2 N3) as [e3 [m3 [gs [cols [R1 [R2 [R3 R4]]]]]]].
    destruct (tangents_ok (partial2 D u rho i) m2 os) as [col [C1 C2]].
    { intros o Ho. destruct (HO o Ho) as [O1 O2]. destruct (P4 o O1 O2) as [K1 [h [K2 K3]]]. exists (0 + sumn 1 (fun k => 1 * pd u D rho1 d1 o 0 k)), (0 + h).
      split; [|exact K3]. rewrite Rplus_0_l. destruct (near0 _ K1) as [r [RP Hr]].
      exists (fun x => pd u D rho1 d1 o (x - rho i) 0%nat). split.
      - exists (mkposreal r RP). assert (Q : forall x : R, Rabs (x + - rho i) < r -> partial1 D u (set1 rho i x) o (pd u D rho1 d1 o (x - rho i) 0%nat)); [|exact Q].
        intros x Hx. pose proof (Hr (x - rho i) Hx) as Q. assert (EX : rho i + (x - rho i) = x) by ring.
        apply (partials_move la (uR u) D (line rho1 d1 (x - rho i)) (set1 rho i x) o) in Q.
        + apply Q.
        + exact (eq_trans (wfs_cmap _ u) HW).
        + rewrite <- EX at 2. now apply line_sm.
        + rewrite <- EX at 2. now apply line_set1.
      - evar_last.
        + apply (is_derive_comp (fun t => pd u D rho1 d1 o t 0%nat) (fun x => x - rho i) (rho i) h 1).
          * replace (rho i - rho i) with 0 by ring. eapply der_ext; [|exact K2]. intros t. cbn. ring.
          * auto_derive; auto.
        + change (1 * h = h). ring. }
    exists e3, m3, (g :: gs), (col :: cols). split.
    { cbn [hess]. fold m0. change (n0 N) with (Fin 0). change (n1 N) with (Fin 1). fold m0. change (n1 ND) with (@du la 1 0). change (carrier ND) with (dual N) in *. rewrite P1. cbn [bindR].
      rewrite C1. cbn [bindR]. rewrite R1. cbn [bindR map]. do 2 f_equal.  destruct v as [|v0 v]; [discriminate|]. cbn in G2. inversion G2. reflexivity. }
    split; [|split; [constructor; auto|exact R4]].
    constructor; [|exact R2]. unfold partial1.
    evar_last.
    + apply (is_derive_ext (fun x => el (val D (uR u) (line rho1 d1 (x - rho i))) 0%nat)).
      * intros x. assert (EX : rho i + (x - rho i) = x) by ring. rewrite <- EX at 2.
        destruct (indep D (uR u) (line rho1 d1 (x - rho i)) (set1 rho i (rho i + (x - rho i))) (eq_trans (wfs_cmap _ u) HW)) as [Q _]; [now apply line_sm|]. now rewrite Q.
      * apply (is_derive_comp (fun t => el (val D (uR u) (line rho1 d1 t)) 0%nat) (fun x => x - rho i) (rho i) g 1).
        -- replace (rho i - rho i) with 0 by ring. exact G1.
        -- auto_derive; auto.
    + change (1 * g = g). ring.
Qed.
Lemma hess_thm bv ba vars os is e m al be : (forall o, In o (refs u) -> In o vars) -> (forall o, In o os -> In o (refs u) /\ ~ In o (eqw u)) ->
  (forall i, In i is -> In i (refs u) /\ ~ In i (eqw u) /\ locally (rho i) (fun x => dom D true false (uR u) (set1 rho i x))) ->
  @used ND bv ba (uD u) e m -> dreal u m D rho (fun _ => 0) al be ->
  exists e2 m2 g cols, hess N vars os None is e m = Ok (e2, m2, map Fin g, map (map Fin) cols) /\
    Forall2 (partial1 D u rho) is g /\ Forall2 (fun i => Forall2 (partial2 D u rho i) os) is cols /\
    forall o, In o (refs u) -> ~ In o (eqw u) -> exists t, m2 0%nat o = Some (du (rho o) t).
Proof. intros. eapply hess_ind; eauto. Qed.
End Loop.
