(** Linearity in the seed, placeholders, op=. *)
From Coq Require Import Reals Lra FunctionalExtensionality.
From Coquelicot Require Import Coquelicot.
From Verif Require Import Base Num Expr Node Stat Machine Wf Pure LBase LKind LSimDef LMem LSimF LSimB LBind Session LUser
  Tape LTape LState LNrm LTop XR Spec RSess Grad LReal LScal LKA LKB LKM LVal LGrad LDiff LIndep LGrd Nudge LNGrad.
Open Scope R_scope.
Set Bullet Behavior "Strict Subproofs".

Section Ph.
Variable la : linalg xr.
Hypothesis LA : la_ok la.
Notation N := (XR la).
Notation E := (expr N (ann N)).
Notation U := (expr N unit).
Let LL : la_len N := la_ok_len la LA.
Let HKV := KV_all la LA.
Let HKA := KA_all la LA.
Notation liftE := (LVal.liftE la).

(** Differentiation of a subexpression, at the level of the tape. *)
Lemma tb_grad D (e : E) b rho t r' seed al : wfs e = true -> disc e = true -> sg la D e -> dom D true b e rho ->
  @tf N (liftE D) e (liftE rho) = (t, r') -> length seed = size (shape_of e) ->
  (b = true -> forall j, (j < length seed)%nat -> el seed j = 1) ->
  exists al', @tb N e t (map Fin seed) (liftE al) = liftE al' /\ (forall o, ~ In o (refs e) -> al' o = al o) /\
    forall o, ~ In o (eqw e) -> exists g h : nat -> R, partials D e rho o g /\ epartials D e rho o h /\
    (forall i, ~ In i (writes e) -> h i = ind o i) /\
    forall M, (forall i, In i (refs e) -> (i < M)%nat) -> (o < M)%nat ->
      al' o = dotp seed g + sumn M (fun i => al i * h i).
Proof.
  intros HW DI HG HD ET HL HU.
  assert (ER : r' = liftE (fin_env D e rho)).
  { destruct (LV_all la D HKV e b rho t r' HW HG (dom_mono D true e b rho HD) ET). auto. }
  assert (GG : forall o M, (forall i, In i (refs e) -> (i < M)%nat) -> exists dv dr', length dv = size (shape_of e) /\
     (forall j, is_derive (fun x => el (val D e (set1 rho o x)) j) (rho o) (el dv j)) /\
     (forall i, is_derive (fun x => fin_env D e (set1 rho o x) i) (rho o) (dr' i)) /\
     BK la M e t b dv (ind o) dr').
  { intros o M HB. destruct (GR_all la D HKV HKA M e b (set1 rho o) (ind o) (rho o) t (liftE (fin_env D e rho)) HW DI HG HB) as [dv [dr' [A1 [A2 [A3 [_ A5]]]]]].
    - now rewrite set1_same.
    - intros i. apply set1_der.
    - rewrite set1_same. now rewrite <- ER.
    - exists dv, dr'. auto. }
  set (M0 := S (list_max (refs e))).
  assert (HM0 : forall i, In i (refs e) -> (i < M0)%nat) by (intros; now apply refs_bound).
  destruct (GG 0%nat M0 HM0) as [dv0 [dr0 [_ [_ [_ BK0]]]]].
  destruct (BK0 seed al HL HU) as [al' [B1 [B2 _]]]. exists al'. split; [exact B1|]. split; [exact B2|].
  intros o Ho. destruct (GG o M0 HM0) as [dv [dr' [A1 [A2 [A3 A5]]]]]. exists (el dv), dr'. split; [exact A2|]. split; [exact A3|].
  split. { intros i Hi. exact (dr_keep la D e (set1 rho o) (ind o) dr' (rho o) i HW (set1_der rho o) A3 Hi). }
  intros M HMM HoM. destruct (GG o M HMM) as [dvM [drM [C1 [C2 [C3 C5]]]]].
  destruct (C5 seed al HL HU) as [al2 [P1 [P2 P3]]].
  assert (EA : al2 = al').
  { rewrite B1 in P1. apply functional_extensionality. intros i. apply (f_equal (fun f => f i)) in P1. unfold LVal.liftE in P1. congruence. }
  subst al2.
  assert (ED : forall k, el dvM k = el dv k) by (intros k; exact (der_unique _ _ _ _ (C2 k) (A2 k))).
  assert (EH : forall i, drM i = dr' i) by (intros i; exact (der_unique _ _ _ _ (C3 i) (A3 i))).
  rewrite (sumn_ind' M o (fun i => inb i (@asg N e t)) al') in P3; auto.
  - rewrite <- P3. unfold dotp, ip. f_equal; apply sumn_ext; intros; [now rewrite ED|now rewrite EH].
  - apply inb_f. intros X. apply Ho. eapply (@asg_eqw N e t), X.
Qed.

(** ** C11 *)
Lemma ph_thm bv ba sh w (y f : U) D (e1 : E) m1 rho al b seed (u := EGlue tt (EEq tt sh w y) f) rho1 :
  okexpr la u -> session la bv ba u D e1 m1 -> mreal la u m1 D rho al -> dom D true b u rho ->
  length seed = size (shape_of f) -> (b = true -> forall j, (j < length seed)%nat -> el seed j = 1) ->
  (forall o, In o (writes f) -> al o = 0) ->
  rho1 = put (fin_env D y rho) w (val D y rho) ->
  exists e2 m2 gw, @autodiff N e1 (map Fin seed) m1 = Ok (e2, m2, map Fin (val D f rho1)) /\
    (forall j, (j < size sh)%nat -> partials D f rho1 (w + j) (gw j) /\
       m2 1%nat (w + j)%nat = Some (Fin (al (w + j)%nat + dotp seed (gw j)))) /\
    (writes y = [] -> forall o, In o (refs u) -> ~ In o (eqw u) -> exists gf gy, partials D f rho1 o gf /\ partials D y rho o gy /\
       m2 1%nat o = Some (Fin (al o + dotp seed gf +
         sumn (size sh) (fun j => (al (w + j)%nat + dotp seed (gw j)) * gy j)))).
Proof.
  intros HK HS HM HD HL HU HZ ->.
  destruct (session_inv la LL bv ba u D e1 m1 HK HS) as [cv [ca [HF [HI [HG [HW HE]]]]]].
  assert (HD' : dom D true b e1 rho) by (rewrite <- HE in HD; unfold er in HD; now apply dom_amap in HD).
  destruct (inv_facts _ _ _ _ _ _ _ HI) as [F1 [F2 [F3 [F4 [F5 [F6 F7]]]]]]. change (carrier N) with xr in *.
  destruct e1 as [| | | | | |a1 e1l e1r| |]; try discriminate HE.
  destruct e1l as [| | | |a2 sh' w' y1| | | |]; try discriminate HE.
  unfold u, er in HE. cbn [amap] in HE. inversion HE as [[X1 X2 X3 X4]]. subst sh' w'.
  change (amap (fun _ : ann N => tt) y1) with (@er N y1) in *. change (amap (fun _ : ann N => tt) e1r) with (@er N e1r) in *.
  cbn [wfs] in HW. rewrite !andb_true_iff in HW. destruct HW as [[[[[[W1 W2] W3] W4] W5] _] _]. apply shape_eqb_eq in W3.
  assert (DI : disc (EGlue a1 (EEq a2 sh w y1) e1r) = true) by (rewrite F2; apply HK).
  cbn [disc] in DI. rewrite !andb_true_iff in DI. destruct DI as [[[D1 D2] D3] D4].
  cbn [sg dom] in HG, HD'. destruct HG as [G1 G2]. destruct HD' as [M1 M2].
  destruct (@tf N (liftE D) y1 (liftE rho)) as [ty ry] eqn:TY.
  destruct (LV_all la D HKV y1 false rho ty ry W1 G1 (dom_mono D true y1 false rho M1) TY) as [V1 ->].
  assert (VY : forall r, val D (@er N y1) r = val D y1 r) by (intros; apply val_amap).
  assert (FY : forall r, fin_env D (@er N y1) r = fin_env D y1 r) by (intros; apply fin_amap).
  assert (VF : forall r, val D (@er N e1r) r = val D e1r r) by (intros; apply val_amap).
  assert (EQ1 : fin_env D (EEq a2 sh w y1) rho = put (fin_env D y1 rho) w (val D y1 rho)).
  { unfold fin_env, val. cbn [den]. destruct (den D y1 rho). reflexivity. }
  set (rho1 := put (fin_env D y1 rho) w (val D y1 rho)) in *. rewrite EQ1 in M2.
  destruct (@tf N (liftE D) e1r (liftE rho1)) as [tr rr] eqn:TR.
  destruct (LV_all la D HKV e1r b rho1 tr rr W5 G2 (dom_mono D true e1r b rho1 M2) TR) as [V2 ->].
  assert (ET : @tf N (liftE D) (EGlue a1 (EEq a2 sh w y1) e1r) (liftE rho) =
    (@Nd N (nv tr) (sst0 N) [] [@Nd N (nv ty) (sst0 N) [] [ty]; tr], liftE (fin_env D e1r rho1))).
  { cbn [tf]. change (carrier N) with xr in *. rewrite TY, V1, upd_lift. fold rho1. rewrite TR. reflexivity. }
  assert (DG : dom D true b (EGlue a1 (EEq a2 sh w y1) e1r) rho) by (cbn [dom]; rewrite EQ1; auto).
  assert (GG : sg la D (EGlue a1 (EEq a2 sh w y1) e1r)) by (cbn [sg]; auto).
  pose proof (PO_all la D HKV (EGlue a1 (EEq a2 sh w y1) e1r) b rho _ _ F1 GG (dom_mono D true _ b rho DG) ET) as HP.
  assert (HL1 : length seed = size (shape_of u)) by (cbn [u shape_of]; exact HL).
  destruct (top_diff LL bv ba HF u cv ca _ m1 (liftE D) (liftE rho) (liftE al) _ _ (map Fin seed) HI (proj1 (proj2 HK)) HM ET HP
    ltac:(rewrite map_length; exact HL1)) as [e2 [m2 [r2 [Q1 [Q2 [[Q3 _] [Q4 [Q5 [Q6 Q7]]]]]]]]].
  assert (HLr : length seed = size (shape_of e1r)) by (rewrite HL, <- X4; unfold er; now rewrite shape_of_amap).
  destruct (tb_grad D e1r b rho1 tr _ seed al W5 D3 G2 M2 TR HLr HU) as [al1 [B1 [B2 B3]]].
  assert (ZR : map Fin (repeat 0 (size sh)) = repeat (n0 N) (size sh)) by (symmetry; exact (rep0 la (size sh))).
  assert (HN : forall o, ~ In o (eqw e1r) -> exists g, partials D e1r rho1 o g /\ al1 o = al o + dotp seed g).
  { intros o Ho. destruct (B3 o Ho) as [g [h [C1 [C2 [C3 C4]]]]]. exists g. split; [exact C1|].
    rewrite (C4 (S (list_max (o :: refs e1r)))); [|intros i Hi; apply refs_bound; now right|apply refs_bound; now left].
    rewrite (sumn_ext _ (fun i => al i * h i) (fun i => al i * ind o i)).
    - rewrite sumn_ind by (apply refs_bound; now left). lra.
    - intros i _. destruct (in_dec Nat.eq_dec i (writes e1r)) as [Hi|Hi]; [|now rewrite C3].
      rewrite HZ; [lra|]. rewrite <- X4. unfold er. rewrite writes_amap. exact Hi. }
  assert (NW : forall j, (j < size sh)%nat -> ~ In (w + j)%nat (eqw e1r)).
  { intros j Hj Hi. refine (dj_spec _ _ D4 (w + j)%nat Hi _). cbn [refs]. apply in_or_app. left. apply in_cells. lia. }
  assert (NY : forall j, (j < size sh)%nat -> ~ In (w + j)%nat (refs y1)).
  { intros j Hj Hi. refine (dj_spec _ _ D2 (w + j)%nat _ Hi). apply in_cells. lia. }
  set (sw := map al1 (seq w (size sh))).
  assert (LSW : length sw = size (shape_of y1)) by (unfold sw; now rewrite map_length, seq_length, W3).
  destruct (tb_grad D y1 false rho ty _ sw al1 W1 D1 G1 M1 TY LSW ltac:(discriminate)) as [al2 [P1 [P2 P3]]].
  assert (TBE : @tb N (EGlue a1 (EEq a2 sh w y1) e1r) (@Nd N (nv tr) (sst0 N) [] [@Nd N (nv ty) (sst0 N) [] [ty]; tr]) (map Fin seed) (liftE al) = liftE al2).
  { cbn [tb nts shape_of]. change (carrier N) with xr in *. rewrite B1. rewrite <- ZR, padd_lift, rdv_lift.
    assert (EA : addp al1 w (repeat 0 (size sh)) = al1).
    { apply functional_extensionality. intros i. destruct (inr w (size sh) i) eqn:EI.
      - apply inr_spec in EI. replace i with (w + (i - w))%nat by lia. rewrite addp_in by (rewrite repeat_length; lia).
        unfold el. rewrite nth_repeat. lra.
      - rewrite addp_out; [reflexivity|]. rewrite repeat_length. rewrite <- inr_spec. congruence. }
    rewrite EA. exact P1. }
  change (carrier N) with xr in *. rewrite TBE in Q3.
  assert (GW : exists gw : nat -> nat -> R, forall j, (j < size sh)%nat -> partials D e1r rho1 (w + j) (gw j) /\ al1 (w + j)%nat = al (w + j)%nat + dotp seed (gw j)).
  { clear - HN NW. induction (size sh) as [|n IH].
    - exists (fun _ _ => 0). intros j Hj. lia.
    - destruct IH as [gw IH]; [intros; apply NW; lia|]. destruct (HN (w + n)%nat) as [g [G1 G2]]; [apply NW; lia|].
      exists (fun j => if (j =? n)%nat then g else gw j). intros j Hj. destruct (j =? n)%nat eqn:Q.
      + apply Nat.eqb_eq in Q. subst. auto.
      + apply Nat.eqb_neq in Q. apply IH. lia. }
  destruct GW as [gw GW]. exists e2, m2, gw. split.
  { rewrite VF, VY, FY. fold rho1. rewrite <- V2. exact Q1. }
  assert (PF : forall o g, partials D e1r rho1 o g -> partials D (@er N e1r) (put (fin_env D (@er N y1) rho) w (val D (@er N y1) rho)) o g).
  { intros o g HP0 k. rewrite VY, FY. fold rho1. eapply der_ext; [|exact (HP0 k)]. intros t. cbn. now rewrite VF. }
  split.
  - intros j Hj. destruct (GW j Hj) as [G3 G4]. split; [apply PF, G3|].
    destruct (Q3 (w + j)%nat) as [_ Z]. { cbn [u refs]. apply in_or_app. left. apply in_or_app. left. apply in_cells. lia. }
    rewrite Z. unfold LVal.liftE. rewrite P2 by now apply NY. now rewrite G4.
  - intros HWY o Ho Hn. cbn [u eqw] in Hn. rewrite !in_app_iff in Hn.
    assert (HWY1 : writes y1 = []) by (rewrite <- HWY; unfold er; now rewrite writes_amap).
    assert (EY : forall i, In i (eqw y1) -> In i (writes y1)) by (intros; now apply eqw_writes).
    destruct (HN o) as [gf [G3 G4]].
    { intros X. apply Hn. right. assert (EE : eqw e1r = eqw (@er N e1r)) by (symmetry; apply eqw_amap). rewrite EE in X. assert (EF : @er N e1r = f) by exact X4. rewrite EF in X. exact X. }
    destruct (P3 o) as [gy [h [C1 [C2 [C3 C4]]]]]. { intros X. apply EY in X. rewrite HWY1 in X. destruct X. }
    exists gf, gy. split; [now apply PF|]. split.
    { intros k. eapply der_ext; [|exact (C1 k)]. intros t. cbn. now rewrite VY. }
    destruct (Q3 o Ho) as [_ Z]. rewrite Z. unfold LVal.liftE. do 2 f_equal.
    rewrite (C4 (S (list_max (o :: refs y1)))); [|intros i Hi; apply refs_bound; now right|apply refs_bound; now left].
    rewrite (sumn_ext _ (fun i => al1 i * h i) (fun i => al1 i * ind o i)) by (intros i _; rewrite C3; [reflexivity|rewrite HWY1; auto]).
    rewrite sumn_ind by (apply refs_bound; now left). rewrite G4. unfold dotp at 1. rewrite LSW, <- W3. rewrite Rplus_comm. f_equal.
    apply sumn_ext. intros j Hj. unfold sw. rewrite map_r_seq, el_tab by auto. destruct (GW j Hj) as [_ G5]. now rewrite G5.
Qed.

(** ** C09, C10 *)
Lemma dotp_lin n s t a b g : length s = n -> length t = n ->
  dotp (tab n (fun k => a * el s k + b * el t k)) g = a * dotp s g + b * dotp t g.
Proof.
  intros H1 H2. unfold dotp. rewrite tab_len, H1, H2. rewrite <- !sumn_l, <- sumn_plus. apply sumn_ext. intros k Hk.
  rewrite el_tab by auto. ring.
Qed.
Lemma lin_thm bv ba (u : U) D (e1 : E) m1 rho al s t a b (n := size (shape_of u)) :
  okexpr la u -> session la bv ba u D e1 m1 -> mreal la u m1 D rho al -> dom D true false u rho ->
  length s = n -> length t = n -> (forall o, In o (writes u) -> al o = 0) ->
  exists es ms et mt ec mc v, @autodiff N e1 (map Fin s) m1 = Ok (es, ms, v) /\
    @autodiff N e1 (map Fin t) m1 = Ok (et, mt, v) /\
    @autodiff N e1 (map Fin (tab n (fun k => a * el s k + b * el t k))) m1 = Ok (ec, mc, v) /\
    forall o, In o (refs u) -> exists xs xt, ms 1%nat o = Some (Fin (al o + xs)) /\
      mt 1%nat o = Some (Fin (al o + xt)) /\ mc 1%nat o = Some (Fin (al o + (a * xs + b * xt))).
Proof.
  intros HK HS HM HD H1 H2 HZ.
  destruct (ngrad_thm la LA bv ba u D e1 m1 rho al false s HK HS HM HD H1 ltac:(discriminate) HZ) as [es [ms [A1 A2]]].
  destruct (ngrad_thm la LA bv ba u D e1 m1 rho al false t HK HS HM HD H2 ltac:(discriminate) HZ) as [et [mt [B1 B2]]].
  destruct (ngrad_thm la LA bv ba u D e1 m1 rho al false (tab n (fun k => a * el s k + b * el t k)) HK HS HM HD (tab_len _ _) ltac:(discriminate) HZ) as [ec [mc [C1 C2]]].
  exists es, ms, et, mt, ec, mc, (map Fin (val D u rho)). do 3 (split; [assumption|]). intros o Ho.
  destruct (A2 o Ho) as [g [G1 G2]]. destruct (B2 o Ho) as [g1 [G3 G4]]. destruct (C2 o Ho) as [g2 [G5 G6]].
  exists (dotp s g), (dotp t g). rewrite G2, G4, G6. split; [reflexivity|].
  rewrite (dotp_ext t g1 g) by (intros k; eapply npartials_unique; eauto).
  rewrite (dotp_ext _ g2 g) by (intros k; eapply npartials_unique; eauto).
  split; [reflexivity|]. now rewrite dotp_lin.
Qed.
Lemma zero_thm bv ba (u : U) D (e1 : E) m1 rho al :
  okexpr la u -> session la bv ba u D e1 m1 -> mreal la u m1 D rho al -> dom D true false u rho ->
  (forall o, In o (writes u) -> al o = 0) ->
  exists e2 m2, @autodiff N e1 (repeat (Fin 0) (size (shape_of u))) m1 = Ok (e2, m2, map Fin (val D u rho)) /\
    forall o, In o (refs u) -> m2 1%nat o = m1 1%nat o.
Proof.
  intros HK HS HM HD HZ. pose proof (rep0 la (size (shape_of u))) as R0. change (n0 N) with (Fin 0) in R0.
  destruct (ngrad_thm la LA bv ba u D e1 m1 rho al false (repeat 0 (size (shape_of u))) HK HS HM HD (repeat_length _ _) ltac:(discriminate) HZ) as [e2 [m2 [A1 A2]]].
  exists e2, m2. split.
  { change (carrier N) with xr in *. rewrite R0. exact A1. }
  intros o Ho. destruct (A2 o Ho) as [g [_ ->]]. destruct HM as [HM _]. destruct (HM o Ho) as [_ ->].
  do 2 f_equal. unfold dotp. rewrite sumn_0; [lra|]. intros k _. unfold el. rewrite nth_repeat. ring.
Qed.

(** ** C12 *)
Lemma opeq_thm bv ba q sh v (y : U) D (e1 : E) m1 rho al seed (u := EOpEq q tt sh v y) :
  okexpr la u -> writes y = [] -> session la bv ba u D e1 m1 -> mreal la u m1 D rho al -> dom D true false u rho ->
  length seed = size sh ->
  (exists e2 m2, @evaluate N e1 m1 = Ok (e2, m2, map Fin (tab (size sh) (fun i => oe_s q (rho (v + i)%nat) (ent (shape_of y) (val D y rho) i)))) /\
     forall i, (i < size sh)%nat -> m2 0%nat (v + i)%nat = Some (Fin (oe_s q (rho (v + i)%nat) (ent (shape_of y) (val D y rho) i)))) /\
  exists e2 m2 w, @autodiff N e1 (map Fin seed) m1 = Ok (e2, m2, w) /\
    (forall o, In o (refs u) -> m2 0%nat o = Some (Fin (rho o))) /\
    forall o, In o (refs u) -> exists g, partials D u rho o g /\
      m2 1%nat o = Some (Fin ((if existsb (Nat.eqb o) (cells sh v) then 0 else al o) +
        sumn (size sh) (fun j => (al (v + j)%nat + el seed j) * g j))).
Proof.
  intros HK HWY HS HM HD HL.
  assert (KY : wfs y = true). { destruct HK as [X _]. cbn [u wfs] in X. rewrite !andb_true_iff in X. tauto. }
  assert (FY : forall r, fin_env D y r = r).
  { intros r. apply functional_extensionality. intros o. apply env_keep'; auto. intros X.
    assert (HW' : @writes xr unit y = []) by exact HWY. change (carrier N) with xr in *. rewrite HW' in X. destruct X. }
  assert (DU : forall r, den D u r = (tab (size sh) (fun i => oe_s q (r (v + i)%nat) (ent (shape_of y) (val D y r) i)),
      put r v (tab (size sh) (fun i => oe_s q (r (v + i)%nat) (ent (shape_of y) (val D y r) i))))).
  { intros r. unfold u. cbn [den]. pose proof (FY r) as Z. unfold fin_env, val in *. destruct (den D y r) as [w r1]. cbn [fst snd] in *. now subst r1. }
  assert (EQ0 : eqw u = []).
  { destruct (eqw u) as [|o l] eqn:Q; [reflexivity|]. exfalso. cbn [u eqw] in Q.
    assert (X : In o (writes y)) by (apply eqw_writes; rewrite Q; now left).
    assert (HW' : @writes xr unit y = []) by exact HWY. change (carrier N) with xr in *. rewrite HW' in X. destruct X. }
  split.
  - destruct (value_thm la LA bv ba u D e1 m1 rho al false HK HS HM (dom_mono D true _ _ _ HD)) as [e2 [m2 [A1 [A2 [A3 _]]]]].
    exists e2, m2. unfold val, fin_env in A1, A3. rewrite DU in A1, A3. cbn [fst snd] in A1, A3. split; [exact A1|].
    intros i Hi. destruct (A3 (v + i)%nat) as [Z _]. { cbn [u refs]. apply in_or_app. left. apply LIndep.in_cells. lia. }
    rewrite Z. rewrite put_in by (now rewrite tab_len). now rewrite el_tab.
  - destruct (grad_gen la LA bv ba u D e1 m1 rho al false seed HK HS HM HD HL ltac:(discriminate)) as [e2 [m2 [A1 A2]]].
    exists e2, m2, (map Fin (val D u rho)). split; [exact A1|].
    assert (EN : forall o, ~ In o (eqw u)) by (intros o X; assert (Q : @eqw xr unit u = []) by exact EQ0; change (carrier N) with xr in *; rewrite Q in X; destruct X).
    split; [intros o Ho; destruct (A2 o Ho (EN o)) as [g [h [_ [_ [X _]]]]]; exact X|].
    intros o Ho. destruct (A2 o Ho (EN o)) as [g [h [G1 [G2 [_ G3]]]]]. exists g. split; [exact G1|].
    set (M := S (list_max (refs u))). rewrite (G3 M) by (intros i Hi; now apply refs_bound). do 2 f_equal.
    assert (Hg : forall j, (j < size sh)%nat -> h (v + j)%nat = g j).
    { intros j Hj. eapply der_unique; [apply G2|]. eapply der_ext; [|apply (G1 j)]. intros t. cbn. unfold val, fin_env. rewrite DU. cbn [fst snd].
      now rewrite put_in by (now rewrite tab_len). }
    assert (Hh : forall i, ~ (v <= i < v + size sh)%nat -> h i = ind o i).
    { intros i Hi. eapply der_unique; [apply G2|]. eapply der_ext; [|apply (set1_der rho o i)]. intros t. cbn. unfold fin_env. rewrite DU. cbn [snd].
      now rewrite put_out by (now rewrite tab_len). }
    rewrite (range_any M v (size sh) (fun i => al i * h i)).
    2: { intros i Hi. apply refs_bound. cbn [u refs]. apply in_or_app. left. now apply LIndep.in_cells. }
    rewrite (sumn_ext (size sh) (fun j => al (v + j)%nat * h (v + j)%nat) (fun j => al (v + j)%nat * g j)) by (intros j Hj; now rewrite Hg).
    rewrite (sumn_ext M _ (fun i => if inr v (size sh) i then 0 else al i * ind o i)).
    2: { intros i _. destruct (inr v (size sh) i) eqn:EI; auto. rewrite Hh; [reflexivity|]. rewrite <- inr_spec. congruence. }
    assert (EC : existsb (Nat.eqb o) (cells sh v) = inr v (size sh) o).
    { destruct (inr v (size sh) o) eqn:EI.
      - apply inr_spec in EI. apply inw_true. now apply LIndep.in_cells.
      - destruct (existsb _ _) eqn:Q; auto. apply inw_true, LIndep.in_cells, inr_spec in Q. congruence. }
    rewrite EC.
    assert (S1 : sumn M (fun i => if inr v (size sh) i then 0 else al i * ind o i) = if inr v (size sh) o then 0 else al o).
    { rewrite (sumn_ext M _ (fun i => (if inr v (size sh) i then 0 else al i) * ind o i)) by (intros i _; destruct (inr _ _ i); ring).
      rewrite (sumn_ind M o (fun i => if inr v (size sh) i then 0 else al i)); [reflexivity|]. now apply refs_bound. }
    rewrite S1. unfold dotp. rewrite HL.
    rewrite (sumn_ext (size sh) (fun j => (al (v + j)%nat + el seed j) * g j) (fun j => al (v + j)%nat * g j + el seed j * g j)) by (intros; ring).
    rewrite sumn_plus. lra.
Qed.

Lemma restore_thm bv ba (u : U) D (e1 : E) m1 rho al b seed : okexpr la u -> session la bv ba u D e1 m1 ->
  mreal la u m1 D rho al -> dom D true b u rho -> length seed = size (shape_of u) ->
  (b = true -> forall j, (j < length seed)%nat -> el seed j = 1) ->
  exists e2 m2 w, @autodiff N e1 (map Fin seed) m1 = Ok (e2, m2, w) /\
    forall o, In o (refs u) -> ~ In o (eqw u) -> m2 0%nat o = m1 0%nat o.
Proof.
  intros HK HS HM HD HL HU. destruct (grad_gen la LA bv ba u D e1 m1 rho al b seed HK HS HM HD HL HU) as [e2 [m2 [A1 A2]]].
  exists e2, m2, (map Fin (val D u rho)). split; [exact A1|]. intros o Ho Hn. destruct (A2 o Ho Hn) as [g [h [_ [_ [X _]]]]]. rewrite X.
  destruct HM as [HM _]. now destruct (HM o Ho) as [-> _].
Qed.
Lemma ph_value bv ba sh w (y f : U) D (e1 : E) m1 rho al b (u := EGlue tt (EEq tt sh w y) f) :
  okexpr la u -> session la bv ba u D e1 m1 -> mreal la u m1 D rho al -> dom D false b u rho ->
  (forall i, In i (cells sh w) -> ~ In i (opw f)) ->
  exists e2 m2 v, @evaluate N e1 m1 = Ok (e2, m2, v) /\
    forall j, (j < size sh)%nat -> m2 0%nat (w + j)%nat = Some (Fin (el (val D y rho) j)).
Proof.
  intros HK HS HM HD HO. destruct (value_thm la LA bv ba u D e1 m1 rho al b HK HS HM HD) as [e2 [m2 [A1 [_ [A2 _]]]]].
  exists e2, m2, (map Fin (val D u rho)). split; [exact A1|]. intros j Hj.
  assert (IW : In (w + j)%nat (cells sh w)) by (apply LIndep.in_cells; lia).
  destruct (A2 (w + j)%nat) as [Z _]. { cbn [u refs]. apply in_or_app. left. apply in_or_app. now left. }
  rewrite Z. do 2 f_equal. destruct HK as [K1 [K2 _]]. cbn [u wfs] in K1. rewrite !andb_true_iff in K1. destruct K1 as [[[[[[W1 W2] W3] W4] W5] _] _].
  apply shape_eqb_eq in W3. cbn [u disc] in K2. rewrite !andb_true_iff in K2. destruct K2 as [[[D1 D2] D3] D4].
  pose proof (val_len D y rho W1) as LY. unfold fin_env, val in *. unfold u. cbn [den]. destruct (den D y rho) as [v r1]. cbn [fst] in *.
  assert (NW : ~ In (w + j)%nat (writes f)).
  { intros X. destruct (@writes_or N unit f _ X) as [Y|Y]; [|exact (HO _ IW Y)].
    refine (dj_spec _ _ D4 (w + j)%nat Y _). cbn [refs]. apply in_or_app. now left. }
  refine (eq_trans (env_keep' la f D (put r1 w v) (w + j)%nat W5 NW) _).
  apply put_in. change (carrier N) with xr in *. rewrite LY, <- W3. exact Hj.
Qed.

(** ** C07 *)
Lemma accum_thm bv ba (u : U) D b seeds rho (e1 : E) m1 al :
  okexpr la u -> (forall o, In o (eqw u) -> ~ In o (inputs u)) ->
  dom D true b u rho ->
  Forall (fun s => length s = size (shape_of u) /\ (b = true -> forall j, (j < length s)%nat -> el s j = 1)) seeds ->
  session la bv ba u D e1 m1 -> mreal la u m1 D rho al ->
  exists e2 m2, diffs la u seeds e1 m1 = Ok (e2, m2) /\
    forall o, In o (refs u) -> ~ In o (writes u) -> m2 0%nat o = Some (Fin (rho o)) /\
      exists g, partials D u rho o g /\ m2 1%nat o = Some (Fin (al o + sumr (map (fun s => dotp s g) seeds))).
Proof.
  intros HK HP HD HF HS HM.
  destruct (diffs_thm la LA bv ba u D b seeds rho HK HP HD HF e1 m1 rho al (fun o _ => eq_refl) HS HM) as [e2 [m2 [A1 [_ A2]]]].
  exists e2, m2. split; [exact A1|]. intros o Ho Hn. destruct (A2 o Ho Hn) as [A3 A4]. split; [exact A3|].
  destruct (partials_exist la LA bv ba u D e1 m1 rho al b o HK HS HM HD Ho) as [g G]. { intros X. apply Hn. now apply eqw_writes. }
  exists g. auto.
Qed.
Lemma reset_nil (u : U) m : writes u = [] -> reset la u m = m.
Proof.
  intros H. apply functional_extensionality. intros b. apply functional_extensionality. intros o. unfold reset.
  assert (HW : @writes xr unit u = []) by exact H. change (carrier N) with xr in *. rewrite HW. cbn. now rewrite andb_false_r.
Qed.
Lemma accum_plain bv ba (u : U) D b seeds rho (e1 : E) m1 al :
  okexpr la u -> writes u = [] -> dom D true b u rho ->
  Forall (fun s => length s = size (shape_of u) /\ (b = true -> forall j, (j < length s)%nat -> el s j = 1)) seeds ->
  session la bv ba u D e1 m1 -> mreal la u m1 D rho al ->
  exists e2 m2, @run N (map (fun s => @OpDiff N (map Fin s)) seeds) (e1, m1) = Ok (e2, m2) /\
    forall o, In o (refs u) -> m2 0%nat o = Some (Fin (rho o)) /\
      exists g, partials D u rho o g /\ m2 1%nat o = Some (Fin (al o + sumr (map (fun s => dotp s g) seeds))).
Proof.
  intros HK HW HD HF HS HM.
  assert (NW : forall o, ~ In o (writes u)).
  { intros o X. assert (HW' : @writes xr unit u = []) by exact HW. change (carrier N) with xr in *. rewrite HW' in X. destruct X. }
  assert (NE : eqw u = []).
  { destruct (eqw u) as [|o l] eqn:Q; [reflexivity|]. exfalso. apply (NW o). apply eqw_writes. rewrite Q. now left. }
  destruct (accum_thm bv ba u D b seeds rho e1 m1 al HK) as [e2 [m2 [A1 A2]]]; auto.
  { intros o X. exfalso. apply (NW o). now apply eqw_writes. }
  exists e2, m2. split.
  - clear - A1 HW. revert e1 m1 A1. induction seeds as [|s l IH]; intros e1 m1 A1; [exact A1|].
    cbn [diffs] in A1. rewrite reset_nil in A1 by exact HW. apply bindR_ok in A1. destruct A1 as [[[e' m'] v] [B1 B2]].
    cbn [map run step]. rewrite B1. cbn [bindR]. now apply IH.
  - intros o Ho. apply A2; auto.
Qed.

(** ** C36 *)
Lemma inter_thm (us : list U) D rho bs cs (es : list E) m al :
  (forall i j u v, nth_error us i = Some u -> nth_error us j = Some v -> i <> j ->
     forall o, In o (writes u) -> ~ In o (refs v)) ->
  (forall i u, nth_error us i = Some u -> okexpr la u /\ (forall o, In o (eqw u) -> ~ In o (inputs u)) /\
     dom D true (bs i) u rho) ->
  (forall i s, In (i, s) cs -> exists u, nth_error us i = Some u /\ (s = None -> opw u = []) /\
     forall s', s = Some s' -> length s' = size (shape_of u) /\ (bs i = true -> forall j, (j < length s')%nat -> el s' j = 1)) ->
  (forall i u, nth_error us i = Some u -> exists bv ba e, nth_error es i = Some e /\ session la bv ba u D e m /\
     mreal la u m D rho al) ->
  exists es2 m2, sched la us cs es m =
      Ok (es2, m2, map (fun c : call => map Fin (match nth_error us (fst c) with Some u => val D u rho | None => [] end)) cs) /\
    forall o, (exists u, In u us /\ In o (refs u)) -> (forall u, In u us -> ~ In o (writes u)) ->
      m2 0%nat o = Some (Fin (rho o)) /\
      forall g, (forall i u, nth_error us i = Some u -> partials D u rho o (g i)) ->
        m2 1%nat o = Some (Fin (al o + sumr (map (gain g) cs))).
Proof.
  intros HA HU HC HS. refine (sched_thm la LA us D rho bs HA HU cs _ es m rho al _ HS).
  - apply Forall_forall. intros [i s] Hc. destruct (HC i s Hc) as [u [H1 [H2 H3]]]. exists u. split; [exact H1|]. cbn [fst snd]. destruct s as [s|]; auto.
  - intros o. auto.
Qed.

(** Sessions of several expressions over one memory exist. *)
Lemma sessions_start (l : list (nat * nat * U)) D rho al :
  (forall bv ba u, In (bv, ba, u) l -> fresh bv ba /\ okexpr la u /\ ctor_ok (N := N) u = true) ->
  exists es m, forall i bv ba u, nth_error l i = Some (bv, ba, u) ->
    exists e, nth_error es i = Some e /\ session la bv ba u D e m /\ mreal la u m D rho al.
Proof.
  induction l as [|[[bv ba] u] l IH]; intros H.
  - exists [], (fun _ _ => None). intros i bv ba u. destruct i; discriminate.
  - destruct IH as [es [m HI]]. { intros; apply H; now right. }
    destruct (H bv ba u (or_introl eq_refl)) as [H1 [H2 H3]].
    destruct (session_start la LA bv ba u D rho al H1 H2 H3) as [e [m1 [HS _]]].
    pose (m2 := fun b o : nat => if (b =? 0)%nat then Some (Fin (rho o)) else if (b =? 1)%nat then Some (Fin (al o))
      else if (b =? 4)%nat then Some (Fin (D o)) else match m b o with Some x => Some x | None => m1 b o end).
    assert (HM : forall v : U, mreal la v m2 D rho al) by (intros v; split; intros o _; [split|]; reflexivity).
    exists (e :: es), m2. intros i bv' ba' u' Hi. destruct i as [|i]; cbn [nth_error] in Hi |- *.
    + inversion Hi; subst. exists e. split; [reflexivity|]. split; [|apply HM].
      apply (session_to la bv' ba' u' D e m1); auto. intros b o X. unfold m2. do 3 (destruct (_ =? _)%nat; [discriminate|]).
      destruct (m b o); [discriminate|exact X].
    + destruct (HI i bv' ba' u' Hi) as [e' [E1 [E2 _]]]. exists e'. split; [exact E1|]. split; [|apply HM].
      apply (session_to la bv' ba' u' D e' m); auto. intros b o X. unfold m2. do 3 (destruct (_ =? _)%nat; [discriminate|]).
      destruct (m b o); [discriminate|congruence].
Qed.
End Ph.
