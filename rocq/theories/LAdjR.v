(** Repeated backward passes: the derivatives they add up to. *)
From Coq Require Import Reals Lra FunctionalExtensionality.
From Coquelicot Require Import Coquelicot.
From Verif Require Import Base Num Expr Node Stat Machine Wf Pure LBase LKind LSimDef LMem LSimF LSimB LBind Session LUser
  Tape LTape LTop XR Spec Nudge RSess Grad Again LReal LKM LVal LDiff LIndep LGrd LNGrad LFind Train Jac LJac Adj LAdj LAdjP LAdjK.
Local Open Scope R_scope.
Set Bullet Behavior "Strict Subproofs".

Lemma opw_writes {T A} (e : expr T A) : incl (opw e) (writes e).
Proof.
  assert (FM : forall es : list (expr T A), Forall (fun e => incl (opw e) (writes e)) es -> incl (flat_map opw es) (flat_map writes es)).
  { intros es HF o Ho. apply in_flat_map in Ho. destruct Ho as [y [H1 H2]]. apply in_flat_map. exists y. split; [exact H1|].
    rewrite Forall_forall in HF. now apply HF. }
  induction e using expr_ind'; cbn [opw writes]; auto using incl_refl, incl_appr, incl_app_app.
Qed.

Section Adj.
Variable la : linalg xr.
Hypothesis LA : la_ok la.
Notation N := (XR la).
Notation E := (expr N (ann N)).
Notation U := (expr N unit).
Let LL : la_len N := la_ok_len la LA.
Let HKV := KV_all la LA.

Section Loop.
Variables (bv ba : nat) (u : U) (D rho : nat -> R) (b : bool) (e1 : E) (m1 : mem N) (M : nat).
Variables (al0 : nat -> R).
Hypothesis HK : okexpr la u.
Hypothesis HS : session la bv ba u D e1 m1.
Hypothesis HM : mreal la u m1 D rho al0.
Hypothesis HD : dom D true b u rho.
Hypothesis HO : opw u = [].
Hypothesis HB : forall o, In o (refs u) -> (o < M)%nat.
Hypothesis HF : fresh bv ba.
Variables (cv ca : nat).
Hypothesis HI1 : @inv N bv ba u cv ca e1 m1.
Variables (e2 : E) (t : tape N) (r' : nat -> N) (p : pref N).
Hypothesis HPF : @pf N (liftE la D) None e1 (liftE la rho) = (t, r', p).
Hypothesis HST : strip e2 = strip e1.
Hypothesis HCn : @Cn N _ None e2 t r'.

(** The pure backward pass from adjoints [al] yields the law of Again.v. *)
Lemma pb_law s al q r2 al2 : length s = size (shape_of u) -> (b = true -> forall j, (j < length s)%nat -> el s j = 1) ->
  pb None e2 t (map Fin s) r' (liftE la al) = (q, r2, al2) ->
  forall o, In o (refs u) -> al2 o = Fin (dotp s (dvalue D u rho o) + sumn M (fun i => al i * dfinal D u rho o i)).
Proof.
  intros HL HU EP o Ho.
  set (mk := fun (b0 o0 : nat) => if ((b0 =? 1) && existsb (Nat.eqb o0) (refs u))%nat then Some (Fin (al o0)) else m1 b0 o0 : option N).
  assert (KK : forall b0 o0, m1 b0 o0 <> None -> mk b0 o0 <> None) by (intros b0 o0 X; unfold mk; destruct (_ && _); [discriminate|exact X]).
  assert (SK : session la bv ba u D e1 mk) by (eapply session_to; eauto).
  assert (MK : mreal la u mk D rho al).
  { destruct HM as [A1 A2]. split; [|exact A2]. intros i Hi. split; [apply A1; exact Hi|].
    unfold mk. cbn [Nat.eqb andb]. rewrite (proj2 (inw_true _ _) Hi). reflexivity. }
  destruct (ngrad_full la LA bv ba u D e1 mk rho al b s HK SK MK HD HL HU) as [e3 [m3 [al' [Q1 [Q2 [Q3 [Q4 [Q5 [Q6 Q7]]]]]]]]].
  assert (IK : @inv N bv ba u cv ca e1 mk) by (eapply inv_keeps; eauto).
  destruct (autodiff_ok LL bv ba HF u cv ca e1 mk (liftE la D) (liftE la rho) (liftE la al) (map Fin s) IK) as [e4 [m4 QQ]].
  { exact MK. }
  { rewrite map_length. exact HL. }
  rewrite HPF in QQ. destruct (pb None e4 t (map Fin s) r' (liftE la al)) as [[q4 r4] al4] eqn:EP4.
  destruct QQ as [R1 [_ [R3 [_ R5]]]].
  assert (X : m3 = m4) by (rewrite Q1 in R1; congruence). subst m4.
  assert (Y : (q4, r4, al4) = (q, r2, al2)).
  { rewrite <- EP4, <- EP. apply pb_same. congruence. }
  inversion Y; subst q4 r4 al4. destruct R3 as [R3 _]. destruct (R3 o Ho) as [_ Z]. rewrite (Q3 o Ho) in Z.
  inversion Z as [Z1]. f_equal. destruct (Q7 o) as [g [h [A1 [A2 [A3 A4]]]]]. rewrite (A4 M HB (HB o Ho)).
  assert (EG : g = dvalue D u rho o) by (apply functional_extensionality; intros k; symmetry; apply is_derive_unique, A1).
  assert (EH : h = dfinal D u rho o) by (apply functional_extensionality; intros k; symmetry; apply is_derive_unique, A2).
  now rewrite EG, EH.
Qed.

Lemma adj_loop seeds : (forall s, In s seeds -> length s = size (shape_of u) /\ (b = true -> forall j, (j < length s)%nat -> el s j = 1)) ->
  forall mk al, @inv N bv ba u cv ca e2 mk -> K bv ba (vset u) None e2 t mk 0 0 cv ca ->
  MR (vset u) (wset u) (liftE la D) mk r' (liftE la al) ->
  exists m3, @bevals N e2 (map (map Fin) seeds) mk = Ok m3 /\ @inv N bv ba u cv ca e2 m3 /\
    MR (vset u) (wset u) (liftE la D) m3 r' (liftE la (adj_after M (dvalue D u rho) (dfinal D u rho) seeds al)).
Proof.
  intros HSD. induction seeds as [|s l IH]; intros mk al IK KK MK.
  - exists mk. split; [reflexivity|]. split; [exact IK|exact MK].
  - destruct (HSD s (or_introl eq_refl)) as [HL HU].
    destruct (adj_stepK LL bv ba HF u cv ca e2 t mk (liftE la D) r' (liftE la al) (map Fin s) IK KK MK HO (proj1 (proj2 HK)) HCn) as [m' Q].
    { rewrite map_length. exact HL. }
    destruct (pb None e2 t (map Fin s) r' (liftE la al)) as [[q r2] al2] eqn:EP. destruct Q as [Q1 [Q2 [Q3 Q4]]].
    set (al' := fun o => dotp s (dvalue D u rho o) + sumn M (fun i => al i * dfinal D u rho o i)).
    destruct (IH (fun s' X => HSD s' (or_intror X)) m' al' Q2 Q3) as [m3 [R1 R2]].
    { destruct Q4 as [B1 B2]. split; [|exact B2]. intros o Ho. destruct (B1 o Ho) as [B3 B4]. split; [exact B3|].
      rewrite B4. f_equal. exact (pb_law s al q r2 al2 HL HU EP o Ho). }
    exists m3. split; [|exact R2]. cbn [map bevals]. rewrite Q1. exact R1.
Qed.

(** Adjoints reset before every pass. *)
Lemma rows_loop os ks : (b = true -> size (shape_of u) = 1%nat) -> (forall o, In o os -> In o (refs u)) ->
  (forall k, In k ks -> (k < size (shape_of u))%nat) ->
  forall mk al, @inv N bv ba u cv ca e2 mk -> K bv ba (vset u) None e2 t mk 0 0 cv ca ->
  MR (vset u) (wset u) (liftE la D) mk r' (liftE la al) ->
  exists m3, jac_rows la u os ks e2 mk = Ok (m3, map (fun k => map (fun o => Fin (dvalue D u rho o k)) os) ks) /\
    forall o, In o (refs u) -> m3 0%nat o = Some (r' o).
Proof.
  intros HU HOS. induction ks as [|k l IH]; intros HKS mk al IK KK MK.
  - exists mk. split; [reflexivity|]. intros o Ho. now apply (proj1 MK).
  - assert (Hk : (k < size (shape_of u))%nat) by (apply HKS; now left). set (n := size (shape_of u)) in *.
    set (mz := zero_adj (refs u) mk).
    assert (IZ : @inv N bv ba u cv ca e2 mz) by (eapply inv_keeps; [exact IK|intros b0 o0 X; now apply zero_keeps]).
    assert (KZ : K bv ba (vset u) None e2 t mz 0 0 cv ca).
    { destruct HF as [F1 F2]. eapply K_frame; [| |exact KK]; intros o; intros; unfold mz, zero_adj; [|reflexivity].
      destruct (Nat.eqb_spec bv 1); [lia|reflexivity]. }
    assert (MZ : MR (vset u) (wset u) (liftE la D) mz r' (liftE la (fun _ => 0))).
    { destruct MK as [M1 M2]. split; [|intros o Ho; unfold mz, zero_adj; cbn [Nat.eqb andb]; now apply M2].
      intros o Ho. destruct (M1 o Ho) as [A1 A2]. unfold mz, zero_adj. cbn [Nat.eqb andb]. split; [exact A1|].
      replace (existsb (Nat.eqb o) (refs u)) with true by (symmetry; now apply inw_true). now rewrite A2. }
    destruct (adj_stepK LL bv ba HF u cv ca e2 t mz (liftE la D) r' (liftE la (fun _ => 0)) (map Fin (unit_seed n k)) IZ KZ MZ HO (proj1 (proj2 HK)) HCn) as [m' Q].
    { rewrite map_length. apply unit_len. }
    destruct (pb None e2 t (map Fin (unit_seed n k)) r' (liftE la (fun _ => 0))) as [[q r2] al2] eqn:EP. destruct Q as [Q1 [Q2 [Q3 Q4]]].
    assert (QL : forall o, In o (refs u) -> al2 o = Fin (dvalue D u rho o k)).
    { intros o Ho. rewrite (pb_law (unit_seed n k) (fun _ => 0) q r2 al2 (unit_len n k)) with (o := o); [|intros Hb j Hj|exact EP|exact Ho].
      - f_equal. rewrite unit_dotp by exact Hk. assert (Z : forall M0, sumn M0 (fun i => 0 * dfinal D u rho o i) = 0) by (intros M0; induction M0 as [|M0 IHM]; cbn; [reflexivity|rewrite IHM; lra]). rewrite Z. lra.
      - rewrite unit_len in Hj. rewrite unit_el by exact Hj. specialize (HU Hb). replace j with k by lia. unfold ind. now rewrite Nat.eqb_refl. }
    destruct (IH (fun j X => HKS j (or_intror X)) m' (fun o => dvalue D u rho o k) Q2 Q3) as [m3 [R1 R2]].
    { destruct Q4 as [B1 B2]. split; [|exact B2]. intros o Ho. destruct (B1 o Ho) as [B3 B4]. split; [exact B3|].
      rewrite B4. f_equal. exact (QL o Ho). }
    exists m3. split; [|exact R2]. cbn [jac_rows map]. fold n mz. change (carrier N) with xr in *. rewrite Q1. cbn [bindR].
    rewrite (reads_ok la m' os (fun o => dvalue D u rho o k)).
    + cbn [bindR]. rewrite R1. reflexivity.
    + intros o Ho. destruct Q4 as [B1 _]. destruct (B1 o (HOS o Ho)) as [_ B4]. rewrite B4. f_equal. exact (QL o (HOS o Ho)).
Qed.
End Loop.

Lemma adj_thm bv ba (u : U) D (e1 : E) m1 rho al b seeds M :
  okexpr la u -> session la bv ba u D e1 m1 -> mreal la u m1 D rho al -> dom D true b u rho ->
  opw u = [] ->
  (forall s, In s seeds -> length s = size (shape_of u) /\ (b = true -> forall j, (j < length s)%nat -> el s j = 1)) ->
  (forall o, In o (refs u) -> (o < M)%nat) ->
  exists e2 m2, @eval_adjs N e1 (map (map Fin) seeds) m1 = Ok (e2, m2, map Fin (val D u rho)) /\
    forall o, In o (refs u) -> m2 0%nat o = Some (Fin (fin_env D u rho o)) /\
      m2 1%nat o = Some (Fin (adj_after M (dvalue D u rho) (dfinal D u rho) seeds al o)).
Proof.
  intros HK HS HM HD HO HSD HB.
  destruct (session_inv la LL bv ba u D e1 m1 HK HS) as [cv [ca [HF [HI [HG [HW HE]]]]]].
  destruct (evaluate_ok LL bv ba HF u cv ca e1 m1 (liftE la D) (liftE la rho) (liftE la al) HI HM) as [e2 [m2 Q]].
  destruct (@pf N (liftE la D) None e1 (liftE la rho)) as [[t r'] p] eqn:EP.
  destruct Q as [Q1 [Q2 [Q3 [Q4 [Q5 Q6]]]]].
  assert (ST : strip e2 = strip e1).
  { destruct (autodiff_ok LL bv ba HF u cv ca e1 m1 (liftE la D) (liftE la rho) (liftE la al)
      (repeat (n0 N) (size (shape_of u))) HI HM) as [e4 [m4 QQ]]; [apply repeat_length|].
    rewrite EP in QQ. destruct (pb None e4 t _ r' (liftE la al)) as [[q4 r4] al4].
    destruct QQ as [R1 [_ [_ [_ R5]]]]. unfold autodiff in R1. rewrite Q1 in R1. cbn [bindR] in R1.
    apply bindR_ok in R1. destruct R1 as [m5 [_ R1]]. inversion R1; subst. exact R5. }
  assert (CN : @Cn N _ None e2 t r').
  { assert (HD' : dom D true b e1 rho) by (rewrite <- HE in HD; unfold er in HD; now apply dom_amap in HD).
    destruct (inv_facts bv ba _ _ _ _ _ HI) as [F1 [F2 [F3 [F4 [F5 [F6 F7]]]]]]. pose proof HI as [_ [_ [HSK _]]].
    assert (CE : @Cn N _ None e1 t r').
    { destruct (@tf N (liftE la D) e1 (liftE la rho)) as [t2 r2] eqn:ET.
      pose proof (PO_all la D HKV e1 b rho t2 _ HW HG (dom_mono D true e1 b rho HD') ET) as HP.
      destruct (TF_all (liftE la D) LL e1 None (liftE la rho) (liftE la rho) t r' p t2 r2 F1 ltac:(rewrite F2; apply HK) HSK
        ltac:(intros X; congruence) ltac:(intros o X; destruct X) ltac:(auto) EP ET) as [_ [P1 [P2 _]]].
      eapply (Cn_of (liftE la D)); [exact P1|exact P2|exact HP|]. rewrite F5. exact HO. }
    apply (Cn_amap (fun a => @set_st N a (sst0 N))). change (@Cn N _ None (strip e2) t r'). rewrite ST.
    now apply (Cn_amap (fun a => @set_st N a (sst0 N))). }
  destruct (val_main la LL HKV bv ba u D e1 m1 rho al b HK HS HM (dom_mono D true u b rho HD)) as [e3 [m3 [V1 [_ V3]]]].
  rewrite Q1 in V1. inversion V1 as [[X1 X2 X3]]. subst e3 m3.
  destruct (adj_loop bv ba u D rho b e1 m1 M al HK HS HM HD HO HB HF cv ca HI e2 t r' p EP ST CN seeds HSD m2 al Q2 Q5 Q3)
    as [m3 [R1 [_ R2]]].
  exists e2, m3. split.
  - unfold eval_adjs. rewrite Q1. cbn [bindR]. rewrite R1. cbn [bindR]. now rewrite X3.
  - intros o Ho. destruct R2 as [R2 _]. destruct (R2 o Ho) as [R3 R4]. split; [|exact R4]. rewrite R3.
    destruct Q3 as [Q3 _]. destruct (Q3 o Ho) as [Q7 _]. rewrite <- Q7. destruct V3 as [V3 _]. apply V3. exact Ho.
Qed.

(** Both derivatives exist; a variable that is not assigned ends where it started. *)
Lemma ders bv ba (u : U) D (e1 : E) m1 rho al b : okexpr la u -> session la bv ba u D e1 m1 ->
  mreal la u m1 D rho al -> dom D true b u rho -> forall o,
  npartials D u rho o (dvalue D u rho o) /\ forall i, ~ In i (writes u) -> dfinal D u rho o i = ind o i.
Proof.
  intros HK HS HM HD o. set (s := repeat 1 (size (shape_of u))).
  destruct (ngrad_full la LA bv ba u D e1 m1 rho al b s HK HS HM HD) as [e2 [m2 [al' [_ [_ [_ [_ [_ [_ Q7]]]]]]]]].
  - apply repeat_length.
  - intros _ j Hj. unfold s, el in *. rewrite repeat_length in Hj. rewrite (nth_indep _ 0 1) by now rewrite repeat_length. apply nth_repeat.
  - destruct (Q7 o) as [g [h [A1 [A2 [A3 _]]]]].
    assert (EG : g = dvalue D u rho o) by (apply functional_extensionality; intros k; symmetry; apply is_derive_unique, A1).
    assert (EH : h = dfinal D u rho o) by (apply functional_extensionality; intros k; symmetry; apply is_derive_unique, A2).
    rewrite <- EG, <- EH. split; [exact A1|exact A3].
Qed.

(** The Jacobian: one evaluate, one pass per output. *)
Lemma jac_once_thm bv ba (u : U) D (e1 : E) m1 rho al b os ks :
  okexpr la u -> session la bv ba u D e1 m1 -> mreal la u m1 D rho al -> dom D true b u rho ->
  opw u = [] -> (b = true -> size (shape_of u) = 1%nat) ->
  (forall o, In o os -> In o (refs u) /\ ~ In o (eqw u)) -> (forall k, In k ks -> (k < size (shape_of u))%nat) ->
  exists G, (forall o, In o os -> partials D u rho o (G o)) /\
  exists e2 m2, jac_once la u os ks e1 m1 = Ok (e2, m2, map Fin (val D u rho), map (fun k => map (fun o => Fin (G o k)) os) ks) /\
    forall o, In o (refs u) -> m2 0%nat o = Some (Fin (fin_env D u rho o)).
Proof.
  intros HK HS HM HD HO HU HOS HKS. exists (fun o => dvalue D u rho o). split.
  { intros o Ho. apply npartials_input; [apply HK|apply (HOS o Ho)|]. apply (ders bv ba u D e1 m1 rho al b HK HS HM HD o). }
  destruct (session_inv la LL bv ba u D e1 m1 HK HS) as [cv [ca [HF [HI [HG [HW HE]]]]]].
  destruct (evaluate_ok LL bv ba HF u cv ca e1 m1 (liftE la D) (liftE la rho) (liftE la al) HI HM) as [e2 [m2 Q]].
  destruct (@pf N (liftE la D) None e1 (liftE la rho)) as [[t r'] p] eqn:EP.
  destruct Q as [Q1 [Q2 [Q3 [Q4 [Q5 Q6]]]]].
  assert (ST : strip e2 = strip e1).
  { destruct (autodiff_ok LL bv ba HF u cv ca e1 m1 (liftE la D) (liftE la rho) (liftE la al)
      (repeat (n0 N) (size (shape_of u))) HI HM) as [e4 [m4 QQ]]; [apply repeat_length|].
    rewrite EP in QQ. destruct (pb None e4 t _ r' (liftE la al)) as [[q4 r4] al4].
    destruct QQ as [R1 [_ [_ [_ R5]]]]. unfold autodiff in R1. rewrite Q1 in R1. cbn [bindR] in R1.
    apply bindR_ok in R1. destruct R1 as [m5 [_ R1]]. inversion R1; subst. exact R5. }
  assert (CN : @Cn N _ None e2 t r').
  { assert (HD' : dom D true b e1 rho) by (rewrite <- HE in HD; unfold er in HD; now apply dom_amap in HD).
    destruct (inv_facts bv ba _ _ _ _ _ HI) as [F1 [F2 [F3 [F4 [F5 [F6 F7]]]]]]. pose proof HI as [_ [_ [HSK _]]].
    assert (CE : @Cn N _ None e1 t r').
    { destruct (@tf N (liftE la D) e1 (liftE la rho)) as [t2 r2] eqn:ET.
      pose proof (PO_all la D HKV e1 b rho t2 _ HW HG (dom_mono D true e1 b rho HD') ET) as HP.
      destruct (TF_all (liftE la D) LL e1 None (liftE la rho) (liftE la rho) t r' p t2 r2 F1 ltac:(rewrite F2; apply HK) HSK
        ltac:(intros X; congruence) ltac:(intros o X; destruct X) ltac:(auto) EP ET) as [_ [P1 [P2 _]]].
      eapply (Cn_of (liftE la D)); [exact P1|exact P2|exact HP|]. rewrite F5. exact HO. }
    apply (Cn_amap (fun a => @set_st N a (sst0 N))). change (@Cn N _ None (strip e2) t r'). rewrite ST.
    now apply (Cn_amap (fun a => @set_st N a (sst0 N))). }
  destruct (val_main la LL HKV bv ba u D e1 m1 rho al b HK HS HM (dom_mono D true u b rho HD)) as [e3 [m3 [V1 [_ V3]]]].
  rewrite Q1 in V1. inversion V1 as [[X1 X2 X3]]. subst e3 m3.
  destruct (rows_loop bv ba u D rho b e1 m1 (S (list_max (refs u))) al HK HS HM HD HO ltac:(intros o Ho; now apply refs_bound) HF cv ca HI e2 t r' p EP ST CN
    os ks HU ltac:(intros o Ho; now apply HOS) HKS m2 al Q2 Q5 Q3) as [m3 [R1 R2]].
  exists e2, m3. split.
  - unfold jac_once. change (carrier N) with xr in *. rewrite Q1. cbn [bindR]. rewrite R1. cbn [bindR]. now rewrite X3.
  - intros o Ho. rewrite (R2 o Ho). destruct Q3 as [Q3 _]. destruct (Q3 o Ho) as [Q7 _]. rewrite <- Q7. destruct V3 as [V3 _]. apply V3. exact Ho.
Qed.

(** No assignments: the passes add up. *)
Lemma adj_sum bv ba (u : U) D (e1 : E) m1 rho al b seeds :
  okexpr la u -> session la bv ba u D e1 m1 -> mreal la u m1 D rho al -> dom D true b u rho ->
  writes u = [] ->
  (forall s, In s seeds -> length s = size (shape_of u) /\ (b = true -> forall j, (j < length s)%nat -> el s j = 1)) ->
  exists e2 m2, @eval_adjs N e1 (map (map Fin) seeds) m1 = Ok (e2, m2, map Fin (val D u rho)) /\
    forall o, In o (refs u) -> exists g, npartials D u rho o g /\ m2 0%nat o = Some (Fin (rho o)) /\
      m2 1%nat o = Some (Fin (al o + fold_right (fun s a => dotp s g + a) 0 seeds)).
Proof.
  intros HK HS HM HD HW HSD.
  assert (HO : opw u = []).
  { assert (Y := opw_writes u). rewrite HW in Y. destruct (opw u) as [|c l]; [reflexivity|]. destruct (Y c (or_introl eq_refl)). }
  set (M := S (list_max (refs u))).
  assert (HM2 : forall o, In o (refs u) -> (o < M)%nat) by (intros o Ho; now apply refs_bound).
  destruct (adj_thm bv ba u D e1 m1 rho al b seeds _ HK HS HM HD HO HSD HM2) as [e2 [m2 [Q1 Q2]]].
  exists e2, m2. split; [exact Q1|]. intros o Ho. destruct (Q2 o Ho) as [Q3 Q4].
  destruct (ders bv ba u D e1 m1 rho al b HK HS HM HD o) as [A1 A2].
  exists (dvalue D u rho o). split; [exact A1|]. split.
  - rewrite Q3. do 2 f_equal. apply (env_keep' la u D rho o); [apply HK|]. rewrite HW. intros [].
  - rewrite Q4. do 2 f_equal. clear - A2 HW Ho HM2. revert al. induction seeds as [|s l IH]; intros al; cbn [adj_after fold_right]; [lra|].
    rewrite IH. rewrite (sumn_ext _ (fun i => al i * dfinal D u rho o i) (fun i => al i * ind o i)).
    + rewrite sumn_ind by now apply HM2. lra.
    + intros i _. rewrite A2; [reflexivity|]. rewrite HW. intros [].
Qed.

(** After passes and client writes everything proved for sessions applies again. *)
Lemma adj_session bv ba (u : U) D (e1 : E) m1 e2 m2 v bops : wfs u = true -> session la bv ba u D e1 m1 ->
  @evaluate N e1 m1 = Ok (e2, m2, v) -> Forall (bop_ok (N := N) (size (shape_of u))) bops ->
  exists m3, @brun N e2 bops m2 = Ok m3 /\ session la bv ba u D e2 m3.
Proof.
  intros HW HS HE HB. pose proof HS as [m [uv [ua [e [m0 [ops [HF [HA [H1 [HO [HR HD]]]]]]]]]]].
  destruct (adj_all LL bv ba HF uv ua u m e m0 ops e1 m1 e2 m2 v bops HW HA H1 HO HR HE HB) as [m3 [Q1 [Q2 _]]].
  exists m3. split; [exact Q1|]. eapply session_to; [|exact Q2].
  eapply (session_op la bv ba u D e1 m1 (@OpEval N)); [exact HS|exact I|]. cbn [step]. change (carrier N) with xr in *. rewrite HE. reflexivity.
Qed.
End Adj.

(** ** += is undone by the first pass *)
Section Op.
Context {N : num}.
Notation T := (carrier N).
(** (x += y, x * x), x in cell 0, y in cell 1 *)
Definition u71 : expr T unit := EGlue tt (EOpEq OAdd tt scl 0 (EVar scl 1)) (EComp (KBin BMul) tt [EVar scl 0; EVar scl 0]).
(** evaluate, then two backward passes; the memories after each *)
Definition two_passes (u : expr T unit) (m : mem T) (s : list T) :=
  c <- bound 2 3 (any N) (any N) u m ;;
  '(e1, m1, v) <- evaluate (fst c) (snd c) ;; m2 <- beval e1 s m1 ;; m3 <- beval e1 s m2 ;; Ok (v, m2, m3).
Lemma two_u71 (f : nat -> T) (s : T) (o := n0 N) (X := nadd N (f 0%nat) (f 1%nat))
  (w1 := nadd N (nadd N (nadd N o (nmul N s X)) (nmul N s X)) o) (x1 := nadd N o w1)
  (w2 := nadd N (nadd N (nadd N x1 (nmul N s (f 0%nat))) (nmul N s (f 0%nat))) o) :
  exists m2 m3, two_passes u71 (mem8 N f) [s] = Ok ([nmul N X X], m2, m3) /\
    m2 0%nat 0%nat = Some (f 0%nat) /\ m2 1%nat 0%nat = Some x1 /\ m3 1%nat 0%nat = Some (nadd N o w2).
Proof. eexists _, _. split; [vm_compute; reflexivity|]. split; [reflexivity|]. split; reflexivity. Qed.
(** exp(x), differentiated before it was ever evaluated *)
Definition e71 : expr T unit := EComp (KUn UExp) tt [EVar scl 0].
Definition pass_first (uv : nat -> T) (u : expr T unit) (m : mem T) (s : list T) :=
  c <- bound 2 3 uv (any N) u m ;; beval (fst c) s (snd c).
Lemma first_e71 (uv f : nat -> T) (s : T) :
  exists m1, pass_first uv e71 (mem8 N f) [s] = Ok m1 /\ m1 1%nat 0%nat = Some (nadd N (n0 N) (nmul N s (uv 0%nat))).
Proof. eexists. split; [vm_compute; reflexivity|]. reflexivity. Qed.
End Op.
Lemma op_undone (la : linalg xr) (f : nat -> R) (s : R) (x := f 0%nat) (y := f 1%nat) :
  exists m2 m3, two_passes (N := XR la) u71 (mem8 (XR la) (fun o => Fin (f o))) [Fin s] = Ok ([Fin ((x + y) * (x + y))], m2, m3) /\
    m2 0%nat 0%nat = Some (Fin x) /\ m2 1%nat 0%nat = Some (Fin (2 * s * (x + y))) /\
    m3 1%nat 0%nat = Some (Fin (2 * s * (x + y) + 2 * s * x)).
Proof.
  destruct (two_u71 (N := XR la) (fun o => Fin (f o)) (Fin s)) as [m2 [m3 [H1 [H2 [H3 H4]]]]].
  exists m2, m3. split; [exact H1|]. rewrite H2, H3, H4. cbn. split; [reflexivity|]. split; do 2 f_equal; unfold x, y; lra.
Qed.
