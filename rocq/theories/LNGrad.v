(** The adjoint of every variable, placeholders included. *)
From Coq Require Import Reals Lra FunctionalExtensionality.
From Coquelicot Require Import Coquelicot.
From Verif Require Import Base Num Expr Node Stat Machine Wf Pure LBase LKind LSimDef LMem LSimF LSimB LBind Session LUser
  Tape LTape LState LNrm LTop XR Spec Nudge RSess Grad LReal LScal LKA LKB LKM LVal LNudge LGrad LDiff LIndep LGrd.
Open Scope R_scope.
Set Bullet Behavior "Strict Subproofs".

Section Am.
Context {A B : Type} (f : A -> B).
Variables D p : nat -> R.
Notation am := (amap (T := xr) f).
Lemma ndens_amap es : Forall (fun e : expr xr A => forall r, nden D p (am e) r = nden D p e r) es ->
  forall r, ndens D p (map am es) r = ndens D p es r.
Proof.
  induction 1 as [|y l HY H IH]; intros r; [reflexivity|]. cbn [map]. rewrite !ndens_cons. unfold nval, nfin. now rewrite HY, IH.
Qed.
Lemma nden_amap (e : expr xr A) : forall r, nden D p (am e) r = nden D p e r.
Proof.
  induction e using expr_ind'; intros r; try reflexivity.
  - cbn [amap]. rewrite !nden_comp, shapes_am, (ndens_amap es H). reflexivity.
  - cbn [amap nden]. now rewrite IHe.
  - cbn [amap nden]. rewrite IHe, shape_of_amap. reflexivity.
  - cbn [amap nden]. rewrite IHe1. destruct (nden D p e1 r). apply IHe2.
  - cbn [amap]. rewrite !nden_for, (ndens_amap es H). reflexivity.
  - cbn [amap nden]. rewrite IHe1. destruct (nden D p e1 r). destruct (reqb _ _); auto.
Qed.
Lemma nval_amap (e : expr xr A) r : nval D p (am e) r = nval D p e r.
Proof. unfold nval. now rewrite nden_amap. Qed.
Lemma nfin_amap (e : expr xr A) r : nfin D p (am e) r = nfin D p e r.
Proof. unfold nfin. now rewrite nden_amap. Qed.
End Am.

Section Out.
Context {A : Type}.
Notation E := (expr xr A).
Variables D p : nat -> R.
(** Nudges of cells that are not assigned have no effect. *)
Definition OUT (e : E) : Prop := wfs e = true -> (forall o, In o (eqw e) -> p o = 0) -> forall r, nden D p e r = den D e r.
Lemma OUTs es : Forall OUT es -> forallb wfs es = true -> (forall o, In o (flat_map eqw es) -> p o = 0) ->
  forall r, ndens D p es r = dens D es r.
Proof.
  induction 1 as [|y l HY H IH]; intros HW HP r; [reflexivity|]. cbn [forallb] in HW. apply andb_true_iff in HW. destruct HW as [W1 W2].
  cbn [flat_map] in HP. rewrite ndens_cons, dens_cons. unfold nval, nfin, val, fin_env.
  rewrite HY, IH by (auto; intros; apply HP, in_app_iff; auto). reflexivity.
Qed.
Lemma nden_out (e : E) : OUT e.
Proof.
  induction e using expr_ind'; intros HW HP r; try reflexivity.
  - cbn [wfs] in HW. rewrite !andb_true_iff in HW. rewrite nden_comp, den_comp, OUTs by tauto. reflexivity.
  - pose proof HW as HW0. cbn [wfs] in HW. rewrite !andb_true_iff in HW. destruct HW as [[[W1 W2] W3] W4].
    pose proof (val_len D (EEq a sh o e) r HW0) as HL. unfold val in HL. cbn [eqw] in HP.
    cbn [nden den shape_of] in *. rewrite IHe by (auto; intros; apply HP, in_app_iff; auto). destruct (den D e r) as [v r1]. cbn [fst] in HL.
    rewrite (tab_ext (size sh) _ (fun i => el v i + 0)), tab0; auto. intros i Hi. rewrite HP; [reflexivity|].
    apply in_app_iff. left. apply in_cells. lia.
  - cbn [wfs] in HW. rewrite !andb_true_iff in HW. cbn [eqw] in HP. cbn [nden den]. rewrite IHe by tauto. reflexivity.
  - cbn [wfs] in HW. rewrite !andb_true_iff in HW. cbn [eqw] in HP. cbn [nden den].
    rewrite IHe1 by (try tauto; intros; apply HP, in_app_iff; auto). destruct (den D e1 r).
    apply IHe2; [tauto|intros; apply HP, in_app_iff; auto].
  - cbn [wfs] in HW. rewrite !andb_true_iff in HW. rewrite nden_for, den_for, OUTs by tauto. reflexivity.
  - cbn [wfs] in HW. rewrite !andb_true_iff in HW. cbn [eqw] in HP. cbn [nden den].
    rewrite IHe1 by (try tauto; intros; apply HP; rewrite !in_app_iff; auto). destruct (den D e1 r).
    destruct (reqb _ _); [apply IHe3|apply IHe2]; try tauto; intros; apply HP; rewrite !in_app_iff; auto.
Qed.
End Out.

Lemma bump0 o : bump o 0 = (fun _ => 0).
Proof. apply functional_extensionality. intros i. unfold bump. destruct (i =? o)%nat; reflexivity. Qed.
Lemma bump_der o i : is_derive (fun x => bump o x i) 0 (ind o i).
Proof.
  unfold bump, ind. destruct (i =? o)%nat; [apply (is_derive_id 0)|apply der_const].
Qed.
Lemma bumped r o : (fun i => r i + bump o 0 i) = r.
Proof. apply functional_extensionality. intros i. rewrite bump0. lra. Qed.
Lemma bumped_der r o i : is_derive (fun x => r i + bump o x i) 0 (ind o i).
Proof. eapply der_eq; [apply der_plus; [apply der_const|apply bump_der]|cbn; ring]. Qed.
Lemma bump_set1 r o x : (fun i => r i + bump o x i) = set1 r o (r o + x).
Proof.
  apply functional_extensionality. intros i. unfold bump, set1. destruct (Nat.eqb_spec i o); [now subst|lra].
Qed.
(** For variables that are not assigned with = this is the partial derivative. *)
Lemma npartials_input {A} D (u : expr xr A) rho o g : wfs u = true -> ~ In o (eqw u) ->
  npartials D u rho o g <-> partials D u rho o g.
Proof.
  intros HW HO.
  assert (X : forall x k, el (nval D (bump o x) u (fun i => rho i + bump o x i)) k = el (val D u (set1 rho o (rho o + x))) k).
  { intros x k. rewrite bump_set1. unfold nval, val. rewrite nden_out; auto. intros i Hi. unfold bump.
    destruct (Nat.eqb_spec i o); [subst; tauto|reflexivity]. }
  split; intros H k.
  - assert (S : is_derive (fun t => t - rho o) (rho o) 1).
    { eapply der_eq; [apply der_minus; [apply is_derive_id|apply der_const]|cbn; unfold one; cbn; ring]. }
    assert (Y : is_derive (fun x => el (nval D (bump o x) u (fun i => rho i + bump o x i)) k) (rho o - rho o) (g k)).
    { replace (rho o - rho o) with 0 by lra. apply H. }
    eapply der_eq; [|apply (Rmult_1_l (g k))].
    eapply der_ext; [|apply (is_derive_comp (fun x => el (nval D (bump o x) u (fun i => rho i + bump o x i)) k) (fun t => t - rho o) (rho o) (g k) 1 Y S)].
    intros t. cbn. rewrite X. do 3 f_equal. lra.
  - assert (S : is_derive (fun x => rho o + x) 0 1).
    { eapply der_eq; [apply der_plus; [apply der_const|apply is_derive_id]|cbn; unfold one; cbn; ring]. }
    assert (Y : is_derive (fun t => el (val D u (set1 rho o t)) k) (rho o + 0) (g k)).
    { rewrite Rplus_0_r. apply H. }
    eapply der_eq; [|apply (Rmult_1_l (g k))].
    eapply der_ext; [|apply (is_derive_comp (fun t => el (val D u (set1 rho o t)) k) (fun x => rho o + x) 0 (g k) 1 Y S)].
    intros t. cbn. now rewrite X.
Qed.
Lemma npartials_unique {A} D (u : expr xr A) r o g g' k : npartials D u r o g -> npartials D u r o g' -> g k = g' k.
Proof. intros H H'. exact (der_unique _ _ _ _ (H k) (H' k)). Qed.

Section Main.
Variable la : linalg xr.
Hypothesis LA : la_ok la.
Notation N := (XR la).
Notation E := (expr N (ann N)).
Notation U := (expr N unit).
Let LL : la_len N := la_ok_len la LA.
Let HKV := KV_all la LA.
Let HKA := KA_all la LA.
Notation liftE := (LVal.liftE la).

Lemma ntb_grad D (e : E) b rho t r' seed al : wfs e = true -> disc e = true -> sg la D e -> dom D true b e rho ->
  @tf N (liftE D) e (liftE rho) = (t, r') -> length seed = size (shape_of e) ->
  (b = true -> forall j, (j < length seed)%nat -> el seed j = 1) ->
  exists al', @tb N e t (map Fin seed) (liftE al) = liftE al' /\ (forall o, ~ In o (refs e) -> al' o = al o) /\
    forall o, exists g h : nat -> R, npartials D e rho o g /\ nepartials D e rho o h /\
    (forall i, ~ In i (writes e) -> h i = ind o i) /\
    forall M, (forall i, In i (refs e) -> (i < M)%nat) -> (o < M)%nat ->
      al' o = dotp seed g + sumn M (fun i => al i * h i).
Proof.
  intros HW DI HG HD ET HL HU.
  assert (GG : forall o M, (forall i, In i (refs e) -> (i < M)%nat) -> exists dv dr', length dv = size (shape_of e) /\
     npartials D e rho o (el dv) /\ nepartials D e rho o dr' /\ nBK la M e t b dv (ind o) (ind o) dr').
  { intros o M HB. destruct (nGR_all la D HKV HKA M e b (fun x i => rho i + bump o x i) (bump o) (ind o) (ind o) 0 t r' HW DI HG HB) as [dv [dr' [A1 [A2 [A3 [_ A5]]]]]].
    - now rewrite bumped.
    - intros i. apply bumped_der.
    - apply bump0.
    - intros i. apply bump_der.
    - now rewrite bumped.
    - exists dv, dr'. auto. }
  set (M0 := S (list_max (refs e))).
  assert (HM0 : forall i, In i (refs e) -> (i < M0)%nat) by (intros; now apply refs_bound).
  destruct (GG 0%nat M0 HM0) as [dv0 [dr0 [_ [_ [_ BK0]]]]].
  destruct (BK0 seed al HL HU) as [al' [B1 [B2 _]]]. exists al'. split; [exact B1|]. split; [exact B2|].
  intros o. destruct (GG o M0 HM0) as [dv [dr' [A1 [A2 [A3 A5]]]]]. exists (el dv), dr'. split; [exact A2|]. split; [exact A3|].
  split. { intros i Hi. exact (ndr_keep la D e (fun x i => rho i + bump o x i) (bump o) (ind o) dr' 0 i HW (bumped_der rho o) A3 Hi). }
  intros M HMM HoM. destruct (GG o M HMM) as [dvM [drM [C1 [C2 [C3 C5]]]]].
  destruct (C5 seed al HL HU) as [al2 [P1 [P2 P3]]].
  assert (EA : al2 = al').
  { rewrite B1 in P1. apply functional_extensionality. intros i. apply (f_equal (fun f => f i)) in P1. unfold LVal.liftE in P1. congruence. }
  subst al2.
  assert (ED : forall k, el dvM k = el dv k) by (intros k; exact (der_unique _ _ _ _ (C2 k) (A2 k))).
  assert (EH : forall i, drM i = dr' i) by (intros i; exact (der_unique _ _ _ _ (C3 i) (A3 i))).
  rewrite (sumn_ext M (fun o0 => if inb o0 (@asg N e t) then al' o0 * ind o o0 else al' o0 * ind o o0) (fun i => al' i * ind o i)) in P3
    by (intros; destruct (inb _ _); reflexivity).
  rewrite sumn_ind in P3 by exact HoM.
  rewrite <- P3. unfold dotp, ip. f_equal; apply sumn_ext; intros; [now rewrite ED|now rewrite EH].
Qed.

Lemma ngrad_full bv ba (u : U) D (e1 : E) m1 rho al b seed : okexpr la u -> session la bv ba u D e1 m1 ->
  mreal la u m1 D rho al -> dom D true b u rho -> length seed = size (shape_of u) ->
  (b = true -> forall j, (j < length seed)%nat -> el seed j = 1) ->
  exists e2 m2 al', @autodiff N e1 (map Fin seed) m1 = Ok (e2, m2, map Fin (val D u rho)) /\
    session la bv ba u D e2 m2 /\
    (forall o, In o (refs u) -> m2 1%nat o = Some (Fin (al' o))) /\
    (forall o, In o (refs u) -> ~ In o (eqw u) -> m2 0%nat o = Some (Fin (rho o))) /\
    (opw u = [] -> forall o, In o (refs u) -> m2 0%nat o = Some (Fin (fin_env D u rho o))) /\
    (forall o, In o (drefs u) -> m2 4%nat o = Some (Fin (D o))) /\
    forall o, exists g h, npartials D u rho o g /\ nepartials D u rho o h /\
      (forall i, ~ In i (writes u) -> h i = ind o i) /\
      forall M, (forall i, In i (refs u) -> (i < M)%nat) -> (o < M)%nat ->
        al' o = dotp seed g + sumn M (fun i => al i * h i).
Proof.
  intros HK HS HM HD HL HU.
  destruct (diff_main la LL HKV HKA bv ba u D e1 m1 rho al b seed HK HS HM HD HL HU) as [e2 [m2 [al1 [Q1 [Q2 [Q3 [Q4 [Q5 [Q6 _]]]]]]]]].
  destruct (session_inv la LL bv ba u D e1 m1 HK HS) as [cv [ca [HF [HI [HG [HW HE]]]]]].
  assert (HD' : dom D true b e1 rho) by (rewrite <- HE in HD; unfold er in HD; now apply dom_amap in HD).
  destruct (inv_facts _ _ _ _ _ _ _ HI) as [F1 [F2 [F3 [F4 [F5 [F6 F7]]]]]]. change (carrier N) with xr in *.
  destruct (@tf N (liftE D) e1 (liftE rho)) as [t r'] eqn:ET.
  destruct (LV_all la D HKV e1 b rho t r' HW HG (dom_mono D true e1 b rho HD') ET) as [V1 ->].
  pose proof (PO_all la D HKV e1 b rho t _ HW HG (dom_mono D true e1 b rho HD') ET) as HP.
  assert (DI : disc e1 = true) by (rewrite F2; apply HK).
  assert (HL1 : length seed = size (shape_of e1)) by (rewrite F7; exact HL).
  destruct (top_diff LL bv ba HF u cv ca e1 m1 (liftE D) (liftE rho) (liftE al) t _ (map Fin seed) HI (proj1 (proj2 HK)) HM ET HP
    ltac:(rewrite map_length; exact HL)) as [e2' [m2' [r2 [R1 [R2 [[R3 _] _]]]]]].
  rewrite Q1 in R1. inversion R1; subst e2' m2'.
  destruct (ntb_grad D e1 b rho t _ seed al HW DI HG HD' ET HL1 HU) as [al' [B1 [B2 B3]]].
  exists e2, m2, al'. split; [exact Q1|]. split; [exact Q2|]. split.
  { intros o Ho. destruct (R3 o Ho) as [_ Z]. rewrite B1 in Z. exact Z. }
  do 3 (split; [assumption|]).
  intros o. destruct (B3 o) as [g [h [A1 [A2 [A3 A4]]]]]. exists g, h.
  split; [intros k; eapply der_ext; [|apply A1]; intros x; cbn; rewrite <- HE; symmetry; f_equal; apply nval_amap|].
  split; [intros k; eapply der_ext; [|apply A2]; intros x; cbn; rewrite <- HE; symmetry; apply (f_equal (fun z => z k)); apply nfin_amap|].
  split; [intros i Hi; apply A3; rewrite <- (writes_amap (fun _ : ann N => tt)); unfold er in HE; now rewrite HE|].
  intros M HMM. apply A4. rewrite <- (refs_amap (fun _ : ann N => tt)). unfold er in HE. now rewrite HE.
Qed.

Lemma ngrad_gen bv ba (u : U) D (e1 : E) m1 rho al b seed : okexpr la u -> session la bv ba u D e1 m1 ->
  mreal la u m1 D rho al -> dom D true b u rho -> length seed = size (shape_of u) ->
  (b = true -> forall j, (j < length seed)%nat -> el seed j = 1) ->
  exists e2 m2, @autodiff N e1 (map Fin seed) m1 = Ok (e2, m2, map Fin (val D u rho)) /\
    forall o, In o (refs u) -> exists g h, npartials D u rho o g /\ nepartials D u rho o h /\
      forall M, (forall i, In i (refs u) -> (i < M)%nat) ->
        m2 1%nat o = Some (Fin (dotp seed g + sumn M (fun i => al i * h i))).
Proof.
  intros HK HS HM HD HL HU.
  destruct (ngrad_full bv ba u D e1 m1 rho al b seed HK HS HM HD HL HU) as [e2 [m2 [al' [Q1 [Q2 [Q3 [Q4 [Q5 [Q6 Q7]]]]]]]]].
  exists e2, m2. split; [exact Q1|]. intros o Ho. destruct (Q7 o) as [g [h [A1 [A2 [A3 A4]]]]]. exists g, h.
  split; [exact A1|]. split; [exact A2|]. intros M HMM. rewrite (Q3 o Ho). do 2 f_equal. apply A4; auto.
Qed.
Lemma ngrad_thm bv ba (u : U) D (e1 : E) m1 rho al b seed : okexpr la u -> session la bv ba u D e1 m1 ->
  mreal la u m1 D rho al -> dom D true b u rho -> length seed = size (shape_of u) ->
  (b = true -> forall j, (j < length seed)%nat -> el seed j = 1) ->
  (forall o, In o (writes u) -> al o = 0) ->
  exists e2 m2, @autodiff N e1 (map Fin seed) m1 = Ok (e2, m2, map Fin (val D u rho)) /\
    forall o, In o (refs u) -> exists g, npartials D u rho o g /\ m2 1%nat o = Some (Fin (al o + dotp seed g)).
Proof.
  intros HK HS HM HD HL HU HZ.
  destruct (ngrad_full bv ba u D e1 m1 rho al b seed HK HS HM HD HL HU) as [e2 [m2 [al' [Q1 [Q2 [Q3 [Q4 [Q5 [Q6 Q7]]]]]]]]].
  exists e2, m2. split; [exact Q1|]. intros o Ho. destruct (Q7 o) as [g [h [A1 [A2 [A3 A4]]]]]. exists g. split; [exact A1|].
  rewrite (Q3 o Ho). do 2 f_equal. rewrite (A4 (S (list_max (refs u)))) by (try (intros i Hi); now apply refs_bound).
  rewrite (sumn_ext _ (fun i => al i * h i) (fun i => al i * ind o i)).
  - rewrite sumn_ind by now apply refs_bound. lra.
  - intros i _. destruct (in_dec Nat.eq_dec i (writes u)) as [Hi|Hi]; [rewrite (HZ i Hi); lra|now rewrite A3].
Qed.
End Main.
