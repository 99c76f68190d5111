(** The neural-network programs. *)
From Coq Require Import Reals Lra FunctionalExtensionality.
From Coquelicot Require Import Coquelicot.
From Verif Require Import Base Num Expr Node Stat Machine Wf Pure LBase LKind LSimDef LMem LSimF LSimB LBind Session LUser
  Tape LTape LState LNrm LTop XR Spec Nudge RSess Grad LReal LScal LKA LKB LKM LVal LNudge LGrad LDiff LIndep LGrd LNGrad LPh Train LTrain.
Open Scope R_scope.
Set Bullet Behavior "Strict Subproofs".

Section Ok.
Variable la : linalg xr.
Lemma nn_val d p : val (row 2 d) nn_u p = [nn_loss p d].
Proof. cbn. reflexivity. Qed.
Lemma nn_ph_val d p : val (row 2 d) nn_ph p = [nn_loss p d].
Proof. cbn. reflexivity. Qed.
Lemma nn_ok : okexpr la nn_u.
Proof. split; [reflexivity|split; [reflexivity|cbn; tauto]]. Qed.
Lemma nn_ph_ok : okexpr la nn_ph.
Proof. split; [reflexivity|split; [reflexivity|cbn; tauto]]. Qed.
Lemma nn_dom D rho : dom D true false nn_u rho.
Proof. cbn. repeat split; auto; intros; lia. Qed.
Lemma nn_ph_dom D rho : dom D true false nn_ph rho.
Proof. cbn. repeat split; auto; intros; lia. Qed.
End Ok.

Lemma sum_total {A} (u : expr xr A) rows p o (H : forall d r, val (row 2 d) u r = [nn_loss r d]) :
  forall t, total u [1] (map (row 2) rows) p o t = sumr (map (nn_loss (set1 p o t)) rows).
Proof.
  intros t. unfold total. rewrite map_map. f_equal. apply map_ext. intros d. unfold dotp. rewrite H. cbn - [nn_loss]. ring.
Qed.
Section NN.
Variable la : linalg xr.
Hypothesis LA : la_ok la.
Notation N := (XR la).
Notation E := (expr N (ann N)).
Notation U := (expr N unit).
Lemma nn_gen bv ba (u : U) D0 p al rows (e1 : E) m1 : okexpr la u -> ph_ok la u -> opw u = [] -> sdrefs u = [] -> size (shape_of u) = 1%nat ->
  (forall D r, dom D true false u r) -> (forall d r, val (row 2 d) u r = [nn_loss r d]) ->
  session la bv ba u D0 e1 m1 -> mreal la u m1 D0 p al ->
  exists e2 m2, epoch la true u [1] (map (row 2) rows) e1 m1 = Ok (e2, m2, map (fun d => [Fin (nn_loss p d)]) rows) /\
    forall o, In o (refs u) -> ~ In o (writes u) -> m2 0%nat o = Some (Fin (p o)) /\
      exists s : R, is_derive (fun t => sumr (map (nn_loss (set1 p o t)) rows)) (p o) s /\ m2 1%nat o = Some (Fin (al o + s)).
Proof.
  intros HK HP HO HD1 HZ HD HV HS HM.
  destruct (epoch_thm la LA bv ba u D0 false [1] p (map (row 2) rows) HK HP) with (e1 := e1) (m1 := m1) (D1 := D0) (rho1 := p) (al := al)
    as [e2 [m2 [A1 [A2 A3]]]]; auto.
  - discriminate.
  - apply Forall_forall. intros D _. split; [apply HD|]. intros o Ho. change (carrier N) with xr in *. rewrite HD1 in Ho. destruct Ho.
  - exists e2, m2. change (carrier N) with xr in *. rewrite A1. split.
    + rewrite map_map. do 2 f_equal. apply map_ext. intros d. now rewrite HV.
    + intros o Ho Hn. destruct (A3 o Ho Hn) as [B1 [s [B2 B3]]]. split; [exact B1|]. exists s. split; [|exact B3].
      eapply der_ext; [|exact B2]. intros t. now apply sum_total.
Qed.
Lemma nn_thm bv ba D0 p al rows (e1 : E) m1 : session la bv ba nn_u D0 e1 m1 -> mreal la nn_u m1 D0 p al ->
  exists e2 m2, epoch la true nn_u [1] (map (row 2) rows) e1 m1 = Ok (e2, m2, map (fun d => [Fin (nn_loss p d)]) rows) /\
    forall o, (o < 25)%nat -> m2 0%nat o = Some (Fin (p o)) /\
      exists s : R, is_derive (fun t => sumr (map (nn_loss (set1 p o t)) rows)) (p o) s /\ m2 1%nat o = Some (Fin (al o + s)).
Proof.
  intros HS HM. destruct (nn_gen bv ba nn_u D0 p al rows e1 m1 (nn_ok la) (fun _ H => match H with end) eq_refl eq_refl eq_refl nn_dom nn_val HS HM) as [e2 [m2 [A1 A2]]].
    exists e2, m2. split; [exact A1|]. intros o Ho. apply A2; [|intros []]. cbn.
    do 25 (destruct o as [|o]; [cbn; tauto|]). lia.
Qed.
Lemma nn_ph_in : ph_ok la nn_ph.
Proof. intros o Ho Hi. cbn in Ho, Hi. intuition lia. Qed.
Lemma nn_ph_thm bv ba D0 p al rows (e1 : E) m1 : session la bv ba nn_ph D0 e1 m1 -> mreal la nn_ph m1 D0 p al ->
  exists e2 m2, epoch la true nn_ph [1] (map (row 2) rows) e1 m1 = Ok (e2, m2, map (fun d => [Fin (nn_loss p d)]) rows) /\
    forall o, (o < 25)%nat -> m2 0%nat o = Some (Fin (p o)) /\
      exists s : R, is_derive (fun t => sumr (map (nn_loss (set1 p o t)) rows)) (p o) s /\ m2 1%nat o = Some (Fin (al o + s)).
Proof.
  intros HS HM. destruct (nn_gen bv ba nn_ph D0 p al rows e1 m1 (nn_ph_ok la) nn_ph_in eq_refl eq_refl eq_refl nn_ph_dom nn_ph_val HS HM) as [e2 [m2 [A1 A2]]].
    exists e2, m2. split; [exact A1|]. intros o Ho. apply A2.
    + cbn. do 25 (destruct o as [|o]; [cbn; tauto|]). lia.
    + cbn. intuition lia.
Qed.

(** *** Without resetting the placeholders *)
Definition nn_pre : P1 :=
  EGlue tt (EGlue tt (EEq tt (Sh Mat 3 1) 25 nn_x1) (EEq tt (Sh Mat 3 1) 28 (nn_y1 (EVar (Sh Mat 3 1) 25))))
    (EEq tt (Sh Mat 3 1) 31 (nn_y2 (EVar (Sh Mat 3 1) 25) (EVar (Sh Mat 3 1) 28))).
Definition top (r : nat -> R) : R := sumn 3 (fun k => r (21 + k)%nat * r (31 + k)%nat) + r 24%nat.
Lemma nden_pre D p r : nden D p nn_ph r =
  (let r1 := nfin D p nn_pre r in
   let a := top r1 + p 34%nat in
   let b := (D 2%nat - a) ^ 2 + p 35%nat in
   ([b], put (put r1 34 [a]) 35 [b])).
Proof.
  change nn_ph with (EGlue tt (EGlue tt nn_pre (EEq tt (Sh Mat 1 1) 34 (nn_y3 (EVar (Sh Mat 3 1) 31))))
    (EEq tt (Sh Mat 1 1) 35 (nn_res (EVar (Sh Mat 1 1) 34))) : P1).
  unfold nfin. generalize nn_pre. intros P. cbn [nden]. destruct (nden D p P r) as [v1 r1]. cbn [snd]. clear v1 P.
  cbn. change (Pos.to_nat 2) with 2%nat. cbn. reflexivity.
Qed.
(** A change of b3, y3 or residual_norm2 does not reach the first three statements. *)
Lemma pre_bump D r o x : (o = 24 \/ o = 34 \/ o = 35)%nat ->
  forall i, nfin D (bump o x) nn_pre (fun i => r i + bump o x i) i = fin_env D nn_pre r i + bump o x i.
Proof.
  intros Ho i. assert (W : wfs nn_pre = true) by reflexivity.
  assert (NI : ~ In o (eqw nn_pre)) by (cbn; intuition lia).
  unfold nfin. rewrite nden_out; auto.
  2:{ intros j Hj. unfold bump. destruct (Nat.eqb_spec j o); [subst; tauto|reflexivity]. }
  fold (fin_env D nn_pre (fun i => r i + bump o x i)).
  destruct (in_dec Nat.eq_dec i (writes nn_pre)) as [Hi|Hi].
  - destruct (indep D nn_pre (fun i => r i + bump o x i) r W) as [_ [X _]].
    + intros j Hj. unfold bump. destruct (Nat.eqb_spec j o); [|lra]. exfalso. subst j. cbn in Hj. intuition lia.
    + rewrite X by (right; cbn in *; tauto). unfold bump. destruct (Nat.eqb_spec i o); [|lra]. exfalso. subst i. apply NI. cbn in *. tauto.
  - now rewrite !env_keep.
Qed.
Definition three (o : nat) : R := if (o =? 24)%nat || (o =? 34)%nat then 1 else 0.
Definition five (o : nat) : R := if (o =? 35)%nat then 1 else 0.
Lemma top_out d r : top (fin_env (row 2 d) nn_pre r) = nn_out r (fst d).
Proof. cbn. reflexivity. Qed.
Lemma nden_bump d r o x : (o = 24 \/ o = 34 \/ o = 35)%nat ->
  let a := nn_out r (fst d) + three o * x in
  let b := (snd d - a) ^ 2 + five o * x in
  nval (row 2 d) (bump o x) nn_ph (fun i => r i + bump o x i) = [b] /\
  forall i, nfin (row 2 d) (bump o x) nn_ph (fun i => r i + bump o x i) i =
    if (i =? 34)%nat then a else if (i =? 35)%nat then b else fin_env (row 2 d) nn_pre r i + bump o x i.
Proof.
  intros Ho a b. unfold nval, nfin at 1. rewrite nden_pre. cbn [fst snd].
  assert (EA : top (nfin (row 2 d) (bump o x) nn_pre (fun i => r i + bump o x i)) + bump o x 34 = a).
  { unfold a. rewrite <- top_out. unfold top. rewrite (sumn_ext 3 _ (fun k => fin_env (row 2 d) nn_pre r (21 + k)%nat * fin_env (row 2 d) nn_pre r (31 + k)%nat)).
    - rewrite (pre_bump (row 2 d) r o x Ho 24). unfold bump, three. destruct Ho as [->|[->| ->]]; cbn [Nat.eqb orb]; lra.
    - intros k Hk. rewrite !(pre_bump (row 2 d) r o x Ho). unfold bump.
      destruct (Nat.eqb_spec (21 + k) o); [lia|]. destruct (Nat.eqb_spec (31 + k) o); [lia|]. now rewrite !Rplus_0_r. }
  rewrite EA. assert (EB : (row 2 d 2 - a) ^ 2 + bump o x 35 = b).
  { unfold b, bump, five. change (row 2 d 2) with (snd d). destruct Ho as [->|[->| ->]]; cbn [Nat.eqb]; lra. }
  rewrite EB. split; [reflexivity|]. intros i. unfold put. cbn [length].
  destruct (Nat.eqb_spec i 34) as [->|H1]; [reflexivity|]. destruct (Nat.eqb_spec i 35) as [->|H2]; [reflexivity|].
  replace ((35 <=? i)%nat && (i <? 35 + 1)%nat) with false by (symmetry; apply andb_false_iff; rewrite Nat.leb_gt, Nat.ltb_ge; lia).
  replace ((34 <=? i)%nat && (i <? 34 + 1)%nat) with false by (symmetry; apply andb_false_iff; rewrite Nat.leb_gt, Nat.ltb_ge; lia).
  now apply pre_bump.
Qed.
Definition slope (p : nat -> R) (d : (nat -> R) * R) : R := - 2 * (snd d - nn_out p (fst d)).
Lemma nn_step bv ba D0 (e1 : E) m1 p al d : session la bv ba nn_ph D0 e1 m1 -> mreal la nn_ph m1 D0 p al ->
  exists e2 m2 al' p', @autodiff N e1 [Fin 1] (load la nn_ph (row 2 d) m1) = Ok (e2, m2, [Fin (nn_loss p d)]) /\
    session la bv ba nn_ph D0 e2 m2 /\ mreal la nn_ph m2 (row 2 d) p' al' /\ (forall o, (o < 25)%nat -> p' o = p o) /\
    al' 35%nat = al 35%nat + 1 /\ al' 34%nat = al 34%nat + (al 35%nat + 1) * slope p d /\
    al' 24%nat = al 24%nat + al' 34%nat.
Proof.
  intros HS HM.
  assert (HS0 : session la bv ba nn_ph (row 2 d) e1 m1) by (eapply session_data; [exact HS|intros o []]).
  assert (HS1 := session_user la bv ba nn_ph (row 2 d) e1 m1 (load la nn_ph (row 2 d)) HS0 (load_keeps la nn_ph (row 2 d))).
  assert (HM1 := load_mreal la nn_ph m1 D0 (row 2 d) p al HM).
  destruct (ngrad_full la LA bv ba nn_ph (row 2 d) e1 _ p al false [1] (nn_ph_ok la) HS1 HM1 (nn_ph_dom _ _) eq_refl ltac:(discriminate))
    as [e2 [m2 [al' [Q1 [Q2 [Q3 [Q4 [Q5 [Q6 Q7]]]]]]]]].
  rewrite nn_ph_val in Q1. exists e2, m2, al', (fin_env (row 2 d) nn_ph p).
  split; [exact Q1|]. split; [eapply session_data; [exact Q2|intros o []]|].
  split. { split; [|exact Q6]. intros o Ho. split; [now apply Q5|now apply Q3]. }
  split. { intros o Ho. apply env_keep; [reflexivity|]. cbn. intuition lia. }
  assert (AL : forall o, (o = 24 \/ o = 34 \/ o = 35)%nat ->
    al' o = (slope p d * three o + five o) + (al 34%nat * three o + al 35%nat * (slope p d * three o + five o)) + (if (o =? 24)%nat then al 24%nat else 0)).
  { intros o Ho. destruct (Q7 o) as [g [h [G1 [G2 [G3 G4]]]]].
    assert (DB : is_derive (fun x => (snd d - (nn_out p (fst d) + three o * x)) ^ 2 + five o * x) 0 (slope p d * three o + five o)).
    { auto_derive; [exact I|]. unfold slope. rewrite Rmult_0_r, Rplus_0_r. ring. }
    assert (EG : g 0%nat = slope p d * three o + five o).
    { apply (der_unique _ _ _ _ (G1 0%nat)). eapply der_ext; [|exact DB]. intros x. cbn beta.
      destruct (nden_bump d p o x Ho) as [X _]. rewrite X. reflexivity. }
    assert (EH : forall i f, (forall x, nfin (row 2 d) (bump o x) nn_ph (fun i => p i + bump o x i) i = f x) -> forall s, is_derive f 0 s -> h i = s).
    { intros i f HF s Hs. apply (der_unique _ _ _ _ (G2 i)). eapply der_ext; [|exact Hs]. intros x. now rewrite HF. }
    assert (EB : forall i, i <> 34%nat -> i <> 35%nat -> h i = ind o i).
    { intros i H1 H2. apply (EH i (fun x => fin_env (row 2 d) nn_pre p i + bump o x i)).
      - intros x. destruct (nden_bump d p o x Ho) as [_ X]. rewrite X. apply Nat.eqb_neq in H1, H2. now rewrite H1, H2.
      - eapply der_eq; [apply der_plus; [apply der_const|apply bump_der]|cbn; ring]. }
    assert (E34 : h 34%nat = three o).
    { apply (EH 34%nat (fun x => nn_out p (fst d) + three o * x)).
      - intros x. destruct (nden_bump d p o x Ho) as [_ X]. now rewrite X.
      - auto_derive; [exact I|ring]. }
    assert (E35 : h 35%nat = slope p d * three o + five o).
    { apply (EH 35%nat _) with (2 := DB). intros x. destruct (nden_bump d p o x Ho) as [_ X]. now rewrite X. }
    rewrite (G4 36%nat).
    - unfold dotp. cbn [length sumn el nth]. rewrite EG, E34, E35. unfold el. cbn [nth].
      rewrite !EB by lia. unfold ind. destruct Ho as [->|[->| ->]]; cbn [Nat.eqb]; ring.
    - intros i Hi. cbn in Hi. intuition lia.
    - lia. }
  rewrite !AL by tauto. unfold three, five. cbn [Nat.eqb orb]. repeat split; ring.
Qed.
(** Weight of row j of n in the adjoint of b3. *)
Fixpoint wsum (k : R) (p : nat -> R) (rows : list ((nat -> R) * R)) : R :=
  match rows with [] => 0 | d :: l => (k + 1) * INR (S (length l)) * slope p d + wsum (k + 1) p l end.
Lemma slope_ext p p' (d : (nat -> R) * R) : (forall o, (o < 25)%nat -> p' o = p o) -> nn_out p' (fst d) = nn_out p (fst d).
Proof. intros H. unfold nn_out, nn_hid. cbn. rewrite !H by lia. reflexivity. Qed.
Lemma nn_loop bv ba p rows : forall D0 p1 al (e1 : E) m1, (forall o, (o < 25)%nat -> p1 o = p o) ->
  session la bv ba nn_ph D0 e1 m1 -> mreal la nn_ph m1 D0 p1 al ->
  exists e2 m2, epoch la false nn_ph [1] (map (row 2) rows) e1 m1 = Ok (e2, m2, map (fun d => [Fin (nn_loss p d)]) rows) /\
    m2 1%nat 24%nat = Some (Fin (al 24%nat + INR (length rows) * al 34%nat + wsum (al 35%nat) p rows)).
Proof.
  induction rows as [|d l IH]; intros D0 p1 al e1 m1 HP HS HM.
  - exists e1, m1. split; [reflexivity|]. cbn. destruct HM as [HM _]. destruct (HM 24%nat) as [_ ->]; [cbn; tauto|].
    do 2 f_equal. ring.
  - destruct (nn_step bv ba D0 e1 m1 p1 al d HS HM) as [e2 [m2 [al' [p' [A1 [A2 [A3 [A4 [A5 [A6 A7]]]]]]]]]].
    destruct (IH (row 2 d) p' al' e2 m2) as [e3 [m3 [B1 B2]]]; auto.
    { intros o Ho. rewrite A4; auto. }
    { eapply session_data; [exact A2|intros o []]. }
    assert (S1 : slope p1 d = slope p d) by (unfold slope; now rewrite (slope_ext p p1)).
    assert (L1 : nn_loss p1 d = nn_loss p d) by (unfold nn_loss; now rewrite (slope_ext p p1)).
    exists e3, m3. cbn [map epoch]. cbn [map] in A1. change (carrier N) with xr in *. rewrite A1. cbn [bindR]. rewrite B1. cbn [bindR].
    split; [now rewrite L1|]. rewrite B2, A7, A6, A5, S1. do 2 f_equal. cbn [length wsum]. rewrite !S_INR. ring.
Qed.
Lemma wsum_sum p rows : forall k, wsum k p rows = sumn (length rows) (fun j => (k + 1 + INR j) * INR (length rows - j) * slope p (nth j rows (fun _ => 0, 0))).
Proof.
  induction rows as [|d l IH]; intros k; [reflexivity|]. cbn [wsum]. rewrite IH.
  set (F := fun j => (k + 1 + INR j) * INR (length (d :: l) - j) * slope p (nth j (d :: l) (fun _ => 0, 0))).
  assert (X : forall n, sumn (S n) F = F 0%nat + sumn n (fun j => F (S j))).
  { induction n as [|n IHn]; [cbn; ring|]. change (sumn (S (S n)) F) with (sumn (S n) F + F (S n)). rewrite IHn. cbn [sumn]. ring. }
  cbn [length]. fold F. rewrite X. f_equal.
  - unfold F. cbn [length nth Nat.sub INR]. ring.
  - apply sumn_ext. intros j _. unfold F. cbn [length nth Nat.sub]. rewrite S_INR. ring.
Qed.
End NN.

Section Ref.
Variable la : linalg xr.
Hypothesis LA : la_ok la.
Notation N := (XR la).
Notation E := (expr N (ann N)).
Lemma nn_weights bv ba D0 p al (e1 : E) m1 rows : session la bv ba nn_ph D0 e1 m1 -> mreal la nn_ph m1 D0 p al ->
  al 34%nat = 0 -> al 35%nat = 0 ->
  exists e2 m2, epoch la false nn_ph [1] (map (row 2) rows) e1 m1 = Ok (e2, m2, map (fun d => [Fin (nn_loss p d)]) rows) /\
    m2 1%nat 24%nat = Some (Fin (al 24%nat + sumn (length rows) (fun j =>
      INR (j + 1) * INR (length rows - j) * (- 2 * (snd (nth j rows (fun _ => 0, 0)) - nn_out p (fst (nth j rows (fun _ => 0, 0)))))))).
Proof.
  intros HS HM Z1 Z2. destruct (nn_loop la LA bv ba p rows D0 p al e1 m1 (fun _ _ => eq_refl) HS HM) as [e2 [m2 [A1 A2]]].
  exists e2, m2. split; [exact A1|]. rewrite A2, Z1, Z2, Rmult_0_r, Rplus_0_r. do 3 f_equal. rewrite wsum_sum.
  apply sumn_ext. intros j _. rewrite plus_INR. cbn [INR]. unfold slope. ring.
Qed.
Lemma nn_der p rows : is_derive (fun t => sumr (map (nn_loss (set1 p 24 t)) rows)) (p 24%nat)
  (sumr (map (fun d => - 2 * (snd d - nn_out p (fst d))) rows)).
Proof.
  induction rows as [|d l IH]; cbn [map sumr]; [apply der_const|]. apply der_plus; [|exact IH].
  set (c := nn_out p (fst d) - p 24%nat).
  apply (der_ext (fun t => (snd d - (c + t)) ^ 2)).
  - intros t. unfold nn_loss. do 2 f_equal. unfold c, nn_out, nn_hid, set1. cbn [sumn Nat.add Nat.mul Nat.eqb]. ring.
  - auto_derive; [exact I|]. unfold c. ring.
Qed.
Lemma nn_refuted bv ba : fresh bv ba -> exists p rows (e1 : E) m1 e2 m2 vs v s,
  session la bv ba nn_ph (fun _ => 0) e1 m1 /\ mreal la nn_ph m1 (fun _ => 0) p (fun _ => 0) /\
  epoch la false nn_ph [1] (map (row 2) rows) e1 m1 = Ok (e2, m2, vs) /\ m2 1%nat 24%nat = Some (Fin v) /\
  is_derive (fun t => sumr (map (nn_loss (set1 p 24 t)) rows)) (p 24%nat) s /\ v = 2 * s /\ v <> s.
Proof.
  intros HF. destruct (session_start la LA bv ba nn_ph (fun _ => 0) (fun _ => 0) (fun _ => 0) HF (nn_ph_ok la) eq_refl) as [e1 [m1 [H1 H2]]].
  set (d := (fun _ : nat => 0, 1)).
  destruct (nn_weights bv ba (fun _ => 0) (fun _ => 0) (fun _ => 0) e1 m1 [d; d] H1 H2 eq_refl eq_refl) as [e2 [m2 [A1 A2]]].
  assert (X : nn_out (fun _ => 0) (fst d) = 0) by (unfold nn_out; cbn; ring).
  exists (fun _ => 0), [d; d], e1, m1, e2, m2. eexists _, _, _. split; [exact H1|]. split; [exact H2|]. split; [exact A1|]. split; [exact A2|].
  split; [apply nn_der|]. cbn [length sumn nth map sumr Nat.add Nat.sub INR]. rewrite X. unfold d. cbn [snd]. split; [ring|lra].
Qed.
End Ref.
