(** Forward evaluation computes the denotation. *)
From Coq Require Import Reals Lra FunctionalExtensionality.
From Coquelicot Require Import Coquelicot.
From Verif Require Import Base Num Expr Node Stat Machine Wf Pure LBase LKind LSimDef LMem LSimF LSimB Tape LTape LState LNrm XR Spec LReal LScal LKA LKB.
Open Scope R_scope.
Set Bullet Behavior "Strict Subproofs".

(** ** The denotation *)
Section Den.
Context {A : Type}.
Notation E := (expr xr A).
Notation renv := (nat -> R).
Variable D : renv.

Lemma den_comp k an (es : list E) r : den D (EComp k an es) r =
  (kden k (map shape_of es) (fst (dens D es r)), snd (dens D es r)).
Proof.
  change (den D (EComp k an es) r) with (let '(vs, r1) := dens D es r in (kden k (map shape_of es) vs, r1)).
  now destruct (dens D es r).
Qed.
Definition denf : list E -> list R -> renv -> list R * renv :=
  fix go es v r := match es with [] => (v, r) | y :: l => let '(v1, r1) := den D y r in go l v1 r1 end.
Lemma denf_dens es : forall v r, denf es v r = (last (fst (dens D es r)) v, snd (dens D es r)).
Proof.
  induction es as [|y l IH]; intros v r; [reflexivity|]. cbn. destruct (den D y r) as [v1 r1].
  change ((fix go (es : list E) (v : list R) (r : renv) {struct es} := match es with [] => (v, r) | y :: l => let '(v1, r1) := den D y r in go l v1 r1 end) l v1 r1)
    with (denf l v1 r1). rewrite IH. destruct (dens D l r1) as [vs r2] eqn:EL. cbn. f_equal.
  destruct vs as [|w ws]; [reflexivity|]. clear. revert w. induction ws as [|x ws IH]; intros w; [reflexivity|]. apply (IH x).
Qed.
Lemma den_for an s (es : list E) r : den D (EFor an s es) r = (last (fst (dens D es r)) [], snd (dens D es r)).
Proof. change (den D (EFor an s es) r) with (denf es [] r). apply denf_dens. Qed.
Lemma dens_cons (y : E) (l : list E) r : dens D (y :: l) r =
  (val D y r :: fst (dens D l (fin_env D y r)), snd (dens D l (fin_env D y r))).
Proof. unfold val, fin_env. cbn [dens]. destruct (den D y r) as [v r1]. cbn. now destruct (dens D l r1). Qed.

Definition doms (d : bool) (us : nat -> bool) : nat -> list E -> renv -> Prop :=
  fix go i es r := match es with [] => True | y :: l => dom D d (us i) y r /\ go (S i) l (fin_env D y r) end.
Definition domf (d : bool) (u : bool) : list E -> renv -> Prop :=
  fix go es r := match es with
    | [] => True
    | y :: l => dom D d (match l with [] => u | _ => false end) y r /\ go l (fin_env D y r)
    end.
Lemma dom_comp d u k an (es : list E) r : dom D d u (EComp k an es) r =
  (doms d (fun i => u && ones k (map shape_of es) i) 0 es r /\
   kdom d u k (map is_const es) (map flat es) (map shape_of es) (fst (dens D es r))).
Proof. reflexivity. Qed.
Lemma dom_for d u an s (es : list E) r : dom D d u (EFor an s es) r = domf d u es r.
Proof. reflexivity. Qed.

(** ** Lengths *)
Lemma wfs_shape' (e : E) : wfs e = true -> shape_ok (shape_of e) = true.
Proof.
  induction e using expr_ind'; cbn; intros HW; auto; rewrite ?andb_true_iff in HW.
  - tauto.
  - destruct HW as [[[_ HW] _] _]. now apply kshape_shape_ok.
  - tauto.
  - tauto.
  - apply IHe2. tauto.
  - destruct HW as [[[H1 H2] _] _]. destruct es as [|y es]; [now destruct s|].
    unfold for_shapes in H2. cbn [map forallb] in H1, H2. rewrite !andb_true_iff in H2. apply andb_true_iff in H1. destruct H1 as [H1 _]. inversion H; subst.
    specialize (H4 H1). destruct H2 as [[H2 _] _]. apply sk_eqb_eq in H2. destruct s; cbn; auto.
    unfold shape_ok in *. rewrite H2 in H4. auto.
  - apply IHe2. tauto.
Qed.
Lemma kden_len k ss vs : kshape_ok k ss = true -> lensR vs ss -> length (kden k ss vs) = size (kshape k ss).
Proof.
  intros HS HL. pose proof HS as HS0. unfold kshape_ok in HS. apply andb_true_iff in HS. destruct HS as [HW HS].
  destruct k; cbn [kden kshape]; try reflexivity; rewrite ?tab_len, ?mkm_length; try reflexivity.
Qed.
Definition DL (e : E) : Prop := forall r, wfs e = true -> length (val D e r) = size (shape_of e).
Lemma DLs es : Forall DL es -> forall r, forallb wfs es = true -> lensR (fst (dens D es r)) (map shape_of es).
Proof.
  induction 1 as [|y l HY H IH]; intros r HW; [constructor|].
  cbn in HW. apply andb_true_iff in HW. destruct HW as [W1 W2].
  rewrite dens_cons. cbn [fst map]. constructor; [now apply HY|now apply IH].
Qed.
Lemma val_len e : DL e.
Proof.
  induction e using expr_ind'; intros r HW; unfold val.
  - cbn. now rewrite map_length, seq_length.
  - cbn in HW |- *. apply andb_true_iff in HW. destruct HW as [_ HW]. apply Nat.eqb_eq in HW. now rewrite map_length.
  - cbn. now rewrite map_length, seq_length.
  - rewrite den_comp. cbn [fst shape_of]. cbn [wfs] in HW. rewrite !andb_true_iff in HW. destruct HW as [[[W1 W2] W3] W4].
    apply kden_len; [exact W2|]. now apply DLs.
  - cbn [wfs] in HW. rewrite !andb_true_iff in HW. destruct HW as [[[W1 W2] W3] W4]. apply shape_eqb_eq in W3.
    specialize (IHe r W1). unfold val in IHe. cbn [den shape_of]. destruct (den D e r). cbn in *. congruence.
  - cbn [den shape_of]. destruct (den D e r). cbn [fst]. apply tab_len.
  - cbn [wfs] in HW. rewrite !andb_true_iff in HW. destruct HW as [[[W1 W2] W3] W4].
    cbn [den shape_of]. destruct (den D e1 r) as [v1 r1]. apply (IHe2 r1 W2).
  - rewrite den_for. cbn [fst shape_of]. cbn [wfs] in HW. rewrite !andb_true_iff in HW. destruct HW as [[[W1 W2] W3] W4].
    pose proof (DLs es H r W1) as HL. destruct es as [|y l].
    + cbn. destruct s; [discriminate|reflexivity|reflexivity].
    + rewrite <- (for_iter s (map shape_of (y :: l))); [|rewrite forallb_forall; intros sh Hs; apply in_map_iff in Hs;
        destruct Hs as [z [<- Hz]]; apply wfs_shape'; eapply forallb_forall; eauto|exact W2|discriminate].
      revert HL. generalize (fst (dens D (y :: l) r)). cbn [map]. generalize (shape_of y), (map shape_of l). clear.
      intros sh ss vs HL. revert sh ss HL. induction vs as [|v vs IH]; intros sh ss HL; [inversion HL|].
      inversion HL as [|? ? ? ? L1 L2]; subst. destruct L2 as [|w sh2 vs ss L2 L3]; [exact L1|].
      apply (IH sh2 ss). constructor; auto.
  - cbn [wfs] in HW. rewrite !andb_true_iff in HW. destruct HW as [[[[[W1 W2] W3] W4] W5] W6].
    apply shape_eqb_eq in W6. cbn [den shape_of]. destruct (den D e1 r) as [v1 r1].
    destruct (reqb _ _); [rewrite W6; apply (IHe3 r1 W3)|apply (IHe2 r1 W2)].
Qed.
Lemma vals_len (es : list E) r : forallb wfs es = true -> lensR (fst (dens D es r)) (map shape_of es).
Proof. apply DLs, Forall_forall. intros. apply val_len. Qed.

(** ** What evaluation leaves alone *)
Lemma put_out r o l i : ~ (o <= i < o + length l)%nat -> put r o l i = r i.
Proof.
  intros H. unfold put. destruct (Nat.leb_spec o i), (Nat.ltb_spec i (o + length l)); cbn; auto; lia.
Qed.
Lemma put_in r o l i : (i < length l)%nat -> put r o l (o + i) = el l i.
Proof.
  intros H. unfold put. destruct (Nat.leb_spec o (o + i)), (Nat.ltb_spec (o + i) (o + length l)); cbn; try lia. f_equal. lia.
Qed.
Definition KEEP (e : E) : Prop := forall r o, wfs e = true -> ~ In o (writes e) -> fin_env D e r o = r o.
Lemma KEEPs es : Forall KEEP es -> forall r o, forallb wfs es = true -> ~ In o (flat_map writes es) -> snd (dens D es r) o = r o.
Proof.
  induction 1 as [|y l HY H IH]; intros r o HW HO; [reflexivity|].
  cbn in HW, HO. rewrite in_app_iff in HO. apply andb_true_iff in HW. destruct HW as [W1 W2].
  rewrite dens_cons. cbn [snd]. rewrite IH, HY; auto.
Qed.
Lemma env_keep e : KEEP e.
Proof.
  induction e using expr_ind'; intros r o' HW HO; unfold fin_env; try reflexivity.
  - rewrite den_comp. cbn [snd]. cbn [wfs] in HW. rewrite !andb_true_iff in HW. destruct HW as [[[W1 W2] W3] W4].
    now apply KEEPs.
  - pose proof (val_len (EEq a sh o e) r HW) as HL. cbn [wfs] in HW. rewrite !andb_true_iff in HW. destruct HW as [[[W1 W2] W3] W4].
    cbn [writes] in HO. rewrite in_app_iff, in_cells in HO. specialize (IHe r o' W1). unfold val in HL. unfold fin_env in IHe.
    cbn [den shape_of] in *. destruct (den D e r) as [v r1]. cbn [fst snd] in *. rewrite put_out by (rewrite HL; tauto). apply IHe. tauto.
  - pose proof (val_len (EOpEq q a sh o e) r HW) as HL. cbn [wfs] in HW. rewrite !andb_true_iff in HW. destruct HW as [[[W1 W2] W3] W4].
    cbn [writes] in HO. rewrite in_app_iff, in_cells in HO. specialize (IHe r o' W1). unfold val in HL. unfold fin_env in IHe.
    cbn [den shape_of] in *. destruct (den D e r) as [v r1]. cbn [fst snd] in *. rewrite put_out by (rewrite HL; tauto). apply IHe. tauto.
  - cbn [wfs] in HW. rewrite !andb_true_iff in HW. destruct HW as [[[W1 W2] W3] W4].
    cbn [writes] in HO. rewrite in_app_iff in HO. specialize (IHe1 r o' W1). unfold fin_env in *.
    cbn [den]. destruct (den D e1 r) as [v r1]. cbn [snd] in IHe1. etransitivity; [apply (IHe2 r1 o' W2); tauto|apply IHe1; tauto].
  - rewrite den_for. cbn [snd]. cbn [wfs] in HW. rewrite !andb_true_iff in HW. destruct HW as [[[W1 W2] W3] W4].
    now apply KEEPs.
  - cbn [wfs] in HW. rewrite !andb_true_iff in HW. destruct HW as [[[[[W1 W2] W3] W4] W5] W6].
    cbn [writes] in HO. rewrite !in_app_iff in HO. specialize (IHe1 r o' W1). unfold fin_env in *.
    cbn [den]. destruct (den D e1 r) as [v r1]. cbn [snd] in IHe1.
    destruct (reqb _ _); (etransitivity; [first [apply (IHe3 r1 o' W3); tauto|apply (IHe2 r1 o' W2); tauto]|apply IHe1; tauto]).
Qed.
Lemma env_same (e : E) r : wfs e = true -> writes e = [] -> fin_env D e r = r.
Proof. intros HW HE. apply functional_extensionality. intros o. apply env_keep; auto. rewrite HE. auto. Qed.

(** ** The region of differentiability is part of the region of definedness *)
Lemma un_mono d w x : un_dom d w x -> un_dom false w x.
Proof. destruct d; auto. destruct w; cbn; auto; lra. Qed.
Lemma kdom_mono d u k cs fl ss vs : kdom d u k cs fl ss vs -> kdom false u k cs fl ss vs.
Proof.
  destruct d; auto. destruct k as [w| | | | | |f|f|b| | | |q]; cbn [kdom]; auto.
  - intros H i Hi. eapply un_mono; eauto.
  - intros H i Hi. specialize (H i Hi). destruct b; cbn [bi_dom] in *; auto; try (intros; discriminate);
    destruct (_ && _); try (intros; discriminate); split; [apply H|intros; discriminate|apply H|intros; discriminate].
  - destruct q; cbn [sdom]; auto; intros H; repeat match goal with H : _ /\ _ |- _ => destruct H end;
    repeat (match goal with |- _ /\ _ => split end); auto; try (intros; discriminate).
Qed.
Lemma dom_mono d (e : E) : forall u r, dom D d u e r -> dom D false u e r.
Proof.
  assert (L1 : forall us es, Forall (fun e : E => forall u r, dom D d u e r -> dom D false u e r) es ->
    forall i r, doms d us i es r -> doms false us i es r).
  { intros us es. induction 1; intros i r; cbn; auto. intros [? ?]. split; auto. }
  induction e using expr_ind'; intros u r HD; auto.
  - rewrite dom_comp in *. destruct HD as [H1 H2]. split; [eapply L1; eauto|eapply kdom_mono; eauto].
  - cbn in *. eauto.
  - cbn in *. destruct HD. split; eauto.
  - cbn in *. destruct HD. split; eauto.
  - rewrite dom_for in *. clear L1. revert r HD. induction H; intros r; cbn; auto. intros [? ?]. split; auto.
  - cbn in *. destruct HD as [H1 [H2 H3]]. split; eauto. split; [intros; discriminate|]. destruct (reqb _ _); eauto.
Qed.
End Den.

(** ** The engine computes it *)
Section Val.
Variable la : linalg xr.
Notation N := (XR la).
Notation E := (expr xr (ann N)).
Variable D : nat -> R.
Definition liftE (r : nat -> R) : nat -> carrier N := fun o => Fin (r o).
Notation DX := (liftE D).
Hypothesis HKV : forall k, KV la k.

(** Values of the operands that are constants. *)
Definition cval {A} (y : expr xr A) : list R :=
  match y with ECst _ c => map fval c | ECvw sh o => map D (seq o (size sh)) | _ => [] end.
(** Every log-density node is in the state its constructor left, and the data
    it captured then are still there. *)
Fixpoint sg (e : E) : Prop :=
  match e with
  | EVar _ _ | ECst _ _ | ECvw _ _ => True
  | EComp k an es =>
      SGk la k (map is_const es) (map shape_of es) (st an) (map cval es) /\
      (fix go es := match es with [] => True | y :: l => sg y /\ go l end) es
  | EEq _ _ _ y | EOpEq _ _ _ _ y => sg y
  | EGlue _ l r => sg l /\ sg r
  | EFor _ _ es => (fix go es := match es with [] => True | y :: l => sg y /\ go l end) es
  | EIf _ c t f => sg c /\ sg t /\ sg f
  end.
Definition sgs : list E -> Prop := fix go es := match es with [] => True | y :: l => sg y /\ go l end.
Lemma sg_comp k an es : sg (EComp k an es) =
  (SGk la k (map is_const es) (map shape_of es) (st an) (map cval es) /\ sgs es).
Proof. reflexivity. Qed.
Lemma sg_for an s es : sg (EFor an s es) = sgs es.
Proof. reflexivity. Qed.

Lemma cval_val (y : E) r : is_const y = true -> val D y r = cval y.
Proof. destruct y; try discriminate; reflexivity. Qed.
Lemma cvals_vals (es : list E) : forall r i, nth i (map is_const es) false = true ->
  nth i (fst (dens D es r)) [] = nth i (map cval es) [].
Proof.
  induction es as [|y l IH]; intros r i H; [destruct i; discriminate|]. rewrite dens_cons. destruct i; cbn [map nth fst] in *.
  - now apply cval_val.
  - now apply IH.
Qed.
Lemma SGk_vals k an (es : list E) r : SGk la k (map is_const es) (map shape_of es) (st an) (map cval es) ->
  SGk la k (map is_const es) (map shape_of es) (st an) (fst (dens D es r)).
Proof.
  destruct k; cbn [SGk]; auto. intros [gs [s0 [H1 [H2 H3]]]]. exists gs, s0. split; [exact H1|]. split; [|exact H3].
  intros i Hi. rewrite cvals_vals by exact Hi. now apply H2.
Qed.

Lemma fin_fval c : Forall is_fin c -> c = map Fin (map fval c).
Proof. induction 1 as [|x l [r ->]]; cbn; [reflexivity|]. now f_equal. Qed.
Lemma rdv_lift r o n : @rdv N (liftE r) o n = map Fin (map r (seq o n)).
Proof. unfold rdv. rewrite map_map. reflexivity. Qed.
Lemma upd_lift r o l : @upd N (liftE r) o (map Fin l) = liftE (put r o l).
Proof.
  apply functional_extensionality. intros i. unfold upd, put, liftE. rewrite map_length.
  destruct ((o <=? i)%nat && (i <? o + length l)%nat) eqn:EB; [|reflexivity].
  apply andb_true_iff in EB. destruct EB as [B1 B2]. apply Nat.leb_le in B1. apply Nat.ltb_lt in B2.
  change (n0 N) with (Fin 0). apply nth_fin. lia.
Qed.
Lemma oe_fwd_fin q s x y n : length x = n -> length y = size s -> (is_scl s = true -> size s = 1%nat) ->
  (is_scl s = false -> size s = n) ->
  match q with ODiv => forall i, (i < n)%nat -> ent s y i <> 0 | _ => True end ->
  oe_fwd N q s (map Fin x) (map Fin y) = map Fin (tab n (fun i => oe_s q (el x i) (ent s y i))).
Proof.
  intros Lx Ly H1 H2 HD. unfold oe_fwd. rewrite map_length, Lx. rewrite (bc_fin la s n y) by auto.
  rewrite (fin_list x n Lx), tab_map2, tab_map. apply tab_ext. intros i Hi. destruct q; cbn; try reflexivity.
  rewrite reqb_f by auto. reflexivity.
Qed.

Lemma tfx_comp k an (es : list E) r : tf DX (EComp k an es) r =
  let '(ts, r1) := tfs DX es r in
  let '(s', val) := kf k (map is_const es) (map shape_of es) (st an) (map nv ts) in
  (Nd val s' [] ts, r1).
Proof. reflexivity. Qed.
Lemma tfx_for an s (es : list E) r : tf DX (EFor an s es) r =
  let '(ts, r1) := tfs DX es r in (Nd (nv (last ts (Nd [] (sst0 N) [] []))) (sst0 N) [] ts, r1).
Proof. reflexivity. Qed.
Definition LV (e : E) : Prop := forall u rho t r', wfs e = true -> sg e -> dom D false u e rho ->
  tf DX e (liftE rho) = (t, r') -> nv t = map Fin (val D e rho) /\ r' = liftE (fin_env D e rho).
Definition domq : list E -> (nat -> R) -> Prop :=
  fix go es r := match es with [] => True | y :: l => (exists u, dom D false u y r) /\ go l (fin_env D y r) end.
Lemma domq_s d us (es : list E) : forall i r, doms D d us i es r -> domq es r.
Proof. induction es as [|y l IH]; intros i r; cbn; auto. intros [H1 H2]. apply dom_mono in H1. split; eauto. Qed.
Lemma domq_f d u (es : list E) : forall r, domf D d u es r -> domq es r.
Proof. induction es as [|y l IH]; intros r; cbn; auto. intros [H1 H2]. apply dom_mono in H1. split; eauto. Qed.
Lemma LVs es : Forall LV es -> forall rho ts r', forallb wfs es = true -> sgs es -> domq es rho ->
  tfs DX es (liftE rho) = (ts, r') ->
  map nv ts = FF (fst (dens D es rho)) /\ r' = liftE (snd (dens D es rho)).
Proof.
  induction 1 as [|y l HY H IH]; intros rho ts r' HW HG HD HE.
  - inversion HE; subst. auto.
  - cbn in HW. apply andb_true_iff in HW. destruct HW as [W1 W2]. destruct HG as [G1 G2]. destruct HD as [[u D1] D2].
    cbn [tfs] in HE. destruct (tf DX y (liftE rho)) as [t r1] eqn:E1.
    destruct (HY u rho t r1 W1 G1 D1 E1) as [V1 ->].
    destruct (tfs DX l (liftE (fin_env D y rho))) as [ts2 r2] eqn:E2. inversion HE; subst.
    destruct (IH _ _ _ W2 G2 D2 E2) as [V2 ->]. rewrite dens_cons. cbn [fst snd FF map]. split; [|reflexivity].
    now rewrite V1, V2.
Qed.
Lemma last_map {X Y} (f : X -> Y) l d : l <> [] -> forall d', last (map f l) d' = f (last l d).
Proof.
  induction l as [|x l IH]; [congruence|]. intros _ d'. destruct l as [|y l]; [reflexivity|]. apply IH. discriminate.
Qed.
Lemma LV_all e : LV e.
Proof.
  induction e using expr_ind'; intros u rho t r' HW HG HD HE.
  - inversion HE; subst. split; [apply rdv_lift|reflexivity].
  - inversion HE; subst. split; [apply (fin_fval c HD)|reflexivity].
  - inversion HE; subst. split; [apply rdv_lift|reflexivity].
  - rewrite tfx_comp in HE. rewrite sg_comp in HG. rewrite dom_comp in HD. destruct HG as [G1 G2]. destruct HD as [D1 D2].
    cbn [wfs] in HW. rewrite !andb_true_iff in HW. destruct HW as [[[W1 W2] W3] W4].
    destruct (tfs DX es (liftE rho)) as [ts r1] eqn:E1.
    destruct (LVs es H rho ts r1 W1 G2 (domq_s _ _ _ _ _ D1) E1) as [V1 ->]. rewrite V1 in HE.
    pose proof (HKV k (map is_const es) (map flat es) (map shape_of es) (st a) u (fst (dens D es rho)) W2 W3 (vals_len D es rho W1)
      (SGk_vals _ _ _ rho G1) D2) as KQ.
    destruct (kf _ _ _ _ _) as [s' v]. inversion HE; subst. unfold val, fin_env. rewrite den_comp. split; [exact KQ|reflexivity].
  - cbn [tf] in HE. cbn [wfs] in HW. rewrite !andb_true_iff in HW. destruct HW as [[[W1 W2] W3] W4].
    destruct (tf DX e (liftE rho)) as [t1 r1] eqn:E1. destruct (IHe false rho t1 r1 W1 HG HD E1) as [V1 ->].
    inversion HE; subst. unfold val, fin_env in *. cbn [den nv]. rewrite V1. destruct (den D e rho) as [v1 q1]. cbn [fst snd].
    split; [reflexivity|apply upd_lift].
  - cbn [tf] in HE. cbn [wfs] in HW. rewrite !andb_true_iff in HW. destruct HW as [[[W1 W2] W3] W4].
    destruct HD as [D1 D2].
    destruct (tf DX e (liftE rho)) as [t1 r1] eqn:E1. destruct (IHe false rho t1 r1 W1 HG D1 E1) as [V1 ->].
    inversion HE; subst. pose proof (val_len D e rho W1) as HL. unfold val, fin_env in *. cbn [den nv]. rewrite V1, rdv_lift.
    destruct (den D e rho) as [v1 q1]. cbn [fst snd] in *.
    rewrite (oe_fwd_fin q (shape_of e) (map q1 (seq o (size sh))) v1 (size sh)); auto.
    + assert (TE : tab (size sh) (fun i => oe_s q (el (map q1 (seq o (size sh))) i) (ent (shape_of e) v1 i)) =
        tab (size sh) (fun i => oe_s q (q1 (o + i)%nat) (ent (shape_of e) v1 i))).
      { apply tab_ext. intros i Hi. rewrite map_r_seq, el_tab by auto. reflexivity. }
      rewrite TE. split; [reflexivity|apply upd_lift].
    + now rewrite map_length, seq_length.
    + intros X. apply scl_size; [now apply wfs_shape'|exact X].
    + intros X. apply orb_true_iff in W3. destruct W3 as [W3|W3]; [congruence|]. apply shape_eqb_eq in W3. now rewrite W3.
  - cbn [tf] in HE. cbn [wfs] in HW. rewrite !andb_true_iff in HW. destruct HW as [[[W1 W2] W3] W4].
    destruct HG as [G1 G2]. destruct HD as [D1 D2].
    destruct (tf DX e1 (liftE rho)) as [t1 r1] eqn:E1. destruct (IHe1 false rho t1 r1 W1 G1 D1 E1) as [V1 ->].
    destruct (tf DX e2 (liftE (fin_env D e1 rho))) as [t2 r2] eqn:E2. destruct (IHe2 u _ t2 r2 W2 G2 D2 E2) as [V2 ->].
    inversion HE; subst. unfold val, fin_env in *. cbn [den nv]. rewrite V2. destruct (den D e1 rho). auto.
  - rewrite tfx_for in HE. rewrite sg_for in HG. rewrite dom_for in HD.
    cbn [wfs] in HW. rewrite !andb_true_iff in HW. destruct HW as [[[W1 W2] W3] W4].
    destruct (tfs DX es (liftE rho)) as [ts r1] eqn:E1.
    destruct (LVs es H rho ts r1 W1 HG (domq_f _ _ _ _ HD) E1) as [V1 ->]. inversion HE; subst.
    unfold val, fin_env. rewrite den_for. cbn [fst snd nv]. split; [|reflexivity].
    destruct ts as [|t0 ts].
    + destruct es as [|y l]; [reflexivity|]. rewrite dens_cons in V1. discriminate V1.
    + rewrite <- (last_map nv (t0 :: ts) _ ltac:(discriminate) []), V1. unfold FF.
      destruct es as [|y l]; [discriminate V1|]. rewrite dens_cons. cbn [fst]. apply (last_map (map Fin)). discriminate.
  - cbn [tf] in HE. cbn [wfs] in HW. rewrite !andb_true_iff in HW. destruct HW as [[[[[W1 W2] W3] W4] W5] W6].
    destruct HG as [G1 [G2 G3]]. destruct HD as [D1 [_ D2]].
    destruct (tf DX e1 (liftE rho)) as [t1 r1] eqn:E1. destruct (IHe1 false rho t1 r1 W1 G1 D1 E1) as [V1 ->].
    assert (NT : ntrue N (hd0 N (nv t1)) = negb (reqb (el (val D e1 rho) 0) 0)).
    { rewrite V1. unfold ntrue, hd0. destruct (val D e1 rho); reflexivity. }
    rewrite NT in HE. unfold val, fin_env in *. cbn [den nv]. destruct (den D e1 rho) as [v1 q1]. cbn [fst snd] in *.
    destruct (reqb (el v1 0) 0); cbn [negb] in HE.
    + destruct (tf DX e3 (liftE q1)) as [t2 r2] eqn:E2. destruct (IHe3 u _ t2 r2 W3 G3 D2 E2) as [V2 ->].
      inversion HE; subst. auto.
    + destruct (tf DX e2 (liftE q1)) as [t2 r2] eqn:E2. destruct (IHe2 u _ t2 r2 W2 G2 D2 E2) as [V2 ->].
      inversion HE; subst. auto.
Qed.
End Val.
