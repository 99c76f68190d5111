(** The engine treats numbers abstractly: a relation between two arithmetics
    that their operations preserve is preserved by every program made of them. *)
From Coq Require Import ZArith Lia.
From Verif Require Import Base Num Expr Node Stat Machine Wf Pure LBase LKind LSimDef LMem LSimF LSimB LBind Session LUser
  Tape LTape LState LNrm LTop Ieee.

Section Lists.
Context {A B A' B' C C' D D' X Y : Type}.
Lemma F2_len (R : A -> B -> Prop) l l' : Forall2 R l l' -> length l = length l'.
Proof. induction 1; cbn; congruence. Qed.
Lemma F2_nth (R : A -> B -> Prop) a b l l' i : R a b -> Forall2 R l l' -> R (nth i l a) (nth i l' b).
Proof. intros H0 H. revert i. induction H; intros [|i]; cbn; auto. Qed.
Lemma F2_map (R : A -> B -> Prop) (R' : A' -> B' -> Prop) f g l l' :
  (forall x y, R x y -> R' (f x) (g y)) -> Forall2 R l l' -> Forall2 R' (map f l) (map g l').
Proof. intros HF. induction 1; cbn; constructor; auto. Qed.
Lemma F2_maps (R : A -> B -> Prop) (f : X -> A) g l : (forall x, In x l -> R (f x) (g x)) -> Forall2 R (map f l) (map g l).
Proof. induction l; cbn; constructor; auto. Qed.
Lemma F2_rep (R : A -> B -> Prop) x y n : R x y -> Forall2 R (repeat x n) (repeat y n).
Proof. induction n; cbn; constructor; auto. Qed.
Lemma F2_fm (R : A -> B -> Prop) (f : X -> list A) g l : (forall x, In x l -> Forall2 R (f x) (g x)) -> Forall2 R (flat_map f l) (flat_map g l).
Proof. induction l; cbn; intros H; [constructor|]. apply Forall2_app; auto. Qed.
Lemma F2_fold (R : A -> B -> Prop) (Q : C -> D -> Prop) f g l l' : (forall a b x y, R a b -> Q x y -> R (f a x) (g b y)) ->
  Forall2 Q l l' -> forall a b, R a b -> R (fold_left f l a) (fold_left g l' b).
Proof. intros HF. induction 1; cbn; auto. Qed.
End Lists.
Lemma F2_hd {A B} (R : A -> B -> Prop) a b l l' : R a b -> Forall2 R l l' -> R (hd a l) (hd b l').
Proof. intros H0 [|]; cbn; auto. Qed.

Section Rel.
Context {N1 N2 : num}.
Variable R : N1 -> N2 -> Prop.
Hypothesis HP : prel R.
Let R0 := pr_0 R HP.
Let R1 := pr_1 R HP.
Let RZ := pr_Z R HP.
Let Radd := pr_add R HP.
Let Rsub := pr_sub R HP.
Let Rmul := pr_mul R HP.
Let Rdiv := pr_div R HP.
Let Ropp := pr_opp R HP.
Notation RL := (Forall2 R).
Notation E1 := (expr N1 (ann N1)).
Notation E2 := (expr N2 (ann N2)).

Lemma r_map2 f g : (forall x y x' y', R x x' -> R y y' -> R (f x y) (g x' y')) ->
  forall a a' b b', RL a a' -> RL b b' -> RL (map2 f a b) (map2 g a' b').
Proof. intros HF a a' b b' HA. revert b b'. induction HA; intros b b' [|]; cbn; constructor; auto. Qed.
Lemma r_map3 f g : (forall x y z x' y' z', R x x' -> R y y' -> R z z' -> R (f x y z) (g x' y' z')) ->
  forall a a' b b' c c', RL a a' -> RL b b' -> RL c c' -> RL (map3 f a b c) (map3 g a' b' c').
Proof. intros HF a a' b b' c c' HA. revert b b' c c'. induction HA; intros b b' c c' [|]; cbn; try constructor. intros [|]; constructor; auto. Qed.
Lemma r_map4 f g : (forall x y z w x' y' z' w', R x x' -> R y y' -> R z z' -> R w w' -> R (f x y z w) (g x' y' z' w')) ->
  forall a a' b b' c c' d d', RL a a' -> RL b b' -> RL c c' -> RL d d' -> RL (map4 f a b c d) (map4 g a' b' c' d').
Proof.
  intros HF a a' b b' c c' d d' HA. revert b b' c c' d d'. induction HA; intros b b' c c' d d' [|]; cbn; try constructor.
  intros [|]; cbn; try constructor. intros [|]; constructor; auto.
Qed.
Lemma r_sum l l' : RL l l' -> R (nsum N1 l) (nsum N2 l').
Proof. apply HP. Qed.
Lemma r_bc s n l l' : RL l l' -> RL (bc N1 s n l) (bc N2 s n l').
Proof. intros H. unfold bc. destruct (is_scl s); auto. apply F2_rep. unfold hd0. apply F2_hd; auto. Qed.
Lemma r_mget r l l' i j : RL l l' -> R (mget (n0 N1) r l i j) (mget (n0 N2) r l' i j).
Proof. intros H. unfold mget. apply F2_nth; auto. Qed.
Lemma r_mkm r c f g : (forall i j, R (f i j) (g i j)) -> RL (mkm r c f) (mkm r c g).
Proof. intros H. apply F2_fm. intros j _. apply F2_maps. auto. Qed.
Lemma r_mt r c l l' : RL l l' -> RL (mt N1 r c l) (mt N2 r c l').
Proof. intros H. apply r_mkm. intros. now apply r_mget. Qed.
Lemma r_mm r k c a a' b b' : RL a a' -> RL b b' -> RL (mm N1 r k c a b) (mm N2 r k c a' b').
Proof. intros HA HB. apply r_mkm. intros. apply r_sum, F2_maps. intros. apply Rmul; now apply r_mget. Qed.
Lemma r_red s s' l l' : RL l l' -> RL (red N1 s s' l) (red N2 s s' l').
Proof. intros H. unfold red. destruct (_ && _); auto. constructor; [now apply r_sum|constructor]. Qed.
Lemma r_bif b : is_cmp b = false -> forall c x y x' y', R x x' -> R y y' -> R (bi_f N1 c b x y) (bi_f N2 c b x' y').
Proof. destruct b; try discriminate; cbn; auto. Qed.
Lemma r_bin b sl sr n l l' r r' : is_cmp b = false -> RL l l' -> RL r r' -> RL (bin_fwd N1 b sl sr n l r) (bin_fwd N2 b sl sr n l' r').
Proof. intros HB HL HR. apply r_map2; [now apply r_bif| |]; now apply r_bc. Qed.
Lemma r_bl b sl sr s s' l l' r r' f f' : RL s s' -> RL l l' -> RL r r' -> RL f f' ->
  RL (bin_bl N1 b sl sr s l r f) (bin_bl N2 b sl sr s' l' r' f').
Proof.
  intros HS HL HR HF. unfold bin_bl. rewrite <- (F2_len _ _ _ HS). apply r_red, r_map4; auto using r_bc.
  intros; destruct b; cbn; auto.
Qed.
Lemma r_br b sl sr s s' l l' r r' f f' : RL s s' -> RL l l' -> RL r r' -> RL f f' ->
  RL (bin_br N1 b sl sr s l r f) (bin_br N2 b sl sr s' l' r' f').
Proof.
  intros HS HL HR HF.
  assert (Q : RL (red N1 sr sl (map4 (bi_br N1 b) s (bc N1 sl (length s) l) (bc N1 sr (length s) r) f))
                 (red N2 sr sl (map4 (bi_br N2 b) s' (bc N2 sl (length s') l') (bc N2 sr (length s') r') f'))).
  { rewrite <- (F2_len _ _ _ HS). apply r_red, r_map4; auto using r_bc. intros; destruct b; cbn; auto. }
  unfold bin_br. destruct b; auto. destruct (_ && _); auto. constructor; [|constructor]. apply Ropp. now apply r_sum.
Qed.
Lemma r_oef q se x x' y y' : RL x x' -> RL y y' -> RL (oe_fwd N1 q se x y) (oe_fwd N2 q se x' y').
Proof. intros HX HY. unfold oe_fwd. rewrite <- (F2_len _ _ _ HX). apply r_map2; auto using r_bc. intros; destruct q; cbn; auto. Qed.
Lemma r_oel q se s s' x x' y y' : RL s s' -> RL x x' -> RL y y' -> RL (oe_lseed N1 q se s x y) (oe_lseed N2 q se s' x' y').
Proof. intros HS HX HY. unfold oe_lseed. rewrite <- (F2_len _ _ _ HS). apply r_map3; auto using r_bc. intros; destruct q; cbn; auto. Qed.
Lemma r_oer q sv se s s' x x' y y' : RL s s' -> RL x x' -> RL y y' -> RL (oe_rseed N1 q sv se s x y) (oe_rseed N2 q sv se s' x' y').
Proof.
  intros HS HX HY.
  assert (Q : RL (map3 (oe_br N1 q) s x (bc N1 se (length s) y)) (map3 (oe_br N2 q) s' x' (bc N2 se (length s') y'))).
  { rewrite <- (F2_len _ _ _ HS). apply r_map3; auto using r_bc. intros; destruct q; cbn; auto. }
  unfold oe_rseed. destruct (_ && _); auto. destruct q; (constructor; [|constructor]); auto using r_sum.
Qed.

Lemma r_unf q x x' : R x x' -> R (un_f N1 q x) (un_f N2 q x').
Proof. intros H. destruct q; cbn [un_f]; try (now apply HP). apply Rdiv; auto. apply Radd; auto. apply HP; auto. Qed.
Lemma r_unb q s x f s' x' f' : R s s' -> R x x' -> R f f' -> R (un_b N1 q s x f) (un_b N2 q s' x' f').
Proof.
  intros HS HX HF. pose proof (pr_sin R HP) as Ksin. pose proof (pr_cos R HP) as Kcos. pose proof (pr_exp R HP) as Kexp. pose proof (pr_sqrt R HP) as Ksqrt.
  pose proof (pr_sinh R HP) as Ksinh. pose proof (pr_cosh R HP) as Kcosh. pose proof (pr_half R HP) as Khalf. pose proof (pr_erfc R HP) as Kerfc.
  destruct q; cbn [un_b]; auto 12.
Qed.
Lemma r_powp p x x' : R x x' -> R (powp N1 p x) (powp N2 p x').
Proof. intros H. induction p; cbn [powp]; auto. Qed.
Lemma r_powf sh z x x' : (0 <= z)%Z -> R x x' -> R (pow_f N1 sh z x) (pow_f N2 sh z x').
Proof.
  intros HZ H. unfold pow_f. destruct (is_scl sh); [|now apply HP]. destruct z as [|p|p]; cbn [powfunc]; [exact R1|now apply r_powp|lia].
Qed.
Lemma r_if0 x x' a a' b b' y y' : R x x' -> R a a' -> R b b' -> R y y' ->
  R (if neqb N1 x (n0 N1) then y else nmul N1 b (ndiv N1 a x)) (if neqb N2 x' (n0 N2) then y' else nmul N2 b' (ndiv N2 a' x')).
Proof.
  intros HX HA HB HY. destruct (pr_eq0 R HP x x' HX) as [<-|[-> Q]]; [|apply Q]. destruct (neqb N1 x _); auto.
Qed.
Lemma r_powb z s x f s' x' f' : (0 <= z)%Z -> R s s' -> R x x' -> R f f' -> R (pow_b N1 z s x f) (pow_b N2 z s' x' f').
Proof.
  intros HZ HS HX HF. unfold pow_b. replace (z <? 0)%Z with false by (symmetry; apply Z.ltb_ge; exact HZ).
  destruct (pr_eq0 R HP x x' HX) as [<-|[-> Q]]; [|apply Q]. destruct (neqb N1 x _); auto.
Qed.
Lemma r_prod l l' : RL l l' -> forall a a', R a a' -> R (fold_left (nmul N1) l a) (fold_left (nmul N2) l' a').
Proof. intros H. eapply F2_fold; [|exact H]. auto. Qed.
Lemma F2_firstn i (l : list N1) (l' : list N2) : RL l l' -> RL (firstn i l) (firstn i l').
Proof. intros H. revert i. induction H; intros [|i]; cbn; constructor; auto. Qed.
Lemma F2_skipn i (l : list N1) (l' : list N2) : RL l l' -> RL (skipn i l) (skipn i l').
Proof. intros H. revert i. induction H; intros [|i]; cbn; try constructor; auto. Qed.
Lemma r_prodE s s' f f' l l' : R s s' -> R f f' -> RL l l' -> RL (prodE_b N1 s f l) (prodE_b N2 s' f' l').
Proof.
  intros HS HF HL. unfold prodE_b. rewrite <- (F2_len _ _ _ HL). apply F2_maps. intros i _. cbv zeta. apply r_if0; auto.
  - now apply F2_nth.
  - apply r_prod; auto. unfold others. apply Forall2_app; [now apply F2_firstn|]. now apply F2_skipn.
Qed.

(** ** Nodes *)
Lemma r_arg vs vs' i : Forall2 RL vs vs' -> RL (arg N1 vs i) (arg N2 vs' i).
Proof. intros H. unfold arg. apply F2_nth; auto. Qed.
Lemma r_kf k cs ss s s' vs vs' : arith k = true -> Forall2 RL vs vs' -> RL (snd (kf k cs ss s vs)) (snd (kf k cs ss s' vs')).
Proof.
  intros HK HV. pose proof (r_arg vs vs' 0 HV) as A0. pose proof (r_arg vs vs' 1 HV) as A1.
  unfold kf. destruct k; try discriminate HK; cbn [kfwd bindR snd].
  - eapply F2_map; [|exact A0]. intros. now apply r_unf.
  - eapply F2_map; [|exact A0]. intros. apply r_powf; auto. now apply Z.leb_le.
  - now apply r_mt.
  - constructor; [now apply r_sum|constructor].
  - constructor; [now apply HP|constructor].
  - constructor; [|constructor]. apply r_sum. eapply F2_map; [|exact A0]. unfold nsq. auto.
  - apply r_bin; auto. cbn in HK. now destruct (is_cmp b).
  - now apply r_mm.
  - eapply F2_fold; [|exact HV|now apply F2_rep]. intros. now apply r_map2.
Qed.
Lemma r_kseed k cs ss s s' ad ad' vs vs' f f' i : arith k = true -> RL ad ad' -> Forall2 RL vs vs' -> RL f f' ->
  match kseed k cs ss s ad vs f i, kseed k cs ss s' ad' vs' f' i with
  | Some l, Some l' => RL l l' | None, None => True | _, _ => False end.
Proof.
  intros HK HA HV HF. pose proof (r_arg vs vs' 0 HV) as A0. pose proof (r_arg vs vs' 1 HV) as A1.
  assert (HD : R (hd0 N1 ad) (hd0 N2 ad')) by (unfold hd0; apply F2_hd; auto).
  destruct k; try discriminate HK; cbn [kseed].
  - apply r_map3; auto. intros. now apply r_unb.
  - destruct (z =? 0)%Z; [now apply F2_rep|]. destruct (z =? 1)%Z; [exact HA|]. apply r_map3; auto. intros. apply r_powb; auto. now apply Z.leb_le.
  - now apply r_mt.
  - now apply F2_rep.
  - apply r_prodE; auto; unfold hd0; now apply F2_hd.
  - eapply F2_map; [|exact A0]. intros. apply Rmul; auto. apply Rmul; [exact HD|apply RZ].
  - cbn in HK. destruct (is_cmp b); [discriminate|]. destruct i; [apply r_bl|apply r_br]; auto.
  - destruct i; apply r_mm; auto using r_mt.
  - exact HA.
Qed.
Lemma r_vsel k vs vs' : Forall2 RL vs vs' -> Forall2 RL (vsel k vs) (vsel k vs').
Proof. intros H. unfold vsel. destruct (kget k); auto. eapply F2_map; [|exact H]. constructor. Qed.

(** ** Expressions and records *)
Fixpoint ER (e : E1) (e' : E2) {struct e} : Prop :=
  match e, e' with
  | EVar s o, EVar s' o' => s = s' /\ o = o'
  | ECst s c, ECst s' c' => s = s' /\ RL c c'
  | ECvw s o, ECvw s' o' => s = s' /\ o = o'
  | EComp k _ es, EComp k' _ es' => k = k' /\ arith k = true /\
      (fix go l l' := match l, l' with [], [] => True | x :: t, x' :: t' => ER x x' /\ go t t' | _, _ => False end) es es'
  | EEq _ s o y, EEq _ s' o' y' => s = s' /\ o = o' /\ ER y y'
  | EOpEq q _ s o y, EOpEq q' _ s' o' y' => q = q' /\ s = s' /\ o = o' /\ ER y y'
  | EGlue _ l r, EGlue _ l' r' => ER l l' /\ ER r r'
  | EFor _ s es, EFor _ s' es' => s = s' /\
      (fix go l l' := match l, l' with [], [] => True | x :: t, x' :: t' => ER x x' /\ go t t' | _, _ => False end) es es'
  | _, _ => False
  end.
Lemma ER_list (es : list E1) : forall es' : list E2,
  (fix go l l' := match l, l' with [], [] => True | x :: t, x' :: t' => ER x x' /\ go t t' | _, _ => False end) es es' <-> Forall2 ER es es'.
Proof.
  induction es as [|x t IH]; intros [|x' t']; split; intros H; try contradiction; try exact I; try (now inversion H).
  - destruct H as [H1 H2]. constructor; [exact H1|]. now apply IH.
  - inversion H; subst. split; [assumption|]. now apply IH.
Qed.
Lemma ER_shape e : forall e', ER e e' -> shape_of e = shape_of e' /\ is_const e = is_const e'.
Proof.
  induction e using expr_ind'; intros [] HE; try contradiction; cbn [ER] in HE; cbn [shape_of is_const].
  - intuition congruence. - intuition congruence. - intuition congruence.
  - destruct HE as [<- [_ HE]]. rewrite ER_list in HE. split; [|reflexivity]. f_equal.
    clear -H HE. revert es0 HE. induction H as [|y l HY H IH]; intros l' HE; inversion HE; subst; cbn; [reflexivity|].
    f_equal; [now apply HY|now apply IH].
  - intuition congruence. - intuition congruence.
  - destruct HE. split; [|reflexivity]. now apply IHe2.
  - destruct HE as [<- HE]. rewrite ER_list in HE. split; [|reflexivity].
    assert (Q : map shape_of es = map shape_of es0).
    { clear -H HE. revert es0 HE. induction H as [|y l HY H IH]; intros l' HE; inversion HE; subst; cbn; [reflexivity|].
      f_equal; [now apply HY|now apply IH]. }
    now rewrite Q.
Qed.
Lemma ER_shapes es es' : Forall2 ER es es' -> map shape_of es = map shape_of es' /\ map is_const es = map is_const es'.
Proof.
  induction 1 as [|x x' l l' HX HL [I1 I2]]; [auto|]. destruct (ER_shape _ _ HX) as [S1 S2]. cbn. split; congruence.
Qed.
Inductive TRr : rec N1 -> rec N2 -> Prop :=
| TRi v v' s s' o o' ts ts' : RL v v' -> RL o o' -> Forall2 TRr ts ts' -> TRr (Nd v s o ts) (Nd v' s' o' ts').
Definition er_env (r : nat -> N1) (r' : nat -> N2) : Prop := forall o, R (r o) (r' o).
Lemma r_rdv r r' o n : er_env r r' -> RL (rdv r o n) (rdv r' o n).
Proof. intros H. apply F2_maps. intros. apply H. Qed.
Lemma r_upd r r' o l l' : er_env r r' -> RL l l' -> er_env (upd r o l) (upd r' o l').
Proof. intros H HL i. unfold upd. rewrite <- (F2_len _ _ _ HL). destruct (_ && _); [|apply H]. now apply F2_nth. Qed.
Lemma r_padd r r' o l l' : er_env r r' -> RL l l' -> er_env (padd r o l) (padd r' o l').
Proof. intros H HL. apply r_upd; auto. apply r_map2; auto. rewrite <- (F2_len _ _ _ HL). now apply r_rdv. Qed.
Lemma tr_nv t t' : TRr t t' -> RL (nv t) (nv t'). Proof. now intros []. Qed.
Lemma tr_no t t' : TRr t t' -> RL (no t) (no t'). Proof. now intros []. Qed.
Lemma tr_nts t t' : TRr t t' -> Forall2 TRr (nts t) (nts t'). Proof. now intros []. Qed.

Variables (D : nat -> N1) (D' : nat -> N2).
Hypothesis HDD : er_env D D'.
Definition PFr (e : E1) : Prop := forall e' r r' t q t' q', ER e e' -> er_env r r' -> tf D e r = (t, q) -> tf D' e' r' = (t', q') ->
  TRr t t' /\ er_env q q'.
Lemma tfs_r es : Forall PFr es -> forall es' r r' ts q ts' q', Forall2 ER es es' -> er_env r r' ->
  tfs D es r = (ts, q) -> tfs D' es' r' = (ts', q') -> Forall2 TRr ts ts' /\ er_env q q'.
Proof.
  induction 1 as [|y l HY H IH]; intros es' r r' ts q ts' q' HE HR Q1 Q2; inversion HE; subst; cbn [tfs] in Q1, Q2.
  - inversion Q1; inversion Q2; subst. auto.
  - fold (tfs D) in Q1. fold (tfs D') in Q2. destruct (tf D y r) as [t r1] eqn:A1. destruct (tf D' y0 r') as [t' r1'] eqn:A2.
    destruct (tfs D l r1) as [t2 r2] eqn:B1. destruct (tfs D' l' r1') as [t2' r2'] eqn:B2. inversion Q1; inversion Q2; subst.
    destruct (HY _ _ _ _ _ _ _ ltac:(eassumption) HR A1 A2) as [C1 C2]. destruct (IH _ _ _ _ _ _ _ ltac:(eassumption) C2 B1 B2). auto.
Qed.
Lemma pf_r e : PFr e.
Proof.
  induction e using expr_ind'; intros e' r r' t w t' w' HE HR Q1 Q2; destruct e'; try contradiction; cbn [ER] in HE.
  - destruct HE as [<- <-]. inversion Q1; inversion Q2; subst. split; auto. constructor; auto. now apply r_rdv.
  - destruct HE as [<- HC]. inversion Q1; inversion Q2; subst. split; auto. constructor; auto.
  - destruct HE as [<- <-]. inversion Q1; inversion Q2; subst. split; auto. constructor; auto. now apply r_rdv.
  - destruct HE as [<- [HK HE]]. rewrite ER_list in HE. rewrite tf_comp in Q1. rewrite tf_comp in Q2.
    destruct (tfs D es r) as [ts r1] eqn:A1. destruct (tfs D' es0 r') as [ts' r1'] eqn:A2.
    destruct (tfs_r es H es0 r r' _ _ _ _ HE HR A1 A2) as [C1 C2]. destruct (ER_shapes _ _ HE) as [S1 S2].
    rewrite <- S1, <- S2 in Q2.
    pose proof (r_kf k (map is_const es) (map shape_of es) (st a) (st a0) (map nv ts) (map nv ts') HK) as HF.
    destruct (kf k _ _ (st a) _) as [s1 v1] eqn:K1. destruct (kf k _ _ (st a0) _) as [s2 v2] eqn:K2.
    inversion Q1; inversion Q2; subst. split; auto. constructor; auto. apply HF. eapply F2_map; [|exact C1]. intros; now apply tr_nv.
  - destruct HE as [<- [<- HE]]. cbn [tf] in Q1, Q2. destruct (tf D e r) as [t1 r1] eqn:A1. destruct (tf D' e' r') as [t1' r1'] eqn:A2.
    destruct (IHe _ _ _ _ _ _ _ HE HR A1 A2) as [C1 C2]. inversion Q1; inversion Q2; subst.
    split; [constructor; auto using tr_nv|]. apply r_upd; auto using tr_nv.
  - destruct HE as [<- [<- [<- HE]]]. cbn [tf] in Q1, Q2. destruct (tf D e r) as [t1 r1] eqn:A1. destruct (tf D' e' r') as [t1' r1'] eqn:A2.
    destruct (IHe _ _ _ _ _ _ _ HE HR A1 A2) as [C1 C2]. inversion Q1; inversion Q2; subst.
    rewrite <- (proj1 (ER_shape _ _ HE)).
    assert (W : RL (oe_fwd N1 q (shape_of e) (rdv r1 o (size sh)) (nv t1)) (oe_fwd N2 q (shape_of e) (rdv r1' o (size sh)) (nv t1')))
      by (apply r_oef; [now apply r_rdv|now apply tr_nv]).
    split; [constructor; auto; now apply r_rdv|]. now apply r_upd.
  - destruct HE as [HE1 HE2]. cbn [tf] in Q1, Q2. destruct (tf D e1 r) as [t1 r1] eqn:A1. destruct (tf D' e'1 r') as [t1' r1'] eqn:A2.
    destruct (IHe1 _ _ _ _ _ _ _ HE1 HR A1 A2) as [C1 C2].
    destruct (tf D e2 r1) as [t2 r2] eqn:B1. destruct (tf D' e'2 r1') as [t2' r2'] eqn:B2.
    destruct (IHe2 _ _ _ _ _ _ _ HE2 C2 B1 B2) as [C3 C4]. inversion Q1; inversion Q2; subst.
    split; auto. constructor; auto using tr_nv.
  - destruct HE as [<- HE]. rewrite ER_list in HE. rewrite tf_for in Q1. rewrite tf_for in Q2.
    destruct (tfs D es r) as [ts r1] eqn:A1. destruct (tfs D' es0 r') as [ts' r1'] eqn:A2.
    destruct (tfs_r es H es0 r r' _ _ _ _ HE HR A1 A2) as [C1 C2]. inversion Q1; inversion Q2; subst. split; auto.
    constructor; auto. clear -C1. induction C1 as [|x x' l l' HX HL IH]; [cbn; constructor|].
    destruct HL; [now apply tr_nv|exact IH].
Qed.
Definition PBr (e : E1) : Prop := forall e' t t' s s' a a', ER e e' -> TRr t t' -> RL s s' -> er_env a a' ->
  er_env (tb e t s a) (tb e' t' s' a').
Lemma pb_r e : PBr e.
Proof.
  induction e using expr_ind'; intros e' t t' sd sd' al al' HE HT HS HA; destruct e'; try contradiction; cbn [ER] in HE.
  - destruct HE as [<- <-]. now apply r_padd.
  - exact HA.
  - exact HA.
  - destruct HE as [<- [HK HE]]. rewrite ER_list in HE. rewrite !tb_comp. destruct (ER_shapes _ _ HE) as [S1 S2].
    assert (G : forall l l' i ts ts' al al', Forall PBr l -> Forall2 ER l l' -> Forall2 TRr ts ts' -> er_env al al' ->
      er_env (tbl k es t sd i l ts al) (tbl k es0 t' sd' i l' ts' al')).
    { clear HA al al'. induction l as [|y l IH]; intros l' i ts ts' al al' HF HL HTS HA; inversion HL; subst; [exact HA|].
      inversion HF; subst. destruct HTS as [|ty ty' ts ts' HTY HTS]; [exact HA|]. cbn [tbl].
      fold (tbl k es t sd). fold (tbl k es0 t' sd'). rewrite <- S1, <- S2.
      assert (HV : Forall2 RL (vsel k (map nv (nts t))) (vsel k (map nv (nts t')))).
      { apply r_vsel. eapply F2_map; [|exact (tr_nts _ _ HT)]. intros; now apply tr_nv. }
      pose proof (IH l'0 (S i) ts ts' al al' ltac:(assumption) ltac:(assumption) HTS HA) as HA1.
      assert (KP : forall vs f, @kpre N1 k i vs f = None) by (intros; destruct k; try discriminate HK; reflexivity).
      assert (KP' : forall vs f, @kpre N2 k i vs f = None) by (intros; destruct k; try discriminate HK; reflexivity).
      rewrite KP, KP'.
      pose proof (r_kseed k (map is_const es) (map shape_of es) (ns t) (ns t') sd sd' _ _ (nv t) (nv t') i HK HS HV (tr_nv _ _ HT)) as KS.
      destruct (kseed k _ _ (ns t) _ _ _ _), (kseed k _ _ (ns t') _ _ _ _); try contradiction; auto. }
    apply G; auto. now apply tr_nts.
  - destruct HE as [<- [<- HE]]. cbn [tb]. pose proof (tr_nts _ _ HT) as HN. destruct HN as [|x x' l l' HX [|]]; auto.
    assert (P : er_env (padd al o sd) (padd al' o sd')) by now apply r_padd.
    apply IHe; auto. now apply r_rdv.
  - destruct HE as [<- [<- [<- HE]]]. cbn [tb]. pose proof (tr_nts _ _ HT) as HN. destruct HN as [|x x' l l' HX [|]]; auto.
    assert (P : er_env (padd al o sd) (padd al' o sd')) by now apply r_padd.
    rewrite <- (proj1 (ER_shape _ _ HE)).
    assert (G : RL (rdv (padd al o sd) o (size sh)) (rdv (padd al' o sd') o (size sh))) by now apply r_rdv.
    apply r_padd; [|apply r_oel; auto using tr_no, tr_nv].
    apply IHe; auto; [apply r_oer; auto using tr_no, tr_nv|]. apply r_upd; auto. now apply F2_rep.
  - destruct HE as [HE1 HE2]. cbn [tb]. pose proof (tr_nts _ _ HT) as HN. destruct HN as [|x x' l1 l1' HX [|y y' l2 l2' HY [|]]]; auto.
    rewrite <- (proj1 (ER_shape _ _ HE1)). apply IHe1; auto. now apply F2_rep.
  - destruct HE as [<- HE]. rewrite ER_list in HE. rewrite !tb_for. pose proof (tr_nts _ _ HT) as HN.
    revert al al' HA. clear HT. revert HE HN. generalize (nts t) (nts t'). intros ts ts' HE. revert ts ts'.
    induction HE as [|y y' l l' HY HL IH]; intros ts ts' HN al al' HA; [destruct HN; exact HA|].
    inversion H; subst. destruct HN as [|x x' ts ts' HX HN]; [exact HA|]. cbn [tbf]. fold (tbf sd). fold (tbf sd').
    destruct HL as [|z z' l l' HZ HL]; [now apply H2|]. rewrite <- (proj1 (ER_shape _ _ HY)). 
    apply H2; [exact HY|exact HX|now apply F2_rep|]. apply IH; auto.
Qed.
Lemma prod_arith e : forall e' t, ER e e' -> prod_ok e t.
Proof.
  induction e using expr_ind'; intros e' t HE; destruct e'; try contradiction; cbn [ER] in HE; cbn [prod_ok]; auto.
  - destruct HE as [<- [HK HE]]. rewrite ER_list in HE. split; [destruct k; try exact I; discriminate|].
    generalize (nts t). clear t. induction HE as [|x x' l l' HX HL IH]; intros [|y ts]; auto. inversion H; subst. split; [eapply H2; exact HX|apply IH; exact H3].
  - destruct HE as [_ [_ HE]]. destruct (nts t) as [|x [|]]; auto. eauto.
  - destruct HE as [_ [_ [_ HE]]]. destruct (nts t) as [|x [|]]; auto. eauto.
  - destruct HE. destruct (nts t) as [|x [|y [|]]]; auto. eauto.
  - destruct HE as [<- HE]. rewrite ER_list in HE. generalize (nts t). clear t.
    induction HE as [|x x' l l' HX HL IH]; intros [|y ts]; auto. inversion H; subst. split; [eapply H2; exact HX|apply IH; exact H3].
Qed.
End Rel.
