(** Proofs about the C++ types of expressions (Types.v). *)
From Verif Require Import Base Num Expr Node Machine Wf Fold Ieee Types LBase.
Set Bullet Behavior "Strict Subproofs".

Lemma conv_unambiguous x : length (matches x) <= 1.
Proof. destruct x as [t|v k|v|v r c|]; try (cbn; lia). destruct r, c as [[|[|]]|]; cbn; lia. Qed.
Lemma conv_none x : convert x = None <->
  x = XOther \/ exists v r c, x = XEigen v r c /\ c <> Some 1 /\ (r <> None \/ c <> None).
Proof.
  split.
  - destruct x as [t|v k|v|v r c|]; cbn; try discriminate; [|tauto].
    intros H. right. exists v, r, c. split; auto. destruct r, c as [[|[|]]|]; cbn in H; try discriminate; split; try discriminate;
      solve [left; discriminate|right; discriminate].
  - intros [->|[v [r [c [-> [H [K|K]]]]]]]; auto; destruct r, c as [[|[|]]|]; cbn; auto; congruence.
Qed.
Lemma conv_to x t : convert x = Some t <->
  x = XExpr t \/ (exists v k, x = XVar v k /\ t = Ty TVar v k) \/ (exists v, x = XArith v /\ t = Ty TCst v Scl) \/
  (exists v r, x = XEigen v r (Some 1) /\ t = Ty TCst v Vec) \/ (exists v, x = XEigen v None None /\ t = Ty TCst v Mat).
Proof.
  split.
  - destruct x as [t'|v k|v|v [r|] [[|[|c]]|]|]; cbn; intros H; inversion H; subst; eauto 12.
  - intros [->|[[v [k [-> ->]]]|[[v [-> ->]]|[[v [r [-> ->]]]|[v [-> ->]]]]]]; try reflexivity. destruct r; reflexivity.
Qed.
Lemma over_to x y a b : overload2 x y = Some (a, b) <->
  convert x = Some a /\ convert y = Some b /\
  ((exists t, x = XExpr t \/ y = XExpr t) \/ exists v k, x = XVar v k \/ y = XVar v k).
Proof.
  unfold overload2. split.
  - destruct (convert x), (convert y); try discriminate. destruct (is_ad x || is_ad y) eqn:E; [|discriminate].
    intros H; inversion H; subst. split; [reflexivity|]. split; [reflexivity|].
    apply Bool.orb_prop in E. destruct E as [E|E]; [destruct x|destruct y]; try discriminate; eauto.
  - intros [-> [-> H]]. assert (E : is_ad x || is_ad y = true).
    { apply Bool.orb_true_intro. destruct H as [[t [->| ->]]|[v [k [->| ->]]]]; cbn; auto. }
    now rewrite E.
Qed.

Lemma vt_eqb_eq a b : vt_eqb a b = true <-> a = b.
Proof. destruct a, b; cbn; split; congruence. Qed.
Lemma seqo_some {A} (l : list (option A)) s : seqo l = Some s -> l = map Some s.
Proof.
  revert s. induction l as [|[a|] l IH]; cbn; intros s H; try discriminate; [now injection H as <-|].
  destruct (seqo l) as [r|]; [|discriminate]. injection H as <-. cbn. f_equal. auto.
Qed.
Lemma seqo_in {B} (f : B -> option ty) l ts x : seqo (map f l) = Some ts -> In x l -> exists t, f x = Some t /\ In t ts.
Proof.
  intros H HI. apply seqo_some in H. apply (in_map f) in HI. rewrite H in HI. apply in_map_iff in HI.
  destruct HI as [t [E1 E2]]. exists t. auto.
Qed.
Lemma seqo_len {B} (f : B -> option ty) l ts : seqo (map f l) = Some ts -> length ts = length l.
Proof. intros H. apply seqo_some in H. apply (f_equal (@length _)) in H. rewrite !map_length in H. auto. Qed.
Lemma node_some vs ts t : node vs ts = Some t -> exists v s, vs = Some (v, s) /\ t = Ty TNode v s /\ forallb (links v) ts = true.
Proof.
  destruct vs as [[v s]|]; cbn; [|discriminate]. destruct (forallb (links v) ts) eqn:E; [|discriminate].
  intros H. injection H as <-. eauto.
Qed.
Lemma comp_some k ts t : comp_ty k ts = Some t -> tc t = TNode -> node (nodety k ts) ts = Some t.
Proof.
  unfold comp_ty. destruct (folds k && _); [|auto]. destruct (foldty k ts) as [[v s]|]; [|discriminate].
  intros H. injection H as <-. discriminate.
Qed.

(** Constants have no nodes below them that keep their own storage: folding
    consumed them. *)
Lemma ops_typed u t : cty u = Some t -> tc t = TNode ->
  forall y, In y (ops u) -> exists t', cty y = Some t' /\ (tc t' = TNode -> tv t' = tv t).
Proof.
  intros H HN y HI. destruct u; cbn in HI; try contradiction; cbn -[node] in H.
  - destruct (seqo (map cty es)) as [ts|] eqn:ES; [|discriminate].
    destruct (seqo_in cty es ts y ES HI) as [t' [E1 E2]]. exists t'. split; auto. intros HN'.
    pose proof (comp_some _ _ _ H HN) as K. apply node_some in K. destruct K as [v [s [E3 [-> E4]]]].
    rewrite forallb_forall in E4. specialize (E4 t' E2). unfold links in E4. rewrite HN' in E4. now apply vt_eqb_eq.
  - destruct HI as [<-|[]]. destruct (cty u) as [t'|]; [|discriminate]. exists t'. split; auto. intros HN'.
    destruct (_ && _); [|discriminate]. apply node_some in H. destruct H as [v [s [E3 [-> E4]]]]. cbn in E4.
    unfold links in E4. rewrite HN', andb_true_r in E4. now apply vt_eqb_eq.
  - destruct HI as [<-|[]]. destruct (cty u) as [t'|]; [|discriminate]. exists t'. split; auto. intros HN'.
    destruct (_ && _); [|discriminate]. apply node_some in H. destruct H as [v [s [E3 [-> E4]]]]. cbn in E4.
    unfold links in E4. rewrite HN', andb_true_r in E4. now apply vt_eqb_eq.
  - destruct (cty u1) as [t1|] eqn:U1; [|discriminate]. destruct (cty u2) as [t2|] eqn:U2; [|discriminate].
    destruct (is_tcst t2); [discriminate|]. apply node_some in H. destruct H as [v [s [E3 [-> E4]]]]. cbn in E4.
    rewrite andb_true_r in E4. apply andb_true_iff in E4. destruct E4 as [E4 E5]. unfold links in *.
    destruct HI as [<-|[<-|[]]]; eexists; (split; [eassumption|]); intros HN'; rewrite HN' in *; now apply vt_eqb_eq.
  - destruct (seqo (map cty es)) as [ts|] eqn:ES; [|discriminate].
    destruct (seqo_in cty es ts y ES HI) as [t' [E1 E2]]. exists t'. split; auto. intros HN'.
    destruct ts as [|a0 l]; [destruct E2|]. destruct (_ && _); [|discriminate].
    apply node_some in H. destruct H as [v [s' [E3 [-> E4]]]].
    rewrite forallb_forall in E4. specialize (E4 t' E2). unfold links in E4. rewrite HN' in E4. now apply vt_eqb_eq.
  - destruct (cty u1) as [t1|] eqn:U1; [|discriminate]. destruct (cty u2) as [t2|] eqn:U2; [|discriminate].
    destruct (cty u3) as [t3|] eqn:U3; [|discriminate]. unfold if_ty in H.
    destruct (_ && sk_eqb _ _); [|discriminate]. destruct (_ && is_tcst t3).
    { destruct (_ || _); [|discriminate]. injection H as <-. discriminate. }
    destruct (vt_eqb _ _); [|discriminate]. apply node_some in H. destruct H as [v [s [E3 [-> E4]]]]. cbn in E4.
    rewrite !andb_true_iff in E4. destruct E4 as [E4 [E5 [E6 _]]]. unfold links in *.
    destruct HI as [<-|[<-|[<-|[]]]]; eexists; (split; [eassumption|]); intros HN'; rewrite HN' in *; now apply vt_eqb_eq.
Qed.
Lemma ops_const u t : cty u = Some t -> tc t = TCst ->
  forall y, In y (ops u) -> exists t', cty y = Some t' /\ tc t' = TCst.
Proof.
  intros H HN y HI. destruct u; cbn in HI; try contradiction; cbn -[node] in H.
  - destruct (seqo (map cty es)) as [ts|] eqn:ES; [|discriminate].
    destruct (seqo_in cty es ts y ES HI) as [t' [E1 E2]]. exists t'. split; auto.
    unfold comp_ty in H. destruct (folds k && _) eqn:F.
    + apply andb_true_iff in F. destruct F as [_ F]. destruct ts as [|a0 l]; [discriminate|].
      rewrite forallb_forall in F. specialize (F t' E2). unfold is_tcst in F. destruct (tc t'); auto; discriminate.
    + apply node_some in H. destruct H as [v [s [_ [-> _]]]]. discriminate.
  - destruct (cty u) as [t'|]; [|discriminate]. destruct (_ && _); [|discriminate].
    apply node_some in H. destruct H as [v [s [_ [-> _]]]]. discriminate.
  - destruct (cty u) as [t'|]; [|discriminate]. destruct (_ && _); [|discriminate].
    apply node_some in H. destruct H as [v [s [_ [-> _]]]]. discriminate.
  - destruct (cty u1) as [t1|]; [|discriminate]. destruct (cty u2) as [t2|]; [|discriminate].
    destruct (is_tcst t2); [discriminate|]. apply node_some in H. destruct H as [v [s [_ [-> _]]]]. discriminate.
  - destruct (seqo (map cty es)) as [ts|]; [|discriminate]. destruct ts as [|a0 l]; [injection H as <-; discriminate|].
    destruct (_ && _); [|discriminate]. apply node_some in H. destruct H as [v [s' [_ [-> _]]]]. discriminate.
  - destruct (cty u1) as [t1|] eqn:U1; [|discriminate]. destruct (cty u2) as [t2|] eqn:U2; [|discriminate].
    destruct (cty u3) as [t3|] eqn:U3; [|discriminate]. unfold if_ty in H.
    destruct (_ && sk_eqb _ _); [|discriminate]. destruct (_ && is_tcst t3) eqn:F.
    { rewrite !andb_true_iff in F. destruct F as [[F1 F2] F3]. unfold is_tcst in *.
      destruct HI as [<-|[<-|[<-|[]]]]; eexists; (split; [eassumption|]).
      - destruct (tc t1); auto; discriminate.
      - destruct (tc t2); auto; discriminate.
      - destruct (tc t3); auto; discriminate. }
    destruct (vt_eqb _ _); [|discriminate]. apply node_some in H. destruct H as [v [s [_ [-> _]]]]. discriminate.
Qed.
Lemma var_ops u t : cty u = Some t -> tc t = TVar -> ops u = [].
Proof.
  intros H HN. destruct u; cbn -[node] in *; auto.
  - destruct (seqo (map cty es)) as [ts|] eqn:ES; [|discriminate]. unfold comp_ty in H. destruct (folds k && _).
    + destruct (foldty k ts) as [[v s]|]; [|discriminate]. injection H as <-. discriminate.
    + apply node_some in H. destruct H as [v [s [_ [-> _]]]]. discriminate.
  - destruct (cty u) as [t'|]; [|discriminate]. destruct (_ && _); [|discriminate].
    apply node_some in H. destruct H as [v [s [_ [-> _]]]]. discriminate.
  - destruct (cty u) as [t'|]; [|discriminate]. destruct (_ && _); [|discriminate].
    apply node_some in H. destruct H as [v [s [_ [-> _]]]]. discriminate.
  - destruct (cty u1) as [t1|]; [|discriminate]. destruct (cty u2) as [t2|]; [|discriminate].
    destruct (is_tcst t2); [discriminate|]. apply node_some in H. destruct H as [v [s [_ [-> _]]]]. discriminate.
  - destruct (seqo (map cty es)) as [ts|]; [|discriminate]. destruct ts as [|b l]; [injection H as <-; discriminate|].
    destruct (_ && _); [|discriminate]. apply node_some in H. destruct H as [v [s' [_ [-> _]]]]. discriminate.
  - destruct (cty u1) as [t1|] eqn:U1; [|discriminate]. destruct (cty u2) as [t2|] eqn:U2; [|discriminate].
    destruct (cty u3) as [t3|] eqn:U3; [|discriminate]. unfold if_ty in H.
    destruct (_ && sk_eqb _ _); [|discriminate]. destruct (_ && is_tcst t3) eqn:F.
    { destruct (_ || _); [|discriminate]. injection H as <-. discriminate. }
    destruct (vt_eqb _ _); [|discriminate]. apply node_some in H. destruct H as [v [s [_ [-> _]]]]. discriminate.
Qed.
Lemma sub_const x u : sub x u -> forall t, cty u = Some t -> tc t = TCst -> exists t', cty x = Some t' /\ tc t' = TCst.
Proof.
  induction 1 as [|y e HI HS IH]; intros t H HN; [eauto|].
  destruct (ops_const e t H HN y HI) as [t1 [E1 E2]]. eauto.
Qed.
Lemma uniform x u t : cty u = Some t -> tc t = TNode -> sub x u ->
  exists t', cty x = Some t' /\ (tc t' = TNode -> tv t' = tv t).
Proof.
  intros H HN HS. revert t H HN. induction HS as [|y e HI HS IH]; intros t H HN; [eauto|].
  destruct (ops_typed e t H HN y HI) as [t1 [E1 E2]]. destruct (tc t1) eqn:C.
  - destruct (sub_const x y HS t1 E1 C) as [t' [E3 E4]]. exists t'. split; auto. congruence.
  - pose proof (var_ops y t1 E1 C) as EO. destruct HS as [|z y HI' HS]; [|rewrite EO in HI'; destruct HI'].
    exists t1. split; auto. congruence.
  - destruct (IH t1 E1 C) as [t' [E3 E4]]. exists t'. split; auto. intros K. rewrite E4; auto.
Qed.
(** A node over a variable is a node of double. *)
Lemma common_l a : common a TD = TD. Proof. now destruct a. Qed.
Lemma common_r a : common TD a = TD. Proof. now destruct a. Qed.
Lemma node_var k ts t a : nodety k ts = Some (tv t, tk t) -> In a ts -> tv a = TD -> tc a = TVar -> tv t = TD.
Proof.
  intros H HI HD HC.
  destruct k; cbn in H;
    repeat match type of H with
    | match ?l with [] => _ | _ => _ end = _ => destruct l as [|?x l]; try discriminate
    | (if ?b then _ else _) = _ => let E := fresh "E" in destruct b eqn:E; try discriminate
    | match ?q with NormSSS => _ | _ => _ end = _ => destruct q; try discriminate
    end; injection H as H1 H2; rewrite <- ?H1;
    repeat match goal with H : _ && _ = true |- _ => apply andb_true_iff in H; destruct H end;
    repeat match goal with H : vt_eqb _ _ = true |- _ => apply vt_eqb_eq in H end;
    try (cbn in HI; decompose [or] HI; subst; try contradiction; rewrite ?HD, ?common_l, ?common_r in *; congruence || auto; fail).
  - destruct HI as [<-|HI]; auto. rewrite forallb_forall in H0. specialize (H0 a HI). unfold same_ty in H0.
    apply andb_true_iff in H0. destruct H0 as [H0 _]. apply vt_eqb_eq in H0. congruence.
  - destruct HI as [<-|HI]; auto. rewrite forallb_forall in H0. specialize (H0 a HI). unfold same_ty in H0.
    apply andb_true_iff in H0. destruct H0 as [H0 _]. apply vt_eqb_eq in H0. congruence.
  - cbn in HI. decompose [or] HI; subst; try contradiction; rewrite ?HD, ?common_l, ?common_r; auto.
    unfold is_tcst in *. rewrite HC in *. discriminate.
Qed.
Lemma seqo_in' {B} (f : B -> option ty) l ts x t : seqo (map f l) = Some ts -> In x l -> f x = Some t -> In t ts.
Proof. intros H HI E. destruct (seqo_in f l ts x H HI) as [t' [E1 E2]]. congruence. Qed.
Lemma double x u t : cty u = Some t -> tc t = TNode -> sub x u -> uses_var x -> tv t = TD.
Proof.
  intros H HN HS HU. destruct (uniform x u t H HN HS) as [t' [E1 E2]]. destruct x; cbn in HU; try contradiction.
  - destruct HU as [s [o HI]]. cbn in E1. destruct (seqo (map cty es)) as [ts|] eqn:ES; [|discriminate].
    pose proof (seqo_in' cty es ts _ _ ES HI eq_refl) as HT. unfold comp_ty in E1. destruct (folds k && _) eqn:F.
    + apply andb_true_iff in F. destruct F as [_ F]. destruct ts as [|t0 ts]; [discriminate|].
      rewrite forallb_forall in F. specialize (F _ HT). discriminate.
    + apply node_some in E1. destruct E1 as [v [s' [E1 [-> _]]]]. rewrite <- E2 by auto.
      exact (node_var k ts (Ty TNode v s') _ E1 HT eq_refl eq_refl).
  - cbn -[node] in E1. destruct (cty x) as [t1|]; [|discriminate]. destruct (_ && _); [|discriminate].
    apply node_some in E1. destruct E1 as [v [s' [E1 [-> _]]]]. rewrite <- E2 by auto. cbn. congruence.
  - cbn -[node] in E1. destruct (cty x) as [t1|]; [|discriminate]. destruct (_ && _); [|discriminate].
    apply node_some in E1. destruct E1 as [v [s' [E1 [-> _]]]]. rewrite <- E2 by auto. cbn. congruence.
Qed.

(** Operand order. *)
Lemma bin_kinds_sym a b : bin_kinds a b = bin_kinds b a.
Proof. now destruct a, b. Qed.
Lemma max_sk_sym a b : max_sk a b = max_sk b a.
Proof. now destruct a, b. Qed.
Lemma bin_ty b x y tx t : cty x = Some tx -> cty y = Some t ->
  cty (EComp (KBin b) tt [x; y]) = comp_ty (KBin b) [tx; t].
Proof. intros H1 H2. cbn. now rewrite H1, H2. Qed.
Lemma symmetric b x y tx t : cty x = Some tx -> cty y = Some t -> tv tx = tv t ->
  cty (EComp (KBin b) tt [x; y]) = cty (EComp (KBin b) tt [y; x]).
Proof.
  intros H1 H2 HV. rewrite (bin_ty b x y tx t), (bin_ty b y x t tx) by auto.
  destruct tx as [c1 v1 k1], t as [c2 v2 k2]. cbn in HV. subst v2. unfold comp_ty. cbn. unfold links. cbn.
  destruct c1, c2, v1, k1, k2; cbn; try reflexivity; destruct b; reflexivity.
Qed.
Lemma left_const b x y v k c k' : cty x = Some (Ty TCst v k) -> cty y = Some (Ty c TD k') -> c <> TCst ->
  (cty (EComp (KBin b) tt [x; y]) <> None <-> v = TD /\ bin_kinds k k' = true) /\
  (cty (EComp (KBin b) tt [y; x]) <> None <-> bin_kinds k k' = true).
Proof.
  intros H1 H2 HC. rewrite (bin_ty b x y _ _ H1 H2), (bin_ty b y x _ _ H2 H1). unfold comp_ty. cbn. unfold links. cbn.
  rewrite (bin_kinds_sym k' k).
  destruct c, v; try congruence; cbn; destruct (bin_kinds k k'); cbn; split; split; intros; try tauto; try split; auto; try congruence;
    try (intros HH; discriminate); intuition discriminate.
Qed.
Lemma left_of_int (s s' : shape) o b : is_scl s' = true ->
  cty (EComp (KBin b) tt [EVar s o; ECst s' [TI]]) = Some (Ty TNode TD (kind s)) /\
  cty (EComp (KBin b) tt [ECst s' [TI]; EVar s o]) = None.
Proof. destruct s as [k r c], s' as [k' r' c']. unfold is_scl. cbn. destruct k'; try discriminate. intros _. destruct k; auto. Qed.

Lemma int_density : ~ (forall q es t, cty (EComp (KStat q) tt es) = Some t -> tv t = TD) /\
  cty (EComp (KStat NormSSS) tt [ECst scl [TI]; ECst scl [TI]; ECst scl [TI]]) = Some (Ty TNode TI Scl).
Proof. split; [intros H; discriminate (H NormSSS [ECst scl [TI]; ECst scl [TI]; ECst scl [TI]] _ eq_refl)|reflexivity]. Qed.

(** Well-formed programs of doubles. *)
Section W.
Context {T : Type}.
Notation U := (expr T unit).
Definition dbl (u : U) : expr vt unit := cmap (fun _ => TD) u.
Definition cat (u : U) : tcat := match u with EVar _ _ => TVar | ECst _ _ | ECvw _ _ => TCst | _ => TNode end.
Definition dty (u : U) : ty := Ty (cat u) TD (kind (shape_of u)).
Lemma const_cat u : is_tcst (dty u) = is_const u.
Proof. now destruct u. Qed.
Lemma links_dty us : forallb (links TD) (map dty us) = true.
Proof. rewrite forallb_forall. intros t HI. apply in_map_iff in HI. destruct HI as [u [<- _]]. unfold links. cbn. now destruct (cat u). Qed.
Lemma seqo_map (us : list U) : Forall (fun u => cty (dbl u) = Some (dty u)) us -> seqo (map cty (map dbl us)) = Some (map dty us).
Proof. induction 1 as [|u us H HF IH]; cbn; auto. now rewrite H, IH. Qed.
Lemma folds_dty us : forallb is_tcst (map dty us) = forallb is_const us.
Proof. induction us; cbn -[dty]; auto. now rewrite const_cat, IHus. Qed.
Lemma kinds_dty us : map tk (map dty us) = map kind (map shape_of us).
Proof. rewrite !map_map. now apply map_ext. Qed.
Lemma same_dty (a : U) l : same_shapes (kind (shape_of a)) (map shape_of (a :: l)) = true -> forallb (same_ty (dty a)) (map dty l) = true.
Proof.
  cbn. rewrite !andb_true_iff. intros [_ [_ H]]. rewrite forallb_forall in *. intros t HI. apply in_map_iff in HI.
  destruct HI as [u [<- HI]]. assert (HU := H (shape_of u) (in_map _ _ _ HI)). apply LBase.shape_eqb_eq in HU.
  unfold same_ty, dty. cbn. rewrite HU. now destruct (kind (shape_of a)).
Qed.
Lemma node_dty k us : kshape_ok k (map shape_of us) = true ->
  wish_n k us = true ->
  nodety k (map dty us) = Some (TD, kind (kshape k (map shape_of us))).
Proof.
  unfold kshape_ok. rewrite andb_true_iff. intros [HS HK] HW.
  assert (HIT : forall s, same_shapes s (map shape_of us) = true ->
    nodety (KSumI s) (map dty us) = Some (TD, kind (iter_shape s (map shape_of us)))).
  { intros s H. destruct us as [|a l]; cbn -[dty]; [now destruct s|].
    pose proof H as H'. cbn in H'. apply andb_true_iff in H'. destruct H' as [H' _]. apply LBase.sk_eqb_eq in H'. subst s.
    rewrite (same_dty a l H). cbn. now destruct (kind (shape_of a)). }
  destruct k as [u|z| | | | |f|f|b0| |q|q|q]; try exact (HIT _ HK); clear HIT.
  all: try (destruct us as [|a [|b l]]; try discriminate HK; cbn in HK; cbn; unfold is_scl in HK;
            destruct (kind (shape_of a)) eqn:KA; try discriminate HK; reflexivity).
  - destruct us as [|a [|b [|c l]]]; try discriminate HK; cbn in HK; cbn. unfold is_scl in HK.
    unfold bin_kinds. destruct (kind (shape_of a)) eqn:KA, (kind (shape_of b)) eqn:KB; try reflexivity;
      cbn in HK; apply LBase.shape_eqb_eq in HK; congruence.
  - destruct us as [|a [|b [|c l]]]; try discriminate HK; cbn in HK; cbn. unfold is_scl in HK.
    rewrite !andb_true_iff in HK. destruct HK as [[HK1 HK2] _]. rewrite HK1. now destruct (kind (shape_of b)).
  - assert (HV : forall n s, is_vecn n s = true -> kind s = Vec) by (intros n s H; apply LBase.shape_eqb_eq in H; now subst s).
    assert (HM : forall n s, is_sqmat n s = true -> kind s = Mat) by (intros n s H; apply LBase.shape_eqb_eq in H; now subst s).
    assert (HL : forall s, is_scl s = true -> kind s = Scl) by (intros s H; unfold is_scl in H; now destruct (kind s)).
    destruct us as [|a [|b [|c [|d l]]]]; cbn -[is_vecn is_sqmat is_scl] in HK; try (destruct q; discriminate HK).
    + destruct q; try discriminate HK; apply andb_true_iff in HK; destruct HK as [H1 H2];
        cbn; apply HV in H1 || apply HL in H1; apply HV in H2 || apply HL in H2; now rewrite H1, H2.
    + destruct q; cbn -[is_vecn is_sqmat is_scl] in HK; try discriminate HK; rewrite !andb_true_iff in HK; destruct HK as [[H1 H2] H3];
        cbn -[is_tcst dty];
        (apply HV in H1 || apply HL in H1 || apply HM in H1);
        (apply HV in H2 || apply HL in H2 || apply HM in H2);
        (apply HV in H3 || apply HL in H3 || apply HM in H3); cbn [tk dty]; rewrite H1, H2, H3; try reflexivity.
      rewrite const_cat. exact (f_equal (fun b : bool => if b then Some (TD, Scl) else None) HW).
Qed.
Lemma wellformed (u : U) : wfs u = true -> plain u = true -> cty (dbl u) = Some (dty u).
Proof.
  induction u as [sh o|sh c|sh o|k a es IH|a sh o y IH|q a sh o y IH|a l r IHl IHr|a s es IH|a c t f IHc IHt IHf] using expr_ind';
    cbn [wfs plain]; intros HW HP.
  - reflexivity.
  - destruct sh as [k r n]. cbn. destruct c; reflexivity.
  - reflexivity.
  - apply andb_true_iff in HW. destruct HW as [HW _]. apply andb_true_iff in HW. destruct HW as [HW HD].
    apply andb_true_iff in HW. destruct HW as [HW HK].
    apply andb_true_iff in HP. destruct HP as [HP HN]. apply andb_true_iff in HP. destruct HP as [HP HF].
    assert (HA : Forall (fun u => cty (dbl u) = Some (dty u)) es).
    { rewrite Forall_forall in *. rewrite forallb_forall in *. auto. }
    cbn -[dty]. change (map (cmap (fun _ => TD)) es) with (map dbl es). rewrite (seqo_map es HA). unfold comp_ty.
    assert (EF : folds k && match map dty es with [] => false | _ :: _ => forallb is_tcst (map dty es) end = false).
    { rewrite folds_dty. destruct es as [|e es]; [apply andb_false_r|]. cbn [map]. apply negb_true_iff. exact HF. }
    rewrite EF, (node_dty k es HK HN). cbn [node]. rewrite links_dty. reflexivity.
  - apply andb_true_iff in HW. destruct HW as [HW HR]. apply andb_true_iff in HW. destruct HW as [HW HE].
    apply andb_true_iff in HW. destruct HW as [HW HS]. cbn -[node dty]. change (cmap (fun _ => TD) y) with (dbl y).
    rewrite (IH HW HP). apply LBase.shape_eqb_eq in HE. unfold dty at 1 2 3. cbn [tv tk tc]. rewrite HE.
    assert (EK : sk_eqb (kind (shape_of y)) (kind (shape_of y)) = true) by now apply LBase.sk_eqb_eq.
    rewrite EK. destruct y; cbn in HR; try discriminate HR; cbn [cat vt_eqb andb];
      match goal with |- node _ [dty ?y] = _ => cbn [node]; change [dty y] with (map dty [y]); rewrite links_dty; unfold dty; cbn [cat shape_of]; try rewrite HE; reflexivity end.
  - apply andb_true_iff in HW. destruct HW as [HW HR]. apply andb_true_iff in HW. destruct HW as [HW HE].
    apply andb_true_iff in HW. destruct HW as [HW HS]. cbn -[node dty]. change (cmap (fun _ => TD) y) with (dbl y).
    rewrite (IH HW HP). unfold dty at 1 2 3. cbn [tv tk tc].
    assert (EK : scl_k (kind (shape_of y)) || sk_eqb (kind (shape_of y)) (kind sh) = true).
    { apply orb_true_iff in HE. destruct HE as [HE|HE]; [unfold is_scl in HE; now destruct (kind (shape_of y))|].
      apply LBase.shape_eqb_eq in HE. rewrite HE. apply orb_true_iff. right. now apply LBase.sk_eqb_eq. }
    rewrite EK. cbn [vt_eqb andb node]. change [dty y] with (map dty [y]). rewrite links_dty. reflexivity.
  - apply andb_true_iff in HW, HP. destruct HW as [HW HC], HP as [HP1 HP2]. apply andb_true_iff in HW. destruct HW as [HW HG].
    apply andb_true_iff in HW. destruct HW as [HW1 HW2]. cbn -[node dty].
    change (cmap (fun _ => TD) l) with (dbl l). change (cmap (fun _ => TD) r) with (dbl r).
    rewrite (IHl HW1 HP1), (IHr HW2 HP2), const_cat. apply negb_true_iff in HC. rewrite HC. cbn [node].
    change [dty l; dty r] with (map dty [l; r]). cbn [tv tk dty]. fold (dty l) (dty r).
    change (forallb (links TD) (map dty [l; r])) with (forallb (links TD) (map dty [l; r])). rewrite links_dty. reflexivity.
  - apply andb_true_iff in HW. destruct HW as [HW HL]. apply andb_true_iff in HW. destruct HW as [HW HC].
    apply andb_true_iff in HW. destruct HW as [HW HS].
    assert (HA : Forall (fun u => cty (dbl u) = Some (dty u)) es).
    { rewrite Forall_forall in *. rewrite forallb_forall in *. auto. }
    cbn -[dty node existsb forallb]. change (map (cmap (fun _ => TD)) es) with (map dbl es). rewrite (seqo_map es HA).
    destruct es as [|e es]; cbn [map]; [now destruct s|].
    assert (EX : existsb is_tcst (dty e :: map dty es) = false).
    { apply negb_true_iff in HC. change (dty e :: map dty es) with (map dty (e :: es)). rewrite <- HC. clear.
      induction (e :: es) as [|x l IH]; cbn -[dty]; auto. now rewrite const_cat, IH. }
    rewrite EX. unfold for_shapes in HS. apply andb_true_iff in HS. destruct HS as [HS _].
    rewrite forallb_forall in HS. assert (H0 := HS (shape_of e) (or_introl eq_refl)).
    assert (ES : forallb (same_ty (dty e)) (map dty es) = true).
    { rewrite forallb_forall. intros t HI. apply in_map_iff in HI. destruct HI as [u [<- HI]].
      assert (H1 := HS (shape_of u) (or_intror (in_map _ _ _ HI))). apply LBase.sk_eqb_eq in H0, H1.
      unfold same_ty, dty. cbn. rewrite H0, H1. now destruct s. }
    cbn [tk dty]. rewrite H0. fold (dty e). rewrite ES. cbn [andb negb node tv dty]. fold (dty e).
    change (dty e :: map dty es) with (map dty (e :: es)). rewrite links_dty. unfold dty. cbn [cat shape_of map iter_shape].
    now destruct s.
  - apply andb_true_iff in HW. destruct HW as [HW HE]. apply andb_true_iff in HW. destruct HW as [HW HC].
    apply andb_true_iff in HW. destruct HW as [HW HS]. apply andb_true_iff in HW. destruct HW as [HW HW3].
    apply andb_true_iff in HW. destruct HW as [HW1 HW2].
    apply andb_true_iff in HP. destruct HP as [HP HN]. apply andb_true_iff in HP. destruct HP as [HP HP3].
    apply andb_true_iff in HP. destruct HP as [HP1 HP2]. cbn -[node dty if_ty].
    change (cmap (fun _ => TD) c) with (dbl c). change (cmap (fun _ => TD) t) with (dbl t). change (cmap (fun _ => TD) f) with (dbl f).
    rewrite (IHc HW1 HP1), (IHt HW2 HP2), (IHf HW3 HP3). unfold if_ty. rewrite !const_cat.
    apply negb_true_iff in HN. rewrite HN. apply LBase.shape_eqb_eq in HE. unfold dty at 1 2 3 4 5 6 7. cbn [tk tv].
    unfold is_scl in HS. rewrite <- HE.
    assert (EK : sk_eqb (kind (shape_of t)) (kind (shape_of t)) = true) by now apply LBase.sk_eqb_eq.
    rewrite EK. replace (scl_k (kind (shape_of c))) with true by (destruct (kind (shape_of c)); [auto|discriminate|discriminate]).
    cbn [andb vt_eqb node]. change [dty c; dty t; dty f] with (map dty [c; t; f]). rewrite links_dty. reflexivity.
Qed.
End W.

(** ** Folding *)
Section F.
Context (N : num).
Notation U := (expr N unit).
(** A scalar bool constant holds one bool. *)
Definition cwf (s : shape) (c : cv N) : Prop :=
  kind s = Scl -> match c with CB l => length l = 1 | _ => True end.
Definition agrees (b : bx N) (t : ty) : Prop :=
  match b with
  | BK s c => t = Ty TCst (cvty c) (kind s) /\ cwf s c
  | BV s _ => t = Ty TCst TD (kind s)
  | BE v => tc t <> TCst /\ tk t = kind (shape_of v)
  end.
Lemma agrees_const b t : agrees b t -> bconst N b = is_tcst t.
Proof. destruct b; cbn; unfold is_tcst. 1: intros [-> _]; auto. 1: intros ->; auto. intros [H _]. destruct (tc t); auto; congruence. Qed.
Lemma agrees_kind b t : agrees b t -> tk t = kind (shape_of (btree N b)).
Proof. destruct b; cbn; [intros [-> _]|intros ->|intros [_ H]]; auto. Qed.
Lemma agrees_read b t m c : agrees b t -> bread N m b = Built c -> tv t = cvty c /\ cwf (shape_of (btree N b)) c.
Proof.
  destruct b; unfold bread; cbn [agrees]; [intros [-> HW] H; now injection H as <-| |discriminate].
  intros -> H. destruct (load m (Ptr 4 o) (size s)); try discriminate. injection H as <-. split; [auto|exact (fun _ => I)].
Qed.
Lemma agrees_reads bs ts m cs : Forall2 agrees bs ts -> breads N m bs = Built cs ->
  map tv ts = map cvty cs /\ Forall2 cwf (map (fun b => shape_of (btree N b)) bs) cs.
Proof.
  intros H. revert cs. induction H as [|b t bs ts H HF IH]; cbn -[btree]; intros cs HB; [injection HB as <-; auto|].
  destruct (bread N m b) as [c| |] eqn:EB; try discriminate. cbn in HB.
  destruct (breads N m bs) as [cs'| |]; try discriminate. injection HB as <-. cbn -[btree].
  destruct (agrees_read b t m c H EB) as [E1 E2], (IH cs' eq_refl) as [E3 E4]. rewrite E1, E3. auto.
Qed.
Lemma agrees_consts bs ts : Forall2 agrees bs ts -> forallb (bconst N) bs = forallb is_tcst ts.
Proof. induction 1 as [|b t bs ts H HF IH]; cbn; auto. now rewrite (agrees_const b t H), IH. Qed.
Lemma agrees_kinds bs ts : Forall2 agrees bs ts -> map tk ts = map kind (map (fun b => shape_of (btree N b)) bs).
Proof. induction 1 as [|b t bs ts H HF IH]; cbn; auto. now rewrite (agrees_kind b t H), IH. Qed.

Lemma map2_len {A B C} (f : A -> B -> C) l l' : length l = length l' -> length (map2 f l l') = length l.
Proof. revert l'. induction l as [|a l IH]; intros [|b l'] H; cbn in *; auto; try discriminate. Qed.
Ltac cw := split; [|split]; unfold cwf; cbn; auto; try (intros; discriminate).
Lemma kfold_ty k ss cs c ts v s : map tk ts = map kind ss -> map tv ts = map cvty cs -> Forall2 cwf ss cs ->
  kfold N k ss cs = Built c -> foldty k ts = Some (v, s) ->
  let s' := match k with
            | KSumE | KProdE => if is_scl (nth_sh ss 0) then nth_sh ss 0 else scl
            | _ => kshape k ss
            end in
  v = cvty c /\ s = kind s' /\ cwf s' c.
Proof.
  intros HK HV HW HC HT.
  assert (HI : forall pr q, fold_iter N pr q cs = Built c ->
    match ts with a :: l => if negb (sk_eqb q Mat) && sk_eqb (tk a) q && forallb (same_ty a) l then Some (tv a, q) else None
                | [] => None end = Some (v, s) -> v = cvty c /\ s = kind (iter_shape q ss) /\ cwf (iter_shape q ss) c).
  { intros pr q H1 H2. destruct ts as [|a l]; [discriminate|]. destruct (_ && _) eqn:E; [|discriminate].
    injection H2 as <- <-. cbn in HV. destruct cs as [|c0 cs]; [discriminate|]. cbn in HV. injection HV as HV0 HV.
    destruct ss as [|s0 ss]; [discriminate|]. cbn in HK. injection HK as HK0 HK.
    apply andb_true_iff in E. destruct E as [E E2]. apply andb_true_iff in E. destruct E as [E E1]. apply LBase.sk_eqb_eq in E1.
    inversion HW as [|? ? ? ? HW0 HW1]; subst.
    split; [|split; [now destruct (tk a)|]].
    - rewrite HV0. destruct (tk a); [| |discriminate E];
      (unfold fold_iter, getB, getZ, getD in H1; destruct c0; cbn in H1;
       match type of H1 with context [fold_right ?f ?a cs] => destruct (fold_right f a cs) end; cbn in H1;
       try discriminate H1; now injection H1 as <-).
    - intros HS. destruct (tk a) eqn:KA; [|discriminate HS|discriminate HS]. clear HS E.
      assert (HL : Forall (fun s => kind s = Scl) ss).
      { rewrite Forall_forall. intros s' HI'. apply (in_map kind) in HI'. rewrite <- HK in HI'. apply in_map_iff in HI'.
        destruct HI' as [t [Et Ht]]. rewrite forallb_forall in E2. specialize (E2 t Ht). unfold same_ty in E2.
        apply andb_true_iff in E2. destruct E2 as [_ E2]. apply LBase.sk_eqb_eq in E2. congruence. }
      unfold fold_iter in H1. destruct c0 as [l0|z0|l0]; cbn in H1.
      + assert (HG : forall ls, getB N cs = Some ls -> Forall (fun l => length l = 1) ls).
        { clear - HW1 HL. induction HW1 as [|s' c' ss cs Hw HW1 IH]; cbn; intros ls H.
          - injection H as <-. auto.
          - inversion HL as [|? ? HL0 HL1]; subst. destruct c'; try discriminate H. destruct (fold_right _ _ cs) as [ls'|] eqn:E; [|discriminate].
            injection H as <-. constructor; [exact (Hw HL0)|]. apply IH; auto. }
        unfold getB in HG. destruct (fold_right _ _ cs) as [ls|] eqn:EF in H1; [|discriminate H1]. specialize (HG ls EF).
        injection H1 as <-. specialize (HW0 (eq_sym HK0)). cbn in HW0.
        clear - HW0 HG. revert l0 HW0. induction HG as [|l ls Hl HG IH]; cbn; intros l0 H0; auto. apply IH.
        rewrite map2_len; auto. congruence.
      + destruct (fold_right _ _ cs); [|discriminate H1]. now injection H1 as <-.
      + destruct (fold_right _ _ cs); [|discriminate H1]. now injection H1 as <-. }
  destruct k as [u|z| | | | |f|f|b| |q|q|q]; cbn in HC, HT; try discriminate; try exact (HI _ _ HC HT); clear HI;
    repeat match type of HT with
    | match ?l with [] => _ | _ => _ end = _ => destruct l as [|?x l]; try discriminate
    end;
    repeat match type of HC with
    | match ?l with [] => _ | _ => _ end = _ => destruct l as [|?c l]; try discriminate
    end; cbn in HK, HV; try discriminate.
  all: destruct ss as [|s0 ss]; try discriminate HK; cbn in HK; try (destruct ss as [|s1 ss]; try discriminate HK);
    try (destruct ss as [|s2 ss]; try discriminate HK);
    cbn in HC; unfold nth_sh in *; cbn [nth] in *; cbn [map] in *.
  - injection HK as HK. injection HV as HV. rewrite HK, HV in HT. unfold fold_un, zof, is_scl in HC. destruct s0 as [k0 r0 n0]. cbn in *.
    destruct c0 as [l0|z0|l0]; cbn in HT.
    + destruct k0; try discriminate HT. destruct l0 as [|b0 [|]]; try discriminate HC. injection HT as <- <-.
      destruct u; injection HC as <-; cw.
    + destruct k0; try discriminate HT. injection HT as <- <-. destruct u; injection HC as <-; cw.
    + injection HT as <- <-. injection HC as <-; cw.
  - injection HK as HK. injection HV as HV. rewrite HK, HV in HT. unfold fold_pow, zof, is_scl in HC. destruct s0 as [k0 r0 n0]. cbn -[Z.ltb Z.eqb] in *.
    destruct c0 as [l0|z0|l0]; cbn in HT.
    + destruct k0; try discriminate HT. destruct l0 as [|b0 [|]]; try discriminate HC. injection HT as <- <-.
      destruct (_ && _); injection HC as <-; cw.
    + destruct k0; try discriminate HT. injection HT as <- <-. destruct (_ && _); injection HC as <-; cw.
    + injection HT as <- <-. injection HC as <-; cw.
  - injection HK as HK. injection HV as HV. injection HT as <- <-. rewrite HV. unfold fold_elem, is_scl in *. destruct (kind s0) eqn:K0; rewrite ?K0;
      [injection HC as <-; inversion HW; subst; cw| |]; (destruct c0; try discriminate HC; injection HC as <-; cw).
  - injection HK as HK. injection HV as HV. injection HT as <- <-. rewrite HV. unfold fold_elem, is_scl in *. destruct (kind s0) eqn:K0; rewrite ?K0;
      [injection HC as <-; inversion HW; subst; cw| |]; (destruct c0; try discriminate HC; injection HC as <-; cw).
  - destruct (scl_k (tk x)); [discriminate|]. injection HT as <- <-. destruct cs; [|discriminate]. injection HV as HV. rewrite HV. destruct c0; try discriminate HC; cbn in HC; injection HC as <-; cw.
  - destruct (scl_k (tk x)); [discriminate|]. injection HT as <- <-. destruct cs; [|discriminate]. injection HV as HV. rewrite HV. destruct c0; try discriminate HC; cbn in HC; injection HC as <-; cw.
  - destruct (scl_k (tk x)); [discriminate|]. injection HT as <- <-. destruct cs; [|discriminate]. injection HV as HV. rewrite HV. destruct c0; try discriminate HC; cbn in HC; injection HC as <-; cw.
  - injection HK as HK0 HK1. injection HV as HV0 HV1. rewrite HK0, HK1, HV0, HV1 in HT. cbn [kshape nth_sh nth]. unfold nth_sh. cbn [nth kind].
    unfold fold_bin, zof, is_scl in HC. destruct (kind s0) eqn:K0, (kind s1) eqn:K1; cbn in HT, HC; try discriminate HT.
    + inversion HW as [|? ? ? ? W0 HW1]; subst. inversion HW1 as [|? ? ? ? W1 HW2]; subst. specialize (W0 K0). specialize (W1 K1).
      assert (EX : cvty c = (if is_cmp b then TB else match common (cvty c0) (cvty c1) with TD => TD | _ => TI end) /\
                   match c with CB l => length l = 1 | _ => True end).
      { destruct c0 as [[|b0 [|b00 l00]]|z0|l0], c1 as [[|b1 [|b11 l11]]|z1|l1]; try discriminate W0; try discriminate W1;
          destruct b; cbn -[Z.eqb Z.ltb Z.leb Z.add Z.mul Z.sub Z.quot] in HC;
          repeat (match type of HC with context [match (if (?z =? 0)%Z then Undef else _) with _ => _ end] => destruct (z =? 0)%Z end; try discriminate HC);
          injection HC as <-; (split; [reflexivity|(reflexivity || exact I)]). }
      destruct EX as [EX EW].
      injection HT as <- <-. rewrite EX. split; auto. split; auto. intros _. exact EW.
    + destruct c0, c1; cbn in HT, HC; try discriminate; destruct b; injection HT as <- <-; injection HC as <-; cw.
    + destruct c0, c1; cbn in HT, HC; try discriminate; destruct b; injection HT as <- <-; injection HC as <-; cw.
    + destruct c0, c1; cbn in HT, HC; try discriminate; destruct b; injection HT as <- <-; injection HC as <-; cw.
    + destruct c0, c1; cbn in HT, HC; try discriminate; destruct b; try discriminate; injection HT as <- <-; injection HC as <-; cw.
    + destruct c0, c1; cbn in HT, HC; try discriminate; destruct b; injection HT as <- <-; injection HC as <-; cw.
    + destruct c0, c1; cbn in HT, HC; try discriminate; destruct b; try discriminate; injection HT as <- <-; injection HC as <-; cw.
  - destruct (_ && _); [|discriminate]. injection HT as <- <-.
    destruct cs as [|c1 [|]]; try discriminate. destruct c0; try discriminate HC. destruct c1; try discriminate HC. injection HC as <-. unfold kshape, nth_sh. cbn.
    injection HV as HV0 HV1. injection HK as HK0 HK1. cw.
Qed.
Lemma nodety_kind k ts v s ss : map tk ts = map kind ss -> nodety k ts = Some (v, s) -> s = kind (kshape k ss).
Proof.
  intros HK HT.
  assert (HI : forall q, nodety (KSumI q) ts = Some (v, s) -> s = kind (iter_shape q ss)).
  { intros q H. cbn in H. destruct ts as [|a l]; [injection H as <- <-; now destruct q, ss|].
    destruct (_ && _); [|discriminate H]. injection H as <- <-. now destruct q, ss. }
  destruct k as [u|z| | | | |f|f|b| |q|q|q]; try exact (HI q HT); clear HI; cbn in HT.
  11: { destruct ts as [|a [|b l]]; try discriminate HT. destruct (sks_eqb _ _); [|discriminate HT].
    destruct q, l as [|n [|]]; try discriminate HT; try (injection HT as <- <-; reflexivity).
    1-3: destruct (vt_eqb _ _); [|discriminate HT]; injection HT as <- <-; reflexivity.
    destruct (is_tcst n); [|discriminate HT]; injection HT as <- <-; reflexivity. }
  all: destruct ts as [|a [|a' [|]]]; try discriminate HT; destruct ss as [|s0 [|s1 [|]]]; try discriminate HK; cbn in HK.
  all: try (match type of HT with (if ?b then _ else _) = _ => destruct b; try discriminate HT end); injection HT as _ <-; try reflexivity.
  - now injection HK.
  - now injection HK.
  - injection HK as H1 H2. cbn. now rewrite H1, H2.
  - injection HK as H1 H2. exact H2.
Qed.
Lemma mknode_ty k bs ts m b t : Forall2 agrees bs ts ->
  mknode N k (match bs with [] => false | _ => forallb (bconst N) bs end) bs m = Built b ->
  comp_ty k ts = Some t -> agrees b t.
Proof.
  intros HA HB HT. unfold mknode in HB. unfold comp_ty in HT.
  assert (EC : match bs with [] => false | _ :: _ => forallb (bconst N) bs end = match ts with [] => false | _ :: _ => forallb is_tcst ts end).
  { destruct HA; auto. apply agrees_consts. now constructor. }
  rewrite EC in HB. pose proof (agrees_kinds bs ts HA) as HK.
  set (ss := map (fun b => shape_of (btree N b)) bs) in *. destruct (folds k && _).
  - destruct (breads N m bs) as [cs| |] eqn:ER; try discriminate HB. cbn [bindO] in HB.
    destruct (agrees_reads bs ts m cs HA ER) as [HV HW]. fold ss in HW.
    destruct (kfold N k ss cs) as [c| |] eqn:EF; try discriminate HB. cbn [bindO] in HB. injection HB as <-.
    destruct (foldty k ts) as [[v s]|] eqn:ET; [|discriminate HT]. injection HT as <-.
    destruct (kfold_ty k ss cs c ts v s HK HV HW EF ET) as [E1 [E2 E3]]. subst v s.
    destruct k; try (split; [reflexivity|assumption]); destruct (is_scl (nth_sh ss 0)); (split; [reflexivity|assumption]).
  - injection HB as <-. apply node_some in HT. destruct HT as [v [s [E1 [-> _]]]]. split; [discriminate|].
    cbn. rewrite (nodety_kind k ts v s ss HK E1). unfold ss. now rewrite map_map.
Qed.
Lemma build_ty (u : U) m b t : build N u m = Built b -> cty (dbl u) = Some t -> agrees b t.
Proof.
  revert b t.
  assert (HG : forall es, Forall (fun u : U => forall b t, build N u m = Built b -> cty (dbl u) = Some t -> agrees b t) es ->
    forall bs ts, (fix go es := match es with
                           | [] => Built []
                           | y :: l => bindO (build N y m) (fun b => bindO (go l) (fun bs => Built (b :: bs)))
                           end) es = Built bs -> seqo (map cty (map dbl es)) = Some ts -> Forall2 agrees bs ts).
  { induction 1 as [|u0 es H HF IH]; intros bs ts HB HT.
    - injection HB as <-. injection HT as <-. constructor.
    - destruct (build N u0 m) as [b| |] eqn:EB; try discriminate HB. cbn [bindO] in HB.
      cbn [map seqo] in HT. destruct (cty (dbl u0)) as [t|] eqn:ET; [|discriminate HT].
      match type of HB with bindO ?x _ = _ => destruct x as [bs'| |] eqn:EG; try discriminate HB end. injection HB as <-.
      destruct (seqo (map cty (map dbl es))) as [ts'|] eqn:ES; [|discriminate HT]. injection HT as <-.
      constructor; auto. }
  induction u as [sh o|sh c|sh o|k a es IH|a sh o y IH|q a sh o y IH|a l r IHl IHr|a s es IH|a c t0 f IHc IHt IHf] using expr_ind'; intros b t HB HT.
  - injection HB as <-. injection HT as <-. split; [discriminate|reflexivity].
  - injection HB as <-. cbn in HT. injection HT as <-. cbn. split; [now destruct c|exact (fun _ => I)].
  - injection HB as <-. injection HT as <-. reflexivity.
  - cbn -[node comp_ty] in HT. change (map (cmap (fun _ => TD)) es) with (map dbl es) in HT.
    destruct (seqo (map cty (map dbl es))) as [ts|] eqn:ES; [|discriminate HT]. cbn [build] in HB.
    match type of HB with bindO ?x _ = _ => destruct x as [bs| |] eqn:EG; try discriminate HB end. cbn [bindO] in HB.
    exact (mknode_ty k bs ts m b t (HG es IH bs ts EG ES) HB HT).
  - cbn -[node] in HT. destruct (cty (cmap _ y)) as [t1|]; [|discriminate HT]. destruct (_ && _); [|discriminate HT].
    apply node_some in HT. destruct HT as [v [s [E1 [-> _]]]]. injection E1 as <- <-.
    cbn [build] in HB. destruct (build N y m); try discriminate HB. injection HB as <-. split; [discriminate|reflexivity].
  - cbn -[node] in HT. destruct (cty (cmap _ y)) as [t1|]; [|discriminate HT]. destruct (_ && _); [|discriminate HT].
    apply node_some in HT. destruct HT as [v [s [E1 [-> _]]]]. injection E1 as <- <-.
    cbn [build] in HB. destruct (build N y m); try discriminate HB. injection HB as <-. split; [discriminate|reflexivity].
  - cbn -[node] in HT. change (cmap (fun _ => TD) r) with (dbl r) in HT. destruct (cty (cmap _ l)) as [t1|]; [|discriminate HT].
    destruct (cty (dbl r)) as [t2|] eqn:E2; [|discriminate HT]. destruct (is_tcst t2); [discriminate HT|].
    apply node_some in HT. destruct HT as [v [s [E1 [-> _]]]]. injection E1 as <- <-.
    cbn [build] in HB. destruct (build N l m); try discriminate HB. cbn [bindO] in HB.
    destruct (build N r m) as [b2| |] eqn:EB; try discriminate HB. injection HB as <-. split; [discriminate|].
    cbn. apply agrees_kind. now apply IHr.
  - cbn -[node] in HT. change (map (cmap (fun _ => TD)) es) with (map dbl es) in HT.
    destruct (seqo (map cty (map dbl es))) as [ts|] eqn:ES; [|discriminate HT]. cbn [build] in HB.
    match type of HB with bindO ?x _ = _ => destruct x as [bs| |] eqn:EG; try discriminate HB end. injection HB as <-.
    assert (EN : exists v, t = Ty TNode v s).
    { destruct ts as [|a0 l]; [injection HT as <-; eauto|]. destruct (_ && _); [|discriminate HT].
      apply node_some in HT. destruct HT as [v [s' [E1 [-> _]]]]. injection E1 as <- <-. eauto. }
    destruct EN as [v ->]. split; [discriminate|]. cbn. destruct s; cbn; auto; now destruct bs.
  - cbn -[node if_ty] in HT. change (cmap (fun _ => TD) c) with (dbl c) in HT. change (cmap (fun _ => TD) t0) with (dbl t0) in HT.
    change (cmap (fun _ => TD) f) with (dbl f) in HT.
    destruct (cty (dbl c)) as [t1|] eqn:E1; [|discriminate HT]. destruct (cty (dbl t0)) as [t2|] eqn:E2; [|discriminate HT].
    destruct (cty (dbl f)) as [t3|] eqn:E3; [|discriminate HT]. cbn [build] in HB.
    destruct (build N c m) as [b1| |] eqn:B1; try discriminate HB. cbn [bindO] in HB.
    destruct (build N t0 m) as [b2| |] eqn:B2; try discriminate HB. cbn [bindO] in HB.
    destruct (build N f m) as [b3| |] eqn:B3; try discriminate HB. cbn [bindO] in HB.
    pose proof (IHc b1 t1 eq_refl eq_refl) as A1. pose proof (IHt b2 t2 eq_refl eq_refl) as A2. pose proof (IHf b3 t3 eq_refl eq_refl) as A3.
    rewrite (agrees_const b1 t1 A1), (agrees_const b2 t2 A2), (agrees_const b3 t3 A3) in HB. unfold if_ty in HT.
    destruct (_ && sk_eqb _ _); [|discriminate HT]. destruct (is_tcst t1 && is_tcst t2 && is_tcst t3).
    + destruct (bread N m b1) as [x| |] eqn:R1; try discriminate HB. cbn [bindO] in HB.
      destruct (bread N m b2) as [y| |] eqn:R2; try discriminate HB. cbn [bindO] in HB.
      destruct (bread N m b3) as [z| |] eqn:R3; try discriminate HB. cbn [bindO] in HB.
      destruct (shape_eqb _ _) eqn:ES; [|discriminate HB]. apply LBase.shape_eqb_eq in ES.
      destruct (fold_if _ _ _ _ _) as [w| |] eqn:EF; try discriminate HB. injection HB as <-.
      destruct (_ || _); [|discriminate HT]. injection HT as <-.
      destruct (agrees_read b2 t2 m y A2 R2) as [V2 W2], (agrees_read b3 t3 m z A3 R3) as [V3 W3]. rewrite <- ES in W3.
      cbn [agrees]. rewrite V2, (agrees_kind b2 t2 A2).
      enough (cvty w = cvty y /\ cwf (shape_of (btree N b2)) w) as [-> HW] by auto. clear - EF W2 W3.
      unfold fold_if in EF. destruct y as [ly|zy|ly], z as [lz|zz|lz]; try destruct (is_scl _) eqn:EI; cbn in EF;
        try (destruct (zof N _ _); [|discriminate EF]); try discriminate EF; destruct (ntrue N _); injection EF as <-; (split; [reflexivity|]);
        auto; intros ?; cbn; auto; try exact (W2 H); try exact (W3 H).
    + injection HB as <-. destruct (vt_eqb _ _); [|discriminate HT]. apply node_some in HT. destruct HT as [v [s [E4 [-> _]]]].
      injection E4 as <- <-. split; [discriminate|]. cbn. now apply agrees_kind.
Qed.
Lemma build_match (u : U) m b t : build N u m = Built b -> cty (cmap (fun _ => TD) u) = Some t ->
  match b with
  | BK s c => tc t = TCst /\ tv t = cvty c /\ tk t = kind s
  | BV s _ => tc t = TCst /\ tv t = TD /\ tk t = kind s
  | BE v => tc t <> TCst /\ tk t = kind (shape_of v)
  end.
Proof.
  intros H1 H2. pose proof (build_ty u m b t H1 H2) as H. destruct b; cbn in H; [destruct H as [-> _]|rewrite H|exact H]; auto.
Qed.
End F.
