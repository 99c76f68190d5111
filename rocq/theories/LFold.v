(** Constant folding: proofs. *)
From Coq Require Import Reals Lra Psatz.
From Coquelicot Require Import Coquelicot.
From Verif Require Import Base Num Expr Node Stat Machine Wf Pure LBase LKind LMem LState Session Tape XR Spec RSess
  LReal LScal LKA LKB LKS LMx LMat LKM LVal LGrad LDiff Grad LIndep LGrd Fold FoldSpec.
Open Scope nat_scope.
Set Bullet Behavior "Strict Subproofs".

Lemma wfs_shape_u {T A} (e : expr T A) : wfs e = true -> shape_ok (shape_of e) = true.
Proof.
  induction e using expr_ind'; cbn; intros HW; auto; rewrite ?andb_true_iff in HW.
  - tauto.
  - destruct HW as [[[_ HW] _] _]. now apply kshape_shape_ok.
  - tauto.
  - tauto.
  - apply IHe2. tauto.
  - destruct HW as [[[H1 H2] _] _]. destruct es as [|y es]; [now destruct s|].
    unfold for_shapes in H2. cbn [map forallb] in H1, H2. rewrite !andb_true_iff in H2. apply andb_true_iff in H1. destruct H1 as [H1 _]. inversion H; subst.
    specialize (H4 H1). destruct H2 as [[H2 _] _]. apply sk_eqb_eq in H2. destruct s; cbn; auto.
    unfold shape_ok in *. rewrite H2 in H4. auto.
  - apply IHe2. tauto.
Qed.
Section F.
Variable N : num.
Notation U := (expr N unit).
Definition typ (c : cv N) : ty := match c with CB _ => TB | CZ _ => TZ | CD _ => TD end.
Definition clen (c : cv N) (s : shape) : Prop := length (cval N c) = size s.

Lemma bindO_ok {X Y} (x : out X) (f : X -> out Y) y : bindO x f = Built y -> exists a, x = Built a /\ f a = Built y.
Proof. destruct x; cbn; try discriminate. eauto. Qed.
Definition builds (m : mem N) : list U -> out (list (bx N)) :=
  fix go es := match es with
               | [] => Built []
               | y :: l => bindO (build N y m) (fun b => bindO (go l) (fun bs => Built (b :: bs)))
               end.
Lemma build_comp k a es m : build N (EComp k a es) m =
  bindO (builds m es) (fun bs => mknode N k (match bs with [] => false | _ => forallb (bconst N) bs end) bs m).
Proof. reflexivity. Qed.
Lemma build_for a s es m : build N (EFor a s es) m = bindO (builds m es) (fun bs => Built (BE (EFor a s (map (btree N) bs)))).
Proof. reflexivity. Qed.
Lemma builds_F2 m es : forall bs, builds m es = Built bs -> Forall2 (fun y b => build N y m = Built b) es bs.
Proof.
  induction es as [|y l IH]; cbn; intros bs H.
  - injection H as <-. constructor.
  - destruct (bindO_ok _ _ _ H) as [b [H1 H2]]. destruct (bindO_ok _ _ _ H2) as [bs' [H3 H4]].
    injection H4 as <-. constructor; auto.
Qed.
Lemma cty_comp {T A} k (a : A) (es : list (expr T A)) : cty (EComp k a es) =
  match k, es with
  | KStat _, _ | _, [] => None
  | _, _ => match ctys es with Some ts => Some (kty k (map shape_of es) ts) | None => None end
  end.
Proof. destruct k, es; reflexivity. Qed.

Lemma getD_spec cs ls : getD N cs = Some ls -> cs = map CD ls.
Proof.
  revert ls. induction cs as [|c cs IH]; cbn; intros ls H; [now injection H as <-|].
  fold (getD N cs) in H. destruct c; try discriminate. destruct (getD N cs) as [r|]; try discriminate. injection H as <-.
  cbn. now rewrite (IH r).
Qed.
Lemma getB_spec cs ls : getB N cs = Some ls -> cs = map CB ls.
Proof.
  revert ls. induction cs as [|c cs IH]; cbn; intros ls H; [now injection H as <-|].
  fold (getB N cs) in H. destruct c; try discriminate. destruct (getB N cs) as [r|]; try discriminate. injection H as <-.
  cbn. now rewrite (IH r).
Qed.
Lemma getZ_spec cs ls : getZ N cs = Some ls -> cs = map CZ ls.
Proof.
  revert ls. induction cs as [|c cs IH]; cbn; intros ls H; [now injection H as <-|].
  fold (getZ N cs) in H. destruct c; try discriminate. destruct (getZ N cs) as [r|]; try discriminate. injection H as <-.
  cbn. now rewrite (IH r).
Qed.
(** The three successful cases of a non-empty range. *)
Lemma fold_iter_inv p s c cs d : fold_iter N p s (c :: cs) = Built d -> s <> Mat /\
  ((exists l ls, c :: cs = map CD (l :: ls) /\ d = CD (fold_left (map2 (if p then nmul N else nadd N)) ls l)) \/
   (exists l ls, c :: cs = map CB (l :: ls) /\ d = CB (fold_left (map2 (if p then andb else orb)) ls l)) \/
   (exists z zs, c :: cs = map CZ (z :: zs) /\ d = CZ (fold_left (if p then Z.mul else Z.add) zs z))).
Proof.
  intros H. assert (Q : s <> Mat) by (intros ->; discriminate H). split; auto.
  assert (H' : match getD N (c :: cs), getB N (c :: cs), getZ N (c :: cs) with
    | Some (l :: ls), _, _ => Built (CD (fold_left (map2 (if p then nmul N else nadd N)) ls l))
    | _, Some (l :: ls), _ => Built (CB (fold_left (map2 (if p then andb else orb)) ls l))
    | _, _, Some (z :: zs) => Built (CZ (fold_left (if p then Z.mul else Z.add) zs z))
    | _, _, _ => Reject end = Built d) by (destruct s; [exact H|exact H|now destruct Q]).
  clear H. pose proof (getD_spec (c :: cs)) as GD. pose proof (getB_spec (c :: cs)) as GB. pose proof (getZ_spec (c :: cs)) as GZ.
  destruct (getD N (c :: cs)) as [[|l ls]|]; [discriminate (GD [] eq_refl)| |].
  - injection H' as <-. left. exists l, ls. auto.
  - destruct (getB N (c :: cs)) as [[|l ls]|]; [discriminate (GB [] eq_refl)| |].
    + injection H' as <-. right; left. exists l, ls. auto.
    + destruct (getZ N (c :: cs)) as [[|z zs]|]; [discriminate (GZ [] eq_refl)| |discriminate H'].
      injection H' as <-. right; right. exists z, zs. auto.
Qed.

Lemma fold_map2_len {X} (f : X -> X -> X) ls : forall l n, Forall (fun v => length v = n) (l :: ls) ->
  length (fold_left (map2 f) ls l) = n.
Proof.
  induction ls as [|a ls IH]; intros l n H; inversion H as [|? ? H1 H2]; subst; cbn; auto.
  apply IH. inversion H2; subst. constructor; auto. rewrite map2_length. lia.
Qed.
Lemma zof_some s c z : zof N s c = Some z -> is_scl s = true /\ typ c <> TD /\ length (cval N c) = 1.
Proof.
  unfold zof. destruct (is_scl s); try discriminate. destruct c as [[|b [|]]| |]; try discriminate;
    intros _; repeat split; discriminate || reflexivity.
Qed.
Lemma zof_none s c : zof N s c = None -> shape_ok s = true -> clen c s -> is_scl s = true -> typ c = TD.
Proof.
  unfold zof, clen. intros H O L S. rewrite S in H. rewrite (scl_size _ O S) in L.
  destruct c as [l| |]; auto; [|discriminate]. cbn in L. rewrite map_length in L.
  destruct l as [|b [|]]; discriminate.
Qed.
Lemma load_len m b o n (l : list N) : load m (Ptr b o) n = Ok l -> length l = n.
Proof.
  cbn. revert o l. induction n; cbn; intros o l H; [now injection H as <-|].
  destruct (rd1 m b o); try discriminate. cbn in H. destruct (rdn m b (S o) n) eqn:E; try discriminate.
  injection H as <-. cbn. f_equal. exact (IHn _ _ E).
Qed.
Lemma bc_len s n l : length l = size s -> (is_scl s = false -> size s = n) -> length (bc N s n l) = n.
Proof. intros L H. unfold bc. destruct (is_scl s); [apply repeat_length|]. rewrite L. auto. Qed.

Lemma clens_n cs ss n : Forall (fun s => size s = n) ss -> Forall2 clen cs ss -> Forall (fun c => length (cval N c) = n) cs.
Proof. intros HF HL. revert HF. induction HL; intros HF; inversion HF; subst; constructor; auto; unfold clen in *; congruence. Qed.
Lemma iter_typ p q ss c0 cs c : forallb shape_ok ss = true -> same_shapes q ss = true -> Forall2 clen (c0 :: cs) ss ->
  fold_iter N p q (c0 :: cs) = Built c -> typ c = typ c0 /\ length (cval N c) = size (iter_shape q ss).
Proof.
  intros OK K L H. destruct (fold_iter_inv _ _ _ _ _ H) as [Q HH].
  pose proof (clens_n _ _ _ (iter_facts q ss OK K) L) as LN. set (n := size (iter_shape q ss)) in *.
  destruct HH as [[l [ls [E ->]]]|[[l [ls [E ->]]]|[l [ls [E ->]]]]]; rewrite E in LN; injection E as -> E; split; auto.
  - cbn. apply fold_map2_len. apply Forall_forall. intros v Hv. rewrite Forall_forall in LN.
    exact (LN (CD v) (in_map CD (l :: ls) v Hv)).
  - cbn. rewrite map_length. apply fold_map2_len. apply Forall_forall. intros v Hv. rewrite Forall_forall in LN.
    specialize (LN (CB v) (in_map CB (l :: ls) v Hv)). cbn in LN. now rewrite map_length in LN.
  - cbn. inversion LN; subst. auto.
Qed.

Lemma kfold_typ k ss cs c : kshape_ok k ss = true -> Forall2 clen cs ss -> cs <> [] -> kfold N k ss cs = Built c ->
  typ c = kty k ss (map typ cs) /\ length (cval N c) = size (kshape k ss).
Proof.
  intros K L NE H. pose proof K as K0. unfold kshape_ok in K. apply andb_true_iff in K. destruct K as [OK K].
  destruct k; cbn [kfold] in H.
  - destruct ss as [|s [|]]; try discriminate K. inversion L as [|c0 ? cs' ? L0 L1]; subst. inversion L1; subst.
    cbn in OK. rewrite andb_true_r in OK. unfold nth_sh in H. cbn [nth] in H. unfold fold_un in H.
    destruct c0 as [l|z|l].
    + destruct (zof N s (CB l)) eqn:Z; try discriminate H. destruct (zof_some _ _ _ Z) as [S [_ S3]].
      destruct u; injection H as <-; cbn; split; auto; rewrite (scl_size s); auto.
    + destruct (zof N s (CZ z)) eqn:Z; try discriminate H. destruct (zof_some _ _ _ Z) as [S [_ S3]].
      destruct u; injection H as <-; cbn; split; auto; rewrite (scl_size s); auto.
    + injection H as <-. unfold clen in L0. cbn in L0. cbn. rewrite map_length. split; auto. now destruct u.
  - destruct ss as [|s [|]]; try discriminate K. inversion L as [|c0 ? cs' ? L0 L1]; subst. inversion L1; subst.
    cbn in OK. rewrite andb_true_r in OK. unfold nth_sh in H. cbn [nth] in H. unfold fold_pow in H.
    destruct c0 as [l|y|l].
    + destruct (zof N s (CB l)) eqn:Z; try discriminate H. destruct (zof_some _ _ _ Z) as [S [_ S3]].
      destruct (_ && _); injection H as <-; cbn; split; auto; rewrite (scl_size s); auto.
    + destruct (zof N s (CZ y)) eqn:Z; try discriminate H. destruct (zof_some _ _ _ Z) as [S [_ S3]].
      destruct (_ && _); injection H as <-; cbn; split; auto; rewrite (scl_size s); auto.
    + injection H as <-. unfold clen in L0. cbn in L0. cbn. rewrite map_length. auto.
  - destruct cs as [|? [|]]; discriminate H.
  - destruct ss as [|s [|]]; try discriminate K. inversion L as [|c0 ? cs' ? L0 L1]; subst. inversion L1; subst.
    cbn in OK. rewrite andb_true_r in OK. unfold nth_sh in H. cbn [nth] in H. unfold fold_elem in H.
    destruct (is_scl s) eqn:S; [injection H as <-; cbn; split; auto; rewrite L0; now apply scl_size|].
    destruct c0; try discriminate H; injection H as <-; cbn; auto.
  - destruct ss as [|s [|]]; try discriminate K. inversion L as [|c0 ? cs' ? L0 L1]; subst. inversion L1; subst.
    cbn in OK. rewrite andb_true_r in OK. unfold nth_sh in H. cbn [nth] in H. unfold fold_elem in H.
    destruct (is_scl s) eqn:S; [injection H as <-; cbn; split; auto; rewrite L0; now apply scl_size|].
    destruct c0; try discriminate H; injection H as <-; cbn; auto.
  - destruct cs as [|[| |] [|]]; try discriminate H; injection H as <-; cbn; auto.
  - destruct cs as [|[| |] [|]]; try discriminate H; injection H as <-; cbn; auto.
  - destruct cs as [|[| |] [|]]; try discriminate H; injection H as <-; cbn; auto.
  - destruct (bin_facts b ss K0) as [s1 [s2 [-> [F1 [F2 [F3 [F4 F5]]]]]]].
    inversion L as [|c1 ? cs' ? L0 L1]; subst. inversion L1 as [|c2 ? cs'' ? L2 L3]; subst. inversion L3; subst.
    set (n := size (kshape (KBin b) [s1; s2])) in *.
    unfold nth_sh in H. cbn [nth] in H. unfold fold_bin in H. cbn in OK. rewrite !andb_true_iff in OK. destruct OK as [O1 [O2 _]].
    destruct (is_scl s1) eqn:S1; [destruct (is_scl s2) eqn:S2|]; cbn [andb] in H.
    + assert (n1 : n = 1) by auto.
      destruct (zof N s1 c1) eqn:Z1; [destruct (zof N s2 c2) eqn:Z2|].
      * apply zof_some in Z1. apply zof_some in Z2. destruct Z1 as [_ [T1 _]], Z2 as [_ [T2 _]].
        destruct b; cbn [is_cmp zi_f] in H; try (destruct (_ =? _)%Z; try discriminate H); injection H as <-;
          (split; [cbn; rewrite ?S1, ?S2; destruct c1, c2; cbn in *; first [reflexivity|congruence]
                  |fold n; rewrite n1; reflexivity]).
      * pose proof (zof_none _ _ Z2 O2 L2 S2) as T2.
        destruct b; cbn [is_cmp] in H; injection H as <-;
          (split; [cbn; rewrite ?S1, ?S2, ?T2, ?orb_true_r; reflexivity|fold n; rewrite n1; reflexivity]).
      * pose proof (zof_none _ _ Z1 O1 L0 S1) as T1.
        destruct b; cbn [is_cmp] in H; injection H as <-;
          (split; [cbn; rewrite ?S1, ?S2, ?T1; reflexivity|fold n; rewrite n1; reflexivity]).
    + destruct c1 as [l1| |l1], c2 as [l2| |l2]; cbn [orb] in H; try discriminate H.
      unfold clen in L0, L2. cbn in L0, L2.
      assert (B1 : length (bc N s1 n l1) = n) by (apply bc_len; auto; intros; congruence).
      assert (B2 : length (bc N s2 n l2) = n) by (apply bc_len; auto).
      destruct b; injection H as <-; (split; [cbn; rewrite ?S1, ?S2; reflexivity|fold n; cbn [cval]]);
        rewrite ?map_length; unfold bin_fwd; rewrite map2_length, B1, B2; apply Nat.min_id.
    + destruct c1 as [l1| |l1], c2 as [l2| |l2]; cbn [orb] in H; try discriminate H; unfold clen in L0, L2; cbn in L0, L2.
      * destruct (is_scl s2) eqn:S2; try discriminate H. rewrite map_length in L0, L2.
        destruct b; try discriminate H; injection H as <-; (split; [cbn; rewrite ?S1, ?S2; reflexivity|fold n; cbn [cval]]);
          rewrite map_length, map2_length, L0, L2, F2, F4 by auto; apply Nat.min_id.
      * assert (B1 : length (bc N s1 n l1) = n) by (apply bc_len; auto).
        assert (B2 : length (bc N s2 n l2) = n) by (apply bc_len; auto).
        destruct b; injection H as <-; (split; [cbn; rewrite ?S1, ?S2; reflexivity|fold n; cbn [cval]]);
          rewrite ?map_length; unfold bin_fwd; rewrite map2_length, B1, B2; apply Nat.min_id.
  - destruct cs as [|[| |] [|[| |] [|]]]; try discriminate H; injection H as <-. cbn. split; auto.
    inversion L as [|? s1 ? ss' L0 L1]; subst. inversion L1 as [|? s2 ? ss'' L2 L3]; subst. inversion L3; subst.
    cbn. unfold mm. rewrite mkm_length. reflexivity.
  - destruct cs as [|c0 cs]; [now destruct NE|]. exact (iter_typ _ _ _ _ _ _ OK K L H).
  - destruct cs as [|c0 cs]; [now destruct NE|]. exact (iter_typ _ _ _ _ _ _ OK K L H).
  - destruct cs as [|? [|]]; discriminate H.
Qed.

Definition TYP (u : U) : Prop := forall m b, build N u m = Built b -> wfs u = true ->
  shape_of (btree N b) = shape_of u /\
  match cty u with
  | None => bconst N b = false
  | Some t => bconst N b = true /\
      forall c, bread N m b = Built c -> typ c = t /\ length (cval N c) = size (shape_of u)
  end.
Lemma TYPs m es : Forall TYP es -> forall bs, builds m es = Built bs -> forallb wfs es = true ->
  map (fun b => shape_of (btree N b)) bs = map shape_of es /\ length bs = length es /\
  match ctys es with
  | None => forallb (bconst N) bs = false
  | Some ts => forallb (bconst N) bs = true /\
      forall cs, breads N m bs = Built cs -> map typ cs = ts /\ Forall2 clen cs (map shape_of es)
  end.
Proof.
  induction 1 as [|y l Hy Hl IH]; intros bs H W; cbn in H.
  - injection H as <-. cbn. split; [auto|]. split; [auto|]. split; [auto|]. intros cs HC; injection HC as <-; auto.
  - destruct (bindO_ok _ _ _ H) as [b [H1 H2]]. destruct (bindO_ok _ _ _ H2) as [bs' [H3 H4]]. injection H4 as <-.
    cbn in W. apply andb_true_iff in W. destruct W as [W1 W2]. destruct (Hy _ _ H1 W1) as [S1 C1].
    destruct (IH _ H3 W2) as [S2 [L2 C2]]. cbn [map length forallb ctys]. rewrite S1, S2, L2. repeat split; auto.
    fold (ctys l). destruct (cty y) as [t|]; [|rewrite C1; reflexivity]. destruct C1 as [B1 C1]. rewrite B1.
    destruct (ctys l) as [ts|]; [|exact C2]. destruct C2 as [B2 C2]. split; [exact B2|]. intros cs HC. cbn in HC.
    destruct (bindO_ok _ _ _ HC) as [c [G1 G2]]. destruct (bindO_ok _ _ _ G2) as [cs' [G3 G4]]. injection G4 as <-.
    destruct (C1 _ G1) as [T1 T2]. destruct (C2 _ G3) as [T3 T4]. cbn. split; [congruence|]. constructor; auto.
Qed.
Lemma ctys_len {T A} (es : list (expr T A)) ts : ctys es = Some ts -> length ts = length es.
Proof.
  revert ts. induction es as [|y l IH]; cbn; intros ts H; [now injection H as <-|]. fold (ctys l) in H.
  destruct (cty y); try discriminate. destruct (ctys l); try discriminate. injection H as <-. cbn. auto.
Qed.
Lemma breads_len m bs : forall cs, breads N m bs = Built cs -> length cs = length bs.
Proof.
  induction bs as [|b bs IH]; cbn; intros cs HC; [now injection HC as <-|].
  destruct (bindO_ok _ _ _ HC) as [c [G1 G2]]. destruct (bindO_ok _ _ _ G2) as [cs' [G3 G4]]. injection G4 as <-. cbn. auto.
Qed.
Lemma mknode_inv k bs m b ss : map (fun b => shape_of (btree N b)) bs = ss -> folds k = true -> kshape_ok k ss = true ->
  mknode N k true bs m = Built b ->
  exists cs c, breads N m bs = Built cs /\ kfold N k ss cs = Built c /\ b = BK (kshape k ss) c.
Proof.
  intros S F K H. unfold mknode in H. rewrite F in H. cbn [andb] in H. rewrite S in H.
  destruct (bindO_ok _ _ _ H) as [cs [H1 H2]]. destruct (bindO_ok _ _ _ H2) as [c [H3 H4]]. exists cs, c. repeat split; auto.
  injection H4 as <-. unfold kshape_ok in K. apply andb_true_iff in K. destruct K as [OK K].
  destruct k; auto; destruct ss as [|s [|]]; try discriminate K; cbn in *; unfold nth_sh; cbn [nth];
    destruct (is_scl s) eqn:Q; auto; f_equal; rewrite andb_true_r in OK; destruct s as [[] r cc]; try discriminate Q;
    cbn in OK; rewrite andb_true_iff, !Nat.eqb_eq in OK; destruct OK as [-> ->]; reflexivity.
Qed.
Lemma fold_if_typ s c t f v : shape_ok s = true -> fold_if N s c t f = Built v -> length (cval N t) = size s -> length (cval N f) = size s ->
  typ v = typ t /\ length (cval N v) = size s.
Proof.
  intros O H LT LF. unfold fold_if in H. set (q := ntrue N _) in H.
  assert (S1 : is_scl s = true -> size s = 1) by (apply scl_size; auto).
  destruct t as [lt|zt|lt], f as [lf|zf|lf]; try destruct (is_scl s) eqn:S; try discriminate H;
    try (destruct (zof N s _) eqn:Z; try discriminate H);
    injection H as <-; destruct q; cbn in *; auto; split; auto; rewrite S1; auto.
Qed.
Lemma typ_all u : TYP u.
Proof.
  induction u using expr_ind'; intros m b HB W.
  - injection HB as <-. cbn. auto.
  - injection HB as <-. cbn. split; [auto|]. split; [auto|]. intros c' HC. injection HC as <-. cbn in W |- *. apply andb_true_iff in W.
    destruct W as [_ W]. apply Nat.eqb_eq in W. auto.
  - injection HB as <-. cbn [shape_of btree cty bconst bread]. split; [auto|]. split; [auto|]. intros c' HC.
    destruct (load m (Ptr 4 o) (size sh)) eqn:E; try discriminate HC. injection HC as <-. split; auto.
    exact (load_len _ _ _ _ _ E).
  - rewrite build_comp in HB. destruct (bindO_ok _ _ _ HB) as [bs [H1 H2]]. clear HB.
    cbn in W. rewrite !andb_true_iff in W. destruct W as [[[W K] _] _].
    destruct (TYPs _ _ H _ H1 W) as [S [L C]]. rewrite cty_comp.
    destruct (folds k) eqn:F.
    2:{ unfold mknode in H2. rewrite F in H2. cbn [andb] in H2. injection H2 as <-. cbn [btree shape_of bconst].
        rewrite map_map. rewrite S. split; auto. now destruct k. }
    destruct es as [|e0 es].
    { cbn in L. destruct bs; [|discriminate L]. unfold mknode in H2. rewrite andb_false_r in H2. injection H2 as <-.
      cbn [btree shape_of bconst map]. split; auto. now destruct k. }
    replace (match k, e0 :: es with KStat _, _ | _, [] => None | _, _ => match ctys (e0 :: es) with Some ts => Some (kty k (map shape_of (e0 :: es)) ts) | None => None end end)
      with (match ctys (e0 :: es) with Some ts => Some (kty k (map shape_of (e0 :: es)) ts) | None => None end) by (now destruct k).
    destruct bs as [|b0 bs]; [discriminate L|]. destruct (ctys (e0 :: es)) as [ts|] eqn:CT.
    + destruct C as [B C]. rewrite B in H2. destruct (mknode_inv _ _ _ _ _ S F K H2) as [cs [c [G1 [G2 ->]]]].
      cbn [btree shape_of bconst bread]. split; [reflexivity|]. split; [reflexivity|]. intros c' HC. injection HC as <-.
      destruct (C _ G1) as [T1 T2]. rewrite <- T1. apply kfold_typ; auto. intros ->.
      apply breads_len in G1. discriminate G1.
    + rewrite C in H2. unfold mknode in H2. rewrite andb_false_r in H2. injection H2 as <-.
      assert (S' : map shape_of (map (btree N) (b0 :: bs)) = map shape_of (e0 :: es)) by (rewrite map_map; exact S).
      split; [exact (f_equal (kshape k) S')|reflexivity].
  - cbn in HB. destruct (bindO_ok _ _ _ HB) as [b' [H1 H2]]. injection H2 as <-. cbn. auto.
  - cbn in HB. destruct (bindO_ok _ _ _ HB) as [b' [H1 H2]]. injection H2 as <-. cbn. auto.
  - cbn in HB. destruct (bindO_ok _ _ _ HB) as [b1 [H1 H2]]. destruct (bindO_ok _ _ _ H2) as [b2 [H3 H4]].
    injection H4 as <-. cbn in W. rewrite !andb_true_iff in W. destruct W as [[[W1 W2] _] _].
    cbn. split; auto. now apply (IHu2 m).
  - rewrite build_for in HB. destruct (bindO_ok _ _ _ HB) as [bs [H1 H2]]. injection H2 as <-.
    cbn in W. rewrite !andb_true_iff in W. destruct W as [[[W _] _] _]. destruct (TYPs _ _ H _ H1 W) as [S [L C]].
    cbn. rewrite map_map, S. auto.
  - cbn in HB. destruct (bindO_ok _ _ _ HB) as [b1 [H1 H2]]. destruct (bindO_ok _ _ _ H2) as [b2 [H3 H4]].
    destruct (bindO_ok _ _ _ H4) as [b3 [H5 H6]]. clear HB H2 H4. cbn in W. rewrite !andb_true_iff in W.
    destruct W as [[[[[W1 W2] W3] WC] _] WS].
    destruct (IHu1 _ _ H1 W1) as [S1 C1]. destruct (IHu2 _ _ H3 W2) as [S2 C2]. destruct (IHu3 _ _ H5 W3) as [S3 C3].
    cbn [cty]. destruct (cty u1) as [t1|]; [destruct (cty u2) as [t2|]; [destruct (cty u3) as [t3|]|]|].
    + destruct C1 as [B1 C1], C2 as [B2 C2], C3 as [B3 C3]. rewrite B1, B2, B3 in H6. cbn [andb] in H6.
      destruct (bindO_ok _ _ _ H6) as [x [G1 G2]]. destruct (bindO_ok _ _ _ G2) as [y [G3 G4]].
      destruct (bindO_ok _ _ _ G4) as [z [G5 G6]]. rewrite S2, S3, WS in G6.
      destruct (bindO_ok _ _ _ G6) as [v [G7 G8]]. injection G8 as <-. cbn [btree shape_of bconst bread].
      split; [reflexivity|]. split; [reflexivity|]. intros c HC. injection HC as <-.
      destruct (C2 _ G3) as [T2 L2]. destruct (C3 _ G5) as [T3 L3]. rewrite <- T2.
      apply (fold_if_typ _ _ _ _ _ (wfs_shape_u _ W2) G7 L2). apply shape_eqb_eq in WS. now rewrite WS.
    + destruct C1 as [B1 C1], C2 as [B2 C2]. rewrite C3, andb_false_r in H6. injection H6 as <-. cbn. auto.
    + destruct C1 as [B1 C1]. rewrite C2, andb_false_r in H6. injection H6 as <-. cbn. auto.
    + rewrite C1 in H6. injection H6 as <-. cbn. auto.
Qed.
End F.

Lemma cty_none {T A} (u : expr T A) t : cty u = Some t -> refs u = [] /\ writes u = [] /\ eqw u = [] /\ opw u = [].
Proof.
  revert t. induction u using expr_ind'; intros t0 HT; try discriminate HT; auto.
  - rewrite cty_comp in HT. assert (HT' : exists ts, ctys es = Some ts).
    { destruct (ctys es) as [ts|]; eauto. destruct k, es; discriminate HT. }
    clear HT. destruct HT' as [ts HT]. cbn.
    revert ts HT. induction H as [|y l Hy Hl IH]; intros ts HT; [repeat split; reflexivity|]. cbn in HT. fold (ctys l) in HT.
    destruct (cty y) eqn:Y; try discriminate. destruct (ctys l) eqn:L; try discriminate.
    destruct (Hy _ eq_refl) as [A1 [A2 [A3 A4]]]. destruct (IH _ eq_refl) as [B1 [B2 [B3 B4]]]. cbn. rewrite A1, A2, A3, A4, B1, B2, B3, B4. auto.
  - cbn in HT. destruct (cty u1) eqn:E1; try discriminate. destruct (cty u2) eqn:E2; try discriminate.
    destruct (cty u3) eqn:E3; try discriminate. cbn.
    destruct (IHu1 _ eq_refl) as [A1 [A2 [A3 A4]]]. destruct (IHu2 _ eq_refl) as [B1 [B2 [B3 B4]]]. destruct (IHu3 _ eq_refl) as [C1 [C2 [C3 C4]]].
    rewrite A1, A2, A3, A4, B1, B2, B3, B4, C1, C2, C3, C4. auto.
Qed.

Section V.
Variable la : linalg xr.
Variable LA : la_ok la.
Notation N := (XR la).
Notation U := (expr N unit).
Ltac nx := change (carrier (XR la)) with xr in *.

Lemma zof_val s c z : zof N s c = Some z -> cval N c = [Fin (IZR z)].
Proof.
  unfold zof. destruct (is_scl s); try discriminate. destruct c as [[|b [|]]|y|]; try discriminate; intros H; injection H as <-.
  - now destruct b.
  - reflexivity.
Qed.
Lemma reqb_Z x y : reqb (IZR x) (IZR y) = (x =? y)%Z.
Proof.
  destruct (Z.eqb_spec x y) as [->|H]; [apply reqb_t; auto|]. apply reqb_f. intros E. apply H. now apply eq_IZR.
Qed.
Lemma rltb_Z x y : rltb (IZR x) (IZR y) = (x <? y)%Z.
Proof.
  destruct (Z.ltb_spec x y); [apply rltb_t; now apply IZR_lt|]. apply rltb_f. now apply IZR_le.
Qed.
Lemma ntrue_Z x : ntrue N (Fin (IZR x)) = negb (x =? 0)%Z.
Proof. unfold ntrue. cbn. f_equal. apply (reqb_Z x 0). Qed.
Lemma zcmp b x y : is_cmp b = true -> bi_f N true b (Fin (IZR x)) (Fin (IZR y)) = nofb N (zi_t b x y).
Proof.
  destruct b; try discriminate; intros _; cbn; unfold xleb; cbn; rewrite ?reqb_Z, ?rltb_Z, ?ntrue_Z; auto.
  - f_equal. destruct (Z.leb_spec x y), (Z.ltb_spec x y), (Z.eqb_spec x y); auto; lia.
  - f_equal. destruct (Z.leb_spec y x), (Z.ltb_spec y x), (Z.eqb_spec y x); auto; lia.
Qed.
Lemma cmp_t sc b x y : is_cmp b = true -> sc = true \/ (b <> BAnd /\ b <> BOr) -> nofb N (bi_t N b x y) = bi_f N sc b x y.
Proof. intros H [->|[H1 H2]]; destruct b; try discriminate; try congruence; reflexivity. Qed.
Lemma nmin_b (a c : bool) : nmin N (nofb N a) (nofb N c) = nofb N (a && c).
Proof. destruct a, c; unfold nmin; cbn; rewrite ?rltb_f, ?rltb_t by lra; reflexivity. Qed.
Lemma nmax_b (a c : bool) : nmax N (nofb N a) (nofb N c) = nofb N (a || c).
Proof. destruct a, c; unfold nmax; cbn; rewrite ?rltb_f, ?rltb_t by lra; reflexivity. Qed.
Lemma map2_map {X Y Z X' Y'} (h : X -> Y -> Z) (f : X' -> X) (g : Y' -> Y) l : forall l',
  map2 h (map f l) (map g l') = map2 (fun a b => h (f a) (g b)) l l'.
Proof. induction l; destruct l'; cbn; auto. now rewrite IHl. Qed.
Lemma map_map2 {X Y Z W} (h : X -> Y -> Z) (f : Z -> W) l : forall l', map f (map2 h l l') = map2 (fun a b => f (h a b)) l l'.
Proof. induction l; destruct l'; cbn; auto. now rewrite IHl. Qed.
Lemma map2_ext {X Y Z} (h g : X -> Y -> Z) l : (forall a b, h a b = g a b) -> forall l', map2 h l l' = map2 g l l'.
Proof. intros E. induction l; destruct l'; cbn; auto. now rewrite IHl, E. Qed.
Lemma prod_b l : nprod N (map (nofb N) l) = nofb N (forallb (fun b => b) l).
Proof.
  change (nprod N (map (nofb N) l)) with (fold_left (nmul N) (map (nofb N) l) (n1 N)). enough (G : forall a, fold_left (nmul N) (map (nofb N) l) (nofb N a) = nofb N (a && forallb (fun b => b) l))
    by exact (G true).
  induction l as [|x l IH]; intros a; cbn [map fold_left forallb].
  - now rewrite andb_true_r.
  - replace (nmul N (nofb N a) (nofb N x)) with (nofb N (a && x)); [rewrite IH, andb_assoc; auto|].
    destruct a, x; cbn; f_equal; lra.
Qed.
Lemma rep_id n v f e : (forall x, f (Fin e) (Fin x) = Fin x) -> length v = n -> map2 f (repeat (Fin e) n) (map Fin v) = map Fin v.
Proof. intros H. revert n. induction v; destruct n; cbn; intros L; try discriminate; auto. now rewrite H, IHv by lia. Qed.
Lemma fold_z (f : Z -> Z -> Z) (h : xr -> xr -> xr) zs : (forall a b, h (Fin (IZR a)) (Fin (IZR b)) = Fin (IZR (f a b))) -> forall z,
  fold_left (map2 h) (map (fun z => [Fin (IZR z)]) zs) [Fin (IZR z)] = [Fin (IZR (fold_left f zs z))].
Proof. intros H. induction zs; cbn; intros z; auto. rewrite H. apply IHzs. Qed.
Lemma fold_b (f : bool -> bool -> bool) (h : xr -> xr -> xr) ls : (forall a b, h (nofb N a) (nofb N b) = nofb N (f a b)) -> forall l,
  fold_left (map2 h) (map (map (nofb N)) ls) (map (nofb N) l) = map (nofb N) (fold_left (map2 f) ls l).
Proof.
  intros H. induction ls; cbn; intros l; auto. rewrite <- IHls. f_equal. rewrite map_map2, map2_map. now apply map2_ext.
Qed.
Lemma KVk k ss vs u csb fl : folds k = true -> kshape_ok k ss = true -> lensR vs ss -> kdom false u k csb fl ss vs ->
  snd (kf k csb ss (sst0 N) (FF vs)) = map Fin (kden k ss vs).
Proof.
  intros F K L D. apply (KV_all la LA k csb fl ss (sst0 N) u vs); auto.
  - now destruct k.
  - now destruct k.
Qed.
Lemma Fin_len (c : cv N) v s : cval N c = map Fin v -> length v = size s -> clen N c s.
Proof. intros E L. unfold clen. nx. rewrite E, map_length. auto. Qed.
Lemma iter_val (p : bool) q ss c0 cs c vs W : forallb shape_ok ss = true -> same_shapes q ss = true -> lensR vs ss ->
  map (cval N) (c0 :: cs) = FF vs -> (p = false -> typ N c0 <> TB) -> fold_iter N p q (c0 :: cs) = Built c ->
  fold_left (map2 (if p then nmul N else nadd N)) (FF vs) (repeat (if p then n1 N else n0 N) (size (iter_shape q ss))) = W ->
  cval N c = W.
Proof.
  intros OK K L E NB H <-. destruct (fold_iter_inv _ _ _ _ _ _ H) as [Q HH].
  pose proof (iter_lens _ _ _ (iter_facts q ss OK K) L) as LN. set (n := size (iter_shape q ss)) in *.
  destruct vs as [|v vs]; [discriminate E|]. inversion LN as [|? ? L0 _]; subst.
  assert (R0 : fold_left (map2 (if p then nmul N else nadd N)) (FF (v :: vs)) (repeat (if p then n1 N else n0 N) n) =
               fold_left (map2 (if p then nmul N else nadd N)) (FF vs) (map Fin v)).
  { cbn [FF map fold_left]. f_equal. destruct p; apply rep_id; auto; intros; cbn; f_equal; lra. }
  rewrite R0. injection E as E1 E2.
  destruct HH as [[l [ls [E ->]]]|[[l [ls [E ->]]]|[z [zs [E ->]]]]]; injection E as -> ->.
  - rewrite <- E1. fold (FF vs) in E2. rewrite <- E2. rewrite map_map. cbn [cval]. now rewrite map_id.
  - destruct p; [|now destruct NB]. rewrite <- E1. fold (FF vs) in E2. rewrite <- E2. rewrite map_map. symmetry. cbn [cval].
    apply (fold_b andb). intros a b. destruct a, b; cbn; f_equal; lra.
  - rewrite <- E1. fold (FF vs) in E2. rewrite <- E2. rewrite map_map. symmetry. cbn [cval].
    destruct p; [apply (fold_z Z.mul (nmul N))|apply (fold_z Z.add (nadd N))]; intros a b; cbn; f_equal.
    + now rewrite mult_IZR.
    + now rewrite plus_IZR.
Qed.
Lemma kfold_val k ss cs c vs u csb fl : folds k = true -> kshape_ok k ss = true -> lensR vs ss ->
  map (cval N) cs = FF vs -> cs <> [] -> kexact k ss (map (typ N) cs) = true -> kfold N k ss cs = Built c ->
  kdom false u k csb fl ss vs -> cval N c = map Fin (kden k ss vs).
Proof.
  intros F K L E NE X H HD. pose proof (KVk k ss vs u csb fl F K L HD) as V. pose proof K as K0.
  unfold kshape_ok in K. apply andb_true_iff in K. destruct K as [OK K].
  destruct k; cbn [kfold] in H; try discriminate F.
  - destruct ss as [|s [|]]; try discriminate K. inversion L as [|v ? ? ? L0 L1]; subst. inversion L1; subst.
    destruct cs as [|c0 [|]]; try discriminate E. injection E as E.
    unfold nth_sh in H. cbn [nth] in H. rewrite <- V. unfold kf. cbn [kfwd snd]. rewrite arg_fin. cbn [nth]. rewrite <- E.
    unfold fold_un in H. destruct c0 as [l|z|l].
    + destruct (zof N s (CB l)) eqn:Z; try discriminate H. rewrite (zof_val _ _ _ Z).
      destruct u0; injection H as <-; try reflexivity. cbn. now rewrite opp_IZR.
    + destruct (zof N s (CZ z)) eqn:Z; try discriminate H. rewrite (zof_val _ _ _ Z).
      destruct u0; injection H as <-; try reflexivity. cbn. now rewrite opp_IZR.
    + injection H as <-. reflexivity.
  - destruct ss as [|s [|]]; try discriminate K. inversion L as [|v ? ? ? L0 L1]; subst. inversion L1; subst.
    destruct cs as [|c0 [|]]; try discriminate E. injection E as E.
    unfold nth_sh in H. cbn [nth] in H. rewrite <- V. unfold kf. cbn [kfwd snd]. rewrite arg_fin. cbn [nth]. rewrite <- E.
    unfold nth_sh. cbn [nth].
    assert (G : forall y, zof N s c0 = Some y -> (if (z <? 0)%Z && (y =? 0)%Z then Built (CD [n0 N])
                else Built (CD [powfunc N z (nofZ N y)])) = Built c -> cval N c = map (pow_f N s z) (cval N c0)).
    { intros y Z H'. destruct (zof_some _ _ _ _ Z) as [S _]. rewrite (zof_val _ _ _ Z). cbn [map]. unfold pow_f. rewrite S.
      destruct (z <? 0)%Z eqn:Z0; [destruct (y =? 0)%Z eqn:Y0|]; cbn [andb] in H'; injection H' as <-; try reflexivity.
      exfalso. apply Z.ltb_lt in Z0. apply Z.eqb_eq in Y0. subst y.
      cbn in HD. specialize (HD Z0 0). rewrite (zof_val _ _ _ Z) in E. destruct v as [|x [|]]; try discriminate E.
      injection E as E. apply HD; [unfold nth_sh; cbn; cbn in L0; lia|]. cbn. congruence. }
    unfold fold_pow in H. destruct c0 as [l|y|l].
    + destruct (zof N s (CB l)) eqn:Z; try discriminate H. eauto.
    + destruct (zof N s (CZ y)) eqn:Z; try discriminate H. eauto.
    + injection H as <-. reflexivity.
  - destruct cs as [|? [|]]; discriminate H.
  - destruct ss as [|s [|]]; try discriminate K. inversion L as [|v ? ? ? L0 L1]; subst. inversion L1; subst.
    destruct cs as [|c0 [|]]; try discriminate E. injection E as E. cbn in OK. rewrite andb_true_r in OK.
    unfold nth_sh in H. cbn [nth] in H. rewrite <- V. unfold kf. cbn [kfwd snd]. rewrite arg_fin. cbn [nth]. rewrite <- E.
    unfold fold_elem in H. unfold kexact in X. unfold nth_sh in X. cbn [nth map] in X. destruct (is_scl s) eqn:S.
    + injection H as <-. rewrite (scl_size s OK S) in L0. destruct v as [|x [|]]; try discriminate L0.
      rewrite E. cbn. f_equal. f_equal. lra.
    + destruct c0; try discriminate X. injection H as <-. reflexivity.
  - destruct ss as [|s [|]]; try discriminate K. inversion L as [|v ? ? ? L0 L1]; subst. inversion L1; subst.
    destruct cs as [|c0 [|]]; try discriminate E. injection E as E. cbn in OK. rewrite andb_true_r in OK.
    unfold nth_sh in H. cbn [nth] in H. rewrite <- V. unfold kf. cbn [kfwd snd]. rewrite arg_fin. cbn [nth]. rewrite <- E.
    unfold fold_elem in H. destruct (is_scl s) eqn:S.
    + injection H as <-. rewrite (scl_size s OK S) in L0. destruct v as [|x [|]]; try discriminate L0.
      rewrite E. cbn. f_equal. f_equal. lra.
    + destruct c0; try discriminate H; injection H as <-; [|reflexivity]. cbn [cval]. rewrite prod_b. reflexivity.
  - destruct cs as [|[| |] [|]]; try discriminate H. injection H as <-. rewrite <- V, <- E. reflexivity.
  - destruct cs as [|[| |l] [|]]; try discriminate H. injection H as <-.
    destruct ss as [|s [|]]; try discriminate K. inversion L as [|v ? ? ? L0 L1]; subst. inversion L1; subst. injection E as E.
    apply andb_true_iff in K. destruct K as [_ K]. apply Nat.eqb_eq in K. unfold size in L0. rewrite <- K in L0.
    cbn [cval]. unfold nth_sh. cbn [nth kden map]. rewrite E. f_equal. exact (la_lu_det _ LA _ _ L0).
  - destruct cs as [|[| |l] [|]]; try discriminate H. injection H as <-.
    destruct ss as [|s [|]]; try discriminate K. inversion L as [|v ? ? ? L0 L1]; subst. inversion L1; subst. injection E as E.
    apply andb_true_iff in K. destruct K as [_ K]. apply Nat.eqb_eq in K. unfold size in L0. rewrite <- K in L0.
    cbn [cval]. unfold nth_sh. cbn [nth kden map]. rewrite E. f_equal.
    change (nlog N (nabs N (lu_det _ la (rows s) (map Fin v))) = Fin (ln (Rabs (det (rows s) (m_of (rows s) v))))).
    rewrite (la_lu_det _ LA _ _ L0), xabs_fin. apply nlog_fin. apply Rabs_pos_lt.
    apply (fdom_det f). destruct f; exact HD.
  - destruct (bin_facts b ss K0) as [s1 [s2 [-> [F1 [F2 [F3 [F4 F5]]]]]]]. set (n := size (kshape (KBin b) [s1; s2])) in *.
    inversion L as [|v1 ? ? ? L0 L1]; subst. inversion L1 as [|v2 ? ? ? L2 L3]; subst. inversion L3; subst.
    destruct cs as [|c1 [|c2 [|]]]; try discriminate E. injection E as E1 E2. cbn in OK. rewrite !andb_true_iff in OK. destruct OK as [O1 [O2 _]].
    rewrite <- V. unfold kf. cbn [kfwd snd]. rewrite !arg_fin. unfold nth_sh in H |- *. cbn [nth] in H |- *. fold n in H |- *. rewrite <- E1, <- E2.
    unfold fold_bin in H. destruct (is_scl s1 && is_scl s2) eqn:SC.
    + apply andb_true_iff in SC. destruct SC as [S1 S2]. unfold bin_fwd. rewrite S1, S2. cbn [andb]. unfold bc. rewrite S1, S2, (F5 S1 S2).
      cbn [repeat map2]. destruct (zof N s1 c1) eqn:Z1; [destruct (zof N s2 c2) eqn:Z2|].
      * rewrite (zof_val _ _ _ Z1), (zof_val _ _ _ Z2). cbn [hd0 hd].
        destruct (is_cmp b) eqn:C; [injection H as <-; cbn [cval map]; f_equal; symmetry; now apply zcmp|].
        apply zof_some in Z1. apply zof_some in Z2. destruct Z1 as [_ [T1 _]], Z2 as [_ [T2 _]].
        destruct b; try discriminate C; cbn [zi_f] in H; try (injection H as <-; cbn; f_equal; f_equal;
          rewrite ?plus_IZR, ?minus_IZR, ?mult_IZR; lra).
        exfalso. cbn in X. destruct c1, c2; cbn in X, T1, T2; congruence.
      * destruct (is_cmp b) eqn:C; injection H as <-; [|reflexivity]. cbn [cval map]. f_equal. apply cmp_t; auto.
      * destruct (is_cmp b) eqn:C; injection H as <-; [|reflexivity]. cbn [cval map]. f_equal. apply cmp_t; auto.
    + destruct c1 as [l1| |l1], c2 as [l2| |l2]; try discriminate H.
      * destruct (is_scl s1) eqn:S1; [discriminate H|]. destruct (is_scl s2) eqn:S2; [discriminate H|]. cbn [orb] in H.
        unfold bin_fwd, bc. rewrite S1, S2. cbn [andb]. destruct b; try discriminate H; injection H as <-; cbn [cval bi_f];
          rewrite map_map2, map2_map; apply map2_ext; intros; symmetry; [apply nmin_b|apply nmax_b].
      * destruct b; injection H as <-; cbn [cval]; try reflexivity; unfold bin_fwd; rewrite map_map2; apply map2_ext; intros;
          apply cmp_t; auto; right; split; discriminate.
  - destruct cs as [|[| |] [|[| |] [|]]]; try discriminate H. injection H as <-. rewrite <- V, <- E. reflexivity.
  - destruct cs as [|c0 cs]; [now destruct NE|].
    apply (iter_val false s ss c0 cs c vs _ OK K L E); auto. intros _. cbn in X. destruct c0; discriminate X || (intros HX; discriminate HX).
  - destruct cs as [|c0 cs]; [now destruct NE|].
    apply (iter_val true s ss c0 cs c vs _ OK K L E); auto.
Qed.

Variable D : nat -> R.
Definition dmem (u : U) (m : mem N) : Prop := forall o, In o (drefs u) -> m 4 o = Some (Fin (D o)).

Lemma cty_env (u : U) t r : cty u = Some t -> wfs u = true -> fin_env D (u : expr xr unit) r = r.
Proof. intros H W. apply env_same; auto. now destruct (cty_none u t H) as [_ [H2 _]]. Qed.

Definition VAL (u : U) : Prop := forall m b t c r w, build N u m = Built b -> cty u = Some t -> bread N m b = Built c ->
  wfs u = true -> fexact u = true -> dmem u m -> dom D false w (u : expr xr unit) r -> cval N c = map Fin (val D (u : expr xr unit) r).
Lemma VALs m es : Forall VAL es -> forall bs ts cs r us i, builds N m es = Built bs -> ctys es = Some ts -> breads N m bs = Built cs ->
  forallb wfs es = true -> forallb fexact es = true -> (forall o, In o (flat_map drefs es) -> m 4 o = Some (Fin (D o))) ->
  doms D false us i es r -> map (cval N) cs = FF (fst (dens D es r)) /\ snd (dens D es r) = r.
Proof.
  induction 1 as [|y l Hy Hl IH]; intros bs ts cs r us i HB HT HR W X HM HD; cbn in HB.
  - injection HB as <-. cbn in HR. injection HR as <-. auto.
  - destruct (bindO_ok _ _ _ HB) as [b [H1 H2]]. destruct (bindO_ok _ _ _ H2) as [bs' [H3 H4]]. injection H4 as <-.
    cbn in HR. destruct (bindO_ok _ _ _ HR) as [c [G1 G2]]. destruct (bindO_ok _ _ _ G2) as [cs' [G3 G4]]. injection G4 as <-.
    cbn in W, X. apply andb_true_iff in W, X. destruct W as [W1 W2], X as [X1 X2]. cbn [doms] in HD. destruct HD as [D1 D2].
    cbn in HT. nx. fold (ctys l) in HT. destruct (cty y) as [t|] eqn:CY; [|discriminate HT]. destruct (ctys l) as [ts'|] eqn:CL; [|discriminate HT].
    rewrite (cty_env y t r CY W1) in D2.
    destruct (IH _ _ _ _ us (S i) H3 eq_refl G3 W2 X2 (fun o Ho => HM o (in_or_app _ _ _ (or_intror Ho))) D2) as [I1 I2].
    pose proof (Hy _ _ _ _ _ _ H1 CY G1 W1 X1 (fun o Ho => HM o (in_or_app _ _ _ (or_introl Ho))) D1) as I3.
    rewrite dens_cons, (cty_env y t r CY W1). cbn [map fst snd FF]. rewrite I3, I1. auto.
Qed.
Lemma rdn_dm m o n : (forall i, In i (seq o n) -> m 4 i = Some (Fin (D i))) -> load m (Ptr 4 o) n = Ok (map Fin (map D (seq o n))).
Proof.
  cbn. revert o. induction n; intros o H; [reflexivity|]. cbn. unfold rd1. rewrite (H o) by (cbn; auto). cbn.
  rewrite IHn; auto. intros i Hi. apply H. cbn. auto.
Qed.
Lemma val_all u : VAL u.
Proof.
  induction u using expr_ind'; intros m b t0 c0 rr w HB HT HR W X HM HD; try discriminate HT.
  - injection HB as <-. cbn in HR. injection HR as <-. cbn. cbn in HD. now apply fin_fval.
  - injection HB as <-. cbn [bread] in HR. pose proof (rdn_dm m o (size sh) HM) as HL. nx. rewrite HL in HR. injection HR as <-. reflexivity.
  - pose proof HT as HT0. rewrite cty_comp in HT. rewrite build_comp in HB. destruct (bindO_ok _ _ _ HB) as [bs [H1 H2]]. clear HB.
    cbn in W. rewrite !andb_true_iff in W. destruct W as [[[W K] _] _].
    cbn in X. rewrite andb_true_iff in X. destruct X as [X XK].
    assert (TA : Forall (TYP N) es) by (apply Forall_forall; intros; apply typ_all).
    destruct (TYPs _ _ _ TA _ H1 W) as [S [L C]].
    assert (F : folds k = true) by (destruct k; auto; destruct es; discriminate HT).
    assert (NE : es <> []) by (intros ->; destruct k; discriminate HT).
    destruct (ctys es) as [ts|] eqn:CT; [|destruct k, es; discriminate HT].
    destruct C as [B C]. destruct bs as [|b0 bs]; [destruct es; [now destruct NE|discriminate L]|]. rewrite B in H2.
    destruct (mknode_inv _ _ _ _ _ _ S F K H2) as [cs [c1 [G1 [G2 ->]]]]. cbn in HR. injection HR as <-.
    rewrite dom_comp in HD. destruct HD as [D1 D2].
    destruct (VALs m es H _ _ _ _ _ _ H1 CT G1 W X HM D1) as [I1 I2]. destruct (C _ G1) as [T1 T2].
    unfold val. rewrite den_comp. cbn [fst].
    assert (XK' : kexact k (map shape_of es) ts = true) by (unfold fexact in XK; nx; rewrite CT in XK; exact XK).
    apply (kfold_val k (map shape_of es) cs c1 (fst (dens D es rr)) w (map is_const es) (map flat es) F K);
      [apply vals_len; auto|exact I1| |rewrite T1; exact XK'|exact G2|exact D2].
    intros ->. apply breads_len in G1. discriminate G1.
  - cbn in HT. nx. destruct (cty u1) as [t1|] eqn:E1; [|discriminate HT]. destruct (cty u2) as [t2|] eqn:E2; [|discriminate HT].
    destruct (cty u3) as [t3|] eqn:E3; [|discriminate HT]. injection HT as <-.
    cbn in HB. destruct (bindO_ok _ _ _ HB) as [b1 [H1 H2]]. destruct (bindO_ok _ _ _ H2) as [b2 [H3 H4]].
    destruct (bindO_ok _ _ _ H4) as [b3 [H5 H6]]. clear HB H2 H4. cbn in W. rewrite !andb_true_iff in W.
    destruct W as [[[[[W1 W2] W3] WC] _] WS].
    destruct (typ_all N u1 _ _ H1 W1) as [S1 C1]. destruct (typ_all N u2 _ _ H3 W2) as [S2 C2]. destruct (typ_all N u3 _ _ H5 W3) as [S3 C3].
    nx. rewrite E1 in C1. rewrite E2 in C2. rewrite E3 in C3.
    destruct C1 as [B1 C1], C2 as [B2 C2], C3 as [B3 C3]. rewrite B1, B2, B3 in H6. cbn [andb] in H6.
    destruct (bindO_ok _ _ _ H6) as [x [G1 G2]]. destruct (bindO_ok _ _ _ G2) as [y [G3 G4]].
    destruct (bindO_ok _ _ _ G4) as [z [G5 G6]]. rewrite S2, S3, WS in G6.
    destruct (bindO_ok _ _ _ G6) as [v [G7 G8]]. injection G8 as <-. cbn in HR. injection HR as <-.
    destruct (C1 _ G1) as [T1 L1]. destruct (C2 _ G3) as [T2 L2]. destruct (C3 _ G5) as [T3 L3].
    cbn in X. nx. rewrite E2, E3, !andb_true_iff in X. destruct X as [[[X1 X2] X3] XT].
    cbn [dom] in HD. destruct HD as [D1 [_ D2]]. rewrite (cty_env u1 _ rr E1 W1) in D2.
    assert (M1 : dmem u1 m) by (intros o Ho; apply HM; cbn; apply in_or_app; auto).
    assert (M2 : dmem u2 m) by (intros o Ho; apply HM; cbn; apply in_or_app; right; apply in_or_app; auto).
    assert (M3 : dmem u3 m) by (intros o Ho; apply HM; cbn; apply in_or_app; right; apply in_or_app; auto).
    pose proof (IHu1 _ _ _ _ _ _ H1 E1 G1 W1 X1 M1 D1) as V1.
    assert (Q : ntrue N (hd0 N (cval N x)) = negb (reqb (el (val D (u1 : expr xr unit) rr) 0) 0)).
    { rewrite V1. unfold ntrue. f_equal. pose proof (val_len D u1 rr W1) as LV. rewrite (scl_size _ (wfs_shape_u _ W1) WC) in LV.
      destruct (val D u1 rr) as [|q [|]]; try discriminate LV. reflexivity. }
    assert (VI : val D (EIf a u1 u2 u3 : expr xr unit) rr = if reqb (el (val D (u1 : expr xr unit) rr) 0) 0 then val D (u3 : expr xr unit) rr else val D (u2 : expr xr unit) rr).
    { unfold val at 1. cbn [den]. pose proof (cty_env u1 _ rr E1 W1) as EN. unfold fin_env in EN. unfold val.
      destruct (den D u1 rr) as [v1 r1]. cbn in EN. subst r1. cbn [fst]. destruct (reqb (el v1 0) 0); reflexivity. }
    rewrite VI. unfold fold_if in G7. rewrite Q in G7.
    destruct (reqb (el (val D u1 rr) 0) 0); cbn [negb] in G7.
    + pose proof (IHu3 _ _ _ _ _ _ H5 E3 G5 W3 X3 M3 D2) as V3. rewrite <- V3. subst t2 t3.
      destruct y, z; cbn in XT; try discriminate XT; try destruct (is_scl (shape_of u2)); try discriminate G7; injection G7 as <-; reflexivity.
    + pose proof (IHu2 _ _ _ _ _ _ H3 E2 G3 W2 X2 M2 D2) as V2. rewrite <- V2. subst t2 t3.
      destruct y, z; cbn in XT; try discriminate XT; try destruct (is_scl (shape_of u2)); try discriminate G7; injection G7 as <-; reflexivity.
Qed.

(** ** The folded expression means the same *)
Notation X := (expr xr unit).
Record sim (u v : X) : Prop := {
  s_shape : shape_of v = shape_of u;
  s_den : forall r, den D v r = den D u r;
  s_fin : cfin v;
  s_refs : refs v = refs u;
  s_writes : writes v = writes u;
  s_eqw : eqw v = eqw u;
  s_opw : opw v = opw u;
  s_disc : disc u = true -> disc v = true;
  s_sd : incl (sdrefs v) (sdrefs u);
  s_vw : incl (vwcells v) (vwcells u);
  s_dr : incl (drefs v) (drefs u);
  s_flat : flat u = true -> flat v = true;
  s_dom : nostat u = true -> forall d w r, dom D d w u r -> dom D d w v r
}.
Definition cfins : list X -> Prop := fix go es := match es with [] => True | y :: l => cfin y /\ go l end.
Lemma sims_eq {Y} (f : X -> Y) es es' : (forall u v, sim u v -> f v = f u) -> Forall2 sim es es' -> map f es' = map f es.
Proof. intros H. induction 1; cbn; auto. f_equal; auto. Qed.
Lemma sims_fm {Y} (f : X -> list Y) es es' : (forall u v, sim u v -> f v = f u) -> Forall2 sim es es' -> flat_map f es' = flat_map f es.
Proof. intros H. induction 1; cbn; auto. f_equal; auto. Qed.
Lemma sims_incl {Y} (f : X -> list Y) es es' : (forall u v, sim u v -> incl (f v) (f u)) -> Forall2 sim es es' -> incl (flat_map f es') (flat_map f es).
Proof. intros H. induction 1; cbn; [apply incl_refl|]. apply incl_app; [apply incl_appl; auto|apply incl_appr; auto]. Qed.
Lemma sims_den es es' : Forall2 sim es es' -> forall r, dens D es' r = dens D es r.
Proof. induction 1 as [|u v l l' H H' IH]; intros r; auto. rewrite !dens_cons. unfold val, fin_env. now rewrite (s_den _ _ H), IH. Qed.
Lemma sims_fin es es' : Forall2 sim es es' -> cfins es'.
Proof. induction 1 as [|u v l l' H H' IH]; cbn; auto. split; auto. apply (s_fin _ _ H). Qed.
Lemma sims_later (f : X -> list nat) es es' : (forall u v, sim u v -> f v = f u) -> Forall2 sim es es' -> later f es' = later f es.
Proof.
  intros H. induction 1 as [|u v l l' H1 H2 IH]; auto. cbn [later]. rewrite (sims_fm f l l' H H2), (s_refs _ _ H1), IH. reflexivity.
Qed.
Lemma sims_all (f : X -> bool) es es' : (forall u v, sim u v -> f u = true -> f v = true) -> Forall2 sim es es' -> forallb f es = true -> forallb f es' = true.
Proof. intros H. induction 1; cbn; auto. rewrite !andb_true_iff. intros [? ?]. split; eauto. Qed.
Lemma sims_doms es es' : Forall2 sim es es' -> forallb nostat es = true -> forall d us i r, doms D d us i es r -> doms D d us i es' r.
Proof.
  induction 1 as [|u v l l' H1 H2 IH]; cbn; auto. rewrite andb_true_iff. intros [N1 N2] d us i r [D1 D2]. split.
  - apply (s_dom _ _ H1); auto.
  - apply IH; auto. unfold fin_env. rewrite (s_den _ _ H1). exact D2.
Qed.
Lemma sims_domf es es' : Forall2 sim es es' -> forallb nostat es = true -> forall d w r, domf D d w es r -> domf D d w es' r.
Proof.
  induction 1 as [|u v l l' H1 H2 IH]; cbn; auto. rewrite andb_true_iff. intros [N1 N2] d w r [D1 D2]. split.
  - apply (s_dom _ _ H1); auto. now destruct H2.
  - apply IH; auto. unfold fin_env. rewrite (s_den _ _ H1). exact D2.
Qed.
Lemma kdom_flat d w k cs cs' fl fl' ss vs : folds k = true -> (forall i, nth i fl false = true -> nth i fl' false = true) ->
  kdom d w k cs fl ss vs -> kdom d w k cs' fl' ss vs.
Proof.
  intros F H. destruct k; cbn [kdom]; auto; try discriminate F. intros HD i Hi. specialize (HD i Hi).
  pose proof (H 0). pose proof (H 1).
  destruct b; cbn [bi_dom] in *; auto; try (intros E; specialize (HD E); tauto);
    destruct (_ && _); try (intros E; specialize (HD E); tauto);
    destruct HD as [HD1 HD2]; (split; [exact HD1|intros E; specialize (HD2 E); tauto]).
Qed.
Lemma flat_map_flat es es' : Forall2 sim es es' -> forall i, nth i (map flat es) false = true -> nth i (map flat es') false = true.
Proof. induction 1 as [|u v l l' H1 H2 IH]; intros i; cbn; auto. destruct i; auto. apply (s_flat _ _ H1). Qed.
Lemma fm_tl {Y} (f : X -> Y) es es' : map f es' = map f es -> map f (tl es') = map f (tl es).
Proof. destruct es, es'; cbn; try discriminate; auto. intros E. now injection E. Qed.
Lemma forallb_map {Y Z} (g : Z -> bool) (f : Y -> Z) l : forallb (fun y => g (f y)) l = forallb g (map f l).
Proof. induction l; cbn; auto. now rewrite IHl. Qed.

Lemma sim_comp k a es es' : Forall2 sim es es' -> sim (EComp k a es) (EComp k a es').
Proof.
  intros H. pose proof (sims_eq shape_of es es' s_shape H) as SH. split; cbn [shape_of refs writes eqw opw vwcells flat].
  - now rewrite SH.
  - intros r. rewrite !den_comp, SH, (sims_den _ _ H). reflexivity.
  - exact (sims_fin _ _ H).
  - exact (sims_fm refs _ _ s_refs H).
  - exact (sims_fm writes _ _ s_writes H).
  - exact (sims_fm eqw _ _ s_eqw H).
  - exact (sims_fm opw _ _ s_opw H).
  - cbn [disc]. rewrite !andb_true_iff. intros [[[D1 D2] D3] D4]. rewrite SH.
    rewrite (sims_later writes _ _ s_writes H). rewrite (forallb_map nilb writes es'), (sims_eq writes _ _ s_writes H), <- forallb_map.
    rewrite (forallb_map nilb opw (tl es')), (fm_tl opw es es' (sims_eq opw _ _ s_opw H)), <- forallb_map.
    repeat split; auto. exact (sims_all disc _ _ s_disc H D1).
  - cbn [sdrefs]. apply incl_app; [apply incl_appl|apply incl_appr; exact (sims_incl sdrefs _ _ s_sd H)].
    destruct k; try apply incl_refl. exact (sims_incl vwcells _ _ s_vw H).
  - apply incl_refl.
  - cbn [drefs]. exact (sims_incl drefs _ _ s_dr H).
  - destruct k; auto.
  - intros HN d w r HD. rewrite dom_comp in *. destruct HD as [D1 D2]. rewrite SH, (sims_den _ _ H).
    assert (F : folds k = true) by (destruct k; auto; discriminate HN).
    split.
    + apply (sims_doms _ _ H); auto. destruct k; auto; discriminate HN.
    + eapply kdom_flat; [exact F|exact (flat_map_flat _ _ H)|exact D2].
Qed.
Lemma sim_for a s es es' : Forall2 sim es es' -> sim (EFor a s es) (EFor a s es').
Proof.
  intros H. pose proof (sims_eq shape_of es es' s_shape H) as SH. split; cbn [shape_of refs writes eqw opw vwcells flat].
  - now rewrite SH.
  - intros r. rewrite !den_for, (sims_den _ _ H). reflexivity.
  - exact (sims_fin _ _ H).
  - exact (sims_fm refs _ _ s_refs H).
  - exact (sims_fm writes _ _ s_writes H).
  - exact (sims_fm eqw _ _ s_eqw H).
  - exact (sims_fm opw _ _ s_opw H).
  - cbn [disc]. rewrite !andb_true_iff. intros [D1 D2]. rewrite (sims_later eqw _ _ s_eqw H).
    split; auto. exact (sims_all disc _ _ s_disc H D1).
  - exact (sims_incl sdrefs _ _ s_sd H).
  - apply incl_refl.
  - exact (sims_incl drefs _ _ s_dr H).
  - auto.
  - intros HN d w r HD. rewrite dom_for in *. apply (sims_domf _ _ H); auto.
Qed.
Lemma sim_const u t b : cty u = Some t -> (forall r, val D u r = map fval (cval N b)) -> wfs u = true -> Forall is_fin (cval N b) ->
  sim u (ECst (shape_of u) (cval N b)).
Proof.
  intros C V W F. destruct (cty_none u t C) as [E1 [E2 [E3 E4]]].
  split; cbn [shape_of refs writes eqw opw vwcells flat sdrefs drefs disc cfin dom]; auto; try apply incl_nil_l.
  intros r. cbn [den]. rewrite <- (V r). pose proof (cty_env u t r C W) as E. unfold fin_env in E. unfold val.
  destruct (den D u r). cbn in *. congruence.
Qed.
Lemma sim_refl (u : X) : cfin u -> sim u u.
Proof. intros H. split; auto; apply incl_refl. Qed.
Definition FSIM (u : X) : Prop := forall m b, build N u m = Built b -> wfs u = true -> fexact u = true -> cfin u -> cdom D u -> dmem u m ->
  sim u (btree N b).
Lemma cdom_const (u : X) t : cdom D u -> cty u = Some t -> forall r, dom D false false u r.
Proof. intros H C. destruct u; cbn [cdom] in H; rewrite C in H; exact H. Qed.
Definition cdoms : list X -> Prop := fix go es := match es with [] => True | y :: l => cdom D y /\ go l end.
Lemma FSIMs m es : Forall FSIM es -> forall bs, builds N m es = Built bs -> forallb wfs es = true -> forallb fexact es = true ->
  cfins es -> cdoms es -> (forall o, In o (flat_map drefs es) -> m 4 o = Some (Fin (D o))) -> Forall2 sim es (map (btree N) bs).
Proof.
  induction 1 as [|y l Hy Hl IH]; intros bs H W E C DD M; cbn in H.
  - injection H as <-. constructor.
  - destruct (bindO_ok _ _ _ H) as [b [H1 H2]]. destruct (bindO_ok _ _ _ H2) as [bs' [H3 H4]]. injection H4 as <-.
    cbn in W, E. apply andb_true_iff in W, E. destruct W as [W1 W2], E as [E1 E2]. destruct C as [C1 C2], DD as [D1 D2].
    cbn [map]. constructor.
    + apply (Hy m); auto. intros o Ho. apply M. cbn. apply in_or_app. auto.
    + apply IH; auto. intros o Ho. apply M. cbn. apply in_or_app. auto.
Qed.
Lemma build_BV (u : X) m s o : build N u m = Built (BV s o) -> u = ECvw s o.
Proof.
  destruct u; cbn; intros H; try discriminate H.
  - now injection H as -> ->.
  - match type of H with bindO ?x ?f = _ => destruct (bindO_ok x f _ H) as [bs [_ G]] end.
    unfold mknode in G. destruct (_ && _); [|discriminate G].
    destruct (bindO_ok _ _ _ G) as [cs [_ G1]]. destruct (bindO_ok _ _ _ G1) as [c [_ G2]].
    destruct k; try destruct (is_scl _); discriminate G2.
  - destruct (bindO_ok _ _ _ H) as [b1 [_ G1]]. discriminate G1.
  - destruct (bindO_ok _ _ _ H) as [b1 [_ G1]]. discriminate G1.
  - destruct (bindO_ok _ _ _ H) as [b1 [_ G1]]. destruct (bindO_ok _ _ _ G1) as [b2 [_ G2]]. discriminate G2.
  - destruct (bindO_ok _ _ _ H) as [b1 [_ G1]]. discriminate G1.
  - destruct (bindO_ok _ _ _ H) as [b1 [_ G1]]. destruct (bindO_ok _ _ _ G1) as [b2 [_ G2]]. destruct (bindO_ok _ _ _ G2) as [b3 [_ G3]].
    destruct (_ && _ && _); [|discriminate G3].
    destruct (bindO_ok _ _ _ G3) as [x [_ G4]]. destruct (bindO_ok _ _ _ G4) as [y [_ G5]]. destruct (bindO_ok _ _ _ G5) as [z [_ G6]].
    destruct (shape_eqb _ _); [|discriminate G6]. destruct (bindO_ok _ _ _ G6) as [v [_ G7]]. discriminate G7.
Qed.
Lemma fsim_const (u : X) t m b : cty u = Some t -> build N u m = Built b -> wfs u = true -> fexact u = true -> cfin u -> cdom D u -> dmem u m ->
  sim u (btree N b).
Proof.
  intros C H W E F DD M. destruct (typ_all N u m b H W) as [S B]. nx. rewrite C in B. destruct B as [B _].
  destruct b as [s c|s o|]; [| |discriminate B].
  - cbn [btree] in S |- *. cbn [shape_of] in S. subst s.
    pose proof (fun r => val_all u m _ t c r false H C eq_refl W E M (cdom_const u t DD C r)) as V.
    apply (sim_const u t c C); auto.
    + intros r. rewrite (V r), map_map. cbn. now rewrite map_id.
    + rewrite (V (fun _ => 0%R)). apply Forall_forall. intros x Hx. apply in_map_iff in Hx. destruct Hx as [y [<- _]]. now exists y.
  - apply build_BV in H. subst u. apply sim_refl. exact I.
Qed.
Lemma fsim_all u : FSIM u.
Proof.
  induction u using expr_ind'; intros m b HB W E F DD M;
    try (match goal with |- sim ?u _ => destruct (cty u) as [t|] eqn:C; [exact (fsim_const u t m b C HB W E F DD M)|] end).
  - injection HB as <-. apply sim_refl. exact I.
  - discriminate C.
  - discriminate C.
  - cbn [cdom] in DD. rewrite C in DD. pose proof (typ_all N _ m b HB W) as [_ TB]. nx. rewrite C in TB.
    rewrite build_comp in HB. destruct (bindO_ok _ _ _ HB) as [bs [H1 H2]]. clear HB.
    cbn in W. rewrite !andb_true_iff in W. destruct W as [[[W K] _] _]. cbn in E. rewrite andb_true_iff in E. destruct E as [E _].
    pose proof (FSIMs m es H bs H1 W E F DD M) as SS.
    unfold mknode in H2. destruct (_ && _).
    + destruct (bindO_ok _ _ _ H2) as [cs [_ G1]]. destruct (bindO_ok _ _ _ G1) as [c [_ G2]].
      injection G2 as <-. destruct k; try destruct (is_scl _); discriminate TB.
    + injection H2 as <-. cbn [btree]. destruct a. now apply sim_comp.
  - cbn [cdom] in DD. rewrite C in DD. cbn in HB. destruct (bindO_ok _ _ _ HB) as [b' [H1 H2]]. injection H2 as <-.
    cbn in W. rewrite !andb_true_iff in W. destruct W as [[[W _] _] _].
    destruct (IHu _ _ H1 W E F DD M) as [Q1 Q2 Q3 Q4 Q5 Q6 Q7 Q8 Q9 Q10 Q11 Q12 Q13].
    split; cbn [btree shape_of refs writes eqw opw vwcells flat sdrefs drefs disc cfin dom den nostat]; auto; try apply incl_refl; try congruence.
    + intros r. now rewrite Q2.
    + rewrite !andb_true_iff. intros [A1 A2]. rewrite Q4. auto.
  - cbn [cdom] in DD. rewrite C in DD. cbn in HB. destruct (bindO_ok _ _ _ HB) as [b' [H1 H2]]. injection H2 as <-.
    cbn in W. rewrite !andb_true_iff in W. destruct W as [[[W _] _] _].
    destruct (IHu _ _ H1 W E F DD M) as [Q1 Q2 Q3 Q4 Q5 Q6 Q7 Q8 Q9 Q10 Q11 Q12 Q13].
    split; cbn [btree shape_of refs writes eqw opw vwcells flat sdrefs drefs disc cfin dom den nostat]; auto; try apply incl_refl; try congruence.
    + intros r. now rewrite Q2, Q1.
    + rewrite !andb_true_iff. intros [[A1 A2] A3]. rewrite Q1, Q5, Q7. auto.
    + intros HN d w r [A1 A2]. unfold val. rewrite Q1, Q2. auto.
  - cbn [cdom] in DD. rewrite C in DD. cbn in HB. destruct (bindO_ok _ _ _ HB) as [b1 [H1 H2]]. destruct (bindO_ok _ _ _ H2) as [b2 [H3 H4]].
    injection H4 as <-. cbn in W. rewrite !andb_true_iff in W. destruct W as [[[W1 W2] _] _].
    cbn in E. rewrite andb_true_iff in E. destruct E as [E1 E2]. destruct F as [F1 F2], DD as [DD1 DD2].
    assert (M1 : dmem u1 m) by (intros o Ho; apply M; cbn; apply in_or_app; auto).
    assert (M2 : dmem u2 m) by (intros o Ho; apply M; cbn; apply in_or_app; auto).
    destruct (IHu1 _ _ H1 W1 E1 F1 DD1 M1) as [Q1 Q2 Q3 Q4 Q5 Q6 Q7 Q8 Q9 Q10 Q11 Q12 Q13].
    destruct (IHu2 _ _ H3 W2 E2 F2 DD2 M2) as [R1 R2 R3 R4 R5 R6 R7 R8 R9 R10 R11 R12 R13].
    split; cbn [btree shape_of refs writes eqw opw vwcells flat sdrefs drefs disc cfin dom den nostat]; auto; try apply incl_refl; try congruence.
    + intros r. rewrite Q2. destruct (den D u1 r). apply R2.
    + rewrite !andb_true_iff. intros [[A1 A2] A3]. rewrite R6, Q4. auto.
    + apply incl_app; [apply incl_appl|apply incl_appr]; auto.
    + apply incl_app; [apply incl_appl|apply incl_appr]; auto.
    + rewrite andb_true_iff. intros [N1 N2] d w r [A1 A2]. unfold fin_env. rewrite Q2. auto.
  - cbn [cdom] in DD. rewrite C in DD.
    rewrite build_for in HB. destruct (bindO_ok _ _ _ HB) as [bs [H1 H2]]. injection H2 as <-.
    cbn in W. rewrite !andb_true_iff in W. destruct W as [[[W _] _] _]. cbn in E.
    cbn [btree]. apply sim_for. exact (FSIMs m es H bs H1 W E F DD M).
  - cbn [cdom] in DD. rewrite C in DD. pose proof (typ_all N _ m b HB W) as [_ TB]. nx. rewrite C in TB.
    cbn in HB. destruct (bindO_ok _ _ _ HB) as [b1 [H1 H2]]. destruct (bindO_ok _ _ _ H2) as [b2 [H3 H4]].
    destruct (bindO_ok _ _ _ H4) as [b3 [H5 H6]]. clear HB H2 H4. cbn in W. rewrite !andb_true_iff in W.
    destruct W as [[[[[W1 W2] W3] WC] _] WS].
    cbn in E. rewrite !andb_true_iff in E. destruct E as [[[E1 E2] E3] _]. destruct F as [F1 [F2 F3]], DD as [DD1 [DD2 DD3]].
    assert (M1 : dmem u1 m) by (intros o Ho; apply M; cbn; apply in_or_app; auto).
    assert (M2 : dmem u2 m) by (intros o Ho; apply M; cbn; apply in_or_app; right; apply in_or_app; auto).
    assert (M3 : dmem u3 m) by (intros o Ho; apply M; cbn; apply in_or_app; right; apply in_or_app; auto).
    destruct (IHu1 _ _ H1 W1 E1 F1 DD1 M1) as [Q1 Q2 Q3 Q4 Q5 Q6 Q7 Q8 Q9 Q10 Q11 Q12 Q13].
    destruct (IHu2 _ _ H3 W2 E2 F2 DD2 M2) as [R1 R2 R3 R4 R5 R6 R7 R8 R9 R10 R11 R12 R13].
    destruct (IHu3 _ _ H5 W3 E3 F3 DD3 M3) as [S1 S2 S3 S4 S5 S6 S7 S8 S9 S10 S11 S12 S13].
    assert (HB : b = BE (EIf a (btree N b1) (btree N b2) (btree N b3))).
    { destruct (bconst N b1 && bconst N b2 && bconst N b3) eqn:BC; [|now injection H6 as <-]. exfalso.
      destruct (bindO_ok _ _ _ H6) as [x [_ G4]]. destruct (bindO_ok _ _ _ G4) as [y [_ G5]]. destruct (bindO_ok _ _ _ G5) as [z [_ G6]].
      match type of G6 with (if ?c then _ else _) = _ => destruct c end; [|discriminate G6]. destruct (bindO_ok _ _ _ G6) as [v [_ G7]]. injection G7 as <-. discriminate TB. }
    subst b. clear TB H6.
    split; cbn [btree shape_of refs writes eqw opw vwcells flat sdrefs drefs disc cfin dom den nostat]; auto; try apply incl_refl; try congruence.
    + intros r. rewrite Q2. destruct (den D u1 r). rewrite R2, S2. reflexivity.
    + rewrite !andb_true_iff. intros [[[[A1 A2] A3] A4] A5]. rewrite Q5, Q4, R6, S6. tauto.
    + apply incl_app; [apply incl_appl; auto|apply incl_appr]. apply incl_app; [apply incl_appl|apply incl_appr]; auto.
    + apply incl_app; [apply incl_appl; auto|apply incl_appr]. apply incl_app; [apply incl_appl|apply incl_appr]; auto.
    + rewrite !andb_true_iff. intros [[N1 N2] N3] d w r [A1 [A2 A3]]. unfold val, fin_env in *. rewrite Q2. split; auto. split.
      * intros Ed. specialize (A2 Ed). destruct A2; auto.
      * destruct (reqb _ _); auto.
Qed.
End V.
