(** Folded expressions in sessions: proofs. *)
From Coq Require Import Reals Lra Psatz.
From Coquelicot Require Import Coquelicot.
From Verif Require Import Base Num Expr Node Stat Machine Wf Pure LBase LKind LSimDef LMem LSimF LBind Session LUser Tape LTape LState LNrm LTop
  XR Spec RSess LReal LScal LKA LKB LKS LMx LMat LKM LVal LGrad LDiff Grad LIndep LGrd LInf Fold FoldSpec LFold.
Open Scope nat_scope.
Set Bullet Behavior "Strict Subproofs".

(** ** Construction that does not look at memory *)
Section M.
Variable N : num.
Notation U := (expr N unit).
Lemma bread_irr (m m' : mem N) b : (forall s o, b = BV s o -> cells s o = []) -> bread N m b = bread N m' b.
Proof.
  destruct b as [| s o|]; auto. intros H. specialize (H s o eq_refl). cbn. unfold cells in H.
  destruct (size s); [reflexivity|discriminate H].
Qed.
Lemma breads_irr (m m' : mem N) bs : (forall b, In b bs -> forall s o, b = BV s o -> cells s o = []) -> breads N m bs = breads N m' bs.
Proof.
  induction bs as [|b bs IH]; cbn; auto. intros H. rewrite (bread_irr m m' b) by (apply H; auto).
  rewrite IH by (intros; eapply H; eauto). reflexivity.
Qed.
Lemma build_BVg (u : U) m s o : build N u m = Built (BV s o) -> u = ECvw s o.
Proof.
  destruct u; cbn; intros H; try discriminate H.
  - now injection H as -> ->.
  - match type of H with bindO ?x ?f = _ => destruct (bindO_ok x f _ H) as [bs [_ G]] end.
    unfold mknode in G. destruct (_ && _); [|discriminate G].
    destruct (bindO_ok _ _ _ G) as [cs [_ G1]]. destruct (bindO_ok _ _ _ G1) as [c [_ G2]].
    destruct k; try destruct (is_scl _); discriminate G2.
  - destruct (bindO_ok _ _ _ H) as [b1 [_ G1]]. discriminate G1.
  - destruct (bindO_ok _ _ _ H) as [b1 [_ G1]]. discriminate G1.
  - destruct (bindO_ok _ _ _ H) as [b1 [_ G1]]. destruct (bindO_ok _ _ _ G1) as [b2 [_ G2]]. discriminate G2.
  - match type of H with bindO ?x ?f = _ => destruct (bindO_ok x f _ H) as [bs [_ G]] end. discriminate G.
  - destruct (bindO_ok _ _ _ H) as [b1 [_ G1]]. destruct (bindO_ok _ _ _ G1) as [b2 [_ G2]]. destruct (bindO_ok _ _ _ G2) as [b3 [_ G3]].
    destruct (_ && _ && _); [|discriminate G3].
    destruct (bindO_ok _ _ _ G3) as [x [_ G4]]. destruct (bindO_ok _ _ _ G4) as [y [_ G5]]. destruct (bindO_ok _ _ _ G5) as [z [_ G6]].
    destruct (shape_eqb _ _); [|discriminate G6]. destruct (bindO_ok _ _ _ G6) as [v [_ G7]]. discriminate G7.
Qed.
Lemma builds_irr (m m' : mem N) es : Forall (fun u => build N u m = build N u m') es -> builds N m es = builds N m' es.
Proof. induction 1 as [|u l H H' IH]; auto. cbn. now rewrite H, IH. Qed.
Lemma fm_nil {X Y} (f : X -> list Y) l : flat_map f l = [] -> Forall (fun x => f x = []) l.
Proof. induction l; cbn; intros H; constructor; apply app_eq_nil in H; tauto. Qed.
Lemma build_none (m m' : mem N) u : drefs u = [] -> build N u m = build N u m'.
Proof.
  induction u using expr_ind'; intros HD; auto.
  - rewrite !build_comp. cbn in HD. apply fm_nil in HD.
    rewrite (builds_irr m m' es).
    2:{ rewrite Forall_forall in *. intros y Hy. apply H; auto. }
    destruct (builds N m' es) as [bs| |] eqn:B; auto. cbn [bindO]. unfold mknode.
    match goal with |- (if ?c then _ else _) = _ => destruct c; auto end.
    rewrite (breads_irr m m' bs); auto. intros b Hb s o ->.
    pose proof (builds_F2 N m' es bs B) as F. clear - HD F Hb.
    induction F as [|y b l l' H1 H2 IH]; [destruct Hb|]. inversion HD; subst. destruct Hb as [->|Hb]; auto.
    apply build_BVg in H1. subst y. exact H3.
  - cbn in *. now rewrite IHu.
  - cbn in *. now rewrite IHu.
  - cbn in *. apply app_eq_nil in HD. destruct HD as [H1 H2]. now rewrite IHu1, IHu2.
  - rewrite !build_for. cbn in HD. apply fm_nil in HD. rewrite (builds_irr m m' es); auto.
    rewrite Forall_forall in *. intros y Hy. apply H; auto.
  - cbn in HD. apply app_eq_nil in HD. destruct HD as [H1 H2]. apply app_eq_nil in H2. destruct H2 as [H2 H3].
    cbn [build]. rewrite IHu1, IHu2, IHu3 by auto.
    destruct (build N u1 m') as [b1| |] eqn:B1; auto. destruct (build N u2 m') as [b2| |] eqn:B2; auto.
    destruct (build N u3 m') as [b3| |] eqn:B3; auto. cbn [bindO].
    rewrite (bread_irr m m' b1), (bread_irr m m' b2), (bread_irr m m' b3); auto.
    + intros s o ->. apply build_BVg in B3. now subst u3.
    + intros s o ->. apply build_BVg in B2. now subst u2.
    + intros s o ->. apply build_BVg in B1. now subst u1.
Qed.
Lemma builds_keep (m m' : mem N) es : Forall (fun u => forall b, wfs u = true -> unfrozen u = true -> build N u m = Built b -> build N u m' = Built b) es ->
  forall bs, forallb wfs es = true -> forallb unfrozen es = true -> builds N m es = Built bs -> builds N m' es = Built bs.
Proof.
  induction 1 as [|u l H H' IH]; intros bs W F B; auto. cbn in *. rewrite !andb_true_iff in *. destruct W as [W1 W2], F as [F1 F2].
  destruct (bindO_ok _ _ _ B) as [b [B1 B2]]. destruct (bindO_ok _ _ _ B2) as [bs' [B3 B4]]. injection B4 as <-.
  rewrite (H _ W1 F1 B1). cbn [bindO]. rewrite (IH _ W2 F2 B3). reflexivity.
Qed.
Lemma build_keep (m m' : mem N) u : forall b, wfs u = true -> unfrozen u = true -> build N u m = Built b -> build N u m' = Built b.
Proof.
  induction u using expr_ind'; intros b W F HB; auto.
  - destruct (typ_all N _ m b HB W) as [_ TB].
    cbn [unfrozen] in F. destruct (cty (EComp k a es)) as [t|] eqn:C.
    + rewrite <- (build_none m m'); auto. destruct (drefs (EComp k a es)); auto; discriminate F.
    + rewrite build_comp in *. destruct (bindO_ok _ _ _ HB) as [bs [B1 B2]]. cbn [wfs] in W. rewrite !andb_true_iff in W.
      destruct W as [[[W _] _] _]. rewrite (builds_keep m m' es H bs W F B1). cbn [bindO]. rewrite <- B2.
      unfold mknode in *. match goal with |- (if ?c then _ else _) = _ => destruct c eqn:Q; auto end. exfalso.
      destruct (bindO_ok _ _ _ B2) as [cs [_ G1]]. destruct (bindO_ok _ _ _ G1) as [c [_ G2]].
      injection G2 as <-. destruct k; try destruct (is_scl _); discriminate TB.
  - cbn in W, F, HB |- *. rewrite !andb_true_iff in W. destruct (bindO_ok _ _ _ HB) as [b1 [B1 B2]]. rewrite (IHu b1) by tauto. exact B2.
  - cbn in W, F, HB |- *. rewrite !andb_true_iff in W. destruct (bindO_ok _ _ _ HB) as [b1 [B1 B2]]. rewrite (IHu b1) by tauto. exact B2.
  - cbn in W, F, HB |- *. rewrite !andb_true_iff in W; rewrite !andb_true_iff in F. destruct (bindO_ok _ _ _ HB) as [b1 [B1 B2]]. destruct (bindO_ok _ _ _ B2) as [b2 [B3 B4]].
    rewrite (IHu1 b1) by tauto. cbn [bindO]. rewrite (IHu2 b2) by tauto. exact B4.
  - rewrite build_for in *. cbn [wfs] in W. rewrite !andb_true_iff in W. destruct W as [[[W _] _] _]. cbn [unfrozen] in F.
    destruct (bindO_ok _ _ _ HB) as [bs [B1 B2]]. rewrite (builds_keep m m' es H bs W F B1). exact B2.
  - destruct (typ_all N _ m b HB W) as [_ TB].
    cbn [unfrozen] in F. destruct (cty (EIf a u1 u2 u3)) as [t|] eqn:C.
    + rewrite <- (build_none m m'); auto. destruct (drefs (EIf a u1 u2 u3)); auto; discriminate F.
    + cbn [wfs build] in W, HB |- *. rewrite !andb_true_iff in W; rewrite !andb_true_iff in F. destruct (bindO_ok _ _ _ HB) as [b1 [B1 B2]]. destruct (bindO_ok _ _ _ B2) as [b2 [B3 B4]].
      destruct (bindO_ok _ _ _ B4) as [b3 [B5 B6]].
      rewrite (IHu1 b1) by tauto. cbn [bindO]. rewrite (IHu2 b2) by tauto. cbn [bindO]. rewrite (IHu3 b3) by tauto. cbn [bindO].
      rewrite <- B6. destruct (bconst N b1 && bconst N b2 && bconst N b3); auto. exfalso.
      destruct (bindO_ok _ _ _ B6) as [x [_ G4]]. destruct (bindO_ok _ _ _ G4) as [y [_ G5]]. destruct (bindO_ok _ _ _ G5) as [z [_ G6]].
      match type of G6 with (if ?c then _ else _) = _ => destruct c end; [|discriminate G6]. destruct (bindO_ok _ _ _ G6) as [v [_ G7]]. injection G7 as <-. discriminate TB.
Qed.
End M.

(** ** Values and gradients of folded expressions *)
Section S.
Variable la : linalg xr.
Hypothesis LA : la_ok la.
Notation N := (XR la).
Notation U := (expr N unit).
Notation X := (expr xr unit).

Definition viewed (u : U) (m : mem N) (D : nat -> R) : Prop := forall o, In o (drefs u) -> m 4 o = Some (Fin (D o)).

Lemma fold_sim (u : U) m b D : okexpr la u -> fexact u = true -> cdom D (u : X) -> viewed u m D -> build N u m = Built b ->
  sim D (u : X) (btree N b).
Proof. intros [W [_ C]] F DD M H. exact (fsim_all la LA D u m b H W F C DD M). Qed.
Lemma sim_ok (u : U) b D : sim D (u : X) (btree N b) -> okexpr la u -> wfs (btree N b) = true -> okexpr la (btree N b).
Proof. intros S [_ [H1 H2]] W. split; [exact W|]. split; [exact (s_disc _ _ _ S H1)|exact (s_fin _ _ _ S)]. Qed.

Section T.
Variables (u : U) (m0 : mem N) (b : bx N) (D : nat -> R).
Hypothesis HK : okexpr la u.
Hypothesis HE : fexact u = true.
Hypothesis HC : cdom D (u : X).
Hypothesis HV : viewed u m0 D \/ unfrozen u = true.
Hypothesis HB : build N u m0 = Built b.
Lemma top_sim : sim D (u : X) (btree N b).
Proof.
  destruct HV as [H|H]; [exact (fold_sim u m0 b D HK HE HC H HB)|].
  apply (fold_sim u (fun _ o => Some (Fin (D o))) b D HK HE HC); [intros o _; reflexivity|].
  exact (build_keep N m0 _ u b (proj1 HK) H HB).
Qed.
Lemma fold_den : shape_of (btree N b) = shape_of u /\ (forall r, val D (btree N b : X) r = val D (u : X) r /\ fin_env D (btree N b : X) r = fin_env D (u : X) r) /\
  refs (btree N b) = refs u /\ writes (btree N b) = writes u.
Proof.
  pose proof top_sim as S. split; [exact (s_shape _ _ _ S)|]. split.
  - intros r. unfold val, fin_env. now rewrite (s_den _ _ _ S).
  - split; [exact (s_refs _ _ _ S)|exact (s_writes _ _ _ S)].
Qed.
Lemma fold_domain d w r : nostat u = true -> dom D d w (u : X) r -> dom D d w (btree N b : X) r.
Proof. intros H. exact (s_dom _ _ _ top_sim H d w r). Qed.
Hypothesis HW : wfs (btree N b) = true.
Lemma fold_value bv ba e1 m1 rho al w : session la bv ba (btree N b) D e1 m1 -> mreal la (btree N b) m1 D rho al ->
  dom D false w (btree N b : X) rho ->
  exists e2 m2, evaluate e1 m1 = Ok (e2, m2, map Fin (val D (u : X) rho)).
Proof.
  intros HS HM HD. pose proof top_sim as S.
  destruct (value_thm la LA bv ba (btree N b) D e1 m1 rho al w (sim_ok u b D S HK HW) HS HM HD) as [e2 [m2 [A _]]].
  exists e2, m2. unfold val in *. now rewrite <- (s_den _ _ _ S).
Qed.
Lemma fold_grad bv ba e1 m1 rho al w seed : session la bv ba (btree N b) D e1 m1 -> mreal la (btree N b) m1 D rho al ->
  dom D true w (btree N b : X) rho -> length seed = size (shape_of u) -> (w = true -> forall j, j < length seed -> el seed j = 1%R) ->
  (forall o, In o (writes u) -> al o = 0%R) ->
  exists e2 m2, autodiff e1 (map Fin seed) m1 = Ok (e2, m2, map Fin (val D (u : X) rho)) /\
    forall o, In o (refs u) -> ~ In o (eqw u) -> exists g, partials D (u : X) rho o g /\ m2 1 o = Some (Fin (al o + dotp seed g)).
Proof.
  intros HS HM HD HL HU HA. pose proof top_sim as S.
  destruct (grad_thm la LA bv ba (btree N b) D e1 m1 rho al w seed (sim_ok u b D S HK HW) HS HM HD) as [e2 [m2 [A B]]]; auto.
  - exact (eq_trans HL (f_equal size (eq_sym (s_shape _ _ _ S)))).
  - intros o Ho. apply HA. exact (eq_ind _ (In o) Ho _ (s_writes _ _ _ S)).
  - exists e2, m2. split; [unfold val in *; now rewrite <- (s_den _ _ _ S)|].
    intros o Ho Hn. destruct (B o) as [g [G1 G2]].
    { exact (eq_ind_r (In o) Ho (s_refs _ _ _ S)). }
    { intros Q. apply Hn. exact (eq_ind _ (In o) Q _ (s_eqw _ _ _ S)). }
    exists g. split; [|exact G2]. intros k. apply (is_derive_ext (fun t => el (val D (btree N b : X) (set1 rho o t)) k)); [|apply G1].
    intros t. unfold val. now rewrite (s_den _ _ _ S).
Qed.
End T.

(** Constant expressions. *)
Lemma fold_const (u : U) m0 b D t : okexpr la u -> fexact u = true -> cdom D (u : X) -> viewed u m0 D -> build N u m0 = Built b ->
  cty u = Some t -> (exists s c, b = BK s c /\ forall rho, cval N c = map Fin (val D (u : X) rho)) \/ exists s o, b = BV s o /\ u = ECvw s o.
Proof.
  intros HK HE HC HV HB HT. destruct (typ_all N u m0 b HB (proj1 HK)) as [_ TB]. change (carrier N) with xr in *. rewrite HT in TB. destruct TB as [TB _].
  destruct b as [s c|s o|]; [left|right|discriminate TB].
  - exists s, c. split; auto. intros rho. apply (val_all la LA D u m0 (BK s c) t c rho false); auto.
    + exact (proj1 HK).
    + exact (cdom_const D u t HC HT rho).
  - exists s, o. split; auto. exact (build_BVg N u m0 s o HB).
Qed.
End S.

(** A constant object never changes an adjoint, whatever [N]. *)
Lemma const_idle (N : num) (b : bx N) bv ba uv ua m e m1 : bconst N b = true -> bound bv ba uv ua (btree N b) m = Ok (e, m1) ->
  forall seed m2 e2 m3 v, autodiff e seed m2 = Ok (e2, m3, v) -> m3 = m2.
Proof.
  intros HB H seed m2 e2 m3 v HA. destruct b as [s c|s o|]; [| |discriminate HB]; unfold bound, ad_bind in H; cbn in H;
    match type of H with context [if ?c then _ else _] => destruct c; [|discriminate H] end; cbn in H; inversion H; subst e m1; unfold autodiff, evaluate in HA; cbn in HA.
  - now injection HA.
  - destruct (rdn m2 4 o (size s)); [|discriminate HA]. now injection HA.
Qed.

(** ** Empty products *)
Lemma prod_fold0 (N : num) m : mknode N (KProdI Scl) true [] m = Built (BK scl (CD [n0 N])).
Proof. reflexivity. Qed.
Lemma iter_fold0 (N : num) m :
  mknode N (KProdI Vec) true [] m = Built (BK (Sh Vec 0 1) (CD [])) /\
  mknode N (KSumI Vec) true [] m = Built (BK (Sh Vec 0 1) (CD [])) /\
  mknode N (KSumI Scl) true [] m = Built (BK scl (CD [n0 N])).
Proof. repeat split. Qed.

Section W.
Variable la : linalg xr.
Hypothesis LA : la_ok la.
Notation N := (XR la).
Notation U := (expr N unit).
Notation X := (expr xr unit).
Let LL : la_len N := la_ok_len la LA.
Open Scope R_scope.

Lemma prod_node0 bv ba D e1 m1 : session la bv ba (EComp (KProdI Scl) tt []) D e1 m1 ->
  exists e2 m2, evaluate e1 m1 = Ok (e2, m2, [Fin 1]).
Proof.
  intros HS. destruct (value_thm la LA bv ba (EComp (KProdI Scl) tt []) D e1 m1 (fun _ => 0) (fun _ => 0) false) as [e2 [m2 [A _]]]; auto.
  - repeat split; reflexivity.
  - split; intros o [].
  - cbn. auto.
  - exists e2, m2. rewrite A. unfold val. cbn. unfold prodn. cbn. reflexivity.
Qed.
(** Products of at least one constant. *)
Lemma prod_folds (xs : list R) (m : mem N) : xs <> [] ->
  mknode N (KProdI Scl) true (map (fun x => BK scl (@CD N [Fin x])) xs) m = Built (BK scl (@CD N [Fin (fold_right Rmult 1 xs)])).
Proof.
  intros H. unfold mknode. cbn [folds andb].
  assert (B : breads N m (map (fun x => BK scl (@CD N [Fin x])) xs) = Built (map (fun x => @CD N [Fin x]) xs)).
  { clear H. induction xs as [|x xs IH]; auto. cbn in *. now rewrite IH. }
  rewrite B. cbn [bindO kfold]. unfold fold_iter.
  assert (G : forall l, getD N (map (fun x => @CD N [Fin x]) l) = Some (map (fun x => [Fin x]) l)).
  { induction l as [|x l IH]; auto. cbn [map]. unfold getD in *. cbn [fold_right]. change (carrier N) with xr in *. now rewrite IH. }
  destruct xs as [|x xs]; [congruence|]. rewrite G. cbn [map bindO].
  assert (Q : forall l y, fold_left (map2 (nmul N)) (map (fun x => [Fin x]) l) [Fin y] = [Fin (y * fold_right Rmult 1 l)]).
  { induction l as [|z l IH]; intros y; cbn; [now rewrite Rmult_1_r|]. cbn in IH. rewrite IH. do 2 f_equal. ring. }
  cbn in Q. cbn. rewrite Q. reflexivity.
Qed.

(** The same for vectors, entry by entry. *)
Lemma prod_folds_vec n (vs : list (list R)) (m : mem N) : vs <> [] -> Forall (fun v => length v = n) vs ->
  mknode N (KProdI Vec) true (map (fun v => BK (Sh Vec n 1) (@CD N (map Fin v))) vs) m =
  Built (BK (Sh Vec n 1) (@CD N (map (fun i => Fin (fold_right Rmult 1 (map (fun v => nth i v 0) vs))) (seq 0 n)))).
Proof.
  intros H HL. unfold mknode. cbn [folds andb].
  assert (B : breads N m (map (fun v => BK (Sh Vec n 1) (@CD N (map Fin v))) vs) = Built (map (fun v => @CD N (map Fin v)) vs)).
  { clear H HL. induction vs as [|x xs IH]; auto. cbn in *. now rewrite IH. }
  rewrite B. cbn [bindO kfold]. unfold fold_iter.
  assert (G : forall l, getD N (map (fun v => @CD N (map Fin v)) l) = Some (map (map Fin) l)).
  { induction l as [|x l IH]; auto. cbn [map]. unfold getD in *. cbn [fold_right]. change (carrier N) with xr in *. now rewrite IH. }
  destruct vs as [|x xs]; [congruence|]. rewrite G. cbn [map bindO].
  inversion HL as [|? ? LX LS]; subst.
  assert (Q : forall l y, length y = length x -> Forall (fun v => length v = length x) l ->
    fold_left (map2 (nmul N)) (map (map Fin) l) (map Fin y) =
    map (fun i => Fin (nth i y 0 * fold_right Rmult 1 (map (fun v => nth i v 0) l))) (seq 0 (length x))).
  { induction l as [|z l IH]; intros y LY LZ.
    - cbn. rewrite <- LY. clear. induction y as [|r y IH] using rev_ind; [reflexivity|].
      rewrite app_length, Nat.add_1_r, seq_S, !map_app. cbn. rewrite app_nth2, Nat.sub_diag, Rmult_1_r by lia. cbn. f_equal.
      rewrite IH. apply map_ext_in. intros i Hi. apply in_seq in Hi. now rewrite app_nth1 by lia.
    - inversion LZ as [|? ? L1 L2]; subst. cbn [map fold_left].
      assert (M : map2 (nmul N) (map Fin y) (map Fin z) = map Fin (map2 Rmult y z)).
      { clear. revert z. induction y as [|a y IH]; intros [|b z]; cbn; auto. now rewrite <- IH. }
      rewrite M, IH; auto; [|rewrite map2_length; lia].
      apply map_ext_in. intros i Hi. apply in_seq in Hi. cbn [fold_right]. rewrite <- Rmult_assoc. do 2 f_equal.
      assert (Hy : (i < length y)%nat) by lia. assert (Hz : (i < length z)%nat) by lia. clear - Hy Hz.
      revert y z Hy Hz. induction i; intros [|a y] [|b z] Hy Hz; cbn in *; try lia; auto. apply IHi; lia. }
  rewrite Q; auto.
Qed.

(** *** Types *)
Definition lt12 : U := EComp (KBin BLt) tt [ECst scl [Fin 1]; ECst scl [Fin 2]].
Definition lt21 : U := EComp (KBin BLt) tt [ECst scl [Fin 2]; ECst scl [Fin 1]].
Definition w_div : U := EComp (KBin BDiv) tt [lt12; EComp (KBin BAdd) tt [lt12; lt12]].
Definition w_sum : U := EComp (KSumI Scl) tt [lt12; lt12].
Definition w_ub : U := EComp (KBin BDiv) tt [lt12; lt21] .
Lemma b_lt12 m : build N lt12 m = Built (BK scl (CB [true])).
Proof. cbn. rewrite rltb_t by lra. reflexivity. Qed.
Lemma b_lt21 m : build N lt21 m = Built (BK scl (CB [false])).
Proof. cbn. rewrite rltb_f by lra. reflexivity. Qed.
Lemma v_lt12 D r : den D (lt12 : X) r = ([1], r).
Proof. cbn. unfold el; cbn. rewrite rltb_t by lra. reflexivity. Qed.
Lemma v_lt21 D r : den D (lt21 : X) r = ([0], r).
Proof. cbn. unfold el; cbn. rewrite rltb_f by lra. reflexivity. Qed.
Lemma ok_wdiv : okexpr la w_div.
Proof. split; [reflexivity|]. split; [reflexivity|]. cbn. repeat (split || constructor); try (eexists; reflexivity). Qed.
Lemma ok_wsum : okexpr la w_sum.
Proof. split; [reflexivity|]. split; [reflexivity|]. cbn. repeat (split || constructor); try (eexists; reflexivity). Qed.
Lemma wdiv (m : mem N) D d w r : okexpr la w_div /\ dom D d w (w_div : X) r /\ val D (w_div : X) r = [1 / 2] /\
  exists b, build N w_div m = Built b /\ btree N b = ECst scl [Fin 0].
Proof.
  split; [exact ok_wdiv|]. split.
  { cbn. unfold el; cbn. rewrite rltb_t by lra. repeat split; try (repeat constructor; eexists; reflexivity); intros i Hi; try (destruct i; [cbn; lra|lia]). }
  split.
  { unfold val. unfold w_div. rewrite den_comp. cbn [dens]. rewrite v_lt12. cbn. unfold el; cbn. rewrite rltb_t by lra. reflexivity. }
  exists (BK scl (CZ 0)). split; [|reflexivity].
  unfold w_div. rewrite build_comp. cbn [builds]. rewrite b_lt12. rewrite build_comp. cbn [builds]. rewrite b_lt12. reflexivity.
Qed.
Lemma wsum (m : mem N) D d w r : okexpr la w_sum /\ dom D d w (w_sum : X) r /\ val D (w_sum : X) r = [2] /\
  exists b, build N w_sum m = Built b /\ btree N b = ECst scl [Fin 1].
Proof.
  split; [exact ok_wsum|]. split.
  { cbn. unfold el; cbn. repeat split; try (repeat constructor; eexists; reflexivity); intros i Hi; try (destruct i; [cbn; lra|lia]). }
  split.
  { unfold val. unfold w_sum. rewrite den_comp. cbn [dens]. rewrite v_lt12. cbn. unfold el; cbn. rewrite rltb_t by lra. unfold sumn, el, b2r; cbn. f_equal. lra. }
  exists (BK scl (CB [true])). split; [|reflexivity].
  unfold w_sum. rewrite build_comp. cbn [builds]. rewrite b_lt12. reflexivity.
Qed.
Lemma wub (m : mem N) : build N w_ub m = Undef.
Proof. unfold w_ub. rewrite build_comp. cbn [builds]. rewrite b_lt12, b_lt21. reflexivity. Qed.

(** *** Frozen views: -c + x *)
Definition w_fr : U := EComp (KBin BAdd) tt [EComp (KUn UNeg) tt [ECvw scl 0]; EVar scl 0].
Lemma ok_wfr : okexpr la w_fr.
Proof. repeat split; reflexivity. Qed.
Lemma wfr (m : mem N) : m 4%nat 0%nat = Some (Fin 0) -> forall x al, exists b e1 m1,
  build N w_fr m = Built b /\ session la 2 3 (btree N b) (fun _ => 1) e1 m1 /\ mreal la w_fr m1 (fun _ => 1) (fun _ => x) al /\
  val (fun _ => 1) (w_fr : X) (fun _ => x) = [x - 1] /\
  exists e2 m2, evaluate e1 m1 = Ok (e2, m2, [Fin x]).
Proof.
  intros H x al. pose (b := @BE N (EComp (KBin BAdd) tt [ECst scl [Fin (- 0)]; EVar scl 0])).
  assert (HB : build N w_fr m = Built b) by (cbn; unfold rd1; rewrite H; reflexivity).
  assert (HK : okexpr la (btree N b)).
  { split; [reflexivity|]. split; [reflexivity|]. cbn. repeat (split || constructor); try (eexists; reflexivity). }
  destruct (session_start la LA 2 3 (btree N b) (fun _ => 1) (fun _ => x) al) as [e1 [m1 [S1 M1]]]; auto.
  { cbv; intuition discriminate. }
  assert (S2 : session la 2 3 (btree N b) (fun _ => 1) e1 (fun bb o => if (bb =? 4)%nat then Some (Fin 1) else m1 bb o)).
  { apply (session_to la 2 3 (btree N b) _ e1 m1 _ S1). intros bb o. destruct (bb =? 4)%nat; congruence. }
  assert (M2 : mreal la (btree N b) (fun bb o => if (bb =? 4)%nat then Some (Fin 1) else m1 bb o) (fun _ => 1) (fun _ => x) al).
  { destruct M1 as [M1 _]. split; [intros o Ho; exact (M1 o Ho)|intros o []]. }
  exists b, e1, (fun bb o => if (bb =? 4)%nat then Some (Fin 1) else m1 bb o). split; [exact HB|]. split; [exact S2|].
  split; [split; [exact (proj1 M2)|intros o _; reflexivity]|].
  split; [unfold val; cbn; unfold el; cbn; f_equal; ring|].
  destruct (value_thm la LA 2 3 (btree N b) _ e1 _ _ al false HK S2 M2) as [e2 [m2 [A _]]].
  { cbn. repeat split; try (repeat constructor; eexists; reflexivity). }
  exists e2, m2. etransitivity; [exact A|]. unfold val; cbn. unfold el; cbn. do 4 f_equal. ring.
Qed.

(** *** A uniform node over a view: x = 5 at construction, 1 at evaluation; 0 < 1 < 2 *)
Definition w_uni : U := EComp (KStat UniVSS) tt [ECvw (Sh Vec 1 1) 0; EVar scl 0; EVar scl 1].
Lemma ok_wuni : okexpr la w_uni.
Proof. repeat split; reflexivity. Qed.
Lemma wuni : exists e1 m1, session la 2 3 w_uni (fun _ => 5) e1 m1 /\ mreal la w_uni m1 (fun _ => 1) (fun o => nth o [0; 2] 0) (fun _ => 0) /\
  dom (fun _ => 1) false false (w_uni : X) (fun o => nth o [0; 2] 0) /\
  val (fun _ => 1) (w_uni : X) (fun o => nth o [0; 2] 0) = [- ln 2] /\
  exists e2 m2, evaluate e1 m1 = Ok (e2, m2, [NInf]).
Proof.
  assert (HF : fresh 2 3) by (cbv; intuition discriminate).
  pose proof ok_wuni as HK.
  pose (m := (fun b o : nat => if (b =? 0)%nat then Some (Fin (nth o [0; 2] 0)) else if (b =? 1)%nat then Some (Fin 0)
    else if (b =? 4)%nat then Some (Fin 5) else None) : mem N).
  assert (HA : @avail N w_uni m) by (split; intros o Ho; [split|]; cbn; discriminate).
  destruct (bind_safe N LL 2 3 HF (fun _ => n0 N) (fun _ => n0 N) w_uni m (proj1 HK) eq_refl HA) as [e [m0 [B1 _]]].
  destruct (inv_bound LL 2 3 HF w_uni m _ _ e m0 (proj1 HK) HA B1) as [_ [B2 _]].
  assert (S0 : session la 2 3 w_uni (fun _ => 5) e m0).
  { exists m, (fun _ => n0 N), (fun _ => n0 N), e, m0, (@nil (op N)). repeat (match goal with |- _ /\ _ => split end); auto. }
  pose (m1 := (fun b o : nat => if (b =? 4)%nat then Some (Fin 1) else m0 b o) : mem N).
  assert (S1 : session la 2 3 w_uni (fun _ => 5) e m1).
  { apply (session_to la 2 3 w_uni _ e m0); [exact S0|]. intros b o H. unfold m1. destruct (_ =? _)%nat; [discriminate|exact H]. }
  assert (M1 : mreal la w_uni m1 (fun _ => 1) (fun o => nth o [0; 2] 0) (fun _ => 0)).
  { split; [|intros o _; reflexivity]. intros o [<-|[<-|[]]]; unfold m1; cbn [Nat.eqb andb]; rewrite ?B2 by congruence; split; reflexivity. }
  exists e, m1. split; [exact S1|]. split; [exact M1|]. split.
  { cbn. unfold el, ent; cbn. split; [auto|]. intros i Hi. destruct i; [lra|lia]. }
  split.
  { unfold val; cbn. unfold el, ent, sumn; cbn. unfold uni1. f_equal. rewrite Rminus_0_r. ring. }
  destruct (session_inv la LL 2 3 w_uni _ e m1 HK S1) as [cv [ca [_ [HI [_ [HW HE]]]]]].
  destruct (bound_nrm LL 2 3 _ _ w_uni m _ m0 (proj1 HK) B1) as [e0 [HM HN]].
  destruct e as [| | |k' an es1| | | | |]; try discriminate HE.
  cbn [er amap] in HE. unfold w_uni in HE. injection HE as -> HEs.
  assert (E1 : es1 = [ECvw (Sh Vec 1 1) 0; EVar scl 0; EVar scl 1]).
  { destruct es1 as [|a1 [|a2 [|a3 [|]]]]; try discriminate HEs. injection HEs as H1 H2 H3.
    destruct a1; try discriminate H1. destruct a2; try discriminate H2. destruct a3; try discriminate H3.
    cbn in H1, H2, H3. injection H1 as -> ->. injection H2 as -> ->. injection H3 as -> ->. reflexivity. }
  subst es1.
  assert (FA : sc (st an) = Fin 5).
  { cbn in HM. change (carrier N) with xr in *. injection HM as <-. cbn [nrm] in HN. injection HN as H5 H6. exact H6. }
  assert (MR1 : MR (vset w_uni) (wset w_uni) (liftE la (fun _ => 1)) m1 (liftE la (fun o => nth o [0; 2] 0)) (liftE la (fun _ => 0))) by exact M1.
  destruct (top_eval LL 2 3 HF w_uni cv ca _ m1 (liftE la (fun _ => 1)) (liftE la (fun o => nth o [0; 2] 0)) (liftE la (fun _ => 0)) _ _ HI eq_refl MR1 (surjective_pairing _)) as [e2 [m2 [Q1 _]]].
  exists e2, m2. etransitivity; [exact Q1|]. do 2 f_equal. cbn. unfold kf. cbn. unfold uni_in. cbn. rewrite FA. cbn.
  rewrite (rltb_f 5 2) by lra. rewrite andb_false_r. reflexivity.
Qed.
End W.
