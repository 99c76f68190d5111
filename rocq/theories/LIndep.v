(** The denotation depends only on the inputs of an expression. *)
From Coq Require Import Reals Lra.
From Verif Require Import Base Num Expr Node Stat Machine Wf Pure LBase LKind Session Tape XR Spec RSess LVal.
Open Scope R_scope.
Set Bullet Behavior "Strict Subproofs".

Definition keep (a l : list nat) := filter (fun o => negb (existsb (Nat.eqb o) a)) l.
Lemma keep_in a l o : In o (keep a l) <-> In o l /\ ~ In o a.
Proof.
  unfold keep. rewrite filter_In, negb_true_iff. split; intros [H1 H2]; split; auto.
  - intros H. assert (existsb (Nat.eqb o) a = true) by (apply existsb_exists; exists o; split; [auto|apply Nat.eqb_refl]). congruence.
  - destruct (existsb _ _) eqn:Q; auto. apply existsb_exists in Q. destruct Q as [x [Q1 Q2]]. apply Nat.eqb_eq in Q2. subst. tauto.
Qed.
Lemma put_same r r' o l i : r i = r' i \/ (o <= i < o + length l)%nat -> put r o l i = put r' o l i.
Proof.
  unfold put. destruct ((o <=? i)%nat && _) eqn:Q; auto. intros [H|H]; auto.
  apply andb_false_iff in Q. rewrite Nat.leb_gt, Nat.ltb_ge in Q. lia.
Qed.
Lemma in_cells sh o i : In i (cells sh o) <-> (o <= i < o + size sh)%nat.
Proof. unfold cells. apply in_seq. Qed.
Section Indep.
Context {A : Type}.
Notation E := (expr xr A).
Variable D : nat -> R.
Definition inputsl : list E -> list nat :=
  fix go es := match es with [] => [] | y :: l => inputs y ++ keep (da y) (go l) end.
Definition sm (r r' : nat -> R) (l : list nat) := forall o, In o l -> r o = r' o.
Definition ID (e : E) : Prop := forall r r', wfs e = true -> sm r r' (inputs e) ->
  val D e r = val D e r' /\ (forall o, r o = r' o \/ In o (da e) -> fin_env D e r o = fin_env D e r' o) /\
  forall d u, dom D d u e r <-> dom D d u e r'.
Lemma IDs es : Forall ID es -> forall r r', forallb wfs es = true -> sm r r' (inputsl es) ->
  fst (dens D es r) = fst (dens D es r') /\
  (forall o, r o = r' o \/ In o (flat_map da es) -> snd (dens D es r) o = snd (dens D es r') o) /\
  (forall d us i, doms D d us i es r <-> doms D d us i es r') /\
  (forall d u, domf D d u es r <-> domf D d u es r').
Proof.
  induction 1 as [|y l HY H IH]; intros r r' HW HS.
  - cbn. split; [reflexivity|]. split; [intros o [X|[]]; exact X|]. split; reflexivity.
  - cbn [forallb] in HW. apply andb_true_iff in HW. destruct HW as [W1 W2].
    cbn [inputsl] in HS. destruct (HY r r' W1) as [A1 [A2 A3]].
    { intros o Ho. apply HS, in_or_app. auto. }
    destruct (IH (fin_env D y r) (fin_env D y r') W2) as [B1 [B2 [B3 B4]]].
    { intros o Ho. apply A2. destruct (in_dec Nat.eq_dec o (da y)); [auto|]. left. apply HS, in_or_app. right. apply keep_in. auto. }
    rewrite !dens_cons. cbn [fst snd flat_map]. split; [congruence|]. split; [|split].
    + intros o Ho. apply B2. rewrite in_app_iff in Ho. destruct Ho as [Ho|[Ho|Ho]]; [left; apply A2; auto|left; apply A2; auto|auto].
    + intros d us i. cbn [doms]. specialize (B3 d us (S i)). specialize (A3 d (us i)). cbn in B3. tauto.
    + intros d u. cbn [domf]. specialize (B4 d u). specialize (A3 d (match l with [] => u | _ => false end)). cbn in B4. tauto.
Qed.
Lemma indep e : ID e.
Proof.
  induction e using expr_ind'; intros r r' HW HS; cbn [inputs da] in *; unfold val, fin_env in *.
  - cbn. split; [|split; [intros i [X|[]]; exact X|reflexivity]]. apply map_ext_in. intros i Hi. apply HS. exact Hi.
  - cbn. split; [reflexivity|]. split; [intros i [X|[]]; exact X|reflexivity].
  - cbn. split; [reflexivity|]. split; [intros i [X|[]]; exact X|reflexivity].
  - change (sm r r' (inputsl es)) in HS. cbn [wfs] in HW. rewrite !andb_true_iff in HW.
    destruct (IDs es H r r' ltac:(tauto) HS) as [B1 [B2 [B3 B4]]].
    rewrite !den_comp. cbn [fst snd]. split; [now rewrite B1|]. split; [exact B2|].
    intros d u. rewrite !dom_comp, B1, B3. reflexivity.
  - cbn [wfs] in HW. rewrite !andb_true_iff in HW. destruct HW as [[[W1 _] W2] _]. apply shape_eqb_eq in W2.
    destruct (IHe r r' W1 HS) as [A1 [A2 A3]]. pose proof (val_len D e r W1) as HL. unfold val, fin_env in *.
    cbn [den dom]. destruct (den D e r) as [v r1], (den D e r') as [v' r1']. cbn [fst snd] in *. subst v'.
    split; [reflexivity|]. split; [|intros; apply A3].
    intros i Hi. apply put_same. rewrite in_app_iff, in_cells in Hi. rewrite HL, <- W2.
    destruct Hi as [Hi|[Hi|Hi]]; auto.
  - cbn [wfs] in HW. rewrite !andb_true_iff in HW.
    destruct (IHe r r' ltac:(tauto)) as [A1 [A2 A3]]. { intros i Hi. apply HS, in_or_app. auto. }
    unfold val, fin_env in *. assert (HR : forall i, In i (cells sh o) -> snd (den D e r) i = snd (den D e r') i).
    { intros i Hi. apply A2. left. apply HS, in_or_app. auto. }
    cbn [den dom]. unfold val. destruct (den D e r) as [v r1], (den D e r') as [v' r1']. cbn [fst snd] in *. subst v'.
    assert (EW : tab (size sh) (fun i => oe_s q (r1 (o + i)%nat) (ent (shape_of e) v i)) =
                 tab (size sh) (fun i => oe_s q (r1' (o + i)%nat) (ent (shape_of e) v i))).
    { apply map_ext_in. intros i Hi. apply in_seq in Hi. rewrite HR; [reflexivity|]. apply in_cells. lia. }
    split; [exact EW|]. split.
    + intros i Hi. rewrite EW. apply put_same. left. now apply A2.
    + intros d u. rewrite A3. reflexivity.
  - cbn [wfs] in HW. rewrite !andb_true_iff in HW.
    destruct (IHe1 r r' ltac:(tauto)) as [A1 [A2 A3]]. { intros i Hi. apply HS, in_or_app. auto. }
    destruct (IHe2 (snd (den D e1 r)) (snd (den D e1 r')) ltac:(tauto)) as [B1 [B2 B3]].
    { intros o Ho. apply (A2 o). destruct (in_dec Nat.eq_dec o (da e1)); [auto|]. left. apply HS, in_or_app. right. apply keep_in. auto. }
    unfold val, fin_env in *. cbn [den dom]. unfold fin_env. destruct (den D e1 r) as [v r1], (den D e1 r') as [v' r1']. cbn [fst snd] in *.
    split; [exact B1|]. split.
    + intros o Ho. apply B2. rewrite in_app_iff in Ho. destruct Ho as [Ho|[Ho|Ho]]; [left; apply A2; auto|left; apply A2; auto|auto].
    + intros d u. rewrite A3, B3. reflexivity.
  - change (sm r r' (inputsl es)) in HS. cbn [wfs] in HW. rewrite !andb_true_iff in HW.
    destruct (IDs es H r r' ltac:(tauto) HS) as [B1 [B2 [B3 B4]]].
    rewrite !den_for. cbn [fst snd]. split; [now rewrite B1|]. split; [exact B2|].
    intros d u. rewrite !dom_for. apply B4.
  - cbn [wfs] in HW. rewrite !andb_true_iff in HW.
    destruct (IHe1 r r' ltac:(tauto)) as [A1 [A2 A3]]. { intros i Hi. apply HS, in_or_app. auto. }
    unfold val, fin_env in A1, A2. assert (HQ : forall o, In o (inputs e2 ++ inputs e3) -> snd (den D e1 r) o = snd (den D e1 r') o).
    { intros o Ho. apply A2. destruct (in_dec Nat.eq_dec o (da e1)); [auto|]. left. apply HS, in_or_app. right. apply keep_in. auto. }
    destruct (IHe2 (snd (den D e1 r)) (snd (den D e1 r')) ltac:(tauto)) as [B1 [B2 B3]]. { intros o Ho. apply HQ, in_or_app. auto. }
    destruct (IHe3 (snd (den D e1 r)) (snd (den D e1 r')) ltac:(tauto)) as [C1 [C2 C3]]. { intros o Ho. apply HQ, in_or_app. auto. }
    cbn [den dom]. unfold fin_env, val. destruct (den D e1 r) as [v r1], (den D e1 r') as [v' r1']. cbn [fst snd] in *. subst v'.
    destruct (reqb (el v 0) 0); (split; [assumption|split; [|intros d u; rewrite A3; (rewrite B3 || rewrite C3); reflexivity]]).
    + intros o Ho. apply C2. rewrite in_app_iff, filter_In in Ho. destruct Ho as [Ho|[Ho|[Ho1 Ho2]]]; [left; apply A2; auto|left; apply A2; auto|].
      right. apply existsb_exists in Ho2. destruct Ho2 as [x [X1 X2]]. apply Nat.eqb_eq in X2. now subst.
    + intros o Ho. apply B2. rewrite in_app_iff, filter_In in Ho. destruct Ho as [Ho|[Ho|[Ho1 Ho2]]]; [left; apply A2; auto|left; apply A2; auto|auto].
Qed.
End Indep.
