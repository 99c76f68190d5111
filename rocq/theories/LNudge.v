(** Basic facts about the nudged denotation. *)
From Coq Require Import Reals Lra FunctionalExtensionality.
From Coquelicot Require Import Coquelicot.
From Verif Require Import Base Num Expr Node Stat Machine Wf Pure LBase LKind LSimDef LMem LSimF LSimB Tape LTape LState LNrm XR Spec Nudge LReal LScal LKA LKB LVal.
Open Scope R_scope.
Set Bullet Behavior "Strict Subproofs".

Section Den.
Context {A : Type}.
Notation E := (expr xr A).
Notation renv := (nat -> R).
Variables D p : renv.

Lemma nden_comp k an (es : list E) r : nden D p (EComp k an es) r =
  (kden k (map shape_of es) (fst (ndens D p es r)), snd (ndens D p es r)).
Proof.
  change (nden D p (EComp k an es) r) with (let '(vs, r1) := ndens D p es r in (kden k (map shape_of es) vs, r1)).
  now destruct (ndens D p es r).
Qed.
Definition ndenf : list E -> list R -> renv -> list R * renv :=
  fix go es v r := match es with [] => (v, r) | y :: l => let '(v1, r1) := nden D p y r in go l v1 r1 end.
Lemma ndenf_ndens es : forall v r, ndenf es v r = (last (fst (ndens D p es r)) v, snd (ndens D p es r)).
Proof.
  induction es as [|y l IH]; intros v r; [reflexivity|]. cbn. destruct (nden D p y r) as [v1 r1].
  change ((fix go (es : list E) (v : list R) (r : renv) {struct es} := match es with [] => (v, r) | y :: l => let '(v1, r1) := nden D p y r in go l v1 r1 end) l v1 r1)
    with (ndenf l v1 r1). rewrite IH. destruct (ndens D p l r1) as [vs r2] eqn:EL. cbn. f_equal.
  destruct vs as [|w ws]; [reflexivity|]. clear. revert w. induction ws as [|x ws IH]; intros w; [reflexivity|]. apply (IH x).
Qed.
Lemma nden_for an s (es : list E) r : nden D p (EFor an s es) r = (last (fst (ndens D p es r)) [], snd (ndens D p es r)).
Proof. change (nden D p (EFor an s es) r) with (ndenf es [] r). apply ndenf_ndens. Qed.
Lemma ndens_cons (y : E) (l : list E) r : ndens D p (y :: l) r =
  (nval D p y r :: fst (ndens D p l (nfin D p y r)), snd (ndens D p l (nfin D p y r))).
Proof. unfold nval, nfin. cbn [ndens]. destruct (nden D p y r) as [v r1]. cbn. now destruct (ndens D p l r1). Qed.

Definition nDL (e : E) : Prop := forall r, wfs e = true -> length (nval D p e r) = size (shape_of e).
Lemma nDLs es : Forall nDL es -> forall r, forallb wfs es = true -> lensR (fst (ndens D p es r)) (map shape_of es).
Proof.
  induction 1 as [|y l HY H IH]; intros r HW; [constructor|].
  cbn in HW. apply andb_true_iff in HW. destruct HW as [W1 W2].
  rewrite ndens_cons. cbn [fst map]. constructor; [now apply HY|now apply IH].
Qed.
Lemma nval_len e : nDL e.
Proof.
  induction e using expr_ind'; intros r HW; unfold nval.
  - cbn. now rewrite map_length, seq_length.
  - cbn in HW |- *. apply andb_true_iff in HW. destruct HW as [_ HW]. apply Nat.eqb_eq in HW. now rewrite map_length.
  - cbn. now rewrite map_length, seq_length.
  - rewrite nden_comp. cbn [fst shape_of]. cbn [wfs] in HW. rewrite !andb_true_iff in HW. destruct HW as [[[W1 W2] W3] W4].
    apply kden_len; [exact W2|]. now apply nDLs.
  - cbn [nden shape_of]. destruct (nden D p e r). cbn [fst]. apply tab_len.
  - cbn [nden shape_of]. destruct (nden D p e r). cbn [fst]. apply tab_len.
  - cbn [wfs] in HW. rewrite !andb_true_iff in HW. destruct HW as [[[W1 W2] W3] W4].
    cbn [nden shape_of]. destruct (nden D p e1 r) as [v1 r1]. apply (IHe2 r1 W2).
  - rewrite nden_for. cbn [fst shape_of]. cbn [wfs] in HW. rewrite !andb_true_iff in HW. destruct HW as [[[W1 W2] W3] W4].
    pose proof (nDLs es H r W1) as HL. destruct es as [|y l].
    + cbn. destruct s; [discriminate|reflexivity|reflexivity].
    + rewrite <- (for_iter s (map shape_of (y :: l))); [|rewrite forallb_forall; intros sh Hs; apply in_map_iff in Hs;
        destruct Hs as [z [<- Hz]]; apply (wfs_shape' D); eapply forallb_forall; eauto|exact W2|discriminate].
      revert HL. generalize (fst (ndens D p (y :: l) r)). cbn [map]. generalize (shape_of y), (map shape_of l). clear.
      intros sh ss vs HL. revert sh ss HL. induction vs as [|v vs IH]; intros sh ss HL; [inversion HL|].
      inversion HL as [|? ? ? ? L1 L2]; subst. destruct L2 as [|w sh2 vs ss L2 L3]; [exact L1|].
      apply (IH sh2 ss). constructor; auto.
  - cbn [wfs] in HW. rewrite !andb_true_iff in HW. destruct HW as [[[[[W1 W2] W3] W4] W5] W6].
    apply shape_eqb_eq in W6. cbn [nden shape_of]. destruct (nden D p e1 r) as [v1 r1].
    destruct (reqb _ _); [rewrite W6; apply (IHe3 r1 W3)|apply (IHe2 r1 W2)].
Qed.
Lemma nvals_len (es : list E) r : forallb wfs es = true -> lensR (fst (ndens D p es r)) (map shape_of es).
Proof. apply nDLs, Forall_forall. intros. apply nval_len. Qed.

Definition nKEEP (e : E) : Prop := forall r o, wfs e = true -> ~ In o (writes e) -> nfin D p e r o = r o.
Lemma nKEEPs es : Forall nKEEP es -> forall r o, forallb wfs es = true -> ~ In o (flat_map writes es) -> snd (ndens D p es r) o = r o.
Proof.
  induction 1 as [|y l HY H IH]; intros r o HW HO; [reflexivity|].
  cbn in HW, HO. rewrite in_app_iff in HO. apply andb_true_iff in HW. destruct HW as [W1 W2].
  rewrite ndens_cons. cbn [snd]. rewrite IH, HY; auto.
Qed.
Lemma nenv_keep e : nKEEP e.
Proof.
  induction e using expr_ind'; intros r o' HW HO; unfold nfin; try reflexivity.
  - rewrite nden_comp. cbn [snd]. cbn [wfs] in HW. rewrite !andb_true_iff in HW. destruct HW as [[[W1 W2] W3] W4].
    now apply nKEEPs.
  - pose proof (nval_len (EEq a sh o e) r HW) as HL. cbn [wfs] in HW. rewrite !andb_true_iff in HW. destruct HW as [[[W1 W2] W3] W4].
    cbn [writes] in HO. rewrite in_app_iff, in_cells in HO. specialize (IHe r o' W1). unfold nval in HL. unfold nfin in IHe.
    cbn [nden shape_of] in *. destruct (nden D p e r) as [v r1]. cbn [fst snd] in *. rewrite put_out by (rewrite HL; tauto). apply IHe. tauto.
  - pose proof (nval_len (EOpEq q a sh o e) r HW) as HL. cbn [wfs] in HW. rewrite !andb_true_iff in HW. destruct HW as [[[W1 W2] W3] W4].
    cbn [writes] in HO. rewrite in_app_iff, in_cells in HO. specialize (IHe r o' W1). unfold nval in HL. unfold nfin in IHe.
    cbn [nden shape_of] in *. destruct (nden D p e r) as [v r1]. cbn [fst snd] in *. rewrite put_out by (rewrite HL; tauto). apply IHe. tauto.
  - cbn [wfs] in HW. rewrite !andb_true_iff in HW. destruct HW as [[[W1 W2] W3] W4].
    cbn [writes] in HO. rewrite in_app_iff in HO. specialize (IHe1 r o' W1). unfold nfin in *.
    cbn [nden]. destruct (nden D p e1 r) as [v r1]. cbn [snd] in IHe1. etransitivity; [apply (IHe2 r1 o' W2); tauto|apply IHe1; tauto].
  - rewrite nden_for. cbn [snd]. cbn [wfs] in HW. rewrite !andb_true_iff in HW. destruct HW as [[[W1 W2] W3] W4].
    now apply nKEEPs.
  - cbn [wfs] in HW. rewrite !andb_true_iff in HW. destruct HW as [[[[[W1 W2] W3] W4] W5] W6].
    cbn [writes] in HO. rewrite !in_app_iff in HO. specialize (IHe1 r o' W1). unfold nfin in *.
    cbn [nden]. destruct (nden D p e1 r) as [v r1]. cbn [snd] in IHe1.
    destruct (reqb _ _); (etransitivity; [first [apply (IHe3 r1 o' W3); tauto|apply (IHe2 r1 o' W2); tauto]|apply IHe1; tauto]).
Qed.
Lemma nenv_same (e : E) r : wfs e = true -> writes e = [] -> nfin D p e r = r.
Proof. intros HW HE. apply functional_extensionality. intros o. apply nenv_keep; auto. rewrite HE. auto. Qed.

End Den.

(** No nudge: the denotation. *)
Section Zero.
Context {A : Type}.
Notation E := (expr xr A).
Variable D : nat -> R.
Notation Z0 := (fun _ : nat => 0).
Lemma tab0 (v : list R) n : length v = n -> tab n (fun i => el v i + 0) = v.
Proof.
  intros H. transitivity (tab n (el v)); [apply tab_ext; intros; lra|]. subst n. apply (nth_ext _ _ 0 0); rewrite tab_len; auto.
  intros i Hi. now rewrite tab_nth.
Qed.
Lemma nden0s es : Forall (fun e : E => wfs e = true -> forall r, nden D Z0 e r = den D e r) es ->
  forallb wfs es = true -> forall r, ndens D Z0 es r = dens D es r.
Proof.
  induction 1 as [|y l HY H IH]; intros HW r; [reflexivity|]. cbn [forallb] in HW. apply andb_true_iff in HW. destruct HW as [W1 W2].
  rewrite ndens_cons, dens_cons. unfold nval, nfin, val, fin_env. rewrite HY, IH by auto. reflexivity.
Qed.
Lemma nden0 (e : E) : wfs e = true -> forall r, nden D Z0 e r = den D e r.
Proof.
  induction e using expr_ind'; intros HW r; try reflexivity.
  - cbn [wfs] in HW. rewrite !andb_true_iff in HW. rewrite nden_comp, den_comp, nden0s by tauto. reflexivity.
  - pose proof HW as HW0. cbn [wfs] in HW. rewrite !andb_true_iff in HW. destruct HW as [[[W1 W2] W3] W4].
    pose proof (val_len D (EEq a sh o e) r HW0) as HL. unfold val in HL.
    cbn [nden den shape_of] in *. rewrite IHe by auto. destruct (den D e r) as [v r1]. cbn [fst] in HL.
    rewrite tab0 by exact HL. reflexivity.
  - cbn [wfs] in HW. rewrite !andb_true_iff in HW. cbn [nden den]. rewrite IHe by tauto. reflexivity.
  - cbn [wfs] in HW. rewrite !andb_true_iff in HW. cbn [nden den]. rewrite IHe1 by tauto. destruct (den D e1 r). apply IHe2. tauto.
  - cbn [wfs] in HW. rewrite !andb_true_iff in HW. rewrite nden_for, den_for, nden0s by tauto. reflexivity.
  - cbn [wfs] in HW. rewrite !andb_true_iff in HW. cbn [nden den]. rewrite IHe1 by tauto. destruct (den D e1 r).
    destruct (reqb _ _); [apply IHe3|apply IHe2]; tauto.
Qed.
Lemma nval0 (e : E) r : wfs e = true -> nval D Z0 e r = val D e r.
Proof. intros H. unfold nval, val. now rewrite nden0. Qed.
Lemma nfin0 (e : E) r : wfs e = true -> nfin D Z0 e r = fin_env D e r.
Proof. intros H. unfold nfin, fin_env. now rewrite nden0. Qed.
Lemma ndens0 (es : list E) r : forallb wfs es = true -> ndens D Z0 es r = dens D es r.
Proof. intros H. apply nden0s; auto. apply Forall_forall. intros. now apply nden0. Qed.
End Zero.
