(** Forward mode: proofs. *)
From Coq Require Import Reals Lra Psatz List Arith.
From Coquelicot Require Import Coquelicot.
From Verif Require Import Base Num Expr Node Stat Machine Wf Session Tape XR Spec RSess LReal LScal Grad LGrd Forward FSpec.
Import ListNotations.
Open Scope R_scope.
Set Bullet Behavior "Strict Subproofs".

Section F.
Variable la : linalg xr.
Notation N := (XR la).

(** The adjoint produced by a unary function. *)
Lemma f1_fin f x d : un_dom true (f1_un f) x -> f <> FErf ->
  f1_run N f (Dual (N := N) (Fin x) (Fin d)) = Dual (N := N) (Fin (un_s (f1_un f) x)) (Fin (un_d (f1_un f) x * d)).
Proof.
  intros H HE. destruct f; try congruence; cbn in H; unfold f1_run; cbn.
  - f_equal. f_equal. ring.
  - reflexivity.
  - reflexivity.
  - rewrite !reqb_f by auto. cbn; f_equal; f_equal; field. auto.
  - rewrite in11_t by lra. change (1 + - (x * x)) with (1 - x * x). assert (P : 0 < 1 - x * x) by nra. rewrite rleb_t by lra. cbn. pose proof (sqrt_lt_R0 _ P). rewrite reqb_f by lra.
    cbn; f_equal; f_equal; field. lra.
  - rewrite in11_t by lra. change (1 + - (x * x)) with (1 - x * x). assert (P : 0 < 1 - x * x) by nra. rewrite rleb_t by lra. cbn. pose proof (sqrt_lt_R0 _ P). rewrite reqb_f by lra.
    cbn; f_equal; f_equal; field. lra.
  - assert (P : 0 < 1 + x * x) by nra. rewrite reqb_f by lra. cbn; f_equal; f_equal; field. lra.
  - reflexivity.
  - rewrite reqb_f, rltb_t by lra. cbn; f_equal; f_equal; field. lra.
  - rewrite rleb_t by lra. cbn. pose proof (sqrt_lt_R0 _ H). rewrite reqb_f by lra. cbn; f_equal; f_equal; field. lra.
Qed.
Lemma fe_main (e : fe R) (en : fenv N) (r d : nat -> R) (P : R -> nat -> R) :
  (forall i, en i = Dual (N := N) (Fin (r i)) (Fin (d i))) -> (forall i, P 0 i = r i) -> (forall i, is_derive (fun t => P t i) 0 (d i)) ->
  fdom false e r -> exists d', fe_run N (fmap Fin e : fe N) en = Dual (N := N) (Fin (fden e 0 r)) (Fin d') /\ is_derive (fun t => fden e t (P t)) 0 d' /\
  fden e 0 (P 0) = fden e 0 r.
Proof.
  intros HE H0 HP. induction e as [i|c g|f x IH|f x IHx y IHy]; intros HD; cbn [fdom] in HD.
  - exists (d i). cbn. rewrite HE. auto.
  - exists g. cbn. split; [now rewrite Rmult_0_l, Rplus_0_r|]. split; [|reflexivity]. auto_derive; [exact I|ring].
  - destruct HD as [H1 [H2 H3]]. destruct (IH H1) as [d' [A [B C]]].
    exists (un_d (f1_un f) (fden x 0 r) * d'). split; [|split].
    + cbn [fmap fe_run fden]. rewrite A. apply f1_fin; auto; intros ->; now specialize (H3 eq_refl).
    + cbn [fden]. eapply der_eq; [apply (der_comp (un_s (f1_un f)) (fun t => fden x t (P t)))|].
      * rewrite C. apply un_der. exact H2.
      * exact B.
      * ring.
    + cbn. now rewrite C.
  - destruct HD as [H1 [H2 H3]]. destruct (IHx H1) as [d1 [A1 [B1 C1]]]. destruct (IHy H2) as [d2 [A2 [B2 C2]]].
    set (a := fden x 0 r) in *. set (b := fden y 0 r) in *.
    cbn [fmap fe_run fden]. rewrite A1, A2, C1, C2. fold a b. destruct f; cbn [f2_run w_ df_ f2_s].
    + exists (d1 + d2). split; [reflexivity|]. split; [|reflexivity]. apply (der_plus (fun t => fden x t (P t)) (fun t => fden y t (P t))); auto.
    + exists (d1 - d2). split; [reflexivity|]. split; [|reflexivity]. apply (der_minus (fun t => fden x t (P t)) (fun t => fden y t (P t))); auto.
    + exists (a * d2 + d1 * b). split; [reflexivity|]. split; [|reflexivity].
      eapply der_eq; [apply (der_mult (fun t => fden x t (P t)) (fun t => fden y t (P t)) 0 d1 d2); auto|].
      cbn. rewrite C1, C2. fold a b. ring.
    + specialize (H3 eq_refl). exists ((d1 * b - a * d2) / (b * b)). split; [cbn; rewrite !reqb_f by nra; reflexivity|]. split; [|reflexivity].
      eapply der_eq; [apply (is_derive_div (fun t => fden x t (P t)) (fun t => fden y t (P t)) 0 d1 d2); auto; rewrite C2; exact H3|].
      cbn. rewrite C1, C2. fold a b. field. exact H3.
Qed.

Definition RD (en : fenv N) (r d : nat -> R) : Prop := forall i, en i = Dual (N := N) (Fin (r i)) (Fin (d i)).
Definition PD (P : R -> nat -> R) (r d : nat -> R) : Prop := (forall i, P 0 i = r i) /\ forall i, is_derive (fun t => P t i) 0 (d i).
Lemma fden_ext e t r r' : (forall i, r i = r' i) -> fden e t r = fden e t r'.
Proof. intros H. induction e; cbn; auto; congruence. Qed.
Lemma set1_ext r r' i a b : (forall j, r j = r' j) -> a = b -> forall j, set1 r i a j = set1 r' i b j.
Proof. intros H -> j. unfold set1. destruct (j =? i)%nat; auto. Qed.
Lemma pden_ext s t : forall r r', (forall i, r i = r' i) -> forall i, pden s t r i = pden s t r' i.
Proof.
  induction s as [i x|i x|a IHa b IHb|n a IHa|x y a IHa b IHb]; intros r r' H; cbn [pden].
  - apply set1_ext; auto. now apply fden_ext.
  - apply set1_ext; auto. rewrite (fden_ext x t r r' H). now rewrite H.
  - apply IHb. now apply IHa.
  - induction n; cbn; auto.
  - rewrite (fden_ext x t r r' H), (fden_ext y t r r' H). destruct (rltb _ _); auto.
Qed.
Lemma put_main en r d P i v w e : RD en r d -> PD P r d -> v = Dual (N := N) (Fin w) (Fin e) -> forall g, is_derive g 0 e -> g 0 = w ->
  RD (fput N en i v) (set1 r i w) (fun j => if (j =? i)%nat then e else d j) /\ PD (fun t => set1 (P t) i (g t)) (set1 r i w) (fun j => if (j =? i)%nat then e else d j).
Proof.
  intros HE [H0 HP] -> g Hg E. split; [|split]; intros j; unfold fput, set1; destruct (j =? i)%nat; auto.
Qed.
Lemma stm_main s : forall en r d P, RD en r d -> PD P r d -> pdom s r ->
  exists d', RD (stm_run N (smap Fin s : stm N) en) (pden s 0 r) d' /\ PD (fun t => pden s t (P t)) (pden s 0 r) d'.
Proof.
  induction s as [i x|i x|a IHa b IHb|n a IHa|x y a IHa b IHb]; intros en r d P HE HP HD; cbn [pdom] in HD; cbn [smap stm_run pden].
  - destruct (fe_main x en r d P HE (proj1 HP) (proj2 HP) HD) as [e [A [B C]]].
    eexists. apply (put_main en r d P i _ (fden x 0 r) e HE HP A (fun t => fden x t (P t)) B C).
  - destruct (fe_main x en r d P HE (proj1 HP) (proj2 HP) HD) as [e [A [B C]]].
    eexists. apply (put_main en r d P i _ (r i + fden x 0 r) (d i + e) HE HP) with (g := fun t => P t i + fden x t (P t)).
    + rewrite A, HE. reflexivity.
    + apply (der_plus (fun t => P t i) (fun t => fden x t (P t))); [apply (proj2 HP)|exact B].
    + rewrite C, (proj1 HP). reflexivity.
  - destruct HD as [D1 D2]. destruct (IHa en r d P HE HP D1) as [d1 [A1 B1]]. exact (IHb _ _ d1 _ A1 B1 D2).
  - induction n as [|n IH]; [exists d; split; [exact HE|exact HP]|].
    destruct IH as [d1 [A1 B1]]; [intros k Hk; apply HD; lia|]. exact (IHa _ _ d1 _ A1 B1 (HD n (Nat.lt_succ_diag_r n))).
  - destruct HD as [Dx [Dy [NE Db]]].
    destruct (fe_main x en r d P HE (proj1 HP) (proj2 HP) Dx) as [e1 [A1 [B1 C1]]].
    destruct (fe_main y en r d P HE (proj1 HP) (proj2 HP) Dy) as [e2 [A2 [B2 C2]]].
    rewrite A1, A2. cbn [w_ nltb XR xltb].
    assert (CT : continuous (fun t => fden y t (P t) - fden x t (P t)) 0).
    { apply (ex_derive_continuous (fun t => fden y t (P t) - fden x t (P t))). exists (e2 - e1).
      apply (der_minus (fun t => fden y t (P t)) (fun t => fden x t (P t))); auto. }
    assert (LC : locally 0 (fun t => rltb (fden x t (P t)) (fden y t (P t)) = rltb (fden x 0 r) (fden y 0 r))).
    { destruct (Rlt_dec (fden x 0 r) (fden y 0 r)) as [L|L].
      - rewrite rltb_t by exact L.
        apply (filter_imp (fun t => 0 < fden y t (P t) - fden x t (P t))); [intros t Ht; apply rltb_t; lra|].
        apply (CT (fun z => 0 < z)). apply (open_gt 0). rewrite C1, C2. lra.
      - rewrite (rltb_f (fden x 0 r)) by lra.
        apply (filter_imp (fun t => fden y t (P t) - fden x t (P t) < 0)); [intros t Ht; apply rltb_f; lra|].
        apply (CT (fun z => z < 0)). apply (open_lt 0). rewrite C1, C2. lra. }
    match goal with |- context [if ?b then stm_run _ _ _ else _] => change b with (rltb (fden x 0 r) (fden y 0 r)) end.
    destruct (rltb (fden x 0 r) (fden y 0 r)) eqn:Q.
    + destruct (IHa en r d P HE HP Db) as [d' [A [B0 B]]]. exists d'. split; [exact A|]. split; [intros i; rewrite C1, C2, Q; apply B0|].
      intros i. apply (is_derive_ext_loc (fun t => pden a t (P t) i)); [|apply B]. revert LC. apply filter_imp. intros t ->. reflexivity.
    + destruct (IHb en r d P HE HP Db) as [d' [A [B0 B]]]. exists d'. split; [exact A|]. split; [intros i; rewrite C1, C2, Q; apply B0|].
      intros i. apply (is_derive_ext_loc (fun t => pden b t (P t) i)); [|apply B]. revert LC. apply filter_imp. intros t ->. reflexivity.
Qed.
Lemma fwd_thm (s : stm R) (r d : nat -> R) : pdom s r ->
  exists d', (forall i, stm_run N (smap Fin s : stm N) (fun j => Dual (N := N) (Fin (r j)) (Fin (d j))) i = Dual (N := N) (Fin (pden s 0 r i)) (Fin (d' i))) /\
    forall i, is_derive (fun t => pden s t (fun j => r j + t * d j) i) 0 (d' i).
Proof.
  intros H. destruct (stm_main s (fun j => Dual (N := N) (Fin (r j)) (Fin (d j))) r d (fun t j => r j + t * d j)) as [d' [A [_ B]]]; auto.
  - intros i. reflexivity.
  - split; intros i; [ring|]. auto_derive; [exact I|ring].
  - exists d'. split; [exact A|exact B].
Qed.
Lemma erf_thm x d : f1_run N FErf (Dual (N := N) (Fin x) (Fin d)) = Dual (N := N) (Fin (erf x)) (Fin (2 / sqrt PI * exp (- x ^ 2))).
Proof. unfold f1_run. cbn. do 4 f_equal. ring. Qed.
Lemma erf_wrong : ~ (forall x d, exists d',
  f1_run N FErf (Dual (N := N) (Fin x) (Fin d)) = Dual (N := N) (Fin (erf x)) (Fin d') /\ is_derive (fun t => erf (x + t * d)) 0 d').
Proof.
  intros H. destruct (H 0 0) as [d' [A B]]. rewrite erf_thm in A. injection A as A.
  assert (Z : is_derive (fun t => erf (0 + t * 0)) 0 0).
  { apply (der_ext (fun _ => erf 0)); [intros t; f_equal; ring|exact (der_const (erf 0) 0)]. }
  apply is_derive_unique in B. apply is_derive_unique in Z. rewrite B in Z.
  rewrite Z in A.
  assert (P : 0 < sqrt PI) by (apply sqrt_lt_R0, PI_RGT_0). apply Rmult_integral in A. destruct A as [A|A]; [|match type of A with exp ?y = 0 => pose proof (exp_pos y); lra end].
  apply Rmult_integral in A. destruct A as [A|A]; [lra|]. apply Rinv_neq_0_compat in A; [auto|lra].
Qed.
End F.

(** *** Agreement with reverse mode *)
Section R.
Variable la : linalg xr.
Hypothesis LA : la_ok la.
Notation N := (XR la).
Notation U := (expr N unit).
Notation X := (expr xr unit).
Lemma rev_facts (e : fe R) D : shape_of (rev_of e : X) = scl /\ wfs (rev_of e : U) = true /\ disc (rev_of e : X) = true /\ cfin (rev_of e) /\
  writes (rev_of e : X) = [] /\ eqw (rev_of e : X) = [] /\ opw (rev_of e : X) = [] /\ ctor_ok (N := N) (rev_of e) = true /\ gettable (rev_of e) = true /\
  forall r, den D (rev_of e) r = ([fden e 0 r], r).
Proof.
  induction e as [i|c g|f x IH|f x IHx y IHy].
  - repeat split; auto.
  - repeat split; auto.
    + constructor; [eexists; reflexivity|constructor].
    + intros r. cbn. f_equal. f_equal. ring.
  - destruct IH as [A1 [A2 [A3 [A4 [A5 [A6 [A7 [A8 [A9 A10]]]]]]]]]. change (carrier N) with xr in *.
    cbn [rev_of fden]. repeat split.
    + cbn [shape_of map]. rewrite A1. reflexivity.
    + cbn [wfs map forallb]. change (carrier N) with xr. rewrite A2, A1, A9. reflexivity.
    + cbn [disc forallb later writes flat_map tl map kpure]. rewrite A3. reflexivity.
    + exact A4.
    + cbn [writes flat_map]. now rewrite A5.
    + cbn [eqw flat_map]. now rewrite A6.
    + cbn [opw flat_map]. now rewrite A7.
    + cbn [ctor_ok forallb]. change (carrier N) with xr. now rewrite A8.
    + intros r. cbn [den]. rewrite A10. cbn [map]. rewrite A1. reflexivity.
  - destruct IHx as [A1 [A2 [A3 [A4 [A5 [A6 [A7 [A8 [A9 A10]]]]]]]]]. destruct IHy as [B1 [B2 [B3 [B4 [B5 [B6 [B7 [B8 [B9 B10]]]]]]]]]. change (carrier N) with xr in *.
    cbn [rev_of fden]. repeat split; auto.
    + cbn [shape_of map]. rewrite A1, B1. reflexivity.
    + cbn [wfs map forallb]. change (carrier N) with xr. rewrite A2, A1, A9, B1, B2, B9. destruct f; reflexivity.
    + cbn [disc forallb later writes flat_map tl map]. rewrite A3, B3, A1, B1, A5, B5, B7. cbn. destruct f; reflexivity.
    + cbn [writes flat_map]. now rewrite A5, B5.
    + cbn [eqw flat_map]. now rewrite A6, B6.
    + cbn [opw flat_map]. now rewrite A7, B7.
    + cbn [ctor_ok forallb]. change (carrier N) with xr. now rewrite A8, B8.
    + intros r. cbn [den]. rewrite A10, B10. cbn [map]. rewrite A1, B1. destruct f; reflexivity.
Qed.
Lemma rev_dom (e : fe R) D r : fdom true e r -> forall b, dom D true b (rev_of e) r.
Proof.
  induction e as [i|c g|f x IH|f x IHx y IHy]; intros H b; cbn [fdom] in H.
  - exact I.
  - constructor; [eexists; reflexivity|constructor].
  - destruct H as [H1 [H2 _]]. destruct (rev_facts x D) as [A1 [_ [_ [_ [_ [_ [_ [_ [_ A10]]]]]]]]].
    cbn [rev_of dom]. split; [split; [now apply IH|exact I]|]. cbn [dens]. rewrite A10. cbn [map kdom fst nth_sh nth]. rewrite A1.
    intros i Hi. cbn in Hi. assert (i = 0%nat) as -> by lia. exact H2.
  - destruct H as [H1 [H2 H3]]. destruct (rev_facts x D) as [A1 [_ [_ [_ [_ [_ [_ [_ [_ A10]]]]]]]]]. destruct (rev_facts y D) as [B1 [_ [_ [_ [_ [_ [_ [_ [_ B10]]]]]]]]].
    cbn [rev_of dom]. split; [split; [now apply IHx|split; [|exact I]]; unfold fin_env; rewrite A10; now apply IHy|].
    cbn [dens]. rewrite A10, B10. cbn [map kdom fst nth_sh nth]. rewrite A1, B1.
    intros i Hi. destruct f; cbn; auto.
Qed.
Lemma fden_erf (e : fe R) r : fdom false e r -> fdom true e r.
Proof. induction e; cbn; tauto. Qed.
Lemma const0_t e t r : const0 e -> fden e t r = fden e 0 r.
Proof.
  induction e as [i|c g|f x IH|f x IHx y IHy]; cbn; auto.
  - intros ->. ring.
  - intros H. now rewrite IH.
  - intros [H1 H2]. now rewrite IHx, IHy.
Qed.
Lemma fwd_rev bv ba (e : fe R) D e1 m1 r al o : fdom false e r -> const0 e ->
  session la bv ba (rev_of e : U) D e1 m1 -> mreal la (rev_of e : U) m1 D r al -> In o (refs (rev_of e : U)) ->
  exists dd e2 m2, fe_run N (fmap Fin e : fe N) (fun i => Dual (N := N) (Fin (r i)) (Fin (unit_dir o i))) = Dual (N := N) (Fin (fden e 0 r)) (Fin dd) /\
    autodiff e1 [Fin 1] m1 = Ok (e2, m2, [Fin (fden e 0 r)]) /\ m2 1%nat o = Some (Fin (al o + dd)).
Proof.
  intros HF HC HS HM Ho. destruct (rev_facts e D) as [A1 [A2 [A3 [A4 [A5 [A6 [A7 [A8 [A9 A10]]]]]]]]].
  destruct (fe_main la e (fun i => Dual (N := N) (Fin (r i)) (Fin (unit_dir o i))) r (unit_dir o) (fun t i => r i + t * unit_dir o i)) as [dd [B1 [B2 _]]]; auto.
  { intros. ring. }
  { intros i. auto_derive; [exact I|ring]. }
  destruct (grad_thm la LA bv ba (rev_of e) D e1 m1 r al false [1]) as [e2 [m2 [C1 C2]]]; auto.
  - split; [exact A2|]. split; [exact A3|exact A4].
  - apply rev_dom. now apply fden_erf.
  - change (carrier N) with xr in *. rewrite A1. reflexivity.
  - discriminate.
  - change (carrier N) with xr in *. rewrite A5. intros ? [].
  - destruct (C2 o Ho) as [g [P Q]]; [change (carrier N) with xr in *; rewrite A6; intros []|].
    exists dd, e2, m2. split; [exact B1|]. split.
    + etransitivity; [exact C1|]. unfold val. change (carrier N) with xr in *. rewrite A10. reflexivity.
    + rewrite Q. do 2 f_equal. unfold dotp, sumn. cbn [length seq fold_left]. f_equal.
      assert (E : g 0%nat = dd); [|unfold el; cbn; rewrite <- E; ring].
      assert (K : is_derive (fun t => el (val D (rev_of e) (set1 r o (r o + t))) 0) 0 (g 0%nat * 1)).
      { apply (der_comp (fun z => el (val D (rev_of e) (set1 r o z)) 0) (fun t => r o + t)).
        - rewrite Rplus_0_r. exact (P 0%nat).
        - auto_derive; [exact I|ring]. }
      apply is_derive_unique in K. rewrite Rmult_1_r in K. rewrite <- K.
      apply is_derive_unique. apply (der_ext (fun t => fden e t (fun i => r i + t * unit_dir o i))); [|exact B2].
      intros t. unfold val. rewrite A10. cbn. rewrite (const0_t e t) by auto. apply fden_ext. intros i. unfold set1, unit_dir.
      destruct (i =? o)%nat eqn:Q1; [apply Nat.eqb_eq in Q1; subst|]; ring.
Qed.
End R.
