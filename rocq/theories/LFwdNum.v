(** Lemmas: forward-mode programs in two arithmetics. *)
From Coq Require Import ZArith Reals Lra Lia List Bool.
From Coquelicot Require Import Coquelicot.
From Flocq Require Import Core BinarySingleNaN.
From Verif Require Import Base Num Expr Node Machine XR Spec LKM Forward FSpec LFwd Ieee IeeeSpec LDyad LIeee Ival IvalSpec LIval FwdNum.
Import ListNotations.
Set Bullet Behavior "Strict Subproofs".
Local Open Scope R_scope.

Section Rel.
Context {C : Type} {N1 N2 : num} (R : N1 -> N2 -> Prop) (HP : prel R) (HB : brel R).
Variables (f : C -> N1) (g : C -> N2).
Hypothesis HC : forall c, R (f c) (g c).
Lemma f1_rel k v v' : drel R v v' -> drel R (f1_run N1 k v) (f1_run N2 k v').
Proof.
  destruct v as [x d], v' as [x' d']. intros [H1 H2]. cbn [w_ df_] in H1, H2.
  destruct k; unfold f1_run; cbv zeta; split; cbn [w_ df_]; repeat (apply HP; auto).
Qed.
Lemma f2_rel k v v' u u' : drel R v v' -> drel R u u' -> drel R (f2_run N1 k v u) (f2_run N2 k v' u').
Proof.
  destruct v as [x d], v' as [x' d'], u as [y q], u' as [y' q']. intros [H1 H2] [H3 H4]. cbn [w_ df_] in *.
  destruct k; unfold f2_run; cbv zeta; split; cbn [w_ df_]; repeat (apply HP; auto).
Qed.
Definition erel (r : fenv N1) (r' : fenv N2) : Prop := forall i, drel R (r i) (r' i).
Lemma fe_rel (e : fe C) r r' : erel r r' -> drel R (fe_run N1 (fmap f e) r) (fe_run N2 (fmap g e) r').
Proof.
  intros H. induction e; cbn [fmap fe_run]; [apply H|split; apply HC|now apply f1_rel|now apply f2_rel].
Qed.
Lemma put_rel r r' i v v' : erel r r' -> drel R v v' -> erel (fput N1 r i v) (fput N2 r' i v').
Proof. intros H HV j. unfold fput. destruct (Nat.eqb j i); [exact HV|apply H]. Qed.
Lemma stm_rel (s : stm C) : forall r r', erel r r' -> sure N1 (smap f s) r = true -> erel (stm_run N1 (smap f s) r) (stm_run N2 (smap g s) r').
Proof.
  induction s as [i x|i x|a IHa b IHb|n a IHa|x y a IHa b IHb]; intros r r' H HS; cbn [smap stm_run sure] in *.
  - apply put_rel; [exact H|]. now apply fe_rel.
  - apply put_rel; [exact H|]. apply f2_rel; [apply H|now apply fe_rel].
  - apply andb_true_iff in HS. destruct HS as [S1 S2]. apply IHb; [|exact S2]. now apply IHa.
  - assert (W : forall k, (k <= n)%nat -> erel (Nat.iter k (stm_run N1 (smap f a)) r) (Nat.iter k (stm_run N2 (smap g a)) r')).
    { induction k as [|k IHk]; intros Hk; [exact H|]. cbn. apply IHa; [apply IHk; lia|].
      rewrite forallb_forall in HS. apply HS. apply in_seq. lia. }
    now apply W.
  - pose proof (fe_rel x r r' H) as [X1 _]. pose proof (fe_rel y r r' H) as [Y1 _].
    destruct (nltb N1 _ _) eqn:Q.
    + rewrite (br_lt R HB _ _ _ _ X1 Y1 Q). now apply IHa.
    + apply andb_true_iff in HS. destruct HS as [S1 S2]. rewrite (br_le R HB _ _ _ _ X1 Y1 S1). now apply IHb.
Qed.
End Rel.

(** ** The comparisons of the arithmetics *)
Lemma q_gtb x y : negb (qleb y x) = true <-> dval x < dval y.
Proof.
  rewrite negb_true_iff. split.
  - intros H. destruct (Rlt_or_le (dval x) (dval y)) as [|Q]; [assumption|]. apply q_leb in Q. congruence.
  - intros H. destruct (qleb y x) eqn:Q; [|reflexivity]. apply q_leb in Q. lra.
Qed.
Lemma Bltb_R x y : is_finite x = true -> is_finite y = true -> @Bltb prec64 emax64 x y = Rlt_bool (B2R x) (B2R y).
Proof. intros H1 H2. now apply Bltb_correct. Qed.
Lemma brelB md L : @brel Dyad (B64 md L) exactB.
Proof.
  constructor; intros [a|] [b|] x' y' H1 H2 Q; try discriminate; destruct H1 as [F1 V1], H2 as [F2 V2]; cbn [nltb nleb Dyad B64 dltb dleb] in *;
  rewrite Bltb_R by assumption; rewrite V1, V2.
  - apply q_gtb in Q. now apply Rlt_bool_true.
  - apply q_leb in Q. now apply Rlt_bool_false.
Qed.
Lemma brelR la : @brel Dyad (XR la) exactR.
Proof.
  constructor; intros [a|] [b|] x' y' H1 H2 Q; try discriminate; cbn [exactR] in H1, H2; subst; cbn [nltb nleb Dyad XR dltb dleb xltb] in *;
  unfold rltb; destruct (Rlt_dec _ _) as [W|W]; auto.
  - apply q_gtb in Q. contradiction.
  - apply q_leb in Q. lra.
Qed.
Lemma brelIB F md L : @brel (Ival F) (B64 md L) inB.
Proof.
  constructor; intros [[a b]|] [[c d]|] x' y' H1 H2 Q; try discriminate; destruct H1 as [F1 V1], H2 as [F2 V2]; cbn [nltb nleb Ival B64 iltb ileb within] in *;
  rewrite Bltb_R by assumption.
  - apply q_gtb in Q. apply Rlt_bool_true. lra.
  - apply q_leb in Q. apply Rlt_bool_false. lra.
Qed.
Lemma brelIR F la : @brel (Ival F) (XR la) inX.
Proof.
  constructor; intros [[a b]|] [[c d]|] x' y' H1 H2 Q; try discriminate; destruct H1 as [r1 [-> V1]], H2 as [r2 [-> V2]];
  cbn [nltb nleb Ival XR iltb ileb within xltb] in *; unfold rltb; destruct (Rlt_dec _ _) as [W|W]; auto.
  - apply q_gtb in Q. lra.
  - apply q_leb in Q. lra.
Qed.

(** ** Programs *)
Lemma fmap_id (e : fe b64) : fmap (fun c : b64 => c) e = e.
Proof. induction e; cbn; congruence. Qed.
Lemma smap_id (s : stm b64) : smap (fun c : b64 => c) s = s.
Proof. induction s; cbn; rewrite ?fmap_id; congruence. Qed.
Lemma fmap_fmap {A B D} (h : A -> B) (k : B -> D) (e : fe A) : fmap k (fmap h e) = fmap (fun c => k (h c)) e.
Proof. induction e; cbn; congruence. Qed.
Lemma smap_smap {A B D} (h : A -> B) (k : B -> D) (s : stm A) : smap k (smap h s) = smap (fun c => k (h c)) s.
Proof. induction s; cbn; rewrite ?fmap_fmap; congruence. Qed.
Lemma fwd_exact md L (RO : redok md L) (s : stm b64) (q : fenv Dyad) (r : fenv (B64 md L))
    (rho := fun i => B2R (w_ (r i) : b64)) (del := fun i => B2R (df_ (r i) : b64)) :
  (forall i, drel (N1 := Dyad) (N2 := B64 md L) exactB (q i) (r i)) -> sure Dyad (smap todyad s) q = true -> pdom (smap B2R s) rho ->
  exists d', (forall i, is_derive (fun t => pden (smap B2R s) t (fun j => rho j + t * del j) i) 0 (d' i)) /\
    forall i, let v := stm_run Dyad (smap todyad s) q i in let y := stm_run (B64 md L) s r i in
      (forall z, w_ v = Some z -> is_finite (w_ y : b64) = true /\ B2R (w_ y : b64) = pden (smap B2R s) 0 rho i) /\
      (forall z, df_ v = Some z -> is_finite (df_ y : b64) = true /\ B2R (df_ y : b64) = d' i).
Proof.
  intros HQ HS HD. set (la := exact_la).
  destruct (fwd_thm la (smap B2R s) rho del HD) as [d' [D1 D2]]. exists d'. split; [exact D2|]. intros i v y.
  pose proof (stm_rel (N1 := Dyad) (N2 := B64 md L) exactB (prelB md L RO) (brelB md L) todyad (fun x : b64 => x) todyad_exact s q r HQ HS i) as [B1 B2].
  rewrite smap_id in B1, B2. change (exactB (w_ v) (w_ y)) in B1. change (exactB (df_ v) (df_ y)) in B2.
  assert (EX : forall x b, exactB x b -> exactR x (Fin (B2R b))).
  { intros [z|] b H; [|exact I]. cbn. f_equal. apply H. }
  pose proof (stm_rel (N1 := Dyad) (N2 := XR la) exactR (prelR la) (brelR la) todyad (fun x : b64 => Fin (B2R x)) (fun c => EX _ _ (todyad_exact c)) s q
    (fun j => Dual (N := XR la) (Fin (rho j)) (Fin (del j)))) as QR.
  specialize (QR ltac:(intros j; destruct (HQ j) as [H1 H2]; split; apply EX; assumption) HS i).
  assert (SS : smap (fun x : b64 => Fin (B2R x)) s = smap Fin (smap B2R s)) by (symmetry; apply (smap_smap (@B2R prec64 emax64) Fin s)).
  change (carrier (XR la)) with xr in QR, SS, D1. change (binary_float prec64 emax64) with b64 in QR, SS, D1.
  rewrite SS in QR. rewrite D1 in QR. destruct QR as [R1 R2].
  cbn [w_ df_] in R1, R2. change (exactR (w_ v) (Fin (pden (smap B2R s) 0 rho i))) in R1. change (exactR (df_ v) (Fin (d' i))) in R2. split; intros z Hz.
  - rewrite Hz in B1, R1. destruct B1 as [B1 B3]. split; [exact B1|]. rewrite B3. cbn in R1. now inversion R1.
  - rewrite Hz in B2, R2. destruct B2 as [B2 B3]. split; [exact B2|]. rewrite B3. cbn in R2. now inversion R2.
Qed.
Lemma fwd_encl (F : encl) md L (RO : redok md L) (C : Type) (fi : C -> iv) (fb : C -> b64) (fr : C -> R) (s : stm C)
    (q : fenv (Ival F)) (r : fenv (B64 md L)) (rho del : nat -> R) :
  soundB F md L -> soundR F -> (forall c, inB (fi c) (fb c)) -> (forall c, within (fi c) (fr c)) ->
  (forall i, drel (N1 := Ival F) (N2 := B64 md L) inB (q i) (r i)) -> (forall i, within (w_ (q i)) (rho i) /\ within (df_ (q i)) (del i)) ->
  sure (Ival F) (smap fi s) q = true -> pdom (smap fr s) rho ->
  exists d', (forall i, is_derive (fun t => pden (smap fr s) t (fun j => rho j + t * del j) i) 0 (d' i)) /\
    forall i, let v := stm_run (Ival F) (smap fi s) q i in let y := stm_run (B64 md L) (smap fb s) r i in
      (forall a b, w_ v = Some (a, b) -> both a b (w_ y) (pden (smap fr s) 0 rho i)) /\
      (forall a b, df_ v = Some (a, b) -> both a b (df_ y) (d' i)).
Proof.
  intros SB SR CB CR HQ HR HS HD. set (la := exact_la).
  destruct (fwd_thm la (smap fr s) rho del HD) as [d' [D1 D2]]. exists d'. split; [exact D2|]. intros i v y.
  pose proof (stm_rel (N1 := Ival F) (N2 := B64 md L) inB (prelIB md F L RO SB) (brelIB F md L) fi fb CB s q r HQ HS i) as [B1 B2]. change (inB (w_ v) (w_ y)) in B1. change (inB (df_ v) (df_ y)) in B2.
  pose proof (stm_rel (N1 := Ival F) (N2 := XR la) inX (prelIR F la SR) (brelIR F la) fi (fun c => Fin (fr c)) (fun c => inX_fin _ _ (CR c)) s q
    (fun j => Dual (N := XR la) (Fin (rho j)) (Fin (del j)))) as QR.
  specialize (QR ltac:(intros j; destruct (HR j) as [H1 H2]; split; apply inX_fin; assumption) HS i).
  assert (SS : smap (fun c => Fin (fr c)) s = smap Fin (smap fr s)) by (symmetry; apply (smap_smap fr Fin s)).
  change (carrier (XR la)) with xr in QR, SS, D1. rewrite SS in QR. rewrite D1 in QR. destruct QR as [R1 R2].
  cbn [w_ df_] in R1, R2. change (inX (w_ v) (Fin (pden (smap fr s) 0 rho i))) in R1. change (inX (df_ v) (Fin (d' i))) in R2. split; intros a b Hz.
  - rewrite Hz in B1, R1. destruct B1 as [B1 B3], R1 as [z [Z1 Z2]]. inversion Z1; subst z. exact (conj B1 (conj B3 Z2)).
  - rewrite Hz in B2, R2. destruct B2 as [B2 B3], R2 as [z [Z1 Z2]]. inversion Z1; subst z. exact (conj B2 (conj B3 Z2)).
Qed.
