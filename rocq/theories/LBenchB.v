(** Values and gradients of the programs of BenchB.v. *)
From Coq Require Import Reals Lra.
From Coquelicot Require Import Coquelicot.
From Verif Require Import Base Num Expr Node Stat Machine Wf Pure LBase LKind LSimDef LMem LSimF LSimB LBind Session LUser
  Tape LTape LState LNrm LTop XR Spec Nudge RSess Grad LReal LScal LKA LKB LKM LVal LNudge LGrad LDiff LIndep LGrd LNGrad LPh Train LTrain Progs LProgs BenchB.
Open Scope R_scope.
Set Bullet Behavior "Strict Subproofs".

(** ** Ranges of expressions that assign nothing *)
Record plain (h : nat -> P2) (g : nat -> (nat -> R) -> R) : Prop := {
  p_wfs : forall i, wfs (h i) = true;
  p_shape : forall i, shape_of (h i) = scl;
  p_get : forall i, gettable (h i) = true;
  p_w : forall i, writes (h i) = [];
  p_e : forall i, eqw (h i) = [];
  p_o : forall i, opw (h i) = [];
  p_disc : forall i, disc (h i) = true;
  p_cfin : forall i, cfin (h i);
  p_den : forall D i r, den D (h i) r = ([g i r], r)
}.
Section Range.
Variables (h : nat -> P2) (g : nat -> (nat -> R) -> R).
Hypothesis P : plain h g.
Lemma rg_wfs l : forallb wfs (map h l) = true.
Proof. induction l; cbn; auto. now rewrite (p_wfs h g P). Qed.
Lemma rg_shape l : map shape_of (map h l) = repeat scl (length l).
Proof. induction l; cbn [map length repeat]; [reflexivity|]. now rewrite (p_shape h g P), IHl. Qed.
Lemma rg_get l : forallb gettable (map h l) = true.
Proof. induction l; cbn; auto. now rewrite (p_get h g P). Qed.
Lemma rg_nil {Y} (f : P2 -> list Y) l : (forall i, f (h i) = []) -> flat_map f (map h l) = [].
Proof. intros H. induction l; cbn; auto. now rewrite H, IHl. Qed.
Lemma rg_disc l : forallb disc (map h l) = true.
Proof. induction l; cbn; auto. now rewrite (p_disc h g P). Qed.
Lemma rg_later l : later writes (map h l) = true.
Proof. induction l; cbn [map later]; auto. rewrite IHl, (rg_nil writes) by apply (p_w h g P). rewrite ?(p_w h g P). reflexivity. Qed.
Lemma rg_cfin k l : k = KSumI Scl \/ k = KProdI Scl -> cfin (EComp k tt (map h l)).
Proof. intros _. induction l; cbn; auto. split; [apply (p_cfin h g P)|exact IHl]. Qed.
Lemma rg_wf k l : k = KSumI Scl \/ k = KProdI Scl -> wfs (EComp k tt (map h l)) = true.
Proof.
  intros Hk. cbn [wfs]. rewrite rg_wfs, rg_shape. replace (kshape_ok k (repeat scl (length l))) with true.
  - destruct Hk as [-> | ->]; cbn; rewrite ?rg_get; auto.
  - symmetry. destruct Hk as [-> | ->]; exact (scls_ok (length l)).
Qed.
Lemma rg_di k l : k = KSumI Scl \/ k = KProdI Scl -> disc (EComp k tt (map h l)) = true.
Proof.
  intros Hk. assert (Q : forall f : P2 -> list nat, (forall i, f (h i) = []) -> forallb (fun y => nilb (f y)) (map h l) = true).
  { intros f Hf. clear Hk. induction l as [|a m IH]; cbn; auto. now rewrite Hf, IH. }
  cbn [disc]. rewrite rg_disc, rg_later, (Q writes (p_w h g P)). replace (forallb _ (tl (map h l))) with true.
  - now rewrite !orb_true_r.
  - specialize (Q opw (p_o h g P)). destruct (map h l); cbn in *; auto. symmetry. now apply andb_true_iff in Q.
Qed.
Lemma rg_dens D r l : dens D (map h l) r = (map (fun i => [g i r]) l, r).
Proof. induction l as [|a l IH]; [reflexivity|]. cbn [map]. rewrite dens_cons. unfold val, fin_env. rewrite (p_den h g P). cbn [fst snd]. now rewrite IH. Qed.
Lemma rg_nth r n p : (p < n)%nat -> el (nth p (map (fun i => [g i r]) (seq 0 n)) []) 0 = g p r.
Proof.
  intros Hp. rewrite (nth_indep _ [] [g 0%nat r]) by now rewrite map_length, seq_length.
  rewrite (map_nth (fun i => [g i r])), seq_nth by exact Hp. reflexivity.
Qed.
Lemma rg_sum D r n : den D (EComp (KSumI Scl) tt (map h (seq 0 n))) r = ([sumn n (fun i => g i r)], r).
Proof.
  rewrite den_comp, rg_dens. cbn [fst snd]. f_equal. cbn. f_equal. rewrite map_length, seq_length. apply sumn_ext. intros p Hp. now apply rg_nth.
Qed.
Lemma rg_prod D r n : den D (EComp (KProdI Scl) tt (map h (seq 0 n))) r = ([prodn n (fun i => g i r)], r).
Proof.
  rewrite den_comp, rg_dens. cbn [fst snd]. f_equal. cbn. f_equal. rewrite map_length, seq_length. apply prodn_ext. intros p Hp. now apply rg_nth.
Qed.
Lemma rg_dom D k b r l : k = KSumI Scl \/ k = KProdI Scl -> (forall i w, In i l -> dom D true w (h i) r) -> dom D true b (EComp k tt (map h l)) r.
Proof.
  intros Hk HD. rewrite dom_comp. split; [|destruct Hk as [-> | ->]; exact I]. generalize (fun i => b && ones k (map shape_of (map h l)) i)%bool 0%nat.
  revert HD. induction l as [|a l IH]; intros HD us i; cbn [map doms]; auto. split; [apply HD; now left|].
  unfold fin_env. rewrite (p_den h g P). apply IH. intros. apply HD. now right.
Qed.
End Range.
Lemma sq2_plain : plain sq2 (fun i r => r i * r i).
Proof. constructor; intros; try reflexivity. cbn. tauto. Qed.
Definition regr_g (v v2 : nat -> R) (i : nat) (r : nat -> R) : R := - / 2 * ((v i - r 0%nat * v2 i) / r 1%nat) ^ 2.
Definition norm_g (d : R) (v v2 : nat -> R) (i : nat) (r : nat -> R) : R := - / 2 * ((v i - r 0%nat * v2 i) / d) ^ 2 - ln d.
Lemma regr1_plain v v2 : plain (regr1 v v2) (regr_g v v2).
Proof. constructor; intros; try reflexivity. cbn. repeat (split; auto); apply (fin_all [_]). Qed.
Lemma norm1_plain d v v2 : plain (norm1 d v v2) (norm_g d v v2).
Proof. constructor; intros; try reflexivity. cbn. repeat (split; auto); apply (fin_all [_]). Qed.

(** ** Two statements *)
Definition two (k : kd) (w : un) (n : nat) : P2 :=
  EGlue tt (EEq tt scl n (EComp k tt (map sq2 (seq 0 n))))
           (EEq tt scl (S n) (bi2 BAdd (bi2 BMul (sv n) (sv n)) (un1 w (sv n)))).
Section B.
Variable la : linalg xr.
Hypothesis LA : la_ok la.
Notation N := (XR la).
Notation E := (expr N (ann N)).
Notation U := (expr N unit).
Lemma sq2_refs o a n : In o (flat_map refs (map sq2 (seq a n))) <-> (a <= o < a + n)%nat.
Proof.
  revert a. induction n as [|n IH]; intros a; cbn [seq map flat_map]; [cbn; lia|].
  rewrite in_app_iff, IH. cbn. lia.
Qed.
Lemma two_ok k w n : k = KSumI Scl \/ k = KProdI Scl -> w = USin \/ w = UCos -> okexpr la (two k w n).
Proof.
  intros Hk Hw. change (okexpr la (two k w n)) with (wfs (two k w n) = true /\ disc (two k w n) = true /\ cfin (two k w n)). unfold two, bi2. split; [|split].
  - set (a := EComp k tt (map sq2 (seq 0 n))). assert (A1 : wfs a = true) by (apply (rg_wf _ _ sq2_plain); auto).
    assert (A2 : shape_of a = scl) by (destruct Hk; subst; reflexivity). assert (A3 : rhs_ok a = true) by (destruct Hk; subst; reflexivity). clearbody a.
    cbn [wfs map shape_of forallb]. rewrite A1, A2, A3. destruct Hw; subst; reflexivity.
  - set (a := EComp k tt (map sq2 (seq 0 n))). assert (A1 : disc a = true) by (apply (rg_di _ _ sq2_plain); auto).
    assert (A2 : forall o, In o (refs a) -> (o < n)%nat) by (intros o Ho; apply (sq2_refs o 0 n) in Ho; lia). clearbody a.
    assert (J : forall o, (n <= o)%nat -> dj [o] (refs a) = true).
    { intros o Ho. unfold dj. cbn [forallb]. rewrite andb_true_r, negb_true_iff. destruct (existsb _ _) eqn:Q; auto.
      apply existsb_exists in Q. destruct Q as [x [Q1 Q2]]. apply A2 in Q1. apply Nat.eqb_eq in Q2. lia. }
    assert (J3 : dj [S n] (n :: refs a) = true).
    { specialize (J (S n) ltac:(lia)). unfold dj in *. cbn [forallb existsb] in *. replace (S n =? n)%nat with false by (symmetry; apply Nat.eqb_neq; lia). exact J. }
    assert (J2 : dj [S n] [n; n; n] = true).
    { unfold dj. cbn [forallb existsb]. replace (S n =? n)%nat with false by (symmetry; apply Nat.eqb_neq; lia). reflexivity. }
    specialize (J n ltac:(lia)). destruct Hw; subst; cbn; rewrite ?A1; cbn in *; rewrite ?app_nil_r, ?J, ?J2, ?J3; reflexivity.
  - cbn [cfin]. split; [exact (rg_cfin _ _ sq2_plain k _ Hk)|]. cbn. tauto.
Qed.
Lemma two_val k w n (T : nat -> (nat -> R) -> R) D : 
  (forall r, den D (EComp k tt (map sq2 (seq 0 n))) r = ([T n (fun i => r i * r i)], r)) ->
  forall r, val D (two k w n) r = [T n (fun i => r i * r i) ^ 2 + un_s w (T n (fun i => r i * r i))].
Proof.
  intros HT r. unfold two, val. rewrite den_glue, !den_eq, HT. cbn [fst snd]. set (r1 := put r n _).
  assert (R : r1 n = T n (fun i => r i * r i)).
  { unfold r1, put. cbn [length]. rewrite Nat.leb_refl. replace (n <? n + 1)%nat with true by (symmetry; apply Nat.ltb_lt; lia).
    cbn [andb]. rewrite Nat.sub_diag. reflexivity. }
  cbn. rewrite R. now rewrite Rmult_1_r.
Qed.
Lemma two_dom k w n D r : k = KSumI Scl \/ k = KProdI Scl -> w = USin \/ w = UCos -> dom D true false (two k w n) r.
Proof.
  intros Hk Hw. unfold two, bi2. assert (A : forall b r, dom D true b (EComp k tt (map sq2 (seq 0 n))) r).
  { intros b r0. apply (rg_dom _ _ sq2_plain); auto. intros i b0 _. cbn. repeat split; auto. }
  revert A. generalize (EComp k tt (map sq2 (seq 0 n))). intros a A. destruct Hw; subst; cbn; repeat split; auto.
Qed.
Lemma two_thm bv ba k w n T dT dw D rho al s (e : E) m : k = KSumI Scl \/ k = KProdI Scl -> w = USin \/ w = UCos ->
  (forall r, den D (EComp k tt (map sq2 (seq 0 n))) r = ([T n (fun i => r i * r i)], r)) ->
  (forall o, (o < n)%nat -> is_derive (fun t => T n (fun i => set1 rho o t i * set1 rho o t i)) (rho o) (dT o)) ->
  is_derive (un_s w) (T n (fun i => rho i * rho i)) dw ->
  session la bv ba (two k w n) D e m -> mreal la (two k w n) m D rho al -> al n = 0 -> al (S n) = 0 ->
  exists e2 m2, @autodiff N e [Fin s] m = Ok (e2, m2, [Fin (T n (fun i => rho i * rho i) ^ 2 + un_s w (T n (fun i => rho i * rho i)))]) /\
    forall o, (o < n)%nat -> m2 0%nat o = Some (Fin (rho o)) /\
      m2 1%nat o = Some (Fin (al o + s * ((2 * T n (fun i => rho i * rho i) + dw) * dT o))).
Proof.
  intros Hk Hw HT HdT Hdw H HM Z1 Z2.
  assert (W : writes (two k w n) = [n; S n] /\ eqw (two k w n) = [n; S n]).
  { unfold two, bi2. destruct Hw; subst; cbn; rewrite ?(rg_nil _ writes) by reflexivity; rewrite ?(rg_nil _ eqw) by reflexivity; auto. }
  destruct W as [HW HE].
  destruct (prog1 la LA bv ba (two k w n) _ D rho al s e m (two_ok k w n Hk Hw) eq_refl (two_val k w n T D HT) (two_dom k w n D rho Hk Hw) H HM) as [e2 [m2 [Q1 Q2]]].
  { intros o Ho. change (In o (writes (two k w n))) in Ho. rewrite HW in Ho. destruct Ho as [X|[X|[]]]; now subst. }
  exists e2, m2. split; [exact Q1|]. intros o Ho. apply Q2.
  - unfold two. cbn [refs]. apply in_or_app. left. right. apply (sq2_refs o 0 n). lia.
  - change (~ In o (eqw (two k w n))). rewrite HE. cbn. lia.
  - pose proof (HdT o Ho) as HD. 
    assert (SM : T n (fun i => set1 rho o (rho o) i * set1 rho o (rho o) i) = T n (fun i => rho i * rho i)) by now rewrite set1_same.
    eapply der_eq; [apply der_plus; [|apply (der_comp (un_s w) (fun t => T n (fun i => set1 rho o t i * set1 rho o t i)) _ dw); [|exact HD]]|].
    + apply (der_comp (fun x => x ^ 2) (fun t => T n (fun i => set1 rho o t i * set1 rho o t i)) (rho o)); [|exact HD].
      auto_derive; [exact I|reflexivity].
    + cbn beta. rewrite SM. exact Hdw.
    + cbn beta. rewrite SM. cbn. ring.
Qed.
Lemma sumb_thm bv ba n D rho al s (e : E) m (S := sumn n (fun i => rho i * rho i)) :
  session la bv ba (sumb_u n) D e m -> mreal la (sumb_u n) m D rho al -> al n = 0 -> al (Datatypes.S n) = 0 ->
  exists e2 m2, @autodiff N e [Fin s] m = Ok (e2, m2, [Fin (S ^ 2 + sin S)]) /\
    forall o, (o < n)%nat -> m2 0%nat o = Some (Fin (rho o)) /\
      m2 1%nat o = Some (Fin (al o + s * ((2 * S + cos S) * (2 * rho o)))).
Proof.
  intros H HM Z1 Z2. apply (two_thm bv ba (KSumI Scl) USin n sumn (fun o => 2 * rho o) (cos S) D rho al s e m); auto.
  - intros r. apply (rg_sum _ _ sq2_plain).
  - intros o Ho. eapply der_eq; [apply der_sumn; intros i Hi; apply der_mult; apply (set1_der rho o i)|].
    cbn beta. rewrite set1_same. rewrite (sumn_ext n _ (fun i => (2 * rho i) * ind o i)); [now apply (sumn_ind n o (fun i => 2 * rho i))|]. intros i Hi. ring.
  - apply is_derive_sin.
Qed.
Lemma prodb_thm bv ba n D rho al s (e : E) m (P := prodn n (fun i => rho i * rho i)) :
  session la bv ba (prodb_u n) D e m -> mreal la (prodb_u n) m D rho al -> al n = 0 -> al (S n) = 0 ->
  exists e2 m2, @autodiff N e [Fin s] m = Ok (e2, m2, [Fin (P ^ 2 + cos P)]) /\
    forall o, (o < n)%nat -> m2 0%nat o = Some (Fin (rho o)) /\
      m2 1%nat o = Some (Fin (al o + s * ((2 * P - sin P) *
        (2 * rho o * prodn n (fun i => if (i =? o)%nat then 1 else rho i * rho i))))).
Proof.
  intros H HM Z1 Z2. apply (two_thm bv ba (KProdI Scl) UCos n prodn _ (- sin P) D rho al s e m); auto.
  - intros r. apply (rg_prod _ _ sq2_plain).
  - intros o Ho. eapply der_eq; [apply (der_prodn n (fun i t => set1 rho o t i * set1 rho o t i) (rho o)); intros i Hi; apply der_mult; apply (set1_der rho o i)|].
    cbn beta. rewrite set1_same. unfold prodx.
    rewrite (sumn_ext n _ (fun i => (2 * rho i * prodn n (fun j => if (j =? i)%nat then 1 else rho j * rho j)) * ind o i)).
    + apply (sumn_ind n o (fun i => 2 * rho i * prodn n (fun j => if (j =? i)%nat then 1 else rho j * rho j)) Ho).
    + intros i Hi. ring.
  - apply is_derive_cos.
Qed.
Lemma range_ok h g n : plain h g -> okexpr la (EComp (KSumI Scl) tt (map h (seq 0 n))).
Proof. intros P. split; [|split]; [apply (rg_wf _ _ P)|apply (rg_di _ _ P)|apply (rg_cfin _ _ P)]; auto. Qed.
Lemma sum_der n (g : nat -> (nat -> R) -> R) rho o d : (forall i, (i < n)%nat -> is_derive (fun t => g i (set1 rho o t)) (rho o) (d i)) ->
  is_derive (fun t => sumn n (fun i => g i (set1 rho o t))) (rho o) (sumn n d).
Proof. intros H. apply der_sumn. exact H. Qed.
Lemma regr_thm bv ba n v v2 D rho al s (e : E) m (z := fun i => v i - rho 0%nat * v2 i) (d := rho 1%nat) :
  session la bv ba (regr_u n v v2) D e m -> mreal la (regr_u n v v2) m D rho al -> (1 <= n)%nat -> d <> 0 ->
  exists e2 m2, @autodiff N e [Fin s] m = Ok (e2, m2, [Fin (sumn n (fun i => - / 2 * (z i / d) ^ 2))]) /\
    m2 1%nat 0%nat = Some (Fin (al 0%nat + s * sumn n (fun i => z i * v2 i / d ^ 2))) /\
    m2 1%nat 1%nat = Some (Fin (al 1%nat + s * sumn n (fun i => z i ^ 2 / d ^ 3))).
Proof.
  intros H HM Hn Hd. pose proof (regr1_plain v v2) as P.
  assert (HV : forall r, val D (regr_u n v v2) r = [sumn n (fun i => regr_g v v2 i r)]).
  { intros r. unfold val, regr_u. now rewrite (rg_sum _ _ P). }
  assert (HD : dom D true false (regr_u n v v2) rho).
  { apply (rg_dom _ _ P); auto. intros i w _. cbn. repeat split; auto; try apply (fin_all [_]); try lia. }
  destruct (prog1 la LA bv ba (regr_u n v v2) _ D rho al s e m (range_ok _ _ n P) eq_refl HV HD H HM) as [e2 [m2 [Q1 Q2]]].
  { intros o Ho. change (In o (writes (regr_u n v v2))) in Ho. unfold regr_u in Ho. cbn [writes] in Ho. rewrite (rg_nil _ writes) in Ho by reflexivity. destruct Ho. }
  assert (RR : forall o, (o < 2)%nat -> In o (refs (regr_u n v v2))).
  { intros o Ho. unfold regr_u. cbn [refs]. destruct n as [|n0]; [lia|]. cbn [seq map flat_map]. apply in_or_app. left. cbn. lia. }
  assert (EE : forall o, ~ In o (eqw (regr_u n v v2))).
  { intros o Ho. unfold regr_u in Ho. cbn [eqw] in Ho. rewrite (rg_nil _ eqw) in Ho by reflexivity. destruct Ho. }
  exists e2, m2. split; [exact Q1|]. split.
  - apply (Q2 0%nat); auto. apply sum_der. intros i Hi. unfold regr_g, z, d. cbn. auto_derive; auto. field. exact Hd.
  - apply (Q2 1%nat); auto. apply sum_der. intros i Hi. unfold regr_g, z, d. cbn. auto_derive; auto. field. exact Hd.
Qed.
Lemma norm_thm bv ba n d v v2 D rho al s (e : E) m (z := fun i => v i - rho 0%nat * v2 i) :
  session la bv ba (norm_u n d v v2) D e m -> mreal la (norm_u n d v v2) m D rho al -> (1 <= n)%nat -> 0 < d ->
  exists e2 m2, @autodiff N e [Fin s] m = Ok (e2, m2, [Fin (sumn n (fun i => - / 2 * (z i / d) ^ 2 - ln d))]) /\
    m2 1%nat 0%nat = Some (Fin (al 0%nat + s * sumn n (fun i => z i * v2 i / d ^ 2))).
Proof.
  intros H HM Hn Hd. assert (Hd0 : d <> 0) by lra. pose proof (norm1_plain d v v2) as P.
  assert (HV : forall r, val D (norm_u n d v v2) r = [sumn n (fun i => norm_g d v v2 i r)]).
  { intros r. unfold val, norm_u. now rewrite (rg_sum _ _ P). }
  assert (HD : dom D true false (norm_u n d v v2) rho).
  { apply (rg_dom _ _ P); auto. intros i w _. cbn. repeat split; auto; try apply (fin_all [_]); try lia. }
  destruct (prog1 la LA bv ba (norm_u n d v v2) _ D rho al s e m (range_ok _ _ n P) eq_refl HV HD H HM) as [e2 [m2 [Q1 Q2]]].
  { intros o Ho. change (In o (writes (norm_u n d v v2))) in Ho. unfold norm_u in Ho. cbn [writes] in Ho. rewrite (rg_nil _ writes) in Ho by reflexivity. destruct Ho. }
  exists e2, m2. split; [exact Q1|]. apply (Q2 0%nat).
  - unfold norm_u. cbn [refs]. destruct n as [|n0]; [lia|]. cbn [seq map flat_map]. apply in_or_app. left. cbn. lia.
  - intros Ho. change (In 0%nat (eqw (norm_u n d v v2))) in Ho. unfold norm_u in Ho. cbn [eqw] in Ho. rewrite (rg_nil _ eqw) in Ho by reflexivity. destruct Ho.
  - apply sum_der. intros i Hi. unfold norm_g, z. cbn. auto_derive; auto. field. exact Hd0.
Qed.

(** ** The benchmark loops *)
Lemma sumr_rep k (x : R) : sumr (repeat x k) = INR k * x.
Proof. induction k; [cbn; ring|]. change (sumr (repeat x (S k))) with (x + sumr (repeat x k)). rewrite IHk, S_INR. ring. Qed.
Lemma map_rep {A B} (f : A -> B) x k : map f (repeat x k) = repeat (f x) k.
Proof. induction k; cbn; congruence. Qed.
Lemma loop1 bv ba (u : U) (f : (nat -> R) -> R) D rho al k (e : E) m : okexpr la u -> size (shape_of u) = 1%nat -> writes u = [] ->
  (forall r, val D u r = [f r]) -> dom D true false u rho -> session la bv ba u D e m -> mreal la u m D rho al ->
  exists e2 m2, run (repeat (OpDiff (N := N) [Fin 1]) k) (e, m) = Ok (e2, m2) /\
    forall o d, In o (refs u) -> is_derive (fun t => f (set1 rho o t)) (rho o) d ->
      m2 0%nat o = Some (Fin (rho o)) /\ m2 1%nat o = Some (Fin (al o + INR k * d)).
Proof.
  intros HK HS HW HV HD H HM.
  destruct (accum_plain la LA bv ba u D false (repeat [1] k) rho e m al HK HW HD) as [e2 [m2 [Q1 Q2]]]; auto.
  { apply Forall_forall. intros l Hl. apply repeat_spec in Hl. subst. split; [now rewrite HS|discriminate]. }
  exists e2, m2. rewrite map_rep in Q1. split; [exact Q1|]. intros o d R HF. destruct (Q2 o R) as [A [g [G1 G2]]]. split; [exact A|].
  rewrite G2. do 3 f_equal. rewrite map_rep, sumr_rep. f_equal. unfold dotp. cbn. rewrite Rplus_0_l, Rmult_1_l.
  apply (der_unique _ _ _ _ (G1 0%nat)). eapply der_ext; [|exact HF]. intros t. cbn beta. now rewrite HV.
Qed.
Lemma regr_loop bv ba n v v2 D rho al k (e : E) m (z := fun i => v i - rho 0%nat * v2 i) (d := rho 1%nat) :
  session la bv ba (regr_u n v v2) D e m -> mreal la (regr_u n v v2) m D rho al -> (1 <= n)%nat -> d <> 0 ->
  exists e2 m2, run (repeat (OpDiff (N := N) [Fin 1]) k) (e, m) = Ok (e2, m2) /\
    m2 1%nat 0%nat = Some (Fin (al 0%nat + INR k * sumn n (fun i => z i * v2 i / d ^ 2))) /\
    m2 1%nat 1%nat = Some (Fin (al 1%nat + INR k * sumn n (fun i => z i ^ 2 / d ^ 3))).
Proof.
  intros H HM Hn Hd. pose proof (regr1_plain v v2) as P.
  assert (HV : forall r, val D (regr_u n v v2) r = [sumn n (fun i => regr_g v v2 i r)]).
  { intros r. unfold val, regr_u. now rewrite (rg_sum _ _ P). }
  assert (HD : dom D true false (regr_u n v v2) rho).
  { apply (rg_dom _ _ P); auto. intros i w _. cbn. repeat split; auto; try apply (fin_all [_]); try lia. }
  assert (W : writes (regr_u n v v2) = []) by (unfold regr_u; cbn [writes]; now rewrite (rg_nil _ writes)).
  destruct (loop1 bv ba (regr_u n v v2) _ D rho al k e m (range_ok _ _ n P) eq_refl W HV HD H HM) as [e2 [m2 [Q1 Q2]]].
  assert (RR : forall o, (o < 2)%nat -> In o (refs (regr_u n v v2))).
  { intros o Ho. unfold regr_u. cbn [refs]. destruct n as [|n0]; [lia|]. cbn [seq map flat_map]. apply in_or_app. left. cbn. lia. }
  exists e2, m2. split; [exact Q1|]. split.
  - apply (Q2 0%nat); auto. apply sum_der. intros i Hi. unfold regr_g, z, d. cbn. auto_derive; auto. field. exact Hd.
  - apply (Q2 1%nat); auto. apply sum_der. intros i Hi. unfold regr_g, z, d. cbn. auto_derive; auto. field. exact Hd.
Qed.
Lemma norm_loop bv ba n d v v2 D rho al k (e : E) m (z := fun i => v i - rho 0%nat * v2 i) :
  session la bv ba (norm_u n d v v2) D e m -> mreal la (norm_u n d v v2) m D rho al -> (1 <= n)%nat -> 0 < d ->
  exists e2 m2, run (repeat (OpDiff (N := N) [Fin 1]) k) (e, m) = Ok (e2, m2) /\
    m2 1%nat 0%nat = Some (Fin (al 0%nat + INR k * sumn n (fun i => z i * v2 i / d ^ 2))).
Proof.
  intros H HM Hn Hd. assert (Hd0 : d <> 0) by lra. pose proof (norm1_plain d v v2) as P.
  assert (HV : forall r, val D (norm_u n d v v2) r = [sumn n (fun i => norm_g d v v2 i r)]).
  { intros r. unfold val, norm_u. now rewrite (rg_sum _ _ P). }
  assert (HD : dom D true false (norm_u n d v v2) rho).
  { apply (rg_dom _ _ P); auto. intros i w _. cbn. repeat split; auto; try apply (fin_all [_]); try lia. }
  assert (W : writes (norm_u n d v v2) = []) by (unfold norm_u; cbn [writes]; now rewrite (rg_nil _ writes)).
  destruct (loop1 bv ba (norm_u n d v v2) _ D rho al k e m (range_ok _ _ n P) eq_refl W HV HD H HM) as [e2 [m2 [Q1 Q2]]].
  exists e2, m2. split; [exact Q1|]. apply (Q2 0%nat).
  - unfold norm_u. cbn [refs]. destruct n as [|n0]; [lia|]. cbn [seq map flat_map]. apply in_or_app. left. cbn. lia.
  - apply sum_der. intros i Hi. unfold norm_g, z. cbn. auto_derive; auto. field. exact Hd0.
Qed.
Lemma range_ctor h g n : plain h g -> (forall i, ctor_ok (N := N) (h i) = true) -> ctor_ok (N := N) (EComp (KSumI Scl) tt (map h (seq 0 n))) = true.
Proof.
  intros _ H. cbn [ctor_ok]. rewrite ?andb_true_r. rewrite ?andb_true_iff. repeat split; auto; apply forallb_forall; intros x Hx; apply in_map_iff in Hx; destruct Hx as [i [<- _]]; apply H.
Qed.
End B.
