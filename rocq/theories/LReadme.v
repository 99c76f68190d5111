(** Values and gradients of the programs of Readme.v. *)
From Coq Require Import Reals Lra.
From Coquelicot Require Import Coquelicot.
From Verif Require Import Base Num Expr Node Stat Machine Wf Pure LBase LKind LSimDef LMem LSimF LSimB LBind Session LUser
  Tape LTape LState LNrm LTop XR Spec Nudge RSess Grad LReal LScal LKA LKB LKM LVal LNudge LGrad LDiff LIndep LGrd LNGrad LPh Train LTrain Forward FSpec LFwd Progs LProgs Readme.
Open Scope R_scope.
Set Bullet Behavior "Strict Subproofs".

(** ** Values *)
Lemma main_val D r : val D main_u r = [exp ((r 0%nat * sin (r 1%nat) + r 0%nat * r 1%nat) * (r 0%nat * sin (r 1%nat)))].
Proof. reflexivity. Qed.
Lemma el_tab n f k : (k < n)%nat -> el (tab n f) k = f k.
Proof. intros H. unfold el, tab. rewrite (nth_indep _ 0 (f 0%nat)) by (now rewrite map_length, seq_length). now rewrite map_nth, seq_nth. Qed.
Lemma el_var (r : nat -> R) o n k : (k < n)%nat -> el (map r (seq o n)) k = r (o + k)%nat.
Proof. intros H. unfold el. rewrite (nth_indep _ 0 (r 0%nat)) by (now rewrite map_length, seq_length). now rewrite map_nth, seq_nth. Qed.
Lemma tab_ext {X} n (f g : nat -> X) : (forall k, (k < n)%nat -> f k = g k) -> tab n f = tab n g.
Proof. intros H. apply map_ext_in. intros k Hk. apply in_seq in Hk. apply H. lia. Qed.
Lemma vsz n : size (Sh Vec n 1) = n. Proof. unfold size. cbn. lia. Qed.
Lemma den_un D u e r : den D (un1 u e) r = (tab (size (shape_of e)) (fun i => un_s u (el (fst (den D e r)) i)), snd (den D e r)).
Proof. unfold un1. now rewrite den_comp, dens_cons. Qed.
Lemma den_bi D b x y r : den D (bi2 b x y) r = (tab (size (kshape (KBin b) [shape_of x; shape_of y]))
  (fun i => bi_s b (ent (shape_of x) (fst (den D x r)) i) (ent (shape_of y) (fst (den D y (snd (den D x r)))) i)), snd (den D y (snd (den D x r)))).
Proof. unfold bi2. now rewrite den_comp, !dens_cons. Qed.
Lemma den_sum D e r : den D (EComp KSumE tt [e]) r = ([sumn (size (shape_of e)) (el (fst (den D e r)))], snd (den D e r)).
Proof. now rewrite den_comp, dens_cons. Qed.
Lemma den_vn D n o r : den D (vn n o) r = (map r (seq o n), r).
Proof. unfold vn. cbn [den]. now rewrite vsz. Qed.
Lemma den_sv D o r : den D (sv o) r = ([r o], r). Proof. reflexivity. Qed.
Lemma kb_v b n : kshape (KBin b) [Sh Vec n 1; Sh Vec n 1] = Sh Vec n 1.
Proof. unfold kshape. cbn [nth_sh nth kind rows cols max_sk]. now rewrite !Nat.max_id. Qed.
Lemma kb_s b n : (0 < n)%nat -> size (kshape (KBin b) [scl; Sh Vec n 1]) = n.
Proof. intros H. unfold kshape. cbn [nth_sh nth kind rows cols max_sk scl]. unfold size. cbn [rows cols]. lia. Qed.
Lemma kb_t b n : (0 < n)%nat -> size (kshape (KBin b) [Sh Vec n 1; scl]) = n.
Proof. intros H. unfold kshape. cbn [nth_sh nth kind rows cols max_sk scl]. unfold size. cbn [rows cols]. lia. Qed.
Lemma kb_s' b n : (0 < n)%nat -> kshape (KBin b) [scl; Sh Vec n 1] = Sh Vec n 1.
Proof. intros H. unfold kshape. cbn [nth_sh nth kind rows cols max_sk scl]. f_equal; lia. Qed.
Lemma sc_val n D r : (0 < n)%nat -> val D (sc_u n) r = tab n (fun k => sin (r 0%nat) + cos (r (S k))).
Proof.
  intros Hn. unfold sc_u, val. rewrite den_bi, !den_un, den_sv. cbn [fst snd]. rewrite den_vn. cbn [fst snd].
  change (shape_of (un1 USin (sv 0))) with scl. change (shape_of (un1 UCos (vn n 1))) with (Sh Vec n 1). change (shape_of (sv 0)) with scl. change (shape_of (vn n 1)) with (Sh Vec n 1).
  rewrite kb_s, vsz by exact Hn. apply tab_ext. intros k Hk. unfold ent. cbn [is_scl sk_eqb kind scl]. rewrite !el_tab, el_var by (exact Hk || (cbn; lia)). reflexivity.
Qed.
Lemma np_val n D r : (0 < n)%nat ->
  val D (np_u n) r = tab n (fun k => sin (r 0%nat) + cos (r (S k)) + sumn n (fun j => cos (r (S j)))).
Proof.
  intros Hn. change (np_u n) with (bi2 BAdd (sc_u n) (EComp KSumE tt [un1 UCos (vn n 1)])). unfold val. rewrite den_bi.
  assert (SS : shape_of (sc_u n) = Sh Vec n 1) by (now apply (kb_s' BAdd)).
  change (fst (den D (sc_u n) r)) with (val D (sc_u n) r). rewrite sc_val by exact Hn. rewrite SS. change (shape_of (EComp KSumE tt [un1 UCos (vn n 1)])) with scl.
  rewrite kb_t by exact Hn. cbn [fst]. apply tab_ext. intros k Hk.
  replace (snd (den D (sc_u n) r)) with r by (unfold sc_u; rewrite den_bi, !den_un, den_sv; cbn [fst snd]; now rewrite den_vn).
  rewrite den_sum, den_un, den_vn. cbn [fst snd]. change (shape_of (un1 UCos (vn n 1))) with (Sh Vec n 1). change (shape_of (vn n 1)) with (Sh Vec n 1).
  rewrite vsz. unfold ent. cbn [is_scl sk_eqb kind scl]. rewrite el_tab by exact Hk. cbn [bi_s]. change (el [?x] 0) with x. f_equal.
  apply sumn_ext. intros j Hj. rewrite el_tab, el_var by exact Hj. reflexivity.
Qed.
Lemma put_in (r : nat -> R) o l k : (k < length l)%nat -> put r o l (o + k)%nat = el l k.
Proof.
  intros H. unfold put. replace (o <=? o + k)%nat with true by (symmetry; apply Nat.leb_le; lia).
  replace (o + k <? o + length l)%nat with true by (symmetry; apply Nat.ltb_lt; lia). cbn [andb]. f_equal. lia.
Qed.
Lemma put_lo (r : nat -> R) o l i : (i < o)%nat -> put r o l i = r i.
Proof. intros H. unfold put. replace (o <=? i)%nat with false by (symmetry; apply Nat.leb_gt; lia). reflexivity. Qed.
Lemma tab_len {X} n (f : nat -> X) : length (tab n f) = n.
Proof. unfold tab. now rewrite map_length, seq_length. Qed.
Lemma ph_val n D r : (0 < n)%nat -> val D (ph_u n) r = val D (np_u n) r.
Proof.
  intros Hn. rewrite np_val by exact Hn. unfold ph_u, val. rewrite den_glue, den_eq, den_un, den_vn. cbn [fst snd].
  change (shape_of (vn n 1)) with (Sh Vec n 1). rewrite vsz. set (c := tab n _). set (r1 := put r (S n) c).
  assert (LC : length c = n) by apply tab_len.
  assert (R0 : forall i, (i < S n)%nat -> r1 i = r i) by (intros; now apply put_lo).
  assert (R1 : forall k, (k < n)%nat -> r1 (S n + k)%nat = cos (r (S k))).
  { intros k Hk. unfold r1. rewrite put_in by (now rewrite LC). unfold c. rewrite el_tab, el_var by exact Hk. reflexivity. }
  rewrite den_bi. cbn [fst]. assert (SS : shape_of (bi2 BAdd (un1 USin (sv 0)) (vn n (S n))) = Sh Vec n 1) by (now apply (kb_s' BAdd)).
  rewrite SS. change (shape_of (EComp KSumE tt [vn n (S n)])) with scl. rewrite kb_t by exact Hn. apply tab_ext. intros k Hk.
  rewrite den_bi, den_un, den_sv. cbn [fst snd]. rewrite den_vn. cbn [fst snd]. rewrite den_sum, den_vn. cbn [fst snd].
  change (shape_of (un1 USin (sv 0))) with scl. change (shape_of (vn n (S n))) with (Sh Vec n 1). change (shape_of (sv 0)) with scl. rewrite kb_s, vsz by exact Hn.
  unfold ent. cbn [is_scl sk_eqb kind scl]. rewrite el_tab by exact Hk. rewrite el_var by exact Hk. rewrite R1 by exact Hk.
  rewrite el_tab by (cbn; lia). change (el [?x] 0) with x. rewrite R0 by lia. cbn [bi_s un_s]. f_equal. apply sumn_ext. intros j Hj. rewrite el_var by exact Hj. now apply R1.
Qed.
(** w of the third program *)
Definition wf (p q : nat) (r : nat -> R) (i : nat) : R := sumn q (fun j => r (oM p q i j) * r (o1 p q + j)%nat) + r (o2 p q + i)%nat.
Lemma wr_val p q D r : val D (wr_u p q) r = [sumn p (wf p q r) * sumn p (fun i => wf p q r i * r (o2 p q + i)%nat)].
Proof.
  unfold wr_u, val. rewrite den_glue, !den_eq. cbn [fst snd]. set (a := bi2 BAdd _ _).
  assert (A : den D a r = (tab p (wf p q r), r)).
  { unfold a. rewrite den_bi, den_comp, !dens_cons. unfold val, fin_env. cbn [fst snd den]. rewrite den_vn. cbn [fst snd]. rewrite den_vn. cbn [fst snd].
    change (shape_of (EComp KDot tt [EVar (Sh Mat p q) 0; vn q (o1 p q)])) with (Sh Vec p 1). change (shape_of (vn p (o2 p q))) with (Sh Vec p 1).
    rewrite kb_v, vsz. f_equal. apply tab_ext. intros i Hi. unfold ent. cbn [is_scl sk_eqb kind].
    cbn [kden map shape_of nth_sh nth rows cols vn].
    replace i with (0 * p + i)%nat at 1 by lia. rewrite el_mkm by lia. rewrite el_var by exact Hi. cbn [bi_s]. unfold wf. f_equal. apply sumn_ext. intros j Hj.
    unfold m_of. rewrite el_var; [rewrite el_var by lia; cbn [Nat.add Nat.mul]; reflexivity|]. unfold size. cbn [rows cols]. nia. }
  rewrite A. cbn [fst snd]. set (r1 := put r (oW p q) _).
  assert (R1 : forall i, (i < p)%nat -> r1 (oW p q + i)%nat = wf p q r i).
  { intros i Hi. unfold r1. rewrite put_in by (now rewrite tab_len). now rewrite el_tab. }
  assert (R2 : forall i, (i < p)%nat -> r1 (o2 p q + i)%nat = r (o2 p q + i)%nat).
  { intros i Hi. unfold r1. rewrite put_lo; [reflexivity|]. unfold oW, o2. lia. }
  rewrite den_bi, !den_sum, den_vn. cbn [fst snd]. rewrite den_bi, den_vn. cbn [fst snd]. rewrite den_vn. cbn [fst snd].
  change (shape_of (bi2 BMul (vn p (oW p q)) (vn p (o2 p q)))) with (kshape (KBin BMul) [Sh Vec p 1; Sh Vec p 1]).
  change (shape_of (vn p (oW p q))) with (Sh Vec p 1). change (shape_of (vn p (o2 p q))) with (Sh Vec p 1). rewrite kb_v, vsz.
  change (shape_of (EComp KSumE tt ?x)) with scl. change (size (kshape (KBin BMul) [scl; scl])) with 1%nat. cbn [tab map seq]. f_equal.
  unfold ent. cbn [is_scl sk_eqb kind scl]. change (el [?x] 0) with x. cbn [bi_s]. f_equal; apply sumn_ext; intros i Hi.
  - rewrite el_var by exact Hi. now apply R1.
  - rewrite el_tab by exact Hi. cbn [bi_s]. rewrite !el_var by exact Hi. now rewrite R1, R2.
Qed.

(** ** Gradients *)
Section Readme.
Variable la : linalg xr.
Hypothesis LA : la_ok la.
Notation N := (XR la).
Notation E := (expr N (ann N)).
Notation U := (expr N unit).
Lemma progv bv ba (u : U) n (f : (nat -> R) -> nat -> R) D rho al s (e : E) m : okexpr la u -> size (shape_of u) = n ->
  (forall r, val D u r = tab n (f r)) -> dom D true false u rho -> session la bv ba u D e m -> mreal la u m D rho al ->
  (forall o, In o (writes u) -> al o = 0) -> length s = n ->
  exists e2 m2, @autodiff N e (map Fin s) m = Ok (e2, m2, map Fin (tab n (f rho))) /\
    forall o g, In o (refs u) -> ~ In o (eqw u) -> (forall k, (k < n)%nat -> is_derive (fun t => f (set1 rho o t) k) (rho o) (g k)) ->
      m2 0%nat o = Some (Fin (rho o)) /\ m2 1%nat o = Some (Fin (al o + sumn n (fun k => el s k * g k))).
Proof.
  intros HK HS HV HD H HM HZ HL.
  destruct (grad_full la LA bv ba u D e m rho al false s HK H HM HD) as [e2 [m2 [al' [Q1 [_ [Q3 [_ [Q5 [_ [_ Q8]]]]]]]]]]; auto.
  { now rewrite HS. }
  { discriminate. }
  exists e2, m2. rewrite HV in Q1. split; [exact Q1|]. intros o g R W HF. split; [now apply Q5|]. rewrite (Q3 o R).
  destruct (Q8 o R W) as [g' [G1 ->]]. do 3 f_equal. unfold dotp. rewrite HL. apply sumn_ext. intros k Hk. f_equal.
  apply (der_unique _ _ _ _ (G1 k)). eapply der_ext; [|exact (HF k Hk)]. intros t. cbn beta. now rewrite HV, el_tab.
Qed.
Lemma main_ok : okexpr la main_u.
Proof. split; [reflexivity|split; [reflexivity|cbn; tauto]]. Qed.
Lemma nin_t x l : ~ In x l -> negb (existsb (Nat.eqb x) l) = true.
Proof. intros H. apply negb_true_iff. destruct (existsb _ _) eqn:Q; auto. apply inw_true in Q. contradiction. Qed.
Lemma dj_t l l' : (forall x, In x l -> ~ In x l') -> forallb (fun x => negb (existsb (Nat.eqb x) l')) l = true.
Proof. intros H. apply forallb_forall. intros x Hx. apply nin_t. auto. Qed.
Lemma sh_eqb s : shape_eqb s s = true.
Proof. unfold shape_eqb. rewrite !Nat.eqb_refl. now destruct (kind s). Qed.
Lemma sc_ok n : (0 < n)%nat -> okexpr la (sc_u n).
Proof. intros Hn. destruct n as [|n]; [lia|]. split; [reflexivity|split; [reflexivity|cbn; tauto]]. Qed.
Lemma np_ok n : (0 < n)%nat -> okexpr la (np_u n).
Proof. intros Hn. destruct n as [|n]; [lia|]. split; [reflexivity|split; [reflexivity|cbn; tauto]]. Qed.
Lemma ph_ok n : (0 < n)%nat -> okexpr la (ph_u n).
Proof.
  intros Hn. split; [|split; [|cbn; tauto]].
  - destruct n as [|n]; [lia|]. cbn. now rewrite sh_eqb.
  - unfold ph_u, bi2, un1, vn. cbn [disc forallb later refs writes eqw flat_map app shape_of cells map andb]. unfold dj.
    rewrite !andb_true_r, !andb_true_iff. cbn [forallb]. repeat split. apply dj_t. intros x. unfold cells. rewrite vsz, app_nil_r, !in_seq. lia.
Qed.
Lemma wr_ok p q : okexpr la (wr_u p q).
Proof.
  split; [|split; [|cbn; tauto]].
  - cbn. now rewrite Nat.max_id, Nat.eqb_refl, !sh_eqb.
  - unfold wr_u, bi2, vn; cbn. rewrite !andb_true_iff. repeat split; try apply nin_t; try apply dj_t; intros x; intros; rewrite ?in_app_iff in *; cbn [In] in *; rewrite ?in_seq in *; unfold oW, oR, o1, o2 in *; lia.
Qed.

Definition mv (x y : R) : R := exp ((x * sin y + x * y) * (x * sin y)).
Definition mx (x y : R) : R := mv x y * (2 * x * (sin y + y) * sin y).
Definition my (x y : R) : R := mv x y * (x * x * ((cos y + 1) * sin y + (sin y + y) * cos y)).
Lemma main_thm bv ba D rho al s (e : E) m : session la bv ba main_u D e m -> mreal la main_u m D rho al -> (forall o, In o [2; 3; 4]%nat -> al o = 0) ->
  exists e2 m2, @autodiff N e [Fin s] m = Ok (e2, m2, [Fin (mv (rho 0%nat) (rho 1%nat))]) /\
    m2 1%nat 0%nat = Some (Fin (al 0%nat + s * mx (rho 0%nat) (rho 1%nat))) /\ m2 1%nat 1%nat = Some (Fin (al 1%nat + s * my (rho 0%nat) (rho 1%nat))).
Proof.
  intros H HM HZ.
  destruct (prog1 la LA bv ba main_u (fun r => mv (r 0%nat) (r 1%nat)) D rho al s e m main_ok eq_refl (main_val D) ltac:(cbn; repeat split; auto) H HM HZ) as [e2 [m2 [Q1 Q2]]].
  exists e2, m2. split; [exact Q1|]. split; apply Q2; cbn; try tauto; try lia; unfold mx, my, mv; cbn; auto_derive; auto; ring.
Qed.
(** Forward mode computes the same derivatives. *)
Lemma main_fwd (r d : nat -> R) :
  let x := r 0%nat in let y := r 1%nat in
  stm_run N (main_f : stm N) (fun j => Dual (N := N) (Fin (r j)) (Fin (d j))) 4%nat =
    Dual (N := N) (Fin (mv x y)) (Fin (d 0%nat * mx x y + d 1%nat * my x y)).
Proof. intros x y. subst x y. unfold main_f. cbn. unfold mx, my, mv. generalize (r 0%nat) (r 1%nat). intros x y. apply f_equal. apply (f_equal Fin). ring. Qed.
Lemma cos_set1 r o i : is_derive (fun t => cos (set1 r o t i)) (r o) (- sin (r i) * ind o i).
Proof.
  eapply der_eq; [apply (der_comp cos (fun t => set1 r o t i)); [apply is_derive_cos|apply (set1_der r o i)]|]. cbn beta. rewrite set1_same. reflexivity.
Qed.
Lemma sc_thm bv ba n D rho al s (e : E) m : (0 < n)%nat -> length s = n -> session la bv ba (sc_u n) D e m -> mreal la (sc_u n) m D rho al ->
  exists e2 m2, @autodiff N e (map Fin s) m = Ok (e2, m2, map Fin (tab n (fun k => sin (rho 0%nat) + cos (rho (S k))))) /\
    m2 1%nat 0%nat = Some (Fin (al 0%nat + sumn n (el s) * cos (rho 0%nat))) /\
    forall k, (k < n)%nat -> m2 1%nat (S k) = Some (Fin (al (S k) - el s k * sin (rho (S k)))).
Proof.
  intros Hn HL H HM.
  assert (SZ : size (shape_of (sc_u n)) = n) by (exact (kb_s BAdd n Hn)).
  destruct (progv bv ba (sc_u n) n (fun r k => sin (r 0%nat) + cos (r (S k))) D rho al s e m (sc_ok n Hn) SZ (fun r => sc_val n D r Hn) ltac:(cbn; repeat split; auto) H HM ltac:(intros o []) HL)
    as [e2 [m2 [Q1 Q2]]].
  assert (RF : forall k, (k <= n)%nat -> In k (refs (sc_u n))).
  { intros k Hk. unfold sc_u, bi2, un1, vn, sv. cbn [refs flat_map app]. unfold cells. rewrite vsz, !app_nil_r. destruct k; [now left|]. apply in_or_app. right. apply in_seq. lia. }
  exists e2, m2. split; [exact Q1|]. split.
  - destruct (Q2 0%nat (fun _ => cos (rho 0%nat)) (RF 0%nat ltac:(lia)) ltac:(intros [])) as [_ ->].
    + intros k Hk. cbn. auto_derive; auto. ring.
    + now rewrite sumn_r.
  - intros k Hk. destruct (Q2 (S k) (fun j => - sin (rho (S k)) * ind k j) (RF (S k) ltac:(lia)) ltac:(intros [])) as [_ ->].
    + intros j Hj. apply (der_ext (fun t => sin (rho 0%nat) + cos (set1 rho (S k) t (S j)))); [reflexivity|].
      eapply der_eq; [apply (der_plus (fun _ => sin (rho 0%nat)) (fun t => cos (set1 rho (S k) t (S j)))); [apply der_const|apply cos_set1]|]. unfold ind. change (S j =? S k)%nat with (j =? k)%nat. destruct (Nat.eqb_spec j k) as [->|]; ring.
    + do 2 f_equal. rewrite (sumn_ext n _ (fun j => (el s j * - sin (rho (S k))) * ind k j)) by (intros; ring). rewrite sumn_ind by exact Hk. ring.
Qed.
Definition npf (n : nat) (r : nat -> R) (k : nat) : R := sin (r 0%nat) + cos (r (S k)) + sumn n (fun j => cos (r (S j))).
Lemma npf_der0 n r k : is_derive (fun t => npf n (set1 r 0 t) k) (r 0%nat) (cos (r 0%nat)).
Proof.
  apply (der_ext (fun t => sin t + (cos (r (S k)) + sumn n (fun j => cos (r (S j)))))).
  - intros t. unfold npf. cbn [set1 Nat.eqb]. change (set1 r 0 t 0%nat) with t. rewrite Rplus_assoc. reflexivity.
  - auto_derive; auto. ring.
Qed.
Lemma npf_derS n r i k : (i < n)%nat -> is_derive (fun t => npf n (set1 r (S i) t) k) (r (S i)) (- sin (r (S i)) * (ind i k + 1)).
Proof.
  intros Hi. apply (der_ext (fun t => (sin (r 0%nat) + cos (set1 r (S i) t (S k))) + sumn n (fun j => cos (set1 r (S i) t (S j))))); [reflexivity|].
  eapply der_eq; [apply (der_plus (fun t => sin (r 0%nat) + cos (set1 r (S i) t (S k))) (fun t => sumn n (fun j => cos (set1 r (S i) t (S j)))));
    [apply (der_plus (fun _ => sin (r 0%nat)) (fun t => cos (set1 r (S i) t (S k)))); [apply der_const|apply cos_set1]|
     apply (der_sumn n (fun j t => cos (set1 r (S i) t (S j)))); intros j Hj; apply cos_set1]|].
  cbn beta. change (forall j, ind (S i) (S j) = ind i j) with (forall j, ind (S i) (S j) = ind i j).
  rewrite (sumn_ext n _ (fun j => - sin (r (S j)) * ind i j)) by reflexivity. rewrite sumn_ind by exact Hi. unfold ind. change (S k =? S i)%nat with (k =? i)%nat.
  destruct (Nat.eqb_spec k i) as [->|]; ring.
Qed.
Lemma np_gen bv ba (u : U) n D rho al s (e : E) m : (0 < n)%nat -> length s = n -> okexpr la u -> size (shape_of u) = n ->
  (forall r, val D u r = tab n (npf n r)) -> dom D true false u rho -> (forall o, In o (writes u) -> al o = 0) ->
  (forall k, (k <= n)%nat -> In k (refs u) /\ ~ In k (eqw u)) ->
  session la bv ba u D e m -> mreal la u m D rho al ->
  exists e2 m2, @autodiff N e (map Fin s) m = Ok (e2, m2, map Fin (tab n (npf n rho))) /\
    m2 1%nat 0%nat = Some (Fin (al 0%nat + sumn n (el s) * cos (rho 0%nat))) /\
    forall k, (k < n)%nat -> m2 1%nat (S k) = Some (Fin (al (S k) - (el s k + sumn n (el s)) * sin (rho (S k)))).
Proof.
  intros Hn HL HK SZ HV HD HZ RF H HM.
  destruct (progv bv ba u n (npf n) D rho al s e m HK SZ HV HD H HM HZ HL) as [e2 [m2 [Q1 Q2]]].
  exists e2, m2. split; [exact Q1|]. split.
  - destruct (Q2 0%nat (fun _ => cos (rho 0%nat)) (proj1 (RF 0%nat ltac:(lia))) (proj2 (RF 0%nat ltac:(lia)))) as [_ ->].
    + intros k Hk. apply npf_der0.
    + now rewrite sumn_r.
  - intros k Hk. destruct (Q2 (S k) (fun j => - sin (rho (S k)) * (ind k j + 1)) (proj1 (RF (S k) ltac:(lia))) (proj2 (RF (S k) ltac:(lia)))) as [_ ->].
    + intros j Hj. now apply npf_derS.
    + do 2 f_equal. rewrite (sumn_ext n _ (fun j => - sin (rho (S k)) * (el s j * ind k j) + - sin (rho (S k)) * el s j)) by (intros; ring).
      rewrite sumn_plus, !sumn_l, sumn_ind by exact Hk. ring.
Qed.
Lemma np_thm bv ba n D rho al s (e : E) m : (0 < n)%nat -> length s = n -> session la bv ba (np_u n) D e m -> mreal la (np_u n) m D rho al ->
  exists e2 m2, @autodiff N e (map Fin s) m = Ok (e2, m2, map Fin (tab n (npf n rho))) /\
    m2 1%nat 0%nat = Some (Fin (al 0%nat + sumn n (el s) * cos (rho 0%nat))) /\
    forall k, (k < n)%nat -> m2 1%nat (S k) = Some (Fin (al (S k) - (el s k + sumn n (el s)) * sin (rho (S k)))).
Proof.
  intros Hn HL H HM. apply (np_gen bv ba (np_u n) n D rho al s e m); auto.
  - now apply np_ok.
  - unfold np_u. destruct n as [|n]; [lia|]. cbn. lia.
  - intros r. now apply np_val.
  - cbn. repeat split; auto.
  - intros o [].
  - intros k Hk. split; [|intros []]. unfold np_u, bi2, un1, vn, sv. cbn [refs flat_map app]. unfold cells. rewrite vsz. rewrite !in_app_iff, !in_seq. cbn. lia.
Qed.
Lemma ph_thm bv ba n D rho al s (e : E) m : (0 < n)%nat -> length s = n -> (forall k, (k < n)%nat -> al (S n + k)%nat = 0) ->
  session la bv ba (ph_u n) D e m -> mreal la (ph_u n) m D rho al ->
  exists e2 m2, @autodiff N e (map Fin s) m = Ok (e2, m2, map Fin (tab n (npf n rho))) /\
    m2 1%nat 0%nat = Some (Fin (al 0%nat + sumn n (el s) * cos (rho 0%nat))) /\
    forall k, (k < n)%nat -> m2 1%nat (S k) = Some (Fin (al (S k) - (el s k + sumn n (el s)) * sin (rho (S k)))).
Proof.
  intros Hn HL HZ H HM.
  assert (EW : forall o, In o (writes (ph_u n)) \/ In o (eqw (ph_u n)) -> (S n <= o < S n + n)%nat).
  { intros o. unfold ph_u, bi2, un1, vn, sv. cbn [writes eqw flat_map app]. unfold cells. rewrite vsz, !app_nil_r, in_seq. lia. }
  apply (np_gen bv ba (ph_u n) n D rho al s e m); auto.
  - now apply ph_ok.
  - unfold ph_u. destruct n as [|n]; [lia|]. cbn. lia.
  - intros r. rewrite ph_val by exact Hn. now apply np_val.
  - cbn. repeat split; auto.
  - intros o Ho. specialize (EW o (or_introl Ho)). replace o with (S n + (o - S n))%nat by lia. apply HZ. lia.
  - intros k Hk. split; [|intros Ho; specialize (EW k (or_intror Ho)); lia].
    unfold ph_u, bi2, un1, vn, sv. cbn [refs flat_map app]. unfold cells. rewrite vsz. rewrite !in_app_iff, !in_seq. cbn. lia.
Qed.

(** The third program. *)
Lemma ind_add o b i : ind (b + o) (b + i) = ind o i.
Proof. unfold ind. destruct (Nat.eqb_spec (b + i) (b + o)), (Nat.eqb_spec i o); auto; lia. Qed.
Lemma ind_ne o i : o <> i -> ind o i = 0.
Proof. intros H. unfold ind. destruct (Nat.eqb_spec i o); congruence. Qed.
Lemma oM_inj p q i j i' j' : (i < p)%nat -> (i' < p)%nat -> oM p q i j = oM p q i' j' -> i = i' /\ j = j'.
Proof. unfold oM. intros. assert (j = j') by nia. subst. lia. Qed.
Definition dw (p q : nat) (r : nat -> R) (o i : nat) : R :=
  sumn q (fun j => ind o (oM p q i j) * r (o1 p q + j)%nat + r (oM p q i j) * ind o (o1 p q + j)) + ind o (o2 p q + i).
Lemma wf_der p q r o i : is_derive (fun t => wf p q (set1 r o t) i) (r o) (dw p q r o i).
Proof.
  unfold wf, dw. eapply der_eq; [apply (der_plus (fun t => sumn q (fun j => set1 r o t (oM p q i j) * set1 r o t (o1 p q + j)%nat)) (fun t => set1 r o t (o2 p q + i)%nat));
    [apply (der_sumn q (fun j t => set1 r o t (oM p q i j) * set1 r o t (o1 p q + j)%nat)); intros j Hj;
       apply (der_mult (fun t => set1 r o t (oM p q i j)) (fun t => set1 r o t (o1 p q + j)%nat)); apply set1_der|apply set1_der]|].
  cbn beta. rewrite set1_same. reflexivity.
Qed.
Definition wA (p q : nat) (r : nat -> R) : R := sumn p (wf p q r).
Definition wB (p q : nat) (r : nat -> R) : R := sumn p (fun i => wf p q r i * r (o2 p q + i)%nat).
Definition wc (p q : nat) (r : nat -> R) (i : nat) : R := wB p q r + wA p q r * r (o2 p q + i)%nat.
Lemma wr_der p q r o : is_derive (fun t => wA p q (set1 r o t) * wB p q (set1 r o t)) (r o)
  (sumn p (fun i => dw p q r o i * wc p q r i) + wA p q r * sumn p (fun i => wf p q r i * ind o (o2 p q + i))).
Proof.
  eapply der_eq; [apply (der_mult (fun t => wA p q (set1 r o t)) (fun t => wB p q (set1 r o t)));
    [apply (der_sumn p (fun i t => wf p q (set1 r o t) i)); intros i Hi; apply wf_der|
     apply (der_sumn p (fun i t => wf p q (set1 r o t) i * set1 r o t (o2 p q + i)%nat)); intros i Hi;
     apply (der_mult (fun t => wf p q (set1 r o t) i) (fun t => set1 r o t (o2 p q + i)%nat)); [apply wf_der|apply set1_der]]|].
  cbn beta. rewrite !set1_same. unfold wc. rewrite sumn_plus.
  rewrite (sumn_ext p (fun i => dw p q r o i * (_ + _)) (fun i => dw p q r o i * wB p q r + wA p q r * (dw p q r o i * r (o2 p q + i)%nat))) by (intros; ring).
  rewrite (sumn_plus p (fun i => dw p q r o i * wB p q r)), (sumn_r p (wB p q r) (dw p q r o)), (sumn_l p (wA p q r) (fun i => dw p q r o i * r (o2 p q + i)%nat)). change (fun i => dw p q r o i) with (dw p q r o). ring.
Qed.
Lemma wr_dM p q r i j : (i < p)%nat -> (j < q)%nat ->
  sumn p (fun k => dw p q r (oM p q i j) k * wc p q r k) + wA p q r * sumn p (fun k => wf p q r k * ind (oM p q i j) (o2 p q + k)) = wc p q r i * r (o1 p q + j)%nat.
Proof.
  intros Hi Hj. assert (B : (oM p q i j < o1 p q)%nat) by (unfold oM, o1; nia).
  rewrite (sumn_0 p (fun k => wf p q r k * _)) by (intros k Hk; rewrite ind_ne by (unfold o1, o2 in *; lia); ring).
  rewrite (sumn_one p i); [|exact Hi|].
  - unfold dw. rewrite (sumn_one q j); [|exact Hj|].
    + rewrite !(ind_ne (oM p q i j) (_ + _)) by (unfold o1, o2 in *; lia). unfold ind. rewrite Nat.eqb_refl. ring.
    + intros j' Hj' Hn. rewrite !ind_ne; [ring| |]; [unfold o1 in *; lia|]. intros X. apply Hn. symmetry. now apply (oM_inj p q i j i j').
  - intros k Hk Hn. unfold dw. rewrite (ind_ne (oM p q i j) (o2 p q + k)) by (unfold o1, o2 in *; lia). rewrite sumn_0; [ring|].
    intros j' Hj'. rewrite !ind_ne; [ring| |]; [unfold o1 in *; lia|]. intros X. apply Hn. symmetry. now apply (oM_inj p q i j k j').
Qed.
Lemma wr_d1 p q r j : (j < q)%nat ->
  sumn p (fun k => dw p q r (o1 p q + j) k * wc p q r k) + wA p q r * sumn p (fun k => wf p q r k * ind (o1 p q + j) (o2 p q + k)) =
  sumn p (fun i => r (oM p q i j) * wc p q r i).
Proof.
  intros Hj. rewrite (sumn_0 p (fun k => wf p q r k * _)) by (intros k Hk; rewrite ind_ne by (unfold o1, o2 in *; lia); ring).
  rewrite Rmult_0_r, Rplus_0_r. apply sumn_ext. intros i Hi. f_equal. unfold dw. rewrite (ind_ne (o1 p q + j) (o2 p q + i)) by (unfold o1, o2; lia).
  rewrite Rplus_0_r. rewrite (sumn_ext q _ (fun k => r (oM p q i k) * ind j k)).
  - now apply (sumn_ind q j (fun k => r (oM p q i k))).
  - intros k Hk. rewrite ind_add, (ind_ne (o1 p q + j) (oM p q i k)) by (unfold o1, oM; nia). ring.
Qed.
Lemma wr_d2 p q r i : (i < p)%nat ->
  sumn p (fun k => dw p q r (o2 p q + i) k * wc p q r k) + wA p q r * sumn p (fun k => wf p q r k * ind (o2 p q + i) (o2 p q + k)) =
  wc p q r i + wA p q r * wf p q r i.
Proof.
  intros Hi. f_equal; [|f_equal].
  - rewrite (sumn_ext p _ (fun k => wc p q r k * ind i k)); [now apply sumn_ind|]. intros k Hk. unfold dw. rewrite ind_add, sumn_0; [ring|].
    intros j Hj. rewrite !ind_ne; [ring| |]; unfold o1, o2, oM; nia.
  - rewrite (sumn_ext p _ (fun k => wf p q r k * ind i k)) by (intros; now rewrite ind_add). now apply sumn_ind.
Qed.
Lemma wr_thm bv ba p q D rho al s (e : E) m : (forall k, (k <= p)%nat -> al (oW p q + k)%nat = 0) ->
  session la bv ba (wr_u p q) D e m -> mreal la (wr_u p q) m D rho al ->
  exists e2 m2, @autodiff N e [Fin s] m = Ok (e2, m2, [Fin (wA p q rho * wB p q rho)]) /\
    (forall i j, (i < p)%nat -> (j < q)%nat -> m2 1%nat (oM p q i j) = Some (Fin (al (oM p q i j) + s * (wc p q rho i * rho (o1 p q + j)%nat)))) /\
    (forall j, (j < q)%nat -> m2 1%nat (o1 p q + j)%nat = Some (Fin (al (o1 p q + j)%nat + s * sumn p (fun i => rho (oM p q i j) * wc p q rho i)))) /\
    forall i, (i < p)%nat -> m2 1%nat (o2 p q + i)%nat = Some (Fin (al (o2 p q + i)%nat + s * (wc p q rho i + wA p q rho * wf p q rho i))).
Proof.
  intros HZ H HM.
  assert (EW : forall o, In o (writes (wr_u p q)) \/ In o (eqw (wr_u p q)) -> (oW p q <= o <= oW p q + p)%nat).
  { intros o. unfold wr_u, bi2, vn. cbn [writes eqw flat_map app]. unfold cells. rewrite vsz, !app_nil_r, in_app_iff, in_seq. cbn. unfold oW, oR. lia. }
  assert (RF : forall o, (o < oW p q)%nat -> In o (refs (wr_u p q))).
  { intros o Ho. unfold wr_u, bi2, vn. cbn [refs flat_map app]. unfold cells. rewrite !vsz, !app_nil_r. rewrite !in_app_iff, !in_seq. unfold oW, oR, o1, o2 in *. unfold size. cbn [rows cols]. lia. }
  destruct (prog1 la LA bv ba (wr_u p q) (fun r => wA p q r * wB p q r) D rho al s e m (wr_ok p q) eq_refl (wr_val p q D) ltac:(cbn; repeat split; auto) H HM) as [e2 [m2 [Q1 Q2]]].
  { intros o Ho. specialize (EW o (or_introl Ho)). replace o with (oW p q + (o - oW p q))%nat by lia. apply HZ. lia. }
  assert (Q : forall o, (o < oW p q)%nat -> m2 1%nat o = Some (Fin (al o + s * (sumn p (fun i => dw p q rho o i * wc p q rho i) + wA p q rho * sumn p (fun i => wf p q rho i * ind o (o2 p q + i)))))).
  { intros o Ho. apply Q2; [now apply RF|intros X; specialize (EW o (or_intror X)); lia|apply wr_der]. }
  exists e2, m2. split; [exact Q1|]. split; [|split].
  - intros i j Hi Hj. rewrite Q by (unfold oM, oW; nia). now rewrite wr_dM.
  - intros j Hj. rewrite Q by (unfold o1, oW; lia). now rewrite wr_d1.
  - intros i Hi. rewrite Q by (unfold o2, oW; lia). now rewrite wr_d2.
Qed.
End Readme.
