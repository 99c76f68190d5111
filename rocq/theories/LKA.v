(** Kinds of nodes: the value computed is the specified one (KV) and the seeds
    sent to the operands are the transposed derivative (KA). *)
From Coq Require Import Reals Lra Psatz.
From Coquelicot Require Import Coquelicot.
From Verif Require Import Base Num Expr Node Stat Machine Wf Pure LBase LKind LState XR Spec LReal LScal.
Open Scope R_scope.
Set Bullet Behavior "Strict Subproofs".

Definition ip (a b : list R) : R := sumn (length a) (fun j => el a j * el b j).
Definition FF (vs : list (list R)) : list (list xr) := map (map Fin) vs.
Definition lensR (vs : list (list R)) (ss : list shape) : Prop := Forall2 (fun v s => length v = size s) vs ss.
(** Seeds of a broadcast operand. *)
Definition agg (s : shape) (n : nat) (g : nat -> R) : list R := if is_scl s then [sumn n g] else tab n g.

Lemma lensR_nth vs ss i : lensR vs ss -> (i < length ss)%nat -> length (nth i vs []) = size (nth_sh ss i).
Proof.
  intros H. revert i. induction H; intros i Hi; cbn in *; [lia|]. destruct i; auto. apply IHForall2. lia.
Qed.
Lemma lensR_len vs ss : lensR vs ss -> length vs = length ss.
Proof. induction 1; cbn; auto. Qed.
Lemma lens_FF la vs ss : lensR vs ss -> lens (XR la) (FF vs) ss.
Proof. induction 1; constructor; auto. now rewrite map_length. Qed.
Lemma ip_agg s n g dv : (is_scl s = false -> size s = n) -> ip (agg s n g) dv = sumn n (fun i => g i * ent s dv i).
Proof.
  intros H. unfold ip, agg, ent. destruct (is_scl s); cbn [length].
  - change (0 + sumn n g * el dv 0 = sumn n (fun i => g i * el dv 0)). rewrite sumn_r. lra.
  - rewrite tab_len. apply sumn_ext. intros i Hi. now rewrite el_tab.
Qed.
Lemma agg_len s n g : (is_scl s = true -> size s = 1%nat) -> (is_scl s = false -> size s = n) -> length (agg s n g) = size s.
Proof. intros H1 H2. unfold agg. destruct (is_scl s); cbn; [now rewrite H1|]. rewrite tab_len. symmetry; auto. Qed.
Lemma agg_1 s g : [g 0%nat] = agg s 1 g.
Proof. unfold agg. destruct (is_scl s); cbn; auto. f_equal. lra. Qed.
Lemma agg_ext s n f g : (forall i, (i < n)%nat -> f i = g i) -> agg s n f = agg s n g.
Proof. intros H. unfold agg. destruct (is_scl s); [f_equal; now apply sumn_ext|now apply tab_ext]. Qed.
Lemma scl_size s : shape_ok s = true -> is_scl s = true -> size s = 1%nat.
Proof.
  destruct s as [k r c]. unfold shape_ok, is_scl, size. cbn. destruct k; try discriminate.
  rewrite andb_true_iff, !Nat.eqb_eq. intros [-> ->] _. reflexivity.
Qed.

Section K.
Variable la : linalg xr.
Notation N := (XR la).
Ltac nx := change (carrier (XR la)) with xr in *.

Lemma arg_fin vs i : arg N (FF vs) i = map Fin (nth i vs []).
Proof. unfold arg, FF. exact (map_nth (map Fin) vs [] i). Qed.

(** State of a log-density node: what its constructor left. *)
Definition SGk (k : kd) (cs : list bool) (ss : list shape) (s : sst N) (vs : list (list R)) : Prop :=
  match k with
  | KStat q => exists gs s0, stat_init N q cs ss gs = Ok s0 /\
      (forall i, nth i cs false = true -> nth i gs (Ok []) = Ok (map Fin (nth i vs []))) /\
      stn q cs s = stn q cs s0
  | _ => True
  end.

Definition KV (k : kd) : Prop := forall cs fl ss s u vs,
  kshape_ok k ss = true -> kdim_ok k ss = true -> lensR vs ss ->
  SGk k cs ss s vs -> kdom false u k cs fl ss vs ->
  snd (kf k cs ss s (FF vs)) = map Fin (kden k ss vs).

Definition seeds (k : kd) cs ss (s : sst N) (V : list (list N)) (seed : list R) (i : nat) : option (list xr) :=
  let '(s', fv) := kf k cs ss s V in
  kseed k cs ss s' (map Fin seed) (vsel k V)
        (match kpre k i (vsel k V) fv with None => fv | Some f => f end) i.

(** Operand values along a curve. *)
Record curves (cs fl : list bool) (ss : list shape) (vs : R -> list (list R)) (dvs : list (list R)) (t0 : R) : Prop := {
  cv_len : forall t, lensR (vs t) ss;
  cv_dlen : lensR dvs ss;
  cv_der : forall i j, is_derive (fun t => el (nth i (vs t) []) j) t0 (el (nth i dvs []) j);
  cv_cst : forall i, nth i cs false = true -> forall t, nth i (vs t) [] = nth i (vs t0) [];
  cv_flat : forall i, nth i fl false = true -> locally t0 (fun t => nth i (vs t) [] = nth i (vs t0) [])
}.

Definition KA (k : kd) : Prop := forall cs fl ss s u vs dvs t0,
  kshape_ok k ss = true -> kdim_ok k ss = true -> curves cs fl ss vs dvs t0 ->
  SGk k cs ss s (vs t0) -> kdom true u k cs fl ss (vs t0) ->
  exists dv, length dv = size (kshape k ss) /\
    (forall j, is_derive (fun t => el (kden k ss (vs t)) j) t0 (el dv j)) /\
    forall seed, length seed = size (kshape k ss) ->
      (u = true -> forall j, (j < length seed)%nat -> el seed j = 1) ->
      exists sd : nat -> option (list R),
        (forall i, (i < length ss)%nat -> seeds k cs ss s (FF (vs t0)) seed i = option_map (map Fin) (sd i)) /\
        (forall i l, (i < length ss)%nat -> sd i = Some l -> length l = size (nth_sh ss i) /\
           (u = true -> ones k ss i = true -> forall j, (j < length l)%nat -> el l j = 1)) /\
        ip seed dv = sumn (length ss)
          (fun i => match sd i with Some l => ip l (nth i dvs []) | None => 0 end).

Lemma der_ent cs fl ss vs dvs t0 i j s : curves cs fl ss vs dvs t0 ->
  is_derive (fun t => ent s (nth i (vs t) []) j) t0 (ent s (nth i dvs []) j).
Proof. intros H. unfold ent. apply (cv_der _ _ _ _ _ _ H). Qed.

(** A table of differentiable entries. *)
Lemma der_tab n (F : R -> nat -> R) t0 g : (forall i, (i < n)%nat -> is_derive (fun t => F t i) t0 (g i)) ->
  forall j, is_derive (fun t => el (tab n (F t)) j) t0 (el (tab n g) j).
Proof.
  intros H j. destruct (Nat.lt_ge_cases j n) as [L|L].
  - rewrite el_tab by auto. apply der_ext with (f := fun t => F t j); [intros; now rewrite el_tab|auto].
  - rewrite el_out by now rewrite tab_len.
    apply der_ext with (f := fun t => 0); [intros; rewrite el_out; auto; now rewrite tab_len|apply der_const].
Qed.
Lemma der_one (F : R -> R) t0 g : is_derive F t0 g -> forall j, is_derive (fun t => el [F t] j) t0 (el [g] j).
Proof.
  intros H [|j]; [exact H|]. apply der_ext with (f := fun t => 0); [now destruct j|]. destruct j; apply der_const.
Qed.

Ltac one_op ss := let H := fresh in intros H; destruct ss as [|a0 [|]]; unfold kshape_ok in H; cbn in H; rewrite ?andb_false_r in H; try discriminate H.
Ltac lens1 HL := rewrite ?arg_fin; nx; rewrite ?(fin_list _ _ HL).

(** *** Unary functors *)
Lemma KV_un w : KV (KUn w).
Proof.
  intros cs fl ss s u vs HS HD HL _ HDom.
  assert (L0 : length (nth 0 vs []) = size (nth_sh ss 0)).
  { apply lensR_nth; auto. destruct ss; [discriminate HS|cbn; lia]. }
  unfold kf. cbn [kfwd snd]. rewrite arg_fin. nx. rewrite (fin_list _ _ L0), tab_map. cbn [kden]. rewrite tab_map.
  apply tab_ext. intros i Hi. apply un_fin. apply (HDom i Hi).
Qed.
Lemma KA_un w : KA (KUn w).
Proof.
  intros cs fl ss s u vs dvs t0 HS HD HC HG HDom.
  assert (L1 : (0 < length ss)%nat) by (destruct ss; [discriminate HS|cbn; lia]).
  assert (L2 : length ss = 1%nat) by (revert HS; one_op ss; auto).
  pose proof (lensR_nth _ _ 0 (cv_len _ _ _ _ _ _ HC t0) L1) as L0.
  set (x := nth 0 (vs t0) []) in *. set (dx := nth 0 dvs []).
  exists (tab (size (nth_sh ss 0)) (fun i => un_d w (el x i) * el dx i)).
  cbn [kshape]. split; [apply tab_len|]. split.
  - apply der_tab. intros i Hi. apply (der_comp (un_s w) (fun t => el (nth 0 (vs t) []) i)).
    + apply un_der. apply (HDom i Hi).
    + apply (cv_der _ _ _ _ _ _ HC).
  - intros seed LS HU. exists (fun _ => Some (tab (size (nth_sh ss 0)) (fun i => el seed i * un_d w (el x i)))).
    split; [|split].
    + intros i Hi. unfold seeds, kf. cbn [kfwd kseed kpre vsel kget option_map]. f_equal.
      rewrite !arg_fin. fold x. nx. rewrite (fin_list _ _ L0), (fin_list _ _ LS), !tab_map, tab_map3.
      apply tab_ext. intros j Hj. rewrite un_fin by (apply un_dom_tf, (HDom j Hj)). apply un_bfin. apply (HDom j Hj).
    + intros i l Hi E. inversion E; subst l. rewrite tab_len. split; [|discriminate 2].
      assert (i = 0)%nat by lia. now subst i.
    + rewrite L2. cbn [sumn]. rewrite Rplus_0_l. unfold ip. rewrite LS, tab_len.
      apply sumn_ext. intros i Hi. rewrite !el_tab by auto. fold dx. ring.
Qed.

(** *** Powers *)
Lemma KV_pow z : KV (KPow z).
Proof.
  intros cs fl ss s u vs HS HD HL _ HDom.
  assert (L0 : length (nth 0 vs []) = size (nth_sh ss 0)).
  { apply lensR_nth; auto. destruct ss; [discriminate HS|cbn; lia]. }
  unfold kf. cbn [kfwd snd]. rewrite arg_fin. nx. rewrite (fin_list _ _ L0), tab_map. cbn [kden]. rewrite tab_map.
  apply tab_ext. intros i Hi. apply pow_fin. intros Hz. apply (HDom Hz i Hi).
Qed.
Lemma KA_pow z : KA (KPow z).
Proof.
  intros cs fl ss s u vs dvs t0 HS HD HC HG HDom.
  assert (L1 : (0 < length ss)%nat) by (destruct ss; [discriminate HS|cbn; lia]).
  assert (L2 : length ss = 1%nat) by (revert HS; one_op ss; auto).
  pose proof (lensR_nth _ _ 0 (cv_len _ _ _ _ _ _ HC t0) L1) as L0.
  set (x := nth 0 (vs t0) []) in *. set (dx := nth 0 dvs []).
  exists (tab (size (nth_sh ss 0)) (fun i => pow_d z (el x i) * el dx i)).
  cbn [kshape]. split; [apply tab_len|]. split.
  - apply der_tab. intros i Hi. apply (der_comp (fun y => powerRZ y z) (fun t => el (nth 0 (vs t) []) i)).
    + apply pow_der. intros Hz. apply (HDom Hz i Hi).
    + apply (cv_der _ _ _ _ _ _ HC).
  - intros seed LS HU. exists (fun _ => Some (tab (size (nth_sh ss 0)) (fun i => el seed i * pow_d z (el x i)))).
    split; [|split].
    + intros i Hi. unfold seeds, kf. cbn [kfwd kseed kpre vsel kget].
      destruct (Z.eqb_spec z 0) as [->|Z0].
      { cbn. f_equal. rewrite tab_map. rewrite (tab_repeat (Fin 0)). apply tab_ext. intros. f_equal. ring. }
      destruct (Z.eqb_spec z 1) as [->|Z1].
      { cbn. f_equal. rewrite tab_map. nx. rewrite (fin_list _ _ LS). apply tab_ext. intros. f_equal. change (Pos.to_nat 1) with 1%nat. cbn. ring. }
      cbn [option_map]. f_equal.
      unfold vsel. cbn [kget]. rewrite (proj2 (Z.eqb_neq _ _) Z0), (proj2 (Z.eqb_neq _ _) Z1). cbn [orb negb].
      rewrite !arg_fin. fold x. nx. rewrite (fin_list _ _ L0), (fin_list _ _ LS), !tab_map, tab_map3.
      apply tab_ext. intros j Hj. assert (HX : (z < 0)%Z -> el x j <> 0) by (intros Hz; apply (HDom Hz j Hj)).
      rewrite pow_fin by auto. now apply pow_bfin.
    + intros i l Hi E. inversion E; subst l. rewrite tab_len. split; [|discriminate 2].
      assert (i = 0)%nat by lia. now subst i.
    + rewrite L2. cbn [sumn]. rewrite Rplus_0_l. unfold ip. rewrite LS, tab_len.
      apply sumn_ext. intros i Hi. rewrite !el_tab by auto. fold dx. ring.
Qed.

(** *** Sum, product, squared norm of the elements *)
Lemma KV_sumE : KV KSumE.
Proof.
  intros cs fl ss s u vs HS HD HL _ HDom.
  assert (L0 : length (nth 0 vs []) = size (nth_sh ss 0)).
  { apply lensR_nth; auto. destruct ss; [discriminate HS|cbn; lia]. }
  unfold kf. cbn [kfwd snd kden map]. f_equal. rewrite arg_fin. nx. rewrite (fin_list _ _ L0). apply (xsum_fin _ _).
Qed.
Lemma KV_prodE : KV KProdE.
Proof.
  intros cs fl ss s u vs HS HD HL _ HDom.
  assert (L0 : length (nth 0 vs []) = size (nth_sh ss 0)).
  { apply lensR_nth; auto. destruct ss; [discriminate HS|cbn; lia]. }
  unfold kf. cbn [kfwd snd kden map]. f_equal. rewrite arg_fin. nx. rewrite (fin_list _ _ L0). apply (xprod_fin _ _).
Qed.
Lemma KV_norm : KV KNorm.
Proof.
  intros cs fl ss s u vs HS HD HL _ HDom.
  assert (L0 : length (nth 0 vs []) = size (nth_sh ss 0)).
  { apply lensR_nth; auto. destruct ss; [discriminate HS|cbn; lia]. }
  unfold kf. cbn [kfwd snd kden map]. f_equal. rewrite arg_fin. unfold sqnorm. nx. rewrite (fin_list _ _ L0), tab_map.
  etransitivity; [apply (xsum_fin _ (fun i => el (nth 0 vs []) i * el (nth 0 vs []) i))|].
  f_equal. apply sumn_ext. intros. ring.
Qed.
Lemma KA_sumE : KA KSumE.
Proof.
  intros cs fl ss s u vs dvs t0 HS HD HC HG HDom.
  assert (L1 : (0 < length ss)%nat) by (destruct ss; [discriminate HS|cbn; lia]).
  assert (L2 : length ss = 1%nat) by (revert HS; one_op ss; auto).
  set (dx := nth 0 dvs []).
  exists [sumn (size (nth_sh ss 0)) (el dx)]. cbn [kshape]. split; [reflexivity|]. split.
  - apply der_one. apply (der_sumn _ (fun i t => el (nth 0 (vs t) []) i)). intros. apply (cv_der _ _ _ _ _ _ HC).
  - intros seed LS HU. exists (fun _ => Some (tab (size (nth_sh ss 0)) (fun i => el seed 0))).
    change (size scl) with 1%nat in LS.
    split; [|split].
    + intros i Hi. unfold seeds, kf. cbn [kfwd kseed kpre vsel kget option_map]. f_equal.
      destruct seed as [|s0 [|]]; try discriminate LS. cbn [hd0 hd map]. rewrite tab_map. apply (tab_repeat (Fin s0)).
    + intros i l Hi E. inversion E; subst l. rewrite tab_len.
      assert (i = 0)%nat by lia. subst i. split; auto. intros Hu _ j Hj. rewrite el_tab by auto. apply HU; auto; lia.
    + rewrite L2. cbn [sumn]. rewrite Rplus_0_l. unfold ip. rewrite LS, tab_len. cbn [sumn].
      rewrite Rplus_0_l. unfold el at 2. cbn [nth]. rewrite <- sumn_l.
      apply sumn_ext. intros i Hi. rewrite !el_tab by auto. fold dx. ring.
Qed.
Lemma KA_norm : KA KNorm.
Proof.
  intros cs fl ss s u vs dvs t0 HS HD HC HG HDom.
  assert (L1 : (0 < length ss)%nat) by (destruct ss; [discriminate HS|cbn; lia]).
  assert (L2 : length ss = 1%nat) by (revert HS; one_op ss; auto).
  pose proof (lensR_nth _ _ 0 (cv_len _ _ _ _ _ _ HC t0) L1) as L0.
  set (x := nth 0 (vs t0) []) in *. set (dx := nth 0 dvs []).
  exists [sumn (size (nth_sh ss 0)) (fun i => 2 * el x i * el dx i)]. cbn [kshape]. split; [reflexivity|]. split.
  - apply der_one. apply (der_sumn _ (fun i t => el (nth 0 (vs t) []) i ^ 2)). intros i Hi.
    eapply der_eq; [apply (is_derive_pow (fun t => el (nth 0 (vs t) []) i) 2 t0 (el dx i)), (cv_der _ _ _ _ _ _ HC)|].
    cbn. fold x. ring.
  - intros seed LS HU. exists (fun _ => Some (tab (size (nth_sh ss 0)) (fun i => el seed 0 * 2 * el x i))).
    change (size scl) with 1%nat in LS.
    split; [|split].
    + intros i Hi. unfold seeds, kf. cbn [kfwd kseed kpre vsel kget option_map]. f_equal.
      destruct seed as [|s0 [|]]; try discriminate LS. cbn [hd0 hd map]. rewrite arg_fin. fold x. nx.
      rewrite (fin_list _ _ L0), !tab_map. reflexivity.
    + intros i l Hi E. inversion E; subst l. rewrite tab_len.
      assert (i = 0)%nat by lia. subst i. split; auto. discriminate 2.
    + rewrite L2. cbn [sumn]. rewrite Rplus_0_l. unfold ip. rewrite LS, tab_len. cbn [sumn].
      rewrite Rplus_0_l. unfold el at 2. cbn [nth]. rewrite <- sumn_l.
      apply sumn_ext. intros i Hi. rewrite !el_tab by auto. fold dx. ring.
Qed.
(** The product of the others, computed two ways (prod.hpp:188-212). *)
Lemma others_prod n f i a : (i < n)%nat ->
  fold_left xmul (others N (tab n (fun j => Fin (f j))) i) (Fin a) = Fin (a * prodx n i f).
Proof.
  intros Hi. unfold others.
  assert (E1 : firstn i (tab n (fun j => Fin (f j))) = tab i (fun j => Fin (f j))).
  { unfold tab. rewrite firstn_map. f_equal. replace n with (i + (n - i))%nat by lia. rewrite seq_app, firstn_app.
    rewrite seq_length, Nat.sub_diag. cbn. rewrite app_nil_r. rewrite firstn_all2; auto. now rewrite seq_length. }
  assert (E2 : skipn (S i) (tab n (fun j => Fin (f j))) = tab (n - S i) (fun j => Fin (f (S i + j)%nat))).
  { unfold tab at 1. rewrite <- map_r_seq with (r := fun j => Fin (f j)).
    rewrite skipn_map. f_equal. replace n with (S i + (n - S i))%nat at 1 by lia. rewrite seq_app, skipn_app.
    rewrite seq_length, Nat.sub_diag. cbn [Nat.add]. rewrite skipn_all2 by now rewrite seq_length. reflexivity. }
  nx. rewrite E1, E2, fold_left_app, fold_mul, fold_mul. f_equal. rewrite Rmult_assoc. f_equal.
  unfold prodx. replace n with (S i + (n - S i))%nat at 2 by lia.
  assert (HA : forall p q g, prodn (p + q) g = prodn p g * prodn q (fun j => g (p + j)%nat)).
  { intros p q g. induction q; cbn; [rewrite Nat.add_0_r; lra|]. rewrite Nat.add_succ_r. cbn. rewrite IHq. lra. }
  rewrite HA. f_equal.
  - cbn [prodn]. rewrite Nat.eqb_refl, Rmult_1_r. apply prodn_ext. intros j Hj. destruct (Nat.eqb_spec j i); [lia|auto].
  - apply prodn_ext. intros j Hj. destruct (Nat.eqb_spec (S i + j) i); [lia|auto].
Qed.
Lemma KA_prodE : KA KProdE.
Proof.
  intros cs fl ss s u vs dvs t0 HS HD HC HG HDom.
  assert (L1 : (0 < length ss)%nat) by (destruct ss; [discriminate HS|cbn; lia]).
  assert (L2 : length ss = 1%nat) by (revert HS; one_op ss; auto).
  pose proof (lensR_nth _ _ 0 (cv_len _ _ _ _ _ _ HC t0) L1) as L0.
  set (x := nth 0 (vs t0) []) in *. set (dx := nth 0 dvs []). set (n := size (nth_sh ss 0)) in *.
  exists [sumn n (fun i => el dx i * prodx n i (el x))]. cbn [kshape]. split; [reflexivity|]. split.
  - apply der_one. apply (der_prodn _ (fun i t => el (nth 0 (vs t) []) i)). intros. apply (cv_der _ _ _ _ _ _ HC).
  - intros seed LS HU. exists (fun _ => Some (tab n (fun i => el seed 0 * prodx n i (el x)))).
    change (size scl) with 1%nat in LS.
    split; [|split].
    + intros i Hi. unfold seeds, kf. cbn [kfwd kseed kpre vsel kget option_map]. f_equal.
      destruct seed as [|s0 [|]]; try discriminate LS. cbn [hd0 hd map]. rewrite arg_fin. fold x. nx.
      rewrite (fin_list _ _ L0), tab_map. 
      assert (EP : nprod N (tab n (fun i => Fin (el x i))) = Fin (prodn n (el x))) by apply xprod_fin.
      nx. rewrite EP. unfold prodE_b. rewrite tab_len. apply tab_ext. intros j Hj. cbv zeta.
      change (n0 N) with (Fin 0). nx. rewrite tab_nth by auto. cbn [neqb XR xeqb].
      unfold reqb. destruct (Req_EM_T (el x j) 0) as [E|E].
      * apply others_prod. auto.
      * cbn [ndiv nmul XR]. nx. rewrite xdiv_fin by auto. cbn. f_equal. change (el [s0] 0) with s0.
        rewrite <- (prodx_mul n j (el x)) by auto. field. auto.
    + intros i l Hi E. inversion E; subst l. rewrite tab_len.
      assert (i = 0)%nat by lia. subst i. split; auto. discriminate 2.
    + rewrite L2. cbn [sumn]. rewrite Rplus_0_l. unfold ip. rewrite LS, tab_len. cbn [sumn].
      rewrite Rplus_0_l. unfold el at 2. cbn [nth]. rewrite <- sumn_l.
      apply sumn_ext. intros i Hi. rewrite !el_tab by auto. fold dx. ring.
Qed.

(** *** Transpose *)
Lemma mt_fin r c x : length x = (r * c)%nat -> mt N r c (map Fin x) = map Fin (mkm c r (fun i j => m_of r x j i)).
Proof.
  intros L. unfold mt, mget. rewrite mkm_map. apply mkm_ext. intros i j Hi Hj. unfold m_of.
  change (n0 N) with (Fin 0). nx. rewrite nth_fin; auto. rewrite L. nia.
Qed.
Lemma der_mkm r c (F : R -> nat -> nat -> R) t0 g :
  (forall i j, (i < r)%nat -> (j < c)%nat -> is_derive (fun t => F t i j) t0 (g i j)) ->
  forall j, is_derive (fun t => el (mkm r c (F t)) j) t0 (el (mkm r c g) j).
Proof.
  intros H k. destruct (Nat.lt_ge_cases k (r * c)) as [L|L].
  - assert (R0 : r <> 0%nat) by nia. pose proof (Nat.div_mod k r R0) as HD. rewrite (Nat.mul_comm r) in HD.
    assert (H1 : (k mod r < r)%nat) by now apply Nat.mod_upper_bound.
    assert (H2 : (k / r < c)%nat) by (apply Nat.div_lt_upper_bound; nia).
    rewrite HD. unfold el at 2. rewrite mkm_nth by auto.
    apply der_ext with (f := fun t => F t (k mod r)%nat (k / r)%nat); [intros; unfold el; now rewrite mkm_nth|auto].
  - rewrite el_out by (rewrite mkm_length; lia).
    apply der_ext with (f := fun t => 0); [intros; rewrite el_out; auto; rewrite mkm_length; lia|apply der_const].
Qed.
Lemma ip_mkm r c l (dv : list R) g : length l = (r * c)%nat ->
  (forall i j, (i < r)%nat -> (j < c)%nat -> el dv (j * r + i) = g i j) ->
  ip l dv = sumn c (fun j => sumn r (fun i => m_of r l i j * g i j)).
Proof.
  intros L H. unfold ip. rewrite L, sumn_mat. apply sumn_ext. intros j Hj. apply sumn_ext. intros i Hi.
  unfold m_of. now rewrite H.
Qed.
Lemma KV_trans : KV KTrans.
Proof.
  intros cs fl ss s u vs HS HD HL _ HDom.
  assert (L0 : length (nth 0 vs []) = size (nth_sh ss 0)).
  { apply lensR_nth; auto. destruct ss; [discriminate HS|cbn; lia]. }
  unfold kf. cbn [kfwd snd]. rewrite arg_fin. apply mt_fin. exact L0.
Qed.
Lemma KA_trans : KA KTrans.
Proof.
  intros cs fl ss s u vs dvs t0 HS HD HC HG HDom.
  assert (L1 : (0 < length ss)%nat) by (destruct ss; [discriminate HS|cbn; lia]).
  assert (L2 : length ss = 1%nat) by (revert HS; one_op ss; auto).
  set (dx := nth 0 dvs []). set (r := rows (nth_sh ss 0)). set (c := cols (nth_sh ss 0)).
  exists (mkm c r (fun i j => m_of r dx j i)).
  cbn [kshape]. unfold size. cbn [rows cols]. fold r c. split; [apply mkm_length|]. split.
  - apply der_mkm. intros i j Hi Hj. unfold m_of. apply (cv_der _ _ _ _ _ _ HC).
  - intros seed LS HU. exists (fun _ => Some (mkm r c (fun i j => m_of c seed j i))).
    split; [|split].
    + intros i Hi. unfold seeds, kf. cbn [kfwd kseed kpre vsel kget option_map]. f_equal. fold r c.
      now apply mt_fin.
    + intros i l Hi E. inversion E; subst l. rewrite mkm_length. split; [|discriminate 2].
      assert (i = 0)%nat by lia. subst i. reflexivity.
    + rewrite L2. cbn [sumn]. rewrite Rplus_0_l.
      rewrite (ip_mkm c r seed _ (fun i j => m_of r dx j i)) by (auto; intros; unfold el; now rewrite mkm_nth).
      rewrite (ip_mkm r c _ dx (fun i j => m_of r dx i j)) by (auto; apply mkm_length).
      rewrite sumn_swap. apply sumn_ext. intros j Hj. apply sumn_ext. intros i Hi.
      unfold m_of at 3. unfold el. rewrite mkm_nth by auto. reflexivity.
Qed.
End K.
