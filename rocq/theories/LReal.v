(** Sums, tables and derivatives; the finite part of the exact arithmetic. *)
From Coq Require Import Reals Lra Psatz.
From Coquelicot Require Import Coquelicot.
From Verif Require Import Base Num Expr Node Stat Machine XR Spec.
Open Scope R_scope.
Set Bullet Behavior "Strict Subproofs".

(** ** Sums *)
Lemma sumn_ext n f g : (forall i, (i < n)%nat -> f i = g i) -> sumn n f = sumn n g.
Proof. induction n; cbn; intros H; auto. rewrite IHn, H by (intros; try apply H; lia). reflexivity. Qed.
Lemma sumn_0 n f : (forall i, (i < n)%nat -> f i = 0) -> sumn n f = 0.
Proof. induction n; cbn; intros H; auto. rewrite IHn, H by (intros; try apply H; lia). lra. Qed.
Lemma sumn_plus n f g : sumn n (fun i => f i + g i) = sumn n f + sumn n g.
Proof. induction n; cbn; lra. Qed.
Lemma sumn_minus n f g : sumn n (fun i => f i - g i) = sumn n f - sumn n g.
Proof. induction n; cbn; lra. Qed.
Lemma sumn_opp n f : sumn n (fun i => - f i) = - sumn n f.
Proof. induction n; cbn; lra. Qed.
Lemma sumn_l n c f : sumn n (fun i => c * f i) = c * sumn n f.
Proof. induction n; cbn; lra. Qed.
Lemma sumn_r n c f : sumn n (fun i => f i * c) = sumn n f * c.
Proof. induction n; cbn; lra. Qed.
Lemma sumn_const n c : sumn n (fun _ => c) = INR n * c.
Proof. induction n; [cbn; lra|]. cbn [sumn]. rewrite IHn, S_INR. lra. Qed.
Lemma sumn_swap n m f : sumn n (fun i => sumn m (fun j => f i j)) = sumn m (fun j => sumn n (fun i => f i j)).
Proof.
  induction n; cbn; [symmetry; now apply sumn_0|]. rewrite IHn, <- sumn_plus. reflexivity.
Qed.
Lemma sumn_one n k f : (k < n)%nat -> (forall i, (i < n)%nat -> i <> k -> f i = 0) -> sumn n f = f k.
Proof.
  induction n; intros HK H; [lia|]. cbn. destruct (Nat.eq_dec k n) as [->|].
  - rewrite sumn_0; [lra|]. intros; apply H; lia.
  - rewrite IHn by (try lia; intros; apply H; lia). rewrite (H n) by lia. lra.
Qed.
Lemma sumn_app n m f : sumn (n + m) f = sumn n f + sumn m (fun i => f (n + i)%nat).
Proof.
  induction m; cbn; [rewrite Nat.add_0_r; lra|]. rewrite Nat.add_succ_r. cbn. rewrite IHm. lra.
Qed.
Lemma sumn_S n f : sumn (S n) f = f 0%nat + sumn n (fun i => f (S i)).
Proof. change (S n) with (1 + n)%nat. rewrite sumn_app. cbn. lra. Qed.
(** Column-major double sums. *)
Lemma sumn_mat r c f : sumn (r * c) f = sumn c (fun j => sumn r (fun i => f (j * r + i)%nat)).
Proof.
  induction c; cbn; [now rewrite Nat.mul_0_r|].
  rewrite Nat.mul_succ_r, sumn_app, IHc. f_equal. apply sumn_ext. intros. f_equal. lia.
Qed.
Lemma prodn_ext n f g : (forall i, (i < n)%nat -> f i = g i) -> prodn n f = prodn n g.
Proof. induction n; cbn; intros H; auto. rewrite IHn, H by (intros; try apply H; lia). reflexivity. Qed.
Lemma prodn_0 n f k : (k < n)%nat -> f k = 0 -> prodn n f = 0.
Proof.
  induction n; intros HK H; [lia|]. cbn. destruct (Nat.eq_dec k n) as [->|]; [rewrite H; lra|].
  rewrite IHn by (auto; lia). lra.
Qed.
(** Product without factor [k]. *)
Definition prodx (n k : nat) (f : nat -> R) : R := prodn n (fun j => if (j =? k)%nat then 1 else f j).
Lemma prodx_out n k f : (n <= k)%nat -> prodx n k f = prodn n f.
Proof. intros H. apply prodn_ext. intros i Hi. destruct (Nat.eqb_spec i k); [lia|auto]. Qed.
Lemma prodx_mul n k f : (k < n)%nat -> prodx n k f * f k = prodn n f.
Proof.
  unfold prodx. induction n; intros H; [lia|]. cbn [prodn]. destruct (Nat.eqb_spec n k) as [->|].
  - fold (prodx k k f). rewrite prodx_out by lia. lra.
  - rewrite <- IHn by lia. lra.
Qed.

(** ** Tables *)
Section Tab.
Context {X Y Z W V : Type}.
Lemma tab_len n (f : nat -> X) : length (tab n f) = n.
Proof. unfold tab. now rewrite map_length, seq_length. Qed.
Lemma tab_nth n (f : nat -> X) i d : (i < n)%nat -> nth i (tab n f) d = f i.
Proof.
  intros H. unfold tab. rewrite nth_indep with (d' := f 0%nat) by (rewrite map_length, seq_length; auto).
  rewrite map_nth, seq_nth by auto. reflexivity.
Qed.
Lemma tab_ext n (f g : nat -> X) : (forall i, (i < n)%nat -> f i = g i) -> tab n f = tab n g.
Proof. intros H. apply map_ext_in. intros a Ha. apply in_seq in Ha. apply H; lia. Qed.
Lemma tab_S n (f : nat -> X) : tab (S n) f = tab n f ++ [f n].
Proof. unfold tab. now rewrite seq_S, map_app. Qed.
Lemma tab_map n (f : nat -> X) (g : X -> Y) : map g (tab n f) = tab n (fun i => g (f i)).
Proof. apply map_map. Qed.
Lemma tab_cons n (f : nat -> X) : tab (S n) f = f 0%nat :: tab n (fun i => f (S i)).
Proof. unfold tab. cbn. f_equal. now rewrite <- seq_shift, map_map. Qed.
End Tab.
Lemma list_tab {X} (l : list X) n d : length l = n -> l = tab n (fun i => nth i l d).
Proof.
  revert n. induction l; intros n H; cbn in H; subst; [reflexivity|]. rewrite tab_cons. cbn. f_equal. now apply IHl.
Qed.
Lemma tab_map2 {X Y Z} (h : X -> Y -> Z) : forall n f g, map2 h (tab n f) (tab n g) = tab n (fun i => h (f i) (g i)).
Proof. induction n; intros; [reflexivity|]. rewrite !tab_cons. cbn. f_equal. apply IHn. Qed.
Lemma tab_map3 {X Y Z W} (h : X -> Y -> Z -> W) :
  forall n f g k, map3 h (tab n f) (tab n g) (tab n k) = tab n (fun i => h (f i) (g i) (k i)).
Proof. induction n; intros; [reflexivity|]. rewrite !tab_cons. cbn. f_equal. apply IHn. Qed.
Lemma tab_map4 {X Y Z W V} (h : X -> Y -> Z -> W -> V) :
  forall n f g k l, map4 h (tab n f) (tab n g) (tab n k) (tab n l) = tab n (fun i => h (f i) (g i) (k i) (l i)).
Proof. induction n; intros; [reflexivity|]. rewrite !tab_cons. cbn. f_equal. apply IHn. Qed.
Lemma tab_repeat {X} (x : X) n : repeat x n = tab n (fun _ => x).
Proof. induction n; [reflexivity|]. rewrite tab_cons. cbn. now f_equal. Qed.
Lemma tab_combine {X Y} n : forall (f : nat -> X) (g : nat -> Y), combine (tab n f) (tab n g) = tab n (fun i => (f i, g i)).
Proof. induction n; intros; [reflexivity|]. rewrite !tab_cons. cbn. f_equal. apply IHn. Qed.
Lemma tab_forallb {X} n (f : nat -> X) p : forallb p (tab n f) = true <-> forall i, (i < n)%nat -> p (f i) = true.
Proof.
  rewrite forallb_forall. unfold tab. split.
  - intros H i Hi. apply H, in_map_iff. exists i. split; auto. apply in_seq. lia.
  - intros H x Hx. apply in_map_iff in Hx. destruct Hx as [i [<- Hi]]. apply in_seq in Hi. apply H. lia.
Qed.
Lemma el_out l i : (length l <= i)%nat -> el l i = 0.
Proof. intros. now apply nth_overflow. Qed.
Lemma el_tab n f i : (i < n)%nat -> el (tab n f) i = f i.
Proof. apply tab_nth. Qed.
Lemma tab_el l n : length l = n -> l = tab n (el l).
Proof. apply list_tab. Qed.
Lemma map_r_seq {X} (r : nat -> X) o n : map r (seq o n) = tab n (fun i => r (o + i)%nat).
Proof.
  revert o. induction n; intros; [reflexivity|]. rewrite tab_cons. cbn. rewrite Nat.add_0_r. f_equal.
  rewrite IHn. apply tab_ext. intros a _. f_equal. lia.
Qed.

(** ** Matrices *)
Lemma mkm_S {X} r c (f : nat -> nat -> X) : mkm r (S c) f = mkm r c f ++ tab r (fun i => f i c).
Proof. unfold mkm. rewrite seq_S, flat_map_app. cbn. now rewrite app_nil_r. Qed.
Lemma mkm_length {X} r c (f : nat -> nat -> X) : length (mkm r c f) = (r * c)%nat.
Proof. induction c; [cbn; lia|]. rewrite mkm_S, app_length, IHc, tab_len. lia. Qed.
Lemma mkm_nth {X} r c (f : nat -> nat -> X) i j d : (i < r)%nat -> (j < c)%nat -> nth (j * r + i) (mkm r c f) d = f i j.
Proof.
  intros Hi. induction c; intros Hj; [lia|]. rewrite mkm_S.
  destruct (Nat.eq_dec j c) as [->|].
  - rewrite app_nth2 by (rewrite mkm_length; nia). rewrite mkm_length.
    replace (c * r + i - r * c)%nat with i by lia. now rewrite tab_nth.
  - rewrite app_nth1 by (rewrite mkm_length; nia). apply IHc. lia.
Qed.
Lemma mkm_ext {X} r c (f g : nat -> nat -> X) : (forall i j, (i < r)%nat -> (j < c)%nat -> f i j = g i j) -> mkm r c f = mkm r c g.
Proof.
  intros H. induction c; [reflexivity|]. rewrite !mkm_S, IHc by (intros; apply H; lia). f_equal.
  apply tab_ext. intros. apply H; lia.
Qed.
Lemma mkm_map {X Y} r c (f : nat -> nat -> X) (h : X -> Y) : map h (mkm r c f) = mkm r c (fun i j => h (f i j)).
Proof. induction c; [reflexivity|]. now rewrite !mkm_S, map_app, IHc, tab_map. Qed.
Lemma list_mkm {X} r c (l : list X) d : length l = (r * c)%nat -> l = mkm r c (fun i j => nth (j * r + i) l d).
Proof.
  intros H. rewrite (list_tab l _ d H). rewrite (list_tab (mkm r c _) (r * c) d (mkm_length _ _ _)). apply tab_ext.
  intros i Hi. assert (r <> 0%nat) by nia.
  pose proof (Nat.div_mod i r H0) as HD. rewrite HD at 2.
  rewrite (Nat.mul_comm r (i / r)).
  rewrite mkm_nth.
  - rewrite tab_nth. f_equal. lia. nia.
  - apply Nat.mod_upper_bound; auto.
  - apply Nat.div_lt_upper_bound; nia.
Qed.

(** ** Comparisons of reals *)
Lemma rltb_t x y : x < y -> rltb x y = true. Proof. unfold rltb. destruct (Rlt_dec x y); tauto. Qed.
Lemma rltb_f x y : y <= x -> rltb x y = false. Proof. unfold rltb. destruct (Rlt_dec x y); lra. Qed.
Lemma rleb_t x y : x <= y -> rleb x y = true. Proof. unfold rleb. destruct (Rle_dec x y); tauto. Qed.
Lemma rleb_f x y : y < x -> rleb x y = false. Proof. unfold rleb. destruct (Rle_dec x y); lra. Qed.
Lemma reqb_t x y : x = y -> reqb x y = true. Proof. unfold reqb. destruct (Req_EM_T x y); tauto. Qed.
Lemma reqb_f x y : x <> y -> reqb x y = false. Proof. unfold reqb. destruct (Req_EM_T x y); tauto. Qed.
Lemma reqb_spec x y : reqb x y = true <-> x = y. Proof. unfold reqb. destruct (Req_EM_T x y); split; congruence. Qed.
Lemma reqb_refl x : reqb x x = true. Proof. now apply reqb_t. Qed.
Lemma rltb_iff x y : rltb x y = true <-> x < y. Proof. unfold rltb. destruct (Rlt_dec x y); split; try congruence; tauto. Qed.
Lemma rleb_iff x y : rleb x y = true <-> x <= y. Proof. unfold rleb. destruct (Rle_dec x y); split; try congruence; tauto. Qed.
Lemma xleb_fin a b : xleb (Fin a) (Fin b) = rleb a b.
Proof.
  unfold xleb, xltb, xeqb, rltb, reqb, rleb. destruct (Rlt_dec a b), (Req_EM_T a b), (Rle_dec a b); cbn; auto; lra.
Qed.

(** ** Finite values *)
Lemma xdiv_fin a b : b <> 0 -> xdiv (Fin a) (Fin b) = Fin (a / b).
Proof. intros H. cbn. now rewrite reqb_f. Qed.
Lemma xlog_fin a : 0 < a -> xlog (Fin a) = Fin (ln a).
Proof. intros H. cbn. rewrite reqb_f, rltb_t; auto; lra. Qed.
Lemma xsub_fin a b : xsub (Fin a) (Fin b) = Fin (a - b). Proof. reflexivity. Qed.

Lemma fold_add n f a : fold_left xadd (tab n (fun i => Fin (f i))) (Fin a) = Fin (a + sumn n f).
Proof. induction n; cbn [sumn]; [cbn; f_equal; lra|]. rewrite tab_S, fold_left_app, IHn. cbn. f_equal; lra. Qed.
Lemma fold_mul n f a : fold_left xmul (tab n (fun i => Fin (f i))) (Fin a) = Fin (a * prodn n f).
Proof. induction n; cbn [prodn]; [cbn; f_equal; lra|]. rewrite tab_S, fold_left_app, IHn. cbn. f_equal; lra. Qed.
Lemma xsum_fin n f : xsum (tab n (fun i => Fin (f i))) = Fin (sumn n f).
Proof. unfold xsum. rewrite fold_add. f_equal; lra. Qed.
Lemma xprod_fin n f : xprod (tab n (fun i => Fin (f i))) = Fin (prodn n f).
Proof. unfold xprod. rewrite fold_mul. f_equal; lra. Qed.
Lemma fin_tab n f : tab n (fun i => Fin (f i)) = map Fin (tab n f). Proof. now rewrite tab_map. Qed.
Lemma fin_list l n : length l = n -> map Fin l = tab n (fun i => Fin (el l i)).
Proof. intros H. now rewrite fin_tab, <- tab_el. Qed.
Lemma nth_fin l i z : (i < length l)%nat -> nth i (map Fin l) z = Fin (el l i).
Proof. intros H. rewrite nth_indep with (d' := Fin 0) by now rewrite map_length. apply map_nth. Qed.

(** ** Derivatives *)
Lemma der_const (c t : R) : is_derive (fun _ => c) t 0.
Proof. exact (is_derive_const c t). Qed.
Lemma der_id (t : R) : is_derive (fun x => x) t 1.
Proof. exact (is_derive_id t). Qed.
Lemma der_sumn n (f : nat -> R -> R) (t : R) (f' : nat -> R) :
  (forall i, (i < n)%nat -> is_derive (f i) t (f' i)) -> is_derive (fun t => sumn n (fun i => f i t)) t (sumn n f').
Proof.
  induction n; intros H; cbn; [apply der_const|].
  apply (is_derive_plus (fun t => sumn n (fun i => f i t)) (f n)); [apply IHn; intros; apply H; lia|apply H; lia].
Qed.
Lemma der_eq (f : R -> R) (t a b : R) : is_derive f t a -> a = b -> is_derive f t b.
Proof. now intros H <-. Qed.
Lemma der_ext (f g : R -> R) (t a : R) : (forall x, f x = g x) -> is_derive f t a -> is_derive g t a.
Proof. intros H. now apply is_derive_ext. Qed.
Lemma der_plus (f g : R -> R) (t a b : R) : is_derive f t a -> is_derive g t b -> is_derive (fun x => f x + g x) t (a + b).
Proof. apply (is_derive_plus f g). Qed.
Lemma der_minus (f g : R -> R) (t a b : R) : is_derive f t a -> is_derive g t b -> is_derive (fun x => f x - g x) t (a - b).
Proof. apply (is_derive_minus f g). Qed.
Lemma der_opp (f : R -> R) (t a : R) : is_derive f t a -> is_derive (fun x => - f x) t (- a).
Proof. apply (is_derive_opp f). Qed.
Lemma der_mult (f g : R -> R) (t a b : R) : is_derive f t a -> is_derive g t b ->
  is_derive (fun x => f x * g x) t (a * g t + f t * b).
Proof. intros. apply (is_derive_mult f g); auto. intros; apply Rmult_comm. Qed.
Lemma der_scal (f : R -> R) (t k a : R) : is_derive f t a -> is_derive (fun x => k * f x) t (k * a).
Proof. intros H. now apply (is_derive_scal f). Qed.
Lemma der_comp (f g : R -> R) (t a b : R) : is_derive f (g t) a -> is_derive g t b -> is_derive (fun x => f (g x)) t (a * b).
Proof. intros. rewrite Rmult_comm. now apply (is_derive_comp f g). Qed.
Lemma der_loc_const (f : R -> R) (t c : R) : locally t (fun x => f x = c) -> is_derive f t 0.
Proof.
  intros H. apply is_derive_ext_loc with (f := fun _ => c); [|apply der_const].
  revert H. apply filter_imp. auto.
Qed.
Lemma der_unique (f : R -> R) (t a b : R) : is_derive f t a -> is_derive f t b -> a = b.
Proof. intros H1 H2. rewrite <- (is_derive_unique _ _ _ H1). now apply is_derive_unique. Qed.
Lemma der_cont (f : R -> R) (t a : R) : is_derive f t a -> continuous f t.
Proof. intros H. apply (ex_derive_continuous f). now exists a. Qed.
Lemma der_prodn n (f : nat -> R -> R) (t : R) (f' : nat -> R) :
  (forall i, (i < n)%nat -> is_derive (f i) t (f' i)) ->
  is_derive (fun t => prodn n (fun i => f i t)) t (sumn n (fun i => f' i * prodx n i (fun j => f j t))).
Proof.
  induction n; intros H; cbn [prodn sumn]; [apply der_const|].
  eapply der_eq.
  - apply (der_mult (fun t => prodn n (fun i => f i t)) (f n)); [apply IHn; intros; apply H; lia|apply H; lia].
  - rewrite <- sumn_r. f_equal.
    + apply sumn_ext. intros i Hi. unfold prodx. cbn [prodn]. destruct (Nat.eqb_spec n i); [lia|]. lra.
    + unfold prodx. cbn [prodn]. rewrite Nat.eqb_refl. fold (prodx n n (fun j => f j t)). rewrite prodx_out by lia. lra.
Qed.
