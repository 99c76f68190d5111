(** Proofs for C40, and the run that refutes C08. *)
From Verif Require Import Base Num Expr Node Stat Machine Wf LBase LKind Session LUser LFind Sub.
From Coq Require Import Lia.

Section LSub.
Context {N : num}.
Notation T := (carrier N).
Notation U := (expr T unit).

Lemma sub_at_ok o n i : i < n -> sub_at (EVar (Sh Vec n 1) o : U) i = Ok (EVar scl (o + i)) /\
  cells scl (o + i) = [nth i (cells (Sh Vec n 1) o) 0].
Proof.
  intros H. cbn [sub_at]. rewrite (proj2 (Nat.ltb_lt i n) H). split; [reflexivity|].
  unfold cells. cbn. rewrite seq_nth by lia. reflexivity.
Qed.
Lemma sub_head_ok o n k : k <= n -> sub_head (EVar (Sh Vec n 1) o : U) k = Ok (EVar (Sh Vec k 1) o) /\
  cells (Sh Vec k 1) o = firstn k (cells (Sh Vec n 1) o).
Proof.
  intros H. cbn [sub_head]. rewrite (proj2 (Nat.leb_le k n) H). split; [reflexivity|].
  unfold cells, size; cbn [rows cols]. rewrite !Nat.mul_1_r.
  replace n with (k + (n - k)) by lia. rewrite seq_app, firstn_app, seq_length, Nat.sub_diag.
  rewrite firstn_all2 by (rewrite seq_length; lia). cbn. now rewrite app_nil_r.
Qed.
Lemma sub_tail_ok o n k : k <= n -> sub_tail (EVar (Sh Vec n 1) o : U) k = Ok (EVar (Sh Vec k 1) (o + (n - k))) /\
  cells (Sh Vec k 1) (o + (n - k)) = skipn (n - k) (cells (Sh Vec n 1) o).
Proof.
  intros H. cbn [sub_tail]. rewrite (proj2 (Nat.leb_le k n) H). split; [reflexivity|].
  unfold cells, size; cbn [rows cols]. rewrite !Nat.mul_1_r.
  replace (seq o n) with (seq o (n - k) ++ seq (o + (n - k)) k).
  2:{ rewrite <- seq_app. f_equal. lia. }
  rewrite skipn_app, seq_length, Nat.sub_diag. rewrite skipn_all2 by (rewrite seq_length; lia). reflexivity.
Qed.
Lemma sub_fail (o n i : nat) :
  (n <= i -> sub_at (EVar (Sh Vec n 1) o : U) i = Err UBshape) /\
  (n < i -> sub_head (EVar (Sh Vec n 1) o : U) i = Err UBshape /\ sub_tail (EVar (Sh Vec n 1) o : U) i = Err UBshape).
Proof.
  split; [|intros H; split]; intros; cbn [sub_at sub_head sub_tail];
    [rewrite (proj2 (Nat.ltb_ge i n)) by lia|rewrite (proj2 (Nat.leb_gt i n)) by lia|rewrite (proj2 (Nat.leb_gt i n)) by lia]; reflexivity.
Qed.
Lemma ent_ok k o r c i j : i < r -> j < c -> exists p, ent (EVar (Sh k r c) o : U) i j = Ok p /\ In p (cells (Sh k r c) o) /\
  forall A (z : A) (f : nat -> A), mget z r (map f (cells (Sh k r c) o)) i j = f p.
Proof.
  intros Hi Hj. cbn [ent]. rewrite (proj2 (Nat.ltb_lt i r) Hi), (proj2 (Nat.ltb_lt j c) Hj). cbn.
  assert (L : j * r + i < r * c) by nia.
  exists (o + (j * r + i)). split; [reflexivity|]. unfold cells, size; cbn [rows cols]. split; [apply in_seq; lia|].
  intros A z f. unfold mget. rewrite (nth_indep _ z (f 0)) by (rewrite map_length, seq_length; lia).
  rewrite map_nth. rewrite seq_nth by lia. reflexivity.
Qed.
Lemma ent_inj k o r c i j i' j' p : ent (EVar (Sh k r c) o : U) i j = Ok p -> ent (EVar (Sh k r c) o : U) i' j' = Ok p -> i = i' /\ j = j'.
Proof.
  cbn [ent]. intros Q1 Q2. destruct (i <? r) eqn:A1, (j <? c) eqn:A2; cbn in Q1; try discriminate Q1.
  destruct (i' <? r) eqn:A3, (j' <? c) eqn:A4; cbn in Q2; try discriminate Q2.
  apply Nat.ltb_lt in A1, A2, A3, A4. assert (H1 : o + (j * r + i) = o + (j' * r + i')) by congruence.
  assert (j = j') by nia. subst. lia.
Qed.

(** Differentiating a view adds the seed to its own adjoint cells and changes nothing else. *)
Lemma var_diff sh o (m : mem T) seed : (forall p, In p (cells sh o) -> m 0 p <> None /\ m 1 p <> None) ->
  length seed = size sh ->
  exists m' v, autodiff (EVar sh o) seed m = Ok (EVar sh o, m', v) /\
    length v = size sh /\
    (forall k z, k < size sh -> m 0 (o + k) = Some (nth k v z)) /\
    (forall k z, k < size sh -> exists a, m 1 (o + k) = Some a /\ m' 1 (o + k) = Some (nadd N a (nth k seed z))) /\
    forall b p, (b <> 1 \/ ~ In p (cells sh o)) -> m' b p = m b p.
Proof.
  intros H L.
  assert (A0 : forall i, i < size sh -> m 0 (o + i) <> None) by (intros i Hi; apply H, in_seq; lia).
  assert (A1 : forall i, i < size sh -> m 1 (o + i) <> None) by (intros i Hi; apply H, in_seq; lia).
  destruct (rdn_total m 0 o (size sh) A0) as [v [V1 V2]]. destruct (rdn_total m 1 o (size sh) A1) as [a [W1 W2]].
  pose proof (proj1 (rdn_ok m 0 o (size sh) v (n0 N)) V1) as [_ V3].
  pose proof (proj1 (rdn_ok m 1 o (size sh) a (n0 N)) W1) as [_ W3].
  assert (LL : length (map2 (nadd N) a seed) = size sh) by (rewrite map2_length, W2, L; apply Nat.min_id).
  destruct (wrn_ok m 1 o (map2 (nadd N) a seed) (n0 N)) as [m' [X1 X2]]; [rewrite LL; exact A1|].
  exists m', v. unfold autodiff, evaluate. cbn [feval getref rdref load bindR]. rewrite V1. cbn [bindR beval].
  unfold var_beval, chk. rewrite L, Nat.eqb_refl. cbn [bindR load store]. rewrite W1. cbn [bindR]. rewrite X1. cbn [bindR].
  split; [reflexivity|]. split; [exact V2|]. split; [|split].
  - intros k z Hk. rewrite V3 by exact Hk. f_equal. apply nth_indep. lia.
  - intros k z Hk. exists (nth k a (n0 N)). split; [apply W3; exact Hk|]. rewrite X2, LL. cbn [Nat.eqb andb].
    rewrite (proj2 (Nat.leb_le o (o + k))), (proj2 (Nat.ltb_lt (o + k) (o + size sh))) by lia. cbn [andb].
    f_equal. replace (o + k - o) with k by lia.
    assert (G : forall (a seed : list T) k d, k < length a -> k < length seed ->
      nth k (map2 (nadd N) a seed) d = nadd N (nth k a d) (nth k seed z)).
    { clear. induction a as [|x a IH]; intros [|y s] [|k] d H1 H2; cbn in *; try lia; [reflexivity|]. apply IH; lia. }
    apply G; lia.
  - intros b p Hb. rewrite X2, LL. destruct (Nat.eqb_spec b 1) as [->|D]; [|reflexivity]. cbn [andb].
    destruct (Nat.leb_spec o p), (Nat.ltb_spec p (o + size sh)); cbn [andb]; try reflexivity.
    exfalso. destruct Hb as [Hb|Hb]; [congruence|]. apply Hb. apply in_seq. lia.
Qed.

(** C08: (w = x * y, w), differentiated twice. *)
Definition u08 : U := EGlue tt (EEq tt scl 2 (EComp (KBin BMul) tt [EVar scl 0; EVar scl 1])) (EVar scl 2).
Definition twice (u : U) (m : mem T) (s : list T) :=
  c <- bound 2 3 (any N) (any N) u m ;;
  '(e1, m1, _) <- autodiff (fst c) s (snd c) ;; '(e2, m2, _) <- autodiff e1 s m1 ;; Ok (m1, m2).
Lemma twice_u08 (f : nat -> T) (s : T) (o := n0 N) (w1 := nadd N (nadd N o s) o) (w2 := nadd N (nadd N w1 s) o) :
  exists m1 m2, twice u08 (mem8 N f) [s] = Ok (m1, m2) /\
    m1 1 0 = Some (nadd N o (nmul N w1 (f 1))) /\
    m2 1 0 = Some (nadd N (nadd N o (nmul N w1 (f 1))) (nmul N w2 (f 1))).
Proof. eexists _, _. split; [vm_compute; reflexivity|]. split; reflexivity. Qed.
End LSub.

From Coq Require Import Reals Lra.
From Verif Require Import XR.
Open Scope nat_scope.
Lemma w08 (la : linalg xr) (f : nat -> R) (s : R) :
  exists m1 m2, twice (N := XR la) u08 (mem8 (XR la) (fun o => Fin (f o))) [Fin s] = Ok (m1, m2) /\
    m1 1 0 = Some (Fin (s * f 1%nat)%R) /\ m2 1 0 = Some (Fin (3 * (s * f 1%nat))%R).
Proof.
  destruct (twice_u08 (N := XR la) (fun o => Fin (f o)) (Fin s)) as [m1 [m2 [H1 [H2 H3]]]].
  exists m1, m2. split; [exact H1|]. rewrite H2, H3. cbn. split; do 2 f_equal; lra.
Qed.
