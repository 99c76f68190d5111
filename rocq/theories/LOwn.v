(** Proofs about Own.v: value semantics of variables, stability of views. *)
From Coq Require Import List Bool Arith Lia.
From Verif Require Import Base Own OwnSpec.
Import ListNotations.

Section LOwn.
Context {T : Type}.
Notation mem := (mem T).

(* ---------- reading and writing whole blocks ---------- *)
Lemma rdn_block (m : mem) b l k : (forall o, m b (k + o) = nth_error l o) -> rdn m b k (length l) = Ok l.
Proof.
  revert k; induction l as [|a l IH]; intros k H; cbn; [reflexivity|].
  pose proof (H 0) as H0. rewrite Nat.add_0_r in H0. unfold rd1. rewrite H0. cbn.
  rewrite IH; [reflexivity|]. intros o. specialize (H (S o)). cbn in H. rewrite <- H. f_equal. lia.
Qed.
Lemma wrn_block (l : list T) : forall (m : mem) b k,
  (forall o, o < length l -> m b (k + o) <> None) ->
  exists m', wrn m b k l = Ok m' /\
    (forall o, o < length l -> m' b (k + o) = nth_error l o) /\
    (forall b' o, (b' <> b \/ o < k \/ k + length l <= o) -> m' b' o = m b' o).
Proof.
  induction l as [|a l IH]; intros m b k H; cbn.
  { eexists; split; [reflexivity|]. split; [intros; lia|reflexivity]. }
  pose proof (H 0 ltac:(cbn; lia)) as H0. rewrite Nat.add_0_r in H0. unfold wr1.
  destruct (m b k) eqn:Q; [|congruence]. cbn.
  match goal with |- context [wrn ?M _ _ _] => set (m1 := M) end.
  destruct (IH m1 b (S k)) as [m' [E [A B]]].
  { intros o Ho. unfold m1. rewrite Nat.eqb_refl. cbn [andb].
    destruct (S k + o =? k) eqn:Q2; [discriminate|].
    replace (S k + o) with (k + S o) by lia. apply H. cbn; lia. }
  exists m'. split; [exact E|]. split.
  - intros [|o] Ho; cbn.
    + rewrite Nat.add_0_r. rewrite B by lia. unfold m1. rewrite !Nat.eqb_refl. reflexivity.
    + replace (k + S o) with (S k + o) by lia. apply A. cbn in Ho; lia.
  - intros b' o Ho. rewrite B by lia. unfold m1.
    destruct (b' =? b) eqn:Q1; [|reflexivity]. destruct (o =? k) eqn:Q2; [|reflexivity].
    apply Nat.eqb_eq in Q1, Q2. lia.
Qed.

(* ---------- owned blocks ---------- *)
Definition cont (m : mem) (nx : nat) (e : eig) (l : list T) : Prop :=
  esize e = length l /\
  match edata e with
  | Null => l = []
  | Ptr b o => o = 0 /\ l <> [] /\ b < nx /\ forall k, m b k = nth_error l k
  end.
Definition apart (e e' : eig) : Prop :=
  forall b, edata e = Ptr b 0 -> edata e' = Ptr b 0 -> False.

Definition key : Type := nat * bool.
Definition smap := key -> option eig.
Definition Inv (m : mem) (nx : nat) (s : smap) (C : key -> list T) : Prop :=
  (forall k e, s k = Some e -> cont m nx e (C k)) /\
  (forall k k' e e', s k = Some e -> s k' = Some e' -> k <> k' -> apart e e').

Definition keq (k k' : key) : bool := (fst k =? fst k') && Bool.eqb (snd k) (snd k').
Lemma keq_spec k k' : reflect (k = k') (keq k k').
Proof.
  destruct k as [i a], k' as [j b]; unfold keq; cbn.
  destruct (Nat.eqb_spec i j); destruct (Bool.eqb_spec a b); cbn; constructor; congruence.
Qed.
Definition kset {A} (s : key -> A) (k : key) (x : A) : key -> A := fun k' => if keq k' k then x else s k'.

Lemma I_ext m nx s C s' C' : Inv m nx s C -> (forall k, s' k = s k) ->
  (forall k, s k <> None -> C' k = C k) -> Inv m nx s' C'.
Proof.
  intros [A B] H1 H2. split.
  - intros k e E. rewrite H1 in E. rewrite H2 by congruence. auto.
  - intros k k' e e' E E'. rewrite H1 in E, E'. eauto.
Qed.

Lemma I_load m nx s C k e : Inv m nx s C -> s k = Some e -> load m (edata e) (esize e) = Ok (C k).
Proof.
  intros [A _] E. apply A in E. destruct E as [L E]. destruct (edata e) as [|b o]; cbn.
  - rewrite L, E. reflexivity.
  - destruct E as [-> [_ [_ E]]]. rewrite L. apply rdn_block. exact E.
Qed.

Lemma I_alloc m nx s C k l : Inv m nx s C -> s k = None ->
  exists m' nx' e, alloc m nx l = (m', nx', e) /\ esize e = length l /\
    Inv m' nx' (kset s k (Some e)) (kset C k l).
Proof.
  intros [A B] N. destruct l as [|a l].
  - exists m, nx, (Eig Null 0). split; [reflexivity|]. split; [reflexivity|]. split.
    + intros k' e'. unfold kset. destruct (keq_spec k' k) as [->|D]; [|apply A].
      intros [= <-]. split; reflexivity.
    + intros k1 k2 e1 e2. unfold kset. destruct (keq_spec k1 k), (keq_spec k2 k); subst; intros E1 E2 D; try congruence.
      * injection E1 as <-. intros b X; discriminate.
      * injection E2 as <-. intros b _ X; discriminate.
      * eauto.
  - unfold alloc. remember (a :: l) as L eqn:QL.
    exists (fun b o => if b =? nx then nth_error L o else m b o), (S nx), (Eig (Ptr nx 0) (length L)).
    split; [subst; reflexivity|]. split; [reflexivity|]. split.
    + intros k' e'. unfold kset. destruct (keq_spec k' k) as [->|D].
      * intros [= <-]. split; [reflexivity|]. cbn. split; [reflexivity|]. split; [subst; discriminate|].
        split; [lia|]. intros o. rewrite Nat.eqb_refl. reflexivity.
      * intros E. destruct (A _ _ E) as [H1 H2]. split; [exact H1|].
        destruct (edata e') as [|b o]; [exact H2|]. destruct H2 as [-> [H2 [H3 H4]]].
        split; [reflexivity|]. split; [exact H2|]. split; [lia|]. intros o.
        destruct (Nat.eqb_spec b nx); [lia|]. apply H4.
    + assert (F : forall k' e', s k' = Some e' -> apart (Eig (Ptr nx 0) (length L)) e').
      { intros k' e' E b X Y. cbn in X. injection X as <-. destruct (A _ _ E) as [_ H2].
        rewrite Y in H2. lia. }
      intros k1 k2 e1 e2. unfold kset. destruct (keq_spec k1 k), (keq_spec k2 k); subst; intros E1 E2 D; try congruence.
      * injection E1 as <-. eauto.
      * injection E2 as <-. intros b X Y. eapply F; eauto.
      * eauto.
Qed.

Lemma I_free m nx s C k e : Inv m nx s C -> s k = Some e -> Inv (free m e) nx (kset s k None) C.
Proof.
  intros [A B] E. split.
  - intros k' e'. unfold kset. destruct (keq_spec k' k) as [->|D]; [discriminate|].
    intros E'. destruct (A _ _ E') as [H1 H2]. split; [exact H1|].
    destruct (edata e') as [|b o] eqn:Q; [exact H2|]. destruct H2 as [-> [H2 [H3 H4]]].
    split; [reflexivity|]. split; [exact H2|]. split; [exact H3|]. intros o. rewrite <- H4.
    unfold free. destruct (edata e) as [|b' o'] eqn:Q'; [reflexivity|].
    destruct (Nat.eqb_spec b b'); [|reflexivity]. subst b'. exfalso.
    destruct (A _ _ E) as [_ G]. rewrite Q' in G. destruct G as [-> _].
    eapply (B k k' e e'); eauto.
  - intros k1 k2 e1 e2. unfold kset. destruct (keq_spec k1 k), (keq_spec k2 k); subst; intros E1 E2; try discriminate.
    eauto.
Qed.

Lemma I_put m nx s C k e l : Inv m nx s C -> s k = Some e -> length l = esize e ->
  exists m', store m (edata e) l = Ok m' /\ Inv m' nx s (kset C k l).
Proof.
  intros [A B] E L. destruct (A _ _ E) as [H1 H2]. destruct (edata e) as [|b o] eqn:Q.
  - destruct l; [|rewrite H2 in H1; cbn in *; lia]. exists m. split; [reflexivity|]. split; [|exact B].
    intros k' e' E'. unfold kset. destruct (keq_spec k' k) as [->|D]; [|apply A; exact E'].
    assert (e' = e) by congruence. subst. split; [lia|]. rewrite Q. reflexivity.
  - destruct H2 as [-> [H2 [H3 H4]]]. cbn.
    destruct (wrn_block l m b 0) as [m' [W [X Y]]].
    { intros o Ho. cbn. rewrite H4. apply nth_error_Some. lia. }
    exists m'. split; [exact W|]. split; [|exact B].
    intros k' e' E'. unfold kset. destruct (keq_spec k' k) as [->|D].
    + assert (e' = e) by congruence. subst. split; [lia|]. rewrite Q. split; [reflexivity|].
      split; [intros ->; destruct (C k); [congruence|cbn in *; lia]|]. split; [exact H3|].
      intros o. destruct (lt_dec o (length l)) as [G|G].
      * apply (X o G).
      * rewrite (proj2 (nth_error_None l o)) by lia. rewrite Y by lia. rewrite H4. apply nth_error_None. lia.
    + destruct (A _ _ E') as [G1 G2]. split; [exact G1|].
      destruct (edata e') as [|b' o'] eqn:Q'; [exact G2|]. destruct G2 as [-> [G2 [G3 G4]]].
      split; [reflexivity|]. split; [exact G2|]. split; [exact G3|]. intros o. rewrite Y; [apply G4|].
      left. intros ->. eapply (B k k' e e'); eauto.
Qed.

Lemma I_swap m nx s C s' C' (p : key -> key) : Inv m nx s C -> (forall k k', p k = p k' -> k = k') ->
  (forall k e, s' k = Some e -> (s (p k) = Some e /\ C' k = C (p k)) \/ (e = Eig Null 0 /\ C' k = [])) ->
  Inv m nx s' C'.
Proof.
  intros [A B] P H. split.
  - intros k e E. destruct (H _ _ E) as [[E1 ->]|[-> ->]]; [auto|]. split; reflexivity.
  - intros k k' e e' E E' D. destruct (H _ _ E) as [[E1 _]|[-> _]]; [|intros b X; discriminate].
    destruct (H _ _ E') as [[E2 _]|[-> _]]; [|intros b _ X; discriminate].
    eapply B; eauto.
Qed.

(** Eigen copy assignment between two owned matrices. *)
Lemma I_assign m nx s C kd ks d c : Inv m nx s C -> s kd = Some d -> s ks = Some c -> kd <> ks ->
  exists m' nx' e, eassign m nx d c = Ok (m', nx', e) /\ esize e = esize c /\
    Inv m' nx' (kset s kd (Some e)) (kset C kd (C ks)) /\
    (esize d = esize c -> e = d).
Proof.
  intros H D1 D2 D. unfold eassign. rewrite (I_load _ _ _ _ _ _ H D2). cbn.
  assert (L : length (C ks) = esize c). { destruct H as [A _]. destruct (A _ _ D2) as [X _]. lia. }
  destruct (Nat.eqb_spec (esize d) (esize c)) as [Q|Q].
  - destruct (I_put m nx s C kd d (C ks) H D1) as [m' [S1 S2]]; [lia|].
    rewrite S1. cbn. exists m', nx, d. split; [reflexivity|]. split; [exact Q|]. split; [|auto].
    eapply I_ext; [exact S2| |reflexivity]. intros k. unfold kset. destruct (keq_spec k kd); [subst; auto|reflexivity].
  - pose proof (I_free _ _ _ _ _ _ H D1) as F.
    destruct (I_alloc _ _ _ _ kd (C ks) F) as [m' [nx' [e [A1 [A2 A3]]]]].
    { unfold kset. destruct (keq_spec kd kd); congruence. }
    exists m', nx', e. rewrite A1. split; [reflexivity|]. split; [lia|]. split; [|congruence].
    eapply I_ext; [exact A3| |reflexivity]. intros k. unfold kset. destruct (keq_spec k kd); reflexivity.
Qed.

(* ---------- states ---------- *)
Definition sel (x : var) (a : bool) : eig := if a then vadj x else vval x.
Definition slots (f : nat -> option var) : smap :=
  fun k => match f (fst k) with Some x => Some (sel x (snd k)) | None => None end.
Definition own_ok (x : var) (n : nat) : Prop :=
  esize (vval x) = n /\ esize (vadj x) = n /\ vpv x = edata (vval x) /\ vpa x = edata (vadj x).

(** the abstract value [a i] of a live object [x] with ghost contents [C] *)
Definition repr (C : key -> list T) (i : nat) (x : var) (y : @aval T) : Prop :=
  fst y = (vsc x, vr x, vc x) /\ (vsc x = true -> vr x = 1 /\ vc x = 1) /\
  match snd y with
  | Some (v, g) => C (i, false) = v /\ C (i, true) = g /\ own_ok x (vr x * vc x)
  | None => vsc x = false
  end.
Definition good (s : vst T) (a : astate T) (C : key -> list T) : Prop :=
  Inv (smem s) (snx s) (slots (sobj s)) C /\
  forall i, match sobj s i, a i with
            | None, None => True
            | Some x, Some y => repr C i x y
            | _, _ => False
            end.

Lemma repr_len m nx s C i x sh v g : Inv m nx s C -> s (i, false) = Some (vval x) -> s (i, true) = Some (vadj x) ->
  repr C i x (sh, Some (v, g)) -> length v = vr x * vc x /\ length g = vr x * vc x.
Proof.
  intros [A _] E1 E2 [_ [_ [H1 [H2 [H3 [H4 _]]]]]]. apply A in E1, E2.
  destruct E1 as [E1 _], E2 as [E2 _]. rewrite H1 in E1. rewrite H2 in E2. lia.
Qed.

Lemma slots_at f i x a : f i = Some x -> slots f (i, a) = Some (sel x a).
Proof. intros E. unfold slots. cbn. rewrite E. reflexivity. Qed.
Lemma slots_no f i a : f i = None -> slots f (i, a) = None.
Proof. intros E. unfold slots. cbn. rewrite E. reflexivity. Qed.
Lemma slots_set f i x k : slots (oset f i (Some x)) k =
  kset (kset (slots f) (i, false) (Some (vval x))) (i, true) (Some (vadj x)) k.
Proof.
  destruct k as [j a]. unfold slots, oset, kset, keq; cbn.
  destruct (Nat.eqb_spec j i); cbn; [|reflexivity]. destruct a; reflexivity.
Qed.

Lemma good_get s a C i sh d : good s a C -> a i = Some (sh, d) ->
  exists x, sobj s i = Some x /\ getobj s i = Ok x /\ repr C i x (sh, d).
Proof.
  intros [_ G] E. specialize (G i). rewrite E in G. destruct (sobj s i) as [x|] eqn:Q; [|destruct G].
  exists x. unfold getobj. rewrite Q. auto.
Qed.
Lemma good_no s a C i : good s a C -> a i = None -> sobj s i = None /\ noobj s i = Ok tt.
Proof.
  intros [_ G] E. specialize (G i). rewrite E in G. destruct (sobj s i) as [x|] eqn:Q; [destruct G|].
  unfold noobj. rewrite Q. auto.
Qed.

Lemma rebind_fields x : vsc (rebind x) = vsc x /\ vr (rebind x) = vr x /\ vc (rebind x) = vc x /\
  vval (rebind x) = vval x /\ vadj (rebind x) = vadj x.
Proof. repeat split. Qed.

Lemma repr_other C C' i x y : repr C i x y -> (forall a, C' (i, a) = C (i, a)) -> repr C' i x y.
Proof. intros [H1 [H2 H3]] E. split; [exact H1|]. split; [exact H2|]. destruct (snd y) as [[v g]|]; [|exact H3]. rewrite !E. exact H3. Qed.
Lemma kset2_other {A} (C : key -> A) i j u w b : j <> i -> kset (kset C (i, false) u) (i, true) w (j, b) = C (j, b).
Proof.
  intros D. unfold kset. destruct (keq_spec (j, b) (i, true)) as [E|_]; [congruence|].
  destruct (keq_spec (j, b) (i, false)) as [E|_]; [congruence|reflexivity].
Qed.
Lemma kset2_f {A} (C : key -> A) i u w : kset (kset C (i, false) u) (i, true) w (i, false) = u.
Proof. unfold kset. cbn. destruct (keq_spec (i, false) (i, true)) as [E|_]; [congruence|]. destruct (keq_spec (i, false) (i, false)); congruence. Qed.
Lemma kset2_t {A} (C : key -> A) i u w : kset (kset C (i, false) u) (i, true) w (i, true) = w.
Proof. unfold kset. destruct (keq_spec (i, true) (i, true)); congruence. Qed.

(** Installing a freshly built object. *)
Lemma good_set s a C i x y u w m' nx' :
  good s a C -> Inv m' nx' (kset (kset (slots (sobj s)) (i, false) (Some (vval x))) (i, true) (Some (vadj x)))
                    (kset (kset C (i, false) u) (i, true) w) ->
  repr (kset (kset C (i, false) u) (i, true) w) i x y ->
  good (Vst m' nx' (oset (sobj s) i (Some x))) (aset a i (Some y)) (kset (kset C (i, false) u) (i, true) w).
Proof.
  intros [_ G] H R. split; cbn.
  - eapply I_ext; [exact H| |reflexivity]. intros k. apply slots_set.
  - intros j. unfold oset, aset. destruct (Nat.eqb_spec j i) as [->|D]; [exact R|].
    specialize (G j). destruct (sobj s j), (a j); auto. eapply repr_other; [exact G|].
    intros b. apply kset2_other. exact D.
Qed.

Lemma two_alloc m nx s C i lv lg : Inv m nx s C -> s (i, false) = None -> s (i, true) = None ->
  exists m1 n1 v m2 n2 g, alloc m nx lv = (m1, n1, v) /\ alloc m1 n1 lg = (m2, n2, g) /\
    esize v = length lv /\ esize g = length lg /\
    Inv m2 n2 (kset (kset s (i, false) (Some v)) (i, true) (Some g)) (kset (kset C (i, false) lv) (i, true) lg).
Proof.
  intros H N1 N2. destruct (I_alloc _ _ _ _ (i, false) lv H N1) as [m1 [n1 [v [A1 [A2 A3]]]]].
  destruct (I_alloc _ _ _ _ (i, true) lg A3) as [m2 [n2 [g [B1 [B2 B3]]]]].
  { unfold kset. destruct (keq_spec (i, true) (i, false)); [congruence|exact N2]. }
  exists m1, n1, v, m2, n2, g. auto.
Qed.

Lemma two_assign m nx s C j i xd yd xs ys : Inv m nx s C -> j <> i ->
  s (j, false) = Some xd -> s (j, true) = Some yd -> s (i, false) = Some xs -> s (i, true) = Some ys ->
  exists m1 n1 v m2 n2 g, eassign m nx xd xs = Ok (m1, n1, v) /\ eassign m1 n1 yd ys = Ok (m2, n2, g) /\
    esize v = esize xs /\ esize g = esize ys /\
    Inv m2 n2 (kset (kset s (j, false) (Some v)) (j, true) (Some g))
              (kset (kset C (j, false) (C (i, false))) (j, true) (C (i, true))) /\
    (esize xd = esize xs -> v = xd) /\ (esize yd = esize ys -> g = yd).
Proof.
  intros H D E1 E2 E3 E4.
  destruct (I_assign _ _ _ _ (j, false) (i, false) xd xs H E1 E3) as [m1 [n1 [v [A1 [A2 [A3 A4]]]]]]; [congruence|].
  destruct (I_assign _ _ _ _ (j, true) (i, true) yd ys A3) as [m2 [n2 [g [B1 [B2 [B3 B4]]]]]].
  { unfold kset. destruct (keq_spec (j, true) (j, false)); [congruence|exact E2]. }
  { unfold kset. destruct (keq_spec (i, true) (j, false)); [congruence|exact E4]. }
  { congruence. }
  exists m1, n1, v, m2, n2, g. repeat (split; [assumption|]). split; [|split; assumption].
  eapply I_ext; [exact B3|reflexivity|]. intros k _. unfold kset at 1 3.
  destruct (keq_spec k (j, true)); [|reflexivity].
  unfold kset. destruct (keq_spec (i, true) (j, false)); [congruence|reflexivity].
Qed.

Lemma repr_new C i x sh v g r c n : fst (fst sh) = vsc x -> snd (fst sh) = vr x -> snd sh = vc x ->
  (vsc x = true -> vr x = 1 /\ vc x = 1) -> esize (vval x) = n -> esize (vadj x) = n -> n = vr x * vc x ->
  r = v -> c = g ->
  repr (kset (kset C (i, false) r) (i, true) c) i (rebind x) (sh, Some (v, g)).
Proof.
  intros. subst. destruct sh as [[? ?] ?]; cbn in *; subst. split; [reflexivity|]. split; [assumption|]. cbn [snd].
  rewrite kset2_f, kset2_t. split; [reflexivity|]. split; [reflexivity|]. unfold own_ok; cbn. repeat split; congruence.
Qed.

Definition vp (x : var) : ptr * ptr := (vpv x, vpa x).

(** The simulation. *)
Definition stable (s s' : vst T) (a a' : astate T) (o : vop T) : Prop :=
  forall i x y d, sobj s i = Some x -> a i = Some (y, Some d) -> ~ moves (fst (fst y)) i o ->
    exists x' d', sobj s' i = Some x' /\ vp x' = vp x /\ vr x' = vr x /\ vc x' = vc x /\ a' i = Some (y, Some d').

Lemma stable_fresh s m nx a j x' y' o : sobj s j = None ->
  stable s (Vst m nx (oset (sobj s) j (Some x'))) a (aset a j (Some y')) o.
Proof.
  intros N i x y d E1 E2 _. exists x, d. cbn. unfold oset, aset.
  destruct (Nat.eqb_spec i j) as [->|D]; [congruence|]. auto.
Qed.

Lemma copy_new s a C j x i y d : good s a C -> sobj s j = None -> sobj s i = Some x -> repr C i x (y, Some d) ->
  exists s' C', 
    (lv <- load (smem s) (edata (vval x)) (esize (vval x)) ;;
      la <- load (smem s) (edata (vadj x)) (esize (vadj x)) ;;
      let '(m1, n1, v) := alloc (smem s) (snx s) lv in
      let '(m2, n2, a) := alloc m1 n1 la in
      Ok (Vst m2 n2 (oset (sobj s) j (Some (rebind (Var (vsc x) (vr x) (vc x) v a (vpv x) (vpa x))))))) = Ok s' /\
    good s' (aset a j (Some (y, Some d))) C' /\
    forall o, stable s s' a (aset a j (Some (y, Some d))) o.
Proof.
  intros G N E R. destruct G as [I G].
  pose proof (slots_at _ _ _ false E) as S1. pose proof (slots_at _ _ _ true E) as S2. cbn in S1, S2.
  pose proof (I_load _ _ _ _ _ _ I S1) as L1. pose proof (I_load _ _ _ _ _ _ I S2) as L2.
  rewrite L1, L2. cbn.
  destruct (two_alloc _ _ _ _ j (C (i, false)) (C (i, true)) I) as [m1 [n1 [v [m2 [n2 [g [A1 [A2 [A3 [A4 A5]]]]]]]]]];
    [apply slots_no; exact N|apply slots_no; exact N|].
  rewrite A1, A2. eexists; eexists; split; [reflexivity|]. split; [|intros o; apply stable_fresh; exact N].
  destruct d as [v0 g0]. pose proof (repr_len _ _ _ _ _ _ _ _ _ I S1 S2 R) as [L3 L4].
  destruct R as [R1 [R2 [R3 [R4 R5]]]]. cbn in R1. subst y.
  eapply good_set; [split; [exact I|exact G]|cbn; exact A5|].
  eapply repr_new; cbn; auto; congruence.
Qed.

Lemma copy_asg s a C j i x xj y d d' : good s a C -> j <> i -> sobj s i = Some x -> sobj s j = Some xj ->
  repr C i x (y, Some d) -> repr C j xj (y, d') -> a j = Some (y, d') ->
  exists s' C',
    (a1 <- eassign (smem s) (snx s) (vval xj) (vval x) ;; let '(m1, n1, v) := a1 in
      a2 <- eassign m1 n1 (vadj xj) (vadj x) ;; let '(m2, n2, a) := a2 in
      Ok (Vst m2 n2 (oset (sobj s) j (Some (rebind (Var (vsc xj) (vr xj) (vc xj) v a (vpv xj) (vpa xj))))))) = Ok s' /\
    good s' (aset a j (Some (y, Some d))) C' /\
    forall o, stable s s' a (aset a j (Some (y, Some d))) o.
Proof.
  intros G D E Ej R Rj Aj. destruct G as [I G].
  pose proof (slots_at _ _ _ false E) as S1. pose proof (slots_at _ _ _ true E) as S2.
  pose proof (slots_at _ _ _ false Ej) as S3. pose proof (slots_at _ _ _ true Ej) as S4. cbn in S1, S2, S3, S4.
  destruct (two_assign _ _ _ _ j i _ _ _ _ I D S3 S4 S1 S2)
    as [m1 [n1 [v [m2 [n2 [g [A1 [A2 [A3 [A4 [A5 [A6 A7]]]]]]]]]]]].
  rewrite A1; cbn; rewrite A2; cbn.
  destruct d as [v0 g0]. pose proof (repr_len _ _ _ _ _ _ _ _ _ I S1 S2 R) as [L3 L4].
  destruct R as [R1 [R2 [R3 [R4 [R5 [R6 R7]]]]]]. cbn in R1. subst y.
  destruct Rj as [Q1 [Q2 Q3]]. cbn in Q1. injection Q1 as Q11 Q12 Q13.
  eexists; eexists; split; [reflexivity|]. split.
  - eapply good_set; [split; [exact I|exact G]|cbn; exact A5|].
    eapply repr_new; cbn; auto; congruence.
  - intros o k xk yk dk B1 B2 _. cbn. unfold oset, aset. destruct (Nat.eqb_spec k j) as [->|Dk].
    + rewrite Aj in B2. injection B2 as <- ->. rewrite Ej in B1. injection B1 as <-.
      destruct dk as [vk gk]. cbn in Q3. destruct Q3 as [_ [_ [Q5 [Q6 [Q7 Q8]]]]].
      eexists; eexists; split; [reflexivity|]. cbn. rewrite A6, A7 by congruence. unfold vp; cbn.
      repeat split; congruence.
    + eauto 10.
Qed.

Lemma step_ok z o s a a' C : good s a C -> astep z o a a' ->
  exists s' C', vstep z o s = Ok s' /\ good s' a' C' /\ stable s s' a a' o.
Proof.
  intros G S. destruct o as [i sc r c|j i|j i|j i|j i|i adj l|i]; cbn in S.
  - (* New *)
    destruct S as [N [Sh ->]]. destruct (good_no _ _ _ _ G N) as [N1 N2]. unfold vstep. rewrite N2. cbn.
    replace (negb sc || ((r =? 1) && (c =? 1))) with true.
    2:{ destruct sc; [|reflexivity]. destruct (Sh eq_refl) as [-> ->]. reflexivity. }
    cbn. destruct G as [I G].
    destruct (two_alloc _ _ _ _ i (repeat z (r * c)) (repeat z (r * c)) I)
      as [m1 [n1 [v [m2 [n2 [g [A1 [A2 [A3 [A4 A5]]]]]]]]]]; [apply slots_no; exact N1|apply slots_no; exact N1|].
    rewrite A1, A2. eexists; eexists; split; [reflexivity|]. split; [|apply stable_fresh; exact N1].
    eapply good_set; [split; [exact I|exact G]|cbn; exact A5|].
    rewrite repeat_length in A3, A4.
    eapply repr_new; cbn; auto; congruence.
  - (* CopyNew *)
    destruct S as [y [d [N [Ai ->]]]]. destruct (good_no _ _ _ _ G N) as [N1 N2].
    destruct (good_get _ _ _ _ _ _ G Ai) as [x [E1 [E2 R]]].
    unfold vstep. rewrite N2, E2. cbn [bindR].
    destruct (copy_new s a C j x i y d G N1 E1 R) as [s' [C' [H1 [H2 H3]]]]. eauto.
  - (* MoveNew *)
    destruct S as [y [d [N [Ai ->]]]]. destruct (good_no _ _ _ _ G N) as [N1 N2].
    destruct (good_get _ _ _ _ _ _ G Ai) as [x [E1 [E2 R]]].
    unfold vstep. rewrite N2, E2. cbn [bindR].
    assert (Y : y = (vsc x, vr x, vc x)) by (destruct R as [R _]; exact R). subst y. cbn [fst].
    destruct (vsc x) eqn:Sc.
    + destruct (copy_new s a C j x i _ d G N1 E1 R) as [s' [C' [H1 [H2 H3]]]]. rewrite Sc in H1.
      exists s', C'. split; [exact H1|].
      assert (X : forall k, aset (aset a i (Some (true, vr x, vc x, Some d))) j (Some (true, vr x, vc x, Some d)) k
        = aset a j (Some (true, vr x, vc x, Some d)) k).
      { intros k. unfold aset. destruct (Nat.eqb_spec k j); [reflexivity|]. destruct (Nat.eqb_spec k i); [subst; auto|reflexivity]. }
      split.
      * destruct H2 as [I2 G2]. split; [exact I2|]. intros k. rewrite X. apply G2.
      * intros k xk yk dk B1 B2 B3. rewrite X. eapply H3; eauto.
    + assert (Dij : i <> j) by congruence.
      exists (Vst (smem s) (snx s) (oset (oset (sobj s) i (Some (Var false (vr x) (vc x) (Eig Null 0) (Eig Null 0) (vpv x) (vpa x)))) j (Some (rebind x)))).
      set (p := fun k : key => if fst k =? j then (i, snd k) else if fst k =? i then (j, snd k) else k).
      exists (fun k => if fst k =? i then [] else C (p k)).
      split; [reflexivity|]. destruct G as [I G]. split; [split|].
      * cbn. eapply (I_swap _ _ _ _ _ _ p I).
        { intros [k b] [k' b']. unfold p; cbn.
          destruct (Nat.eqb_spec k j), (Nat.eqb_spec k' j); destruct (Nat.eqb_spec k i), (Nat.eqb_spec k' i);
            intros Q; injection Q; intros; subst; congruence. }
        intros [k b] e. unfold slots, oset, p; cbn. destruct (Nat.eqb_spec k j) as [->|Dk].
        { destruct (Nat.eqb_spec j i); [congruence|]. cbn [fst snd]. rewrite E1. intros [= <-]. left. split; [|reflexivity].
          destruct b; reflexivity. }
        destruct (Nat.eqb_spec k i) as [->|Dk'].
        { intros [= <-]. right. destruct b; auto. }
        intros Q. left. split; [exact Q|reflexivity].
      * intros k. cbn. unfold oset, aset. destruct (Nat.eqb_spec k j) as [->|Dk].
        { destruct d as [v0 g0]. destruct R as [R1 [R2 [R3 [R4 [R5 [R6 [R7 R8]]]]]]].
          split; [cbn; rewrite Sc; reflexivity|]. split; [cbn; congruence|]. cbn [snd fst].
          unfold p; cbn [fst snd]. destruct (Nat.eqb_spec j i); [congruence|]. rewrite Nat.eqb_refl.
          split; [exact R3|]. split; [exact R4|]. unfold own_ok; cbn. auto. }
        destruct (Nat.eqb_spec k i) as [->|Dk'].
        { split; [reflexivity|]. split; [cbn; congruence|]. reflexivity. }
        specialize (G k). destruct (sobj s k), (a k); auto. eapply repr_other; [exact G|].
        intros b. unfold p; cbn. destruct (Nat.eqb_spec k i); [congruence|]. destruct (Nat.eqb_spec k j); [congruence|]. reflexivity.
      * intros k xk yk dk B1 B2 B3. cbn in B3. cbn. unfold oset, aset.
        destruct (Nat.eqb_spec k j) as [->|Dk]; [congruence|].
        destruct (Nat.eqb_spec k i) as [->|Dk']; [|eauto 10].
        exfalso. apply B3. split; [|reflexivity]. rewrite Ai in B2. injection B2 as <- <-. reflexivity.
  - (* CopyAsg *)
    destruct S as [y [d [d' [Ai [Aj ->]]]]].
    destruct (good_get _ _ _ _ _ _ G Ai) as [x [E1 [E2 R]]].
    destruct (good_get _ _ _ _ _ _ G Aj) as [xj [F1 [F2 Rj]]].
    unfold vstep. rewrite E2, F2. cbn [bindR]. destruct (Nat.eqb_spec j i) as [->|D].
    + exists s, C. split; [reflexivity|].
      assert (X : forall k, aset a i (Some (y, Some d)) k = a k).
      { intros k. unfold aset. destruct (Nat.eqb_spec k i); [subst; auto|reflexivity]. }
      split; [destruct G as [I G]; split; [exact I|]; intros k; rewrite X; apply G|].
      intros k xk yk dk B1 B2 _. rewrite X. eauto 10.
    + assert (Q : shape_eq x xj = true).
      { destruct R as [R _], Rj as [Rj _]. cbn in R, Rj. subst y. injection Rj as Z1 Z2 Z3.
        unfold shape_eq. rewrite Z1, Z2, Z3, !Nat.eqb_refl, Bool.eqb_reflx. reflexivity. }
      rewrite Q. cbn [bindR].
      destruct (copy_asg s a C j i x xj y d d' G D E1 F1 R Rj Aj) as [s' [C' [H1 [H2 H3]]]]. eauto.
  - (* MoveAsg *)
    destruct S as [y [d [d' [Ai [Aj ->]]]]].
    destruct (good_get _ _ _ _ _ _ G Ai) as [x [E1 [E2 R]]].
    destruct (good_get _ _ _ _ _ _ G Aj) as [xj [F1 [F2 Rj]]].
    unfold vstep. rewrite E2, F2. cbn [bindR]. destruct (Nat.eqb_spec j i) as [->|D].
    { exists s, C. split; [reflexivity|]. split; [exact G|].
      intros k xk yk dk B1 B2 _. eauto 10. }
    assert (Q : shape_eq x xj = true).
    { destruct R as [R _], Rj as [Rj _]. cbn in R, Rj. subst y. injection Rj as Z1 Z2 Z3.
      unfold shape_eq. rewrite Z1, Z2, Z3, !Nat.eqb_refl, Bool.eqb_reflx. reflexivity. }
    rewrite Q. cbn [bindR].
    assert (Y : y = (vsc x, vr x, vc x)) by (destruct R as [R0 _]; exact R0).
    assert (Yj : y = (vsc xj, vr xj, vc xj)) by (destruct Rj as [R0 _]; exact R0).
    destruct (vsc x) eqn:Sc.
    + destruct (copy_asg s a C j i x xj y d d' G D E1 F1 R Rj Aj) as [s' [C' [H1 [H2 H3]]]].
      exists s', C'. split; [exact H1|]. subst y. cbn [fst].
      assert (X : forall k, aset (aset a i (Some (true, vr x, vc x, Some d))) j (Some (true, vr x, vc x, Some d)) k
        = aset a j (Some (true, vr x, vc x, Some d)) k).
      { intros k. unfold aset. destruct (Nat.eqb_spec k j); [reflexivity|]. destruct (Nat.eqb_spec k i); [subst; auto|reflexivity]. }
      split.
      * destruct H2 as [I2 G2]. split; [exact I2|]. intros k. rewrite X. apply G2.
      * intros k xk yk dk B1 B2 B3. rewrite X. eapply H3; eauto.
    + set (p := fun k : key => if fst k =? j then (i, snd k) else if fst k =? i then (j, snd k) else k).
      eexists. exists (fun k => C (p k)).
      split; [reflexivity|]. destruct G as [I G]. split; [split|].
      * cbn. eapply (I_swap _ _ _ _ _ _ p I).
        { intros [k b] [k' b']. unfold p; cbn.
          destruct (Nat.eqb_spec k j), (Nat.eqb_spec k' j); destruct (Nat.eqb_spec k i), (Nat.eqb_spec k' i);
            intros Z; injection Z; intros; subst; congruence. }
        intros [k b] e. unfold slots, oset, p; cbn. destruct (Nat.eqb_spec k j) as [->|Dk].
        { cbn [fst snd]. rewrite E1. intros [= <-]. left. split; [|reflexivity]. destruct b; reflexivity. }
        destruct (Nat.eqb_spec k i) as [->|Dk'].
        { cbn [fst snd]. rewrite F1. intros [= <-]. left. destruct b; auto. }
        intros Z. left. split; [exact Z|reflexivity].
      * intros k. cbn. unfold oset, aset. destruct (Nat.eqb_spec k j) as [->|Dk].
        { destruct d as [v0 g0]. destruct R as [R1 [R2 [R3 [R4 [R5 [R6 [R7 R8]]]]]]].
          cbn in R1. subst y. injection Yj as Z1 Z2 Z3.
          split; [cbn; congruence|]. split; [cbn; congruence|]. cbn [snd fst].
          unfold p; cbn [fst snd]. rewrite Nat.eqb_refl.
          split; [exact R3|]. split; [exact R4|]. unfold own_ok; cbn. repeat split; congruence. }
        destruct (Nat.eqb_spec k i) as [->|Dk'].
        { subst y. split; [cbn; congruence|]. split; [cbn; congruence|]. cbn. reflexivity. }
        specialize (G k). destruct (sobj s k), (a k); auto. eapply repr_other; [exact G|].
        intros b. unfold p; cbn. destruct (Nat.eqb_spec k j); [congruence|]. destruct (Nat.eqb_spec k i); [congruence|]. reflexivity.
      * intros k xk yk dk B1 B2 B3. cbn in B3. cbn. unfold oset, aset.
        destruct (Nat.eqb_spec k j) as [->|Dk].
        { exfalso. apply B3. split; [|auto]. rewrite Aj in B2. injection B2 as <- ->. subst y. reflexivity. }
        destruct (Nat.eqb_spec k i) as [->|Dk']; [|eauto 10].
        exfalso. apply B3. split; [|auto]. rewrite Ai in B2. injection B2 as <- <-. subst y. reflexivity.
  - (* Put *)
    destruct S as [y [v [g [Ai [L ->]]]]].
    destruct (good_get _ _ _ _ _ _ G Ai) as [x [E1 [E2 R]]]. unfold vstep. rewrite E2. cbn [bindR].
    pose proof G as [I G']. pose proof (slots_at _ _ _ false E1) as S1. pose proof (slots_at _ _ _ true E1) as S2. cbn in S1, S2.
    pose proof (repr_len _ _ _ _ _ _ _ _ _ I S1 S2 R) as [L3 L4].
    rewrite L, L3, Nat.eqb_refl. cbn [bindR].
    destruct R as [R1 [R2 [R3 [R4 [R5 [R6 [R7 R8]]]]]]].
    destruct (I_put _ _ _ _ (i, adj) (sel x adj) l I) as [m' [W1 W2]].
    { apply slots_at; exact E1. } { destruct adj; cbn; lia. }
    replace (if adj then vpa x else vpv x) with (edata (sel x adj)) by (destruct adj; cbn; congruence).
    rewrite W1. cbn. eexists; eexists; split; [reflexivity|]. split; [split; [exact W2|]|].
    + intros k. cbn. unfold aset. destruct (Nat.eqb_spec k i) as [->|Dk].
      * rewrite E1. split; [exact R1|]. split; [exact R2|]. cbn [snd]. unfold kset.
        destruct adj; [destruct (keq_spec (i, false) (i, true)); [congruence|]; destruct (keq_spec (i, true) (i, true)); [|congruence]
          |destruct (keq_spec (i, false) (i, false)); [|congruence]; destruct (keq_spec (i, true) (i, false)); [congruence|]];
          unfold own_ok; auto 10.
      * specialize (G' k). destruct (sobj s k), (a k); auto. eapply repr_other; [exact G'|].
        intros b. unfold kset. destruct (keq_spec (k, b) (i, adj)); [congruence|reflexivity].
    + intros k xk yk dk B1 B2 _. cbn. unfold aset. destruct (Nat.eqb_spec k i) as [->|Dk]; [|eauto 10].
      rewrite Ai in B2. injection B2 as <- <-. exists xk. eexists. repeat split; auto.
  - (* Del *)
    destruct S as [N ->]. destruct (a i) as [[y d]|] eqn:Ai; [|congruence].
    destruct (good_get _ _ _ _ _ _ G Ai) as [x [E1 [E2 R]]]. unfold vstep. rewrite E2. cbn.
    pose proof G as [I G']. pose proof (slots_at _ _ _ false E1) as S1. pose proof (slots_at _ _ _ true E1) as S2. cbn in S1, S2.
    pose proof (I_free _ _ _ _ _ _ I S1) as I1.
    assert (S2' : kset (slots (sobj s)) (i, false) None (i, true) = Some (vadj x)).
    { unfold kset. destruct (keq_spec (i, true) (i, false)); [congruence|exact S2]. }
    pose proof (I_free _ _ _ _ _ _ I1 S2') as I2.
    eexists; exists C; split; [reflexivity|]. split; [split|].
    + cbn. eapply I_ext; [exact I2| |reflexivity]. intros [k b]. unfold slots, oset, kset, keq; cbn.
      destruct (Nat.eqb_spec k i); [|reflexivity]. destruct b; reflexivity.
    + intros k. cbn. unfold oset, aset. destruct (Nat.eqb_spec k i) as [->|Dk]; [exact Logic.I|]. apply G'.
    + intros k xk yk dk B1 B2 B3. cbn in B3. cbn. unfold oset, aset. destruct (Nat.eqb_spec k i) as [->|Dk]; [exfalso; auto|].
      eauto 10.
Qed.

Lemma run_ok z h : forall s a a' C, good s a C -> arun z h a a' ->
  exists s' C', vrun z h s = Ok s' /\ good s' a' C' /\
    forall i x y d, sobj s i = Some x -> a i = Some (y, Some d) -> Forall (fun o => ~ moves (fst (fst y)) i o) h ->
    exists x' d', sobj s' i = Some x' /\ vp x' = vp x /\ vr x' = vr x /\ vc x' = vc x /\ a' i = Some (y, Some d').
Proof.
  induction h as [|o h IH]; intros s a a' C G R; cbn in R.
  - subst a'. exists s, C. split; [reflexivity|]. split; [exact G|]. intros. eauto 10.
  - destruct R as [a1 [R1 R2]]. destruct (step_ok z o s a a1 C G R1) as [s1 [C1 [E1 [G1 S1]]]].
    destruct (IH s1 a1 a' C1 G1 R2) as [s' [C' [E2 [G2 S2]]]].
    exists s', C'. cbn. rewrite E1. cbn. split; [exact E2|]. split; [exact G2|].
    intros i x y d B1 B2 B3. inversion B3 as [|? ? B4 B5]; subst.
    destruct (S1 i x y d B1 B2 B4) as [x1 [d1 [H1 [H2 [H3 [H4 H5]]]]]].
    destruct (S2 i x1 y d1 H1 H5 B5) as [x2 [d2 [K1 [K2 [K3 [K4 K5]]]]]].
    exists x2, d2. repeat split; congruence.
Qed.

Lemma good_init : good vinit ainit (fun _ => []).
Proof. split; [split; [discriminate|discriminate]|]. intros i. cbn. exact Logic.I. Qed.

Lemma good_read s a C i sh d : good s a C -> a i = Some (sh, Some d) -> read s i = Ok d.
Proof.
  intros G E. destruct (good_get _ _ _ _ _ _ G E) as [x [E1 [_ R]]]. destruct G as [I _].
  pose proof (slots_at _ _ _ false E1) as S1. pose proof (slots_at _ _ _ true E1) as S2. cbn in S1, S2.
  pose proof (I_load _ _ _ _ _ _ I S1) as L1. pose proof (I_load _ _ _ _ _ _ I S2) as L2.
  destruct d as [v g]. destruct R as [R1 [R2 [R3 [R4 [R5 [R6 [R7 R8]]]]]]].
  unfold read, view_of. rewrite E1. unfold look; cbn. rewrite R7, R8, <- R5, L1. cbn. rewrite R5, <- R6, L2. cbn. congruence.
Qed.

Theorem values (z : T) h (a : astate T) : arun z h ainit a -> exists s, vrun z h vinit = Ok s /\
  forall i sh d, a i = Some (sh, Some d) -> read s i = Ok d.
Proof.
  intros R. destruct (run_ok z h vinit ainit a _ good_init R) as [s [C [E [G _]]]].
  exists s. split; [exact E|]. intros i sh d A. eapply good_read; eauto.
Qed.

Theorem views (z : T) h1 h2 (a1 a2 : astate T) i sh d : arun z h1 ainit a1 -> arun z h2 a1 a2 ->
  a1 i = Some (sh, Some d) -> Forall (fun o => ~ moves (fst (fst sh)) i o) h2 ->
  exists s1 s2 w d2, vrun z h1 vinit = Ok s1 /\ vrun z h2 s1 = Ok s2 /\
    view_of s1 i = Some w /\ view_of s2 i = Some w /\ a2 i = Some (sh, Some d2) /\ look s2 w = Ok d2.
Proof.
  intros R1 R2 A F. destruct (run_ok z h1 vinit ainit a1 _ good_init R1) as [s1 [C1 [E1 [G1 _]]]].
  destruct (run_ok z h2 s1 a1 a2 _ G1 R2) as [s2 [C2 [E2 [G2 S]]]].
  destruct (good_get _ _ _ _ _ _ G1 A) as [x [X1 _]].
  destruct (S i x sh d X1 A F) as [x' [d' [K1 [K2 [K3 [K4 K5]]]]]].
  exists s1, s2, (View (vpv x) (vpa x) (vr x * vc x)), d'. split; [exact E1|]. split; [exact E2|].
  split; [unfold view_of; rewrite X1; reflexivity|].
  assert (V : view_of s2 i = Some (View (vpv x) (vpa x) (vr x * vc x))).
  { unfold view_of. rewrite K1. unfold vp in K2. injection K2 as Q1 Q2. congruence. }
  split; [exact V|]. split; [exact K5|]. pose proof (good_read _ _ _ _ _ _ G2 K5) as Rd.
  unfold read in Rd. rewrite V in Rd. exact Rd.
Qed.

Theorem move_assign (z : T) h (a : astate T) i j sh d d' : arun z h ainit a -> i <> j ->
  a i = Some (sh, Some d) -> a j = Some (sh, Some d') -> fst (fst sh) = false -> fst d' <> [] ->
  exists s w s' s'', vrun z h vinit = Ok s /\ view_of s j = Some w /\ look s w = Ok d' /\
    vstep z (MoveAsg j i) s = Ok s' /\ read s' j = Ok d /\
    view_of s' j = view_of s i /\ view_of s' j <> Some w /\ look s' w = Ok d' /\
    vstep z (Del i) s' = Ok s'' /\ read s'' j = Ok d /\ look s'' w = Err UBoob.
Proof.
  intros R D Ai Aj V Ne. destruct (run_ok z h vinit ainit a _ good_init R) as [s [C [E [G _]]]].
  pose proof (good_read _ _ _ _ _ _ G Ai) as Ri. pose proof (good_read _ _ _ _ _ _ G Aj) as Rj.
  set (a1 := aset (aset a i (Some (sh, None))) j (Some (sh, Some d))).
  destruct (step_ok z (MoveAsg j i) s a a1 C G) as [s1 [C1 [E1 [G1 _]]]].
  { cbn. exists sh, d, (Some d'). split; [exact Ai|]. split; [exact Aj|]. rewrite V.
    destruct (Nat.eqb_spec j i); [congruence|reflexivity]. }
  assert (B1 : a1 j = Some (sh, Some d)) by (unfold a1, aset; rewrite Nat.eqb_refl; reflexivity).
  destruct (step_ok z (Del i) s1 a1 (aset a1 i None) C1 G1) as [s2 [C2 [E2 [G2 _]]]].
  { cbn. split; [|reflexivity]. unfold a1, aset. destruct (Nat.eqb_spec i j); [congruence|]. rewrite Nat.eqb_refl. discriminate. }
  assert (B2 : aset a1 i None j = Some (sh, Some d)).
  { unfold aset at 1. destruct (Nat.eqb_spec j i); [congruence|]. exact B1. }
  pose proof (good_read _ _ _ _ _ _ G1 B1) as R1. pose proof (good_read _ _ _ _ _ _ G2 B2) as R2.
  destruct (good_get _ _ _ _ _ _ G Ai) as [x [X1 [X2 X3]]]. destruct (good_get _ _ _ _ _ _ G Aj) as [y [Y1 [Y2 Y3]]].
  destruct d as [v g]. destruct d' as [v' g']. cbn in Ne.
  pose proof G as [I _]. pose proof (slots_at _ _ _ false X1) as S1. pose proof (slots_at _ _ _ false Y1) as S2. cbn in S1, S2.
  destruct X3 as [P1 [P2 [P3 [P4 [P5 [P6 [P7 P8]]]]]]]. destruct Y3 as [Q1 [Q2 [Q3 [Q4 [Q5 [Q6 [Q7 Q8]]]]]]].
  cbn in P1, Q1. subst sh. injection Q1 as Q11 Q12 Q13. cbn in V.
  assert (F : exists b, edata (vval y) = Ptr b 0).
  { destruct I as [A _]. destruct (A _ _ S2) as [_ H]. destruct (edata (vval y)) as [|b o]; [congruence|].
    destruct H as [-> _]. eauto. }
  destruct F as [b F].
  assert (Vw : view_of s j = Some (View (edata (vval y)) (edata (vadj y)) (vr y * vc y))).
  { unfold view_of. rewrite Y1. congruence. }
  unfold read in Rj. rewrite Vw in Rj.
  assert (M1 : smem s1 = smem s /\ sobj s1 = oset (oset (sobj s) i (Some (Var (vsc x) (vr x) (vc x) (vval y) (vadj y) (vpv x) (vpa x))))
                   j (Some (rebind (Var (vsc y) (vr y) (vc y) (vval x) (vadj x) (vpv y) (vpa y))))).
  { cbn in E1. rewrite X2, Y2 in E1. cbn in E1. destruct (Nat.eqb_spec j i); [congruence|].
    destruct (shape_eq x y); cbn in E1; [|discriminate]. rewrite V in E1.
    injection E1 as <-. cbn. rewrite V. auto. }
  destruct M1 as [M1 M2].
  exists s, (View (edata (vval y)) (edata (vadj y)) (vr y * vc y)), s1, s2.
  split; [exact E|]. split; [exact Vw|]. split; [exact Rj|]. split; [exact E1|]. split; [exact R1|].
  assert (V1 : view_of s1 j = Some (View (edata (vval x)) (edata (vadj x)) (vr y * vc y))).
  { unfold view_of. rewrite M2. unfold oset. rewrite Nat.eqb_refl. reflexivity. }
  split. { rewrite V1. unfold view_of. rewrite X1, P7, P8, Q12, Q13. reflexivity. }
  split. { rewrite V1. intros Z. injection Z as Z1 Z2. destruct I as [_ B].
    refine (B (i, false) (j, false) _ _ S1 S2 _ b _ F); [congruence|congruence]. }
  split. { unfold look. rewrite M1. exact Rj. }
  split; [exact E2|]. split; [exact R2|].
  cbn in E2. unfold getobj in E2. rewrite M2 in E2. unfold oset in E2 at 1.
  destruct (Nat.eqb_spec i j); [congruence|]. unfold oset in E2 at 1. rewrite Nat.eqb_refl in E2. cbn in E2.
  injection E2 as <-. unfold look; cbn. unfold free. rewrite F. cbn.
  destruct (vr y * vc y) as [|n0] eqn:Qn.
  { exfalso. destruct I as [A _]. destruct (A _ _ S2) as [H _]. rewrite Q3 in H. rewrite Q5 in H. destruct v'; [congruence|discriminate]. }
  cbn. unfold rd1. destruct (edata (vadj y)) as [|b' o']; rewrite ?Nat.eqb_refl; [reflexivity|].
  destruct (b =? b'); reflexivity.
Qed.

Theorem move_construct (z : T) h (a : astate T) i j sh d : arun z h ainit a ->
  a i = Some (sh, Some d) -> a j = None -> fst (fst sh) = false ->
  exists s w s', vrun z h vinit = Ok s /\ view_of s i = Some w /\
    vstep z (MoveNew j i) s = Ok s' /\ view_of s' j = Some w /\ look s' w = Ok d.
Proof.
  intros R Ai Aj V. destruct (run_ok z h vinit ainit a _ good_init R) as [s [C [E [G _]]]].
  set (a1 := aset (aset a i (Some (sh, None))) j (Some (sh, Some d))).
  destruct (step_ok z (MoveNew j i) s a a1 C G) as [s1 [C1 [E1 [G1 _]]]].
  { cbn. exists sh, d. split; [exact Aj|]. split; [exact Ai|]. rewrite V. reflexivity. }
  assert (B1 : a1 j = Some (sh, Some d)) by (unfold a1, aset; rewrite Nat.eqb_refl; reflexivity).
  pose proof (good_read _ _ _ _ _ _ G1 B1) as R1.
  destruct (good_get _ _ _ _ _ _ G Ai) as [x [X1 [X2 X3]]]. destruct (good_no _ _ _ _ G Aj) as [N1 N2].
  destruct d as [v g]. destruct X3 as [P1 [P2 [P3 [P4 [P5 [P6 [P7 P8]]]]]]]. cbn in P1. subst sh. cbn in V.
  exists s, (View (vpv x) (vpa x) (vr x * vc x)), s1. split; [exact E|].
  split; [unfold view_of; rewrite X1; reflexivity|]. split; [exact E1|].
  cbn in E1. rewrite N2, X2 in E1. cbn in E1. rewrite V in E1. injection E1 as <-.
  assert (W : forall f, view_of (Vst (smem s) (snx s) (oset f j (Some (rebind x)))) j = Some (View (vpv x) (vpa x) (vr x * vc x))).
  { intros f. unfold view_of; cbn. unfold oset. rewrite Nat.eqb_refl. cbn. congruence. }
  split; [apply W|]. unfold read in R1. rewrite W in R1. exact R1.
Qed.
End LOwn.
