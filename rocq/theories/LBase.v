(** Lemmas about lists, shapes and memory. *)
From Verif Require Import Base Num Expr Node Stat Machine Wf.

Ltac inv H := inversion H; subst; clear H.

Lemma bindR_ok {A B} (x : res A) (f : A -> res B) b :
  bindR x f = Ok b -> exists a, x = Ok a /\ f a = Ok b.
Proof. destruct x; cbn; [eauto|discriminate]. Qed.

Lemma map2_length {A B C} (f : A -> B -> C) l l' :
  length (map2 f l l') = min (length l) (length l').
Proof. revert l'; induction l; destruct l'; cbn; auto. Qed.
Lemma map3_length {A B C D} (f : A -> B -> C -> D) l l' l'' :
  length (map3 f l l' l'') = min (length l) (min (length l') (length l'')).
Proof. revert l' l''; induction l; destruct l', l''; cbn; auto. Qed.
Lemma map4_length {A B C D E} (f : A -> B -> C -> D -> E) l l2 l3 l4 :
  length (map4 f l l2 l3 l4) =
  min (length l) (min (length l2) (min (length l3) (length l4))).
Proof.
  revert l2 l3 l4; induction l; destruct l2, l3, l4; cbn; auto.
Qed.
Lemma mkm_length {A} r c (f : nat -> nat -> A) : length (mkm r c f) = r * c.
Proof.
  unfold mkm. generalize 0 at 2. intro j. revert j.
  induction c; intro j; cbn; [lia|].
  rewrite app_length, map_length, seq_length, IHc. lia.
Qed.

Lemma sk_eqb_eq a b : sk_eqb a b = true <-> a = b.
Proof. destruct a, b; cbn; split; congruence. Qed.
Lemma shape_eqb_eq a b : shape_eqb a b = true <-> a = b.
Proof.
  unfold shape_eqb. rewrite !andb_true_iff, sk_eqb_eq, !Nat.eqb_eq.
  destruct a, b; cbn. split; [intros [[-> ->] ->]|intros H; inv H]; auto.
Qed.
Lemma shape_eqb_refl a : shape_eqb a a = true.
Proof. now apply shape_eqb_eq. Qed.

(** ** Memory *)
Section Mem.
Context {T : Type}.
Implicit Types m : mem T.

Lemma rdn_ok m b o n l d :
  rdn m b o n = Ok l <->
  length l = n /\ forall i, i < n -> m b (o + i) = Some (nth i l d).
Proof.
  revert o l; induction n; intros o l; cbn.
  - split.
    + intros H; inv H; split; auto; intros; lia.
    + intros [H _]. destruct l; cbn in *; congruence.
  - unfold rd1. split.
    + destruct (m b o) eqn:E0; cbn; [|discriminate].
      destruct (rdn m b (S o) n) eqn:E1; cbn; [|discriminate].
      intros H; inv H. apply IHn in E1. destruct E1 as [L R].
      split; [cbn; lia|]. intros [|i] Hi; cbn.
      * now rewrite Nat.add_0_r.
      * rewrite <- R by lia. f_equal; lia.
    + intros [L R]. destruct l as [|x l]; [discriminate|].
      pose proof (R 0 ltac:(lia)) as R0. rewrite Nat.add_0_r in R0. rewrite R0. cbn.
      assert (E1 : rdn m b (S o) n = Ok l).
      { apply IHn. split; [cbn in L; lia|]. intros i Hi.
        specialize (R (S i) ltac:(lia)). cbn in R. rewrite <- R. f_equal; lia. }
      now rewrite E1.
Qed.

Lemma rdn_total m b o n :
  (forall i, i < n -> m b (o + i) <> None) -> exists l, rdn m b o n = Ok l /\ length l = n.
Proof.
  revert o; induction n; intros o H; cbn; [eauto|].
  unfold rd1. pose proof (H 0 ltac:(lia)) as H0. rewrite Nat.add_0_r in H0.
  destruct (m b o) eqn:E0; [|congruence]. cbn.
  destruct (IHn (S o)) as [l [E1 L]].
  { intros i Hi. specialize (H (S i) ltac:(lia)). now replace (S o + i) with (o + S i) by lia. }
  rewrite E1; cbn. exists (t :: l). cbn; auto.
Qed.

Lemma wrn_ok m b o l d :
  (forall i, i < length l -> m b (o + i) <> None) ->
  exists m', wrn m b o l = Ok m' /\
  forall b' o', m' b' o' =
    if (b' =? b) && ((o <=? o') && (o' <? o + length l)) then Some (nth (o' - o) l d)
    else m b' o'.
Proof.
  revert m o; induction l as [|x l IH]; intros m o H; cbn [wrn].
  - exists m; split; auto. intros b' o'. cbn [length].
    destruct (b' =? b), (Nat.leb_spec o o'), (Nat.ltb_spec o' (o + 0)); cbn; auto; lia.
  - unfold wr1. pose proof (H 0 ltac:(cbn; lia)) as H0. rewrite Nat.add_0_r in H0.
    destruct (m b o) eqn:E0; [|congruence]. cbn [bindR].
    edestruct IH with (o := S o) as [m' [E1 R]].
    2: { rewrite E1. exists m'. split; [reflexivity|].
         intros b' o'. rewrite R. cbn [length].
         destruct (Nat.eqb_spec b' b); cbn [andb]; [|reflexivity]. subst b'.
         destruct (Nat.leb_spec (S o) o'), (Nat.ltb_spec o' (S o + length l)); cbn [andb].
         - rewrite (proj2 (Nat.leb_le o o')), (proj2 (Nat.ltb_lt o' _)) by lia. cbn.
           replace (o' - o) with (S (o' - S o)) by lia. reflexivity.
         - rewrite (proj2 (Nat.leb_le o o')), (proj2 (Nat.ltb_ge o' _)) by lia. cbn.
           rewrite (proj2 (Nat.eqb_neq o' o)) by lia. reflexivity.
         - destruct (Nat.eqb_spec o' o).
           + subst. rewrite (proj2 (Nat.leb_le o o)), (proj2 (Nat.ltb_lt o _)) by lia. cbn.
             now rewrite Nat.sub_diag.
           + rewrite (proj2 (Nat.leb_gt o o')) by lia. reflexivity.
         - destruct (Nat.eqb_spec o' o); [lia|].
           rewrite (proj2 (Nat.ltb_ge o' (o + S (length l)))) by lia.
           rewrite andb_false_r. reflexivity. }
    intros i Hi. cbv beta. rewrite (proj2 (Nat.eqb_neq (S o + i) o)) by lia. rewrite andb_false_r.
    specialize (H (S i) ltac:(cbn; lia)). now replace (S o + i) with (o + S i) by lia.
Qed.
End Mem.
