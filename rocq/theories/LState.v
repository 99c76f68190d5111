(** Node state: what a constructor cached stays as it is, everything else is
    recomputed by every forward evaluation before it is used. *)
From Verif Require Import Base Num Expr Node Stat Machine Wf Pure LBase LKind LSimDef.

Section LState.
Context {N : num}.
Notation T := (carrier N).
Notation E := (expr T (ann N)).

Definition sn (ka kb kc kd kfa kfb kma kmb kmc : bool) (s : sst N) : sst N :=
  let c (b : bool) (x : T) := if b then x else n0 N in
  let l (b : bool) (x : list T) := if b then x else [] in
  SST (c ka (sa s)) (c kb (sb s)) (c kc (sc s)) (c kd (sd s)) (kfa && fa s) (kfb && fb s)
      (l kma (ma s)) (l kmb (mb s)) (l kmc (mc s)).
(** The fields written by the constructor (and by nothing else), given which
    operands are constants. *)
Definition stn (q : stat) (cs : list bool) : sst N -> sst N :=
  let c0 := cst cs 0 in let c1 := cst cs 1 in let c2 := cst cs 2 in
  let f := false in
  match q with
  | NormSSS | NormVVS => sn c2 f f f f f f f f
  | NormVSS => sn c2 f c0 c0 f f f f f
  | NormVSV => sn c2 (c0 && c2) (c0 && c2) (c0 && c2) c2 f f f f
  | NormVVV => sn c2 f f f c2 f f f f
  | NormVSM | NormVVM => sn c2 f f f c2 f c2 f f
  | CauSSS | CauVSS | CauVSV | CauVVS | CauVVV => sn f f f f f f f f f
  | UniSSS | UniVVV => sn (c1 && c2) f f f f f f f f
  | UniVSS => sn (c1 && c2) c0 c0 f f f f f f
  | UniVSV => sn (c1 && c2) c0 f f c0 f f f f
  | UniVVS => sn (c1 && c2) f c0 f f c0 f f f
  | BerSS => sn c1 c1 f f f f f f f
  | BerVS => sn c1 c1 c0 f c0 f f f f
  | BerVV => sn f f f f c0 c1 f f f
  | Wish => sn c0 c1 f f c0 c1 c0 c1 c0
  end.
Definition kn (k : kd) (cs : list bool) (s : sst N) : sst N :=
  match k with KStat q => stn q cs s | _ => sst0 N end.

Lemma stat_keep q cs ss s vs s' x : stat_fwd N q cs ss s vs = Ok (s', x) -> stn q cs s' = stn q cs s.
Proof.
  destruct s as [a1 b1 c1 d1 p1 q1 u1 v1 w1]. destruct q; unfold stat_fwd, stn, sn, norm_upd_s, norm_upd_v, norm_upd_m, uni_upd, uni_updx, ber_upd, ber_updx,
    wish_updv, wish_updx, minco, maxco;
    destruct (cst cs 0), (cst cs 1), (cst cs 2); cbn;
    repeat match goal with
      | |- context [if ?b then _ else _] =>
          lazymatch b with context [if _ then _ else _] => fail | _ => destruct b; cbn end
      | |- context [match arg N vs 0 with _ => _ end] => destruct (arg N vs 0); cbn
      end; intros HH; inversion HH; subst; reflexivity.
Qed.

Lemma kfwd_keep k cs ss s vs s' v : kfwd k cs ss s vs = Ok (s', v) -> kn k cs s' = kn k cs s.
Proof.
  destruct k; cbn [kfwd kn]; auto. intros H. apply bindR_ok in H. destruct H as [[s2 x] [H1 H2]].
  inversion H2; subst. eapply stat_keep; eauto.
Qed.

Lemma sn_inj ka kb kc kd kfa kfb kma kmb kmc s1 s2 :
  sn ka kb kc kd kfa kfb kma kmb kmc s1 = sn ka kb kc kd kfa kfb kma kmb kmc s2 ->
  (ka = true -> sa s1 = sa s2) /\ (kb = true -> sb s1 = sb s2) /\ (kc = true -> sc s1 = sc s2) /\
  (kd = true -> sd s1 = sd s2) /\ (kfa = true -> fa s1 = fa s2) /\ (kfb = true -> fb s1 = fb s2) /\
  (kma = true -> ma s1 = ma s2) /\ (kmb = true -> mb s1 = mb s2) /\ (kmc = true -> mc s1 = mc s2).
Proof.
  unfold sn. intros H. injection H as H1 H2 H3 H4 H5 H6 H7 H8 H9.
  repeat match goal with |- _ /\ _ => split end; intros ->; assumption.
Qed.

(** The value and the seeds do not depend on the rest of the state. *)
Lemma stat_indep q cs ss s1 s2 vs s1' x : stn q cs s1 = stn q cs s2 ->
  stat_fwd N q cs ss s1 vs = Ok (s1', x) ->
  exists s2', stat_fwd N q cs ss s2 vs = Ok (s2', x) /\
    forall seed i, stat_bwd N q cs ss s1' seed vs i = stat_bwd N q cs ss s2' seed vs i.
Proof.
  destruct s1 as [a1 b1 c1 d1 p1 q1 u1 v1 w1], s2 as [a2 b2 c2 d2 p2 q2 u2 v2 w2].
  destruct q; unfold stn, stat_fwd, norm_upd_s, norm_upd_v, norm_upd_m, uni_upd, uni_updx, ber_upd, ber_updx,
    wish_updv, wish_updx, wish_ok, uni_in, minco, maxco;
    destruct (cst cs 0) eqn:C0, (cst cs 1) eqn:C1, (cst cs 2) eqn:C2; intros HS; apply sn_inj in HS; cbn in HS;
    destruct HS as [S1 [S2 [S3 [S4 [S5 [S6 [S7 [S8 S9]]]]]]]];
    try specialize (S1 eq_refl); try specialize (S2 eq_refl); try specialize (S3 eq_refl);
    try specialize (S4 eq_refl); try specialize (S5 eq_refl); try specialize (S6 eq_refl);
    try specialize (S7 eq_refl); try specialize (S8 eq_refl); try specialize (S9 eq_refl);
    subst; cbn;
    repeat match goal with
      | |- context [match arg N vs 0 with _ => _ end] => destruct (arg N vs 0) eqn:?; cbn
      | |- context [if ?b then _ else _] =>
          lazymatch b with context [if _ then _ else _] => fail | _ => destruct b eqn:?; cbn; rewrite ?andb_false_r; cbn end
      end; intros HH; try discriminate HH; injection HH as <- <-;
      (eexists; split; [reflexivity|]);
      intros seed i; unfold stat_bwd, uni_in, wish_ok; cbn;
      rewrite ?C0, ?C1, ?C2;
      repeat match goal with H : ?x = ?b |- context [?x] => rewrite H end; cbn;
      rewrite ?andb_false_r; cbn; try reflexivity; destruct (neqb N seed (n0 N)); reflexivity.
Qed.

End LState.
