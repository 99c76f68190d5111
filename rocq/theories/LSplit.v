(** Splitting at a placeholder. *)
From Coq Require Import Reals Lra FunctionalExtensionality.
From Coquelicot Require Import Coquelicot.
From Verif Require Import Base Num Expr Node Stat Machine Wf Pure LBase LKind LSimDef LMem LSimF LSimB LBind Session LUser
  Tape LTape LState LNrm LTop XR Spec RSess Grad LReal LScal LKA LKB LKM LVal LGrad LDiff LIndep LGrd LPh Elim LElim Split.
Open Scope R_scope.
Set Bullet Behavior "Strict Subproofs".

Section Thm.
Variable la : linalg xr.
Hypothesis LA : la_ok la.
Notation N := (XR la).
Notation E := (expr N (ann N)).
Notation U := (expr N unit).

Lemma partials_out (u : U) D r o g k : wfs u = true -> ~ In o (refs u) -> partials D u r o g -> g k = 0.
Proof.
  intros HW Ho HP. refine (der_unique _ _ _ _ (HP k) _).
  eapply der_ext; [|apply (der_const (el (val D u r) k))]. intros t. cbn.
  destruct (indep D u r (set1 r o t) HW) as [X _]; [|now rewrite X].
  intros i Hi. unfold set1. destruct (Nat.eqb_spec i o); [|reflexivity]. subst. now apply inputs_refs in Hi.
Qed.
Lemma dotp_zero s g : (forall k, g k = 0) -> dotp s g = 0.
Proof.
  intros H. unfold dotp. rewrite (sumn_ext _ _ (fun _ => 0)). 2: { intros. rewrite H. lra. }
  induction (length s) as [|n IH]; cbn; lra.
Qed.

Section One.
Variables (w : nat) (sh : shape) (y f : U) (D : nat -> R).
Notation u := (EGlue tt (EEq tt sh w y) f : U).
Hypothesis HK : okexpr la u.
Hypothesis NY : writes y = [].

Lemma split_thm bv ba bv' ba' bv'' ba'' (e ey ef : E) m m' rho al b seed :
  session la bv ba u D e m -> mreal la u m D rho al ->
  session la bv' ba' y D ey m' -> session la bv'' ba'' f D ef m' -> mreal la u m' D rho al ->
  dom D true b u rho ->
  length seed = size (shape_of f) -> (b = true -> forall j, (j < length seed)%nat -> el seed j = 1) ->
  (forall o, In o (writes f) -> al o = 0) ->
  exists e2 m2 ey2 ef2 m2' x, autodiff e (map Fin seed) m = Ok (e2, m2, x) /\
    stages [(w, size sh, ey)] ef (map Fin seed) m' = Ok ([ey2], ef2, m2', x) /\
    (forall o, In o (refs u) -> ~ In o (eqw f) -> m2' 1%nat o = m2 1%nat o) /\
    forall o, In o (refs u) -> ~ In o (eqw u) -> m2' 0%nat o = m2 0%nat o.
Proof.
  intros HS HM SY SF HM' HD HL HU HZ.
  assert (FK : wfs y = true /\ shape_of y = sh /\ disc y = true /\ wfs f = true /\ disc f = true /\
    cfin (y : expr xr unit) /\ cfin (f : expr xr unit) /\ (forall o, In o (cells sh w) -> ~ In o (refs y)) /\
    forall o, In o (eqw f) -> ~ In o (refs y) /\ ~ In o (cells sh w)).
  { destruct HK as [W [C F]]. cbn [wfs] in W. cbn [disc refs] in C. cbn [cfin] in F. rewrite !andb_true_iff in W. rewrite !andb_true_iff in C.
    destruct W as [[[[[[W1 W2] W3] W4] W5] _] _], C as [[[C1 C2] C3] C4]. apply shape_eqb_eq in W3. rewrite dj_spec in C2. rewrite dj_spec in C4.
    repeat (match goal with |- _ /\ _ => split end); try tauto; auto.
    intros o Ho. split; intros X; apply (C4 o Ho), in_or_app; auto. }
  destruct FK as [W1 [S1 [D1 [W2 [D2 [F1 [F2 [NC NE]]]]]]]].
  assert (KY : okexpr la y) by (split; [exact W1|split; [exact D1|exact F1]]).
  assert (KF : okexpr la f) by (split; [exact W2|split; [exact D2|exact F2]]).
  set (x := val D y rho). set (rho1 := put rho w x).
  pose proof (val_len D y rho W1) as LX. change (carrier N) with xr in *. fold x in LX. rewrite S1 in LX.
  assert (YE : fin_env D y rho = rho).
  { apply functional_extensionality. intros o. apply (env_keep' la); [exact W1|]. change (carrier N) with xr in *. rewrite NY. intros []. }
  assert (HR1 : rho1 = put (fin_env D y rho) w (val D y rho)) by now rewrite YE.
  destruct (ph_thm la LA bv ba sh w y f D e m rho al b seed rho1 HK HS HM HD HL HU HZ HR1)
    as [e2 [m2 [gw [A1 [A2 A3]]]]]. specialize (A3 NY).
  assert (HD2 : dom D true false y rho /\ dom D true b f rho1).
  { cbn [dom] in HD. destruct HD as [X1 X2]. split; [exact X1|]. rewrite HR1. unfold val, fin_env in *. cbn [den] in X2.
    destruct (den D y rho). exact X2. }
  destruct HD2 as [DY DF].
  destruct HM' as [HV HC].
  assert (RY : forall o, In o (refs y) -> In o (refs u)) by (intros o Ho; cbn [refs]; rewrite !in_app_iff; auto).
  assert (RF : forall o, In o (refs f) -> In o (refs u)) by (intros o Ho; cbn [refs]; rewrite !in_app_iff; auto).
  assert (RW : forall o, In o (cells sh w) -> In o (refs u)) by (intros o Ho; cbn [refs]; rewrite !in_app_iff; auto).
  assert (CY : forall o, In o (drefs y) -> In o (drefs u)) by (intros o Ho; cbn [drefs]; rewrite !in_app_iff; auto).
  assert (CF : forall o, In o (drefs f) -> In o (drefs u)) by (intros o Ho; cbn [drefs]; rewrite !in_app_iff; auto).
  assert (MY : mreal la y m' D rho al) by (split; auto).
  (* evaluate y *)
  destruct (value_thm la LA bv' ba' y D ey m' rho al false KY SY MY (dom_mono D true y false rho DY)) as [ey1 [m1 [B1 [B2 B3]]]].
  destruct (call_frame la LA bv' ba' y D ey m' (@OpEval N) ey1 m1 KY SY) as [FA FB].
  { exact I. } { exact I. } { cbn [step]. change (carrier N) with xr in *. rewrite B1. reflexivity. }
  rewrite YE in B3.
  assert (M1 : mreal la u m1 D rho al).
  { split.
    - intros o Ho. destruct (HV o Ho) as [V1 V2]. destruct (in_dec Nat.eq_dec o (refs y)) as [X|X].
      + now apply (proj1 B3).
      + rewrite !FB; auto; intros [Q1 Q2]; try discriminate; auto. change (carrier N) with xr in *. rewrite NY in Q2. destruct Q2.
    - intros o Ho. rewrite FB; auto; intros [Q1 Q2]; discriminate. }
  (* w.get() = x *)
  destruct (wrn_ok m1 0%nat w (map Fin x) (Fin 0)) as [mw [B4 B5]].
  { intros i Hi. rewrite map_length in Hi. rewrite (proj1 (proj1 M1 (w + i)%nat ltac:(apply RW, in_cells; lia))). discriminate. }
  rewrite map_length in B5.
  assert (KW : forall b o, m1 b o <> None -> mw b o <> None) by (intros b0 o Ho; rewrite B5; destruct (_ && _); [discriminate|exact Ho]).
  assert (MW : mreal la u mw D rho1 al).
  { split.
    - intros o Ho. destruct (proj1 M1 o Ho) as [V1 V2]. rewrite !B5. cbn [Nat.eqb andb]. split; [|exact V2].
      unfold rho1, put. destruct (_ && _); [|exact V1]. f_equal. rewrite map_nth. reflexivity.
    - intros o Ho. rewrite B5. cbn [Nat.eqb andb]. now apply (proj2 M1). }
  assert (SY1 : session la bv' ba' y D ey1 mw) by (eapply session_to; eauto).
  assert (SF1 : session la bv'' ba'' f D ef mw) by (eapply session_to; [exact SF|]; auto).
  (* autodiff f *)
  assert (MF : mreal la f mw D rho1 al) by (split; intros; apply MW; auto).
  destruct (grad_full la LA bv'' ba'' f D ef mw rho1 al b seed KF SF1 MF DF HL HU HZ)
    as [ef2 [m3 [al1 [G1 [G2 [G3 [G4 [G5 [_ [G7 G8]]]]]]]]]].
  destruct (call_frame la LA bv'' ba'' f D ef mw (@OpDiff N (map Fin seed)) ef2 m3 KF SF1) as [FC FD].
  { cbn. now rewrite map_length. } { exact I. } { cbn [step]. change (carrier N) with xr in *. rewrite G1. reflexivity. }
  assert (E3 : forall o, In o (refs u) -> m3 1%nat o = Some (Fin (al1 o))).
  { intros o Ho. destruct (in_dec Nat.eq_dec o (refs f)) as [X|X]; [now apply G3|]. rewrite FD, G4; auto.
    - now apply (proj1 MW). - intros []; discriminate. - tauto. }
  assert (V3 : forall o, In o (refs u) -> ~ In o (eqw f) -> m3 0%nat o = Some (Fin (rho1 o))).
  { intros o Ho Hn. destruct (in_dec Nat.eq_dec o (refs f)) as [X|X]; [now apply G5|]. rewrite FD; auto.
    - now apply (proj1 MW). - intros [_ Q]. apply X. exact (@writes_refs N _ f o Q). - intros []; discriminate. }
  assert (RE : forall o, ~ In o (cells sh w) -> rho1 o = rho o).
  { intros o Ho. rewrite in_cells in Ho. unfold rho1, put. rewrite LX. destruct (_ && _) eqn:Q; auto.
    rewrite andb_true_iff, Nat.leb_le, Nat.ltb_lt in Q. tauto. }
  assert (MY3 : mreal la y m3 D rho al1).
  { split.
    - intros o Ho. split; [|now apply E3, RY]. rewrite V3; [|now apply RY|intros X; exact (proj1 (NE o X) Ho)].
      rewrite RE; [reflexivity|]. intros X. exact (NC o X Ho).
    - intros o Ho. rewrite FD; auto; [|intros []; discriminate|intros []; discriminate]. apply MW. auto. }
  (* autodiff y *)
  set (s := map al1 (seq w (size sh))).
  assert (LS : length s = size (shape_of y)) by (unfold s; now rewrite map_length, seq_length, S1).
  assert (SY3 : session la bv' ba' y D ey1 m3) by (eapply session_to; eauto).
  destruct (grad_full la LA bv' ba' y D ey1 m3 rho al1 false s KY SY3 MY3 DY LS ltac:(discriminate))
    as [ey2 [m4 [al2 [K1 [K2 [K3 [K4 [K5 [_ [K7 K8]]]]]]]]]].
  { intros o Ho. change (carrier N) with xr in *. rewrite NY in Ho. destruct Ho. }
  destruct (call_frame la LA bv' ba' y D ey1 m3 (@OpDiff N (map Fin s)) ey2 m4 KY SY3) as [FE FF].
  { cbn. now rewrite map_length. } { exact I. } { cbn [step]. change (carrier N) with xr in *. rewrite K1. reflexivity. }
  assert (LD : rdn m3 1%nat w (size sh) = Ok (map Fin s)).
  { apply (rdn_ok m3 1%nat w (size sh) _ (Fin 0)). rewrite map_length, LS, S1. split; [reflexivity|]. intros i Hi.
    rewrite E3 by (apply RW, in_cells; lia). f_equal. rewrite map_nth. unfold s. f_equal.
    rewrite (nth_indep _ 0 (al1 0%nat)) by (now rewrite map_length, seq_length). rewrite map_nth, seq_nth by exact Hi. reflexivity. }
  exists e2, m2, ey2, ef2, m4, (map Fin (val D f rho1)).
  split; [exact A1|]. split.
  { cbn [stages]. unfold load, store. change (carrier N) with xr in *. fold x in B1. rewrite B1. cbn [bindR]. rewrite B4. cbn [bindR].
    rewrite G1. cbn [bindR]. rewrite LD. cbn [bindR]. rewrite K1. reflexivity. }
  assert (GF : forall o g, ~ In o (eqw f) -> partials D f rho1 o g -> al1 o = al o + dotp seed g).
  { intros o g Hn HP. destruct (in_dec Nat.eq_dec o (refs f)) as [X|X].
    - destruct (G8 o X Hn) as [g' [P1 P2]]. rewrite P2. f_equal. apply dotp_ext. intros k. eapply (partials_unique la); eauto.
    - rewrite G4 by exact X. rewrite dotp_zero; [lra|]. intros k. eapply partials_out; eauto. }
  split.
  - intros o Ho Hn. destruct (in_dec Nat.eq_dec o (cells sh w)) as [X|X].
    + assert (NR := NC o X). rewrite in_cells in X. replace o with (w + (o - w))%nat by lia.
      destruct (A2 (o - w)%nat ltac:(lia)) as [P1 P2]. rewrite P2. replace (w + (o - w))%nat with o in * by lia.
      rewrite FF; auto; [|intros []; discriminate|tauto]. rewrite E3 by exact Ho. now rewrite (GF o _ Hn P1).
    + destruct (A3 o Ho) as [gf [gy [P1 [P2 P3]]]].
      { cbn [eqw]. change (carrier N) with xr in *. rewrite !in_app_iff. intros [[Q|Q]|Q]; auto.
        apply (refs_eqw_writes la y o) in Q. change (carrier N) with xr in *. rewrite NY in Q. destruct Q. }
      rewrite P3. assert (EY : dotp s gy = sumn (size sh) (fun j => (al (w + j)%nat + dotp seed (gw j)) * gy j)).
      { unfold dotp at 1. rewrite LS, S1. apply sumn_ext. intros j Hj. destruct (A2 j Hj) as [Q1 _].
        rewrite <- (GF (w + j)%nat (gw j)); [|intros Q; apply (NE _ Q), in_cells; lia|exact Q1]. f_equal.
        unfold s, el. rewrite (nth_indep _ 0 (al1 0%nat)) by (now rewrite map_length, seq_length).
        now rewrite map_nth, seq_nth by exact Hj. }
      rewrite <- EY, <- (GF o gf Hn P1). destruct (in_dec Nat.eq_dec o (refs y)) as [Z|Z].
      * rewrite K3 by exact Z. destruct (K8 o Z) as [g' [Q1 Q2]].
        { intros Q. apply (refs_eqw_writes la y o) in Q. change (carrier N) with xr in *. rewrite NY in Q. destruct Q. }
        rewrite Q2. do 3 f_equal. apply dotp_ext. intros k. eapply (partials_unique la); eauto.
      * rewrite FF; auto; [|intros []; discriminate|tauto]. rewrite E3 by exact Ho. rewrite (dotp_zero s gy); [now rewrite Rplus_0_r|].
        intros k. exact (partials_out y D rho o gy k W1 Z P2).
  - intros o Ho Hn. assert (Hn' : ~ In o (eqw f) /\ ~ In o (cells sh w)) by (cbn [eqw] in Hn; rewrite !in_app_iff in Hn; tauto).
    destruct (restore_thm la LA bv ba u D e m rho al b seed HK HS HM HD HL HU) as [e3 [m5 [v5 [Z1 Z2]]]].
    change (carrier N) with xr in *. rewrite A1 in Z1. inversion Z1; subst e3 m5 v5. rewrite Z2 by assumption.
    rewrite (proj1 (proj1 HM o Ho)). rewrite FF; auto.
    + rewrite V3 by tauto. now rewrite RE by tauto.
    + intros [_ Q]. rewrite NY in Q. destruct Q.
    + intros []; discriminate.
Qed.
End One.

(** Any number of stages. *)
Lemma glue_der w sh (y g : U) D rho al b seed o gu gg gy gw (u := EGlue tt (EEq tt sh w y) g) (rho1 := put rho w (val D y rho)) :
  okexpr la u -> ctor_ok u = true -> writes y = [] -> dom D true b u rho ->
  length seed = size (shape_of g) -> (b = true -> forall j, (j < length seed)%nat -> el seed j = 1) ->
  (forall o, In o (writes u) -> al o = 0) ->
  In o (refs u) -> ~ In o (eqw u) ->
  partials D u rho o gu -> partials D g rho1 o gg -> partials D y rho o gy ->
  (forall j, (j < size sh)%nat -> partials D g rho1 (w + j) (gw j)) ->
  dotp seed gu = dotp seed gg + sumn (size sh) (fun j => dotp seed (gw j) * gy j).
Proof.
  intros HK HC NY HD HL HU HZ Ho Hn PU PG PY PW.
  assert (W1 : wfs y = true). { destruct HK as [W _]. cbn [u wfs] in W. rewrite !andb_true_iff in W. tauto. }
  assert (YE : fin_env D y rho = rho).
  { apply functional_extensionality. intros i. apply (env_keep' la); [exact W1|]. change (carrier N) with xr in *. rewrite NY. intros []. }
  destruct (session_start la LA 2%nat 3%nat u D rho al) as [e [m [HS HM]]]; auto.
  { cbv; intuition discriminate. }
  assert (ZG : forall i, In i (writes g) -> al i = 0) by (intros i Hi; apply HZ; cbn [u writes]; rewrite !in_app_iff; auto).
  assert (ZW : forall j, (j < size sh)%nat -> al (w + j)%nat = 0).
  { intros j Hj. apply HZ. cbn [u writes]. rewrite !in_app_iff. left. left. apply in_cells. lia. }
  destruct (ph_thm la LA 2%nat 3%nat sh w y g D e m rho al b seed rho1 HK HS HM HD HL HU ZG) as [e2 [m2 [gw' [A1 [A2 A3]]]]].
  { unfold rho1. now rewrite YE. }
  destruct (A3 NY o Ho Hn) as [gf' [gy' [P1 [P2 P3]]]].
  destruct (grad_full la LA 2%nat 3%nat u D e m rho al b seed HK HS HM HD HL HU HZ) as [e3 [m3 [al1 [G1 [_ [G3 [_ [_ [_ [_ G8]]]]]]]]]].
  change (carrier N) with xr in *. rewrite A1 in G1. inversion G1; subst e3 m3.
  destruct (G8 o Ho Hn) as [gu' [Q1 Q2]]. pose proof (G3 o Ho) as Q3. rewrite P3 in Q3. inversion Q3 as [Q4].
  rewrite (dotp_ext seed gu gu') by (intros k; eapply (partials_unique la); eauto).
  rewrite (dotp_ext seed gg gf') by (intros k; eapply (partials_unique la); eauto).
  rewrite (sumn_ext _ (fun j => dotp seed (gw j) * gy j) (fun j => (al (w + j)%nat + dotp seed (gw' j)) * gy' j)); [lra|].
  intros j Hj. rewrite ZW by exact Hj. rewrite (partials_unique la y D rho o gy gy' j PY P2).
  destruct (A2 j Hj) as [X _]. rewrite (dotp_ext seed (gw j) (gw' j)); [lra|]. intros k. exact (partials_unique la g D rho1 _ _ _ k (PW j Hj) X).
Qed.

Definition stage_ok D (m : mem N) (p : nat * shape * U) (q : nat * nat * E) : Prop :=
  exists w sh y ey bv ba, p = (w, sh, y) /\ q = (w, size sh, ey) /\ writes y = [] /\ session la bv ba y D ey m.
Lemma stage_to D m m' l k : Forall2 (stage_ok D m) l k -> (forall b o, m b o <> None -> m' b o <> None) -> Forall2 (stage_ok D m') l k.
Proof.
  intros H HK. induction H as [|p q l k H0 H IH]; constructor; auto.
  destruct H0 as [w [sh [y [ey [bv [ba [H1 [H2 [H3 H4]]]]]]]]]. exists w, sh, y, ey, bv, ba. repeat split; auto. eapply session_to; eauto.
Qed.

Lemma stages_thm (f : U) D b seed bvf baf (ef : E) l : forall k m rho al (u := glued l f),
  okexpr la u -> ctor_ok u = true -> Forall2 (stage_ok D m) l k -> session la bvf baf f D ef m ->
  mreal la u m D rho al -> dom D true b u rho ->
  length seed = size (shape_of f) -> (b = true -> forall j, (j < length seed)%nat -> el seed j = 1) ->
  (forall o, In o (writes u) -> al o = 0) ->
  exists es ef1 m2 al', stages k ef (map Fin seed) m = Ok (es, ef1, m2, map Fin (val D u rho)) /\
    (forall o, In o (refs u) -> m2 1%nat o = Some (Fin (al' o))) /\
    (forall o, ~ In o (refs u) -> al' o = al o) /\
    (forall o, In o (refs u) -> ~ In o (eqw u) -> m2 0%nat o = Some (Fin (rho o))) /\
    (forall o, In o (refs u) -> ~ In o (eqw u) -> exists g, partials D u rho o g /\ al' o = al o + dotp seed g) /\
    (forall b i, m b i <> None -> m2 b i <> None) /\
    forall b i, (b = 0 \/ b = 1 \/ b = 4)%nat -> ~ (b = 0%nat /\ In i (writes u)) -> ~ (b = 1%nat /\ In i (refs u)) -> m2 b i = m b i.
Proof.
  induction l as [|[[w sh] y] l IH]; intros k m rho al u HK HC HF SF HM HD HL HU HZ.
  { inversion HF; subst. subst u. cbn [glued fold_right] in *.
    destruct (grad_full la LA bvf baf f D ef m rho al b seed HK SF HM HD HL HU HZ) as [ef2 [m3 [al1 [G1 [_ [G3 [G4 [G5 [_ [_ G8]]]]]]]]]].
    destruct (call_frame la LA bvf baf f D ef m (@OpDiff N (map Fin seed)) ef2 m3 HK SF) as [FC FD].
    { cbn. now rewrite map_length. } { exact I. } { cbn [step]. change (carrier N) with xr in *. rewrite G1. reflexivity. }
    exists [], ef2, m3, al1. split; [cbn [stages]; change (carrier N) with xr in *; rewrite G1; reflexivity|]. repeat (split; [assumption|]). exact FD. }
  inversion HF as [|p q l0 k0 H0 HF0]; subst. rename k0 into k'.
  destruct H0 as [w' [sh' [y' [ey [bv' [ba' [H1 [H2 [NY SY]]]]]]]]]. inversion H1; subst w' sh' y' q. clear H1.
  set (g := glued l f) in *. change u with (EGlue tt (EEq tt sh w y) g : U) in *. clear u.
  set (u := EGlue tt (EEq tt sh w y) g : U) in *.
  assert (FK : wfs y = true /\ shape_of y = sh /\ disc y = true /\ wfs g = true /\ disc g = true /\
    cfin (y : expr xr unit) /\ cfin (g : expr xr unit) /\ (forall o, In o (cells sh w) -> ~ In o (refs y)) /\
    forall o, In o (eqw g) -> ~ In o (refs y) /\ ~ In o (cells sh w)).
  { destruct HK as [W [C F]]. cbn [u wfs] in W. cbn [u disc refs] in C. cbn [u cfin] in F. rewrite !andb_true_iff in W. rewrite !andb_true_iff in C.
    destruct W as [[[[[[W1 W2] W3] W4] W5] _] _], C as [[[C1 C2] C3] C4]. apply shape_eqb_eq in W3. rewrite dj_spec in C2. rewrite dj_spec in C4.
    repeat (match goal with |- _ /\ _ => split end); try tauto; auto.
    intros o Ho. split; intros X; apply (C4 o Ho), in_or_app; auto. }
  destruct FK as [W1 [S1 [D1 [W2 [D2 [F1 [F2 [NC NE]]]]]]]].
  assert (KY : okexpr la y) by (split; [exact W1|split; [exact D1|exact F1]]).
  assert (KF : okexpr la g) by (split; [exact W2|split; [exact D2|exact F2]]).
  assert (CG : ctor_ok g = true) by (cbn [u ctor_ok] in HC; rewrite !andb_true_iff in HC; tauto).
  assert (SG : shape_of g = shape_of f) by (subst g; clear; induction l as [|[[? ?] ?] l IH]; [reflexivity|exact IH]).
  assert (HLg : length seed = size (shape_of g)) by (transitivity (size (shape_of f)); [exact HL|f_equal; symmetry; exact SG]).
  set (x := val D y rho). set (rho1 := put rho w x).
  pose proof (val_len D y rho W1) as LX. change (carrier N) with xr in *. fold x in LX. rewrite S1 in LX.
  assert (YE : fin_env D y rho = rho).
  { apply functional_extensionality. intros o. apply (env_keep' la); [exact W1|]. change (carrier N) with xr in *. rewrite NY. intros []. }
  assert (VU : val D u rho = val D g rho1).
  { unfold u, rho1, x. unfold val at 1. unfold fin_env in YE. unfold val. cbn [den]. destruct (den D y rho) as [a r]. cbn [fst snd] in *. now subst r. }
  assert (HD2 : dom D true false y rho /\ dom D true b g rho1).
  { cbn [u dom] in HD. destruct HD as [X1 X2]. split; [exact X1|]. unfold rho1, x. unfold fin_env in YE, X2. unfold val. cbn [den] in X2.
    destruct (den D y rho) as [a r]. cbn [fst snd] in *. now subst r. }
  destruct HD2 as [DY DF].
  destruct HM as [HV HCC].
  assert (RY : forall o, In o (refs y) -> In o (refs u)) by (intros o Ho; cbn [u refs]; rewrite !in_app_iff; auto).
  assert (RF : forall o, In o (refs g) -> In o (refs u)) by (intros o Ho; cbn [u refs]; rewrite !in_app_iff; auto).
  assert (RW : forall o, In o (cells sh w) -> In o (refs u)) by (intros o Ho; cbn [u refs]; rewrite !in_app_iff; auto).
  assert (CY : forall o, In o (drefs y) -> In o (drefs u)) by (intros o Ho; cbn [u drefs]; rewrite !in_app_iff; auto).
  assert (CF : forall o, In o (drefs g) -> In o (drefs u)) by (intros o Ho; cbn [u drefs]; rewrite !in_app_iff; auto).
  assert (WF : forall o, In o (writes g) -> In o (writes u)) by (intros o Ho; cbn [u writes]; rewrite !in_app_iff; auto).
  assert (MY : mreal la y m D rho al) by (split; auto).
  (* evaluate y *)
  destruct (value_thm la LA bv' ba' y D ey m rho al false KY SY MY (dom_mono D true y false rho DY)) as [ey1 [m1 [B1 [B2 B3]]]].
  destruct (call_frame la LA bv' ba' y D ey m (@OpEval N) ey1 m1 KY SY) as [FA FB].
  { exact I. } { exact I. } { cbn [step]. change (carrier N) with xr in *. rewrite B1. reflexivity. }
  rewrite YE in B3.
  assert (M1 : mreal la u m1 D rho al).
  { split.
    - intros o Ho. destruct (HV o Ho) as [V1 V2]. destruct (in_dec Nat.eq_dec o (refs y)) as [X|X].
      + now apply (proj1 B3).
      + rewrite !FB; auto; intros [Q1 Q2]; try discriminate; auto. change (carrier N) with xr in *. rewrite NY in Q2. destruct Q2.
    - intros o Ho. rewrite FB; auto; intros [Q1 Q2]; discriminate. }
  (* w.get() = x *)
  destruct (wrn_ok m1 0%nat w (map Fin x) (Fin 0)) as [mw [B4 B5]].
  { intros i Hi. rewrite map_length in Hi. rewrite (proj1 (proj1 M1 (w + i)%nat ltac:(apply RW, in_cells; lia))). discriminate. }
  rewrite map_length in B5.
  assert (KW : forall b o, m1 b o <> None -> mw b o <> None) by (intros b0 o Ho; rewrite B5; destruct (_ && _); [discriminate|exact Ho]).
  assert (MW : mreal la u mw D rho1 al).
  { split.
    - intros o Ho. destruct (proj1 M1 o Ho) as [V1 V2]. rewrite !B5. cbn [Nat.eqb andb]. split; [|exact V2].
      unfold rho1, put. destruct (_ && _); [|exact V1]. f_equal. rewrite map_nth. reflexivity.
    - intros o Ho. rewrite B5. cbn [Nat.eqb andb]. now apply (proj2 M1). }
  assert (SY1 : session la bv' ba' y D ey1 mw) by (eapply session_to; eauto).
  (* the later stages *)
  destruct (IH k' mw rho1 al KF CG) as [es [ef2 [m3 [al1 [G1 [G3 [G4 [G5 [G8 [FC FD]]]]]]]]]].
  { eapply stage_to; [exact HF0|]. auto. }
  { eapply session_to; [exact SF|]. auto. }
  { split; intros; apply MW; auto. }
  { exact DF. } { exact HL. } { exact HU. } { auto. }
  assert (E3 : forall o, In o (refs u) -> m3 1%nat o = Some (Fin (al1 o))).
  { intros o Ho. destruct (in_dec Nat.eq_dec o (refs g)) as [X|X]; [now apply G3|]. rewrite FD, G4; auto.
    - now apply (proj1 MW). - intros []; discriminate. - tauto. }
  assert (V3 : forall o, In o (refs u) -> ~ In o (eqw g) -> m3 0%nat o = Some (Fin (rho1 o))).
  { intros o Ho Hn. destruct (in_dec Nat.eq_dec o (refs g)) as [X|X]; [now apply G5|]. rewrite FD; auto.
    - now apply (proj1 MW). - intros [_ Q]. apply X. exact (@writes_refs N _ g o Q). - intros []; discriminate. }
  assert (RE : forall o, ~ In o (cells sh w) -> rho1 o = rho o).
  { intros o Ho. rewrite in_cells in Ho. unfold rho1, put. rewrite LX. destruct (_ && _) eqn:Q; auto.
    rewrite andb_true_iff, Nat.leb_le, Nat.ltb_lt in Q. tauto. }
  assert (MY3 : mreal la y m3 D rho al1).
  { split.
    - intros o Ho. split; [|now apply E3, RY]. rewrite V3; [|now apply RY|intros X; exact (proj1 (NE o X) Ho)].
      rewrite RE; [reflexivity|]. intros X. exact (NC o X Ho).
    - intros o Ho. rewrite FD; auto; [|intros []; discriminate|intros []; discriminate]. apply MW. auto. }
  (* autodiff y *)
  set (s := map al1 (seq w (size sh))).
  assert (LS : length s = size (shape_of y)) by (unfold s; now rewrite map_length, seq_length, S1).
  assert (SY3 : session la bv' ba' y D ey1 m3) by (eapply session_to; eauto).
  destruct (grad_full la LA bv' ba' y D ey1 m3 rho al1 false s KY SY3 MY3 DY LS ltac:(discriminate))
    as [ey2 [m4 [al2 [K1 [K2 [K3 [K4 [K5 [_ [K7 K8]]]]]]]]]].
  { intros o Ho. change (carrier N) with xr in *. rewrite NY in Ho. destruct Ho. }
  destruct (call_frame la LA bv' ba' y D ey1 m3 (@OpDiff N (map Fin s)) ey2 m4 KY SY3) as [FE FF].
  { cbn. now rewrite map_length. } { exact I. } { cbn [step]. change (carrier N) with xr in *. rewrite K1. reflexivity. }
  assert (LD : rdn m3 1%nat w (size sh) = Ok (map Fin s)).
  { apply (rdn_ok m3 1%nat w (size sh) _ (Fin 0)). rewrite map_length, LS, S1. split; [reflexivity|]. intros i Hi.
    rewrite E3 by (apply RW, in_cells; lia). f_equal. rewrite map_nth. unfold s. f_equal.
    rewrite (nth_indep _ 0 (al1 0%nat)) by (now rewrite map_length, seq_length). rewrite map_nth, seq_nth by exact Hi. reflexivity. }
  assert (YQ : forall o, ~ In o (eqw y)).
  { intros o Q. apply (refs_eqw_writes la y o) in Q. change (carrier N) with xr in *. rewrite NY in Q. destruct Q. }
  exists (ey2 :: es), ef2, m4, al2. split.
  { cbn [stages]. unfold load, store. change (carrier N) with xr in *. fold x in B1. rewrite B1. cbn [bindR]. rewrite B4. cbn [bindR].
    rewrite G1. cbn [bindR]. rewrite LD. cbn [bindR]. rewrite K1. cbn [bindR]. now rewrite VU. }
  split.
  { intros o Ho. destruct (in_dec Nat.eq_dec o (refs y)) as [X|X]; [now apply K3|]. rewrite K4 by exact X.
    rewrite FF; [now apply E3|auto|intros []; discriminate|tauto]. }
  split. { intros o Ho. rewrite K4, G4; auto. }
  split.
  { intros o Ho Hn. assert (Hn' : ~ In o (eqw g) /\ ~ In o (cells sh w)) by (cbn [u eqw] in Hn; rewrite !in_app_iff in Hn; tauto).
    rewrite FF; [|auto|intros [_ Q]; change (carrier N) with xr in *; rewrite NY in Q; destruct Q|intros []; discriminate].
    rewrite V3 by tauto. now rewrite RE by tauto. }
  split; [|split].
  - intros o Ho Hn. assert (Hn' : ~ In o (eqw g) /\ ~ In o (cells sh w)) by (cbn [u eqw] in Hn; rewrite !in_app_iff in Hn; tauto).
    destruct (session_start la LA 2%nat 3%nat u D rho al) as [e0 [m0 [S0 M0]]]; auto. { cbv; intuition discriminate. }
    destruct (partials_exist la LA 2%nat 3%nat u D e0 m0 rho al b o HK S0 M0 HD Ho Hn) as [gu PU].
    destruct (ph_thm la LA 2%nat 3%nat sh w y g D e0 m0 rho al b seed rho1 HK S0 M0 HD) as [e9 [m9 [gw [_ [A2 A3]]]]].
    { exact HLg. } { exact HU. } { auto. } { unfold rho1, x. now rewrite YE. }
    destruct (A3 NY o Ho Hn) as [gg [gy [P1 [P2 _]]]].
    exists gu. split; [exact PU|].
    assert (GF : forall i h, ~ In i (eqw g) -> partials D g rho1 i h -> al1 i = al i + dotp seed h).
    { intros i h Hi HP. destruct (in_dec Nat.eq_dec i (refs g)) as [X|X].
      - destruct (G8 i X Hi) as [g' [Q1 Q2]]. rewrite Q2. f_equal. apply dotp_ext. intros j. eapply (partials_unique la); eauto.
      - rewrite G4 by exact X. rewrite dotp_zero; [lra|]. intros j. exact (partials_out g D rho1 i h j W2 X HP). }
    rewrite (glue_der w sh y g D rho al b seed o gu gg gy gw HK HC NY HD HLg HU HZ Ho Hn PU P1 P2)
      by (intros j Hj; apply A2; exact Hj).
    assert (EY : dotp s gy = sumn (size sh) (fun j => dotp seed (gw j) * gy j)).
    { unfold dotp at 1. rewrite LS, S1. apply sumn_ext. intros j Hj. destruct (A2 j Hj) as [Q1 _].
      assert (Z : al (w + j)%nat = 0) by (apply HZ; cbn [u writes]; rewrite !in_app_iff; left; left; apply in_cells; lia).
      rewrite <- (Rplus_0_l (dotp seed (gw j))). rewrite <- Z.
      rewrite <- (GF (w + j)%nat (gw j)); [|intros Q; apply (NE _ Q), in_cells; lia|exact Q1]. f_equal.
      unfold s, el. rewrite (nth_indep _ 0 (al1 0%nat)) by (now rewrite map_length, seq_length).
      now rewrite map_nth, seq_nth by exact Hj. }
    rewrite <- EY, <- Rplus_assoc, <- (GF o gg (proj1 Hn') P1). destruct (in_dec Nat.eq_dec o (refs y)) as [Z|Z].
    + destruct (K8 o Z (YQ o)) as [g' [Q1 Q2]]. rewrite Q2. f_equal. apply dotp_ext. intros j. eapply (partials_unique la); eauto.
    + rewrite K4 by exact Z. rewrite (dotp_zero s gy); [lra|]. intros j. exact (partials_out y D rho o gy j W1 Z P2).
  - auto.
  - intros b0 i Hb N1 N2. change (carrier N) with xr in *. rewrite FF; auto.
    + rewrite FD; auto.
      * rewrite B5. destruct ((b0 =? 0)%nat && _) eqn:Q.
        -- exfalso. rewrite !andb_true_iff, Nat.eqb_eq, Nat.leb_le, Nat.ltb_lt in Q. apply N1. split; [tauto|].
           cbn [u writes]. rewrite !in_app_iff. left. left. apply in_cells. lia.
        -- apply FB; auto; [|intros [X1 X2]; apply N2; auto]. intros [_ X]. rewrite NY in X. destruct X.
      * intros [X1 X2]. apply N1. auto.
      * intros [X1 X2]. apply N2. auto.
    + intros [_ X]. rewrite NY in X. destruct X.
    + intros [X1 X2]. apply N2. auto.
Qed.

Lemma stages_glue (f : U) D b seed bvf baf (ef : E) l k m bv ba (e : E) m0 rho al (u := glued l f) :
  okexpr la u -> ctor_ok u = true -> Forall2 (stage_ok D m) l k -> session la bvf baf f D ef m ->
  session la bv ba u D e m0 -> mreal la u m D rho al -> mreal la u m0 D rho al -> dom D true b u rho ->
  length seed = size (shape_of f) -> (b = true -> forall j, (j < length seed)%nat -> el seed j = 1) ->
  (forall o, In o (writes u) -> al o = 0) ->
  exists es ef1 m2 e1 m1 v, stages k ef (map Fin seed) m = Ok (es, ef1, m2, v) /\ @autodiff N e (map Fin seed) m0 = Ok (e1, m1, v) /\
    forall o, In o (refs u) -> ~ In o (eqw u) -> m2 0%nat o = m1 0%nat o /\ m2 1%nat o = m1 1%nat o.
Proof.
  intros HK HC HF SF SU HM HM0 HD HL HU HZ.
  assert (SG : shape_of u = shape_of f) by (subst u; clear; induction l as [|[[? ?] ?] l IH]; [reflexivity|exact IH]).
  destruct (stages_thm f D b seed bvf baf ef l k m rho al HK HC HF SF HM HD HL HU HZ) as [es [ef1 [m2 [al' [A1 [A2 [_ [A4 [A5 _]]]]]]]]].
  destruct (grad_full la LA bv ba u D e m0 rho al b seed HK SU HM0 HD ltac:(transitivity (size (shape_of f)); [exact HL|f_equal; symmetry; exact SG]) HU HZ) as [e2 [m3 [al1 [G1 [_ [G3 [_ [G5 [_ [_ G8]]]]]]]]]].
  exists es, ef1, m2, e2, m3, (map Fin (val D u rho)). split; [exact A1|]. split; [exact G1|].
  intros o Ho Hn. rewrite (A4 o Ho Hn), (G5 o Ho Hn). split; [reflexivity|]. rewrite (A2 o Ho), (G3 o Ho).
  destruct (A5 o Ho Hn) as [g [P1 P2]], (G8 o Ho Hn) as [g' [P3 P4]]. rewrite P2, P4. do 3 f_equal.
  apply dotp_ext. intros j. eapply (partials_unique la); eauto.
Qed.
End Thm.
