(** Loops over data. *)
From Coq Require Import Reals Lra FunctionalExtensionality.
From Coquelicot Require Import Coquelicot.
From Verif Require Import Base Num Expr Node Stat Machine Wf Pure LBase LKind LSimDef LMem LSimF LSimB LBind Session LUser
  Tape LTape LState LNrm LTop XR Spec Nudge RSess Grad LReal LScal LKA LKB LKM LVal LNudge LGrad LDiff LIndep LGrd LNGrad LPh Train.
Open Scope R_scope.
Set Bullet Behavior "Strict Subproofs".

Section Main.
Variable la : linalg xr.
Hypothesis LA : la_ok la.
Notation N := (XR la).
Notation E := (expr N (ann N)).
Notation U := (expr N unit).

Lemma session_data bv ba (u : U) D D' (e1 : E) m1 : session la bv ba u D e1 m1 ->
  (forall o, In o (sdrefs u) -> D' o = D o) -> session la bv ba u D' e1 m1.
Proof.
  intros [m [uv [ua [e [m0 [ops [A1 [A2 [A3 [A4 [A5 A6]]]]]]]]]]] H. exists m, uv, ua, e, m0, ops.
  do 5 (split; [assumption|]). intros o Ho. rewrite (H o Ho). auto.
Qed.
Lemma load_keeps u D : @keeps N (load la u D).
Proof. intros m b o H. unfold load. destruct (_ && _); [|exact H]. destruct (m b o); congruence. Qed.
Lemma load_mreal u m D0 D rho al : mreal la u m D0 rho al -> mreal la u (load la u D m) D rho al.
Proof.
  intros [H1 H2]. split; [exact H1|]. intros o Ho. unfold load. cbn [Nat.eqb andb].
  apply inw_true in Ho. rewrite Ho. apply inw_true in Ho. now rewrite (H2 o Ho).
Qed.

Lemma epoch_thm bv ba (u : U) D0 b seed rho rows : okexpr la u -> ph_ok la u ->
  length seed = size (shape_of u) -> (b = true -> forall j, (j < length seed)%nat -> el seed j = 1) ->
  Forall (fun D => dom D true b u rho /\ forall o, In o (sdrefs u) -> D o = D0 o) rows ->
  forall (e1 : E) m1 D1 rho1 al, (forall o, ~ In o (eqw u) -> rho1 o = rho o) -> session la bv ba u D0 e1 m1 -> mreal la u m1 D1 rho1 al ->
  exists e2 m2, epoch la true u seed rows e1 m1 = Ok (e2, m2, map (fun D => map Fin (val D u rho)) rows) /\
    session la bv ba u D0 e2 m2 /\
    forall o, In o (refs u) -> ~ In o (writes u) -> m2 0%nat o = Some (Fin (rho o)) /\
      exists s : R, is_derive (total u seed rows rho o) (rho o) s /\ m2 1%nat o = Some (Fin (al o + s)).
Proof.
  intros HK HP HL HU HF. induction HF as [|D l [HD HC] HF IH]; intros e1 m1 D1 rho1 al HR HS HM.
  - exists e1, m1. split; [reflexivity|]. split; [exact HS|]. intros o Ho Hn.
    destruct HM as [HM _]. destruct (HM o Ho) as [A1 A2]. split.
    + rewrite A1, HR; [reflexivity|]. intros X. apply Hn, (refs_eqw_writes la), X.
    + exists 0. split; [exact (der_const 0 (rho o))|]. rewrite A2. now rewrite Rplus_0_r.
  - assert (SM : sm rho rho1 (inputs u)).
    { intros i Hi. symmetry. apply HR. intros X. exact (HP i X Hi). }
    destruct (indep D u rho rho1 (proj1 HK) SM) as [VE [_ DE]].
    assert (HD1 : dom D true b u rho1) by (apply DE; exact HD).
    assert (HS0 : session la bv ba u D e1 m1) by (eapply session_data; eauto).
    assert (HS1 := session_user la bv ba u D e1 _ (reset la u) (session_user la bv ba u D e1 m1 (load la u D) HS0 (load_keeps u D)) (reset_keeps la u)).
    assert (HM1 := reset_mreal la u u _ D rho1 al (load_mreal u m1 D1 D rho1 al HM)).
    destruct (grad_full la LA bv ba u D e1 _ rho1 (zer (writes u) al) b seed HK HS1 HM1 HD1 HL HU (fun o => zer_in _ _ _))
      as [e2 [m2 [al' [Q1 [Q2 [Q3 [Q4 [Q5 [Q6 [Q7 Q8]]]]]]]]]].
    cbn [epoch]. change (carrier N) with xr in *. rewrite Q1. cbn [bindR].
    destruct (diff_next la LA bv ba u D e1 _ rho1 (zer (writes u) al) b seed e2 m2 _ al' HK HS1 HM1 HD1 HL Q1 Q3 Q5 Q7) as [rho2 [HM2 HR2]].
    destruct (IH e2 m2 D rho2 al') as [e3 [m3 [R1 [R2 R3]]]]; auto.
    { intros o Ho. rewrite HR2 by exact Ho. now apply HR. }
    { eapply session_data; [exact Q2|]. intros o Ho. symmetry. auto. }
    exists e3, m3. change (carrier N) with xr in *. rewrite R1. cbn [bindR map]. split; [now rewrite VE|]. split; [exact R2|].
    intros o Ho Hn. destruct (R3 o Ho Hn) as [R4 [s [R5 R6]]]. split; [exact R4|].
    assert (HN : ~ In o (eqw u)) by (intros X; apply Hn, (refs_eqw_writes la), X).
    destruct (Q8 o Ho HN) as [g [G1 G2]].
    assert (G3 : partials D u rho o g).
    { eapply (partials_move la); [apply HK| |now apply HR|exact G1]. intros i Hi. symmetry. now apply SM. }
    exists (dotp seed g + s). split.
    + unfold total. cbn [map sumr]. apply der_plus; [|exact R5]. unfold dotp. apply der_sumn.
      intros k _. apply (der_scal (fun t => el (val D u (set1 rho o t)) k)), G3.
    + rewrite R6, G2, zer_out by exact Hn. do 2 f_equal. lra.
Qed.
End Main.

(** ** Linear regression *)
Lemma nth_cells (f : nat -> R) a n j : (j < n)%nat -> nth j (map f (seq a n)) 0 = f (a + j)%nat.
Proof.
  intros H. rewrite (nth_indep _ 0 (f 0%nat)) by (rewrite map_length, seq_length; lia).
  rewrite map_nth, seq_nth by lia. reflexivity.
Qed.
Lemma lin_val n d th : val (row n d) (lin_u n) th = [resid n th d ^ 2].
Proof.
  unfold val, lin_u. cbn. f_equal. unfold resid, Rminus. cbn [pow].
  assert (X : row n d n = snd d) by (unfold row; now rewrite Nat.ltb_irrefl).
  rewrite (sumn_ext n _ (fun j => fst d j * th j)).
  - rewrite X. change (Pos.to_nat 2) with 2%nat. cbn [pow]. reflexivity.
  - intros j Hj. rewrite Nat.add_0_r, !Nat.mul_1_r, Nat.add_0_r, !nth_cells by lia. cbn [Nat.add]. unfold row.
    apply Nat.ltb_lt in Hj. now rewrite Hj.
Qed.
Lemma der_resid n d th o : (o < n)%nat ->
  is_derive (fun t => resid n (set1 th o t) d ^ 2) (th o) (- 2 * resid n th d * fst d o).
Proof.
  intros Ho. assert (H : is_derive (fun t => resid n (set1 th o t) d) (th o) (- fst d o)).
  { unfold resid. eapply der_eq; [apply der_minus; [apply der_const|]|].
    - apply der_sumn. intros j _. apply der_scal. apply (set1_der th o j).
    - rewrite sumn_ind by exact Ho. ring. }
  eapply der_eq; [apply (der_comp (fun x => x ^ 2) (fun t => resid n (set1 th o t) d)); [|exact H]|].
  - auto_derive; [exact I|reflexivity].
  - rewrite set1_same. cbn. ring.
Qed.
Lemma total_lin n rows th o t : total (lin_u n) [1] (map (row n) rows) th o t = sumr (map (fun d => resid n (set1 th o t) d ^ 2) rows).
Proof.
  unfold total. rewrite map_map. f_equal. apply map_ext. intros d. unfold dotp. rewrite lin_val. cbn. ring.
Qed.
Lemma der_lin n rows th o : (o < n)%nat ->
  is_derive (total (lin_u n) [1] (map (row n) rows) th o) (th o) (sumr (map (fun d => - 2 * resid n th d * fst d o) rows)).
Proof.
  intros Ho. apply (der_ext (fun t => sumr (map (fun d => resid n (set1 th o t) d ^ 2) rows))).
  - intros t. now rewrite total_lin.
  - induction rows as [|d l IH]; cbn [map sumr]; [apply der_const|]. apply der_plus; [now apply der_resid|exact IH].
Qed.
Section Progs.
Variable la : linalg xr.
Hypothesis LA : la_ok la.
Notation N := (XR la).
Notation E := (expr N (ann N)).
Notation U := (expr N unit).
Lemma lin_ok n : (0 < n)%nat -> okexpr la (lin_u n).
Proof.
  intros Hn. split; [|split; [reflexivity|cbn; tauto]].
  cbn. unfold shape_ok, shape_eqb. cbn. rewrite ?Nat.eqb_refl, ?andb_true_r. destruct n; [lia|reflexivity].
Qed.
Lemma lin_thm bv ba n D0 th al rows (e1 : E) m1 : (0 < n)%nat -> session la bv ba (lin_u n) D0 e1 m1 -> mreal la (lin_u n) m1 D0 th al ->
  exists e2 m2, epoch la true (lin_u n) [1] (map (row n) rows) e1 m1 = Ok (e2, m2, map (fun d => [Fin (resid n th d ^ 2)]) rows) /\
    forall j, (j < n)%nat -> m2 0%nat j = Some (Fin (th j)) /\
      m2 1%nat j = Some (Fin (al j + sumr (map (fun d => - 2 * resid n th d * fst d j) rows))).
Proof.
  intros Hn HS HM.
  destruct (epoch_thm la LA bv ba (lin_u n) D0 false [1] th (map (row n) rows) (lin_ok n Hn)) with (e1 := e1) (m1 := m1) (D1 := D0) (rho1 := th) (al := al)
    as [e2 [m2 [A1 [A2 A3]]]]; auto.
  - intros o [].
  - discriminate.
  - apply Forall_forall. intros D _. split; [|intros o []]. cbn. repeat split; auto; intros; lia.
  - exists e2, m2. change (carrier N) with xr in *. rewrite A1. split.
    + rewrite map_map. do 2 f_equal. apply map_ext. intros d. now rewrite lin_val.
    + intros j Hj. destruct (A3 j) as [B1 [s [B2 B3]]].
      * cbn. rewrite !app_nil_r. apply in_seq. lia.
      * intros [].
      * split; [exact B1|]. rewrite B3. do 3 f_equal. exact (der_unique _ _ _ _ B2 (der_lin n rows th j Hj)).
Qed.

End Progs.
