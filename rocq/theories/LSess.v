(** Repeated evaluation. *)
From Verif Require Import Base Num Expr Node Stat Machine Wf Pure LBase LKind LSimDef LMem LSimF LSimB LBind
  Session LUser Tape LTape LState LNrm LTop LRest.

Section Da.
Context {N : num}.
Notation T := (carrier N).
Notation E := (expr T (ann N)).
Variable D : nat -> T.
Lemma das_asgs es : Forall (fun e : E => forall r t r', tf D e r = (t, r') -> forall o, In o (da e) -> In o (asg e t)) es ->
  forall r ts r', tfs D es r = (ts, r') -> forall o, In o (flat_map da es) -> In o (asgs es ts).
Proof.
  induction 1 as [|y l HY H IH]; intros r ts r' HE o Ho; cbn in HE, Ho; [destruct Ho|].
  destruct (tf D y r) as [t r1] eqn:E1. destruct (tfs D l r1) as [ts2 r2] eqn:E2. inversion HE; subst.
  cbn. rewrite in_app_iff in *. destruct Ho; eauto.
Qed.
Lemma da_asg (e : E) : forall r t r', tf D e r = (t, r') -> forall o, In o (da e) -> In o (asg e t).
Proof.
  induction e using expr_ind'; intros r t r' HE o' Ho; try (now destruct Ho).
  - rewrite tf_comp in HE. destruct (tfs D es r) as [ts r1] eqn:E1. destruct (kf _ _ _ _ _).
    inversion HE; subst. eapply (das_asgs es); eauto.
  - cbn [tf] in HE. destruct (tf D e r) as [t1 r1] eqn:E1. inversion HE; subst. cbn [asg nts da] in *.
    rewrite in_app_iff in *. destruct Ho; eauto.
  - cbn [tf] in HE. destruct (tf D e r) as [t1 r1] eqn:E1. inversion HE; subst. cbn [asg nts da] in *. eauto.
  - cbn [tf] in HE. destruct (tf D e1 r) as [t1 r1] eqn:E1. destruct (tf D e2 r1) as [t2 r2] eqn:E2.
    inversion HE; subst. cbn [asg nts da] in *. rewrite in_app_iff in *. destruct Ho; eauto.
  - rewrite tf_for in HE. destruct (tfs D es r) as [ts r1] eqn:E1.
    inversion HE; subst. eapply (das_asgs es); eauto.
  - cbn [tf] in HE. destruct (tf D e1 r) as [t1 r1] eqn:E1. cbn [da] in Ho. apply in_app_iff in Ho.
    destruct (ntrue N (hd0 N (nv t1))) eqn:EB.
    + destruct (tf D e2 r1) as [t2 r2] eqn:E2. inversion HE; subst. cbn [asg nts]. rewrite EB, in_app_iff.
      destruct Ho as [Ho|Ho]; [eauto|]. apply filter_In in Ho. destruct Ho. eauto.
    + destruct (tf D e3 r1) as [t2 r2] eqn:E2. inversion HE; subst. cbn [asg nts]. rewrite EB, in_app_iff.
      destruct Ho as [Ho|Ho]; [eauto|]. apply filter_In in Ho. destruct Ho as [_ Ho].
      apply existsb_exists in Ho. destruct Ho as [z [Hz Ez]]. apply Nat.eqb_eq in Ez. subst. eauto.
Qed.
End Da.
Lemma da_amap {T A B} (f : A -> B) (e : expr T A) : da (amap f e) = da e.
Proof.
  induction e using expr_ind'; cbn; auto; try congruence.
  - induction H; cbn; auto. congruence.
  - induction H; cbn; auto. congruence.
  - now rewrite IHe1, IHe2, IHe3.
Qed.

Section Sess.
Context (N : num).
Notation T := (carrier N).
Notation E := (expr T (ann N)).
Notation U := (expr T unit).
Hypothesis LL : la_len N.
Variables bv ba : nat.
Hypothesis HF : fresh bv ba.

Lemma eval_same u cv ca (e1 e3 : E) m1 m3 : disc u = true ->
  inv bv ba u cv ca e1 m1 -> inv bv ba u cv ca e3 m3 -> nrm e3 = nrm e1 ->
  (forall o, In o (refs u) -> ~ In o (da u) -> m3 0 o = m1 0 o) ->
  (forall o, In o (drefs u) -> m3 4 o = m1 4 o) ->
  exists e2 m2 e4 m4 v, evaluate e1 m1 = Ok (e2, m2, v) /\ evaluate e3 m3 = Ok (e4, m4, v) /\
    (forall o, In o (da u) -> m4 0 o = m2 0 o) /\
    inv bv ba u cv ca e2 m2 /\ inv bv ba u cv ca e4 m4 /\
    (forall o, m2 1 o = m1 1 o) /\ (forall o, m4 1 o = m3 1 o) /\
    (forall o, m2 4 o = m1 4 o) /\ (forall o, m4 4 o = m3 4 o) /\
    nrm e2 = nrm e1 /\ nrm e4 = nrm e3.
Proof.
  intros HD I1 I3 HN HV HC.
  destruct (inv_facts _ _ _ _ _ _ _ I1) as [F1 [F2 [F3 [F4 [F5 [F6 F7]]]]]].
  destruct (inv_facts _ _ _ _ _ _ _ I3) as [G1 [G2 [G3 [G4 [G5 [G6 G7]]]]]].
  assert (A1 : avail u m1) by apply I1. assert (A3 : avail u m3) by apply I3.
  set (D := renv m1 4). set (r1 := renv m1 0). set (r3 := renv m3 0).
  assert (M1 : MR (vset u) (wset u) D m1 r1 (renv m1 1)) by (apply MR_renv, A1).
  assert (M3 : MR (vset u) (wset u) D m3 r3 (renv m3 1)).
  { pose proof (MR_renv u m3 A3) as [Q1 Q2]. split; [exact Q1|]. intros o Ho. rewrite Q2 by exact Ho.
    unfold D, renv. now rewrite HC by exact Ho. }
  destruct (tf D e1 r1) as [t1 r1'] eqn:T1. destruct (tf D e3 r3) as [t3 r3'] eqn:T3.
  destruct (top_eval LL bv ba HF u cv ca e1 m1 D r1 _ t1 r1' I1 HD M1 T1) as [e2 [m2 [E1 [I2 [M2 [Z2 N2]]]]]].
  destruct (top_eval LL bv ba HF u cv ca e3 m3 D r3 _ t3 r3' I3 HD M3 T3) as [e4 [m4 [E3 [I4 [M4 [Z4 N4]]]]]].
  assert (DU : da e1 = da u) by (destruct I1 as [<- _]; unfold er; now rewrite da_amap).
  assert (SAME : EQ e1 e3 t1 t3 /\ (forall o, In o (asg e1 t1) -> r1' o = r3' o) /\
      (forall o, r1 o = r3 o -> r1' o = r3' o)).
  { apply (TI_all D e1 e3 r1 r3 t1 r1' t3 r3'); auto; try congruence.
    intros o Ho Hn. unfold r1, r3, renv. rewrite HV; auto; [congruence|].
    intros X. apply Hn. rewrite <- DU in X. eapply da_asg; eauto. }
  destruct SAME as [[S1 _] [S2 _]].
  assert (N1 : bv <> 1) by apply HF. assert (N4' : bv <> 4) by apply HF.
  exists e2, m2, e4, m4, (nv t1). split; [exact E1|]. split; [now rewrite S1|].
  split.
  { intros o Ho. assert (Hr : In o (refs u)).
    { apply writes_refs, eqw_writes. rewrite <- F4. rewrite <- DU in Ho. eapply asg_eqw, da_asg; eauto. }
    destruct M2 as [M2 _], M4 as [M4 _]. rewrite (proj1 (M2 o Hr)), (proj1 (M4 o Hr)).
    f_equal. symmetry. apply S2. rewrite <- DU in Ho. eapply da_asg; eauto. }
  split; [exact I2|]. split; [exact I4|].
  split. { intros o. apply Z2. unfold EP. intros [[X _]|[X _]]; [congruence|discriminate]. }
  split. { intros o. apply Z4. unfold EP. intros [[X _]|[X _]]; [congruence|discriminate]. }
  split. { intros o. apply Z2. unfold EP. intros [[X _]|[X _]]; [congruence|discriminate]. }
  split. { intros o. apply Z4. unfold EP. intros [[X _]|[X _]]; [congruence|discriminate]. }
  split; [exact N2|exact N4].
Qed.

(** A second evaluation right after the first. *)
Lemma eval_again u cv ca (e1 : E) m1 e2 m2 v : disc u = true -> opw u = [] ->
  inv bv ba u cv ca e1 m1 -> evaluate e1 m1 = Ok (e2, m2, v) ->
  inv bv ba u cv ca e2 m2 /\ (forall o, m2 1 o = m1 1 o) /\
  exists e3 m3, evaluate e2 m2 = Ok (e3, m3, v) /\ (forall o, In o (refs u) -> m3 0 o = m2 0 o) /\
    (forall o, m3 1 o = m2 1 o).
Proof.
  intros HD HO I1 HE.
  destruct (inv_facts _ _ _ _ _ _ _ I1) as [F1 [F2 [F3 [F4 [F5 [F6 F7]]]]]].
  assert (A1 : avail u m1) by apply I1.
  set (D := renv m1 4). set (r1 := renv m1 0).
  assert (M1 : MR (vset u) (wset u) D m1 r1 (renv m1 1)) by (apply MR_renv, A1).
  destruct (tf D e1 r1) as [t1 r1'] eqn:T1.
  destruct (top_eval LL bv ba HF u cv ca e1 m1 D r1 _ t1 r1' I1 HD M1 T1) as [e2' [m2' [E1 [I2 [M2 [Z2 N2]]]]]].
  rewrite HE in E1. inversion E1; subst e2' m2' v. clear E1.
  assert (N1 : bv <> 1) by apply HF. assert (N4' : bv <> 4) by apply HF.
  split; [exact I2|].
  split. { intros o. apply Z2. unfold EP. intros [[X _]|[X _]]; [congruence|discriminate]. }
  destruct (tf D e2 r1') as [t2 r2'] eqn:T2.
  destruct (top_eval LL bv ba HF u cv ca e2 m2 D r1' _ t2 r2' I2 HD M2 T2) as [e3 [m3 [E3 [I3 [M3 [Z3 N3]]]]]].
  assert (SAME : EQ e1 e2 t1 t2 /\ (forall o, In o (asg e1 t1) -> r1' o = r2' o) /\
      (forall o, r1 o = r1' o -> r1' o = r2' o)).
  { apply (TI_all D e1 e2 r1 r1' t1 r1' t2 r2'); auto; try congruence.
    intros o Ho Hn. symmetry. eapply tf_asg; eauto. rewrite F5, HO. intros []. }
  destruct SAME as [[S1 _] [S2 S3]].
  exists e3, m3. split; [now rewrite S1|]. split.
  - intros o Ho. destruct M2 as [M2 _], M3 as [M3 _]. rewrite (proj1 (M2 o Ho)), (proj1 (M3 o Ho)). f_equal.
    symmetry. destruct (in_dec Nat.eq_dec o (asg e1 t1)) as [X|X]; [auto|].
    apply S3. symmetry. eapply tf_asg; eauto. rewrite F5, HO. intros [].
  - intros o. apply Z3. unfold EP. intros [[X _]|[X _]]; [congruence|discriminate].
Qed.

Lemma evals_rep u cv ca n : disc u = true -> opw u = [] -> forall (e1 : E) m1 e2 m2 v,
  inv bv ba u cv ca e1 m1 -> evaluate e1 m1 = Ok (e2, m2, v) ->
  exists e3 m3, evals n e2 m2 = Ok (e3, m3, repeat v n) /\
    (forall o, In o (refs u) -> m3 0 o = m2 0 o) /\ (forall o, m3 1 o = m1 1 o).
Proof.
  intros HD HO. induction n as [|n IH]; intros e1 m1 e2 m2 v HI HE.
  - destruct (eval_again u cv ca e1 m1 e2 m2 v HD HO HI HE) as [_ [HA _]].
    exists e2, m2. cbn. auto.
  - destruct (eval_again u cv ca e1 m1 e2 m2 v HD HO HI HE) as [I2 [HA [e3 [m3 [E3 [HV HA3]]]]]].
    destruct (IH e2 m2 e3 m3 v I2 E3) as [e4 [m4 [E4 [V4 A4]]]].
    exists e4, m4. cbn [evals repeat]. rewrite E3. cbn [bindR]. rewrite E4. cbn [bindR].
    split; [reflexivity|]. split; [intros o Ho; now rewrite V4, HV|]. intros o. now rewrite A4, HA.
Qed.

Lemma sess_repeat (uv ua : nat -> T) (u : U) m e m0 ops e1 m1 n :
  wfs u = true -> disc u = true -> opw u = [] -> avail u m ->
  bound bv ba uv ua u m = Ok (e, m0) ->
  Forall (op_ok (size (shape_of u))) ops -> run ops (e, m0) = Ok (e1, m1) ->
  exists e2 m2 v e3 m3, evaluate e1 m1 = Ok (e2, m2, v) /\ evals n e2 m2 = Ok (e3, m3, repeat v n) /\
    (forall o, In o (refs u) -> m3 0 o = m2 0 o) /\ (forall o, m3 1 o = m1 1 o).
Proof.
  intros HW HD HO HA HB HOp HR.
  destruct (inv_bound LL bv ba HF u m uv ua e m0 HW HA HB) as [HI _].
  destruct (run_ok LL bv ba HF u _ _ ops HOp e m0 HI) as [e1' [m1' [R I1]]]. rewrite R in HR.
  inversion HR; subst e1' m1'.
  destruct (eval_same u _ _ e1 e1 m1 m1 HD I1 I1 eq_refl ltac:(auto) ltac:(auto)) as [e2 [m2 [_ [_ [v [E1 _]]]]]].
  destruct (evals_rep u _ _ n HD HO e1 m1 e2 m2 v I1 E1) as [e3 [m3 Q]]. exists e2, m2, v, e3, m3. auto.
Qed.

Lemma sess_indep (uv ua : nat -> T) (u : U) m e m0 ops e1 m1 ops' e3 m3 :
  wfs u = true -> disc u = true -> avail u m ->
  bound bv ba uv ua u m = Ok (e, m0) ->
  Forall (op_ok (size (shape_of u))) ops -> run ops (e, m0) = Ok (e1, m1) ->
  Forall (op_ok (size (shape_of u))) ops' -> run ops' (e1, m1) = Ok (e3, m3) ->
  (forall o, In o (refs u) -> ~ In o (da u) -> m3 0 o = m1 0 o) ->
  (forall o, In o (drefs u) -> m3 4 o = m1 4 o) ->
  exists e2 m2 e4 m4 v, evaluate e1 m1 = Ok (e2, m2, v) /\ evaluate e3 m3 = Ok (e4, m4, v) /\
    (forall o, In o (da u) -> m4 0 o = m2 0 o).
Proof.
  intros HW HD HA HB HOp HR HOp' HR' HV HC.
  destruct (inv_bound LL bv ba HF u m uv ua e m0 HW HA HB) as [HI _].
  destruct (run_ok LL bv ba HF u _ _ ops HOp e m0 HI) as [e1' [m1' [R I1]]]. rewrite R in HR.
  inversion HR; subst e1' m1'.
  destruct (run_ok LL bv ba HF u _ _ ops' HOp' e1 m1 I1) as [e3' [m3' [R3 I3]]]. rewrite R3 in HR'.
  inversion HR'; subst e3' m3'.
  destruct (eval_same u _ _ e1 e3 m1 m3 HD I1 I3 (run_nrm _ _ _ _ _ R3) HV HC) as [e2 [m2 [e4 [m4 [v [E1 [E3 [Q _]]]]]]]].
  exists e2, m2, e4, m4, v. auto.
Qed.

(** One autodiff call: its value, and what it leaves behind. *)
Lemma diff_keep u cv ca (e1 : E) m1 seed e2 m2 v : disc u = true -> length seed = size (shape_of u) ->
  inv bv ba u cv ca e1 m1 -> evaluate e1 m1 = Ok (e2, m2, v) ->
  exists e3 m3, autodiff e1 seed m1 = Ok (e3, m3, v) /\ inv bv ba u cv ca e3 m3 /\ nrm e3 = nrm e1 /\
    (forall o, In o (refs u) -> ~ In o (eqw u) -> m3 0 o = m1 0 o) /\ (forall o, m3 4 o = m1 4 o).
Proof.
  intros HD HL I1 HE.
  set (D := renv m1 4). set (r1 := renv m1 0).
  assert (M1 : MR (vset u) (wset u) D m1 r1 (renv m1 1)) by (apply MR_renv, I1).
  destruct (tf D e1 r1) as [t1 r1'] eqn:T1.
  destruct (top_eval LL bv ba HF u cv ca e1 m1 D r1 _ t1 r1' I1 HD M1 T1) as [e2' [m2' [E1 _]]].
  rewrite HE in E1. inversion E1; subst e2' m2' v. clear E1.
  destruct (top_rest LL bv ba HF u cv ca e1 m1 D r1 _ t1 r1' seed I1 HD M1 T1 HL) as [e3 [m3 [r3 [al3 [E3 [I3 [M3 [Z3 [N3 [R3 _]]]]]]]]]].
  assert (N1 : bv <> 4) by apply HF. assert (N2 : ba <> 4) by apply HF.
  exists e3, m3. split; [exact E3|]. split; [exact I3|]. split; [exact N3|]. split.
  - intros o Ho Hn. destruct M1 as [M1 _], M3 as [M3 _]. rewrite (proj1 (M1 o Ho)), (proj1 (M3 o Ho)). f_equal. now apply R3.
  - intros o. apply Z3. unfold DP. intuition congruence.
Qed.
Lemma adiffs_rep u cv ca seeds : disc u = true -> (forall o, In o (eqw u) -> In o (da u)) ->
  Forall (fun s => length s = size (shape_of u)) seeds -> forall (e1 : E) m1 e2 m2 v,
  inv bv ba u cv ca e1 m1 -> evaluate e1 m1 = Ok (e2, m2, v) ->
  exists e3 m3, adiffs seeds e1 m1 = Ok (e3, m3, repeat v (length seeds)) /\
    (forall o, In o (refs u) -> ~ In o (eqw u) -> m3 0 o = m1 0 o).
Proof.
  intros HD HQ HS. induction HS as [|s l HL HS IH]; intros e1 m1 e2 m2 v HI HE.
  - exists e1, m1. cbn. auto.
  - destruct (diff_keep u cv ca e1 m1 s e2 m2 v HD HL HI HE) as [e3 [m3 [E3 [I3 [N3 [V3 C3]]]]]].
    destruct (eval_same u cv ca e1 e3 m1 m3 HD HI I3 N3 ltac:(auto) ltac:(auto)) as [e4 [m4 [e5 [m5 [v' [E4 [E5 _]]]]]]].
    rewrite HE in E4. inversion E4; subst e4 m4 v'.
    destruct (IH e3 m3 e5 m5 v I3 E5) as [e6 [m6 [E6 V6]]].
    exists e6, m6. cbn [adiffs length repeat]. rewrite E3. cbn [bindR]. rewrite E6. cbn [bindR].
    split; [reflexivity|]. intros o Ho Hn. rewrite V6, V3; auto.
Qed.
Lemma sess_diffs (uv ua : nat -> T) (u : U) m e m0 ops e1 m1 seeds :
  wfs u = true -> disc u = true -> (forall o, In o (eqw u) -> In o (da u)) -> avail u m ->
  bound bv ba uv ua u m = Ok (e, m0) ->
  Forall (op_ok (size (shape_of u))) ops -> run ops (e, m0) = Ok (e1, m1) ->
  Forall (fun s => length s = size (shape_of u)) seeds ->
  exists e2 m2 v e3 m3, evaluate e1 m1 = Ok (e2, m2, v) /\ adiffs seeds e1 m1 = Ok (e3, m3, repeat v (length seeds)) /\
    (forall o, In o (refs u) -> ~ In o (eqw u) -> m3 0 o = m1 0 o).
Proof.
  intros HW HD HQ HA HB HOp HR HS.
  destruct (inv_bound LL bv ba HF u m uv ua e m0 HW HA HB) as [HI _].
  destruct (run_ok LL bv ba HF u _ _ ops HOp e m0 HI) as [e1' [m1' [R I1]]]. rewrite R in HR.
  inversion HR; subst e1' m1'.
  destruct (eval_same u _ _ e1 e1 m1 m1 HD I1 I1 eq_refl ltac:(auto) ltac:(auto)) as [e2 [m2 [_ [_ [v [E1 _]]]]]].
  destruct (adiffs_rep u _ _ seeds HD HQ HS e1 m1 e2 m2 v I1 E1) as [e3 [m3 Q]]. exists e2, m2, v, e3, m3. tauto.
Qed.
Lemma sess_restored (uv ua : nat -> T) (u : U) m e m0 ops e1 m1 seed :
  wfs u = true -> disc u = true -> avail u m ->
  bound bv ba uv ua u m = Ok (e, m0) ->
  Forall (op_ok (size (shape_of u))) ops -> run ops (e, m0) = Ok (e1, m1) ->
  length seed = size (shape_of u) ->
  exists e3 m3 v, autodiff e1 seed m1 = Ok (e3, m3, v) /\
    (forall o, In o (refs u) -> ~ In o (eqw u) -> m3 0 o = m1 0 o).
Proof.
  intros HW HD HA HB HOp HR HS.
  destruct (inv_bound LL bv ba HF u m uv ua e m0 HW HA HB) as [HI _].
  destruct (run_ok LL bv ba HF u _ _ ops HOp e m0 HI) as [e1' [m1' [R I1]]]. rewrite R in HR.
  inversion HR; subst e1' m1'.
  destruct (eval_same u _ _ e1 e1 m1 m1 HD I1 I1 eq_refl ltac:(auto) ltac:(auto)) as [e2 [m2 [_ [_ [v [E1 _]]]]]].
  destruct (diff_keep u _ _ e1 m1 seed e2 m2 v HD HS I1 E1) as [e3 [m3 [Q1 [_ [_ [Q2 _]]]]]]. exists e3, m3, v. auto.
Qed.
End Sess.
