(** Proofs about OwnBind.v. *)
From Verif Require Import Base Num Expr Node Stat Machine Wf Pure LBase LKind LSimDef LMem LSimF LSimB LBind Session LUser OwnBind.
From Coq Require Import Lia.

Section LOwnBind.
Context {N : num}.
Notation T := (carrier N).
Notation E := (expr T (ann N)).
Notation U := (expr T unit).

(* evaluation never brings dead cells back to life *)
Lemma wrn_dead l : forall (m : mem T) b o m' b' o', wrn m b o l = Ok m' -> m b' o' = None -> m' b' o' = None.
Proof.
  induction l as [|x l IH]; cbn; intros m b o m' b' o' H HN; [congruence|].
  apply bindR_ok in H. destruct H as [m1 [H1 H2]]. eapply IH; [exact H2|].
  unfold wr1 in H1. destruct (m b o) eqn:Q; [|discriminate]. injection H1 as <-. cbn.
  destruct ((b' =? b) && (o' =? o)) eqn:Q2; [|exact HN].
  apply andb_true_iff in Q2. destruct Q2 as [Q2 Q3]. apply Nat.eqb_eq in Q2, Q3. congruence.
Qed.
Lemma store_dead (m : mem T) p l m' b o : store m p l = Ok m' -> m b o = None -> m' b o = None.
Proof.
  destruct p; cbn; [destruct l; [congruence|discriminate]|]. apply wrn_dead.
Qed.

Ltac dpair x := match type of x with
                | (_ * _)%type => let y := fresh "q" in destruct x as [x y]; dpair x
                | _ => idtac end.
Ltac inv1 H := apply bindR_ok in H; let x := fresh "q" in destruct H as [x [? H]]; dpair x; cbv beta iota in H.
Ltac invs H := repeat inv1 H.
Definition deadp b o (e : E) : Prop := forall m e' m' r, feval e m = Ok (e', m', r) -> m b o = None -> m' b o = None.
Lemma fevals_dead b o es : Forall (deadp b o) es -> forall m es' m' rs im,
  fevals es m = Ok (es', m', rs, im) -> m b o = None -> m' b o = None.
Proof.
  induction 1 as [|x l Hx Hl IH]; cbn; intros m es' m' rs im G HN.
  - injection G as <- <- <- <-. exact HN.
  - invs G. injection G as <- <- <- <-. eapply IH; [eassumption|]. eapply Hx; eassumption.
Qed.
Lemma fevalsf_dead b o es : Forall (deadp b o) es -> forall m es' m',
  fevalsf es m = Ok (es', m') -> m b o = None -> m' b o = None.
Proof.
  induction 1 as [|x l Hx Hl IH]; cbn; intros m es' m' G HN.
  - injection G as <- <-. exact HN.
  - invs G. injection G as <- <-. eapply IH; [eassumption|]. eapply Hx; eassumption.
Qed.
Lemma feval_dead b o (e : E) : forall m e' m' r, feval e m = Ok (e', m', r) -> m b o = None -> m' b o = None.
Proof.
  induction e using expr_ind'; intros m e' m' r HH HN.
  - injection HH as <- <- <-. exact HN.
  - injection HH as <- <- <-. exact HN.
  - injection HH as <- <- <-. exact HN.
  - rewrite feval_comp in HH. inv1 HH.
    match goal with X : fevals _ _ = Ok (_, ?m1, _, _) |- _ => assert (D : m1 b o = None) by (eapply fevals_dead; eauto) end.
    invs HH. injection HH as <- <- <-. eapply store_dead; eauto.
  - cbn [feval] in HH. invs HH. injection HH as <- <- <-.
    eapply store_dead; [eassumption|]. eapply store_dead; [eassumption|]. eapply IHe; eauto.
  - cbn [feval] in HH. invs HH. injection HH as <- <- <-.
    eapply store_dead; [eassumption|]. eapply store_dead; [eassumption|]. eapply IHe; [eassumption|].
    eapply store_dead; eassumption.
  - cbn [feval] in HH. invs HH. injection HH as <- <- <-.
    eapply store_dead; [eassumption|]. eapply IHe2; [eassumption|]. eapply IHe1; eassumption.
  - rewrite feval_for in HH. inv1 HH.
    match goal with X : fevalsf _ _ = Ok (_, ?m1) |- _ => assert (D : m1 b o = None) by (eapply fevalsf_dead; eauto) end.
    match type of HH with context [rev ?l] => destruct (rev l) as [|y t] end.
    + injection HH as <- <- <-. exact D.
    + invs HH. injection HH as <- <- <-. eapply store_dead; eauto.
  - cbn [feval] in HH. inv1 HH. inv1 HH.
    match type of HH with (if ?c then _ else _) = _ => destruct c end; invs HH;
      injection HH as <- <- <-; [eapply IHe2|eapply IHe3]; try eassumption; eapply IHe1; eassumption.
Qed.

Hypothesis LL : la_len N.
Variables bv ba : nat.
Hypothesis HF : fresh bv ba.

(** A compute node with a non-empty result, evaluated when its cache is gone. *)
Lemma dead_root (u : U) k es cv ca (e : E) (m0 m : mem T) : u = EComp k tt es -> 0 < size (shape_of u) ->
  inv bv ba u cv ca e m0 -> (forall o, m bv o = None) -> exists x, evaluate e m = Err x.
Proof.
  intros -> Hn [H1 [_ [_ [HL _]]]] HD. destruct e as [| | |k0 an es0| | | | |]; try discriminate.
  unfold er in H1. cbn [amap] in H1. injection H1 as -> He.
  assert (SS : map shape_of es = map shape_of es0).
  { rewrite <- He, map_map. apply map_ext. intros a. apply shape_of_amap. }
  rewrite lay_comp in HL. destruct HL as [v1 [a1 [_ [_ [HA _]]]]].
  unfold evaluate. destruct (feval (EComp k an es0) m) as [[[e' m'] r]|x] eqn:Q; [|cbn; eauto].
  exfalso. pose proof Q as Q'. rewrite feval_comp in Q'. invs Q'. injection Q' as <- <- <-.
  assert (D : forall (es0 : list E) m m1 es' rs im, (forall o, m bv o = None) -> fevals es0 m = Ok (es', m1, rs, im) -> m1 bv v1 = None).
  { clear. induction es0 as [|x l IH]; cbn; intros m m1 es' rs im HD G.
    - injection G as <- <- <- <-. auto.
    - invs G. injection G as <- <- <- <-. eapply IH; [|eassumption]. intros o. eapply feval_dead; eauto. }
  match goal with X : fevals _ _ = _ |- _ => apply (D _ _ _ _ _ _ HD) in X; clear D; rename X into D end.
  match goal with X : store _ _ _ = _, Y : chk _ _ = _ |- _ => rename X into S1; rename Y into S2 end.
  rewrite HA in S1. cbn in S1. unfold chk in S2.
  match type of S2 with (if ?c then Ok ?val else _) = _ => destruct c eqn:QL; [|discriminate];
    injection S2 as <-; apply Nat.eqb_eq in QL; cbn [shape_of] in Hn; rewrite SS in Hn;
    destruct val as [|y val']; [cbn in QL; lia|] end. cbn in S1. unfold wr1 in S1. rewrite D in S1. discriminate.
Qed.

Lemma inv_step (u : U) cv ca (o : op N) (e : E) m : op_ok (size (shape_of u)) o -> inv bv ba u cv ca e m ->
  exists e' m', step o (e, m) = Ok (e', m') /\ inv bv ba u cv ca e' m'.
Proof.
  intros HO HI. destruct (run_ok LL bv ba HF u cv ca [o] (Forall_cons _ HO (Forall_nil _)) e m HI) as [e' [m' [HR H2]]].
  cbn in HR. apply bindR_ok in HR. destruct HR as [[e1 m1] [H3 H4]]. injection H4 as -> ->. eauto.
Qed.
Lemma inv_mem (u : U) cv ca (e : E) m e' m' : inv bv ba u cv ca e m -> inv bv ba u cv ca e' m' -> inv bv ba u cv ca e m'.
Proof. intros (H1 & H2 & H3 & H4 & _) (_ & _ & _ & _ & K5 & K6 & K7). exact (conj H1 (conj H2 (conj H3 (conj H4 (conj K5 (conj K6 K7)))))). Qed.

Lemma prun_ok (u : U) cv ca l : Forall (fun p => op_ok (size (shape_of u)) (snd p)) l -> forall x y m,
  inv bv ba u cv ca (eb_e x) m -> inv bv ba u cv ca (eb_e y) m ->
  exists x' y' m', prun l (x, y, m) = Ok (x', y', m') /\
    inv bv ba u cv ca (eb_e x') m' /\ inv bv ba u cv ca (eb_e y') m' /\
    eb_v x' = eb_v x /\ eb_a x' = eb_a x /\ eb_v y' = eb_v y /\ eb_a y' = eb_a y.
Proof.
  induction 1 as [|[w o] l HO Hl IH]; intros x y m Ix Iy; [exists x, y, m; cbn; auto 10|].
  cbn in HO. cbn [prun pstep]. destruct w.
  - destruct (inv_step u cv ca o _ m HO Iy) as [e' [m' [S1 I1]]]. rewrite S1. cbn.
    destruct (IH x (EB e' (eb_v y) (eb_a y)) m') as (x1 & y1 & m1 & R & H1 & H2 & H3); auto.
    { eapply inv_mem; eauto. } { exists x1, y1, m1. cbn in H3. auto. }
  - destruct (inv_step u cv ca o _ m HO Ix) as [e' [m' [S1 I1]]]. rewrite S1. cbn.
    destruct (IH (EB e' (eb_v x) (eb_a x)) y m') as (x1 & y1 & m1 & R & H1 & H2 & H3); auto.
    { eapply inv_mem; [exact Iy|exact I1]. } { exists x1, y1, m1. cbn in H3. auto. }
Qed.

(** Copy while the original lives; then destroy the original. *)
Theorem copy_story uv ua (u : U) m nv na l : wfs u = true -> ctor_ok u = true -> avail u m ->
  nv <> bv -> nv <> ba -> na <> bv -> na <> ba -> na <> nv ->
  (forall o, m nv o = None /\ m na o = None) ->
  Forall (fun p => op_ok (size (shape_of u)) (snd p)) l ->
  exists x m0 x' y' m1, eb_bind bv ba uv ua u m = Ok (x, m0) /\
    (let '(y, m0') := eb_copy nv na x m0 in prun l (x, y, m0') = Ok (x', y', m1)) /\
    (forall k es, u = EComp k tt es -> 0 < size (shape_of u) ->
       exists r, evaluate (eb_e y') (eb_del x' m1) = Err r).
Proof.
  intros HW HC HA N1 N2 N3 N4 N5 ND HL. destruct (bound_ok LL bv ba u m uv ua HW HC HA) as [e [m0 HB]].
  destruct (inv_bound LL bv ba HF u m uv ua e m0 HW HA HB) as [HI [H0 _]].
  assert (I2 : inv bv ba u (fst (csize e)) (snd (csize e)) e (clone (Some ba) na (clone (Some bv) nv m0))).
  { eapply inv_keeps; [exact HI|]. intros b o Hb. unfold clone.
    destruct (Nat.eqb_spec b na) as [->|D1]; [exfalso; apply Hb; rewrite H0 by auto; apply ND|].
    destruct (Nat.eqb_spec b nv) as [->|D2]; [exfalso; apply Hb; rewrite H0 by auto; apply ND|exact Hb]. }
  destruct (prun_ok u _ _ l HL (EB e (Some bv) (Some ba)) (EB e (Some nv) (Some na)) _ I2 I2)
    as (x' & y' & m1 & R & Ix & Iy & E1 & E2 & E3 & E4).
  exists (EB e (Some bv) (Some ba)), m0, x', y', m1. unfold eb_bind. rewrite HB. cbn [bindR].
  split; [reflexivity|]. split; [exact R|].
  intros k es Hu Hn. eapply dead_root; eauto.
  intros o. unfold eb_del. rewrite E1, E2. cbn. rewrite Nat.eqb_refl. destruct (bv =? ba); reflexivity.
Qed.

(** Moving: the moved-to object is as good as the original, the moved-from one frees nothing. *)
Theorem move_story uv ua (u : U) m l : wfs u = true -> ctor_ok u = true -> avail u m ->
  Forall (op_ok (size (shape_of u))) l ->
  exists x m0 c, eb_bind bv ba uv ua u m = Ok (x, m0) /\
    let '(y, x') := eb_move x in run l (eb_e y, eb_del x' m0) = Ok c.
Proof.
  intros HW HC HA HL. destruct (bound_ok LL bv ba u m uv ua HW HC HA) as [e [m0 HB]].
  destruct (inv_bound LL bv ba HF u m uv ua e m0 HW HA HB) as [HI [H0 _]].
  destruct (run_ok LL bv ba HF u _ _ l HL e m0 HI) as [e' [m' [R _]]].
  exists (EB e (Some bv) (Some ba)), m0, (e', m'). unfold eb_bind. rewrite HB. cbn. auto.
Qed.
End LOwnBind.
