(** The gradient theorems for bound expressions. *)
From Coq Require Import Reals Lra FunctionalExtensionality.
From Coquelicot Require Import Coquelicot.
From Verif Require Import Base Num Expr Node Stat Machine Wf Pure LBase LKind LSimDef LMem LSimF LSimB LBind Session LUser
  Tape LTape LState LNrm LTop XR Spec RSess Grad LReal LScal LKA LKB LKM LVal LGrad LDiff LRestR LIndep.
Open Scope R_scope.
Set Bullet Behavior "Strict Subproofs".

Lemma writes_or {T A} (u : expr T A) : forall o, In o (writes u) -> In o (eqw u) \/ In o (opw u).
Proof.
  assert (X : forall (f g h : expr T A -> list nat) l o, Forall (fun e => forall o, In o (f e) -> In o (g e) \/ In o (h e)) l ->
    In o (flat_map f l) -> In o (flat_map g l) \/ In o (flat_map h l)).
  { intros f g h l o. induction 1 as [|y l HY H IH]; cbn; auto. rewrite !in_app_iff. intros [Q|Q]; [apply HY in Q|apply IH in Q]; tauto. }
  induction u using expr_ind'; intros i Hi; cbn [writes eqw opw] in *; auto; 
    try (rewrite !in_app_iff in *; repeat match goal with
      | H : forall o, In o (writes ?e) -> _ |- _ => specialize (H i)
      end; tauto).
  - now apply (X writes eqw opw).
  - now apply (X writes eqw opw).
Qed.
Section Grd.
Variable la : linalg xr.
Hypothesis LA : la_ok la.
Notation N := (XR la).
Notation E := (expr N (ann N)).
Notation U := (expr N unit).
Let LL : la_len N := la_ok_len la LA.
Let HKV := KV_all la LA.
Let HKA := KA_all la LA.

Lemma value_thm bv ba (u : U) D (e1 : E) m1 rho al b : okexpr la u -> session la bv ba u D e1 m1 ->
  mreal la u m1 D rho al -> dom D false b u rho ->
  exists e2 m2, @evaluate N e1 m1 = Ok (e2, m2, map Fin (val D u rho)) /\ session la bv ba u D e2 m2 /\
    mreal la u m2 D (fin_env D u rho) al.
Proof. exact (val_main la LL HKV bv ba u D e1 m1 rho al b). Qed.

Lemma refs_bound (l : list nat) i : In i l -> (i < S (list_max l))%nat.
Proof.
  intros Hi. pose proof (proj1 (list_max_le l (list_max l)) (Nat.le_refl _)) as X.
  rewrite Forall_forall in X. specialize (X i Hi). lia.
Qed.
Lemma refs_eqw_writes (u : U) o : In o (eqw u) -> In o (writes u).
Proof. apply eqw_writes. Qed.

(** Adjoints of assigned variables may be anything. *)
Lemma grad_gen bv ba (u : U) D (e1 : E) m1 rho al b seed : okexpr la u -> session la bv ba u D e1 m1 ->
  mreal la u m1 D rho al -> dom D true b u rho -> length seed = size (shape_of u) ->
  (b = true -> forall j, (j < length seed)%nat -> el seed j = 1) ->
  exists e2 m2, @autodiff N e1 (map Fin seed) m1 = Ok (e2, m2, map Fin (val D u rho)) /\
    forall o, In o (refs u) -> ~ In o (eqw u) -> exists g h, partials D u rho o g /\ epartials D u rho o h /\
      m2 0%nat o = Some (Fin (rho o)) /\
      forall M, (forall i, In i (refs u) -> (i < M)%nat) ->
      m2 1%nat o = Some (Fin (dotp seed g + sumn M (fun i => al i * h i))).
Proof.
  intros HK HS HM HD HL HU.
  destruct (diff_main la LL HKV HKA bv ba u D e1 m1 rho al b seed HK HS HM HD HL HU) as [e2 [m2 [al' [Q1 [Q2 [Q3 [Q4 [Q5 [Q6 [Q7 Q8]]]]]]]]]].
  exists e2, m2. split; [exact Q1|]. intros o Ho Hn. destruct (Q8 o Ho Hn) as [g [h [A1 [A2 [A3 A4]]]]].
  exists g, h. split; [exact A1|]. split; [exact A2|]. split; [now apply Q4|]. intros M HMM. rewrite (Q3 o Ho). do 2 f_equal. now apply A4.
Qed.

Lemma grad_full bv ba (u : U) D (e1 : E) m1 rho al b seed : okexpr la u -> session la bv ba u D e1 m1 ->
  mreal la u m1 D rho al -> dom D true b u rho -> length seed = size (shape_of u) ->
  (b = true -> forall j, (j < length seed)%nat -> el seed j = 1) ->
  (forall o, In o (writes u) -> al o = 0) ->
  exists e2 m2 al', @autodiff N e1 (map Fin seed) m1 = Ok (e2, m2, map Fin (val D u rho)) /\
    session la bv ba u D e2 m2 /\
    (forall o, In o (refs u) -> m2 1%nat o = Some (Fin (al' o))) /\
    (forall o, ~ In o (refs u) -> al' o = al o) /\
    (forall o, In o (refs u) -> ~ In o (eqw u) -> m2 0%nat o = Some (Fin (rho o))) /\
    (opw u = [] -> forall o, In o (refs u) -> m2 0%nat o = Some (Fin (fin_env D u rho o))) /\
    (forall o, In o (drefs u) -> m2 4%nat o = Some (Fin (D o))) /\
    forall o, In o (refs u) -> ~ In o (eqw u) -> exists g, partials D u rho o g /\ al' o = al o + dotp seed g.
Proof.
  intros HK HS HM HD HL HU HZ.
  destruct (diff_main la LL HKV HKA bv ba u D e1 m1 rho al b seed HK HS HM HD HL HU) as [e2 [m2 [al' [Q1 [Q2 [Q3 [Q4 [Q5 [Q6 [Q7 Q8]]]]]]]]]].
  exists e2, m2, al'. do 7 (split; [assumption|]).
  intros o Ho Hn. destruct (Q8 o Ho Hn) as [g [h [A1 [A2 [A3 A4]]]]].
  exists g. split; [exact A1|].
  rewrite (A4 (S (list_max (refs u)))) by (intros i Hi; now apply refs_bound). unfold dotp.
  rewrite (sumn_ext _ (fun i => al i * h i) (fun i => al i * ind o i)).
  - rewrite sumn_ind by now apply refs_bound. lra.
  - intros i _. destruct (in_dec Nat.eq_dec i (writes u)) as [Hi|Hi]; [rewrite (HZ i Hi); lra|now rewrite A3].
Qed.

(** C01 *)
Lemma grad_thm bv ba (u : U) D (e1 : E) m1 rho al b seed : okexpr la u -> session la bv ba u D e1 m1 ->
  mreal la u m1 D rho al -> dom D true b u rho -> length seed = size (shape_of u) ->
  (b = true -> forall j, (j < length seed)%nat -> el seed j = 1) ->
  (forall o, In o (writes u) -> al o = 0) ->
  exists e2 m2, @autodiff N e1 (map Fin seed) m1 = Ok (e2, m2, map Fin (val D u rho)) /\
    forall o, In o (refs u) -> ~ In o (eqw u) -> exists g, partials D u rho o g /\
      m2 1%nat o = Some (Fin (al o + dotp seed g)).
Proof.
  intros HK HS HM HD HL HU HZ.
  destruct (grad_full bv ba u D e1 m1 rho al b seed HK HS HM HD HL HU HZ) as [e2 [m2 [al' [Q1 [Q2 [Q3 [Q4 [Q5 [Q6 [Q7 Q8]]]]]]]]]].
  exists e2, m2. split; [exact Q1|]. intros o Ho Hn. destruct (Q8 o Ho Hn) as [g [A1 A2]]. exists g. split; [exact A1|].
  rewrite Q3 by exact Ho. now rewrite A2.
Qed.

(** ** A bound expression exists for every expression and every state *)
Lemma session_start bv ba (u : U) D rho al : fresh bv ba -> okexpr la u -> ctor_ok u = true ->
  exists e m, session la bv ba u D e m /\ mreal la u m D rho al.
Proof.
  intros HF HK HC. pose (m := fun b o : nat => if (b =? 0)%nat then Some (Fin (rho o)) else if (b =? 1)%nat then Some (Fin (al o))
    else if (b =? 4)%nat then Some (Fin (D o)) else None).
  assert (HA : @avail N u m).
  { split; intros o Ho; [split|]; cbn; discriminate. }
  destruct (bind_safe N LL bv ba HF (fun _ => n0 N) (fun _ => n0 N) u m (proj1 HK) HC HA) as [e [m0 [B1 _]]].
  destruct (inv_bound LL bv ba HF u m _ _ e m0 (proj1 HK) HA B1) as [_ [B2 _]].
  exists e, m0. split.
  - exists m, (fun _ => n0 N), (fun _ => n0 N), e, m0, (@nil (op N)). repeat (match goal with |- _ /\ _ => split end); auto.
  - destruct HF as [[F1 [F2 F3]] [F4 [F5 [F6 _]]]].
    split; intros o Ho; [split|]; rewrite B2 by congruence; reflexivity.
Qed.

(** ** Client writes *)
Lemma session_user bv ba u D (e1 : E) m1 (f : mem N -> mem N) : session la bv ba u D e1 m1 ->
  @keeps N f -> session la bv ba u D e1 (f m1).
Proof. intros HS HK. exact (session_op la bv ba u D e1 m1 (@OpUser N f) e1 (f m1) HS HK eq_refl). Qed.
Lemma session_to bv ba u D (e1 : E) m1 m2 : session la bv ba u D e1 m1 ->
  (forall b o, m1 b o <> None -> m2 b o <> None) -> session la bv ba u D e1 m2.
Proof.
  intros HS HK. pose (f := fun (m : mem N) (b o : nat) => match m2 b o with Some y => Some y | None => m b o end).
  assert (EF : f m1 = m2).
  { apply functional_extensionality. intros b. apply functional_extensionality. intros o. unfold f.
    destruct (m2 b o) eqn:Q; [reflexivity|]. destruct (m1 b o) eqn:Q1; [|reflexivity]. exfalso. eapply HK; [|exact Q]. congruence. }
  rewrite <- EF. apply session_user; auto. intros m b o H. unfold f. destruct (m2 b o); [discriminate|exact H].
Qed.
Lemma reset_keeps u : @keeps N (reset la u).
Proof. intros m b o H. unfold reset. destruct (_ && _); [|exact H]. destruct (m b o); congruence. Qed.
Lemma inw_true l o : existsb (Nat.eqb o) l = true <-> In o l.
Proof.
  rewrite existsb_exists. split; [intros [x [H1 H2]]; apply Nat.eqb_eq in H2; now subst|].
  intros H. exists o. split; [auto|apply Nat.eqb_refl].
Qed.
Definition zer (l : list nat) (al : nat -> R) : nat -> R := fun o => if existsb (Nat.eqb o) l then 0 else al o.
Lemma zer_in l al o : In o l -> zer l al o = 0.
Proof. intros H. unfold zer. apply inw_true in H. now rewrite H. Qed.
Lemma zer_out l al o : ~ In o l -> zer l al o = al o.
Proof. intros H. unfold zer. destruct (existsb _ l) eqn:Q; auto. apply inw_true in Q. tauto. Qed.
Lemma reset_mreal u v m D rho al : mreal la v m D rho al -> mreal la v (reset la u m) D rho (zer (writes u) al).
Proof.
  intros [H1 H2]. split.
  - intros o Ho. destruct (H1 o Ho) as [A1 A2]. split; [exact A1|]. unfold reset, zer. cbn.
    destruct (existsb _ _); [|exact A2]. now rewrite A2.
  - intros o Ho. unfold reset. cbn. auto.
Qed.

(** ** Moving along inputs *)
Definition ph_ok (u : U) : Prop := forall o, In o (eqw u) -> ~ In o (inputs u).
Lemma set1_sm r r' o t l : (forall i, In i l -> r i = r' i) -> sm (set1 r o t) (set1 r' o t) l.
Proof. intros H i Hi. unfold set1. destruct (i =? o)%nat; auto. Qed.
Lemma partials_move (u : U) D r r' o g : wfs u = true -> sm r r' (inputs u) -> r o = r' o ->
  partials D u r o g -> partials D u r' o g.
Proof.
  intros HW HS HO H k. specialize (H k). rewrite <- HO. eapply der_ext; [|exact H].
  intros t. cbn. destruct (indep D u (set1 r o t) (set1 r' o t) HW (set1_sm _ _ _ _ _ HS)) as [X _]. now rewrite X.
Qed.
Lemma partials_unique (u : U) D r o g g' k : partials D u r o g -> partials D u r o g' -> g k = g' k.
Proof. intros H H'. exact (der_unique _ _ _ _ (H k) (H' k)). Qed.
Lemma dotp_ext s g g' : (forall k, g k = g' k) -> dotp s g = dotp s g'.
Proof. intros H. unfold dotp. apply sumn_ext. intros. now rewrite H. Qed.
Lemma env_keep' (u : U) D r o : wfs u = true -> ~ In o (writes u) -> fin_env D u r o = r o.
Proof. intros. now apply env_keep. Qed.

(** The variables after autodiff: real, and unchanged except where = assigns. *)
Lemma diff_next bv ba (u : U) D (e1 : E) m1 rho al b seed e2 m2 v al' : okexpr la u -> session la bv ba u D e1 m1 ->
  mreal la u m1 D rho al -> dom D true b u rho -> length seed = size (shape_of u) ->
  @autodiff N e1 (map Fin seed) m1 = Ok (e2, m2, v) ->
  (forall o, In o (refs u) -> m2 1%nat o = Some (Fin (al' o))) ->
  (forall o, In o (refs u) -> ~ In o (eqw u) -> m2 0%nat o = Some (Fin (rho o))) ->
  (forall o, In o (drefs u) -> m2 4%nat o = Some (Fin (D o))) ->
  exists rho2, mreal la u m2 D rho2 al' /\ forall o, ~ In o (eqw u) -> rho2 o = rho o.
Proof.
  intros HK HS HM HD HL HA Q3 Q5 Q7.
  pose proof (diff_real la LL HKV bv ba u D e1 m1 rho al true b seed e2 m2 v HK HS HM HD HL HA) as HR.
  exists (fun o => if in_dec Nat.eq_dec o (eqw u) then match m2 0%nat o with Some (Fin x) => x | _ => 0 end else rho o). split.
  - split; [|exact Q7]. intros o Ho. split; [|now apply Q3]. destruct (in_dec Nat.eq_dec o (eqw u)) as [X|X]; [|now apply Q5].
    destruct (HR o Ho) as [x ->]. reflexivity.
  - intros o Ho. destruct (in_dec Nat.eq_dec o (eqw u)); tauto.
Qed.

(** ** C07 *)
Lemma diffs_thm bv ba (u : U) D b seeds rho : okexpr la u -> ph_ok u ->
  dom D true b u rho ->
  Forall (fun s => length s = size (shape_of u) /\ (b = true -> forall j, (j < length s)%nat -> el s j = 1)) seeds ->
  forall (e1 : E) m1 rho1 al, (forall o, ~ In o (eqw u) -> rho1 o = rho o) -> session la bv ba u D e1 m1 -> mreal la u m1 D rho1 al ->
  exists e2 m2, diffs la u seeds e1 m1 = Ok (e2, m2) /\
    session la bv ba u D e2 m2 /\
    forall o, In o (refs u) -> ~ In o (writes u) -> m2 0%nat o = Some (Fin (rho o)) /\
      forall g, partials D u rho o g -> m2 1%nat o = Some (Fin (al o + sumr (map (fun s => dotp s g) seeds))).
Proof.
  intros HK HP HD HF. induction HF as [|s l [HL HU] HF IH]; intros e1 m1 rho1 al HR HS HM.
  - exists e1, m1. split; [reflexivity|]. split; [exact HS|]. intros o Ho Hn.
    destruct HM as [HM _]. destruct (HM o Ho) as [A1 A2]. split; [rewrite A1, HR; [reflexivity|]|].
    + intros X. apply Hn, refs_eqw_writes, X.
    + intros g _. rewrite A2. cbn. now rewrite Rplus_0_r.
  - assert (SM : sm rho rho1 (inputs u)).
    { intros i Hi. symmetry. apply HR. intros X. exact (HP i X Hi). }
    assert (HD1 : dom D true b u rho1). { apply (indep D u rho rho1 (proj1 HK) SM). exact HD. }
    assert (HS1 := session_user bv ba u D e1 m1 (reset la u) HS (reset_keeps u)).
    assert (HM1 := reset_mreal u u m1 D rho1 al HM).
    destruct (grad_full bv ba u D e1 (reset la u m1) rho1 (zer (writes u) al) b s HK HS1 HM1 HD1 HL HU (fun o => zer_in _ _ _))
      as [e2 [m2 [al' [Q1 [Q2 [Q3 [Q4 [Q5 [Q6 [Q7 Q8]]]]]]]]]].
    cbn [diffs]. change (carrier N) with xr in *. rewrite Q1. cbn [bindR].
    destruct (diff_next bv ba u D e1 (reset la u m1) rho1 (zer (writes u) al) b s e2 m2 _ al' HK HS1 HM1 HD1 HL Q1 Q3 Q5 Q7) as [rho2 [HM2 HR2]].
    destruct (IH e2 m2 rho2 al') as [e3 [m3 [R1 [R2 R3]]]]; auto.
    { intros o Ho. rewrite HR2 by exact Ho. now apply HR. }
    exists e3, m3. split; [exact R1|]. split; [exact R2|]. intros o Ho Hn. destruct (R3 o Ho Hn) as [R4 R5].
    split; [exact R4|]. intros g HG. rewrite (R5 g HG). do 2 f_equal. cbn [map sumr].
    assert (HN : ~ In o (eqw u)) by (intros X; apply Hn, refs_eqw_writes, X).
    destruct (Q8 o Ho HN) as [g' [G1 G2]]. rewrite G2, zer_out by exact Hn.
    rewrite (dotp_ext s g' g); [lra|]. intros k.
    eapply partials_unique; [exact G1|]. eapply partials_move; [apply HK|exact SM| |exact HG]. symmetry. now apply HR.
Qed.
Lemma partials_exist bv ba (u : U) D (e1 : E) m1 rho al b o : okexpr la u -> session la bv ba u D e1 m1 ->
  mreal la u m1 D rho al -> dom D true b u rho -> In o (refs u) -> ~ In o (eqw u) -> exists g, partials D u rho o g.
Proof.
  intros HK HS HM HD Ho Hn.
  destruct (diff_main la LL HKV HKA bv ba u D e1 m1 rho al b (repeat 1 (size (shape_of u))) HK HS HM HD) as [e2 [m2 [al' [Q1 [Q2 [Q3 [Q4 [Q5 [Q6 [Q7 Q8]]]]]]]]]].
  - apply repeat_length.
  - intros _ j Hj. unfold el. rewrite repeat_length in Hj. rewrite (nth_indep _ 0 1) by now rewrite repeat_length. apply nth_repeat.
  - destruct (Q8 o Ho Hn) as [g [h [A1 _]]]. exists g. exact A1.
Qed.

(** ** C36 *)
Lemma call_frame bv ba u D (e1 : E) m1 o e2 m2 : okexpr la u -> session la bv ba u D e1 m1 ->
  op_ok (N := N) (size (shape_of u)) o -> no_user (N := N) o -> @step N o (e1, m1) = Ok (e2, m2) ->
  (forall b i, m1 b i <> None -> m2 b i <> None) /\
  forall b i, (b = 0 \/ b = 1 \/ b = 4)%nat -> ~ (b = 0%nat /\ In i (writes u)) -> ~ (b = 1%nat /\ In i (refs u)) -> m2 b i = m1 b i.
Proof.
  intros HK HS HO HN HE. destruct (session_inv la LL bv ba u D e1 m1 HK HS) as [cv [ca [HF [HI _]]]].
  destruct (run_frame LL bv ba HF u cv ca [o] (Forall_cons _ HO (Forall_nil _)) (Forall_cons _ HN (Forall_nil _)) e1 m1 e2 m2 HI) as [F1 F2].
  { cbn [run]. change (carrier N) with xr in *. rewrite HE. reflexivity. }
  split; [intros b i; apply F2|].
  intros b i Hb H1 H2. apply F1. unfold DP. destruct HF as [[G1 [G2 G3]] [G4 [G5 [G6 _]]]]. intuition congruence.
Qed.

Definition apart (us : list U) : Prop := forall i j u v, nth_error us i = Some u -> nth_error us j = Some v -> i <> j ->
  forall o, In o (writes u) -> ~ In o (refs v).
Lemma nth_put {X} i j (x : X) l : nth_error (put_nth i x l) j =
  if (j =? i)%nat then match nth_error l i with Some _ => Some x | None => None end else nth_error l j.
Proof.
  revert i j. induction l as [|y l IH]; intros i j; cbn [put_nth].
  - destruct i, j; cbn; try reflexivity. destruct (_ =? _)%nat; reflexivity.
  - destruct i, j; cbn [put_nth nth_error Nat.eqb]; try reflexivity. apply IH.
Qed.
Lemma nth_put_same {X} i (x y : X) l : nth_error l i = Some y -> nth_error (put_nth i x l) i = Some x.
Proof. intros H. now rewrite nth_put, Nat.eqb_refl, H. Qed.
Lemma nth_put_other {X} i j (x : X) l z : j <> i -> nth_error l j = Some z -> nth_error (put_nth i x l) j = Some z.
Proof. intros H H1. rewrite nth_put. apply Nat.eqb_neq in H. now rewrite H. Qed.
Lemma inputs_refs {A} (u : expr xr A) : forall o, In o (inputs u) -> In o (refs u).
Proof.
  induction u using expr_ind'; intros i Hi; cbn [inputs refs] in *; auto.
  - change (In i (inputsl es)) in Hi. induction H as [|y l HY H IH]; [exact Hi|]. cbn [inputsl] in Hi. cbn [flat_map].
    rewrite in_app_iff in *. destruct Hi as [Hi|Hi]; [auto|]. apply keep_in in Hi. right. apply IH. tauto.
  - apply in_or_app. auto.
  - rewrite in_app_iff in *. destruct Hi; auto.
  - rewrite in_app_iff in *. destruct Hi as [Hi|Hi]; auto. apply keep_in in Hi. right. apply IHu2. tauto.
  - change (In i (inputsl es)) in Hi. induction H as [|y l HY H IH]; [exact Hi|]. cbn [inputsl] in Hi. cbn [flat_map].
    rewrite in_app_iff in *. destruct Hi as [Hi|Hi]; [auto|]. apply keep_in in Hi. right. apply IH. tauto.
  - rewrite !in_app_iff. rewrite in_app_iff in Hi. destruct Hi as [Hi|Hi]; auto. apply keep_in in Hi. rewrite in_app_iff in Hi. right. intuition.
Qed.

Lemma sched_step (us : list U) i s l (es : list E) m u e e1 m1 v es2 m2 vs :
  nth_error us i = Some u -> nth_error es i = Some e -> call1 la u s e m = Ok (e1, m1, v) ->
  sched la us l (put_nth i e1 es) m1 = Ok (es2, m2, vs) -> sched la us ((i, s) :: l) es m = Ok (es2, m2, v :: vs).
Proof. intros H1 H2 H3 H4. cbn [sched]. rewrite H1, H2, H3. cbn [bindR]. rewrite H4. reflexivity. Qed.
Section Sched.
Variables (us : list U) (D rho : nat -> R) (bs : nat -> bool).
Hypothesis HA : apart us.
Hypothesis HU : forall i u, nth_error us i = Some u -> okexpr la u /\ ph_ok u /\ dom D true (bs i) u rho.
Definition call_ok (c : call) : Prop := exists u, nth_error us (fst c) = Some u /\
  match snd c with
  | None => opw u = []
  | Some s => length s = size (shape_of u) /\ (bs (fst c) = true -> forall j, (j < length s)%nat -> el s j = 1)
  end.
(** Values are [rho] except at placeholders. *)
Definition near (r : nat -> R) : Prop := forall o, r o = rho o \/ exists u, In u us /\ In o (eqw u).
Definition sysok (es : list E) (m : mem N) (r al : nat -> R) : Prop :=
  forall i u, nth_error us i = Some u -> exists bv ba e, nth_error es i = Some e /\ session la bv ba u D e m /\ mreal la u m D r al.
Lemma near_in r i u : near r -> nth_error us i = Some u -> sm r rho (inputs u).
Proof.
  intros HN HI o Ho. destruct (HN o) as [X|[v [V1 V2]]]; auto. exfalso.
  destruct (In_nth_error us v V1) as [j HJ]. destruct (Nat.eq_dec j i) as [->|NE].
  - rewrite HI in HJ. inversion HJ; subst. destruct (HU i v HI) as [_ [HP _]]. exact (HP o V2 Ho).
  - refine (HA j i v u HJ HI NE o (refs_eqw_writes v o V2) _). now apply inputs_refs.
Qed.
Lemma sched_thm cs : Forall call_ok cs -> forall es m r al, near r -> sysok es m r al ->
  exists es2 m2, sched la us cs es m =
      Ok (es2, m2, map (fun c : call => map Fin (match nth_error us (fst c) with Some u => val D u rho | None => [] end)) cs) /\
    forall o, (exists u, In u us /\ In o (refs u)) -> (forall u, In u us -> ~ In o (writes u)) ->
      m2 0%nat o = Some (Fin (rho o)) /\
      forall g, (forall i u, nth_error us i = Some u -> partials D u rho o (g i)) ->
        m2 1%nat o = Some (Fin (al o + sumr (map (gain g) cs))).
Proof.
  induction 1 as [|[i s] l HC HF IH]; intros es m r al HN HS.
  - exists es, m. split; [reflexivity|]. intros o [u [Hu Ho]] Hw. destruct (In_nth_error us u Hu) as [j HJ].
    destruct (HS j u HJ) as [bv [ba [e [E1 [E2 [E3 _]]]]]]. destruct (E3 o Ho) as [A1 A2].
    destruct (HN o) as [X|[v [V1 V2]]]; [|exfalso; exact (Hw v V1 (refs_eqw_writes v o V2))].
    split; [now rewrite A1, X|]. intros g _. rewrite A2. cbn. now rewrite Rplus_0_r.
  - destruct HC as [u [HI HC]]. cbn [fst snd] in HI, HC. destruct (HS i u HI) as [bv [ba [e [E1 [E2 E3]]]]].
    destruct (HU i u HI) as [HK [HP HD]].
    pose proof (near_in r i u HN HI) as SM.
    destruct (indep D u r rho (proj1 HK) SM) as [IV [IF_ IDm]].
    assert (HD' : dom D true (bs i) u r) by now apply IDm.
    assert (STEP : exists e1 m1 r1 al1, @call1 la u s e m = Ok (e1, m1, map Fin (val D u r)) /\
       session la bv ba u D e1 m1 /\ mreal la u m1 D r1 al1 /\ (forall o, ~ In o (eqw u) -> r1 o = r o) /\
       (forall b i, m b i <> None -> m1 b i <> None) /\
       (forall b i, (b = 0 \/ b = 1 \/ b = 4)%nat -> ~ (b = 0%nat /\ In i (writes u)) -> ~ (b = 1%nat /\ In i (refs u)) -> m1 b i = m b i) /\
       (forall o, ~ In o (refs u) -> al1 o = al o) /\
       forall o, In o (refs u) -> ~ In o (writes u) -> exists g, partials D u r o g /\
         al1 o = al o + match s with None => 0 | Some s => dotp s g end).
    { destruct s as [s|].
      - destruct HC as [HL HB].
        assert (HS1 := session_user bv ba u D e m (reset la u) E2 (reset_keeps u)).
        assert (HM1 := reset_mreal u u m D r al E3).
        destruct (grad_full bv ba u D e (reset la u m) r (zer (writes u) al) (bs i) s HK HS1 HM1 HD' HL HB (fun o => zer_in _ _ _))
          as [e2 [m2 [al' [Q1 [Q2 [Q3 [Q4 [Q5 [Q6 [Q7 Q8]]]]]]]]]].
        destruct (call_frame bv ba u D e (reset la u m) (@OpDiff N (map Fin s)) e2 m2 HK HS1) as [F1 F2].
        { cbn. now rewrite map_length. } { exact I. } { cbn [step]. change (carrier N) with xr in *. rewrite Q1. reflexivity. }
        destruct (diff_next bv ba u D e (reset la u m) r (zer (writes u) al) (bs i) s e2 m2 _ al' HK HS1 HM1 HD' HL Q1 Q3 Q5 Q7) as [r1 [HM2 HR2]].
        exists e2, m2, r1, al'. split; [exact Q1|]. split; [exact Q2|]. split; [exact HM2|]. split; [exact HR2|].
        split. { intros b o H. apply F1. now apply reset_keeps. }
        split. { intros b o Hb H1 H2. rewrite F2 by assumption. unfold reset. destruct (b =? 1)%nat eqn:Q; cbn; [|reflexivity].
                 apply Nat.eqb_eq in Q. subst b. destruct (existsb _ _) eqn:Q'; [|reflexivity]. apply inw_true in Q'. exfalso. apply H2. split; [reflexivity|].
                 now apply (@writes_refs N). }
        split. { intros o Ho. rewrite Q4 by exact Ho. apply zer_out. intros X. apply Ho. now apply (@writes_refs N). }
        intros o Ho Hn. destruct (Q8 o Ho) as [g [G1 G2]]. { intros X. apply Hn, refs_eqw_writes, X. }
        exists g. split; [exact G1|]. rewrite G2, zer_out by exact Hn. reflexivity.
      - destruct (value_thm bv ba u D e m r al (bs i) HK E2 E3 (dom_mono D true u (bs i) r HD')) as [e2 [m2 [Q1 [Q2 Q3]]]].
        destruct (call_frame bv ba u D e m (@OpEval N) e2 m2 HK E2) as [F1 F2].
        { exact I. } { exact I. } { cbn [step]. change (carrier N) with xr in *. rewrite Q1. reflexivity. }
        exists e2, m2, (fin_env D u r), al. split; [exact Q1|]. split; [exact Q2|]. split; [exact Q3|].
        split. { intros o X. rewrite env_keep'; [reflexivity|apply HK|]. intros W. destruct (@writes_or N unit u o W) as [Y|Y]; [tauto|].
                 change (carrier N) with xr in *. rewrite HC in Y. destruct Y. }
        split; [exact F1|]. split; [exact F2|].
        split; [reflexivity|]. intros o Ho Hn.
        destruct (partials_exist bv ba u D e m r al (bs i) o HK E2 E3 HD' Ho) as [g G1]. { intros X. apply Hn, refs_eqw_writes, X. }
        exists g. split; [exact G1|lra]. }
    destruct STEP as [e1 [m1 [r1 [al1 [S1 [S2 [S3 [SR [S4 [S5 [S6 S7]]]]]]]]]]].
    assert (HN1 : near r1).
    { intros o. destruct (in_dec Nat.eq_dec o (eqw u)) as [X|X]; [right; exists u; split; [eapply nth_error_In, HI|exact X]|].
      rewrite SR by exact X. apply HN. }
    assert (HS1 : sysok (put_nth i e1 es) m1 r1 al1).
    { intros j v HJ. destruct (HS j v HJ) as [bv' [ba' [e' [G1 [G2 G3]]]]]. destruct (Nat.eq_dec j i) as [->|NE].
      - assert (v = u) by (pose proof (eq_trans (eq_sym HJ) HI) as QQ; now inversion QQ). subst v. exists bv, ba, e1. split; [exact (nth_put_same i e1 e es E1)|]. auto.
      - exists bv', ba', e'. split; [exact (nth_put_other i j e1 es e' NE G1)|].
        split; [now apply (session_to bv' ba' v D e' m m1)|]. destruct G3 as [G3 G4]. split.
        + intros o Ho. assert (NW : ~ In o (writes u)) by (intros X; exact (HA i j u v HI HJ (not_eq_sym NE) o X Ho)).
          destruct (G3 o Ho) as [Z1 Z2]. split.
          * rewrite S5 by (auto; intros [? ?]; tauto || discriminate). rewrite SR by (intros X; apply NW, refs_eqw_writes, X). exact Z1.
          * destruct (in_dec Nat.eq_dec o (refs u)) as [X|X].
            { destruct S3 as [S3 _]. now apply S3. }
            rewrite S5, S6 by (auto; intros [? ?]; tauto || discriminate). exact Z2.
        + intros o Ho. rewrite S5 by (auto; intros [? ?]; discriminate). now apply G4. }
    destruct (IH _ _ _ _ HN1 HS1) as [es2 [m2 [R1 R2]]].
    exists es2, m2. split.
    { refine (eq_trans (sched_step us i s l es m u e e1 m1 _ es2 m2 _ HI E1 S1 R1) _).
      cbn [map fst]. rewrite HI, IV. reflexivity. }
    intros o Ho Hw. destruct (R2 o Ho Hw) as [R3 R4]. split; [exact R3|]. intros g HG. rewrite (R4 g HG). do 2 f_equal.
    cbn [map sumr gain]. destruct (in_dec Nat.eq_dec o (refs u)) as [X|X].
    + destruct (S7 o X (Hw u (nth_error_In _ _ HI))) as [g' [G1 G2]]. rewrite G2.
      assert (EG : forall k, g' k = g i k).
      { intros k. eapply partials_unique; [|exact (HG i u HI)]. eapply partials_move; [apply HK|exact SM| |exact G1].
        destruct (HN o) as [Z|[v [V1 V2]]]; [exact Z|]. exfalso. exact (Hw v V1 (refs_eqw_writes v o V2)). }
      destruct s as [s|]; [|lra]. rewrite (dotp_ext s g' (g i) EG). lra.
    + rewrite S6 by exact X. destruct s as [s|]; [|lra].
      rewrite (dotp_ext s (g i) (fun _ => 0)); [unfold dotp; rewrite sumn_0 by (intros; ring); lra|].
      intros k. eapply der_unique; [apply (HG i u HI k)|]. eapply der_ext; [|exact (der_const (el (val D u rho) k) (rho o))].
      intros t. cbn. destruct (indep D u (set1 rho o t) rho (proj1 HK)) as [Z _].
      * intros j Hj. unfold set1. destruct (j =? o)%nat eqn:Q; [|reflexivity]. apply Nat.eqb_eq in Q. subst. exfalso. now apply X, inputs_refs.
      * now rewrite Z.
Qed.
End Sched.
End Grd.
