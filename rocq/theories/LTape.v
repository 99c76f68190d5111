(** [pf]/[pb] agree with [tf]/[tb] on expressions obeying [disc]. *)
From Verif Require Import Base Num Expr Node Stat Machine Wf Pure Tape LBase LKind LSimDef LMem LSimB.

Lemma dj_spec a b : dj a b = true -> forall o, In o a -> In o b -> False.
Proof.
  unfold dj. rewrite forallb_forall. intros H o Ha Hb. apply H in Ha. apply negb_true_iff in Ha.
  assert (existsb (Nat.eqb o) b = true); [|congruence]. apply existsb_exists. exists o. split; auto. apply Nat.eqb_refl.
Qed.
Lemma nilb_spec l : nilb l = true -> l = [].
Proof. now destruct l. Qed.

Section Sets.
Context {T A : Type}.
Notation E := (expr T A).
Lemma fm_sub (f g : E -> list nat) es : Forall (fun e => forall o, In o (f e) -> In o (g e)) es ->
  forall o, In o (flat_map f es) -> In o (flat_map g es).
Proof.
  intros H o Ho. apply in_flat_map in Ho. destruct Ho as [e [He Ho]]. apply in_flat_map.
  exists e. split; auto. rewrite Forall_forall in H. eauto.
Qed.
Lemma opw_writes (e : E) : forall o, In o (opw e) -> In o (writes e).
Proof.
  induction e using expr_ind'; cbn; intros o' Ho; auto; try (now apply (fm_sub opw writes es)).
  - apply in_or_app. auto.
  - rewrite in_app_iff in *. destruct Ho; auto.
  - rewrite in_app_iff in *. destruct Ho; auto.
  - rewrite !in_app_iff in *. destruct Ho as [?|[?|?]]; auto.
Qed.
Lemma eqw_writes (e : E) : forall o, In o (eqw e) -> In o (writes e).
Proof.
  induction e using expr_ind'; cbn; intros o' Ho; auto; try (now apply (fm_sub eqw writes es)).
  - rewrite in_app_iff in *. destruct Ho; auto.
  - apply in_or_app. auto.
  - rewrite in_app_iff in *. destruct Ho; auto.
  - rewrite !in_app_iff in *. destruct Ho as [?|[?|?]]; auto.
Qed.
Lemma writes_refs (e : E) : forall o, In o (writes e) -> In o (refs e).
Proof.
  induction e using expr_ind'; cbn; intros o' Ho; auto; try (now apply (fm_sub writes refs es)).
  - destruct Ho.
  - rewrite in_app_iff in *. destruct Ho; auto.
  - rewrite in_app_iff in *. destruct Ho; auto.
  - rewrite in_app_iff in *. destruct Ho; auto.
  - rewrite !in_app_iff in *. destruct Ho as [?|[?|?]]; auto.
Qed.
Lemma in_cells sh o i : In i (cells sh o) <-> o <= i < o + size sh.
Proof. unfold cells. apply in_seq. Qed.
Lemma later_hd (f : E -> list nat) y l : later f (y :: l) = true ->
  (forall o, In o (flat_map f l) -> In o (refs y) -> False) /\ later f l = true.
Proof. cbn. intros H. apply andb_true_iff in H. destruct H. split; auto. now apply dj_spec. Qed.
End Sets.

Section LTape.
Context {N : num}.
Notation T := (carrier N).
Notation E := (expr T (ann N)).
Notation env := (nat -> T).
Notation rec := (rec N).
Context (D : env).
Hypothesis LL : la_len N.
Implicit Types (r a : env).

Definition tfs : list E -> env -> list rec * env :=
  fix go es r := match es with
                 | [] => ([], r)
                 | y :: l => let '(t, r1) := tf D y r in
                             let '(ts, r2) := go l r1 in (t :: ts, r2)
                 end.
Lemma tf_comp k an es r : tf D (EComp k an es) r =
  let '(ts, r1) := tfs es r in
  let '(s', val) := kf k (map is_const es) (map shape_of es) (st an) (map nv ts) in
  (Nd val s' [] ts, r1).
Proof. reflexivity. Qed.
Lemma tf_for an s es r : tf D (EFor an s es) r =
  let '(ts, r1) := tfs es r in (Nd (nv (last ts (Nd [] (sst0 N) [] []))) (sst0 N) [] ts, r1).
Proof. reflexivity. Qed.

Definition rsl : list E -> list rec -> env -> env :=
  fix go (l : list E) (ts : list rec) (r : env) {struct l} :=
         match l, ts with
         | y :: l', ty :: ts' => rs y ty (go l' ts' r)
         | _, _ => r
         end.
Lemma rs_comp k an es t r : rs (EComp k an es) t r = if kpure k then r else rsl es (nts t) r.
Proof. reflexivity. Qed.
Lemma rs_for an s es t r : rs (EFor an s es) t r = rsl es (nts t) r.
Proof. reflexivity. Qed.

Definition tbl (k : kd) (es : list E) (t : rec) (seed : list T) :=
  fix go (i : nat) (l : list E) (ts : list rec) (a : env) {struct l} : env :=
     match l, ts with
     | y :: l', ty :: ts' =>
         let a := go (S i) l' ts' a in
         let vs := vsel k (map nv (nts t)) in
         let f := match kpre k i vs (nv t) with None => nv t | Some f1 => f1 end in
         match kseed k (map is_const es) (map shape_of es) (ns t) seed vs f i with
         | None => a
         | Some s => tb y ty s a
         end
     | _, _ => a
     end.
Lemma tb_comp k an es t seed a : tb (EComp k an es) t seed a = tbl k es t seed 0 es (nts t) a.
Proof. reflexivity. Qed.
Definition tbf (seed : list T) :=
  fix go (l : list E) (ts : list rec) (a : env) {struct l} :=
   match l, ts with
   | y :: l', ty :: ts' =>
       match l' with
       | [] => tb y ty seed a
       | _ :: _ => tb y ty (repeat (n0 N) (size (shape_of y))) (go l' ts' a)
       end
   | _, _ => a
   end.
Lemma tb_for an s es t seed a : tb (EFor an s es) t seed a = tbf seed es (nts t) a.
Proof. reflexivity. Qed.
Definition prod_oks : list E -> list rec -> Prop :=
  fix go l ts := match l, ts with
         | y :: l', ty :: ts' => prod_ok y ty /\ go l' ts'
         | _, _ => True
         end.

(** ** Well-formed records *)
Fixpoint WT (e : E) (t : rec) {struct e} : Prop :=
  length (nv t) = size (shape_of e) /\
  match e with
  | EVar _ _ | ECst _ _ | ECvw _ _ => True
  | EComp k an es =>
      stpost N k (map shape_of es) (ns t) /\
      (fix go (l : list E) (ts : list rec) : Prop :=
         match l, ts with
         | [], [] => True
         | y :: l', ty :: ts' => WT y ty /\ go l' ts'
         | _, _ => False
         end) es (nts t)
  | EEq _ sh _ y => exists ty, nts t = [ty] /\ nv t = nv ty /\ WT y ty
  | EOpEq _ _ sh _ y => length (no t) = size sh /\ exists ty, nts t = [ty] /\ WT y ty
  | EGlue _ l r => exists tl tr, nts t = [tl; tr] /\ nv t = nv tr /\ WT l tl /\ WT r tr
  | EFor _ _ es =>
      nv t = nv (last (nts t) (Nd [] (sst0 N) [] [])) /\
      (fix go (l : list E) (ts : list rec) : Prop :=
         match l, ts with
         | [], [] => True
         | y :: l', ty :: ts' => WT y ty /\ go l' ts'
         | _, _ => False
         end) es (nts t)
  | EIf _ c t0 f =>
      exists tc tb, nts t = [tc; tb] /\ nv t = nv tb /\ WT c tc /\
        if ntrue N (hd0 N (nv tc)) then WT t0 tb else WT f tb
  end.
Definition WTs : list E -> list rec -> Prop :=
  fix go (l : list E) (ts : list rec) : Prop :=
     match l, ts with
     | [], [] => True
     | y :: l', ty :: ts' => WT y ty /\ go l' ts'
     | _, _ => False
     end.
Lemma WT_len e t : WT e t -> length (nv t) = size (shape_of e).
Proof. destruct e; intros [H _]; exact H. Qed.
Lemma WTs_lens es ts : WTs es ts -> lens N (map nv ts) (map shape_of es).
Proof.
  revert ts. induction es as [|y l IH]; destruct ts as [|ty ts]; cbn; try tauto; [constructor|].
  intros [H1 H2]. constructor; [now apply WT_len|now apply IH].
Qed.
Lemma WTs_length es ts : WTs es ts -> length ts = length es.
Proof. revert ts. induction es; destruct ts; cbn; try tauto. intros [_ H]. f_equal; auto. Qed.

(** ** Restoration *)
Lemma rs_pt (e : E) : forall t r r' o, r o = r' o -> rs e t r o = rs e t r' o.
Proof.
  assert (LST : forall es, Forall (fun e => forall t r r' o, r o = r' o -> rs e t r o = rs e t r' o) es ->
     forall ts r r' o, r o = r' o -> rsl es ts r o = rsl es ts r' o).
  { induction 1 as [|y l HY H IH]; intros ts r r' o Ho; [exact Ho|]. destruct ts; cbn; auto. }
  induction e using expr_ind'; intros t r r' o' Ho; auto.
  - rewrite !rs_comp. destruct (kpure k); [auto|]. apply LST; auto.
  - cbn. destruct (nts t) as [|ty [|? ?]]; auto.
  - cbn. destruct (nts t) as [|ty [|? ?]]; auto. apply IHe. unfold upd. now destruct (_ && _).
  - cbn. destruct (nts t) as [|? [|? [|? ?]]]; auto.
  - rewrite !rs_for. apply LST; auto.
  - cbn. destruct (nts t) as [|? [|? [|? ?]]]; auto. destruct (ntrue _ _); auto.
Qed.
Lemma rsl_pt es : forall ts r r' o, r o = r' o -> rsl es ts r o = rsl es ts r' o.
Proof. induction es as [|y l IH]; intros ts r r' o Ho; [exact Ho|]. destruct ts; cbn; auto. apply rs_pt, IH, Ho. Qed.

Lemma rs_out (e : E) : forall t r o, WT e t -> ~ In o (opw e) -> rs e t r o = r o.
Proof.
  assert (LST : forall es, Forall (fun e => forall t r o, WT e t -> ~ In o (opw e) -> rs e t r o = r o) es ->
     forall ts r o, WTs es ts -> ~ In o (flat_map opw es) -> rsl es ts r o = r o).
  { induction 1 as [|y l HY H IH]; intros ts r o HW Ho; [reflexivity|].
    destruct ts as [|t ts]; [destruct HW|]. destruct HW as [W1 W2]. cbn [rsl]. cbn in Ho. rewrite in_app_iff in Ho.
    rewrite HY; auto. }
  induction e using expr_ind'; intros t r o' HW Ho; auto.
  - rewrite rs_comp. destruct (kpure k); auto. apply LST; auto. apply HW.
  - cbn in HW |- *. destruct HW as [_ [ty [-> [_ HW]]]]. cbn in Ho. auto.
  - cbn in HW |- *. destruct HW as [_ [HL [ty [-> HW]]]]. cbn in Ho. rewrite in_app_iff, in_cells in Ho.
    rewrite IHe; auto. apply upd_out. lia.
  - cbn in HW |- *. destruct HW as [_ [tl [tr [-> [_ [W1 W2]]]]]]. cbn in Ho. rewrite in_app_iff in Ho.
    rewrite IHe1, IHe2; auto.
  - rewrite rs_for. apply LST; auto. apply HW.
  - cbn in HW |- *. destruct HW as [_ [tc [tb [-> [_ [W1 W2]]]]]]. cbn in Ho. rewrite !in_app_iff in Ho.
    destruct (ntrue _ _); [apply IHe2|apply IHe3]; tauto.
Qed.
Lemma rsl_out es : forall ts r o, WTs es ts -> ~ In o (flat_map opw es) -> rsl es ts r o = r o.
Proof.
  induction es as [|y l IH]; intros ts r o HW Ho; [reflexivity|].
  destruct ts as [|t ts]; [destruct HW|]. destruct HW as [W1 W2]. cbn [rsl]. cbn in Ho. rewrite in_app_iff in Ho.
  rewrite rs_out by auto. apply IH; auto.
Qed.

(** ** Tapes represent records *)
Fixpoint RT (x : option nat) (e : E) (t : tape N) (t' : rec) (r : env) {struct e} : Prop :=
  rdp r (tp t) = nv t' /\
  match e with
  | EVar sh o => tp t = PV o (size sh)
  | ECst _ _ | ECvw _ _ => tp t = PL (nv t')
  | EComp k an es =>
      tv t = nv t' /\ tst t = ns t' /\
      tp t = px x (size (kshape k (map shape_of es))) (PL (nv t')) /\
      (fix go (l : list E) (ts : list (tape N)) (ts' : list rec) : Prop :=
         match l, ts, ts' with
         | [], [], [] => True
         | y :: l, ty :: ts, ty' :: ts' => RT None y ty ty' r /\ go l ts ts'
         | _, _, _ => False
         end) es (tts t) (nts t')
  | EEq _ sh o y =>
      tp t = PV (root x o) (size sh) /\ rdv r o (size sh) = nv t' /\
      exists ty ty', tts t = [ty] /\ nts t' = [ty'] /\ RT (Some o) y ty ty' r
  | EOpEq _ _ sh o y =>
      tp t = PV (root x o) (size sh) /\ told t = no t' /\
      exists ty ty', tts t = [ty] /\ nts t' = [ty'] /\ RT None y ty ty' (upd r o (no t'))
  | EGlue _ l r0 =>
      exists tl tr tl' tr', tts t = [tl; tr] /\ nts t' = [tl'; tr'] /\
        tp t = px x (size (shape_of r0)) (tp tr) /\
        RT None r0 tr tr' r /\ RT None l tl tl' (rs r0 tr' r)
  | EFor _ s es =>
      tp t = px x (size (iter_shape s (map shape_of es)))
               (match rev (tts t) with [] => PL [] | y :: _ => tp y end) /\
      (fix go (l : list E) (ts : list (tape N)) (ts' : list rec) : Prop :=
         match l, ts, ts' with
         | [], [], [] => True
         | y :: l, ty :: ts, ty' :: ts' => RT None y ty ty' (rsl l ts' r) /\ go l ts ts'
         | _, _, _ => False
         end) es (tts t) (nts t')
  | EIf _ c t0 f =>
      exists tc tb tc' tb', tts t = [tc; tb] /\ nts t' = [tc'; tb'] /\
        tp tc = PL (nv tc') /\ tp t = tp tb /\
        if ntrue N (hd0 N (nv tc')) then RT None t0 tb tb' r else RT None f tb tb' r
  end.
Definition RTs (r : env) : list E -> list (tape N) -> list rec -> Prop :=
  fix go (l : list E) (ts : list (tape N)) (ts' : list rec) : Prop :=
     match l, ts, ts' with
     | [], [], [] => True
     | y :: l, ty :: ts, ty' :: ts' => RT None y ty ty' r /\ go l ts ts'
     | _, _, _ => False
     end.
Definition RTf (r : env) : list E -> list (tape N) -> list rec -> Prop :=
  fix go (l : list E) (ts : list (tape N)) (ts' : list rec) : Prop :=
     match l, ts, ts' with
     | [], [], [] => True
     | y :: l, ty :: ts, ty' :: ts' => RT None y ty ty' (rsl l ts' r) /\ go l ts ts'
     | _, _, _ => False
     end.
Lemma RT_val x e t t' r : RT x e t t' r -> rdp r (tp t) = nv t'.
Proof. destruct e; intros [H _]; exact H. Qed.

(** What the value of the root may refer to. *)
Definition pin (p : pref N) (l : list nat) : Prop :=
  match p with PV o n => forall i, o <= i < o + n -> In i l | PL _ => True end.
Lemma pin_sub p l l' : (forall i, In i l -> In i l') -> pin p l -> pin p l'.
Proof. destruct p; cbn; auto. Qed.
Lemma RT_root (e : E) : forall x t t' r, RT x e t t' r -> WT e t' ->
  pin (tp t) (refs e) \/ exists c, x = Some c /\ tp t = PV c (size (shape_of e)).
Proof.
  assert (NN : forall (e : E) (t : tape N), (pin (tp t) (refs e) \/ exists c, @None nat = Some c /\ tp t = PV c (size (shape_of e))) ->
     pin (tp t) (refs e)).
  { intros e0 t [H|[c [H _]]]; [auto|discriminate]. }
  induction e using expr_ind'; intros x t t' r HR HW; cbn [RT WT] in HR, HW.
  - left. destruct HR as [_ ->]. intros i Hi. now apply in_cells.
  - left. destruct HR as [_ ->]. exact I.
  - left. destruct HR as [_ ->]. exact I.
  - destruct HR as [_ [_ [_ [-> _]]]]. destruct x as [c|]; [right; exists c; auto|left; exact I].
  - destruct HR as [_ [-> _]]. destruct x as [c|]; [right; exists c; auto|left].
    intros i Hi. cbn. apply in_or_app. left. now apply in_cells.
  - destruct HR as [_ [-> _]]. destruct x as [c|]; [right; exists c; auto|left].
    intros i Hi. cbn. apply in_or_app. left. now apply in_cells.
  - destruct HR as [_ [tl [tr [tl' [tr' [E1 [E2 [-> [H1 H2]]]]]]]]].
    destruct HW as [_ [tl2 [tr2 [E3 [_ [W1 W2]]]]]]. rewrite E2 in E3. inversion E3; subst.
    destruct x as [c|]; [right; exists c; auto|left]. cbn [px].
    eapply pin_sub; [|apply NN; eapply IHe2; eauto]. intros i Hi. cbn. apply in_or_app. auto.
  - destruct HR as [_ [-> H1]]. destruct HW as [_ [_ W1]].
    destruct x as [c|]; [right; exists c; auto|left]. cbn [px].
    change (RTf r es (tts t) (nts t')) in H1. change (WTs es (nts t')) in W1.
    revert H1 W1. generalize (tts t) (nts t'). clear t t'.
    change (refs (EFor a s es)) with (flat_map refs es).
    induction H as [|y l HY H IH]; intros [|ty ts] [|ty' ts']; cbn [RTf WTs]; try tauto.
    intros [R1 R2] [W1 W2]. cbn [rev flat_map]. destruct ts as [|tz ts].
    + cbn. eapply pin_sub; [|apply NN; eapply HY; eauto]. intros i Hi. apply in_or_app. auto.
    + specialize (IH _ _ R2 W2). destruct (rev (tz :: ts)) as [|u us] eqn:E.
      * apply (f_equal (@length _)) in E. rewrite rev_length in E. discriminate E.
      * cbn [app]. eapply pin_sub; [|exact IH]. intros i Hi. apply in_or_app. auto.
  - destruct HR as [_ [tc [tb [tc' [tb' [E1 [E2 [_ [-> H1]]]]]]]]].
    destruct HW as [_ [tc2 [tb2 [E3 [_ [_ W2]]]]]]. rewrite E2 in E3. inversion E3; subst.
    left. destruct (ntrue _ _).
    + eapply pin_sub; [|apply NN; eapply IHe2; eauto]. intros i Hi. cbn. rewrite !in_app_iff. auto.
    + eapply pin_sub; [|apply NN; eapply IHe3; eauto]. intros i Hi. cbn. rewrite !in_app_iff. auto.
Qed.

Definition xval (x : option nat) (n : nat) (v : list T) (r : env) : Prop :=
  forall c, x = Some c -> rdv r c n = v.
Lemma xval_none n v r : xval None n v r.
Proof. intros c H. discriminate. Qed.
Hint Resolve xval_none : core.

Lemma rdp_ext r r' (p : pref N) l : pin p l -> (forall i, In i l -> r i = r' i) -> rdp r p = rdp r' p.
Proof. destruct p; cbn; auto. intros H1 H2. apply rdv_ext. auto. Qed.

Lemma RT_vext e x t t' r r' : WT e t' ->
  (forall o, In o (refs e) -> r o = r' o) -> xval x (size (shape_of e)) (nv t') r' ->
  RT x e t t' r -> rdp r' (tp t) = nv t'.
Proof.
  intros HW HE HX HR. destruct (RT_root _ _ _ _ _ HR HW) as [Q|[c [-> Q]]].
  - rewrite <- (RT_val _ _ _ _ _ HR). symmetry. eapply rdp_ext; eauto.
  - rewrite Q. cbn. now apply HX.
Qed.

Lemma WT_eq an sh o y t : WT (EEq an sh o y) t -> size sh = size (shape_of y).
Proof.
  intros [L1 [tz [E4 [E5 W1]]]]. rewrite <- (WT_len _ _ W1), <- E5. symmetry. exact L1.
Qed.

Definition RTE (e : E) : Prop := forall x t t' r r', WT e t' ->
  (forall o, In o (refs e) -> r o = r' o) -> xval x (size (shape_of e)) (nv t') r' ->
  RT x e t t' r -> RT x e t t' r'.
Lemma RTs_ext es : Forall RTE es -> forall ts ts' r r', WTs es ts' ->
  (forall o, In o (flat_map refs es) -> r o = r' o) -> RTs r es ts ts' -> RTs r' es ts ts'.
Proof.
  induction 1 as [|y l HY H IH]; intros [|t ts] [|t' ts'] r r'; cbn [WTs RTs]; try tauto.
  intros [W1 W2] HE [R1 R2]. cbn in HE. split.
  - eapply HY; [exact W1| |auto|exact R1]. intros o Ho. apply HE, in_or_app; auto.
  - eapply IH; [exact W2| |exact R2]. intros o Ho. apply HE, in_or_app; auto.
Qed.
Lemma RTf_ext es : Forall RTE es -> forall ts ts' r r', WTs es ts' ->
  (forall o, In o (flat_map refs es) -> r o = r' o) -> RTf r es ts ts' -> RTf r' es ts ts'.
Proof.
  induction 1 as [|y l HY H IH]; intros [|t ts] [|t' ts'] r r'; cbn [WTs RTf]; try tauto.
  intros [W1 W2] HE [R1 R2]. cbn in HE. split.
  - eapply HY; [exact W1| |auto|exact R1]. intros o Ho. apply rsl_pt, HE, in_or_app; auto.
  - eapply IH; [exact W2| |exact R2]. intros o Ho. apply HE, in_or_app; auto.
Qed.
Lemma RT_ext e : RTE e.
Proof.
  induction e using expr_ind'; intros x t t' r r' HW HE HX HR;
    pose proof (RT_vext _ _ _ _ _ _ HW HE HX HR) as HV;
    cbn [RT] in HR |- *; (split; [exact HV|]); destruct HR as [_ HR].
  - exact HR.
  - exact HR.
  - exact HR.
  - destruct HR as [R1 [R2 [R3 R4]]]. split; [exact R1|]. split; [exact R2|]. split; [exact R3|].
    change (RTs r es (tts t) (nts t')) in R4. change (RTs r' es (tts t) (nts t')).
    apply (RTs_ext es H _ _ r r'); [apply HW| |exact R4]. intros o' Ho. apply HE. exact Ho.
  - destruct HR as [R1 [R2 [ty [ty' [E1 [E2 R3]]]]]]. split; [exact R1|].
    destruct (proj2 HW) as [ty2 [E3 [E5 W1]]]. rewrite E2 in E3. inversion E3; subst ty2.
    assert (HC : rdv r' o (size sh) = nv t').
    { rewrite <- R2. symmetry. apply rdv_ext.
      intros i Hi. apply HE. cbn. apply in_or_app. left. now apply in_cells. }
    split; [exact HC|].
    exists ty, ty'. split; [auto|]. split; [auto|]. eapply IHe; [exact W1| | |exact R3].
    + intros o' Ho. apply HE; cbn; apply in_or_app; auto.
    + intros c Hc. inversion Hc; subst c. rewrite <- (WT_eq _ _ _ _ _ HW), HC. exact E5.
  - destruct HR as [R1 [R2 [ty [ty' [E1 [E2 R3]]]]]]. split; [exact R1|]. split; [exact R2|].
    destruct HW as [_ [_ [ty2 [E3 W1]]]]. rewrite E2 in E3. inversion E3; subst ty2.
    exists ty, ty'. split; [auto|]. split; [auto|]. eapply IHe; [exact W1| |auto|exact R3].
    intros o' Ho. unfold upd. destruct (_ && _); auto. apply HE. cbn. apply in_or_app; auto.
  - destruct HR as [tl [tr [tl' [tr' [E1 [E2 [R1 [R2 R3]]]]]]]].
    destruct HW as [_ [tl2 [tr2 [E3 [_ [W1 W2]]]]]]. rewrite E2 in E3. inversion E3; subst tl2 tr2.
    exists tl, tr, tl', tr'. split; [auto|]. split; [auto|]. split; [auto|]. split.
    + eapply IHe2; [exact W2| |auto|exact R2]. intros o' Ho. apply HE. cbn. apply in_or_app; auto.
    + eapply IHe1; [exact W1| |auto|exact R3]. intros o' Ho. apply rs_pt, HE. cbn. apply in_or_app; auto.
  - destruct HR as [R1 R4]. split; [exact R1|].
    change (RTf r es (tts t) (nts t')) in R4. change (RTf r' es (tts t) (nts t')).
    apply (RTf_ext es H _ _ r r'); [apply HW| |exact R4]. intros o' Ho. apply HE. exact Ho.
  - destruct HR as [tc [tb [tc' [tb' [E1 [E2 [R1 [R2 R3]]]]]]]].
    destruct HW as [_ [tc2 [tb2 [E3 [_ [W1 W2]]]]]]. rewrite E2 in E3. inversion E3; subst tc2 tb2.
    exists tc, tb, tc', tb'. split; [auto|]. split; [auto|]. split; [auto|]. split; [auto|].
    destruct (ntrue _ _); [eapply IHe2; [exact W2| |auto|exact R3]|eapply IHe3; [exact W2| |auto|exact R3]];
      (intros o' Ho; apply HE; cbn; rewrite !in_app_iff; auto).
Qed.
Lemma RTEs (es : list E) : Forall RTE es.
Proof. apply Forall_forall. intros. apply RT_ext. Qed.

(** ** Forward *)
Definition TF (e : E) : Prop := forall x r rho t r' p t' rho',
  wfs e = true -> disc e = true -> stok e -> (x <> None -> rhs_ok e = true) ->
  (forall o, xin x (size (shape_of e)) o -> ~ In o (refs e)) ->
  (forall o, r o = rho o) ->
  pf D x e r = (t, r', p) -> tf D e rho = (t', rho') ->
  p = tp t /\ RT x e t t' r' /\ WT e t' /\
  (forall o, ~ xin x (size (shape_of e)) o -> r' o = rho' o) /\
  (forall o, ~ In o (writes e) -> rho' o = rho o) /\
  (forall o, ~ In o (eqw e) -> rs e t' rho' o = rho o).

Lemma TF_list es : Forall TF es -> forall r rho ts r' ps im ts' rho',
  forallb wfs es = true -> forallb disc es = true -> stoks es -> later writes es = true ->
  (forall o, r o = rho o) ->
  pfs D es r = (ts, r', ps, im) -> tfs es rho = (ts', rho') ->
  ps = map tp ts /\ im = map nv ts' /\ RTs r' es ts ts' /\ WTs es ts' /\
  (forall o, r' o = rho' o) /\
  (forall o, ~ In o (flat_map writes es) -> rho' o = rho o) /\
  (forall o, ~ In o (flat_map eqw es) -> rsl es ts' rho' o = rho o).
Proof.
  induction 1 as [|y l HY H IH]; intros r rho ts r' ps im ts' rho' Hw Hd Hs Hl Hr P Q.
  - cbn in P, Q. inversion P; subst. inversion Q; subst. cbn. auto 10.
  - cbn [forallb] in Hw, Hd. apply andb_true_iff in Hw, Hd. destruct Hw as [Hw1 Hw2], Hd as [Hd1 Hd2].
    destruct Hs as [Hs1 Hs2]. apply later_hd in Hl. destruct Hl as [Hl1 Hl2].
    cbn [pfs tfs] in P, Q. fold (pfs D) in P. fold tfs in Q.
    destruct (pf D None y r) as [[t1 r1] p1] eqn:P1. destruct (tf D y rho) as [t1' rho1] eqn:Q1.
    destruct (pfs D l r1) as [[[ts2 r2] ps2] im2] eqn:P2. destruct (tfs l rho1) as [ts2' rho2] eqn:Q2.
    inversion P; subst; clear P. inversion Q; subst; clear Q.
    destruct (HY None r rho _ _ _ _ _ Hw1 Hd1 Hs1 ltac:(congruence) ltac:(cbn; tauto) Hr P1 Q1) as [A1 [A2 [A3 [A4 [A5 A6]]]]].
    assert (A4' : forall o, r1 o = rho1 o) by (intros; apply A4; cbn; auto).
    destruct (IH r1 rho1 _ _ _ _ _ _ Hw2 Hd2 Hs2 Hl2 A4' P2 Q2) as [B1 [B2 [B3 [B4 [B5 [B6 B7]]]]]].
    split; [cbn; congruence|]. split; [cbn; rewrite B2, A1, (RT_val _ _ _ _ _ A2); reflexivity|].
    cbn [RTs WTs flat_map rsl]. fold RTs. fold WTs. fold rsl.
    split; [split; [|exact B3]|].
    { eapply RT_ext; [exact A3| |auto|exact A2]. intros o Ho. rewrite B5, A4'. symmetry. apply B6.
      intros Hi. eauto. }
    split; [auto|]. split; [auto|]. split.
    + intros o Ho. rewrite in_app_iff in Ho. rewrite B6, A5; auto.
    + intros o Ho. rewrite in_app_iff in Ho. rewrite <- A6 by auto. apply rs_pt. apply B7. auto.
Qed.
Lemma TF_listf es : Forall TF es -> forall r rho p0 ts r' p ts' rho',
  forallb wfs es = true -> forallb disc es = true -> stoks es -> later eqw es = true ->
  (forall o, r o = rho o) ->
  pfsf D es r p0 = (ts, r', p) -> tfs es rho = (ts', rho') ->
  p = match rev ts with [] => p0 | y :: _ => tp y end /\
  RTf r' es ts ts' /\ WTs es ts' /\
  (ts <> [] -> rdp r' p = nv (last ts' (Nd [] (sst0 N) [] []))) /\
  (forall o, r' o = rho' o) /\
  (forall o, ~ In o (flat_map writes es) -> rho' o = rho o) /\
  (forall o, ~ In o (flat_map eqw es) -> rsl es ts' rho' o = rho o).
Proof.
  induction 1 as [|y l HY H IH]; intros r rho p0 ts r' p ts' rho' Hw Hd Hs Hl Hr P Q.
  - cbn in P, Q. inversion P; subst. inversion Q; subst. cbn. split; [reflexivity|].
    split; [exact I|]. split; [exact I|]. split; [congruence|]. auto.
  - cbn [forallb] in Hw, Hd. apply andb_true_iff in Hw, Hd. destruct Hw as [Hw1 Hw2], Hd as [Hd1 Hd2].
    destruct Hs as [Hs1 Hs2]. apply later_hd in Hl. destruct Hl as [Hl1 Hl2].
    cbn [pfsf tfs] in P, Q. fold (pfsf D) in P. fold tfs in Q.
    destruct (pf D None y r) as [[t1 r1] p1] eqn:P1. destruct (tf D y rho) as [t1' rho1] eqn:Q1.
    destruct (pfsf D l r1 p1) as [[ts2 r2] p2] eqn:P2. destruct (tfs l rho1) as [ts2' rho2] eqn:Q2.
    inversion P; subst; clear P. inversion Q; subst; clear Q.
    destruct (HY None r rho _ _ _ _ _ Hw1 Hd1 Hs1 ltac:(congruence) ltac:(cbn; tauto) Hr P1 Q1) as [A1 [A2 [A3 [A4 [A5 A6]]]]].
    assert (A4' : forall o, r1 o = rho1 o) by (intros; apply A4; cbn; auto).
    destruct (IH r1 rho1 _ _ _ _ _ _ Hw2 Hd2 Hs2 Hl2 A4' P2 Q2) as [B1 [B3 [B4 [B8 [B5 [B6 B7]]]]]].
    split.
    { rewrite B1. cbn [rev]. destruct (rev ts2); cbn; auto. }
    cbn [RTf WTs flat_map rsl]. fold RTf. fold WTs. fold rsl.
    split; [split; [|exact B3]|].
    { eapply RT_ext; [exact A3| |auto|exact A2]. intros o Ho. rewrite A4'. rewrite <- (B7 o).
      - apply rsl_pt. auto.
      - intros Hi. eauto. }
    split; [auto|]. split.
    { intros _. destruct ts2 as [|tz ts2].
      - destruct l; [|destruct ts2'; destruct B3]. destruct ts2'; [|destruct B3].
        cbn in P2, Q2. inversion P2; subst. cbn. now rewrite (RT_val _ _ _ _ _ A2).
      - destruct ts2' as [|tz' ts2']; [destruct l; destruct B3|].
        rewrite B8 by discriminate. reflexivity. }
    split; [auto|]. split.
    + intros o Ho. rewrite in_app_iff in Ho. rewrite B6, A5; auto.
    + intros o Ho. rewrite in_app_iff in Ho. rewrite <- A6 by auto. apply rs_pt. apply B7. auto.
Qed.

Lemma kf_ok k cs ss s vs : kshape_ok k ss = true -> kdim_ok k ss = true -> lens N vs ss -> stpre N k ss s ->
  length (snd (kf k cs ss s vs)) = size (kshape k ss) /\ stpost N k ss (fst (kf k cs ss s vs)).
Proof.
  intros H1 H2 H3 H4. unfold kf. destruct (kfwd_ok N k cs ss s vs H1 H2 H3) as [s' [v [E1 E2]]].
  rewrite E1. cbn. split; auto. eapply kfwd_post; eauto.
Qed.
Lemma RTs_vals r es : forall ts ts', RTs r es ts ts' -> map (rdp r) (map tp ts) = map nv ts'.
Proof.
  induction es as [|y l IH]; intros [|t ts] [|t' ts']; cbn [RTs]; try tauto.
  intros [H1 H2]. cbn. rewrite (RT_val _ _ _ _ _ H1). f_equal. now apply IH.
Qed.
Lemma RTs_length r es : forall ts ts', RTs r es ts ts' -> length ts = length es.
Proof.
  induction es as [|y l IH]; intros [|t ts] [|t' ts']; cbn [RTs]; try tauto.
  intros [H1 H2]. cbn. f_equal. eauto.
Qed.
Lemma pvals_nv k r es ts ts' : RTs r es ts ts' -> pvals k r ts (map tp ts) (map nv ts') = map nv ts'.
Proof.
  intros H. unfold pvals. destruct (kseq k); auto.
  rewrite <- (RTs_vals _ _ _ _ H). f_equal. clear.
  generalize 0. induction ts as [|t ts IH]; intros n; cbn; auto. rewrite IH. now destruct (kgetf k n).
Qed.
Lemma wx_out x r l o n : length l = n -> ~ xin x n o -> wx x r l o = r o.
Proof. intros L H. destruct x; cbn in *; auto. apply upd_out. lia. Qed.
Lemma px_val x r n v p : length v = n -> rdp r p = v -> rdp (wx x r v) (px x n p) = v.
Proof. intros L H. destruct x; cbn; auto. subst n. apply rdv_upd. Qed.
Lemma upd_ext r r' o l i : r i = r' i -> upd r o l i = upd r' o l i.
Proof. unfold upd. now destruct (_ && _). Qed.
Lemma upd_old r o l n i : length l = n -> upd (upd r o l) o (rdv r o n) i = r i.
Proof.
  intros L. destruct (le_lt_dec o i); [destruct (le_lt_dec (o + n) i)|].
  - rewrite !upd_out; rewrite ?rdv_length; auto; lia.
  - rewrite upd_in by (rewrite rdv_length; lia). rewrite rdv_nth by lia. f_equal. lia.
  - rewrite !upd_out; rewrite ?rdv_length; auto; lia.
Qed.
Lemma xin_dec x n o : {xin x n o} + {~ xin x n o}.
Proof.
  destruct x as [c|]; cbn; [|tauto].
  destruct (le_lt_dec c o), (le_lt_dec (c + n) o); [right|left|right|right]; lia.
Qed.

Lemma TF_all e : TF e.
Proof.
  induction e using expr_ind'; intros x r rho t r' p t' rho' Hw Hd Hs Hx Hxr Hr P Q.
  - (* EVar *) cbn in P, Q. inversion P; subst. inversion Q; subst. cbn.
    assert (RV : rdv r' o (size sh) = rdv rho' o (size sh)) by (apply rdv_ext; auto).
    rewrite RV, rdv_length. auto 10.
  - (* ECst *) cbn in P, Q. inversion P; subst. inversion Q; subst. cbn.
    cbn in Hw. apply andb_true_iff in Hw. destruct Hw as [_ Hw]. apply Nat.eqb_eq in Hw. auto 10.
  - (* ECvw *) cbn in P, Q. inversion P; subst. inversion Q; subst. cbn. rewrite rdv_length. auto 10.
  - (* EComp *)
    cbn [wfs disc] in Hw, Hd. rewrite !andb_true_iff in Hw. rewrite !andb_true_iff in Hd.
    destruct Hw as [[[Hw1 Hw2] Hw3] _]. destruct Hd as [[[Hd1 Hd2] Hd3] _].
    destruct Hs as [Hs1 Hs2].
    rewrite pf_comp in P. rewrite tf_comp in Q. cbn zeta in P.
    destruct (pfs D es r) as [[[ts r1] ps] im] eqn:P1. destruct (tfs es rho) as [ts' rho1] eqn:Q1.
    destruct (TF_list es H r rho _ _ _ _ _ _ Hw1 Hd1 Hs2 Hd2 Hr P1 Q1) as [B1 [B2 [B3 [B4 [B5 [B6 B7]]]]]].
    subst ps im. rewrite (pvals_nv _ _ _ _ _ B3) in P.
    pose proof (kf_ok k (map is_const es) (map shape_of es) (st a) (map nv ts') Hw2 Hw3 (WTs_lens _ _ B4) Hs1) as [KL KP].
    destruct (kf k (map is_const es) (map shape_of es) (st a) (map nv ts')) as [s' val].
    cbn [fst snd] in KL, KP. inversion P; subst; clear P. inversion Q; subst; clear Q.
    assert (HO : forall o, In o (flat_map refs es) -> r1 o = wx x r1 val o).
    { intros o Ho. symmetry. eapply wx_out; [exact KL|]. intros Hi. apply (Hxr o); auto. }
    split; [reflexivity|]. split.
    { cbn [RT tp tv tst tts nv ns nts]. split; [apply px_val; auto|]. 
      split; [reflexivity|]. split; [reflexivity|]. split; [reflexivity|].
      change (RTs (wx x r1 val) es ts ts'). eapply RTs_ext; [apply RTEs|exact B4|exact HO|exact B3]. }
    split. { cbn [WT nv ns nts shape_of]. auto. }
    split. { intros o Ho. rewrite (wx_out _ _ _ _ _ KL Ho). auto. }
    split; [exact B6|].
    intros o Ho. rewrite rs_comp. cbn [nts]. destruct (kpure k); [|apply B7; exact Ho].
    apply B6. cbn in Hd3. rewrite forallb_forall in Hd3. intros Hi. apply in_flat_map in Hi.
    destruct Hi as [y [Hy Hi]]. specialize (Hd3 y Hy). apply nilb_spec in Hd3. rewrite Hd3 in Hi. destruct Hi.
  - (* EEq *)
    cbn [wfs disc] in Hw, Hd. rewrite !andb_true_iff in Hw. rewrite !andb_true_iff in Hd.
    destruct Hw as [[[Hw1 Hw2] Hw3] Hw4]. destruct Hd as [Hd1 Hd2]. apply shape_eqb_eq in Hw3.
    pose proof (dj_spec _ _ Hd2) as DJ.
    cbn [pf tf] in P, Q. destruct (pf D (Some o) e r) as [[t1 r1] p1] eqn:P1. destruct (tf D e rho) as [t1' rho1] eqn:Q1.
    assert (XR : forall i, xin (Some o) (size (shape_of e)) i -> ~ In i (refs e)).
    { cbn. intros i Hi Hj. apply (DJ i); auto. apply in_cells. rewrite Hw3. lia. }
    destruct (IHe (Some o) r rho _ _ _ _ _ Hw1 Hd1 Hs ltac:(auto) XR Hr P1 Q1) as [A1 [A2 [A3 [A4 [A5 A6]]]]].
    assert (EV : rdp r1 p1 = nv t1') by (rewrite A1; eapply RT_val; eauto).
    rewrite EV in P. pose proof (WT_len _ _ A3) as LV. rewrite <- Hw3 in LV.
    inversion P; subst t r' p; clear P. inversion Q; subst t' rho'; clear Q.
    cbn [shape_of] in *. set (v := nv t1') in *.
    set (r2 := upd (upd r1 o v) (root x o) v).
    assert (XO : forall i, In i (cells sh o ++ refs e) -> ~ xin x (size sh) i).
    { intros i Hi Hj. apply (Hxr i); auto. }
    assert (R2o : rdv r2 o (size sh) = v).
    { unfold r2. destruct x as [c|]; cbn [root].
      - rewrite <- LV. transitivity (rdv (upd r1 o v) o (length v)); [|apply rdv_upd]. apply rdv_ext. intros i Hi. apply upd_out.
        intros Hj. apply (XO i). { apply in_or_app. left. apply in_cells. lia. } cbn. lia.
      - rewrite <- LV. apply rdv_upd. }
    assert (R2p : rdv r2 (root x o) (size sh) = v).
    { unfold r2. rewrite <- LV at 1. apply rdv_upd. }
    split; [reflexivity|]. split.
    { cbn [RT tp nv tts nts]. split; [exact R2p|]. split; [reflexivity|]. split; [exact R2o|].
      exists t1, t1'. split; [reflexivity|]. split; [reflexivity|].
      eapply RT_ext; [exact A3| | |exact A2].
      - intros i Hi. unfold r2. rewrite !upd_out; auto.
        + intros Hj. apply (DJ i); auto. apply in_cells. lia.
        + intros Hj. destruct x as [c|]; cbn [root] in Hj.
          * apply (XO i). { apply in_or_app. auto. } cbn. lia.
          * apply (DJ i); auto. apply in_cells. lia.
      - intros c Hc. inversion Hc; subst c. rewrite <- Hw3. exact R2o. }
    split. { cbn [WT nv nts shape_of]. split; [auto|]. exists t1'. auto. }
    split.
    { intros i Hi. unfold r2. destruct x as [c|]; cbn [root].
      - rewrite (upd_out _ c) by (cbn in Hi; lia).
        destruct (xin_dec (Some o) (size sh) i) as [Hj|Hj]; cbn in Hj.
        + rewrite !upd_in by lia. reflexivity.
        + rewrite !upd_out by lia. apply A4. cbn. rewrite <- Hw3. exact Hj.
      - destruct (xin_dec (Some o) (size sh) i) as [Hj|Hj]; cbn in Hj.
        + rewrite !upd_in by lia. reflexivity.
        + rewrite !upd_out by lia. apply A4. cbn. rewrite <- Hw3. exact Hj. }
    split.
    { intros i Hi. cbn in Hi. rewrite in_app_iff, in_cells in Hi. rewrite upd_out by lia. apply A5. tauto. }
    intros i Hi. cbn in Hi. rewrite in_app_iff, in_cells in Hi. cbn [rs nts].
    rewrite <- A6 by tauto. apply rs_pt. apply upd_out. lia.
  - (* EOpEq *)
    cbn [wfs disc] in Hw, Hd. rewrite !andb_true_iff in Hw. rewrite !andb_true_iff in Hd.
    destruct Hw as [[[Hw1 Hw2] Hw3] Hw4]. destruct Hd as [[Hd1 Hd2] Hd3].
    pose proof (dj_spec _ _ Hd2) as DJ.
    destruct x as [c|]; [discriminate (Hx ltac:(discriminate))|].
    cbn [pf tf shape_of] in P, Q. destruct (pf D None e r) as [[t1 r1] p1] eqn:P1. destruct (tf D e rho) as [t1' rho1] eqn:Q1.
    destruct (IHe None r rho _ _ _ _ _ Hw1 Hd1 Hs ltac:(congruence) ltac:(cbn; tauto) Hr P1 Q1) as [A1 [A2 [A3 [A4 [A5 A6]]]]].
    assert (A4' : forall i, r1 i = rho1 i) by (intros; apply A4; cbn; auto).
    assert (EV : rdp r1 p1 = nv t1') by (rewrite A1; eapply RT_val; eauto).
    assert (EO : rdv r o (size sh) = rdv r1 o (size sh)).
    { apply rdv_ext. intros i Hi. rewrite A4', Hr. symmetry. apply A5. intros Hj. apply (DJ i); auto. now apply in_cells. }
    assert (EO2 : rdv rho1 o (size sh) = rdv r1 o (size sh)) by (apply rdv_ext; auto).
    rewrite EV, EO in P. rewrite EO2 in Q. inversion P; subst t r' p; clear P. inversion Q; subst t' rho'; clear Q.
    cbn [root]. set (old := rdv r1 o (size sh)) in *. set (v := oe_fwd N q (shape_of e) old (nv t1')).
    assert (LV : length v = size sh).
    { unfold v. rewrite oe_fwd_length; [apply rdv_length|]. apply orb_true_iff in Hw3. destruct Hw3 as [Hw3|Hw3]; auto.
      right. apply shape_eqb_eq in Hw3. rewrite (WT_len _ _ A3). unfold old. rewrite rdv_length. congruence. }
    assert (RO : forall i, upd (upd (upd r1 o v) o v) o old i = r1 i).
    { intros i. rewrite <- (upd_old r1 o v (size sh) i LV). fold old.
      destruct (xin_dec (Some o) (size sh) i) as [Hj|Hj]; cbn in Hj.
      - rewrite !upd_in by (unfold old; rewrite ?rdv_length; lia). reflexivity.
      - rewrite !(fun rr => upd_out rr o old i) by (unfold old; rewrite rdv_length; lia).
        rewrite !upd_out by lia. reflexivity. }
    split; [reflexivity|]. split.
    { cbn [RT tp nv no told tts nts root]. split; [cbn; rewrite <- LV; apply rdv_upd|].
      split; [reflexivity|]. split; [reflexivity|]. exists t1, t1'. split; [reflexivity|]. split; [reflexivity|].
      eapply RT_ext; [exact A3| |auto|exact A2]. intros i Hi. symmetry. apply RO. }
    split. { cbn [WT nv no nts shape_of]. split; [auto|]. split; [apply rdv_length|]. exists t1'. auto. }
    split.
    { intros i Hi. destruct (xin_dec (Some o) (size sh) i) as [Hj|Hj]; cbn in Hj.
        + rewrite !upd_in by lia. reflexivity.
        + rewrite !upd_out by lia. apply A4'. }
    split.
    { intros i Hi. cbn in Hi. rewrite in_app_iff, in_cells in Hi. rewrite upd_out by lia. apply A5. tauto. }
    intros i Hi. cbn in Hi. cbn [rs nts no].
    rewrite <- A6 by tauto. apply rs_pt. rewrite <- EO2. apply upd_old. exact LV.
  - (* EGlue *)
    cbn [wfs disc] in Hw, Hd. rewrite !andb_true_iff in Hw. rewrite !andb_true_iff in Hd.
    destruct Hw as [[[Hw1 Hw2] Hw3] Hw4]. destruct Hd as [[Hd1 Hd2] Hd3].
    pose proof (dj_spec _ _ Hd3) as DJ. destruct Hs as [Hs1 Hs2].
    cbn [pf tf shape_of] in P, Q, Hxr |- *.
    destruct (pf D None e1 r) as [[t1 r1] p1] eqn:P1. destruct (tf D e1 rho) as [t1' rho1] eqn:Q1.
    destruct (pf D None e2 r1) as [[t2 r2] p2] eqn:P2. destruct (tf D e2 rho1) as [t2' rho2] eqn:Q2.
    destruct (IHe1 None r rho _ _ _ _ _ Hw1 Hd1 Hs1 ltac:(congruence) ltac:(cbn; tauto) Hr P1 Q1) as [A1 [A2 [A3 [A4 [A5 A6]]]]].
    assert (A4' : forall i, r1 i = rho1 i) by (intros; apply A4; cbn; auto).
    destruct (IHe2 None r1 rho1 _ _ _ _ _ Hw2 Hd2 Hs2 ltac:(congruence) ltac:(cbn; tauto) A4' P2 Q2) as [B1 [B2 [B3 [B4 [B5 B6]]]]].
    assert (B4' : forall i, r2 i = rho2 i) by (intros; apply B4; cbn; auto).
    assert (EV : rdp r2 p2 = nv t2') by (rewrite B1; eapply RT_val; eauto).
    rewrite EV in P. pose proof (WT_len _ _ B3) as LV.
    inversion P; subst t r' p; clear P. inversion Q; subst t' rho'; clear Q.
    assert (HO : forall i, In i (refs e1 ++ refs e2) -> wx x r2 (nv t2') i = r2 i).
    { intros i Hi. eapply wx_out; [exact LV|]. intros Hj. apply (Hxr i); auto. }
    split; [reflexivity|]. split.
    { cbn [RT tp nv tts nts]. split; [apply px_val; auto|].
      exists t1, t2, t1', t2'. split; [reflexivity|]. split; [reflexivity|]. split; [congruence|]. split.
      - eapply RT_ext; [exact B3| |auto|exact B2]. intros i Hi. symmetry. apply HO, in_or_app. auto.
      - eapply RT_ext; [exact A3| |auto|exact A2]. intros i Hi. rewrite A4', <- (B6 i).
        + apply rs_pt. rewrite <- B4'. symmetry. apply HO, in_or_app. auto.
        + intros Hj. eauto. }
    split. { cbn [WT nv nts shape_of]. split; [auto|]. exists t1', t2'. auto. }
    split. { intros i Hi. rewrite (wx_out _ _ _ _ _ LV Hi). auto. }
    split.
    { intros i Hi. cbn in Hi. rewrite in_app_iff in Hi. rewrite B5, A5; auto. }
    intros i Hi. cbn in Hi. rewrite in_app_iff in Hi. cbn [rs nts].
    rewrite <- A6 by tauto. apply rs_pt. apply B6. tauto.
  - (* EFor *)
    cbn [wfs disc] in Hw, Hd. rewrite !andb_true_iff in Hw. rewrite !andb_true_iff in Hd.
    destruct Hw as [[[Hw1 Hw2] Hw3] Hw4]. destruct Hd as [Hd1 Hd2].
    rewrite pf_for in P. rewrite tf_for in Q. cbn zeta in P. cbn [shape_of] in Hxr |- *.
    set (n := size (iter_shape s (map shape_of es))) in *.
    destruct (pfsf D es r (px x n (PL []))) as [[ts r1] p1] eqn:P1. destruct (tfs es rho) as [ts' rho1] eqn:Q1.
    destruct (TF_listf es H r rho _ _ _ _ _ _ Hw1 Hd1 Hs Hd2 Hr P1 Q1) as [B1 [B3 [B4 [B8 [B5 [B6 B7]]]]]].
    set (v := nv (last ts' (Nd [] (sst0 N) [] []))) in *.
    assert (LV : length v = n).
    { pose proof (WTs_lens _ _ B4) as LE.
      destruct ts' as [|t0 ts2].
      - destruct es; [|destruct B4]. unfold v. cbn. unfold n. clear - Hw4. destruct s; cbn in *; auto; discriminate.
      - apply (for_last_len N s) in LE; auto; [|apply forallb_forall; intros sh Hsh; apply in_map_iff in Hsh; destruct Hsh as [y [<- Hy]];
          apply wfs_shape; rewrite forallb_forall in Hw1; auto|discriminate].
        fold n in LE. rewrite <- LE. unfold v. f_equal.
        destruct (exists_last (l := t0 :: ts2)) as [l' [z ->]]; [discriminate|]. rewrite last_last, map_app. cbn [map]. now rewrite last_last. }
    assert (EV : match es with [] => True | _ => rdp r1 p1 = v end).
    { destruct es; auto. apply B8. destruct ts; [destruct ts'; destruct B3|discriminate]. }
    inversion P; subst t r' p; clear P. inversion Q; subst t' rho'; clear Q.
    set (r2 := match es with [] => r1 | _ => wx x r1 (rdp r1 p1) end).
    assert (R2 : forall i, ~ xin x n i -> r2 i = r1 i).
    { intros i Hi. unfold r2. destruct es; auto. rewrite EV. eapply wx_out; eauto. }
    assert (HO : forall i, In i (flat_map refs es) -> r1 i = r2 i).
    { intros i Hi. symmetry. apply R2. intros Hj. apply (Hxr i); auto. }
    split; [reflexivity|]. split.
    { cbn [RT tp nv tts nts]. split.
      - unfold r2. destruct es as [|y es].
        + destruct ts' as [|? ?]; [|destruct B4]. destruct ts; [|destruct B3]. cbn in B1. subst p1.
          cbn in LV. destruct x as [c|]; cbn; [|reflexivity]. rewrite <- LV. reflexivity.
        + rewrite EV. apply px_val; auto.
      - split.
        + rewrite B1. destruct (rev ts); auto. now destruct x.
        + change (RTf r2 es ts ts'). eapply RTf_ext; [apply RTEs|exact B4|exact HO|exact B3]. }
    split. { cbn [WT nv nts shape_of]. split; [auto|]. split; [reflexivity|exact B4]. }
    split. { intros i Hi. rewrite (R2 _ Hi). auto. }
    split; [exact B6|]. intros i Hi. rewrite rs_for. apply B7. exact Hi.
  - (* EIf *)
    cbn [wfs disc] in Hw, Hd. rewrite !andb_true_iff in Hw. rewrite !andb_true_iff in Hd.
    destruct Hw as [[[[[Hw1 Hw2] Hw3] Hw4] Hw5] Hw6]. destruct Hd as [[[[Hd1 Hd2] Hd3] Hd4] _].
    apply nilb_spec in Hd1. apply shape_eqb_eq in Hw6. destruct Hs as [Hs1 [Hs2 Hs3]].
    cbn [pf tf shape_of] in P, Q, Hxr |- *.
    destruct (pf D None e1 r) as [[t1 r1] p1] eqn:P1. destruct (tf D e1 rho) as [t1' rho1] eqn:Q1.
    destruct (IHe1 None r rho _ _ _ _ _ Hw1 Hd2 Hs1 ltac:(congruence) ltac:(cbn; tauto) Hr P1 Q1) as [A1 [A2 [A3 [A4 [A5 A6]]]]].
    assert (A4' : forall i, r1 i = rho1 i) by (intros; apply A4; cbn; auto).
    assert (A5' : forall i, rho1 i = rho i) by (intros i; apply A5; rewrite Hd1; auto).
    assert (EV : rdp r1 p1 = nv t1') by (rewrite A1; eapply RT_val; eauto).
    rewrite EV in P.
    assert (PC : tp t1 = PL (nv t1')).
    { destruct e1; try discriminate Hw5; cbn [RT px] in A2; tauto. }
    destruct (ntrue N (hd0 N (nv t1'))) eqn:EC.
    + destruct (pf D None e2 r1) as [[t2 r2] p2] eqn:P2. destruct (tf D e2 rho1) as [t2' rho2] eqn:Q2.
      destruct (IHe2 None r1 rho1 _ _ _ _ _ Hw2 Hd3 Hs2 ltac:(congruence) ltac:(cbn; tauto) A4' P2 Q2) as [B1 [B2 [B3 [B4 [B5 B6]]]]].
      assert (B4' : forall i, r2 i = rho2 i) by (intros; apply B4; cbn; auto).
      inversion P; subst t r' p; clear P. inversion Q; subst t' rho'; clear Q.
      split; [reflexivity|]. split.
      { cbn [RT tp nv tts nts]. split; [rewrite B1; apply (RT_val _ _ _ _ _ B2)|]. exists t1, t2, t1', t2'. rewrite EC. auto 10. }
      split. { cbn [WT nv nts shape_of]. split; [apply (WT_len _ _ B3)|]. exists t1', t2'. rewrite EC. auto. }
      split; [auto|]. split.
      { intros i Hi. cbn in Hi. rewrite !in_app_iff in Hi. rewrite B5; auto. }
      intros i Hi. cbn in Hi. rewrite !in_app_iff in Hi. cbn [rs nts]. rewrite EC, B6; auto.
    + destruct (pf D None e3 r1) as [[t2 r2] p2] eqn:P2. destruct (tf D e3 rho1) as [t2' rho2] eqn:Q2.
      destruct (IHe3 None r1 rho1 _ _ _ _ _ Hw3 Hd4 Hs3 ltac:(congruence) ltac:(cbn; tauto) A4' P2 Q2) as [B1 [B2 [B3 [B4 [B5 B6]]]]].
      assert (B4' : forall i, r2 i = rho2 i) by (intros; apply B4; cbn; auto).
      inversion P; subst t r' p; clear P. inversion Q; subst t' rho'; clear Q.
      split; [reflexivity|]. split.
      { cbn [RT tp nv tts nts]. split; [rewrite B1; apply (RT_val _ _ _ _ _ B2)|]. exists t1, t2, t1', t2'. rewrite EC. auto 10. }
      split. { cbn [WT nv nts shape_of]. split; [rewrite Hw6; apply (WT_len _ _ B3)|]. exists t1', t2'. rewrite EC. auto. }
      split; [auto|]. split.
      { intros i Hi. cbn in Hi. rewrite !in_app_iff in Hi. rewrite B5; auto. }
      intros i Hi. cbn in Hi. rewrite !in_app_iff in Hi. cbn [rs nts]. rewrite EC, B6; auto.
Qed.

(** ** Backward *)
Definition TB (e : E) : Prop := forall x t t' seed r a al q r' a',
  wfs e = true -> disc e = true -> (x <> None -> rhs_ok e = true) ->
  (forall o, xin x (size (shape_of e)) o -> ~ In o (refs e)) ->
  RT x e t t' r -> WT e t' -> prod_ok e t' ->
  length seed = size (shape_of e) -> (forall o, a o = al o) ->
  (forall c, x = Some c -> seed = rdv a c (size (shape_of e))) ->
  pb x e t seed r a = (q, r', a') ->
  (forall o, ~ In o (eqw e) -> ~ xin x (size (shape_of e)) o -> r' o = rs e t' r o) /\
  (forall o, a' o = tb e t' seed al o) /\
  (forall o, ~ In o (refs e) -> a' o = a o) /\
  (opw e = [] -> (forall o, r' o = r o) /\ rdp r' q = nv t') /\
  (pin q (refs e) \/ exists c, x = Some c /\ q = PV c (size (shape_of e))).

Lemma kseed_some k cs ss (s : sst N) ad vs f i : kpure k = false -> exists l, kseed k cs ss s ad vs f i = Some l.
Proof.
  destruct k; cbn; try discriminate; intros H; eauto.
  - destruct (_ =? _)%Z; eauto. destruct (_ =? _)%Z; eauto.
  - rewrite H. destruct i; eauto.
  - destruct i; eauto.
  - destruct (anyzero _); eauto.
Qed.
Lemma kpre_lazy k i (vs : list (list T)) f f1 ss : kpre k i vs f = Some f1 -> klazy k ss = true /\ kpure k = false.
Proof. destruct k; cbn; try discriminate. auto. Qed.
Lemma rdp_pt r r' (p : pref N) : (forall i, r i = r' i) -> rdp r p = rdp r' p.
Proof. intros H. destruct p; cbn; auto. apply rdv_ext. auto. Qed.
Lemma padd_pt a a' o l i : (forall j, a j = a' j) -> padd a o l i = padd a' o l i.
Proof.
  intros H. unfold padd. rewrite (rdv_ext a a') by auto. apply upd_ext. apply H.
Qed.
Lemma padd_out a o l n i : length l = n -> ~ (o <= i < o + n) -> padd a o l i = a i.
Proof. intros L H. unfold padd. apply upd_out. rewrite map2_length, rdv_length. lia. Qed.
Lemma wx_same x r n i v : (forall c, x = Some c -> v = rdv r c n) -> wx x r v i = r i.
Proof. intros H. destruct x as [c|]; cbn; auto. rewrite (H c eq_refl). apply upd_rdv. Qed.
Lemma app_nil_inv {A} (l l' : list A) : l ++ l' = [] -> l = [] /\ l' = [].
Proof. apply app_eq_nil. Qed.
Lemma later_app (f : E -> list nat) pes l : later f (pes ++ l) = true -> later f l = true.
Proof. induction pes; cbn; auto. rewrite andb_true_iff. tauto. Qed.
Lemma RTs_app r pes l : forall ts ts', RTs r (pes ++ l) ts ts' ->
  exists pts lts pts' lts', ts = pts ++ lts /\ ts' = pts' ++ lts' /\ length pts = length pes /\
    length pts' = length pes /\ RTs r pes pts pts' /\ RTs r l lts lts'.
Proof.
  induction pes as [|y pes IH]; intros ts ts' H.
  - exists [], ts, [], ts'. cbn. auto 10.
  - destruct ts as [|t ts], ts' as [|t' ts']; cbn [app RTs] in H; try tauto.
    destruct H as [H1 H2]. destruct (IH _ _ H2) as [pts [lts [pts' [lts' [-> [-> [L1 [L2 [R1 R2]]]]]]]]].
    exists (t :: pts), lts, (t' :: pts'), lts'. cbn. auto 10.
Qed.
Lemma RTs_val r es : forall ts ts', RTs r es ts ts' -> map (fun t => rdp r (tp t)) ts = map nv ts'.
Proof. intros. rewrite <- (RTs_vals _ _ _ _ H). now rewrite map_map. Qed.
Lemma flat_nil (f : E -> list nat) l : forallb (fun y => nilb (f y)) l = true -> flat_map f l = [].
Proof.
  induction l; cbn; auto. rewrite andb_true_iff. intros [H1 H2]. apply nilb_spec in H1. rewrite H1. auto.
Qed.

Section Loop.
Variables (k : kd) (an : ann N) (es : list E) (x : option nat) (t : tape N) (t' : rec) (seed : list T) (r : env).
Notation ss := (map shape_of es).
Notation cs := (map is_const es).
Notation n := (size (kshape k ss)).
Hypothesis Hks : kshape_ok k ss = true.
Hypothesis Hw : forallb wfs es = true.
Hypothesis Hd : forallb disc es = true.
Hypothesis Hlat : later writes es = true.
Hypothesis Hpu : kpure k = true -> forallb (fun y => nilb (writes y)) es = true.
Hypothesis Hlz : klazy k ss = true -> forallb (fun y => nilb (opw y)) (tl es) = true.
Hypothesis Hxr : forall o, xin x n o -> ~ In o (flat_map refs es).
Hypothesis HRv : rdp r (tp t) = nv t'.
Hypothesis Htv : tv t = nv t'.
Hypothesis Hst : tst t = ns t'.
Hypothesis Htp : tp t = px x n (PL (nv t')).
Hypothesis HRs : RTs r es (tts t) (nts t').
Hypothesis HWs : WTs es (nts t').
Hypothesis Hsp : stpost N k ss (ns t').
Hypothesis Hnv : length (nv t') = n.
Hypothesis Hpo : match k with KProdI _ => prod_ok1 (map nv (nts t')) (nv t') | _ => True end.
Hypothesis Hseed : length seed = n.
Hypothesis HTB : Forall TB es.

Let xv0 : xval x n (nv t') r.
Proof. intros c ->. rewrite Htp in HRv. exact HRv. Qed.

Lemma loop_tb P0 l : P0 = (vsel k (map nv (nts t')), nv t', seed) -> forall pes pts lts pts' lts' a al qs f r' a',
  es = pes ++ l -> tts t = pts ++ lts -> nts t' = pts' ++ lts' ->
  length pts = length pes -> length pts' = length pes ->
  RTs r pes pts pts' -> RTs r l lts lts' -> WTs l lts' -> prod_oks l lts' ->
  (forall o, a o = al o) -> (forall c, x = Some c -> seed = rdv a c n) ->
  pgo k n ss cs seed x t P0 (map tp pts) l lts r a = (qs, f, r', a') ->
  (forall o, ~ In o (flat_map eqw l) -> ~ xin x n o -> r' o = rsl l lts' r o) /\
  (forall o, a' o = tbl k es t' seed (length pes) l lts' al o) /\
  (forall o, ~ In o (flat_map refs l) -> a' o = a o) /\
  (flat_map opw l = [] -> (forall o, r' o = r o) /\ (x = None -> f = nv t') /\ map (rdp r') qs = map nv lts').
Proof.
  intros EP0. induction l as [|y l IH]; intros pes pts lts pts' lts' a al qs f r' a' Ees Ets Ets' L1 L2 R1 R2 W2 PO Ha Hsd P.
  - destruct lts; [|destruct lts'; destruct R2]. destruct lts'; [|destruct R2]. cbn in P. inversion P; subst. cbn. auto 10.
  - destruct lts as [|ty lts]; [destruct R2|]. destruct lts' as [|ty' lts']; [destruct R2|].
    cbn [RTs WTs prod_oks] in R2, W2, PO. fold RTs in R2. fold WTs in W2. fold prod_oks in PO.
    destruct R2 as [RY R2], W2 as [WY W2], PO as [PY PO].
    cbn [pgo] in P. fold (pgo k n ss cs seed x t P0) in P.
    destruct (pgo k n ss cs seed x t P0 (map tp pts ++ [tp ty]) l lts r a) as [[[qs1 f1] r1] a1] eqn:PL.
    assert (R1' : RTs r (pes ++ [y]) (pts ++ [ty]) (pts' ++ [ty'])).
    { clear - R1 RY L1 L2. revert pts pts' L1 L2 R1. induction pes as [|z pes IH]; intros [|u pts] [|u' pts'] L1 L2 R1; try discriminate.
      - cbn. auto.
      - cbn [app RTs] in *. destruct R1. split; auto. }
    destruct (IH (pes ++ [y]) (pts ++ [ty]) lts (pts' ++ [ty']) lts' a al qs1 f1 r1 a1) as [A1 [A2 [A3 A4]]]; auto;
      try (rewrite <- app_assoc; cbn; auto); try (rewrite !app_length; cbn; lia).
    { rewrite map_app. exact PL. }
    rewrite app_length in A2. cbn in A2. rewrite Nat.add_1_r in A2.
    pose proof Hw as HwY. rewrite Ees, forallb_app in HwY. cbn in HwY. rewrite !andb_true_iff in HwY. destruct HwY as [_ [HwY HwL]].
    pose proof Hd as HdY. rewrite Ees, forallb_app in HdY. cbn in HdY. rewrite !andb_true_iff in HdY. destruct HdY as [_ [HdY HdL]].
    assert (HLy : later writes (y :: l) = true) by (rewrite Ees in Hlat; now apply later_app in Hlat).
    apply later_hd in HLy. destruct HLy as [HLy HLl].
    assert (TY : TB y). { rewrite Forall_forall in HTB. apply HTB. rewrite Ees. apply in_or_app. cbn. auto. }
    assert (Hxy : forall o, xin x n o -> ~ In o (refs y)).
    { intros o Ho Hi. apply (Hxr o Ho). rewrite Ees, flat_map_app. apply in_or_app. right. cbn. apply in_or_app. auto. }
    assert (Hxl : forall o, xin x n o -> ~ In o (flat_map refs l)).
    { intros o Ho Hi. apply (Hxr o Ho). rewrite Ees, flat_map_app. apply in_or_app. right. cbn. apply in_or_app. auto. }
    (* the operand is unaffected by what followed it *)
    assert (RY1 : forall o, In o (refs y) -> r o = r1 o).
    { intros o Ho. symmetry.
      assert (NE : ~ In o (flat_map writes l)) by (intros Hi; eauto).
      rewrite A1.
      - apply rsl_out; auto. intros Hi. apply NE. apply (fm_sub opw writes l); auto.
        apply Forall_forall. intros; now apply opw_writes.
      - intros Hi. apply NE. apply (fm_sub eqw writes l); auto. apply Forall_forall. intros; now apply eqw_writes.
      - intros Hx. apply (Hxy o); auto. }
    (* lazy case: nothing after the first operand uses op= *)
    assert (LZ : klazy k ss = true -> flat_map opw l = [] /\ (pes <> [] -> opw y = [])).
    { intros Hk. specialize (Hlz Hk). rewrite Ees in Hlz. destruct pes as [|z pes]; cbn in Hlz.
      - split; [now apply flat_nil|congruence].
      - rewrite forallb_app in Hlz. cbn in Hlz. rewrite !andb_true_iff in Hlz. destruct Hlz as [_ [HY HL]].
        split; [now apply flat_nil|intros _; now apply nilb_spec]. }
    assert (AD : adv k n seed x a1 = seed).
    { unfold adv. destruct (kadj k); auto. destruct x as [c|] eqn:Ex; cbn; auto. rewrite (Hsd c eq_refl).
      apply rdv_ext. intros i Hi. apply A3. apply Hxl. cbn. lia. }
    set (vs := vsel k (map nv (nts t'))).
    assert (PK : (if klazy k ss then (vsel k (map (rdp r1) (map tp pts ++ tp ty :: qs1)), rx x r1 n f1, adv k n seed x a1) else P0)
                 = (vs, nv t', seed)).
    { destruct (klazy k ss) eqn:Hk; [|rewrite EP0; reflexivity].
      destruct (LZ eq_refl) as [LZ1 _]. destruct (A4 LZ1) as [B1 [B2 B3]]. rewrite AD.
      f_equal. f_equal.
      - unfold vs. f_equal. rewrite map_app. cbn [map]. rewrite B3, Ets', map_app. cbn [map]. f_equal.
        + rewrite <- (RTs_vals _ _ _ _ R1). apply map_ext. intros p. apply rdp_pt. auto.
        + f_equal. rewrite <- (RT_val _ _ _ _ _ RY). apply rdp_pt. auto.
      - destruct x as [c|] eqn:Ex; cbn; [|auto]. rewrite <- (xv0 c eq_refl). apply rdv_ext. auto. }
    rewrite PK in P. rewrite map_length, L1 in P. clear PK.
    cbn [tbl]. fold (tbl k es t' seed). fold vs.
    assert (VL : vlens N k vs ss).
    { unfold vlens, vs, vsel. destruct (kget k); auto. now apply WTs_lens. }
    assert (IL : length pes < length ss).
    { rewrite Ees, map_length, app_length. cbn. lia. }
    assert (NS : nth_sh ss (length pes) = shape_of y).
    { rewrite Ees. unfold nth_sh. rewrite map_app, app_nth2; rewrite map_length; [|lia]. now rewrite Nat.sub_diag. }
    rewrite Hst in P.
    destruct (kpre k (length pes) vs (nv t')) as [g|] eqn:KP.
    + (* product with a zero operand *)
      destruct (kpre_lazy _ _ _ _ _ ss KP) as [Hk Hp]. destruct (LZ Hk) as [LZ1 LZ2]. destruct (A4 LZ1) as [B1 [B2 B3]].
      pose proof (kpre_len N _ _ _ _ _ _ Hks VL Hnv KP) as GL.
      destruct (kseed_some k cs ss (ns t') seed vs g (length pes) Hp) as [sd KS].
      rewrite KS in P |- *.
      pose proof (kseed_len N LL _ _ _ _ _ _ _ _ _ Hks Hsp VL Hseed GL IL KS) as SL. rewrite NS in SL.
      destruct (pb None y ty sd (wx x r1 g) a1) as [[q r2] a2] eqn:PB.
      assert (RYg : RT None y ty ty' (wx x r1 g)).
      { eapply RT_ext; [exact WY| |auto|exact RY]. intros o Ho. rewrite (wx_out _ _ _ _ _ GL); auto.
        intros Hx. apply (Hxy o); auto. }
      destruct (TY None ty ty' sd _ _ _ _ _ _ HwY HdY ltac:(congruence) ltac:(cbn; tauto) RYg WY PY SL A2 ltac:(discriminate) PB)
        as [C1 [C2 [C3 [C4 CQ]]]].
      inversion P; subst qs f r' a'; clear P.
      set (w := map2 (nmul N) (rx x r2 n (match x with None => g | Some _ => f1 end)) (rdp r2 q)) in *.
      split; [|split; [|split]].
      * intros o Ho Hx. cbn in Ho. rewrite in_app_iff in Ho. cbn [rsl]. fold rsl.
        assert (LW : x <> None -> length w <= n).
        { intros Hxn. unfold w. rewrite map2_length. destruct x; [|congruence]. cbn. rewrite rdv_length. lia. }
        replace (wx x r2 w o) with (r2 o).
        2:{ destruct x as [c|]; cbn in *; auto. symmetry. apply upd_out. specialize (LW ltac:(discriminate)). lia. }
        rewrite C1 by (cbn; tauto). apply rs_pt. rewrite (wx_out _ _ _ _ _ GL); auto.
      * exact C2.
      * intros o Ho. cbn in Ho. rewrite in_app_iff in Ho. rewrite C3, A3; auto.
      * intros Ho. cbn in Ho. apply app_nil_inv in Ho. destruct Ho as [Ho1 Ho2].
        destruct (C4 Ho1) as [C5 C6].
        assert (EW : w = nv t').
        { unfold w. rewrite C6.
          replace (rx x r2 n (match x with None => g | Some _ => f1 end)) with g.
          2:{ destruct x as [c|]; cbn; auto. rewrite <- GL. symmetry. rewrite (rdv_ext r2 (upd r1 c g)); [apply rdv_upd|].
              intros i Hi. rewrite C5. reflexivity. }
          destruct k; cbn [kpre] in KP; try discriminate KP.
          destruct (anyzero (nth (length pes) vs [])) eqn:AZ; [|discriminate KP]. inversion KP; subst g; clear KP.
          unfold vs, vsel in *. cbn [kget] in *.
          assert (NT : nth (length pes) (map nv (nts t')) [] = nv ty').
          { rewrite Ets', map_app, app_nth2; rewrite map_length; [|lia]. rewrite L2, Nat.sub_diag. reflexivity. }
          rewrite <- NT. apply Hpo; auto. rewrite map_length. rewrite Ets', app_length. cbn. lia. }
        split; [|split].
        { intros o. rewrite EW. destruct (xin_dec x n o) as [Hx|Hx].
          - destruct x as [c|]; [|destruct Hx]. cbn in Hx |- *. rewrite upd_in by lia.
            rewrite <- (xv0 c eq_refl). rewrite rdv_nth by lia. f_equal. lia.
          - rewrite (wx_out _ _ _ _ _ Hnv Hx), C5, (wx_out _ _ _ _ _ GL Hx). apply B1. }
        { intros Hx. rewrite Hx. exact EW. }
        { assert (RR : forall o, wx x r2 w o = r o).
          { intros o. rewrite EW. destruct (xin_dec x n o) as [Hx|Hx].
            - destruct x as [c|]; [|destruct Hx]. cbn in Hx |- *. rewrite upd_in by lia.
              rewrite <- (xv0 c eq_refl). rewrite rdv_nth by lia. f_equal. lia.
            - rewrite (wx_out _ _ _ _ _ Hnv Hx), C5, (wx_out _ _ _ _ _ GL Hx). apply B1. }
          cbn [map]. f_equal.
          - rewrite <- C6. destruct CQ as [CQ|[c [CQ _]]]; [|discriminate].
            eapply rdp_ext; [exact CQ|]. intros o Ho. eapply wx_out; [rewrite EW; exact Hnv|].
            intros Hx. apply (Hxy o); auto.
          - rewrite <- B3. apply map_ext. intros p. apply rdp_pt. intros o. rewrite RR. symmetry. apply B1. }
    + destruct (kseed k cs ss (ns t') seed vs (nv t') (length pes)) as [sd|] eqn:KS.
      * pose proof (kseed_len N LL _ _ _ _ _ _ _ _ _ Hks Hsp VL Hseed Hnv IL KS) as SL. rewrite NS in SL.
        destruct (pb None y ty sd r1 a1) as [[q r2] a2] eqn:PB.
        assert (RYg : RT None y ty ty' r1).
        { eapply RT_ext; [exact WY| |auto|exact RY]. auto. }
        destruct (TY None ty ty' sd _ _ _ _ _ _ HwY HdY ltac:(congruence) ltac:(cbn; tauto) RYg WY PY SL A2 ltac:(discriminate) PB)
          as [C1 [C2 [C3 [C4 CQ]]]].
        inversion P; subst qs f r' a'; clear P.
        split; [|split; [|split]].
        -- intros o Ho Hx. cbn in Ho. rewrite in_app_iff in Ho. cbn [rsl]. fold rsl.
           rewrite C1 by (cbn; tauto). apply rs_pt. auto.
        -- exact C2.
        -- intros o Ho. cbn in Ho. rewrite in_app_iff in Ho. rewrite C3, A3; auto.
        -- intros Ho. cbn in Ho. apply app_nil_inv in Ho. destruct Ho as [Ho1 Ho2].
           destruct (C4 Ho1) as [C5 C6]. destruct (A4 Ho2) as [B1 [B2 B3]].
           split; [intros o; now rewrite C5, B1|]. split; [auto|]. cbn [map]. f_equal; [exact C6|].
           rewrite <- B3. apply map_ext. intros p. apply rdp_pt. auto.
      * assert (Hp : kpure k = true).
        { destruct (kpure k) eqn:Hp; auto. destruct (kseed_some k cs ss (ns t') seed vs (nv t') (length pes) Hp). congruence. }
        specialize (Hpu Hp). rewrite Ees, forallb_app in Hpu. cbn in Hpu. rewrite !andb_true_iff in Hpu.
        destruct Hpu as [_ [HwN _]]. apply nilb_spec in HwN.
        assert (ON : forall o, ~ In o (opw y)). { intros o Ho. apply opw_writes in Ho. rewrite HwN in Ho. destruct Ho. }
        inversion P; subst qs f r' a'; clear P.
        split; [|split; [|split]].
        -- intros o Ho Hx. cbn in Ho. rewrite in_app_iff in Ho. cbn [rsl]. fold rsl.
           rewrite rs_out; auto.
        -- exact A2.
        -- intros o Ho. cbn in Ho. rewrite in_app_iff in Ho. auto.
        -- intros Ho. cbn in Ho. apply app_nil_inv in Ho. destruct Ho as [Ho1 Ho2].
           destruct (A4 Ho2) as [B1 [B2 B3]]. split; [auto|]. split; [auto|].
           cbn [map]. f_equal; [|auto]. rewrite <- (RT_val _ _ _ _ _ RY). apply rdp_pt. auto.
Qed.
End Loop.

Lemma RTf_rev r es : forall ts ts' d, RTf r es ts ts' -> es <> [] -> WTs es ts' ->
  exists y t t', In y es /\ RT None y t t' r /\ WT y t' /\ nv (last ts' d) = nv t' /\
    match rev ts with [] => PL [] | u :: _ => tp u end = tp t.
Proof.
  induction es as [|y l IH]; intros [|t ts] [|t' ts'] d; cbn [RTf WTs]; try tauto.
  intros [R1 R2] _ [W1 W2]. destruct l as [|z l].
  - destruct ts; [|destruct R2]. destruct ts'; [|destruct R2]. exists y, t, t'. cbn in *. auto 10.
  - destruct (IH ts ts' d R2 ltac:(discriminate) W2) as [y2 [t2 [t2' [H1 [H2 [H3 [H4 H5]]]]]]].
    destruct ts as [|u ts]; [destruct R2|]. destruct ts' as [|u' ts']; [destruct R2|].
    exists y2, t2, t2'. split; [right; exact H1|]. split; [auto|]. split; [auto|]. split; [exact H4|].
    cbn [rev]. cbn [rev] in H5. destruct (rev ts ++ [u]) as [|w ws] eqn:E; [|exact H5].
    apply (f_equal (@length _)) in E. rewrite app_length in E. cbn in E. lia.
Qed.

Lemma TB_listf es : Forall TB es -> es <> [] -> forall d seed r a al q r' a' ts ts',
  forallb wfs es = true -> forallb disc es = true -> later eqw es = true ->
  RTf r es ts ts' -> WTs es ts' -> prod_oks es ts' ->
  size (shape_of (last es (EVar scl 0))) = length seed -> (forall o, a o = al o) ->
  pfgo d seed es ts r a = (q, r', a') ->
  (forall o, ~ In o (flat_map eqw es) -> r' o = rsl es ts' r o) /\
  (forall o, a' o = tbf seed es ts' al o) /\
  (forall o, ~ In o (flat_map refs es) -> a' o = a o) /\
  (flat_map opw es = [] -> (forall o, r' o = r o) /\ rdp r' q = nv (last ts' (Nd [] (sst0 N) [] []))) /\
  pin q (flat_map refs es).
Proof.
  induction 1 as [|y l HY H IH]; [congruence|].
  intros _ d seed r a al q r' a' [|t ts] [|t' ts'] Hw Hd Hl R W PO SZ Ha P; cbn [RTf WTs prod_oks] in R, W, PO; try tauto.
  fold RTf in R. fold WTs in W. fold prod_oks in PO.
  destruct R as [R1 R2], W as [W1 W2], PO as [PO1 PO2].
  cbn [forallb] in Hw, Hd. apply andb_true_iff in Hw. apply andb_true_iff in Hd.
  destruct Hw as [Hw1 Hw2], Hd as [Hd1 Hd2]. apply later_hd in Hl. destruct Hl as [Hl1 Hl2].
  destruct l as [|z l].
  - destruct ts; [|destruct R2]. destruct ts'; [|destruct R2]. cbn [last] in SZ. cbn [pfgo] in P. cbn [rsl] in R1.
    destruct (HY None t t' seed r a al q r' a' Hw1 Hd1 ltac:(congruence) ltac:(cbn; tauto) R1 W1 PO1 ltac:(auto) Ha ltac:(discriminate) P)
      as [C1 [C2 [C3 [C4 CQ]]]].
    cbn [flat_map rsl tbf last]. rewrite !app_nil_r.
    split; [intros; apply C1; cbn; auto|]. split; [auto|]. split; [auto|]. split; [auto|].
    destruct CQ as [CQ|[c [CQ _]]]; [auto|discriminate].
  - cbn [pfgo] in P. fold (pfgo d seed) in P.
    change (pfgo d seed (y :: z :: l) (t :: ts) r a = (q, r', a')) in P.
    change (pfgo d seed (y :: z :: l) (t :: ts) r a) with
      (let '(q, r1, a1) := pfgo d seed (z :: l) ts r a in
       let '(_, r2, a2) := pb None y t (repeat (n0 N) (size (shape_of y))) r1 a1 in (q, r2, a2)) in P.
    destruct (pfgo d seed (z :: l) ts r a) as [[q1 r1] a1] eqn:P1.
    destruct (pb None y t (repeat (n0 N) (size (shape_of y))) r1 a1) as [[q2 r2] a2] eqn:P2.
    inversion P; subst q r' a'; clear P.
    destruct (IH ltac:(discriminate) d seed r a al q1 r1 a1 ts ts' Hw2 Hd2 Hl2 R2 W2 PO2 SZ Ha P1) as [A1 [A2 [A3 [A4 A5]]]].
    assert (RY : RT None y t t' r1).
    { eapply RT_ext; [exact W1| |auto|exact R1]. intros o Ho. symmetry. apply A1. intros Hi. eauto. }
    destruct (HY None t t' _ r1 a1 _ q2 r2 a2 Hw1 Hd1 ltac:(congruence) ltac:(cbn; tauto) RY W1 PO1 (repeat_length _ _) A2 ltac:(discriminate) P2)
      as [C1 [C2 [C3 [C4 CQ]]]].
    change (flat_map eqw (y :: z :: l)) with (eqw y ++ flat_map eqw (z :: l)).
    change (flat_map opw (y :: z :: l)) with (opw y ++ flat_map opw (z :: l)).
    change (flat_map refs (y :: z :: l)) with (refs y ++ flat_map refs (z :: l)).
    change (rsl (y :: z :: l) (t' :: ts') r) with (rs y t' (rsl (z :: l) ts' r)).
    change (tbf seed (y :: z :: l) (t' :: ts') al) with (tb y t' (repeat (n0 N) (size (shape_of y))) (tbf seed (z :: l) ts' al)).
    split; [|split; [|split; [|split]]].
    + intros o Ho. rewrite in_app_iff in Ho. rewrite C1 by (cbn; tauto). apply rs_pt. apply A1. tauto.
    + exact C2.
    + intros o Ho. rewrite in_app_iff in Ho. rewrite C3, A3; auto.
    + intros Ho. apply app_nil_inv in Ho. destruct Ho as [Ho1 Ho2].
      destruct (C4 Ho1) as [C5 C6]. destruct (A4 Ho2) as [B1 B2].
      split; [intros; now rewrite C5, B1|]. rewrite (rdp_pt r2 r1) by auto. rewrite B2.
      destruct ts'; [destruct W2|]. reflexivity.
    + eapply pin_sub; [|exact A5]. intros i Hi. apply in_or_app. auto.
Qed.

Lemma TB_all e : TB e.
Proof.
  induction e using expr_ind'; intros x t t' seed r a0 al q0 r' a' Hw Hd Hx Hxr R W PO SL Ha Hsd P.
  - (* EVar *) cbn in P. inversion P; subst q0 r' a'; clear P. cbn [RT] in R.
    split; [reflexivity|]. split; [intros; cbn; now apply padd_pt|].
    split. { intros i Hi. eapply padd_out; [exact SL|]. cbn in Hi. rewrite in_cells in Hi. exact Hi. }
    split; [intros _; split; auto; apply R|]. left. destruct R as [_ ->]. intros i Hi. now apply in_cells.
  - (* ECst *) cbn in P. inversion P; subst q0 r' a'; clear P. cbn [RT] in R.
    split; [reflexivity|]. split; [auto|]. split; [auto|]. split; [intros _; split; auto; apply R|].
    left. destruct R as [_ ->]. exact I.
  - (* ECvw *) cbn in P. inversion P; subst q0 r' a'; clear P. cbn [RT] in R.
    split; [reflexivity|]. split; [auto|]. split; [auto|]. split; [intros _; split; auto; apply R|].
    left. destruct R as [_ ->]. exact I.
  - (* EComp *)
    destruct es as [|e0 es0].
    { cbn in P. inversion P; subst q0 r' a'; clear P. 
      pose proof (RT_root _ _ _ _ _ R W) as RR. 
      split; [intros; rewrite rs_comp; destruct (kpure k); destruct (nts t'); reflexivity|].
      split; [intros; rewrite tb_comp; destruct (nts t'); cbn; auto|]. split; [auto|].
      split; [intros _; split; auto; eapply RT_val; eauto|]. exact RR. }
    assert (NE : e0 :: es0 <> []) by discriminate.
    set (es := e0 :: es0) in *. clearbody es.
    rewrite (pb_comp _ _ _ _ _ _ _ _ NE) in P. cbn zeta in P.
    cbn [wfs disc] in Hw, Hd. rewrite !andb_true_iff in Hw. rewrite !andb_true_iff in Hd.
    destruct Hw as [[[Hw1 Hw2] Hw3] Hw4]. destruct Hd as [[[Hd1 Hd2] Hd3] Hd4].
    destruct R as [R1 [R2 [R3 [R4 R5]]]]. destruct W as [W1 [W2 W3]]. destruct PO as [PO1 PO2].
    change (RTs r es (tts t) (nts t')) in R5. change (WTs es (nts t')) in W3. change (prod_oks es (nts t')) in PO2.
    cbn [shape_of] in SL, Hsd, Hxr, W1.
    set (n := size (kshape k (map shape_of es))) in *.
    set (a1 := if kadj k then wx x a0 seed else a0) in *.
    assert (HA1 : forall o, a1 o = a0 o).
    { intros o. unfold a1. destruct (kadj k); auto. eapply wx_same. exact Hsd. }
    assert (Hsd1 : forall c, x = Some c -> seed = rdv a1 c n).
    { intros c Hc. rewrite (Hsd c Hc) at 1. apply rdv_ext. auto. }
    assert (HP0 : (vsel k (map (fun t => rdp r (tp t)) (tts t)), rx x r n (tv t), adv k n seed x a1)
                  = (vsel k (map nv (nts t')), nv t', seed)).
    { f_equal; [f_equal|].
      - now rewrite (RTs_val _ _ _ _ R5).
      - destruct x as [c|]; cbn; [|exact R2]. rewrite R4 in R1. exact R1.
      - unfold adv. destruct (kadj k); auto. destruct x as [c|]; cbn; auto. symmetry. now apply Hsd1. }
    destruct (pgo k n (map shape_of es) (map is_const es) seed x t
               (vsel k (map (fun t => rdp r (tp t)) (tts t)), rx x r n (tv t), adv k n seed x a1)
               [] es (tts t) r a1) as [[[qs f] r2] a2] eqn:PG.
    inversion P; subst q0 r' a'; clear P.
    assert (L3 : kpure k = true -> forallb (fun y => nilb (writes y)) es = true).
    { intros Hk. rewrite Hk in Hd3. exact Hd3. }
    assert (L4 : klazy k (map shape_of es) = true -> forallb (fun y => nilb (opw y)) (tl es) = true).
    { intros Hk. rewrite Hk in Hd4. exact Hd4. }
    destruct (loop_tb k es x t t' seed r Hw2 Hw1 Hd1 Hd2 L3 L4 Hxr R1 R2 R3 R4 R5 W3 W2 W1 PO1 SL H
               _ es HP0 [] [] (tts t) [] (nts t') a1 al qs f r2 a2) as [A1 [A2 [A3 A4]]]; auto.
    { cbn. auto. }
    { intros o. rewrite HA1. auto. }
    split; [|split; [|split; [|split]]].
    + intros o Ho Hxo. rewrite rs_comp. rewrite A1 by auto.
      destruct (kpure k) eqn:Hp; auto. apply rsl_out; auto. intros Hi. apply in_flat_map in Hi.
      destruct Hi as [y [Hy Hi]]. specialize (L3 eq_refl). rewrite forallb_forall in L3. specialize (L3 y Hy). apply nilb_spec in L3.
      apply opw_writes in Hi. rewrite L3 in Hi. destruct Hi.
    + exact A2.
    + intros o Ho. rewrite A3; auto.
    + intros Ho. destruct (A4 Ho) as [B1 [B2 B3]]. split; [auto|].
      destruct x as [c|]; cbn; [|auto]. rewrite R4 in R1. cbn in R1. rewrite <- R1. apply rdv_ext. auto.
    + destruct x as [c|]; cbn [px]; [right; exists c; auto|left; exact I].
  - (* EEq *)
    cbn [wfs disc] in Hw, Hd. rewrite !andb_true_iff in Hw. rewrite !andb_true_iff in Hd.
    destruct Hw as [[[Hw1 Hw2] Hw3] Hw4]. destruct Hd as [Hd1 Hd2]. apply shape_eqb_eq in Hw3.
    pose proof (dj_spec _ _ Hd2) as DJ. pose proof (RT_root _ _ _ _ _ R W) as RR. pose proof (RT_val _ _ _ _ _ R) as RV.
    destruct R as [R1 [R2 [R3 [ty [ty' [E1 [E2 R4]]]]]]]. destruct W as [W1 [ty2 [E3 [E4 W2]]]].
    rewrite E2 in E3. inversion E3; subst ty2; clear E3. cbn [prod_ok] in PO. rewrite E2 in PO.
    cbn [pb shape_of] in P, SL, Hxr |- *. rewrite E1 in P. cbn zeta in P.
    set (a1 := padd a0 o seed) in *.
    destruct (pb (Some o) e ty (rdv a1 o (size sh)) r a1) as [[q1 r1] a2] eqn:P1.
    inversion P; subst q0 r' a'; clear P.
    set (al1 := padd al o seed).
    assert (HA1 : forall i, a1 i = al1 i) by (intros; now apply padd_pt).
    assert (XR : forall i, xin (Some o) (size (shape_of e)) i -> ~ In i (refs e)).
    { cbn. intros i Hi Hj. apply (DJ i); auto. apply in_cells. rewrite Hw3. lia. }
    destruct (IHe (Some o) ty ty' (rdv a1 o (size sh)) r a1 al1 q1 r1 a2 Hw1 Hd1 ltac:(auto) XR R4 W2 PO) as [C1 [C2 [C3 [C4 CQ]]]]; auto.
    { rewrite rdv_length. congruence. }
    { intros c Hc. inversion Hc; subst c. now rewrite Hw3. }
    split; [|split; [|split; [|split]]].
    + intros i Hi Hxi. cbn in Hi. rewrite in_app_iff, in_cells in Hi. cbn [rs]. rewrite E2. apply C1; [tauto|]. cbn. rewrite <- Hw3. tauto.
    + intros i. rewrite C2. cbn [tb]. rewrite E2. cbn zeta. fold al1.
      rewrite (rdv_ext a1 al1) by auto. reflexivity.
    + intros i Hi. cbn in Hi. rewrite in_app_iff, in_cells in Hi. rewrite C3 by tauto.
      unfold a1. eapply padd_out; [exact SL|tauto].
    + intros Ho. cbn in Ho. destruct (C4 Ho) as [B1 B2]. split; [auto|]. rewrite <- RV. now apply rdp_pt.
    + exact RR.
  - (* EOpEq *)
    cbn [wfs disc] in Hw, Hd. rewrite !andb_true_iff in Hw. rewrite !andb_true_iff in Hd.
    destruct Hw as [[[Hw1 Hw2] Hw3] Hw4]. destruct Hd as [[Hd1 Hd2] Hd3].
    pose proof (dj_spec _ _ Hd2) as DJ. pose proof (RT_root _ _ _ _ _ R W) as RR. pose proof (RT_val _ _ _ _ _ R) as RV.
    destruct x as [c|]; [discriminate (Hx ltac:(discriminate))|].
    destruct R as [R1 [R2 [R3 [ty [ty' [E1 [E2 R4]]]]]]]. destruct W as [W1 [W3 [ty2 [E3 W2]]]].
    rewrite E2 in E3. inversion E3; subst ty2; clear E3. cbn [prod_ok] in PO. rewrite E2 in PO.
    cbn [pb shape_of] in P, SL, Hxr |- *. rewrite E1 in P. cbn zeta in P. rewrite R3 in P.
    rewrite (RT_val _ _ _ _ _ R4) in P.
    set (a1 := padd a0 o seed) in *. set (al1 := padd al o seed).
    assert (HA1 : forall i, a1 i = al1 i) by (intros; now apply padd_pt).
    assert (HG : rdv a1 o (size sh) = rdv al1 o (size sh)) by (apply rdv_ext; auto).
    rewrite HG in P. set (g := rdv al1 o (size sh)) in *.
    set (a2 := upd a1 o (repeat (n0 N) (size sh))) in *. set (al2 := upd al1 o (repeat (n0 N) (size sh))).
    assert (HA2 : forall i, a2 i = al2 i) by (intros; apply upd_ext; auto).
    set (sd := oe_rseed N q sh (shape_of e) g (no t') (nv ty')) in *.
    set (r1 := upd r o (no t')) in *.
    destruct (pb None e ty sd r1 a2) as [[qy r2] a3] eqn:P1.
    inversion P; subst q0 r' a'; clear P.
    pose proof (WT_len _ _ W2) as LY.
    assert (LG : length g = size sh) by apply rdv_length.
    assert (SD : length sd = size (shape_of e)).
    { apply oe_rseed_length; auto. now apply wfs_shape. }
    destruct (IHe None ty ty' sd r1 a2 al2 qy r2 a3 Hw1 Hd1 ltac:(congruence) ltac:(cbn; tauto) R4 W2 PO SD HA2 ltac:(discriminate) P1)
      as [C1 [C2 [C3 [C4 CQ]]]].
    assert (RO : rdv r1 o (size sh) = no t').
    { unfold r1. rewrite <- W3. apply rdv_upd. }
    set (ls0 := oe_lseed N q (shape_of e) g (no t') (nv ty')) in *.
    assert (ELS : (if is_scl sh || is_scl (shape_of e) then ls0 else oe_lseed N q (shape_of e) g (rdv r2 o (size sh)) (rdp r2 qy)) = ls0).
    { destruct (is_scl sh || is_scl (shape_of e)); auto. cbn in Hd3. apply nilb_spec in Hd3. destruct (C4 Hd3) as [B1 B2].
      rewrite B2. unfold ls0. f_equal. rewrite <- RO. apply rdv_ext. auto. }
    rewrite ELS.
    assert (LS : length ls0 = size sh) by (eapply oe_lseed_length; eauto).
    split; [|split; [|split; [|split]]].
    + intros i Hi Hxi. cbn in Hi. cbn [rs]. rewrite E2. apply C1; auto.
    + intros i. cbn [tb]. rewrite E2. cbn zeta. fold al1. fold g. fold al2. fold sd. fold ls0.
      apply padd_pt. exact C2.
    + intros i Hi. cbn in Hi. rewrite in_app_iff, in_cells in Hi.
      rewrite (padd_out _ _ _ _ _ LS) by tauto. rewrite C3 by tauto. unfold a2. rewrite upd_out by (rewrite repeat_length; tauto).
      unfold a1. eapply padd_out; [exact SL|tauto].
    + intros Ho. cbn in Ho. apply app_nil_inv in Ho. destruct Ho as [Ho1 Ho2].
      assert (S0 : size sh = 0). { unfold cells in Ho1. destruct (size sh); auto. discriminate. }
      destruct (C4 Ho2) as [B1 B2].
      assert (BR : forall i, r2 i = r i). { intros i. rewrite B1. unfold r1. apply upd_out. lia. }
      split; [auto|]. rewrite <- RV. now apply rdp_pt.
    + exact RR.
  - (* EGlue *)
    cbn [wfs disc] in Hw, Hd. rewrite !andb_true_iff in Hw. rewrite !andb_true_iff in Hd.
    destruct Hw as [[[Hw1 Hw2] Hw3] Hw4]. destruct Hd as [[Hd1 Hd2] Hd3].
    pose proof (dj_spec _ _ Hd3) as DJ. pose proof (RT_root _ _ _ _ _ R W) as RR. pose proof (RT_val _ _ _ _ _ R) as RV.
    destruct R as [R1 [tl [tr [tl' [tr' [E1 [E2 [R2 [R3 R4]]]]]]]]].
    destruct W as [W1 [tl2 [tr2 [E3 [EV [W2 W3]]]]]]. rewrite E2 in E3. inversion E3; subst tl2 tr2; clear E3.
    cbn [prod_ok] in PO. rewrite E2 in PO. destruct PO as [PO1 PO2].
    cbn [pb shape_of] in P, SL, Hxr |- *. rewrite E1 in P.
    destruct (pb None e2 tr seed r a0) as [[q1 r1] a1] eqn:P1.
    destruct (pb None e1 tl (repeat (n0 N) (size (shape_of e1))) r1 a1) as [[q2 r2] a2] eqn:P2.
    inversion P; subst q0 r' a'; clear P.
    destruct (IHe2 None tr tr' seed r a0 al q1 r1 a1 Hw2 Hd2 ltac:(congruence) ltac:(cbn; tauto) R3 W3 PO2 SL Ha ltac:(discriminate) P1)
      as [A1 [A2 [A3 [A4 AQ]]]].
    assert (RL : RT None e1 tl tl' r1).
    { eapply RT_ext; [exact W2| |auto|exact R4]. intros i Hi. symmetry. apply A1; [|cbn; auto]. intros Hj. eauto. }
    destruct (IHe1 None tl tl' _ r1 a1 _ q2 r2 a2 Hw1 Hd1 ltac:(congruence) ltac:(cbn; tauto) RL W2 PO1 (repeat_length _ _) A2 ltac:(discriminate) P2)
      as [C1 [C2 [C3 [C4 CQ]]]].
    split; [|split; [|split; [|split]]].
    + intros i Hi Hxi. cbn in Hi. rewrite in_app_iff in Hi. cbn [rs]. rewrite E2.
      rewrite C1 by (cbn; tauto). apply rs_pt. apply A1; cbn; tauto.
    + intros i. rewrite C2. cbn [tb]. rewrite E2. reflexivity.
    + intros i Hi. cbn in Hi. rewrite in_app_iff in Hi. rewrite C3, A3; auto.
    + intros Ho. cbn in Ho. apply app_nil_inv in Ho. destruct Ho as [Ho1 Ho2].
      destruct (C4 Ho1) as [B1 B2]. destruct (A4 Ho2) as [B3 B4].
      assert (BR : forall i, r2 i = r i) by (intros; now rewrite B1, B3).
      split; [auto|]. destruct x as [c|]; cbn [px].
      * rewrite <- RV, R2. cbn. apply rdv_ext. auto.
      * rewrite EV, <- B4. now apply rdp_pt.
    + destruct x as [c|]; cbn [px]; [right; exists c; auto|left].
      destruct AQ as [AQ|[c [AQ _]]]; [|discriminate]. eapply pin_sub; [|exact AQ]. intros i Hi. cbn. apply in_or_app. auto.
  - (* EFor *)
    pose proof (RT_root _ _ _ _ _ R W) as RR. pose proof (RT_val _ _ _ _ _ R) as RV.
    rewrite pb_for in P. destruct es as [|e0 es0].
    { cbn in P. inversion P; subst q0 r' a'; clear P.
      destruct R as [R1 [R2 R3]]. cbn in R3. destruct (tts t) eqn:ET; [|destruct R3]. destruct (nts t') eqn:ET'; [|destruct R3].
      cbn in R2.
      split; [intros; rewrite rs_for, ET'; reflexivity|].
      split; [intros; rewrite tb_for, ET'; cbn; auto|]. split; [auto|].
      cbn [map] in *. assert (EQ : px x (size (iter_shape s [])) (tp t) = tp t) by (rewrite R2; now destruct x).
      rewrite EQ. split; [intros _; split; auto|exact RR]. }
    assert (NE : e0 :: es0 <> []) by discriminate.
    set (es := e0 :: es0) in *. clearbody es.
    cbn [wfs disc] in Hw, Hd. rewrite !andb_true_iff in Hw. rewrite !andb_true_iff in Hd.
    destruct Hw as [[[Hw1 Hw2] Hw3] Hw4]. destruct Hd as [Hd1 Hd2].
    destruct R as [R1 [R2 R3]]. destruct W as [W1 [EV W2]].
    change (RTf r es (tts t) (nts t')) in R3. change (WTs es (nts t')) in W2. change (prod_oks es (nts t')) in PO.
    cbn [shape_of] in SL, Hxr, W1 |- *. set (n := size (iter_shape s (map shape_of es))) in *.
    destruct (pfgo (tp t) seed es (tts t) r a0) as [[q1 r1] a1] eqn:P1.
    inversion P; subst q0 r' a'; clear P.
    assert (SZ : size (shape_of (last es (EVar scl 0))) = length seed).
    { rewrite SL. unfold n. rewrite <- (for_iter s (map shape_of es)); auto.
      - f_equal. destruct (exists_last NE) as [l' [z ->]]. rewrite map_app. cbn [map]. now rewrite !last_last.
      - apply forallb_forall. intros sh Hsh. apply in_map_iff in Hsh. destruct Hsh as [y [<- Hy]].
        apply wfs_shape. rewrite forallb_forall in Hw1. auto.
      - intros Q. apply map_eq_nil in Q. auto. }
    destruct (TB_listf es H NE (tp t) seed r a0 al q1 r1 a1 (tts t) (nts t') Hw1 Hd1 Hd2 R3 W2 PO SZ Ha P1) as [A1 [A2 [A3 [A4 AQ]]]].
    split; [|split; [|split; [|split]]].
    + intros i Hi Hxi. rewrite rs_for. apply A1. exact Hi.
    + exact A2.
    + exact A3.
    + intros Ho. destruct (A4 Ho) as [B1 B2]. split; [auto|].
      destruct x as [c|]; cbn [px].
      * rewrite <- RV, R2. cbn. apply rdv_ext. auto.
      * rewrite EV. exact B2.
    + destruct x as [c|]; cbn [px]; [right; exists c; auto|left]. exact AQ.
  - (* EIf *)
    cbn [wfs disc] in Hw, Hd. rewrite !andb_true_iff in Hw. rewrite !andb_true_iff in Hd.
    destruct Hw as [[[[[Hw1 Hw2] Hw3] Hw4] Hw5] Hw6]. destruct Hd as [[[[Hd1 Hd2] Hd3] Hd4] _].
    apply shape_eqb_eq in Hw6.
    destruct R as [R1 [tc [tb [tc' [tb' [E1 [E2 [R2 [R3 R4]]]]]]]]].
    destruct W as [W1 [tc2 [tb2 [E3 [EV [W2 W3]]]]]]. rewrite E2 in E3. inversion E3; subst tc2 tb2; clear E3.
    cbn [prod_ok] in PO. rewrite E2 in PO.
    cbn [pb shape_of] in P, SL, Hxr |- *. rewrite E1, R2 in P. cbn [rdp] in P.
    cbn [rs]. rewrite E2. cbn [Tape.tb]. rewrite E2. cbn [refs eqw opw].
    destruct (ntrue N (hd0 N (nv tc'))).
    + destruct (IHe2 None tb tb' seed r a0 al q0 r' a' Hw2 Hd3 ltac:(congruence) ltac:(cbn; tauto) R4 W3 PO SL Ha ltac:(discriminate) P)
        as [A1 [A2 [A3 [A4 AQ]]]].
      split; [|split; [|split; [|split]]].
      * intros i Hi Hxi. rewrite !in_app_iff in Hi. apply A1; cbn; tauto.
      * exact A2.
      * intros i Hi. rewrite !in_app_iff in Hi. apply A3. tauto.
      * intros Ho. apply app_nil_inv in Ho. destruct Ho as [_ Ho]. apply app_nil_inv in Ho. rewrite EV. apply A4. tauto.
      * left. destruct AQ as [AQ|[c [AQ _]]]; [|discriminate]. eapply pin_sub; [|exact AQ]. intros i Hi. rewrite !in_app_iff. auto.
    + rewrite Hw6 in SL.
      destruct (IHe3 None tb tb' seed r a0 al q0 r' a' Hw3 Hd4 ltac:(congruence) ltac:(cbn; tauto) R4 W3 PO SL Ha ltac:(discriminate) P)
        as [A1 [A2 [A3 [A4 AQ]]]].
      split; [|split; [|split; [|split]]].
      * intros i Hi Hxi. rewrite !in_app_iff in Hi. apply A1; cbn; tauto.
      * exact A2.
      * intros i Hi. rewrite !in_app_iff in Hi. apply A3. tauto.
      * intros Ho. apply app_nil_inv in Ho. destruct Ho as [_ Ho]. apply app_nil_inv in Ho. rewrite EV. apply A4. tauto.
      * left. destruct AQ as [AQ|[c [AQ _]]]; [|discriminate]. eapply pin_sub; [|exact AQ]. intros i Hi. rewrite !in_app_iff. auto.
Qed.
End LTape.
