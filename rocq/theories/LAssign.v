(** `w = x` for variables: overload resolution and what follows from it. *)
From Verif Require Import Base Num Expr Node Stat Machine Wf Session LBase LMem LKind LUser LFind InPlace LInPlace Assign.

(** Var's or VarView's own operator, copying or moving. *)
Definition resolve_spec (l : lhs) (a : arg) : option par :=
  let mv (c : cls) := if a_rval a && negb (a_const a) then PRref c else PLref c in
  if l_const l then Some PTmpl else
  match l_cls l, a_cls a with
  | _, AOther => Some PTmpl
  | CVar, AObj CVar => Some (mv CVar)
  | _, AObj CView => Some (mv CView)
  | _, _ => None
  end.
Lemma resolve_ok l a : l_cls l <> CBase -> a_cls a <> AObj CBase -> resolve l a = resolve_spec l a.
Proof.
  destruct l as [[] []], a as [[[]|] [] []]; cbn; intros H1 H2; try (now destruct H1); try (now destruct H2); reflexivity.
Qed.

Section Asg.
Context {N : num}.
Notation T := (carrier N).
Notation U := (expr T unit).

Lemma copy_frame n ow ox (m m1 : mem T) : copy_cells n ow ox m = Ok m1 ->
  forall b o, ~ (ow <= o < ow + n) -> m1 b o = m b o.
Proof.
  unfold copy_cells. intros H. apply bindR_ok in H. destruct H as [v [H1 H]]. apply bindR_ok in H. destruct H as [a [H2 H]].
  apply bindR_ok in H. destruct H as [m2 [H3 H]].
  pose proof (load_inv _ _ _ _ _ H1) as L1. pose proof (load_inv _ _ _ _ _ H2) as L2.
  apply store_upd in H3. apply store_upd in H.
  intros b o Ho. rewrite (updm_out _ _ _ _ _ b o H), (updm_out _ _ _ _ _ b o H3); auto.
  all: intros [_ HH]; apply Ho; destruct L1 as [L1 _], L2 as [L2 _]; rewrite ?L1, ?L2 in HH; exact HH.
Qed.

Lemma rejected l c a_c a_r sh ow ox (f : nat -> U) (m : mem T) : l_cls l <> CBase -> c <> CBase ->
  then_ l (Arg (AObj c) a_c a_r) sh ow ox f m = None <-> l_const l = true \/ (l_cls l = CView /\ c = CVar).
Proof.
  intros H1 H2. unfold then_, assign. rewrite resolve_ok by (cbn; congruence). destruct l as [lc k], c; cbn in *; try (now destruct H2);
    destruct k, lc, a_r, a_c; cbn; try (now destruct H1); split; intros H; auto; try discriminate; destruct H as [H|[H H']]; discriminate.
Qed.

(** The assignment copies: Var = Var, or views of arrays. *)
Definition copies (l : lhs) (a : arg) (sh : shape) : bool :=
  match resolve l a with
  | Some (PLref CVar) | Some (PRref CVar) => true
  | Some (PLref _) | Some (PRref _) => negb (is_scl sh)
  | _ => false
  end.
Lemma then_copy l a sh ow ox (f : nat -> U) (m : mem T) r : copies l a sh = true ->
  then_ l a sh ow ox f m = Some r ->
  r = (m1 <- copy_cells (size sh) ow ox m ;; Ok (m1, EGlue tt (EVar sh ow) (f ow))).
Proof.
  unfold copies, then_, assign. destruct (resolve l a) as [[[]|[]|]|]; intros H; try discriminate;
    try (apply negb_true_iff in H; rewrite H); intros E; inversion E; destruct (copy_cells _ _ _ _); reflexivity.
Qed.

Lemma fm_in {A} (es : list (expr T A)) : Forall (fun e => forall o, In o (writes e) -> In o (refs e)) es ->
  forall o, In o (flat_map writes es) -> In o (flat_map refs es).
Proof.
  intros H o Ho. apply in_flat_map in Ho. destruct Ho as [x [H1 H2]]. apply in_flat_map. exists x. rewrite Forall_forall in H. auto.
Qed.
Lemma wr_refs {A} (e : expr T A) : forall o, In o (writes e) -> In o (refs e).
Proof.
  induction e using expr_ind'; cbn [writes refs]; intros o' Ho; auto; try (now apply (fm_in es)).
  all: rewrite ?in_app_iff in *; cbn in Ho; tauto || (destruct Ho as [Ho|[Ho|Ho]]; auto) || (destruct Ho; auto).
Qed.
Lemma copy_cuts (LL : la_len N) bv ba (uv ua : nat -> T) l a sh ow ox (f : nat -> U) (m m1 : mem T) u e m0 ops e' m' :
  fresh bv ba -> copies l a sh = true -> then_ l a sh ow ox f m = Some (Ok (m1, u)) ->
  wfs u = true -> avail u m1 -> (forall o, ox <= o < ox + size sh -> ~ In o (refs u)) ->
  bound bv ba uv ua u m1 = Ok (e, m0) -> Forall (op_ok (size (shape_of u))) ops -> Forall no_user ops ->
  run ops (e, m0) = Ok (e', m') ->
  forall o, ox <= o < ox + size sh -> m' 0 o = m 0 o /\ m' 1 o = m 1 o.
Proof.
  intros HF HC HT HW HA HX HB HO HN HR o Ho.
  apply (then_copy _ _ _ _ _ _ _ _ HC) in HT. symmetry in HT. apply bindR_ok in HT. destruct HT as [m2 [H1 H2]]. inversion H2; subst m2 u.
  destruct (bind_frame _ LL bv ba HF uv ua _ m1 e m0 ops e' m' HW HA HB HO HN HR) as [_ F].
  destruct HF as [[F1 [F2 F3]] [F4 [F5 [F6 F7]]]].
  assert (HOW : ~ (ow <= o < ow + size sh)).
  { intros HH. apply (HX o Ho). cbn [refs]. apply in_or_app. left. apply in_cells. exact HH. }
  split; (rewrite F; [apply (copy_frame _ _ _ _ _ H1); exact HOW| | | |]); try congruence; try (intros [? ?]; try discriminate).
  - apply (HX o Ho). now apply wr_refs.
  - now apply (HX o Ho).
Qed.
End Asg.

(** ** Programs *)
Section Prog.
Context (N : num).
Notation T := (carrier N).
Notation U := (expr T unit).
Definition var_lhs : lhs := Lhs CVar false.
Definition var_arg : arg := Arg (AObj CVar) false false.
Definition sub_arg : arg := Arg (AObj CView) false true.
Definition sq (o : nat) : U := EComp (KBin BMul) tt [EVar scl o; EVar scl o].
Definition inc (o : nat) : U := EOpEq OAdd tt scl o (EVar scl 2).
(** x.get() = v; x in cell 0 *)
Definition set0 (v : T) (m : mem T) : mem T := fun b o => if (b =? 0) && (o =? 0) then Some v else m b o.
(** (w = x, w * w) built with x = f 0, then x.get() = v, then autodiff *)
Definition prog_copy (f : nat -> T) (v s : T) :=
  match then_ var_lhs var_arg scl 1 0 sq (mem8 N f) with
  | Some r => '(m1, u) <- r ;; bind_diff N u (set0 v m1) [s]
  | None => Err UBshape
  end.
(** w = v[0] for a Var w, then (w, w += y) evaluated twice *)
Definition prog_alias (f : nat -> T) :=
  match then_ var_lhs sub_arg scl 1 0 inc (mem8 N f) with
  | Some r => '(m1, u) <- r ;; c <- bound 2 3 (any N) (any N) u m1 ;;
              '(e1, m2, v1) <- evaluate (fst c) (snd c) ;; '(e2, m3, v2) <- evaluate e1 m2 ;; Ok (e2, m3, (v1, v2))
  | None => Err UBshape
  end.
Lemma run_copy f v s : exists e m, prog_copy f v s = Ok (e, m, [nmul N (f 0) (f 0)]) /\
  m 1 0 = Some (n0 N) /\ m 1 1 = Some (nadd N (nadd N (nadd N (n0 N) (nmul N s (f 0))) (nmul N s (f 0))) (n0 N)).
Proof.
  destruct (prog_copy f v s) as [[[e m] w]|x] eqn:E; revert E; vm_compute; intros E; [|discriminate].
  inversion E; subst. eexists _, _. split; [reflexivity|]. split; reflexivity.
Qed.
Lemma run_alias f (w := nadd N (f 0) (f 2)) : exists e m, prog_alias f = Ok (e, m, ([w], [nadd N w (f 2)])) /\
  m 0 0 = Some (nadd N w (f 2)) /\ m 0 1 = Some (f 1).
Proof.
  destruct (prog_alias f) as [[[e m] v]|x] eqn:E; revert E; vm_compute; intros E; [|discriminate].
  inversion E; subst. eexists _, _. split; [reflexivity|]. split; reflexivity.
Qed.
End Prog.
Lemma run_any (N : num) (f : nat -> N) (v s : N) (w := nadd N (f 0) (f 2)) :
  (exists e m, prog_copy N f v s = Ok (e, m, [nmul N (f 0) (f 0)]) /\ m 1 0 = Some (n0 N)) /\
  (exists e m, prog_alias N f = Ok (e, m, ([w], [nadd N w (f 2)])) /\ m 0 0 = Some (nadd N w (f 2))).
Proof.
  split.
  - destruct (run_copy N f v s) as [e [m [A [B _]]]]. exists e, m. auto.
  - destruct (run_alias N f) as [e [m [A [B _]]]]. exists e, m. auto.
Qed.
