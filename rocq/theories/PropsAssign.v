(** Property theorems C64: `w = x` for a variable x.  EqNode does not support it and
    has a static_assert against it (eq.hpp:21-23, 49-50).  Spec: it is rejected, or
    assigns the current value of x to w at every evaluation ([node]).  Which C++
    operator it is depends on the types of w and x. *)
From Coq Require Import Reals.
From Coquelicot Require Import Coquelicot.
From Verif Require Import Base Num Expr Node Stat Machine Wf Session LKind LUser LFind Assign LAssign XR Spec Grad LReal LDiscR LAssignR.
Local Open Scope R_scope.
Notation D0 := (fun _ : nat => 0).

(** ** C64: overload resolution, for every combination of target and right side.
    A constant target, or a right side that is not a variable of the target's type,
    gives the template that builds EqNode; Var = Var is Var's own assignment, anything = view is the
    assignment of views, view = Var is ambiguous. *)
Theorem C64_resolution (l : lhs) (a : arg) : l_cls l <> CBase -> a_cls a <> AObj CBase ->
  resolve l a =
    if l_const l then Some PTmpl else
    match l_cls l, a_cls a with
    | _, AOther => Some PTmpl
    | CVar, AObj CVar => Some (if a_rval a && negb (a_const a) then PRref CVar else PLref CVar)
    | _, AObj CView => Some (if a_rval a && negb (a_const a) then PRref CView else PLref CView)
    | _, _ => None
    end.
Proof. exact (resolve_ok l a). Qed.
Print Assumptions C64_resolution.
Example C64_resolution_nonvacuous :
  resolve (Lhs CVar true) (Arg (AObj CVar) false false) = Some PTmpl /\
  resolve (Lhs CVar false) (Arg (AObj CVar) false false) = Some (PLref CVar) /\
  resolve (Lhs CVar false) (Arg (AObj CView) false true) = Some (PRref CView) /\
  resolve (Lhs CView false) (Arg (AObj CVar) false false) = None.
Proof. repeat split; reflexivity. Qed.

(** So a variable on the right is rejected only if the target is constant, or a view
    and the right side a Var. *)
Theorem C64_rejected (N : num) l c a_c a_r sh ow ox (f : nat -> expr N unit) (m : mem N) :
  l_cls l <> CBase -> c <> CBase ->
  then_ l (Arg (AObj c) a_c a_r) sh ow ox f m = None <-> l_const l = true \/ (l_cls l = CView /\ c = CVar).
Proof. exact (rejected l c a_c a_r sh ow ox f m). Qed.
Print Assumptions C64_rejected.

(** ** C64, refuted: when the operator copies (Var = Var, or any view of an array),
    the variable on the right takes no part in the expression: whatever is computed
    from w, however often it is evaluated or differentiated, the adjoints of x stay
    what they were. *)
Theorem C64_copy_refuted (N : num) (LL : la_len N) bv ba (uv ua : nat -> N) l a sh ow ox (f : nat -> expr N unit)
    (m m1 : mem N) u e m0 ops e' m' :
  fresh bv ba -> copies l a sh = true -> then_ l a sh ow ox f m = Some (Ok (m1, u)) ->
  wfs u = true -> avail u m1 -> (forall o, (ox <= o < ox + size sh)%nat -> ~ In o (refs u)) ->
  bound bv ba uv ua u m1 = Ok (e, m0) -> Forall (op_ok (size (shape_of u))) ops -> Forall no_user ops ->
  run ops (e, m0) = Ok (e', m') ->
  forall o, (ox <= o < ox + size sh)%nat -> m' 0%nat o = m 0%nat o /\ m' 1%nat o = m 1%nat o.
Proof. exact (copy_cuts LL bv ba uv ua l a sh ow ox f m m1 u e m0 ops e' m'). Qed.
Print Assumptions C64_copy_refuted.
(** (w = x, w * w) built while x = a, then x set to b, then differentiated with seed s:
    the value is a^2 and x receives nothing, instead of b^2 and 2 b s. *)
Theorem C64_copy_witness (la : linalg xr) (rho : nat -> R) (b s : R)
    (a := rho 0%nat) (rho' := fun o => if (o =? 0)%nat then b else rho o) :
  val D0 (node (sq (XR la))) rho' = [b * b] /\ partials D0 (node (sq (XR la))) rho' 0 (at0 (2 * b)) /\
  exists e m, prog_copy (XR la) (fins la rho) (Fin b) (Fin s) = Ok (e, m, [Fin (a * a)]) /\
    m 1%nat 0%nat = Some (Fin 0) /\ m 1%nat 1%nat = Some (Fin (s * (2 * a))).
Proof. exact (w64c la rho b s). Qed.
Print Assumptions C64_copy_witness.
Example C64_copy_nonvacuous (N : num) : copies var_lhs var_arg scl = true /\
  copies (Lhs CView false) sub_arg (Sh Vec 2 1) = true /\
  exists m1 e m0, then_ var_lhs var_arg scl 1 0 (sq N) (mem8 N (fun _ => n1 N)) = Some (Ok (m1, EGlue tt (EVar scl 1) (sq N 1%nat))) /\
    wfs (EGlue tt (EVar scl 1) (sq N 1%nat)) = true /\ avail (EGlue tt (EVar scl 1) (sq N 1%nat)) m1 /\
    (forall o, (0 <= o < 0 + size scl)%nat -> ~ In o (refs (EGlue tt (EVar scl 1) (sq N 1%nat)))) /\
    bound 2 3 (any N) (any N) (EGlue tt (EVar scl 1) (sq N 1%nat)) m1 = Ok (e, m0).
Proof.
  split; [reflexivity|]. split; [reflexivity|]. eexists _, _, _.
  split; [reflexivity|]. split; [reflexivity|]. split.
  - split; cbn; intros o Ho; [|tauto]. repeat (destruct Ho as [<-|Ho]; [split; discriminate|]). destruct Ho.
  - split; [|reflexivity]. cbn. intros o Ho. assert (o = 0%nat) by lia. subst. intuition discriminate.
Qed.

(** ** C64, refuted: when the operator is that of scalar views (w = v[0] for a Var w),
    w becomes another name for v[0]: in (w = v[0], w += y) the evaluation changes
    v[0], a second one gives v[0] + 2 y, and w's own storage is never written. *)
Theorem C64_alias_refuted (la : linalg xr) (rho : nat -> R) (x := rho 0%nat) (y := rho 2%nat) :
  val D0 (node (inc (XR la))) rho = [x + y] /\
  exists e m, prog_alias (XR la) (fins la rho) = Ok (e, m, ([Fin (x + y)], [Fin (x + y + y)])) /\
    m 0%nat 0%nat = Some (Fin (x + y + y)) /\ m 0%nat 1%nat = Some (Fin (rho 1%nat)).
Proof. exact (w64a la rho). Qed.
Print Assumptions C64_alias_refuted.
(** Both in every arithmetic. *)
Theorem C64_any (N : num) (f : nat -> N) (v s : N) (w := nadd N (f 0%nat) (f 2%nat)) :
  (exists e m, prog_copy N f v s = Ok (e, m, [nmul N (f 0%nat) (f 0%nat)]) /\ m 1%nat 0%nat = Some (n0 N)) /\
  (exists e m, prog_alias N f = Ok (e, m, ([w], [nadd N w (f 2%nat)])) /\ m 0%nat 0%nat = Some (nadd N w (f 2%nat))).
Proof. exact (run_any N f v s). Qed.
Print Assumptions C64_any.
