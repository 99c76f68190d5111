(** What `w = x` means to the C++ compiler when w is a variable: one of the
    assignment operators of Var, of its base VarView, of VarViewBase, or the template
    that builds the node EqNode, which rejects variables with a static_assert
    (eq.hpp:21-23, 49-50).  All of them are candidates, because Var and
    VarView inherit assignment with using-declarations (var.hpp:34, 105, 170,
    var_view.hpp:126, 144, 181). *)
From Verif Require Import Base Num Expr Node Stat Machine.

(** ** Overload resolution *)
(** Var derives from VarView (var.hpp:24-25, 93-94, 158-159), VarView from VarViewBase
    (var_view.hpp:122, 140, 177). *)
Inductive cls := CVar | CView | CBase.
Definition depth (c : cls) : nat := match c with CVar => 2 | CView => 1 | CBase => 0 end.
(** The right side: an object of the target's Var or VarView type, or anything else
    that can be an expression (node, constant, number, variable of another shape). *)
Inductive argc := AObj (c : cls) | AOther.
Record arg := Arg { a_cls : argc; a_const : bool; a_rval : bool }.
Record lhs := Lhs { l_cls : cls; l_const : bool }.

(** Parameter types: const C&, C&&, and const Derived& of the template. *)
Inductive par := PLref (c : cls) | PRref (c : cls) | PTmpl.
(** The operators a class declares: var.hpp:60-80 (and 125-145, 190-210); implicit
    ones of VarView and VarViewBase; var_view.hpp:54-63. *)
Definition own (c : cls) : list par :=
  match c with
  | CVar => [PLref CVar; PRref CVar]
  | CView => [PLref CView; PRref CView]
  | CBase => [PLref CBase; PRref CBase; PTmpl]
  end.
Definition cands (c : cls) : list par :=
  match c with
  | CVar => own CVar ++ own CView ++ own CBase
  | CView => own CView ++ own CBase
  | CBase => own CBase
  end.
(** Only the template is a const member function (var_view.hpp:57). *)
Definition obj_const (p : par) : bool := match p with PTmpl => true | _ => false end.
Definition viable (l : lhs) (a : arg) (p : par) : bool :=
  (negb (l_const l) || obj_const p) &&
  match p, a_cls a with
  | PTmpl, _ => true
  | PLref c, AObj d => depth c <=? depth d
  | PRref c, AObj d => (depth c <=? depth d) && a_rval a && negb (a_const a)
  | _, AOther => false
  end.
(** Rank of the argument's conversion: steps from derived to base class, then
    rvalue references before lvalue references ([over.ics.rank]). *)
Definition steps (a : arg) (p : par) : nat :=
  match p, a_cls a with
  | PLref c, AObj d | PRref c, AObj d => depth d - depth c
  | _, _ => 0
  end.
Definition lref (p : par) : nat := match p with PRref _ => 0 | _ => 1 end.
Definition arg_better (a : arg) (p q : par) : bool :=
  (steps a p <? steps a q) || ((steps a p =? steps a q) && (lref p <? lref q)).
(** A non-const member function is better for a non-const object. *)
Definition obj_better (p q : par) : bool := negb (obj_const p) && obj_const q.
(** [over.match.best]: no argument worse and one better, or a non-template. *)
Definition better (a : arg) (p q : par) : bool :=
  negb (arg_better a q p) && negb (obj_better q p) &&
  (arg_better a p q || obj_better p q ||
   match p, q with PTmpl, _ => false | _, PTmpl => true | _, _ => false end).
Definition par_eqb (p q : par) : bool :=
  match p, q with
  | PTmpl, PTmpl => true
  | PLref c, PLref d | PRref c, PRref d => depth c =? depth d
  | _, _ => false
  end.
(** [None]: ambiguous, the program does not compile. *)
Definition resolve (l : lhs) (a : arg) : option par :=
  let v := filter (viable l a) (cands (l_cls l)) in
  find (fun p => forallb (fun q => par_eqb p q || better a p q) v) v.

(** ** Effect *)
Section Effect.
Context {N : num}.
Notation T := (carrier N).
Notation U := (expr T unit).

(** Values and adjoints are copied now: Var's operators (var.hpp:60-69, 125-134,
    190-199), and the implicit operator of array views, which assigns the Eigen maps
    (value_view.hpp:108-139, 141-173) entry by entry. *)
Definition copy_cells (n ow ox : nat) (m : mem T) : res (mem T) :=
  v <- load m (Ptr 0 ox) n ;;
  a <- load m (Ptr 1 ox) n ;;
  m1 <- store m (Ptr 0 ow) v ;;
  store m1 (Ptr 1 ow) a.
(** The assignment `w = x` of equal shapes, w viewing cells from [ow], x from [ox]:
    the memory afterwards, the cells w views afterwards, and the expression that the
    assignment stands for when it is the operand of the comma operator.
    The implicit operator of scalar views copies the two pointers
    (value_view.hpp:12-105).  Moving from arrays hands over the buffer (C38) and is
    left out: the argument is an lvalue or a view.  [None]: does not compile. *)
Definition assign (l : lhs) (a : arg) (sh : shape) (ow ox : nat) (m : mem T)
  : option (res (mem T * nat * U)) :=
  match resolve l a with
  | None | Some PTmpl => None                                         (* var_view.hpp:57-63, eq.hpp:50 *)
  | Some (PLref CVar) | Some (PRref CVar) =>
      Some (m1 <- copy_cells (size sh) ow ox m ;; Ok (m1, ow, EVar sh ow))
  | Some (PLref _) | Some (PRref _) =>
      Some (if is_scl sh then Ok (m, ox, EVar sh ox)
            else m1 <- copy_cells (size sh) ow ox m ;; Ok (m1, ow, EVar sh ow))
  end.
(** (w = x, f(w)) *)
Definition then_ (l : lhs) (a : arg) (sh : shape) (ow ox : nat) (f : nat -> U) (m : mem T)
  : option (res (mem T * U)) :=
  match assign l a sh ow ox m with
  | None => None
  | Some r => Some ('(m1, o, u) <- r ;; Ok (m1, EGlue tt u (f o)))
  end.
End Effect.
