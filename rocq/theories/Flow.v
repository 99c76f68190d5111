(** Client programs the control-flow nodes are compared with: the same
    statements, each bound and evaluated on its own. *)
From Verif Require Import Base Num Expr Node Stat Machine Session.

(** The statements of a sequence written with the comma operator and for_each,
    first to last. *)
Fixpoint stmts {T A} (u : expr T A) : list (expr T A) :=
  match u with
  | EGlue _ l r => stmts l ++ stmts r
  | EFor _ _ es => match es with [] => [u] | _ :: _ => flat_map stmts es end
  | _ => [u]
  end.

Section Flow.
Context {N : num}.
Notation T := (carrier N).
Notation E := (expr T (ann N)).
Notation U := (expr T unit).

(** ad::evaluate_adj, eval.hpp:43-73 *)
Definition evaluate_adj (e : E) (seed : list T) (m : mem T) : res (mem T) := beval e seed m.

(** ** Running a client program that owns some bound objects [S] *)
Fixpoint play {S : Type} (ev : S -> mem T -> res (S * mem T * list T))
         (df : S -> list T -> mem T -> res (S * mem T * list T))
         (ops : list (op N)) (s : S) (m : mem T) : res (S * mem T * list (list T)) :=
  match ops with
  | [] => Ok (s, m, [])
  | o :: l =>
      '(s1, m1, v) <- match o with
                      | OpEval => ev s m
                      | OpDiff seed => df s seed m
                      | OpUser f => Ok (s, f m, [])
                      end ;;
      '(s2, m2, vs) <- play ev df l s1 m1 ;; Ok (s2, m2, v :: vs)
  end.

(** auto e1 = ad::bind(u1); auto e2 = ad::bind(u2); ...  Object [i] has its
    caches in the allocations [bs i]. *)
Fixpoint bind_all (bs : nat -> nat * nat) (uv ua : nat -> nat -> T) (i : nat) (us : list U)
         (m : mem T) : res (list E * mem T) :=
  match us with
  | [] => Ok ([], m)
  | u :: l => '(e, m1) <- bound (fst (bs i)) (snd (bs i)) (uv i) (ua i) u m ;;
              '(es, m2) <- bind_all bs uv ua (S i) l m1 ;; Ok (e :: es, m2)
  end.
Definition separate (bs : nat -> nat * nat) : Prop :=
  (forall i, fresh (fst (bs i)) (snd (bs i))) /\
  forall i j, i <> j -> fst (bs i) <> fst (bs j) /\ fst (bs i) <> snd (bs j) /\ snd (bs i) <> snd (bs j).

(** evaluate(e1); evaluate(e2); ... returning every value *)
Fixpoint evaluate_all (es : list E) (m : mem T) : res (list E * mem T * list (list T)) :=
  match es with
  | [] => Ok ([], m, [])
  | e :: l => '(e', m1, v) <- evaluate e m ;;
              '(l', m2, vs) <- evaluate_all l m1 ;; Ok (e' :: l', m2, v :: vs)
  end.
(** evaluate_adj(en, seed); ...; evaluate_adj(e2, 0); evaluate_adj(e1, 0) *)
Fixpoint evaluate_adj_all (es : list E) (seed : list T) (m : mem T) : res (mem T) :=
  match es with
  | [] => Ok m
  | e :: l =>
      match l with
      | [] => evaluate_adj e seed m
      | _ :: _ => m1 <- evaluate_adj_all l seed m ;;
                  evaluate_adj e (repeat (n0 N) (size (shape_of e))) m1
      end
  end.
(** The last statement's value is the result. *)
Definition seq_eval (es : list E) (m : mem T) : res (list E * mem T * list T) :=
  '(es', m1, vs) <- evaluate_all es m ;; Ok (es', m1, last vs []).
Definition seq_diff (es : list E) (seed : list T) (m : mem T) : res (list E * mem T * list T) :=
  '(es', m1, v) <- seq_eval es m ;; m2 <- evaluate_adj_all es' seed m1 ;; Ok (es', m2, v).

(** if (evaluate(c)) evaluate(a) else evaluate(b); then
    evaluate_adj(a, seed) or evaluate_adj(b, seed) *)
Definition if_eval (s : E * E * E) (m : mem T) : res (E * E * E * mem T * list T) :=
  let '(c, a, b) := s in
  '(c', m1, v) <- evaluate c m ;;
  if ntrue N (hd0 N v) then '(a', m2, w) <- evaluate a m1 ;; Ok (c', a', b, m2, w)
  else '(b', m2, w) <- evaluate b m1 ;; Ok (c', a, b', m2, w).
Definition if_diff (s : E * E * E) (seed : list T) (m : mem T) : res (E * E * E * mem T * list T) :=
  let '(c, a, b) := s in
  '(c', m1, v) <- evaluate c m ;;
  if ntrue N (hd0 N v) then
    '(a', m2, w) <- evaluate a m1 ;; m3 <- evaluate_adj a' seed m2 ;; Ok (c', a', b, m3, w)
  else
    '(b', m2, w) <- evaluate b m1 ;; m3 <- evaluate_adj b' seed m2 ;; Ok (c', a, b', m3, w).

(** Memories that a client cannot tell apart: same variables, adjoints and
    constant data (the caches belong to the bound objects). *)
Definition agree (m m' : mem T) : Prop :=
  forall o, m 0 o = m' 0 o /\ m 1 o = m' 1 o /\ m 4 o = m' 4 o.
(** Client code only looks at those. *)
Definition op_shared (o : op N) : Prop :=
  match o with OpUser f => forall m m', agree m m' -> agree (f m) (f m') | _ => True end.

(** (((u1, u2), u3), ...): C++'s comma associates to the left. *)
Definition chain (u : U) (l : list U) : U := fold_left (EGlue tt) l u.

(** ** Comparing two values by hand *)
(** The entries of [x b y]; [sc] says that both operands are scalars. *)
Definition truth (b : bool) : T := if b then n1 N else n0 N.
Definition nz (x : T) : bool := negb (neqb N x (n0 N)).
Definition cmp_entry (b : bi) (sc : bool) (x y : T) : T :=
  match b with
  | BLt => truth (nltb N x y)
  | BLe => truth (nleb N x y)
  | BGt => truth (nltb N y x)
  | BGe => truth (nleb N y x)
  | BEq => truth (neqb N x y)
  | BNe => truth (negb (neqb N x y))
  | BAnd => if sc then truth (nz x && nz y) else if nltb N y x then y else x
  | BOr => if sc then truth (nz x || nz y) else if nltb N x y then y else x
  | BAdd => nadd N x y | BSub => nsub N x y | BMul => nmul N x y | BDiv => ndiv N x y
  end.
(** scalars are compared with every entry *)
Definition cmp_vals (b : bi) (sx sy : shape) (vx vy : list T) : list T :=
  let at_ (s : shape) v i := nth (if is_scl s then 0 else i) v (n0 N) in
  map (fun i => cmp_entry b (is_scl sx && is_scl sy) (at_ sx vx i) (at_ sy vy i))
      (seq 0 (max (size sx) (size sy))).
Definition cmp_eval (b : bi) (s : E * E) (m : mem T) : res (E * E * mem T * list T) :=
  let '(x, y) := s in
  '(x', m1, vx) <- evaluate x m ;; '(y', m2, vy) <- evaluate y m1 ;;
  Ok (x', y', m2, cmp_vals b (shape_of x) (shape_of y) vx vy).
(** there is nothing to differentiate *)
Definition cmp_diff (b : bi) (s : E * E) (seed : list T) (m : mem T) := cmp_eval b s m.

(** No assignment anywhere in the expression. *)
Fixpoint pure {A} (e : expr T A) : bool :=
  match e with
  | EVar _ _ | ECst _ _ | ECvw _ _ => true
  | EComp _ _ es | EFor _ _ es => forallb pure es
  | EEq _ _ _ _ | EOpEq _ _ _ _ _ => false
  | EGlue _ l r => pure l && pure r
  | EIf _ c t f => pure c && pure t && pure f
  end.
End Flow.
