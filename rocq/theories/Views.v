(** What ad::evaluate and ad::autodiff hand back (eval.hpp:18-34, 82-153).

    Both return [auto], a decayed copy of the [const var_t&] that feval returns.
    For scalar expressions var_t is the number itself and for a vector or matrix
    constant it is an Eigen matrix (constant.hpp:91), so the caller gets a
    copy.  For every other vector or matrix expression var_t is an Eigen::Map
    (value_view.hpp:112, 146; constant.hpp:37), and copying a Map copies the pointer: the caller
    gets a view of the storage of the expression's root.  The functions below
    return the reference instead of reading it; [evaluate] and [autodiff]
    (Machine.v) give what the view shows when feval returns. *)
From Verif Require Import Base Num Expr Node Stat Machine Wf Tape Session OwnBind.

Section Views.
Context {N : num}.
Notation T := (carrier N).
Notation E := (expr T (ann N)).

(** The decayed copy of feval's result, eval.hpp:18-34. *)
Definition hand (e : E) (m : mem T) (r : vref N) : res (vref N) :=
  if is_scl (shape_of e) then v <- rdref m r ;; Ok (RCst v) else Ok r.
(** ad::evaluate, eval.hpp:18-34 *)
Definition evaluate_v (e : E) (m : mem T) : res (E * mem T * vref N) :=
  '(e', m', r) <- feval e m ;; h <- hand e m' r ;; Ok (e', m', h).
(** ad::autodiff, eval.hpp:82-153: [auto t = evaluate(expr)], backward
    evaluation, [return t]. *)
Definition autodiff_v (e : E) (seed : list T) (m : mem T) : res (E * mem T * vref N) :=
  '(e', m1, h) <- evaluate_v e m ;; m2 <- beval e' seed m1 ;; Ok (e', m2, h).

(** [autodiff(ad::bind(expr), seed)], eval.hpp:145-153 with an ExprBind
    temporary: its caches are gone at the end of the full expression. *)
Definition autodiff_temp (bv ba : nat) (uv ua : nat -> T) (u : expr T unit) (seed : list T)
    (m : mem T) : res (mem T * vref N) :=
  '(x, m0) <- eb_bind bv ba uv ua u m ;;
  '(_, m1, h) <- autodiff_v (eb_e x) seed m0 ;;
  Ok (eb_del x m1, h).
End Views.

(** Programs whose root is not written to during backward evaluation.  Backward
    evaluation writes values in two places: op= restores its variable, and prod
    over iterators recomputes its value from the operands (prod.hpp:89-100). *)
Section Kept.
Context {T A : Type}.
Notation X := (expr T A).
(** Is the root's storage a cache of its own or a constant (not a variable)? *)
Fixpoint own_root (u : X) : bool :=
  match u with
  | EComp _ _ _ | ECst _ _ | ECvw _ _ => true
  | EGlue _ _ r => own_root r
  | _ => false
  end.
Fixpoint root_kept (u : X) : bool :=
  match u with
  | EVar _ _ | ECst _ _ | ECvw _ _ => true
  | EComp (KProdI _) _ _ => nilb (opw u)
  | EComp _ _ _ => true
  | EGlue _ l r => root_kept r && (own_root r || nilb (opw l))
  | EEq _ _ _ _ | EFor _ _ _ => nilb (opw u)
  | EOpEq _ _ _ _ _ | EIf _ _ _ _ => false
  end.
End Kept.
