(** Backward passes on their own.

    [ad::evaluate_adj] (eval.hpp:43-73) calls [beval] and nothing else, so client
    code may run it any number of times after one [ad::evaluate]
    (test/reverse/core/eval_unittest.cpp:39-44 calls it twice).  The overloads for
    a bound expression forward to [expr.get()]; they exist for scalars bound in an
    lvalue and for arrays bound in an rvalue only (eval.hpp:60-73), so for the
    other two cases the client has to write [.get()] itself. *)
From Verif Require Import Base Num Expr Node Stat Machine.

Section Adj.
Context {N : num}.
Notation T := (carrier N).
Notation E := (expr T (ann N)).

(** One evaluate_adj per seed, in order (eval.hpp:43-58).  [beval] changes no field
    of a node, so the expression stays as it is. *)
Fixpoint bevals (e : E) (seeds : list (list T)) (m : mem T) : res (mem T) :=
  match seeds with
  | [] => Ok m
  | s :: l => m1 <- beval e s m ;; bevals e l m1
  end.

(** One evaluate, then one evaluate_adj per seed, with the value returned. *)
Definition eval_adjs (e : E) (seeds : list (list T)) (m : mem T) : res (E * mem T * list T) :=
  '(e1, m1, v) <- evaluate e m ;; m2 <- bevals e1 seeds m1 ;; Ok (e1, m2, v).

(** Client code between evaluate and the passes: backward passes, and writes to
    the variables' values and adjoints (blocks 0 and 1) that free nothing. *)
Inductive bop := BAdj (seed : list T) | BUser (f : mem T -> mem T).
Definition bop_ok (n : nat) (o : bop) : Prop :=
  match o with
  | BAdj seed => length seed = n
  | BUser f => forall m b o, (m b o <> None -> f m b o <> None) /\ (b <> 0 -> b <> 1 -> f m b o = m b o)
  end.
Fixpoint brun (e : E) (ops : list bop) (m : mem T) : res (mem T) :=
  match ops with
  | [] => Ok m
  | BAdj s :: l => m1 <- beval e s m ;; brun e l m1
  | BUser f :: l => brun e l (f m)
  end.
End Adj.
Arguments bop N : clear implicits.

(** No iterated product (prod.hpp:22-135), the one node that rewrites its cached
    value during the backward pass (prod.hpp:89-96). *)
Fixpoint noprod {T A} (e : expr T A) : bool :=
  match e with
  | EVar _ _ | ECst _ _ | ECvw _ _ => true
  | EComp k _ es => match k with KProdI _ => false | _ => true end && forallb noprod es
  | EEq _ _ _ y => noprod y
  | EOpEq _ _ _ _ y => noprod y
  | EGlue _ l r => noprod l && noprod r
  | EFor _ _ es => forallb noprod es
  | EIf _ c t f => noprod c && noprod t && noprod f
  end.
