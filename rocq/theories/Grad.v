(** Vocabulary of the gradient theorems. *)
From Coq Require Import Reals.
From Coquelicot Require Import Coquelicot.
From Verif Require Import Base Num Expr Node Stat Machine Wf Session Tape XR Spec RSess.
Open Scope R_scope.

(** [g k]: partial derivative of component [k] of the value of [u] with respect
    to the variable cell [o], at [rho]. *)
Definition partials {A} (D : nat -> R) (u : expr xr A) (rho : nat -> R) (o : nat) (g : nat -> R) : Prop :=
  forall k, is_derive (fun t => el (val D u (set1 rho o t)) k) (rho o) (g k).
(** The same for the final value of every variable. *)
Definition epartials {A} (D : nat -> R) (u : expr xr A) (rho : nat -> R) (o : nat) (h : nat -> R) : Prop :=
  forall i, is_derive (fun t => fin_env D u (set1 rho o t) i) (rho o) (h i).
Definition dotp (s : list R) (g : nat -> R) : R := sumn (length s) (fun k => el s k * g k).
Fixpoint sumr (l : list R) : R := match l with [] => 0 | x :: t => x + sumr t end.

(** Several bound expressions sharing their variables.  A call evaluates
    ([None]) or differentiates (after resetting the adjoints of the
    expression's own placeholders) one of them; the values returned are
    collected. *)
Section Sys.
Variable la : linalg xr.
Notation N := (XR la).
Notation E := (expr N (ann N)).
Notation U := (expr N unit).
Definition call := (nat * option (list R))%type.
Definition call1 (u : U) (s : option (list R)) (e : E) (m : mem N) : res (E * mem N * list N) :=
  match s with None => evaluate e m | Some s => autodiff e (map Fin s) (reset la u m) end.
Fixpoint put_nth {X} (i : nat) (x : X) (l : list X) : list X :=
  match l, i with
  | [], _ => []
  | _ :: t, O => x :: t
  | y :: t, S k => y :: put_nth k x t
  end.
Fixpoint sched (us : list U) (cs : list call) (es : list E) (m : mem N) : res (list E * mem N * list (list N)) :=
  match cs with
  | [] => Ok (es, m, [])
  | (i, s) :: l =>
      match nth_error us i, nth_error es i with
      | Some u, Some e =>
          '(e1, m1, v) <- call1 u s e m ;;
          '(es2, m2, vs) <- sched us l (put_nth i e1 es) m1 ;;
          Ok (es2, m2, v :: vs)
      | _, _ => Err UBnull
      end
  end.
(** What a call adds to an adjoint, given the partial derivatives [g] of every expression. *)
Definition gain (g : nat -> nat -> R) (c : call) : R :=
  match c with (_, None) => 0 | (i, Some s) => dotp s (g i) end.
End Sys.
