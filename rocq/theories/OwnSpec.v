(** Specification for C37, C38: variables as plain values, no storage at all. *)
From Coq Require Import List Bool Arith.
From Verif Require Import Base Own.
Import ListNotations.

Section OwnSpec.
Context {T : Type}.

(** A variable: is it a scalar, rows, columns, and its value and adjoint entries;
    [None] for a vector or matrix that has been moved from and not assigned since. *)
Definition aval : Type := bool * nat * nat * option (list T * list T).
Definition astate := nat -> option aval.
Definition aset (f : astate) (i : nat) (x : option aval) : astate := fun j => if j =? i then x else f j.

Definition same_shape (x y : aval) : Prop := fst x = fst y.

(** One step of a legal program: it creates fresh variables, reads, copies and
    writes only variables that hold a value, assigns between equal shapes, and
    may destroy anything. *)
Definition astep (z : T) (o : vop T) (a a' : astate) : Prop :=
  match o with
  | New i sc r c => a i = None /\ (sc = true -> r = 1 /\ c = 1) /\
      a' = aset a i (Some (sc, r, c, Some (repeat z (r * c), repeat z (r * c))))
  | CopyNew j i => exists x d, a j = None /\ a i = Some (x, Some d) /\ a' = aset a j (Some (x, Some d))
  | MoveNew j i => exists x d, a j = None /\ a i = Some (x, Some d) /\
      a' = aset (aset a i (Some (x, if fst (fst x) then Some d else None))) j (Some (x, Some d))
  | CopyAsg j i => exists x d y, a i = Some (x, Some d) /\ a j = Some (x, y) /\
      a' = aset a j (Some (x, Some d))
  | MoveAsg j i => exists x d y, a i = Some (x, Some d) /\ a j = Some (x, y) /\
      a' = if j =? i then a
           else aset (aset a i (Some (x, if fst (fst x) then Some d else None))) j (Some (x, Some d))
  | Put i adj l => exists x v g, a i = Some (x, Some (v, g)) /\ length l = length v /\
      a' = aset a i (Some (x, Some (if adj then (v, l) else (l, g))))
  | Del i => a i <> None /\ a' = aset a i None
  end.

Fixpoint arun (z : T) (h : list (vop T)) (a a' : astate) : Prop :=
  match h with
  | [] => a' = a
  | o :: h' => exists a1, astep z o a a1 /\ arun z h' a1 a'
  end.
Definition ainit : astate := fun _ => None.

(** Does the operation move (the storage of) variable [i], a scalar or not, or end its life? *)
Definition moves (sc : bool) (i : nat) (o : vop T) : Prop :=
  match o with
  | MoveNew j k => sc = false /\ k = i
  | MoveAsg j k => sc = false /\ (k = i \/ j = i)
  | Del k => k = i
  | _ => False
  end.
End OwnSpec.
Arguments astate : clear implicits.
