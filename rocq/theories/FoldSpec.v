(** Vocabulary of the theorems about constant folding: the C++ value type of a
    constant expression, and where folding computes in double or exactly. *)
From Coq Require Import Reals.
From Verif Require Import Base Num Expr Wf XR Spec.
Open Scope nat_scope.

Inductive ty := TB | TZ | TD.
Definition isD (t : ty) : bool := match t with TD => true | _ => false end.
Definition ty_eqb (a b : ty) : bool :=
  match a, b with TB, TB | TZ, TZ | TD, TD => true | _, _ => false end.

(** Value type of a node built from constants of types [ts]. *)
Definition kty (k : kd) (ss : list shape) (ts : list ty) : ty :=
  let t := nth 0 ts TD in
  let t' := nth 1 ts TD in
  let sc := is_scl (nth_sh ss 0) && is_scl (nth_sh ss 1) in
  match k with
  | KUn UNeg => if isD t then TD else TZ
  | KSumE | KProdE | KSumI _ | KProdI _ => t
  | KBin (BAdd | BSub | BMul | BDiv) => if isD t || isD t' then TD else TZ
  | KBin (BAnd | BOr) => if sc then TB else if isD t then TD else TB
  | KBin _ => TB
  | _ => TD
  end.
(** Nodes whose folded value is exact: no int division and no sum of bools. *)
Definition kexact (k : kd) (ss : list shape) (ts : list ty) : bool :=
  let t := nth 0 ts TD in
  let t' := nth 1 ts TD in
  match k with
  | KBin BDiv => isD t || isD t'
  | KSumE => is_scl (nth_sh ss 0) || isD t
  | KSumI _ => match t with TB => false | _ => true end
  | _ => true
  end.

Section Ty.
Context {T A : Type}.
Notation E := (expr T A).
(** [None]: not a constant. *)
Fixpoint cty (u : E) : option ty :=
  match u with
  | ECst _ _ | ECvw _ _ => Some TD
  | EComp k _ es =>
      match k, es with
      | KStat _, _ | _, [] => None
      | _, _ =>
        match (fix go es := match es with
                            | [] => Some []
                            | y :: l => match cty y, go l with Some t, Some ts => Some (t :: ts) | _, _ => None end
                            end) es with
        | Some ts => Some (kty k (map shape_of es) ts)
        | None => None
        end
      end
  | EIf _ c t f => match cty c, cty t, cty f with Some _, Some a, Some _ => Some a | _, _, _ => None end
  | _ => None
  end.
Definition ctys : list E -> option (list ty) :=
  fix go es := match es with
               | [] => Some []
               | y :: l => match cty y, go l with Some t, Some ts => Some (t :: ts) | _, _ => None end
               end.
(** All constant sub-expressions fold exactly. *)
Fixpoint fexact (u : E) : bool :=
  match u with
  | EVar _ _ | ECst _ _ | ECvw _ _ => true
  | EComp k _ es =>
      forallb fexact es &&
      match ctys es with Some ts => kexact k (map shape_of es) ts | None => true end
  | EEq _ _ _ y | EOpEq _ _ _ _ y => fexact y
  | EGlue _ a b => fexact a && fexact b
  | EFor _ _ es => forallb fexact es
  | EIf _ c t f =>
      fexact c && fexact t && fexact f &&
      match cty t, cty f with Some a, Some b => isD a || ty_eqb a b | _, _ => true end
  end.
Fixpoint nostat (u : E) : bool :=
  match u with
  | EVar _ _ | ECst _ _ | ECvw _ _ => true
  | EComp k _ es => match k with KStat _ => false | _ => forallb nostat es end
  | EEq _ _ _ y | EOpEq _ _ _ _ y => nostat y
  | EGlue _ a b => nostat a && nostat b
  | EFor _ _ es => forallb nostat es
  | EIf _ c t f => nostat c && nostat t && nostat f
  end.
(** Every view is an operand of a node that is not folded: the views are read
    at evaluation only. *)
Fixpoint unfrozen (u : E) : bool :=
  match u with
  | EVar _ _ | ECst _ _ | ECvw _ _ => true
  | EComp _ _ es =>
      match cty u with Some _ => match drefs u with [] => true | _ => false end | None => forallb unfrozen es end
  | EEq _ _ _ y | EOpEq _ _ _ _ y => unfrozen y
  | EGlue _ a b => unfrozen a && unfrozen b
  | EFor _ _ es => forallb unfrozen es
  | EIf _ c t f =>
      match cty u with Some _ => match drefs u with [] => true | _ => false end
      | None => unfrozen c && unfrozen t && unfrozen f end
  end.
End Ty.

(** The constant sub-expressions are defined. *)
Fixpoint cdom {A} (D : nat -> R) (u : expr xr A) : Prop :=
  match cty u with
  | Some _ => forall r, dom D false false u r
  | None =>
    match u with
    | EVar _ _ | ECst _ _ | ECvw _ _ => True
    | EComp _ _ es | EFor _ _ es =>
        (fix go es := match es with [] => True | y :: l => cdom D y /\ go l end) es
    | EEq _ _ _ y | EOpEq _ _ _ _ y => cdom D y
    | EGlue _ a b => cdom D a /\ cdom D b
    | EIf _ c t f => cdom D c /\ cdom D t /\ cdom D f
    end
  end.
