(** What the adjoint of a placeholder means: the effect of a small change of the
    value assigned to it. *)
From Coq Require Import Reals.
From Coquelicot Require Import Coquelicot.
From Verif Require Import Base Num Expr XR Spec.
Open Scope R_scope.

(** Like [den] (Spec.v), but every assignment w = e stores e plus the nudge [p]
    of w's cells. *)
Section Nudge.
Context {A : Type}.
Notation E := (expr xr A).
Notation renv := (nat -> R).
Variables D p : renv.

Fixpoint nden (e : E) (r : renv) {struct e} : list R * renv :=
  match e with
  | EVar sh o => (map r (seq o (size sh)), r)
  | ECst _ c => (map fval c, r)
  | ECvw sh o => (map D (seq o (size sh)), r)
  | EComp k _ es =>
      let '(vs, r1) :=
        (fix go es r := match es with
                        | [] => ([], r)
                        | y :: l => let '(v, r1) := nden y r in
                                    let '(vs, r2) := go l r1 in (v :: vs, r2)
                        end) es r in
      (kden k (map shape_of es) vs, r1)
  | EEq _ sh o y =>
      let '(v, r1) := nden y r in
      let w := tab (size sh) (fun i => el v i + p (o + i)%nat) in
      (w, put r1 o w)
  | EOpEq q _ sh o y =>
      let '(v, r1) := nden y r in
      let w := tab (size sh) (fun i => oe_s q (r1 (o + i)%nat) (ent (shape_of y) v i)) in
      (w, put r1 o w)
  | EGlue _ a b => let '(_, r1) := nden a r in nden b r1
  | EFor _ _ es =>
      (fix go es v r := match es with
                        | [] => (v, r)
                        | y :: l => let '(v1, r1) := nden y r in go l v1 r1
                        end) es [] r
  | EIf _ c t f =>
      let '(v, r1) := nden c r in
      if reqb (el v 0) 0 then nden f r1 else nden t r1
  end.
Definition ndens : list E -> renv -> list (list R) * renv :=
  fix go es r := match es with
                 | [] => ([], r)
                 | y :: l => let '(v, r1) := nden y r in
                             let '(vs, r2) := go l r1 in (v :: vs, r2)
                 end.
Definition nval (e : E) (r : renv) : list R := fst (nden e r).
Definition nfin (e : E) (r : renv) : renv := snd (nden e r).
End Nudge.

(** Changing one cell: its initial value and every value assigned to it. *)
Definition bump (o : nat) (x : R) : nat -> R := fun i => if (i =? o)%nat then x else 0.
(** [g k]: derivative of component [k] of the value of [u] with respect to such a
    change of cell [o]; [h i]: of the final value of variable [i]. *)
Definition npartials {A} (D : nat -> R) (u : expr xr A) (rho : nat -> R) (o : nat) (g : nat -> R) : Prop :=
  forall k, is_derive (fun x => el (nval D (bump o x) u (fun i => rho i + bump o x i)) k) 0 (g k).
Definition nepartials {A} (D : nat -> R) (u : expr xr A) (rho : nat -> R) (o : nat) (h : nat -> R) : Prop :=
  forall i, is_derive (fun x => nfin D (bump o x) u (fun i => rho i + bump o x i) i) 0 (h i).
