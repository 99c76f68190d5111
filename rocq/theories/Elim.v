(** Placeholder elimination: what README.md:408-434 says placeholders are for.
    [subst w sh y f]: [f] with every use of the variable [w] (the whole view of
    shape [sh]) replaced by the expression [y]. *)
From Verif Require Import Base Num Expr Wf Tape.

Section Elim.
Context {T A : Type}.
Notation E := (expr T A).
Fixpoint subst (w : nat) (sh : shape) (y f : E) : E :=
  match f with
  | EVar s o => if (o =? w) && shape_eqb s sh then y else f
  | ECst _ _ | ECvw _ _ => f
  | EComp k a es => EComp k a (map (subst w sh y) es)
  | EEq a s o z => EEq a s o (subst w sh y z)
  | EOpEq q a s o z => EOpEq q a s o (subst w sh y z)
  | EGlue a l r => EGlue a (subst w sh y l) (subst w sh y r)
  | EFor a s es => EFor a s (map (subst w sh y) es)
  | EIf a c t e => EIf a (subst w sh y c) (subst w sh y t) (subst w sh y e)
  end.
(** [f] reads [w] only as a whole and never assigns it. *)
Fixpoint whole (w : nat) (sh : shape) (f : E) : bool :=
  match f with
  | EVar s o => ((o =? w) && shape_eqb s sh) || dj (cells s o) (cells sh w)
  | ECst _ _ | ECvw _ _ => true
  | EComp _ _ es | EFor _ _ es => forallb (whole w sh) es
  | EEq _ s o z | EOpEq _ _ s o z => dj (cells s o) (cells sh w) && whole w sh z
  | EGlue _ l r => whole w sh l && whole w sh r
  | EIf _ c t e => whole w sh c && whole w sh t && whole w sh e
  end.
End Elim.
