(** Static conditions on expressions used in the statements of theorems. *)
From Verif Require Import Base Num Expr Node Stat Machine.

Section Wf.
Context {T A : Type}.
Notation E := (expr T A).

Definition cells (sh : shape) (o : nat) : list nat := seq o (size sh).

(** Variable cells occurring in an expression (read, assigned or updated). *)
Fixpoint refs (e : E) : list nat :=
  match e with
  | EVar sh o => cells sh o
  | ECst _ _ | ECvw _ _ => []
  | EComp _ _ es => flat_map refs es
  | EEq _ sh o y | EOpEq _ _ sh o y => cells sh o ++ refs y
  | EGlue _ l r => refs l ++ refs r
  | EFor _ _ es => flat_map refs es
  | EIf _ c t f => refs c ++ refs t ++ refs f
  end.
(** Cells of constant-view buffers it reads. *)
Fixpoint drefs (e : E) : list nat :=
  match e with
  | ECvw sh o => cells sh o
  | EVar _ _ | ECst _ _ => []
  | EComp _ _ es => flat_map drefs es
  | EEq _ _ _ y | EOpEq _ _ _ _ y => drefs y
  | EGlue _ l r => drefs l ++ drefs r
  | EFor _ _ es => flat_map drefs es
  | EIf _ c t f => drefs c ++ drefs t ++ drefs f
  end.
(** Cells assigned with [=]. *)
Fixpoint eqw (e : E) : list nat :=
  match e with
  | EVar _ _ | ECst _ _ | ECvw _ _ => []
  | EComp _ _ es => flat_map eqw es
  | EEq _ sh o y => cells sh o ++ eqw y
  | EOpEq _ _ _ _ y => eqw y
  | EGlue _ l r => eqw l ++ eqw r
  | EFor _ _ es => flat_map eqw es
  | EIf _ c t f => eqw c ++ eqw t ++ eqw f
  end.
(** Cells updated with an op=. *)
Fixpoint opw (e : E) : list nat :=
  match e with
  | EVar _ _ | ECst _ _ | ECvw _ _ => []
  | EComp _ _ es => flat_map opw es
  | EEq _ _ _ y => opw y
  | EOpEq _ _ sh o y => cells sh o ++ opw y
  | EGlue _ l r => opw l ++ opw r
  | EFor _ _ es => flat_map opw es
  | EIf _ c t f => opw c ++ opw t ++ opw f
  end.
(** All cells whose value evaluation changes. *)
Fixpoint writes (e : E) : list nat :=
  match e with
  | EVar _ _ | ECst _ _ | ECvw _ _ => []
  | EComp _ _ es => flat_map writes es
  | EEq _ sh o y | EOpEq _ _ sh o y => cells sh o ++ writes y
  | EGlue _ l r => writes l ++ writes r
  | EFor _ _ es => flat_map writes es
  | EIf _ c t f => writes c ++ writes t ++ writes f
  end.

(** Does get() of the node refer to its value?  Not for if_else (property C16). *)
Definition gettable (e : E) : bool :=
  match e with EIf _ _ _ _ => false | _ => true end.
(** Right-hand sides of [=] whose storage is reserved correctly (property C04). *)
Definition rhs_ok (e : E) : bool :=
  match e with
  | EVar _ _ | EComp KProdE _ _ | EOpEq _ _ _ _ _ => false
  | _ => true
  end.
(** The condition of an if_else is a comparison or other computed node, or a
    constant: its value cannot be changed by later assignments. *)
Definition cond_ok (e : E) : bool :=
  match e with EComp _ _ _ | ECst _ _ | ECvw _ _ => true | _ => false end.
(** minCoeff / maxCoeff of an empty vector (uniform.hpp:257-260, 351-354, 444-447). *)
Definition kdim_ok (k : kd) (ss : list shape) : bool :=
  match k with
  | KStat (UniVSS | UniVSV | UniVVS) => negb (rows (nth_sh ss 0) =? 0)
  | _ => true
  end.

(** The statements of a for_each: one C++ type, the last one shaped like the
    first (property C44). *)
Definition for_shapes (s : sk) (ss : list shape) : bool :=
  forallb (fun b => sk_eqb (kind b) s) ss &&
  match ss with [] => true | a :: _ => shape_eqb (last ss a) a end.

(** Usage rules.  The shape conditions are the asserts of the constructors and
    what Eigen needs at evaluation; the others exclude the uses shown to be
    undefined behaviour (PropsMem.v, PropsShape.v). *)
Fixpoint wfs (e : E) : bool :=
  match e with
  | EVar sh _ | ECvw sh _ => shape_ok sh
  | ECst sh c => shape_ok sh && (length c =? size sh)
  | EComp k _ es =>
      forallb wfs es && kshape_ok k (map shape_of es) && kdim_ok k (map shape_of es)
      && (negb (kget k) || forallb gettable es)
  | EEq _ sh _ y => wfs y && shape_ok sh && shape_eqb sh (shape_of y) && rhs_ok y
  | EOpEq _ _ sh _ y =>
      wfs y && shape_ok sh && (is_scl (shape_of y) || shape_eqb sh (shape_of y)) && gettable y
  | EGlue _ l r => wfs l && wfs r && gettable r && negb (is_const r)
  | EFor _ s es =>
      forallb wfs es && for_shapes s (map shape_of es) && negb (existsb is_const es)
      && match es with [] => negb (sk_eqb s Scl) | _ => gettable (last es (EVar scl 0)) end
  | EIf _ c t f =>
      wfs c && wfs t && wfs f && is_scl (shape_of c) && cond_ok c
      && shape_eqb (shape_of t) (shape_of f)
  end.
End Wf.
