(** Vocabulary of the theorems about size checks (C44): nodes whose constructor
    checks all sizes, and usage rules that mention no sizes. *)
From Verif Require Import Base Num Expr Node Stat Machine Wf.

(** At most one operand is an array, or the sizes are asserted. *)
Definition skchecked (q : stat) : bool :=
  match q with
  | NormSSS | CauSSS | UniSSS | BerSS | NormVSS | CauVSS | UniVSS | BerVS | NormVSM | NormVVM => true
  | _ => false
  end.
Definition kchecked (k : kd) : bool :=
  match k with
  | KSumI s | KProdI s => sk_eqb s Scl
  | KStat q => skchecked q
  | _ => true
  end.
(** No empty array is combined with a scalar. *)
Definition knonempty (k : kd) (ss : list shape) : bool :=
  match k, ss with
  | KBin _, [a; b] => if is_scl a || is_scl b then negb (size a =? 0) && negb (size b =? 0) else true
  | _, _ => true
  end.
Section Usage.
Context {T A : Type}.
Notation E := (expr T A).
Fixpoint checked (e : E) : bool :=
  match e with
  | EVar _ _ | ECst _ _ | ECvw _ _ => true
  | EComp k _ es => kchecked k && forallb checked es
  | EEq _ _ _ y | EOpEq _ _ _ _ y => checked y
  | EGlue _ l r => checked l && checked r
  | EFor _ s es => sk_eqb s Scl && forallb checked es
  | EIf _ c t f => checked c && checked t && checked f
  end.
(** What remains of [wfs] without the sizes: the uses C04, C15 and C16 show to be
    wrong, non-emptiness, and a for_each has at least one statement. *)
Fixpoint usage (e : E) : bool :=
  match e with
  | EVar _ _ | ECst _ _ | ECvw _ _ => true
  | EComp k _ es =>
      forallb usage es && kdim_ok k (map shape_of es) && knonempty k (map shape_of es)
      && (negb (kget k) || forallb gettable es)
  | EEq _ _ _ y => usage y && rhs_ok y
  | EOpEq _ _ _ _ y => usage y && gettable y
  | EGlue _ l r => usage l && usage r && gettable r
  | EFor _ _ es => forallb usage es && match es with [] => false | _ => gettable (last es (EVar scl 0)) end
  | EIf _ c t f => usage c && usage t && usage f && cond_ok c
  end.
End Usage.
