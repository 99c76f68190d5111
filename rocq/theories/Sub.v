(** Sub-views of vector variables (include/fastad_bits/reverse/core/var_view.hpp:153-172).
    A variable view is [EVar sh o] (values in cells [o..] of block 0, adjoints in
    the same cells of block 1).  A failed assert is [UBshape]. *)
From Verif Require Import Base Num Expr.

Section Sub.
Context {T : Type}.
Notation U := (expr T unit).

(** operator()(i) and operator[](i), var_view.hpp:154-161 *)
Definition sub_at (e : U) (i : nat) : res U :=
  match e with
  | EVar (Sh Vec n _) o => if i <? n then Ok (EVar scl (o + i)) else Err UBshape
  | _ => Err UBshape
  end.
(** head(n), var_view.hpp:162-165 *)
Definition sub_head (e : U) (k : nat) : res U :=
  match e with
  | EVar (Sh Vec n _) o => if k <=? n then Ok (EVar (Sh Vec k 1) o) else Err UBshape
  | _ => Err UBshape
  end.
(** tail(n), var_view.hpp:166-172 *)
Definition sub_tail (e : U) (k : nat) : res U :=
  match e with
  | EVar (Sh Vec n _) o => if k <=? n then Ok (EVar (Sh Vec k 1) (o + (n - k))) else Err UBshape
  | _ => Err UBshape
  end.
(** get(i,j) / get_adj(i,j) of a matrix view: the cell of entry (i,j), column-major
    (value_view.hpp:120-121, 154-155, value_adj_view.hpp:44-45).  An Eigen index assertion
    guards the range. *)
Definition ent (e : U) (i j : nat) : res nat :=
  match e with
  | EVar (Sh _ r c) o => if (i <? r) && (j <? c) then Ok (o + (j * r + i)) else Err UBshape
  | _ => Err UBshape
  end.
End Sub.
