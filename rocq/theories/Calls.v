(** Client programs that observe a bound expression: calls whose results are
    kept, and writes to single cells of the variables, of their adjoints and of
    the constant buffers in between. *)
From Verif Require Import Base Num Expr Node Stat Machine.

Section Calls.
Context {N : num}.
Notation T := (carrier N).
Notation E := (expr T (ann N)).

Inductive call :=
| CEval                          (* ad::evaluate, eval.hpp:18-34 *)
| CDiff (seed : list T)          (* ad::autodiff, eval.hpp:82-153 *)
| CVal (o : nat) (x : T)         (* v.get(i, j) = x, value_view.hpp:43, 120 and 154 *)
| CAdj (o : nat) (x : T)         (* v.get_adj(i, j) = x, value_adj_view.hpp:44 *)
| CDat (o : nat) (x : T).        (* a write to the buffer of a constant view, constant.hpp:28-80 *)

(** Assignment to an existing cell. *)
Definition setc (m : mem T) (b o : nat) (x : T) : mem T := fun b' o' =>
  if (b' =? b) && (o' =? o) then match m b o with Some _ => Some x | None => None end else m b' o'.

Fixpoint calls (l : list call) (e : E) (m : mem T) : res (E * mem T * list (list T)) :=
  match l with
  | [] => Ok (e, m, [])
  | CEval :: l => '(e1, m1, v) <- evaluate e m ;; '(e2, m2, vs) <- calls l e1 m1 ;; Ok (e2, m2, v :: vs)
  | CDiff s :: l => '(e1, m1, v) <- autodiff e s m ;; '(e2, m2, vs) <- calls l e1 m1 ;; Ok (e2, m2, v :: vs)
  | CVal o x :: l => calls l e (setc m 0 o x)
  | CAdj o x :: l => calls l e (setc m 1 o x)
  | CDat o x :: l => calls l e (setc m 4 o x)
  end.
Definition seed_ok (n : nat) (c : call) : bool := match c with CDiff s => length s =? n | _ => true end.
Definition is_run (c : call) : bool := match c with CEval | CDiff _ => true | _ => false end.

(** Cells of variables that a constructor reads: UniformAdjLogPDFNode with a
    constant x compares x with a vector max (min) once, in the constructor
    (uniform.hpp:297-312 and 390-405). *)
Definition varcells {A} (e : expr T A) : list nat := match e with EVar sh o => seq o (size sh) | _ => [] end.
Fixpoint crefs {A} (e : expr T A) : list nat :=
  match e with
  | EVar _ _ | ECvw _ _ | ECst _ _ => []
  | EComp k _ es =>
      match k, es with
      | KStat UniVSV, [x; _; y] | KStat UniVVS, [x; y; _] => if is_const x then varcells y else []
      | _, _ => []
      end ++ flat_map crefs es
  | EFor _ _ es => flat_map crefs es
  | EEq _ _ _ y | EOpEq _ _ _ _ y => crefs y
  | EGlue _ a b => crefs a ++ crefs b
  | EIf _ a b c => crefs a ++ crefs b ++ crefs c
  end.
End Calls.
Arguments call : clear implicits.
