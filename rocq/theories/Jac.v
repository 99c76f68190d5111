(** The Jacobian of a vector- or matrix-valued expression, as a client computes it
    with reverse mode: one autodiff per output, seeded with a unit vector, all
    adjoints reset before each (value_adj_view.hpp:58: reset_adj; eval.hpp:115-133: seeds of
    multi-dimensional expressions are arrays).

      for (k = 0; k < n; ++k) {
          x.reset_adj(); ...                       // every variable of the expression
          ad::autodiff(expr, unit(k));
          J.row(k) = x.get_adj();
      } *)
From Coq Require Import Reals.
From Verif Require Import Base Num Expr Node Stat Machine Wf Session XR Spec RSess Train.
Open Scope R_scope.

Section Jac.
Variable la : linalg xr.
Notation N := (XR la).
Notation E := (expr N (ann N)).
Notation U := (expr N unit).

Definition unit_seed (n k : nat) : list R := map (fun i => if (i =? k)%nat then 1 else 0) (seq 0 n).
(** [x.get_adj()]: the adjoint cells [os]. *)
Fixpoint reads (m : mem N) (os : list nat) : res (list N) :=
  match os with
  | [] => Ok []
  | o :: l => x <- rd1 m 1 o ;; xs <- reads m l ;; Ok (x :: xs)
  end.
Fixpoint jac (u : U) (os ks : list nat) (e : E) (m : mem N) : res (E * mem N * list (list N)) :=
  match ks with
  | [] => Ok (e, m, [])
  | k :: l =>
      '(e1, m1, _) <- autodiff e (map Fin (unit_seed (size (shape_of u)) k)) (zero_adj (refs u) m) ;;
      row <- reads m1 os ;;
      '(e2, m2, rows) <- jac u os l e1 m1 ;;
      Ok (e2, m2, row :: rows)
  end.

(** The same with one evaluate and a backward pass per output (eval.hpp:43-58:
    evaluate_adj):

      ad::evaluate(expr);
      for (k = 0; k < n; ++k) {
          x.reset_adj(); ...                       // every variable of the expression
          ad::evaluate_adj(expr, unit(k));
          J.row(k) = x.get_adj();
      } *)
Fixpoint jac_rows (u : U) (os ks : list nat) (e : E) (m : mem N) : res (mem N * list (list N)) :=
  match ks with
  | [] => Ok (m, [])
  | k :: l =>
      m1 <- beval e (map Fin (unit_seed (size (shape_of u)) k)) (zero_adj (refs u) m) ;;
      row <- reads m1 os ;;
      '(m2, rows) <- jac_rows u os l e m1 ;;
      Ok (m2, row :: rows)
  end.
Definition jac_once (u : U) (os ks : list nat) (e : E) (m : mem N) : res (E * mem N * list N * list (list N)) :=
  '(e1, m1, v) <- evaluate e m ;;
  '(m2, rows) <- jac_rows u os ks e1 m1 ;;
  Ok (e1, m2, v, rows).
End Jac.
