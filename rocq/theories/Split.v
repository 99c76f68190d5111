(** A program cut in two at a placeholder.

    Instead of binding the glued expression (w = y, f) (README.md:408-434), a
    client binds y and f separately and applies the chain rule itself:

      w.get() = ad::evaluate(ey);             // value_view.hpp:26-38, eval.hpp:24-34
      auto v = ad::autodiff(ef, seed);        // eval.hpp:115-133
      ad::autodiff(ey, w.get_adj().array());

    Values and adjoints of variables live in blocks 0 and 1 (Machine.v). *)
From Verif Require Import Base Num Expr Node Stat Machine.

Section Split.
Context (N : num).
Notation T := (carrier N).
Notation E := (expr T (ann N)).

(** [w.get() = x] writes the value cells of w, [w.get_adj()] reads its adjoint
    cells; evaluate and autodiff are those of eval.hpp (Machine.v).  Any number of
    stages: (w1 = y1, (w2 = y2, ... f)), given as (w, size of w, bound y). *)
Fixpoint stages (l : list (nat * nat * E)) (ef : E) (seed : list T) (m : mem T) : res (list E * E * mem T * list T) :=
  match l with
  | [] => '(ef1, m1, v) <- autodiff ef seed m ;; Ok ([], ef1, m1, v)
  | (w, n, ey) :: l' =>
      '(ey1, m1, x) <- evaluate ey m ;;
      m2 <- store m1 (Ptr 0 w) x ;;
      '(es, ef1, m3, v) <- stages l' ef seed m2 ;;
      s <- load m3 (Ptr 1 w) n ;;
      '(ey2, m4, _) <- autodiff ey1 s m3 ;;
      Ok (ey2 :: es, ef1, m4, v)
  end.
End Split.
Arguments stages {N}.

(** The expression the stages come from. *)
Definition glued {T} (l : list (nat * shape * expr T unit)) (f : expr T unit) : expr T unit :=
  fold_right (fun '(w, sh, y) g => EGlue tt (EEq tt sh w y) g) f l.
