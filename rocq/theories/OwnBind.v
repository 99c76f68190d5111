(** Copying, moving and destroying the object returned by ad::bind
    (include/fastad_bits/reverse/core/bind.hpp:18-41).  ExprBind declares no
    copy or move operations, so the implicit member-wise ones apply. *)
From Verif Require Import Base Num Expr Node Stat Machine Session.

Section OwnBind.
Context {N : num}.
Notation T := (carrier N).
Notation E := (expr T (ann N)).

(** bind.hpp:38-40: the expression object and the blocks owned by the two
    cache vectors ([None]: an empty Eigen vector). *)
Record ebind := EB { eb_e : E; eb_v : option nat; eb_a : option nat }.

(** ExprBind(const expr_t&), bind.hpp:24-33 *)
Definition eb_bind (bv ba : nat) (uv ua : nat -> T) (u : expr T unit) (m : mem T) : res (ebind * mem T) :=
  '(e, m') <- bound bv ba uv ua u m ;; Ok (EB e (Some bv) (Some ba), m').

Definition clone (from : option nat) (to : nat) (m : mem T) : mem T :=
  fun b o => if b =? to then match from with Some f => m f o | None => None end else m b o.
Definition drop (b : option nat) (m : mem T) : mem T :=
  match b with Some f => fun b' o => if b' =? f then None else m b' o | None => m end.

(** Implicit copy constructor: [expr_] is copied node by node, so its nodes
    keep their pointers; the two vectors get new blocks [nv],[na] with the same
    contents; nothing calls bind_cache again. *)
Definition eb_copy (nv na : nat) (x : ebind) (m : mem T) : ebind * mem T :=
  (EB (eb_e x) (Some nv) (Some na), clone (eb_a x) na (clone (eb_v x) nv m)).
(** Implicit move constructor: the nodes are copied, the vectors hand over their blocks. *)
Definition eb_move (x : ebind) : ebind * ebind := (x, EB (eb_e x) None None).
(** End of lifetime: the two vectors free their blocks. *)
Definition eb_del (x : ebind) (m : mem T) : mem T := drop (eb_a x) (drop (eb_v x) m).

(** Client code using an original and its copy in any order; [true]: the copy. *)
Definition pstep (w : bool) (o : op N) (c : ebind * ebind * mem T) : res (ebind * ebind * mem T) :=
  let '(x, y, m) := c in
  let z := if w then y else x in
  '(e', m') <- step o (eb_e z, m) ;;
  let z' := EB e' (eb_v z) (eb_a z) in
  Ok (if w then (x, z', m') else (z', y, m')).
Fixpoint prun (l : list (bool * op N)) (c : ebind * ebind * mem T) : res (ebind * ebind * mem T) :=
  match l with [] => Ok c | (w, o) :: t => c1 <- pstep w o c ;; prun t c1 end.
End OwnBind.
Arguments ebind : clear implicits.
