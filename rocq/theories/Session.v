(** Uses of a bound expression by client code: any sequence of evaluate and
    autodiff calls, interleaved with arbitrary client writes that free nothing. *)
From Verif Require Import Base Num Expr Node Stat Machine Wf.

Section Session.
Context {N : num}.
Notation T := (carrier N).
Notation E := (expr T (ann N)).
Notation U := (expr T unit).

Inductive op :=
| OpEval                          (* ad::evaluate, eval.hpp:18-34 *)
| OpDiff (seed : list T)          (* ad::autodiff, eval.hpp:82-153 *)
| OpUser (f : mem T -> mem T).    (* client code *)

Definition step (o : op) (c : E * mem T) : res (E * mem T) :=
  let '(e, m) := c in
  match o with
  | OpEval => '(e', m', _) <- evaluate e m ;; Ok (e', m')
  | OpDiff seed => '(e', m', _) <- autodiff e seed m ;; Ok (e', m')
  | OpUser f => Ok (e, f m)
  end.
Fixpoint run (ops : list op) (c : E * mem T) : res (E * mem T) :=
  match ops with [] => Ok c | o :: l => c1 <- step o c ;; run l c1 end.

(** [n] calls of evaluate in a row, with the values returned. *)
Fixpoint evals (n : nat) (e : E) (m : mem T) : res (E * mem T * list (list T)) :=
  match n with
  | 0 => Ok (e, m, [])
  | S k => '(e1, m1, v) <- evaluate e m ;; '(e2, m2, l) <- evals k e1 m1 ;; Ok (e2, m2, v :: l)
  end.

(** One call of autodiff per seed, with the values returned. *)
Fixpoint adiffs (seeds : list (list T)) (e : E) (m : mem T) : res (E * mem T * list (list T)) :=
  match seeds with
  | [] => Ok (e, m, [])
  | s :: l => '(e1, m1, v) <- autodiff e s m ;; '(e2, m2, vs) <- adiffs l e1 m1 ;; Ok (e2, m2, v :: vs)
  end.

(** Client code may write anywhere but deallocates nothing. *)
Definition keeps (f : mem T -> mem T) : Prop :=
  forall m b o, m b o <> None -> f m b o <> None.
(** The seed has the size of the result (static_assert / Eigen assert of
    var_view.hpp:91-94 and of the nodes' adjoint assignment). *)
Definition op_ok (n : nat) (o : op) : Prop :=
  match o with OpEval => True | OpDiff seed => length seed = n | OpUser f => keeps f end.

(** The storage of the variables and of the constant views is live. *)
Definition avail (e : U) (m : mem T) : Prop :=
  (forall o, In o (refs e) -> m 0 o <> None /\ m 1 o <> None) /\
  (forall o, In o (drefs e) -> m 4 o <> None).
(** Cache blocks are not variable, adjoint or constant storage and differ. *)
Definition fresh (bv ba : nat) : Prop :=
  (bv <> 0 /\ bv <> 1 /\ bv <> 4) /\ (ba <> 0 /\ ba <> 1 /\ ba <> 4 /\ ba <> bv).

(** Constructors that look at an operand: UniformAdjLogPDFNode with a constant x
    and vector max (min) reads max (min) through get() (uniform.hpp:297-312,
    390-405), so that operand must be a variable or constant, whose storage
    exists already.  NormalAdjLogPDFNode for a vector with scalar mean and sigma
    takes the mean of a constant x (normal.hpp:220), which asserts that x is not
    empty. *)
Definition leaf {A} (e : expr T A) : bool :=
  match e with EVar _ _ | ECst _ _ | ECvw _ _ => true | _ => false end.
Fixpoint ctor_ok (e : U) : bool :=
  match e with
  | EVar _ _ | ECst _ _ | ECvw _ _ => true
  | EComp k _ es =>
      forallb ctor_ok es &&
      match k, es with
      | KStat UniVSV, [x; _; y] | KStat UniVVS, [x; y; _] => negb (is_const x) || leaf y
      | KStat NormVSS, x :: _ => negb (is_const x) || negb (rows (shape_of x) =? 0)
      | _, _ => true
      end
  | EEq _ _ _ y | EOpEq _ _ _ _ y => ctor_ok y
  | EGlue _ l r => ctor_ok l && ctor_ok r
  | EFor _ _ es => forallb ctor_ok es
  | EIf _ c t f => ctor_ok c && ctor_ok t && ctor_ok f
  end.

(** The value and adjoint buffers of the nodes of a bound expression, in
    traversal order; glue, for_each and = have none of their own (they alias). *)
Fixpoint vviews (e : E) : list (ptr * nat) :=
  match e with
  | EVar _ _ | ECst _ _ | ECvw _ _ => []
  | EComp _ a es => flat_map vviews es ++ [(av a, size (shape_of e))]
  | EEq _ _ _ y => vviews y
  | EOpEq _ a sh _ y => vviews y ++ [(xv a, size sh)]
  | EGlue _ l r => vviews l ++ vviews r
  | EFor _ _ es => flat_map vviews es
  | EIf _ c t f => vviews c ++ vviews t ++ vviews f
  end.
Fixpoint aviews (e : E) : list (ptr * nat) :=
  match e with
  | EVar _ _ | ECst _ _ | ECvw _ _ => []
  | EComp k a es =>
      flat_map aviews es ++
      (if kaux k then [(xa a, size (nth_sh (map shape_of es) 0))] else []) ++
      (if kadj k then [(aa a, size (shape_of e))] else [])
  | EEq _ _ _ y => aviews y
  | EOpEq _ a sh _ y => aviews y ++ [(xa a, size sh)]
  | EGlue _ l r => aviews l ++ aviews r
  | EFor _ _ es => flat_map aviews es
  | EIf _ c t f => aviews c ++ aviews t ++ aviews f
  end.
(** The cells of block [b] that a list of views covers, with multiplicity. *)
Definition cover (b : nat) (l : list (ptr * nat)) : list nat :=
  flat_map (fun '(p, n) => match p with
                           | Null => []
                           | Ptr b' o => if b' =? b then seq o n else []
                           end) l.

(** auto expr = ad::bind(e) *)
Definition bound (bv ba : nat) (uv ua : nat -> T) (e : U) (m : mem T) : res (E * mem T) :=
  e0 <- mk e m ;; Ok (ad_bind bv ba uv ua e0 m).
End Session.
Arguments op : clear implicits.
