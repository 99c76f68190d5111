(** Forward evaluation with the node's own storage used as C++ uses it: sums and
    products over ranges accumulate in the node's view, transposition asserts
    that it does not read the view it writes.  Everything else, the backward pass
    included, is that of Machine.v, where the value of a node is computed first
    and then stored.  (The view of the right side of w = e is w itself,
    eq.hpp:131-133, so an operand of e can read what is being accumulated.) *)
From Verif Require Import Base Num Expr Node Stat Machine Wf Session Tape.

(** The target of = does not occur in its right side. *)
Fixpoint noself {T A} (e : expr T A) : bool :=
  match e with
  | EVar _ _ | ECst _ _ | ECvw _ _ => true
  | EComp _ _ es | EFor _ _ es => forallb noself es
  | EEq _ sh o y => noself y && dj (cells sh o) (refs y)
  | EOpEq _ _ _ _ y => noself y
  | EGlue _ l r => noself l && noself r
  | EIf _ c t f => noself c && noself t && noself f
  end.

Section InPlace.
Context {N : num}.
Notation T := (carrier N).
Notation E := (expr T (ann N)).

(** sum.hpp:59, prod.hpp:57: zero() and ones() *)
Definition acc0 (k : kd) : T := match k with KProdI _ => n1 N | _ => n0 N end.
(** sum.hpp:61, prod.hpp:59 *)
Definition acc1 (k : kd) : T -> T -> T := match k with KProdI _ => nmul N | _ => nadd N end.
(** Eigen's run-time check for dst = src.transpose() (transpose.hpp:38): the two
    do not start at the same address, unless there is at most one row or column. *)
Definition ptr_eqb (p q : ptr) : bool :=
  match p, q with
  | Null, Null => true
  | Ptr b o, Ptr b' o' => (b =? b') && (o =? o')
  | _, _ => false
  end.
Definition unaliased (k : kd) (s : shape) (p : ptr) (rs : list (vref N)) : bool :=
  match k, rs with
  | KTrans, [RMem q _] => (rows s <=? 1) || (cols s <=? 1) || negb (ptr_eqb q p)
  | _, _ => true
  end.

Fixpoint feval_ip (e : E) (m : mem T) {struct e} : res (E * mem T * vref N) :=
  match e with
  | EVar _ _ | ECst _ _ | ECvw _ _ => Ok (e, m, getref e)
  | EComp k an es =>
      let n := size (shape_of e) in
      if kseq k then                                       (* sum.hpp:57-64, prod.hpp:55-62 *)
        _ <- guard (kshape_ok k (map shape_of es)) ;;
        m0 <- store m (av an) (repeat (acc0 k) n) ;;
        '(es', m1) <-
          (fix go es m := match es with
                          | [] => Ok ([], m)
                          | x :: t => '(x', m1, r) <- feval_ip x m ;;
                                      v <- rdref m1 r ;;
                                      cur <- load m1 (av an) n ;;
                                      new <- chk n (map2 (acc1 k) cur v) ;;
                                      m2 <- store m1 (av an) new ;;
                                      '(t', m3) <- go t m2 ;;
                                      Ok (x' :: t', m3)
                          end) es m0 ;;
        Ok (EComp k an es', m1, RMem (av an) n)
      else
        '(es', m1, rs, im) <-
          (fix go es m := match es with
                          | [] => Ok ([], m, [], [])
                          | x :: t => '(x', m1, r) <- feval_ip x m ;;
                                      v <- rdref m1 r ;;
                                      '(t', m2, rs, im) <- go t m1 ;;
                                      Ok (x' :: t', m2, r :: rs, v :: im)
                          end) es m ;;
        vs <- opvals k m1 es' rs im ;;
        _ <- guard (kshape_ok k (map shape_of es)) ;;
        _ <- guard (unaliased k (shape_of e) (av an) rs) ;;
        '(s', val) <- kfwd k (map is_const es) (map shape_of es) (st an) vs ;;
        val <- chk n val ;;
        m2 <- store m1 (av an) val ;;
        Ok (EComp k (set_st an s') es', m2, RMem (av an) n)
  | EEq an sh o x =>                                                 (* eq.hpp:89-92 *)
      '(x', m1, r) <- feval_ip x m ;;
      v <- rdref m1 r ;;
      v <- chk (size sh) v ;;
      m2 <- store m1 (Ptr 0 o) v ;;
      m3 <- store m2 (av an) v ;;
      Ok (EEq an sh o x', m3, RMem (av an) (size sh))
  | EOpEq q an sh o x =>                                             (* eq.hpp:240-247 *)
      old <- load m (Ptr 0 o) (size sh) ;;
      m0 <- store m (xv an) old ;;
      '(x', m1, r) <- feval_ip x m0 ;;
      cur <- load m1 (Ptr 0 o) (size sh) ;;
      y <- rdref m1 r ;;
      v <- chk (size sh) (oe_fwd N q (shape_of x) cur y) ;;
      m2 <- store m1 (Ptr 0 o) v ;;
      m3 <- store m2 (av an) v ;;
      Ok (EOpEq q an sh o x', m3, RMem (av an) (size sh))
  | EGlue an l r =>                                                  (* glue.hpp:67-71 *)
      '(l', m1, _) <- feval_ip l m ;;
      '(r', m2, rr) <- feval_ip r m1 ;;
      v <- rdref m2 rr ;;
      m3 <- store m2 (av an) v ;;
      Ok (EGlue an l' r', m3, RMem (av an) (size (shape_of e)))
  | EFor an s es =>                                                  (* for_each.hpp:55-62 *)
      '(es', m1) <-
        (fix go es m := match es with
                        | [] => Ok ([], m)
                        | x :: t => '(x', m1, _) <- feval_ip x m ;;
                                    '(t', m2) <- go t m1 ;;
                                    Ok (x' :: t', m2)
                        end) es m ;;
      match rev es' with
      | [] => Ok (EFor an s es', m1, RMem (av an) (size (shape_of e)))
      | x :: _ =>
          _ <- guard (shape_eqb (shape_of x) (shape_of e)) ;;
          v <- rdref m1 (getref x) ;;
          m2 <- store m1 (av an) v ;;
          Ok (EFor an s es', m2, RMem (av an) (size (shape_of e)))
      end
  | EIf an c t f =>                                                  (* if_else.hpp:78-82 *)
      '(c', m1, rc) <- feval_ip c m ;;
      b <- rdref m1 rc ;;
      if ntrue N (hd0 N b) then
        '(t', m2, r) <- feval_ip t m1 ;; Ok (EIf an c' t' f, m2, r)
      else
        '(f', m2, r) <- feval_ip f m1 ;; Ok (EIf an c' t f', m2, r)
  end.

(** eval.hpp:18-34, 82-153 *)
Definition evaluate_ip (e : E) (m : mem T) : res (E * mem T * list T) :=
  '(e', m', r) <- feval_ip e m ;; v <- rdref m' r ;; Ok (e', m', v).
Definition autodiff_ip (e : E) (seed : list T) (m : mem T) : res (E * mem T * list T) :=
  '(e', m1, v) <- evaluate_ip e m ;; m2 <- beval e' seed m1 ;; Ok (e', m2, v).
Definition step_ip (o : op N) (c : E * mem T) : res (E * mem T) :=
  let '(e, m) := c in
  match o with
  | OpEval => '(e', m', _) <- evaluate_ip e m ;; Ok (e', m')
  | OpDiff seed => '(e', m', _) <- autodiff_ip e seed m ;; Ok (e', m')
  | OpUser f => Ok (e, f m)
  end.
Fixpoint run_ip (ops : list (op N)) (c : E * mem T) : res (E * mem T) :=
  match ops with [] => Ok c | o :: l => c1 <- step_ip o c ;; run_ip l c1 end.
End InPlace.
