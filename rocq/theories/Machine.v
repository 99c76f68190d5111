(** The engine: construction, cache sizes and binding, forward and backward
    evaluation, over an explicit memory with undefined behaviour.

    Memory blocks: 0 holds the values of all variables (ad::Var storage or user
    buffers behind VarViews), 1 their adjoints, 4 the buffers behind
    ConstantViews; the caches of an expression live in the blocks it is bound
    to.  Simplifications: the adjoint of variable cell [o] of block 0 is cell
    [o] of block 1 (a VarView pairs two pointers of equal extent,
    var_view.hpp:47-52); pointers are block/index pairs, so two blocks never
    overlap.  C++ static_asserts and constructor asserts on shapes are the
    predicate [kassert]; violating them is [UBshape] at construction.  What the
    Eigen operations of feval need is [kshape_ok]; where it goes beyond
    [kassert], the violation is [UBshape] at evaluation (an Eigen assertion, or
    out-of-bounds reads when asserts are off).  Simplification: a log-density
    constructor that combines constant operands of different sizes is also
    reported only at evaluation. *)
From Verif Require Import Base Num Expr Node Stat.

Section Machine.
Context (N : num).
Notation T := (carrier N).
Notation "0!" := (n0 N).

(** ** Node objects *)

(** [av],[aa]: the node's own ValueAdjView (value_adj_view.hpp); [xv],[xa]: the
    extra buffer of OpEqNode ([cache_], eq.hpp:300) or of ProdElemNode
    ([adj_cache_], prod.hpp:244, adjoint side only); [st]: see Node.v. *)
Record ann := Ann { av : ptr; aa : ptr; xv : ptr; xa : ptr; st : sst N }.
Definition ann0 : ann := Ann Null Null Null Null (sst0 N).
Definition set_st (a : ann) (s : sst N) : ann := Ann (av a) (aa a) (xv a) (xa a) s.
Definition set_own (a : ann) (p q : ptr) : ann := Ann p q (xv a) (xa a) (st a).
Definition set_aux (a : ann) (p q : ptr) : ann := Ann (av a) (aa a) p q (st a).

Notation E := (expr T ann).

(** ** Per-kind facts *)

(** Does the node own an adjoint cache and set it to the seed
    (single_bind_cache_size second component; the value-only nodes bind a null
    adjoint: sum.hpp:180-199, prod.hpp:219-239, norm.hpp:60-79, det.hpp:65-84,
    pow.hpp:164-191 for exponents 0 and 1, binary.hpp:144-180 for comparisons,
    the stat bases). *)
Definition kadj (k : kd) : bool :=
  match k with
  | KUn _ | KTrans | KDot | KSumI _ | KProdI _ => true
  | KPow z => negb ((z =? 0)%Z || (z =? 1)%Z)
  | KBin b => negb (is_cmp b)
  | KSumE | KProdE | KNorm | KDet _ | KLogDet _ | KStat _ => false
  end.
(** Does the node bind an extra adjoint buffer of the operand's size
    (prod.hpp:219-239)? *)
Definition kaux (k : kd) : bool := match k with KProdE => true | _ => false end.
(** Does beval call get() on the operands (unary.hpp:81-89, pow.hpp:117-119,
    prod.hpp:78-99 and 197-206, norm.hpp:56, binary.hpp:125-128, dot.hpp:100-101,
    the stat beval bodies)? *)
Definition kget (k : kd) : bool :=
  match k with
  | KUn _ | KProdE | KNorm | KDot | KProdI _ | KStat _ => true
  | KPow z => negb ((z =? 0)%Z || (z =? 1)%Z)
  | KBin b => negb (is_cmp b)
  | KTrans | KSumE | KDet _ | KLogDet _ | KSumI _ => false
  end.
(** Does feval look at operand [i] through get() rather than only through the
    reference returned by the operand's feval?  (sigma in normal.hpp:174-176,
    289-291, 375-377, 481-486, 568-574, 658-665, 756-763; scale in
    cauchy.hpp:168-170 and alike; everything in uniform.hpp, bernoulli.hpp and
    wishart.hpp.) *)
Definition kgetf (k : kd) (i : nat) : bool :=
  match k with
  | KStat (UniSSS | UniVSS | UniVSV | UniVVS | UniVVV | BerSS | BerVS | BerVV | Wish) => true
  | KStat _ => i =? 2
  | _ => false
  end.
(** Are the operand values read as each operand is evaluated (sum.hpp:57-64,
    prod.hpp:55-62) rather than after all of them?
    Simplification: these two nodes reset their own view to 0 or 1 first and
    accumulate in it, and transpose (transpose.hpp:36-39) copies entry by entry
    into its view; here the whole value is computed and then stored.  InPlace.v has
    the evaluation in place, and C63 shows that the two agree unless an operand
    reads the placeholder the node itself is assigned to, as in w = sum{w, x}. *)
Definition kseq (k : kd) : bool :=
  match k with KSumI _ | KProdI _ => true | _ => false end.
(** Are the seeds of the remaining operands computed from operand values read
    only when their beval consumes them?  (Eigen expression templates:
    binary.hpp:131-134 when both operands are arrays, a scalar operand being
    copied into the expression; dot.hpp:100-103; prod.hpp:89-100.)
    Simplifications: the node's own adjoint, which the left seed of
    binary.hpp:132 and the seeds of sum.hpp:76-85 refer to, is re-read only
    together with the operand values; it can differ only when an operand changes
    the placeholder the node itself is assigned to.  The seeds of the stat nodes
    are computed from the values before the first operand is visited; that
    differs only when an operand of such a node contains op=.  [disc] of Tape.v
    excludes both. *)
Definition klazy (k : kd) (ss : list shape) : bool :=
  match k with
  | KBin _ => negb (is_scl (nth_sh ss 0)) && negb (is_scl (nth_sh ss 1))
  | KDot | KProdI _ => true
  | _ => false
  end.

(** Shape constraints: what evaluation needs.  The static_asserts and asserts of
    binary.hpp:63-68 and 85-90, dot.hpp:15-33 and 86, norm.hpp:34,
    transpose.hpp:24, det.hpp:50, log_det.hpp:50; equality of the shapes of
    iterated expressions (Eigen size checks of sum.hpp:57-64, prod.hpp:55-62);
    for the stat nodes the kinds of the specialisation headers and the sizes
    their Eigen expressions need. *)
Definition same_shapes (s : sk) (ss : list shape) : bool :=
  match ss with
  | [] => true
  | a :: _ => sk_eqb (kind a) s && forallb (fun b => shape_eqb b a) ss
  end.
Definition is_vecn (n : nat) (s : shape) : bool := shape_eqb s (Sh Vec n 1).
Definition is_sqmat (n : nat) (s : shape) : bool := shape_eqb s (Sh Mat n n).
Definition stat_shape_ok (k : stat) (ss : list shape) : bool :=
  let n := rows (nth_sh ss 0) in
  match k, ss with
  | (NormSSS | CauSSS | UniSSS), [a; b; c] => is_scl a && is_scl b && is_scl c
  | (NormVSS | CauVSS | UniVSS), [a; b; c] => is_vecn n a && is_scl b && is_scl c
  | (NormVVS | CauVVS | UniVVS), [a; b; c] => is_vecn n a && is_vecn n b && is_scl c
  | (NormVSV | CauVSV | UniVSV), [a; b; c] => is_vecn n a && is_scl b && is_vecn n c
  | (NormVVV | CauVVV | UniVVV), [a; b; c] => is_vecn n a && is_vecn n b && is_vecn n c
  | NormVSM, [a; b; c] => is_vecn n a && is_scl b && is_sqmat n c
  | NormVVM, [a; b; c] => is_vecn n a && is_vecn n b && is_sqmat n c
  | BerSS, [a; b] => is_scl a && is_scl b
  | BerVS, [a; b] => is_vecn n a && is_scl b
  | BerVV, [a; b] => is_vecn n a && is_vecn n b
  | Wish, [a; b; c] => is_sqmat n a && is_sqmat n b && is_scl c
  | _, _ => false
  end.
Definition kshape_ok (k : kd) (ss : list shape) : bool :=
  forallb shape_ok ss &&
  match k, ss with
  | KUn _, [_] | KPow _, [_] | KSumE, [_] | KProdE, [_] => true
  | KTrans, [a] | KNorm, [a] => negb (is_scl a)
  | KDet _, [a] | KLogDet _, [a] => sk_eqb (kind a) Mat && (rows a =? cols a)
  | KBin _, [a; b] =>
      (* an empty array against a scalar gets a one-element node: Eigen size mismatch *)
      if is_scl a || is_scl b then negb (size a =? 0) && negb (size b =? 0)
      else shape_eqb a b
  | KDot, [a; b] => sk_eqb (kind a) Mat && negb (is_scl b) && (cols a =? rows b)
  | KSumI s, _ | KProdI s, _ => same_shapes s ss
  | KStat s, _ => stat_shape_ok s ss
  | _, _ => false
  end.

(** What the constructors check.  Only the kinds of the operands (template
    specialisations) are checked for log-densities, except the sizes for the
    multivariate normal (normal.hpp:616-617, 713-715); sum and prod over a range
    check nothing about sizes (sum.hpp:44-49, prod.hpp:42-47), nor does a binary
    node with a scalar operand (binary.hpp:85-90). *)
Definition kinds (ss : list shape) : list sk := map kind ss.
Definition stat_kinds (k : stat) : list sk :=
  match k with
  | NormSSS | CauSSS | UniSSS => [Scl; Scl; Scl]
  | NormVSS | CauVSS | UniVSS => [Vec; Scl; Scl]
  | NormVVS | CauVVS | UniVVS => [Vec; Vec; Scl]
  | NormVSV | CauVSV | UniVSV => [Vec; Scl; Vec]
  | NormVVV | CauVVV | UniVVV => [Vec; Vec; Vec]
  | NormVSM => [Vec; Scl; Mat]
  | NormVVM => [Vec; Vec; Mat]
  | BerSS => [Scl; Scl]
  | BerVS => [Vec; Scl]
  | BerVV => [Vec; Vec]
  | Wish => [Mat; Mat; Scl]
  end.
Fixpoint sks_eqb (a b : list sk) : bool :=
  match a, b with
  | [], [] => true
  | x :: l, y :: r => sk_eqb x y && sks_eqb l r
  | _, _ => false
  end.
Definition kassert (k : kd) (ss : list shape) : bool :=
  match k, ss with
  | KBin _, [a; b] =>
      forallb shape_ok ss && (is_scl a || is_scl b || shape_eqb a b)
  | KSumI s, _ | KProdI s, _ =>
      forallb shape_ok ss && forallb (fun b => sk_eqb (kind b) s) ss
  | KStat (NormVSM | NormVVM), _ => kshape_ok k ss
  | KStat s, _ => forallb shape_ok ss && sks_eqb (kinds ss) (stat_kinds s)
  | _, _ => kshape_ok k ss
  end.

(** ** Local forward value *)
Definition kfwd (k : kd) (cs : list bool) (ss : list shape) (s : sst N)
           (vs : list (list T)) : res (sst N * list T) :=
  let v := arg N vs 0 in
  let sh := nth_sh ss 0 in
  match k with
  | KUn u => Ok (s, map (un_f N u) v)                          (* unary.hpp:63-68 *)
  | KPow z => Ok (s, map (pow_f N sh z) v)                     (* pow.hpp:91-99 *)
  | KTrans => Ok (s, mt N (rows sh) (cols sh) v)               (* transpose.hpp feval *)
  | KSumE => Ok (s, [nsum N v])                                (* sum.hpp:156-164 *)
  | KProdE => Ok (s, [nprod N v])                              (* prod.hpp:172-180 *)
  | KNorm => Ok (s, [sqnorm N v])                              (* norm.hpp:48-52 *)
  | KDet f => Ok (SST (sa s) (sb s) (sc s) (sd s) (fa s) (fb s) v (mb s) (mc s),
                  [det_f N f (rows sh) v])                     (* det.hpp:53-56 *)
  | KLogDet f => Ok (SST (sa s) (sb s) (sc s) (sd s) (fa s) (fb s) v (mb s) (mc s),
                     [logdet_f N f (rows sh) v])               (* log_det.hpp:53-56 *)
  | KBin b => Ok (s, bin_fwd N b sh (nth_sh ss 1) (size (kshape k ss))
                             v (arg N vs 1))                   (* binary.hpp:100-106 *)
  | KDot => Ok (s, mm N (rows sh) (cols sh) (cols (nth_sh ss 1)) v (arg N vs 1))
                                                               (* dot.hpp:89-94 *)
  | KSumI _ => Ok (s, fold_left (map2 (nadd N)) vs (repeat 0! (size (kshape k ss))))
                                                               (* sum.hpp:57-64 *)
  | KProdI _ => Ok (s, fold_left (map2 (nmul N)) vs (repeat (n1 N) (size (kshape k ss))))
                                                               (* prod.hpp:55-62 *)
  | KStat q => '(s', x) <- stat_fwd N q cs ss s vs ;; Ok (s', [x])
  end.

(** ** Local seeds.  [ad] is the node's adjoint (its seed), [f] its value. *)
Definition anyzero (l : list T) : bool := existsb (fun x => neqb N x 0!) l.
(** value the node writes into its own cache before visiting operand [i]:
    prod.hpp:91-94 *)
Definition kpre (k : kd) (i : nat) (vs : list (list T)) (f : list T) : option (list T) :=
  match k with
  | KProdI _ =>
      if anyzero (nth i vs []) then
        Some (fold_left (map2 (nmul N)) (firstn i vs ++ skipn (S i) vs)
                        (repeat (n1 N) (length f)))
      else None
  | _ => None
  end.
Definition kseed (k : kd) (cs : list bool) (ss : list shape) (s : sst N)
           (ad : list T) (vs : list (list T)) (f : list T) (i : nat)
  : option (list T) :=
  let v := arg N vs 0 in
  let w := arg N vs 1 in
  let sh := nth_sh ss 0 in
  let sd := hd0 N ad in
  match k with
  | KUn u => Some (map3 (un_b N u) ad v f)                     (* unary.hpp:81-89 *)
  | KPow z =>                                                  (* pow.hpp:101-162 *)
      if (z =? 0)%Z then Some (repeat 0! (size sh))
      else if (z =? 1)%Z then Some ad
      else Some (map3 (pow_b N z) ad v f)
  | KTrans => Some (mt N (cols sh) (rows sh) ad)               (* transpose.hpp beval *)
  | KSumE => Some (repeat sd (size sh))                        (* sum.hpp:170-173 *)
  | KProdE => Some (prodE_b N sd (hd0 N f) v)                  (* prod.hpp:188-212 *)
  | KNorm => Some (map (fun x => nmul N (nmul N sd (n2 N)) x) v)  (* norm.hpp:54-58 *)
  | KDet q =>                                                  (* det.hpp:58-63 *)
      if neqb N sd 0! || negb (det_valid N q (rows sh) (ma s)) then None
      else Some (map (nmul N (nmul N sd (hd0 N f))) (det_bmap N q (rows sh) (ma s)))
  | KLogDet q =>                                               (* log_det.hpp:58-63 *)
      if neqb N sd 0! || negb (logdet_valid N q (rows sh) (ma s)) then None
      else Some (map (nmul N sd) (det_bmap N q (rows sh) (ma s)))
  | KBin b =>                                                  (* binary.hpp:120-136 *)
      if is_cmp b then None else
      match i with
      | 0 => Some (bin_bl N b sh (nth_sh ss 1) ad v w f)
      | _ => Some (bin_br N b sh (nth_sh ss 1) ad v w f)
      end
  | KDot =>                                                    (* dot.hpp:96-104 *)
      let r := rows sh in let c := cols sh in let p := cols (nth_sh ss 1) in
      match i with
      | 0 => Some (mm N r p c ad (mt N c p w))
      | _ => Some (mm N c r p (mt N r c v) ad)
      end
  | KSumI _ => Some ad                                         (* sum.hpp:75-85 *)
  | KProdI _ =>                                                (* prod.hpp:67-104 *)
      let x := nth i vs [] in
      if anyzero x then Some (map2 (nmul N) ad f)
      else Some (map3 (fun a p q => ndiv N (nmul N a p) q) ad f x)
  | KStat q => stat_bwd N q cs ss s sd vs i
  end.

(** ** Views *)

(** What feval returns: a reference to cells, or to the constant's own storage
    (constant.hpp:100). *)
Inductive vref := RMem (p : ptr) (n : nat) | RCst (l : list T).
Definition rdref (m : mem T) (r : vref) : res (list T) :=
  match r with RMem p n => load m p n | RCst l => Ok l end.

Definition own (e : E) : ann :=
  match e with
  | EComp _ a _ | EEq a _ _ _ | EOpEq _ a _ _ _ | EGlue a _ _ | EFor a _ _ | EIf a _ _ _ => a
  | _ => ann0
  end.
(** get() of a node: value_view.hpp:26-38, 118-119, 152-153; constant.hpp:71, 114 *)
Definition getref (e : E) : vref :=
  match e with
  | EVar sh o => RMem (Ptr 0 o) (size sh)
  | ECst _ c => RCst c
  | ECvw sh o => RMem (Ptr 4 o) (size sh)
  | _ => RMem (av (own e)) (size (shape_of e))
  end.
(** data() / data_adj() of a node: value_adj_view.hpp, value_view.hpp:64-65.
    Constants have no data_adj(); binding a GlueNode to one does not compile. *)
Definition dptr (e : E) : ptr * ptr :=
  match e with
  | EVar _ o => (Ptr 0 o, Ptr 1 o)
  | ECst _ _ | ECvw _ _ => (Null, Null)
  | _ => (av (own e), aa (own e))
  end.
(** Rebinding of the root's own view, eq.hpp:131-133 (a no-op on constants,
    constant.hpp:62-63, 105-106; VarView right-hand sides are rejected by the
    static_assert of eq.hpp:50). *)
Definition setroot (e : E) (p q : ptr) : E :=
  match e with
  | EComp k a es => EComp k (set_own a p q) es
  | EEq a sh o x => EEq (set_own a p q) sh o x
  | EOpEq k a sh o x => EOpEq k (set_own a p q) sh o x
  | EGlue a l r => EGlue (set_own a p q) l r
  | EFor a s es => EFor (set_own a p q) s es
  | EIf a c t f => EIf (set_own a p q) c t f
  | _ => e
  end.

(** ** Sizes: single_bind_cache_size and bind_cache_size of every node class
    (unary.hpp:107-116, binary.hpp:166-180, eq.hpp:147-154 and 288-297,
    glue.hpp:109-116, for_each.hpp:98-107, if_else.hpp:101-109, sum.hpp, prod.hpp:119-131
    and 230-239, pow.hpp:178-191, norm.hpp:70-79, dot.hpp:113-123, det.hpp:75-84,
    var_view.hpp:100-102, constant.hpp:68-69, 111-112; stat bases). *)
Definition single (e : E) : nat * nat :=
  match e with
  | EComp k _ es =>
      let n := size (shape_of e) in
      (n, if kaux k then size (nth_sh (map shape_of es) 0)
          else if kadj k then n else 0)
  | EOpEq _ _ sh _ _ => (size sh, size sh)
  | _ => (0, 0)
  end.
Definition padd2 (p q : nat * nat) : nat * nat := (fst p + fst q, snd p + snd q).
Definition psub2 (p q : nat * nat) : nat * nat := (fst p - fst q, snd p - snd q).
Fixpoint csize (e : E) : nat * nat :=
  match e with
  | EVar _ _ | ECst _ _ | ECvw _ _ => (0, 0)
  | EComp _ _ es => padd2 (single e) (fold_right padd2 (0, 0) (map csize es))
  | EEq _ _ _ x => psub2 (csize x) (single x)
  | EOpEq _ _ _ _ x => padd2 (single e) (csize x)
  | EGlue _ l r => padd2 (csize l) (csize r)
  | EFor _ _ es => fold_right padd2 (0, 0) (map csize es)
  | EIf _ c t f => padd2 (csize c) (padd2 (csize t) (csize f))
  end.

(** ** bind_cache.  [bv],[ba] are the blocks of the value and adjoint caches,
    the two numbers the next free cells. *)
Section Bind.
Variables bv ba : nat.
Fixpoint bindc (e : E) (v a : nat) {struct e} : E * nat * nat :=
  match e with
  | EVar _ _ | ECst _ _ | ECvw _ _ => (e, v, a)  (* var_view.hpp:100, constant.hpp:66, 109 *)
  | EComp k an es =>
      (* operands left to right, then itself: unary.hpp:95-99, binary.hpp:144-157,
         dot.hpp:106-111, sum.hpp, prod.hpp:111-117, 219-228, pow.hpp:164-176 *)
      let '(es', v1, a1) :=
        (fix go es v a := match es with
                          | [] => ([], v, a)
                          | x :: t => let '(x', v1, a1) := bindc x v a in
                                      let '(t', v2, a2) := go t v1 a1 in
                                      (x' :: t', v2, a2)
                          end) es v a in
      let n := size (kshape k (map shape_of es)) in
      let '(an1, a2) := if kaux k
                        then (set_aux an (xv an) (Ptr ba a1), a1 + size (nth_sh (map shape_of es) 0))
                        else (an, a1) in
      if kadj k then (EComp k (set_own an1 (Ptr bv v1) (Ptr ba a2)) es', v1 + n, a2 + n)
      else (EComp k (set_own an1 (Ptr bv v1) Null) es', v1 + n, a2)
  | EEq an sh o x =>                                                 (* eq.hpp:119-136 *)
      let '(x', v1, a1) := bindc x v a in
      (EEq (set_own an (Ptr 0 o) (Ptr 1 o)) sh o (setroot x' (Ptr 0 o) (Ptr 1 o)),
       v1 - fst (single x), a1 - snd (single x))
  | EOpEq q an sh o x =>                                             (* eq.hpp:280-286 *)
      let '(x', v1, a1) := bindc x v a in
      (EOpEq q (set_aux (set_own an (Ptr 0 o) (Ptr 1 o)) (Ptr bv v1) (Ptr ba a1)) sh o x',
       v1 + size sh, a1 + size sh)
  | EGlue an l r =>                                                  (* glue.hpp:94-100 *)
      let '(l', v1, a1) := bindc l v a in
      let '(r', v2, a2) := bindc r v1 a1 in
      (EGlue (set_own an (fst (dptr r')) (snd (dptr r'))) l' r', v2, a2)
  | EFor an s es =>                                                  (* for_each.hpp:88-96 *)
      let '(es', v1, a1) :=
        (fix go es v a := match es with
                          | [] => ([], v, a)
                          | x :: t => let '(x', v1, a1) := bindc x v a in
                                      let '(t', v2, a2) := go t v1 a1 in
                                      (x' :: t', v2, a2)
                          end) es v a in
      match rev es' with
      | [] => (EFor an s es', v1, a1)
      | x :: _ => (EFor (set_own an (fst (dptr x)) (snd (dptr x))) s es', v1, a1)
      end
  | EIf an c t f =>                                                  (* if_else.hpp:94-99 *)
      let '(c', v1, a1) := bindc c v a in
      let '(t', v2, a2) := bindc t v1 a1 in
      let '(f', v3, a3) := bindc f v2 a2 in
      (EIf an c' t' f', v3, a3)
  end.
End Bind.

(** ** Forward evaluation *)

Definition guard (b : bool) : res unit := if b then Ok tt else Err UBshape.
Definition chk (n : nat) (l : list T) : res (list T) :=
  if length l =? n then Ok l else Err UBshape.

Fixpoint mapR {A B} (f : A -> res B) (l : list A) : res (list B) :=
  match l with
  | [] => Ok []
  | x :: t => y <- f x ;; ys <- mapR f t ;; Ok (y :: ys)
  end.

(** Operand values a compute node uses in feval. *)
Definition opvals (k : kd) (m : mem T) (es : list E) (rs : list vref)
           (im : list (list T)) : res (list (list T)) :=
  if kseq k then Ok im else
  mapR (fun p => rdref m p)
       (map (fun '(i, (e, r)) => if kgetf k i then getref e else r)
            (combine (seq 0 (length es)) (combine es rs))).

Fixpoint feval (e : E) (m : mem T) {struct e} : res (E * mem T * vref) :=
  match e with
  | EVar _ _ | ECst _ _ | ECvw _ _ => Ok (e, m, getref e)  (* var_view.hpp:69, constant.hpp:50, 100 *)
  | EComp k an es =>
      '(es', m1, rs, im) <-
        (fix go es m := match es with
                        | [] => Ok ([], m, [], [])
                        | x :: t => '(x', m1, r) <- feval x m ;;
                                    v <- rdref m1 r ;;
                                    '(t', m2, rs, im) <- go t m1 ;;
                                    Ok (x' :: t', m2, r :: rs, v :: im)
                        end) es m ;;
      vs <- opvals k m1 es' rs im ;;
      _ <- guard (kshape_ok k (map shape_of es)) ;;
      '(s', val) <- kfwd k (map is_const es) (map shape_of es) (st an) vs ;;
      val <- chk (size (shape_of e)) val ;;
      m2 <- store m1 (av an) val ;;
      Ok (EComp k (set_st an s') es', m2, RMem (av an) (size (shape_of e)))
  | EEq an sh o x =>                                                 (* eq.hpp:89-92 *)
      '(x', m1, r) <- feval x m ;;
      v <- rdref m1 r ;;
      v <- chk (size sh) v ;;
      m2 <- store m1 (Ptr 0 o) v ;;
      m3 <- store m2 (av an) v ;;
      Ok (EEq an sh o x', m3, RMem (av an) (size sh))
  | EOpEq q an sh o x =>                                             (* eq.hpp:240-247 *)
      old <- load m (Ptr 0 o) (size sh) ;;
      m0 <- store m (xv an) old ;;
      '(x', m1, r) <- feval x m0 ;;
      cur <- load m1 (Ptr 0 o) (size sh) ;;
      y <- rdref m1 r ;;
      v <- chk (size sh) (oe_fwd N q (shape_of x) cur y) ;;
      m2 <- store m1 (Ptr 0 o) v ;;
      m3 <- store m2 (av an) v ;;
      Ok (EOpEq q an sh o x', m3, RMem (av an) (size sh))
  | EGlue an l r =>                                                  (* glue.hpp:67-71 *)
      '(l', m1, _) <- feval l m ;;
      '(r', m2, rr) <- feval r m1 ;;
      v <- rdref m2 rr ;;
      m3 <- store m2 (av an) v ;;
      Ok (EGlue an l' r', m3, RMem (av an) (size (shape_of e)))
  | EFor an s es =>                                                  (* for_each.hpp:55-62 *)
      '(es', m1) <-
        (fix go es m := match es with
                        | [] => Ok ([], m)
                        | x :: t => '(x', m1, _) <- feval x m ;;
                                    '(t', m2) <- go t m1 ;;
                                    Ok (x' :: t', m2)
                        end) es m ;;
      match rev es' with
      | [] => Ok (EFor an s es', m1, RMem (av an) (size (shape_of e)))
      | x :: _ =>
          (* the node has the shape of the first statement, for_each.hpp:39-44 *)
          _ <- guard (shape_eqb (shape_of x) (shape_of e)) ;;
          v <- rdref m1 (getref x) ;;
          m2 <- store m1 (av an) v ;;
          Ok (EFor an s es', m2, RMem (av an) (size (shape_of e)))
      end
  | EIf an c t f =>                                                  (* if_else.hpp:78-82 *)
      '(c', m1, rc) <- feval c m ;;
      b <- rdref m1 rc ;;
      if ntrue N (hd0 N b) then
        '(t', m2, r) <- feval t m1 ;; Ok (EIf an c' t' f, m2, r)
      else
        '(f', m2, r) <- feval f m1 ;; Ok (EIf an c' t f', m2, r)
  end.

(** ** Backward evaluation *)

(** Everything the seeds of a compute node depend on. *)
Definition pack (k : kd) (an : ann) (es : list E) (n : nat) (seed : list T) (m : mem T)
  : res (list (list T) * list T * list T) :=
  vs <- (if kget k then mapR (fun e => rdref m (getref e)) es
         else Ok (map (fun _ => []) es)) ;;
  f <- load m (av an) n ;;
  ad <- (if kadj k then load m (aa an) n else Ok seed) ;;
  Ok (vs, f, ad).

(** adj += seed, var_view.hpp:91-94 *)
Definition var_beval (sh : shape) (o : nat) (seed : list T) (m : mem T) : res (mem T) :=
  seed <- chk (size sh) seed ;;
  a <- load m (Ptr 1 o) (size sh) ;;
  store m (Ptr 1 o) (map2 (nadd N) a seed).

Fixpoint beval (e : E) (seed : list T) (m : mem T) {struct e} : res (mem T) :=
  match e with
  | EVar sh o => var_beval sh o seed m
  | ECst _ _ | ECvw _ _ => Ok m                        (* constant.hpp:56, 103 *)
  | EComp k an es =>
      match es with [] => Ok m | _ :: _ =>             (* sum.hpp:78, prod.hpp:70 *)
      let n := size (shape_of e) in
      let ss := map shape_of es in
      let cs := map is_const es in
      seed <- chk n seed ;;
      m <- (if kadj k then store m (aa an) seed else Ok m) ;;
      p0 <- pack k an es n seed m ;;
      (fix go (i : nat) (l : list E) (m : mem T) {struct l} : res (mem T) :=
         match l with
         | [] => Ok m
         | x :: t =>
             m <- go (S i) t m ;;
             '(vs, f, ad) <- (if klazy k ss then pack k an es n seed m else Ok p0) ;;
             let pre := kpre k i vs f in
             m <- match pre with Some f1 => store m (av an) f1 | None => Ok m end ;;
             let f := match pre with Some f1 => f1 | None => f end in
             m <- match kseed k cs ss (st an) ad vs f i with
                  | None => Ok m
                  | Some s =>
                      s <- chk (size (shape_of x)) s ;;
                      m <- (if kaux k then store m (xa an) s else Ok m) ;;
                      beval x s m
                  end ;;
             match pre with
             | None => Ok m
             | Some _ =>                               (* prod.hpp:96 *)
                 f <- load m (av an) n ;;
                 v <- rdref m (getref x) ;;
                 store m (av an) (map2 (nmul N) f v)
             end
         end) 0 es m
      end
  | EEq an sh o x =>                                   (* eq.hpp:101-107 *)
      m1 <- var_beval sh o seed m ;;
      s <- load m1 (Ptr 1 o) (size sh) ;;
      beval x s m1
  | EOpEq q an sh o x =>                               (* eq.hpp:249-271 *)
      let n := size sh in
      m <- var_beval sh o seed m ;;
      old <- load m (xv an) n ;;
      m <- store m (Ptr 0 o) old ;;
      g <- load m (Ptr 1 o) n ;;
      m <- store m (xa an) g ;;
      m <- store m (Ptr 1 o) (repeat 0! n) ;;
      y <- rdref m (getref x) ;;
      rs <- chk (size (shape_of x)) (oe_rseed N q sh (shape_of x) g old y) ;;
      m <- beval x rs m ;;
      (* the left seed is an Eigen expression evaluated only now, unless the left
         side is a scalar; a scalar right side has been copied into it *)
      ls <- (if is_scl sh || is_scl (shape_of x) then Ok (oe_lseed N q (shape_of x) g old y)
             else g' <- load m (xa an) n ;;
                  v' <- load m (Ptr 0 o) n ;;
                  y' <- rdref m (getref x) ;;
                  Ok (oe_lseed N q (shape_of x) g' v' y')) ;;
      var_beval sh o ls m
  | EGlue an l r =>                                    (* glue.hpp:81-86 *)
      m1 <- beval r seed m ;;
      beval l (repeat 0! (size (shape_of l))) m1
  | EFor an s es =>                                    (* for_each.hpp:69-80 *)
      (fix go (l : list E) (m : mem T) {struct l} : res (mem T) :=
         match l with
         | [] => Ok m
         | x :: t => match t with
                     | [] => beval x seed m
                     | _ :: _ => m1 <- go t m ;;
                                 beval x (repeat 0! (size (shape_of x))) m1
                     end
         end) es m
  | EIf an c t f =>                                    (* if_else.hpp:84-92 *)
      b <- rdref m (getref c) ;;
      if ntrue N (hd0 N b) then beval t seed m else beval f seed m
  end.

(** ** Construction: the node constructors applied bottom-up to the expression
    the user wrote, without constant folding (see Fold.v for the builder
    functions).  Shape asserts give [UBshape]; stat constructors may read their
    operands.  Eq: eq.hpp:43-60, 78-80; OpEq: eq.hpp:208-215, 234-237;
    IfElse: if_else.hpp:49-56, 73-75. *)
Fixpoint mk (e : expr T unit) (m : mem T) {struct e} : res E :=
  match e with
  | EVar sh o => if shape_ok sh then Ok (EVar sh o) else Err UBshape
  | ECst sh c => if shape_ok sh && (length c =? size sh) then Ok (ECst sh c) else Err UBshape
  | ECvw sh o => if shape_ok sh then Ok (ECvw sh o) else Err UBshape
  | EComp k _ es =>
      es' <- (fix go es := match es with
                           | [] => Ok []
                           | x :: t => x' <- mk x m ;; t' <- go t ;; Ok (x' :: t')
                           end) es ;;
      let ss := map shape_of es' in
      if kassert k ss then
        s <- match k with
             | KStat q => stat_init N q (map is_const es') ss
                                    (map (fun x => rdref m (getref x)) es')
             | _ => Ok (sst0 N)
             end ;;
        Ok (EComp k (set_st ann0 s) es')
      else Err UBshape
  | EEq _ sh o x =>
      x' <- mk x m ;;
      if shape_ok sh && shape_eqb sh (shape_of x') &&
         negb (match x' with EVar _ _ => true | _ => false end)
      then Ok (EEq ann0 sh o x') else Err UBshape
  | EOpEq q _ sh o x =>
      x' <- mk x m ;;
      if shape_ok sh && (is_scl (shape_of x') || shape_eqb sh (shape_of x'))
      then Ok (EOpEq q ann0 sh o x') else Err UBshape
  | EGlue _ l r =>
      l' <- mk l m ;; r' <- mk r m ;;
      if is_const r' then Err UBshape else Ok (EGlue ann0 l' r')
  | EFor _ s es =>
      es' <- (fix go es := match es with
                           | [] => Ok []
                           | x :: t => x' <- mk x m ;; t' <- go t ;; Ok (x' :: t')
                           end) es ;;
      if forallb (fun b => sk_eqb (kind b) s) (map shape_of es') && negb (existsb is_const es')
      then Ok (EFor ann0 s es') else Err UBshape
  | EIf _ c t f =>
      c' <- mk c m ;; t' <- mk t m ;; f' <- mk f m ;;
      if is_scl (shape_of c') && shape_eqb (shape_of t') (shape_of f')
      then Ok (EIf ann0 c' t' f') else Err UBshape
  end.

(** ** ExprBind and the user-level entry points *)

(** Eigen resize of a cache vector, bind.hpp:30-31: contents unspecified ([u]). *)
Definition alloc (m : mem T) (b n : nat) (u : nat -> T) : mem T :=
  fun b' o => if b' =? b then if o <? n then Some (u o) else None else m b' o.
(** ad::bind / ExprBind, bind.hpp:24-33 *)
Definition ad_bind (bv ba : nat) (uv ua : nat -> T) (e : E) (m : mem T) : E * mem T :=
  let sz := csize e in
  let m1 := alloc (alloc m bv (fst sz) uv) ba (snd sz) ua in
  let '(e', _, _) := bindc bv ba e 0 0 in (e', m1).
(** ad::evaluate, eval.hpp:18-34; the value is read when feval returns *)
Definition evaluate (e : E) (m : mem T) : res (E * mem T * list T) :=
  '(e', m', r) <- feval e m ;; v <- rdref m' r ;; Ok (e', m', v).
(** ad::autodiff, eval.hpp:82-153: feval, beval with the seed, return the value *)
Definition autodiff (e : E) (seed : list T) (m : mem T) : res (E * mem T * list T) :=
  '(e', m1, v) <- evaluate e m ;; m2 <- beval e' seed m1 ;; Ok (e', m2, v).

End Machine.
Arguments Ann {N}. Arguments av {N}. Arguments aa {N}. Arguments xv {N}.
Arguments xa {N}. Arguments st {N}. Arguments set_st {N}. Arguments set_own {N}.
Arguments set_aux {N}. Arguments own {N}. Arguments getref {N}. Arguments dptr {N}.
Arguments setroot {N}. Arguments single {N}. Arguments csize {N}. Arguments bindc {N}.
Arguments RMem {N}. Arguments RCst {N}. Arguments rdref {N}. Arguments chk {N}.
Arguments feval {N}. Arguments beval {N}. Arguments mk {N}. Arguments pack {N}.
Arguments opvals {N}. Arguments var_beval {N}. Arguments alloc {N}. Arguments ad_bind {N}.
Arguments evaluate {N}. Arguments autodiff {N}. Arguments kfwd {N}. Arguments kseed {N}.
Arguments kpre {N}. Arguments anyzero {N}.
