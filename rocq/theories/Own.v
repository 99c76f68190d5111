(** Storage of [Var] objects: construction, copying, moving, destruction
    (include/fastad_bits/reverse/core/var.hpp).

    A C++ heap is modelled by [mem] (Base.v): an allocation is a block number,
    [None] marks cells outside every live allocation.  An [Eigen::Matrix]
    member is [eig]: the pointer it owns and its number of entries (Eigen,
    DenseStorage: an empty matrix owns no block; copy construction allocates;
    copy assignment between equal sizes keeps the block and overwrites it, and
    otherwise frees and reallocates; move construction steals the pointer and
    leaves the source empty; move assignment swaps the two storages).  A scalar
    [Var] keeps value and adjoint inside the object: its two blocks stand for
    the members themselves.
    Simplification: object identity is a number, never reused while the object
    lives; a block number is never reused (a dangling pointer therefore never
    becomes valid again). *)
From Coq Require Import List Bool Arith.
From Verif Require Import Base.
Import ListNotations.

Record eig := Eig { edata : ptr; esize : nat }.

(** A [Var]: shape tag and dimensions of the base view, the owned members
    [val_], [adj_], and the pointers stored in the base view
    (var.hpp:88-89, 153-154, 218-219; value_adj_view.hpp:25-26, 61). *)
Record var := Var { vsc : bool; vr : nat; vc : nat; vval : eig; vadj : eig; vpv : ptr; vpa : ptr }.

(** [Var::rebind], var.hpp:83-86, 148-151, 213-216: point the base view to the members. *)
Definition rebind (x : var) : var :=
  Var (vsc x) (vr x) (vc x) (vval x) (vadj x) (edata (vval x)) (edata (vadj x)).

Section Own.
Context {T : Type}.

Record vst := Vst { smem : mem T; snx : nat; sobj : nat -> option var }.

Definition alloc (m : mem T) (nx : nat) (l : list T) : mem T * nat * eig :=
  match l with
  | [] => (m, nx, Eig Null 0)
  | _ => (fun b o => if b =? nx then nth_error l o else m b o, S nx, Eig (Ptr nx 0) (length l))
  end.
Definition free (m : mem T) (e : eig) : mem T :=
  match edata e with
  | Null => m
  | Ptr b _ => fun b' o => if b' =? b then None else m b' o
  end.
(** Eigen's copy assignment [dst = src], returning the new memory and [dst]. *)
Definition eassign (m : mem T) (nx : nat) (dst src : eig) : res (mem T * nat * eig) :=
  l <- load m (edata src) (esize src) ;;
  if esize dst =? esize src
  then m' <- store m (edata dst) l ;; Ok (m', nx, dst)
  else Ok (alloc (free m dst) nx l).

Definition oset (f : nat -> option var) (i : nat) (x : option var) : nat -> option var :=
  fun j => if j =? i then x else f j.

Inductive vop :=
| New (i : nat) (sc : bool) (r c : nat)   (* Var x; / Var x(n); / Var x(r,c); *)
| CopyNew (j i : nat)                     (* Var j(i);            *)
| MoveNew (j i : nat)                     (* Var j(std::move(i)); *)
| CopyAsg (j i : nat)                     (* j = i;               *)
| MoveAsg (j i : nat)                     (* j = std::move(i);    *)
| Put (i : nat) (adj : bool) (l : list T) (* i.get() = l;  i.get_adj() = l; *)
| Del (i : nat).                          (* end of lifetime *)

Definition getobj (s : vst) (i : nat) : res var :=
  match sobj s i with Some x => Ok x | None => Err UBoob end.
Definition noobj (s : vst) (i : nat) : res unit :=
  match sobj s i with Some _ => Err UBoob | None => Ok tt end.
Definition shape_eq (x y : var) : bool :=
  Bool.eqb (vsc x) (vsc y) && (vr x =? vr y) && (vc x =? vc y).

Definition vstep (z : T) (o : vop) (s : vst) : res vst :=
  match o with
  | New i sc r c =>
      (* var.hpp:36-40, 107-111, 172-176 *)
      _ <- noobj s i ;;
      _ <- (if negb sc || ((r =? 1) && (c =? 1)) then Ok tt else Err UBshape) ;;
      let '(m1, n1, v) := alloc (smem s) (snx s) (repeat z (r * c)) in
      let '(m2, n2, a) := alloc m1 n1 (repeat z (r * c)) in
      Ok (Vst m2 n2 (oset (sobj s) i (Some (rebind (Var sc r c v a Null Null)))))
  | CopyNew j i =>
      (* var.hpp:48-52, 113-117, 178-182 *)
      _ <- noobj s j ;; x <- getobj s i ;;
      lv <- load (smem s) (edata (vval x)) (esize (vval x)) ;;
      la <- load (smem s) (edata (vadj x)) (esize (vadj x)) ;;
      let '(m1, n1, v) := alloc (smem s) (snx s) lv in
      let '(m2, n2, a) := alloc m1 n1 la in
      Ok (Vst m2 n2 (oset (sobj s) j (Some (rebind (Var (vsc x) (vr x) (vc x) v a (vpv x) (vpa x))))))
  | MoveNew j i =>
      (* var.hpp:54-58 (moving a double copies it), 119-123, 184-188 *)
      _ <- noobj s j ;; x <- getobj s i ;;
      if vsc x then
        lv <- load (smem s) (edata (vval x)) (esize (vval x)) ;;
        la <- load (smem s) (edata (vadj x)) (esize (vadj x)) ;;
        let '(m1, n1, v) := alloc (smem s) (snx s) lv in
        let '(m2, n2, a) := alloc m1 n1 la in
        Ok (Vst m2 n2 (oset (sobj s) j (Some (rebind (Var true (vr x) (vc x) v a (vpv x) (vpa x))))))
      else
        Ok (Vst (smem s) (snx s)
             (oset (oset (sobj s) i (Some (Var false (vr x) (vc x) (Eig Null 0) (Eig Null 0) (vpv x) (vpa x))))
                   j (Some (rebind x))))
  | CopyAsg j i =>
      (* var.hpp:60-69, 125-134, 190-199 *)
      x <- getobj s i ;; y <- getobj s j ;;
      if j =? i then Ok s else
      _ <- (if shape_eq x y then Ok tt else Err UBshape) ;;
      a1 <- eassign (smem s) (snx s) (vval y) (vval x) ;; let '(m1, n1, v) := a1 in
      a2 <- eassign m1 n1 (vadj y) (vadj x) ;; let '(m2, n2, a) := a2 in
      Ok (Vst m2 n2 (oset (sobj s) j (Some (rebind (Var (vsc y) (vr y) (vc y) v a (vpv y) (vpa y))))))
  | MoveAsg j i =>
      (* var.hpp:71-80 (doubles are copied), 136-145, 201-210 *)
      x <- getobj s i ;; y <- getobj s j ;;
      if j =? i then Ok s else
      _ <- (if shape_eq x y then Ok tt else Err UBshape) ;;
      if vsc x then
        a1 <- eassign (smem s) (snx s) (vval y) (vval x) ;; let '(m1, n1, v) := a1 in
        a2 <- eassign m1 n1 (vadj y) (vadj x) ;; let '(m2, n2, a) := a2 in
        Ok (Vst m2 n2 (oset (sobj s) j (Some (rebind (Var (vsc y) (vr y) (vc y) v a (vpv y) (vpa y))))))
      else
        Ok (Vst (smem s) (snx s)
             (oset (oset (sobj s) i (Some (Var (vsc x) (vr x) (vc x) (vval y) (vadj y) (vpv x) (vpa x))))
                   j (Some (rebind (Var (vsc y) (vr y) (vc y) (vval x) (vadj x) (vpv y) (vpa y))))))
  | Put i adj l =>
      (* value_view.hpp:26-29, 118, 152; value_adj_view.hpp:42: the write goes through the view *)
      x <- getobj s i ;;
      _ <- (if length l =? vr x * vc x then Ok tt else Err UBshape) ;;
      m' <- store (smem s) (if adj then vpa x else vpv x) l ;;
      Ok (Vst m' (snx s) (sobj s))
  | Del i =>
      x <- getobj s i ;;
      Ok (Vst (free (free (smem s) (vval x)) (vadj x)) (snx s) (oset (sobj s) i None))
  end.

Fixpoint vrun (z : T) (h : list vop) (s : vst) : res vst :=
  match h with
  | [] => Ok s
  | o :: h' => s' <- vstep z o s ;; vrun z h' s'
  end.

Definition vinit : vst := Vst (fun _ _ => None) 0 (fun _ => None).

(** What an expression keeps of a variable when it is built: a copy of its
    base view (var_view.hpp:59-62 and the builders, which copy their
    [VarView] operands), that is two pointers and the dimensions. *)
Record view := View { wv : ptr; wa : ptr; wn : nat }.
Definition view_of (s : vst) (i : nat) : option view :=
  match sobj s i with Some x => Some (View (vpv x) (vpa x) (vr x * vc x)) | None => None end.
Definition look (s : vst) (w : view) : res (list T * list T) :=
  v <- load (smem s) (wv w) (wn w) ;; a <- load (smem s) (wa w) (wn w) ;; Ok (v, a).

(** [x.get()], [x.get_adj()] (value_view.hpp:26-38, 118-119, 152-153; value_adj_view.hpp:42-43). *)
Definition read (s : vst) (i : nat) : res (list T * list T) :=
  match view_of s i with Some w => look s w | None => Err UBoob end.
End Own.
Arguments vop : clear implicits.
Arguments vst : clear implicits.
