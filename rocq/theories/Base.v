(** Basic data shared by the whole model: outcomes with undefined behaviour,
    shapes, column-major buffers and partial memory. *)
From Coq Require Export List Arith ZArith Bool Lia.
Export ListNotations.

(** Outcomes.  [Err] is undefined behaviour / a failed assertion of the C++
    code: null dereference (value_view.hpp:26-38 [assert(val_)]), an access
    outside the owning allocation, or mismatched Eigen sizes. *)
Inductive ub := UBnull | UBoob | UBshape.
Inductive res (A : Type) := Ok (a : A) | Err (u : ub).
Arguments Ok {A} a.
Arguments Err {A} u.

Definition bindR {A B} (x : res A) (f : A -> res B) : res B :=
  match x with Ok a => f a | Err u => Err u end.
Notation "x <- e ;; k" := (bindR e (fun x => k))
  (at level 61, e at next level, right associativity).
Notation "' p <- e ;; k" := (bindR e (fun p => k))
  (at level 61, p pattern, e at next level, right associativity).

(** Shape tags of util/shape_traits.hpp:7-9 ([scl], [vec], [mat]) with the
    run-time sizes carried by [ValueView] (value_view.hpp:71-85, 129-131,
    163-165). *)
Inductive sk := Scl | Vec | Mat.
Record shape := Sh { kind : sk; rows : nat; cols : nat }.
Definition scl : shape := Sh Scl 1 1.
Definition size (s : shape) : nat := rows s * cols s.
Definition is_scl (s : shape) : bool := match kind s with Scl => true | _ => false end.

Definition sk_eqb (a b : sk) : bool :=
  match a, b with Scl, Scl | Vec, Vec | Mat, Mat => true | _, _ => false end.
Definition shape_eqb (a b : shape) : bool :=
  sk_eqb (kind a) (kind b) && (rows a =? rows b) && (cols a =? cols b).

(** A shape is consistent when the tag matches the sizes: a scalar view is
    1x1 (value_view.hpp:71-85), a vector view has one column
    (value_view.hpp:130-131). *)
Definition shape_ok (s : shape) : bool :=
  match kind s with
  | Scl => (rows s =? 1) && (cols s =? 1)
  | Vec => cols s =? 1
  | Mat => true
  end.

(** util::max_shape_t, shape_traits.hpp:102-110: the shape with more
    dimensions. *)
Definition max_sk (a b : sk) : sk :=
  match a, b with
  | Mat, _ | _, Mat => Mat
  | Vec, _ | _, Vec => Vec
  | Scl, Scl => Scl
  end.

Section Lists.
Context {A B C D : Type}.
Fixpoint map2 (f : A -> B -> C) (l : list A) (l' : list B) : list C :=
  match l, l' with
  | a :: t, b :: t' => f a b :: map2 f t t'
  | _, _ => []
  end.
Fixpoint map3 (f : A -> B -> C -> D) (l : list A) (l' : list B) (l'' : list C) : list D :=
  match l, l', l'' with
  | a :: t, b :: t', c :: t'' => f a b c :: map3 f t t' t''
  | _, _, _ => []
  end.
End Lists.

(** Column-major storage of Eigen (default order of the Eigen::Map of
    shape_traits.hpp:78-83): entry (i,j) of an [r]-row buffer is at [j*r+i]. *)
Definition mkm {A} (r c : nat) (f : nat -> nat -> A) : list A :=
  flat_map (fun j => map (fun i => f i j) (seq 0 r)) (seq 0 c).
Definition mget {A} (z : A) (r : nat) (l : list A) (i j : nat) : A := nth (j * r + i) l z.

(** Pointers and memory.  A pointer is null or (allocation, index).  Memory is
    a partial map; [None] means "not part of any live allocation". *)
Inductive ptr := Null | Ptr (b o : nat).
Definition padd (p : ptr) (n : nat) : ptr :=
  match p with Null => Null | Ptr b o => Ptr b (o + n) end.
Definition psub (p : ptr) (n : nat) : ptr :=
  match p with Null => Null | Ptr b o => Ptr b (o - n) end.

Definition mem (T : Type) := nat -> nat -> option T.

Definition wr1 {T} (m : mem T) (b o : nat) (v : T) : res (mem T) :=
  match m b o with
  | Some _ => Ok (fun b' o' => if (b' =? b) && (o' =? o) then Some v else m b' o')
  | None => Err UBoob
  end.
Definition rd1 {T} (m : mem T) (b o : nat) : res T :=
  match m b o with Some v => Ok v | None => Err UBoob end.

Fixpoint rdn {T} (m : mem T) (b o n : nat) : res (list T) :=
  match n with
  | 0 => Ok []
  | S n' => v <- rd1 m b o ;; l <- rdn m b (S o) n' ;; Ok (v :: l)
  end.
Fixpoint wrn {T} (m : mem T) (b o : nat) (l : list T) : res (mem T) :=
  match l with
  | [] => Ok m
  | v :: l' => m1 <- wr1 m b o v ;; wrn m1 b (S o) l'
  end.

(** Reading / assigning a whole view.  An empty view at a null pointer is
    harmless, any other access through null is undefined. *)
Definition load {T} (m : mem T) (p : ptr) (n : nat) : res (list T) :=
  match p with
  | Null => if n =? 0 then Ok [] else Err UBnull
  | Ptr b o => rdn m b o n
  end.
Definition store {T} (m : mem T) (p : ptr) (l : list T) : res (mem T) :=
  match p with
  | Null => match l with [] => Ok m | _ => Err UBnull end
  | Ptr b o => wrn m b o l
  end.
