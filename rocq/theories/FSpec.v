(** Meaning of forward-mode programs over the reals. *)
From Coq Require Import Reals List Arith.
From Coquelicot Require Import Coquelicot.
From Verif Require Import Base Num Expr Node Machine XR Spec Forward.
Import ListNotations.
Open Scope R_scope.

(** The function computed, along a line: at parameter [t] the temporary
    [ForwardVar(c, d)] stands for [c + t d]. *)
Definition f1_un (f : f1) : un :=
  match f with
  | FNeg => UNeg | FSin => USin | FCos => UCos | FTan => UTan | FAsin => UAsin | FAcos => UAcos
  | FAtan => UAtan | FExp => UExp | FLog => ULog | FSqrt => USqrt | FErf => UErf
  end.
Definition f2_s (f : f2) (x y : R) : R :=
  match f with FAdd => x + y | FSub => x - y | FMul => x * y | FDiv => x / y end.
Fixpoint fden (e : fe R) (t : R) (r : nat -> R) : R :=
  match e with
  | FVar i => r i
  | FNum c d => c + t * d
  | FUn f x => un_s (f1_un f) (fden x t r)
  | FBin f x y => f2_s f (fden x t r) (fden y t r)
  end.
Fixpoint pden (s : stm R) (t : R) (r : nat -> R) : nat -> R :=
  match s with
  | SSet i x => set1 r i (fden x t r)
  | SAdd i x => set1 r i (r i + fden x t r)
  | SSeq a b => pden b t (pden a t r)
  | SRep n a => Nat.iter n (pden a t) r
  | SIf x y a b => if rltb (fden x t r) (fden y t r) then pden a t r else pden b t r
  end.

(** Every function is applied at a point of differentiability and the sides of
    a comparison differ.  [erf] says whether erf may occur. *)
Fixpoint fdom (erf : bool) (e : fe R) (r : nat -> R) : Prop :=
  match e with
  | FVar _ | FNum _ _ => True
  | FUn f x => fdom erf x r /\ un_dom true (f1_un f) (fden x 0 r) /\ (f = FErf -> erf = true)
  | FBin f x y => fdom erf x r /\ fdom erf y r /\ (f = FDiv -> fden y 0 r <> 0)
  end.
Fixpoint pdom (s : stm R) (r : nat -> R) : Prop :=
  match s with
  | SSet _ x | SAdd _ x => fdom false x r
  | SSeq a b => pdom a r /\ pdom b (pden a 0 r)
  | SRep n a => forall k, (k < n)%nat -> pdom a (Nat.iter k (pden a 0) r)
  | SIf x y a b => fdom false x r /\ fdom false y r /\ fden x 0 r <> fden y 0 r /\
      if rltb (fden x 0 r) (fden y 0 r) then pdom a r else pdom b r
  end.

(** Programs with real constants, run in exact arithmetic. *)
Fixpoint fmap {B C} (g : B -> C) (e : fe B) : fe C :=
  match e with
  | FVar i => FVar i
  | FNum c d => FNum (g c) (g d)
  | FUn f x => FUn f (fmap g x)
  | FBin f x y => FBin f (fmap g x) (fmap g y)
  end.
Fixpoint smap {B C} (g : B -> C) (s : stm B) : stm C :=
  match s with
  | SSet i x => SSet i (fmap g x)
  | SAdd i x => SAdd i (fmap g x)
  | SSeq a b => SSeq (smap g a) (smap g b)
  | SRep n a => SRep n (smap g a)
  | SIf x y a b => SIf (fmap g x) (fmap g y) (smap g a) (smap g b)
  end.

(** The same formula in reverse mode. *)
Definition f2_bi (f : f2) : bi := match f with FAdd => BAdd | FSub => BSub | FMul => BMul | FDiv => BDiv end.
Fixpoint rev_of (e : fe R) : expr xr unit :=
  match e with
  | FVar i => EVar scl i
  | FNum c _ => ECst scl [Fin c]
  | FUn f x => EComp (KUn (f1_un f)) tt [rev_of x]
  | FBin f x y => EComp (KBin (f2_bi f)) tt [rev_of x; rev_of y]
  end.
(** Temporaries without a tangent; the direction of one variable. *)
Fixpoint const0 (e : fe R) : Prop :=
  match e with FVar _ => True | FNum _ d => d = 0 | FUn _ x => const0 x | FBin _ x y => const0 x /\ const0 y end.
Definition unit_dir (o i : nat) : R := if (i =? o)%nat then 1 else 0.
