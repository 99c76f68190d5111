(** What expressions mean: a denotation in the real numbers and the region on
    which it is defined and differentiable.  Nothing here refers to how the
    engine computes; only the syntax of expressions (Expr.v), shapes and the
    column-major storage order (Base.v) are shared with the model. *)
From Coq Require Import Reals.
From Verif Require Import Base Num Expr XR.
Open Scope R_scope.

(** ** Indexed sums, products, tables *)
Fixpoint sumn (n : nat) (f : nat -> R) : R :=
  match n with O => 0 | S k => sumn k f + f k end.
Fixpoint prodn (n : nat) (f : nat -> R) : R :=
  match n with O => 1 | S k => prodn k f * f k end.
Definition tab {X} (n : nat) (f : nat -> X) : list X := map f (seq 0 n).
Definition el (l : list R) (i : nat) : R := nth i l 0.
(** Entry [i] of an operand; a scalar stands for the array with equal entries. *)
Definition ent (s : shape) (l : list R) (i : nat) : R := el l (if is_scl s then 0%nat else i).
Definition b2r (b : bool) : R := if b then 1 else 0.

(** ** Matrices: entries as a function of row and column *)
Definition mat := nat -> nat -> R.
Definition m_of (r : nat) (l : list R) : mat := fun i j => el l (j * r + i).
Definition skip (p i : nat) : nat := if (i <? p)%nat then i else S i.
Definition minor (A : mat) (p q : nat) : mat := fun i j => A (skip p i) (skip q j).
(** Laplace expansion along the first row. *)
Fixpoint det (n : nat) (A : mat) : R :=
  match n with
  | O => 1
  | S k => sumn (S k) (fun j => (-1) ^ j * A 0%nat j * det k (minor A 0 j))
  end.
(** Cramer's rule. *)
Definition minv (n : nat) (A : mat) : mat :=
  fun i j => (-1) ^ (i + j) * det (pred n) (minor A j i) / det n A.
Definition quad (n : nat) (A : mat) (x y : nat -> R) : R :=
  sumn n (fun i => sumn n (fun j => x i * A i j * y j)).
Definition symm (n : nat) (A : mat) : Prop :=
  forall i j, (i < n)%nat -> (j < n)%nat -> A i j = A j i.
Definition posdef (n : nat) (A : mat) : Prop :=
  symm n A /\ forall x, (exists i, (i < n)%nat /\ x i <> 0) -> 0 < quad n A x x.

(** ** Element-wise functions *)
Definition un_s (u : un) (x : R) : R :=
  match u with
  | UNeg => - x
  | USin => sin x
  | UCos => cos x
  | UTan => tan x
  | UAsin => asin x
  | UAcos => acos x
  | UAtan => atan x
  | UExp => exp x
  | ULog => ln x
  | USqrt => sqrt x
  | UErf => erf x
  | USigmoid => 1 / (1 + exp (- x))
  | USinh => sinh x
  | UCosh => cosh x
  | UTanh => tanh x
  end.
Definition bi_s (b : bi) (x y : R) : R :=
  match b with
  | BAdd => x + y
  | BSub => x - y
  | BMul => x * y
  | BDiv => x / y
  | BLt => b2r (rltb x y)
  | BLe => b2r (rleb x y)
  | BGt => b2r (rltb y x)
  | BGe => b2r (rleb y x)
  | BEq => b2r (reqb x y)
  | BNe => b2r (negb (reqb x y))
  | BAnd => b2r (negb (reqb x 0) && negb (reqb y 0))
  | BOr => b2r (negb (reqb x 0) || negb (reqb y 0))
  end.
Definition oe_s (q : oe) (x y : R) : R :=
  match q with OAdd => x + y | OSub => x - y | OMul => x * y | ODiv => x / y end.

(** ** Log-densities, up to the additive constants the library drops *)
Definition norm1 (x m s : R) : R := - (1 / 2) * ((x - m) / s) ^ 2 - ln s.
Definition cau1 (x m g : R) : R := - ln (g * (1 + ((x - m) / g) ^ 2)).
Definition uni1 (x a b : R) : R := - ln (b - a).
Definition ber1 (x p : R) : R := x * ln p + (1 - x) * ln (1 - p).
Definition sden (q : stat) (ss : list shape) (vs : list (list R)) : R :=
  let sh := nth_sh ss in
  let v i := nth i vs [] in
  let n := rows (sh 0%nat) in
  let x := ent (sh 0%nat) (v 0%nat) in
  let y := ent (sh 1%nat) (v 1%nat) in
  let z := ent (sh 2%nat) (v 2%nat) in
  match q with
  | NormSSS | NormVSS | NormVVS | NormVSV | NormVVV => sumn n (fun i => norm1 (x i) (y i) (z i))
  | NormVSM | NormVVM =>
      let S := m_of n (v 2%nat) in
      let d i := x i - y i in
      - (1 / 2) * quad n (minv n S) d d - 1 / 2 * ln (det n S)
  | CauSSS | CauVSS | CauVSV | CauVVS | CauVVV => sumn n (fun i => cau1 (x i) (y i) (z i))
  | UniSSS | UniVSS | UniVSV | UniVVS | UniVVV => sumn n (fun i => uni1 (x i) (y i) (z i))
  | BerSS | BerVS | BerVV => sumn n (fun i => ber1 (x i) (y i))
  | Wish =>
      let X := m_of n (v 0%nat) in
      let V := m_of n (v 1%nat) in
      let nu := el (v 2%nat) 0 in
      (nu - INR n - 1) / 2 * ln (det n X)
      - 1 / 2 * sumn n (fun i => sumn n (fun j => X i j * minv n V j i))
      - nu / 2 * ln (det n V)
  end.

(** ** Nodes *)
Definition kden (k : kd) (ss : list shape) (vs : list (list R)) : list R :=
  let sh := nth_sh ss in
  let v i := nth i vs [] in
  let s := sh 0%nat in
  let x := v 0%nat in
  match k with
  | KUn u => tab (size s) (fun i => un_s u (el x i))
  | KPow z => tab (size s) (fun i => powerRZ (el x i) z)
  | KTrans => mkm (cols s) (rows s) (fun i j => m_of (rows s) x j i)
  | KSumE => [sumn (size s) (el x)]
  | KProdE => [prodn (size s) (el x)]
  | KNorm => [sumn (size s) (fun i => el x i ^ 2)]
  | KDet _ => [det (rows s) (m_of (rows s) x)]
  | KLogDet _ => [ln (Rabs (det (rows s) (m_of (rows s) x)))]
  | KBin b => tab (size (kshape k ss)) (fun i => bi_s b (ent s x i) (ent (sh 1%nat) (v 1%nat) i))
  | KDot => mkm (rows s) (cols (sh 1%nat))
              (fun i j => sumn (cols s) (fun p => m_of (rows s) x i p * m_of (cols s) (v 1%nat) p j))
  | KSumI _ => tab (size (kshape k ss)) (fun i => sumn (length vs) (fun p => el (v p) i))
  | KProdI _ => tab (size (kshape k ss)) (fun i => prodn (length vs) (fun p => el (v p) i))
  | KStat q => [sden q ss vs]
  end.

(** ** Expressions: value and final values of the variables.  [D]: the data
    behind constant views. *)
Definition fval (x : xr) : R := match x with Fin r => r | _ => 0 end.
Definition is_fin (x : xr) : Prop := exists r, x = Fin r.
Definition put (r : nat -> R) (o : nat) (l : list R) : nat -> R :=
  fun i => if ((o <=? i) && (i <? o + length l))%nat then el l (i - o) else r i.

Section Den.
Context {A : Type}.
Notation E := (expr xr A).
Notation renv := (nat -> R).
Variable D : renv.

Fixpoint den (e : E) (r : renv) {struct e} : list R * renv :=
  match e with
  | EVar sh o => (map r (seq o (size sh)), r)
  | ECst _ c => (map fval c, r)
  | ECvw sh o => (map D (seq o (size sh)), r)
  | EComp k _ es =>
      let '(vs, r1) :=
        (fix go es r := match es with
                        | [] => ([], r)
                        | y :: l => let '(v, r1) := den y r in
                                    let '(vs, r2) := go l r1 in (v :: vs, r2)
                        end) es r in
      (kden k (map shape_of es) vs, r1)
  | EEq _ sh o y => let '(v, r1) := den y r in (v, put r1 o v)
  | EOpEq q _ sh o y =>
      let '(v, r1) := den y r in
      let w := tab (size sh) (fun i => oe_s q (r1 (o + i)%nat) (ent (shape_of y) v i)) in
      (w, put r1 o w)
  | EGlue _ a b => let '(_, r1) := den a r in den b r1
  | EFor _ _ es =>
      (fix go es v r := match es with
                        | [] => (v, r)
                        | y :: l => let '(v1, r1) := den y r in go l v1 r1
                        end) es [] r
  | EIf _ c t f =>
      let '(v, r1) := den c r in
      if reqb (el v 0) 0 then den f r1 else den t r1
  end.
Definition dens : list E -> renv -> list (list R) * renv :=
  fix go es r := match es with
                 | [] => ([], r)
                 | y :: l => let '(v, r1) := den y r in
                             let '(vs, r2) := go l r1 in (v :: vs, r2)
                 end.
Definition val (e : E) (r : renv) : list R := fst (den e r).
Definition fin_env (e : E) (r : renv) : renv := snd (den e r).
End Den.

(** ** Regions.  [d = false]: the denotation is what the engine computes;
    [d = true]: it is moreover differentiable and the engine propagates its
    derivative.  [u]: the seed that reaches the node is known to be all ones. *)

(** Piecewise constant nodes: constants, comparisons and logical operators. *)
Definition cmp (b : bi) : bool :=
  match b with BAdd | BSub | BMul | BDiv => false | _ => true end.
Definition flat {T A} (e : expr T A) : bool :=
  match e with
  | ECst _ _ | ECvw _ _ => true
  | EComp (KBin b) _ _ => cmp b
  | _ => false
  end.
Definition un_dom (d : bool) (u : un) (x : R) : Prop :=
  match u with
  | UTan => cos x <> 0
  | UAsin | UAcos => if d then -1 < x < 1 else -1 <= x <= 1
  | ULog => 0 < x
  | USqrt => if d then 0 < x else 0 <= x
  | _ => True
  end.
Definition bi_dom (d : bool) (b : bi) (sc f g : bool) (x y : R) : Prop :=
  match b with
  | BAdd | BSub | BMul => True
  | BDiv => y <> 0
  | BAnd | BOr =>
      if sc then d = true -> (f = true \/ x <> 0) /\ (g = true \/ y <> 0)
      else ((x = 0 \/ x = 1) /\ (y = 0 \/ y = 1)) /\ (d = true -> f = true /\ g = true)
  | _ => d = true -> (f = true /\ g = true) \/ x <> y
  end.
(** [cs]: which operands are constants, [fl]: which are piecewise constant. *)
Definition sdom (d u : bool) (q : stat) (cs fl : list bool) (ss : list shape)
           (vs : list (list R)) : Prop :=
  let sh := nth_sh ss in
  let v i := nth i vs [] in
  let c i := nth i cs false in
  let f i := nth i fl false in
  let n := rows (sh 0%nat) in
  let x := ent (sh 0%nat) (v 0%nat) in
  let y := ent (sh 1%nat) (v 1%nat) in
  let z := ent (sh 2%nat) (v 2%nat) in
  let pos i := forall j, (j < size (sh i))%nat -> 0 < el (v i) j in
  match q with
  | NormSSS | NormVVS | NormVSV | NormVVV => pos 2%nat
  | NormVSS => pos 2%nat /\ (c 0%nat = true -> n <> 0%nat)
  | NormVSM | NormVVM => posdef n (m_of n (v 2%nat))
  | CauSSS => pos 2%nat
  | CauVSS | CauVSV | CauVVS | CauVVV =>
      pos 2%nat /\ (d = true -> u = true \/ (c 1%nat = true /\ c 2%nat = true))
  | UniSSS | UniVSS | UniVVV => forall i, (i < n)%nat -> y i < x i < z i
  | UniVSV => (forall i, (i < n)%nat -> y i < x i < z i) /\ (c 0%nat = true -> c 2%nat = true)
  | UniVVS => (forall i, (i < n)%nat -> y i < x i < z i) /\ (c 0%nat = true -> c 1%nat = true)
  | BerSS | BerVS | BerVV =>
      (forall j, (j < size (sh 1%nat))%nat -> 0 < el (v 1%nat) j < 1) /\
      (forall i, (i < n)%nat -> x i = 0 \/ x i = 1) /\ (d = true -> f 0%nat = true)
  | Wish =>
      posdef n (m_of n (v 0%nat)) /\ posdef n (m_of n (v 1%nat)) /\ INR n - 1 < el (v 2%nat) 0 /\
      (c 0%nat = true -> c 1%nat = true) /\ (d = true -> f 2%nat = true)
  end.
Definition kdom (d u : bool) (k : kd) (cs fl : list bool) (ss : list shape)
           (vs : list (list R)) : Prop :=
  let sh := nth_sh ss in
  let v i := nth i vs [] in
  let s := sh 0%nat in
  let x := v 0%nat in
  let f i := nth i fl false in
  match k with
  | KUn w => forall i, (i < size s)%nat -> un_dom d w (el x i)
  | KPow z => (z < 0)%Z -> forall i, (i < size s)%nat -> el x i <> 0
  | KDet LU | KLogDet LU => det (rows s) (m_of (rows s) x) <> 0
  | KDet _ | KLogDet _ => posdef (rows s) (m_of (rows s) x)
  | KBin b => forall i, (i < size (kshape k ss))%nat ->
      bi_dom d b (is_scl s && is_scl (sh 1%nat)) (f 0%nat) (f 1%nat)
             (ent s x i) (ent (sh 1%nat) (v 1%nat) i)
  | KStat q => sdom d u q cs fl ss vs
  | _ => True
  end.
(** Operands that receive a seed of ones when the node does. *)
Definition ones (k : kd) (ss : list shape) (i : nat) : bool :=
  let full i j := negb (is_scl (nth_sh ss i) && negb (is_scl (nth_sh ss j))) in
  match k with
  | KSumE | KSumI _ => true
  | KBin BAdd => match i with O => full 0%nat 1%nat | _ => full 1%nat 0%nat end
  | KBin BSub => match i with O => full 0%nat 1%nat | _ => false end
  | _ => false
  end.

Section Dom.
Context {A : Type}.
Notation E := (expr xr A).
Notation renv := (nat -> R).
Variable D : renv.
Variable d : bool.

Fixpoint dom (u : bool) (e : E) (r : renv) {struct e} : Prop :=
  match e with
  | EVar _ _ | ECvw _ _ => True
  | ECst _ c => Forall is_fin c
  | EComp k _ es =>
      let ss := map shape_of es in
      (fix go i es r := match es with
                        | [] => True
                        | y :: l => dom (u && ones k ss i) y r /\ go (S i) l (fin_env D y r)
                        end) 0%nat es r /\
      kdom d u k (map is_const es) (map flat es) ss (fst (dens D es r))
  | EEq _ _ _ y => dom false y r
  | EOpEq q _ sh _ y =>
      dom false y r /\
      match q with ODiv => forall i, (i < size sh)%nat -> ent (shape_of y) (val D y r) i <> 0 | _ => True end
  | EGlue _ a b => dom false a r /\ dom u b (fin_env D a r)
  | EFor _ _ es =>
      (fix go es r := match es with
                      | [] => True
                      | y :: l => dom (match l with [] => u | _ => false end) y r /\
                                  go l (fin_env D y r)
                      end) es r
  | EIf _ c t f =>
      dom false c r /\
      (d = true -> flat c = true \/ el (val D c r) 0 <> 0) /\
      if reqb (el (val D c r) 0) 0 then dom u f (fin_env D c r) else dom u t (fin_env D c r)
  end.
End Dom.

(** ** Client-side conditions *)
(** Changing one variable. *)
Definition set1 (r : nat -> R) (o : nat) (t : R) : nat -> R := fun i => if (i =? o)%nat then t else r i.
(** Embedded constants are finite numbers. *)
Fixpoint cfin {A} (e : expr xr A) : Prop :=
  match e with
  | EVar _ _ | ECvw _ _ => True
  | ECst _ c => Forall is_fin c
  | EComp _ _ es | EFor _ _ es => (fix go es := match es with [] => True | y :: l => cfin y /\ go l end) es
  | EEq _ _ _ y | EOpEq _ _ _ _ y => cfin y
  | EGlue _ a b => cfin a /\ cfin b
  | EIf _ a b c => cfin a /\ cfin b /\ cfin c
  end.
(** Cells of the constant views that are operands of log-density nodes: their
    constructors may capture them. *)
Definition vwcells {T A} (e : expr T A) : list nat :=
  match e with ECvw sh o => seq o (size sh) | _ => [] end.
Fixpoint sdrefs {T A} (e : expr T A) : list nat :=
  match e with
  | EVar _ _ | ECvw _ _ | ECst _ _ => []
  | EComp k _ es => (match k with KStat _ => flat_map vwcells es | _ => [] end) ++ flat_map sdrefs es
  | EFor _ _ es => flat_map sdrefs es
  | EEq _ _ _ y | EOpEq _ _ _ _ y => sdrefs y
  | EGlue _ a b => sdrefs a ++ sdrefs b
  | EIf _ a b c => sdrefs a ++ sdrefs b ++ sdrefs c
  end.

(** ** Contract of the Eigen decompositions
    On matrices of finite numbers the decompositions are exact: full-pivoting LU
    for every matrix, LDLT and Cholesky (which read one triangle) for symmetric
    ones; Cholesky succeeds exactly on the positive definite ones. *)
Record la_ok (la : linalg xr) : Prop := {
  la_lu_det : forall n x, length x = (n * n)%nat -> lu_det _ la n (map Fin x) = Fin (det n (m_of n x));
  la_lu_ok : forall n x, length x = (n * n)%nat -> lu_ok _ la n (map Fin x) = true <-> det n (m_of n x) <> 0;
  la_lu_inv : forall n x, length x = (n * n)%nat -> det n (m_of n x) <> 0 ->
    lu_inv _ la n (map Fin x) = map Fin (mkm n n (minv n (m_of n x)));
  la_ldlt : forall n x, length x = (n * n)%nat -> posdef n (m_of n x) ->
    ldlt_ok _ la n (map Fin x) = true /\
    (exists d, ldlt_d _ la n (map Fin x) = map Fin d /\ length d = n /\ prodn n (el d) = det n (m_of n x)) /\
    ldlt_inv _ la n (map Fin x) = map Fin (mkm n n (minv n (m_of n x)));
  la_llt_ok : forall n x, length x = (n * n)%nat -> symm n (m_of n x) ->
    llt_ok _ la n (map Fin x) = true <-> posdef n (m_of n x);
  la_llt : forall n x, length x = (n * n)%nat -> posdef n (m_of n x) ->
    llt_ldet _ la n (map Fin x) = Fin (sqrt (det n (m_of n x))) /\
    llt_inv _ la n (map Fin x) = map Fin (mkm n n (minv n (m_of n x)));
  la_lens : forall n X, length (lu_inv _ la n X) = (n * n)%nat /\ length (ldlt_inv _ la n X) = (n * n)%nat /\
    length (llt_inv _ la n X) = (n * n)%nat
}.
