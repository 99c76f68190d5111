(** Interval arithmetic with dyadic endpoints, rounded outwards to doubles: an
    arithmetic for the engine whose results enclose both the results in double
    and the true ones. *)
From Coq Require Import ZArith List Bool.
From Flocq Require Import Core BinarySingleNaN.
From Verif Require Import Base Num Expr Node Stat Machine Ieee.
Local Open Scope Z_scope.

(** [Some (a, b)]: the numbers between the dyadic numbers a and b; [None]: no
    information. *)
Definition ends := ((Z * Z) * (Z * Z))%type.
Definition iv := option ends.

(** The largest double below (smallest above) m * 2^e, [None] beyond the range
    of double. *)
Definition cut (m e : Z) : Z := Z.max 0 (Z.max (Z.log2 (Z.abs m) - 52) (-1074 - e)).
Definition down (x : Z * Z) : dy := let '(m, e) := x in let k := cut m e in chk (m / 2 ^ k) (e + k).
Definition up (x : Z * Z) : dy := let '(m, e) := x in let k := cut m e in chk (- ((- m) / 2 ^ k)) (e + k).
Definition hull (x y : Z * Z) : iv := match down x, up y with Some a, Some b => Some (a, b) | _, _ => None end.

(** Exact operations on dyadic numbers. *)
Definition qadd (x y : Z * Z) : Z * Z :=
  let '(m1, e1) := x in let '(m2, e2) := y in let e := Z.min e1 e2 in (m1 * 2 ^ (e1 - e) + m2 * 2 ^ (e2 - e), e).
Definition qopp (x : Z * Z) : Z * Z := (- fst x, snd x).
Definition qmul (x y : Z * Z) : Z * Z := (fst x * fst y, snd x + snd y).
Definition qmin (x y : Z * Z) : Z * Z := if qleb x y then x else y.
Definition qmax (x y : Z * Z) : Z * Z := if qleb x y then y else x.
(** Quotient with at least 54 significant bits, rounded down and up; square root
    rounded down and up. *)
Definition qbits (m1 m2 : Z) : Z := Z.max 0 (55 + Z.log2 (Z.abs m2) - Z.log2 (Z.abs m1)).
Definition qdivd (x y : Z * Z) : Z * Z :=
  let k := qbits (fst x) (fst y) in (fst x * 2 ^ k / fst y, snd x - snd y - k).
Definition qdivu (x y : Z * Z) : Z * Z :=
  let k := qbits (fst x) (fst y) in (- ((- (fst x * 2 ^ k)) / fst y), snd x - snd y - k).
Definition sbits (x : Z * Z) : Z := let k := Z.max 0 (110 - Z.log2 (fst x)) in if Z.even (snd x - k) then k else k + 1.
Definition qsqrtd (x : Z * Z) : Z * Z := let k := sbits x in (Z.sqrt (fst x * 2 ^ k), (snd x - k) / 2).
Definition qsqrtu (x : Z * Z) : Z * Z := let k := sbits x in (Z.sqrt (fst x * 2 ^ k) + 1, (snd x - k) / 2).

Definition ilift (f : Z * Z -> Z * Z -> Z * Z -> Z * Z -> iv) (x y : iv) : iv :=
  match x, y with Some (a, b), Some (c, d) => f a b c d | _, _ => None end.
Definition iadd : iv -> iv -> iv := ilift (fun a b c d => hull (qadd a c) (qadd b d)).
Definition iopp (x : iv) : iv := match x with Some (a, b) => Some (qopp b, qopp a) | None => None end.
Definition isub (x y : iv) : iv := iadd x (iopp y).
Definition min4 (a b c d : Z * Z) := qmin (qmin a b) (qmin c d).
Definition max4 (a b c d : Z * Z) := qmax (qmax a b) (qmax c d).
Definition imul : iv -> iv -> iv := ilift (fun a b c d =>
  hull (min4 (qmul a c) (qmul a d) (qmul b c) (qmul b d)) (max4 (qmul a c) (qmul a d) (qmul b c) (qmul b d))).
Definition idiv : iv -> iv -> iv := ilift (fun a b c d =>
  if (0 <? fst c) || (fst d <? 0)
  then hull (min4 (qdivd a c) (qdivd a d) (qdivd b c) (qdivd b d)) (max4 (qdivu a c) (qdivu a d) (qdivu b c) (qdivu b d))
  else None).
Definition isqrt (x : iv) : iv :=
  match x with Some (a, b) => if 0 <=? fst a then hull (qsqrtd a) (qsqrtu b) else None | None => None end.

(** Sums and products in any order: the exact bounds, widened by a bound on the
    sum of all rounding errors; no intermediate result may overflow. *)
Definition qmag (i : ends) : Z * Z := qmax (Z.abs (fst (fst i)), snd (fst i)) (Z.abs (fst (snd i)), snd (snd i)).
Definition widen (n : nat) (i : ends) (mag err : Z * Z) (most : Z) : iv :=
  if Z.of_nat n <=? most
  then match up (qadd mag err) with Some _ => hull (qadd (fst i) (qopp err)) (qadd (snd i) err) | None => None end
  else None.
Definition isum (l : list iv) : iv :=
  match alls l with
  | None => None
  | Some q =>
    let n := Nat.pred (length q) in
    let mag := fold_right (fun i r => qadd (qmag i) r) (0, 0) q in
    widen n (fold_right (fun i r => (qadd (fst i) (fst r), qadd (snd i) (snd r))) ((0, 0), (0, 0)) q)
          mag (qmul (Z.of_nat n, -51) mag) (2 ^ 51)
  end.
Definition qmuls (i r : ends) : ends :=
  let '(a, b) := i in let '(c, d) := r in
  (min4 (qmul a c) (qmul a d) (qmul b c) (qmul b d), max4 (qmul a c) (qmul a d) (qmul b c) (qmul b d)).
Definition iprod (l : list iv) : iv :=
  match alls l with
  | None => None
  | Some q =>
    let n := Nat.pred (length q) in
    let mag := fold_right (fun i r => qmul (qmax (1, 0) (qmag i)) r) (1, 0) q in
    widen n (fold_right qmuls ((1, 0), (1, 0)) q) mag (qmul (Z.of_nat n, -50) mag) (2 ^ 23)
  end.

(** Comparisons that are certain. *)
Definition iltb (x y : iv) : bool := match x, y with Some (_, b), Some (c, _) => negb (qleb c b) | _, _ => false end.
Definition ileb (x y : iv) : bool := match x, y with Some (_, b), Some (c, _) => qleb b c | _, _ => false end.

(** Enclosures of the functions of the mathematical library, and of the literal
    1.1283791670955126 (unary.hpp:269). *)
Record encl := Encl {
  ie_sin : ends -> iv; ie_cos : ends -> iv; ie_tan : ends -> iv;
  ie_asin : ends -> iv; ie_acos : ends -> iv; ie_atan : ends -> iv;
  ie_exp : ends -> iv; ie_log : ends -> iv; ie_erf : ends -> iv;
  ie_sinh : ends -> iv; ie_cosh : ends -> iv; ie_tanh : ends -> iv;
  ie_pow : ends -> Z -> iv; ie_erfc : iv
}.
Definition ifun (f : ends -> iv) (x : iv) : iv := match x with Some i => f i | None => None end.
Definition ila : linalg iv :=
  LinAlg iv (fun _ _ => None) (fun _ _ => false) (fun n _ => repeat None (n * n))
         (fun n _ => repeat None n) (fun _ _ => false) (fun n _ => repeat None (n * n))
         (fun _ _ => None) (fun _ _ => false) (fun n _ => repeat None (n * n)).
Definition Ival (F : encl) : num :=
  Num iv (Some ((0, 0), (0, 0))) (Some ((1, 0), (1, 0))) (Some ((1, -1), (1, -1))) (ie_erfc F)
      (fun z => hull (z, 0) (z, 0)) None None
      iadd isub imul idiv iopp (fun _ => None)
      (ifun (ie_sin F)) (ifun (ie_cos F)) (ifun (ie_tan F)) (ifun (ie_asin F)) (ifun (ie_acos F)) (ifun (ie_atan F)) (ifun (ie_exp F)) (ifun (ie_log F))
      isqrt (ifun (ie_erf F)) (ifun (ie_sinh F)) (ifun (ie_cosh F)) (ifun (ie_tanh F)) (fun x z => ifun (fun i => ie_pow F i z) x)
      iltb ileb (fun _ _ => false) (fun _ => false) isum iprod ila.
