(** What the theorems about interval runs say: membership of a double and of a
    real number in an interval, and sound enclosures of library functions. *)
From Coq Require Import ZArith Reals List.
From Flocq Require Import Core BinarySingleNaN.
From Verif Require Import Base Num Expr Machine Wf Session Ieee IeeeSpec Ival XR.
Local Open Scope R_scope.

(** Between the endpoints. *)
Definition within (i : iv) (r : R) : Prop :=
  match i with Some (a, b) => dval a <= r <= dval b | None => True end.
Definition inB (i : iv) (y : b64) : Prop :=
  match i with Some _ => is_finite y = true /\ within i (B2R y) | None => True end.

(** [E] encloses, on all numbers of the interval, the double function [f]; the
    real function [g], which must be defined ([p]) there if [E] has an answer. *)
Definition enclB (E : ends -> iv) (f : b64 -> b64) : Prop := forall i x, inB (Some i) x -> inB (E i) (f x).
Definition enclR (E : ends -> iv) (p : R -> Prop) (g : R -> R) : Prop :=
  forall i r, within (Some i) r -> E i <> None -> p r /\ within (E i) (g r).
(** Enclosures sound for a library [L] under rounding mode [md] and for the
    mathematical functions. *)
Definition soundB (F : encl) (md : mode) (L : libm) : Prop :=
  enclB (ie_sin F) (lm_sin L) /\ enclB (ie_cos F) (lm_cos L) /\ enclB (ie_tan F) (lm_tan L) /\
  enclB (ie_asin F) (lm_asin L) /\ enclB (ie_acos F) (lm_acos L) /\ enclB (ie_atan F) (lm_atan L) /\
  enclB (ie_exp F) (lm_exp L) /\ enclB (ie_log F) (lm_log L) /\ enclB (ie_erf F) (lm_erf L) /\
  enclB (ie_sinh F) (lm_sinh L) /\ enclB (ie_cosh F) (lm_cosh L) /\ enclB (ie_tanh F) (lm_tanh L) /\
  (forall z, enclB (fun i => ie_pow F i z) (fun x => lm_pow L x z)) /\
  inB (ie_erfc F) (nerfc (B64 md L)).
Definition soundR (F : encl) : Prop :=
  let all (r : R) := True in
  enclR (ie_sin F) all sin /\ enclR (ie_cos F) all cos /\ enclR (ie_tan F) (fun r => cos r <> 0) tan /\
  enclR (ie_asin F) (fun r => -1 <= r <= 1) asin /\ enclR (ie_acos F) (fun r => -1 <= r <= 1) acos /\
  enclR (ie_atan F) all atan /\ enclR (ie_exp F) all exp /\ enclR (ie_log F) (fun r => 0 < r) ln /\
  enclR (ie_erf F) all erf /\ enclR (ie_sinh F) all sinh /\ enclR (ie_cosh F) all cosh /\ enclR (ie_tanh F) all tanh /\
  (forall z, enclR (fun i => ie_pow F i z) (fun r => r <> 0 \/ (0 <= z)%Z) (fun r => powerRZ r z)) /\
  within (ie_erfc F) (2 / sqrt PI).
(** A cell of an interval run holds an interval containing the number. *)
Definition holds (c : option iv) (r : R) : Prop := exists i, c = Some i /\ within i r.
(** The cells an expression uses: values in block 0, adjoints in block 1, data in
    block 4. *)
Definition mholds {C A} (u : expr C A) (w : mem iv) (D rho al : nat -> R) : Prop :=
  (forall o, In o (refs u) -> holds (w 0%nat o) (rho o) /\ holds (w 1%nat o) (al o)) /\
  forall o, In o (drefs u) -> holds (w 4%nat o) (D o).
(** A double and a real number between [a] and [b]. *)
Definition both (a b : Z * Z) (y : b64) (r : R) : Prop :=
  is_finite y = true /\ dval a <= B2R y <= dval b /\ dval a <= r <= dval b.
