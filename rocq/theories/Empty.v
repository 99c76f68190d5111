(** Log-densities of an empty sample. *)
From Verif Require Import Base Num Expr Node Stat Machine Wf.
Section Empty.
Context {T : Type}.
Notation U := (expr T unit).
Definition v0 : U := EVar (Sh Vec 0 1) 0.
(** The vector forms of normal_adj_log_pdf (normal.hpp:777-797), cauchy_adj_log_pdf
    (cauchy.hpp:455-475), uniform_adj_log_pdf (uniform.hpp:543-563) and
    bernoulli_adj_log_pdf (bernoulli.hpp:383-398), where every vector is a variable of
    size 0 and the scalar operands are variables at 0 (location, lower end) and 1
    (scale, upper end, probability). *)
Definition emp (q : stat) : U :=
  let a := EVar scl 0 in
  let b := EVar scl 1 in
  EComp (KStat q) tt
    match q with
    | NormVSS | CauVSS | UniVSS => [v0; a; b]
    | NormVSV | CauVSV | UniVSV => [v0; a; v0]
    | NormVVS | CauVVS | UniVVS => [v0; v0; b]
    | BerVS => [v0; b]
    | BerVV => [v0; v0]
    | _ => [v0; v0; v0]
    end.
(** The same with a constant sample. *)
Definition empc : U := EComp (KStat NormVSS) tt [ECst (Sh Vec 0 1) []; EVar scl 0; EVar scl 1].
End Empty.
