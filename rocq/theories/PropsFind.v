(** Property theorems for C16: which nodes can have if_else below them. *)
From Verif Require Import Base Num Expr Node Stat Machine Wf LBase LKind Session LUser LFind LFindIf.

(** ** C16, refuted for log-densities already by evaluate: an if_else as scale of a
    normal or Cauchy density, as any operand of a uniform or as the probability of
    a Bernoulli density is read through its null view (normal.hpp:174-176,
    cauchy.hpp:168-170, uniform.hpp:138-153, bernoulli.hpp:126-143). *)
Theorem C16_densities_refuted (N : num) (c : N) (f : nat -> N) :
  (forall d, In d [NormSSS; CauSSS; UniSSS] ->
     bind_eval N (sta3 N d (EVar scl 0) (EVar scl 1) (vif N scl c 2 3)) (mem8 N f) = Err UBnull) /\
  bind_eval N (sta3 N UniSSS (vif N scl c 2 3) (EVar scl 0) (EVar scl 1)) (mem8 N f) = Err UBnull /\
  bind_eval N (EComp (KStat BerSS) tt [EVar scl 0; vif N scl c 2 3]) (mem8 N f) = Err UBnull.
Proof. exact (conj (fun d => scale_if N d c f) (conj (uni_if N c f) (ber_if N c f))). Qed.
Print Assumptions C16_densities_refuted.

(** An if_else as the first operand of a normal or Cauchy density is only read
    through the reference its feval returns, so evaluate works. *)
Theorem C16_first_operand (N : num) (c : N) (f : nat -> N) d : In d [NormSSS; CauSSS] ->
  exists r, bind_eval N (sta3 N d (vif N scl c 2 3) (EVar scl 0) (EVar scl 1)) (mem8 N f) = Ok r.
Proof. exact (first_if N d c f). Qed.
Print Assumptions C16_first_operand.

(** sum never asks its operand for its value again (sum.hpp:155-185), so autodiff of
    sum(if_else(c, v, w)) works. *)
Theorem C16_sum (N : num) (c s : N) (f : nat -> N) : exists r, bind_diff N (sum_if N c) (mem8 N f) [s] = Ok r.
Proof. exact (sum_if_ok N c f s). Qed.
Print Assumptions C16_sum.
(** The variables these expressions mention are all there. *)
Example C16_avail (N : num) (c : N) (f : nat -> N) : avail (sum_if N c) (mem8 N f) /\
  avail (sta3 N NormSSS (EVar scl 0) (EVar scl 1) (vif N scl c 2 3)) (mem8 N f).
Proof.
  split; (split; cbn; intros o Ho; [|tauto]; repeat (destruct Ho as [<-|Ho]; [split; discriminate|]); destruct Ho).
Qed.
