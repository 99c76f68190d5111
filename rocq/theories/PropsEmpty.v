(** Property theorems C66: log-densities of an empty sample. *)
From Coq Require Import Reals Lra.
From Verif Require Import Base Num Expr Node Stat Machine Wf Session Tape XR Spec RSess Grad LKM LGrd LBase LKind LUser LFind Progs Empty LEmpty.
Open Scope R_scope.
Set Bullet Behavior "Strict Subproofs".

(** ** Eleven of the fourteen vector forms: the value is the empty sum 0.  [good] lists
    them: all normal forms without a covariance matrix, all Cauchy and Bernoulli
    forms, and the uniform form with two vector ends. *)
Theorem C66_value (la : linalg xr) (LA : la_ok la) bv ba q D rho al e m :
  In q good -> 0 < rho 1%nat < 1 -> session la bv ba (emp q) D e m -> mreal la (emp q) m D rho al ->
  exists e2 m2, @evaluate (XR la) e m = Ok (e2, m2, [Fin 0]).
Proof. exact (emp_value la LA bv ba q D rho al e m). Qed.
Print Assumptions C66_value.
(** For the normal and the uniform ones autodiff leaves all adjoints as they are, whatever
    the seed. *)
Theorem C66_gradient_partial (la : linalg xr) (LA : la_ok la) bv ba q D rho al s e m :
  In q [NormVSS; NormVVS; NormVSV; NormVVV; UniVVV] -> 0 < rho 1%nat < 1 ->
  session la bv ba (emp q) D e m -> mreal la (emp q) m D rho al ->
  exists e2 m2, @autodiff (XR la) e [Fin s] m = Ok (e2, m2, [Fin 0]) /\
    forall o, In o (refs (emp (T := xr) q)) -> m2 0%nat o = Some (Fin (rho o)) /\ m2 1%nat o = Some (Fin (al o)).
Proof. exact (emp_grad la LA bv ba q D rho al s e m). Qed.
Print Assumptions C66_gradient_partial.
Example C66_nonvacuous : exists e m, la_ok exact_la /\ In NormVSS good /\ refs (emp (T := xr) NormVSS) = [0; 1]%nat /\
  session exact_la 2 3 (emp NormVSS) (fun _ => 0) e m /\ mreal exact_la (emp NormVSS) m (fun _ => 0) (fun _ => / 2) (fun _ => 7) /\
  0 < / 2 < 1.
Proof.
  destruct (session_start exact_la exact_la_ok 2 3 (emp NormVSS) (fun _ => 0) (fun _ => / 2) (fun _ => 7)) as [e [m [H1 H2]]].
  { cbv; intuition discriminate. }
  { apply emp_ok. now left. }
  { reflexivity. }
  exists e, m. split; [exact exact_la_ok|]. split; [now left|]. split; [reflexivity|]. split; [exact H1|]. split; [exact H2|lra].
Qed.

(** ** Refuted for the other uniform forms: they ask Eigen for the least or greatest
    entry of the sample (uniform.hpp:257-260, 351-354, 444-447), which asserts that
    there is one.  In every arithmetic. *)
Theorem C66_uniform_refuted (N : num) (f : nat -> N) q :
  In q [UniVSS; UniVSV; UniVVS] -> bind_eval N (emp q) (mem8 N f) = Err UBshape.
Proof. exact (uni_empty N f q). Qed.
Print Assumptions C66_uniform_refuted.
(** Refuted for a constant sample with scalar mean and deviation: the constructor
    takes the mean of the sample (normal.hpp:218-222). *)
Theorem C66_normal_refuted (N : num) (f : nat -> N) :
  bound 2 3 (any N) (any N) (empc (T := N)) (mem8 N f) = Err UBshape.
Proof. exact (norm_empty N f). Qed.
Print Assumptions C66_normal_refuted.
(** The variables these mention are there. *)
Example C66_avail (N : num) (f : nat -> N) : avail (emp (T := N) UniVSS) (mem8 N f) /\ avail (empc (T := N)) (mem8 N f).
Proof. split; (split; cbn; intros o Ho; [|tauto]; repeat (destruct Ho as [<-|Ho]; [split; discriminate|]); destruct Ho). Qed.
