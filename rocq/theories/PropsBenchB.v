(** Property theorems for C68: the programs of benchmark/sum_benchmark.cpp,
    prod_benchmark.cpp and constant_eager_benchmark.cpp compute the values and
    gradients of the functions they stand for, for every number of variables and
    every sample.  (C08_benchmark solves the loop of ad_benchmark.cpp.) *)
From Coq Require Import Reals Lra.
From Coquelicot Require Import Coquelicot.
From Verif Require Import Base Num Expr Node Stat Machine Wf Session Tape XR Spec RSess Grad Train LKM LGrd Progs BenchB LBenchB LBenchD.
Local Open Scope R_scope.
Set Bullet Behavior "Strict Subproofs".

(** ** sum_benchmark.cpp:15-22: f_test(x) = S^2 + sin S, S the sum of the squares. *)
Theorem C68_sum (la : linalg xr) (LA : la_ok la) bv ba n D rho al s e m (S := sumn n (fun i => rho i * rho i)) :
  session la bv ba (sumb_u n) D e m -> mreal la (sumb_u n) m D rho al -> al n = 0 -> al (Datatypes.S n) = 0 ->
  exists e2 m2, @autodiff (XR la) e [Fin s] m = Ok (e2, m2, [Fin (S ^ 2 + sin S)]) /\
    forall o, (o < n)%nat -> m2 0%nat o = Some (Fin (rho o)) /\
      m2 1%nat o = Some (Fin (al o + s * ((2 * S + cos S) * (2 * rho o)))).
Proof. exact (sumb_thm la LA bv ba n D rho al s e m). Qed.
Print Assumptions C68_sum.
(** ** prod_benchmark.cpp:15-22: f_test(x) = P^2 + cos P, P the product of the
    squares; also where some x are zero, as they are in the benchmark. *)
Theorem C68_prod (la : linalg xr) (LA : la_ok la) bv ba n D rho al s e m (P := prodn n (fun i => rho i * rho i)) :
  session la bv ba (prodb_u n) D e m -> mreal la (prodb_u n) m D rho al -> al n = 0 -> al (S n) = 0 ->
  exists e2 m2, @autodiff (XR la) e [Fin s] m = Ok (e2, m2, [Fin (P ^ 2 + cos P)]) /\
    forall o, (o < n)%nat -> m2 0%nat o = Some (Fin (rho o)) /\
      m2 1%nat o = Some (Fin (al o + s * ((2 * P - sin P) *
        (2 * rho o * prodn n (fun i => if (i =? o)%nat then 1 else rho i * rho i))))).
Proof. exact (prodb_thm la LA bv ba n D rho al s e m). Qed.
Print Assumptions C68_prod.
(** ** The benchmark loops of these two, which never reset the adjoints of w:
    every call returns the right value, and the k calls together leave
    k(k+1)(k+2)/6 times the gradient in x instead of k times it. *)
Theorem C68_sum_loop (la : linalg xr) (LA : la_ok la) bv ba n D rho al k e m (S := sumn n (fun i => rho i * rho i)) :
  session la bv ba (sumb_u n) D e m -> mreal la (sumb_u n) m D rho al -> al n = 0 -> al (Datatypes.S n) = 0 ->
  exists e2 m2, @adiffs (XR la) (repeat [Fin 1] k) e m = Ok (e2, m2, repeat [Fin (S ^ 2 + sin S)] k) /\
    forall o, (o < n)%nat -> m2 1%nat o = Some (Fin (al o + INR k * (INR k + 1) * (INR k + 2) / 6 * ((2 * S + cos S) * (2 * rho o)))).
Proof. exact (sumb_loop la LA bv ba n D rho al k e m). Qed.
Print Assumptions C68_sum_loop.
Theorem C68_prod_loop (la : linalg xr) (LA : la_ok la) bv ba n D rho al k e m (P := prodn n (fun i => rho i * rho i)) :
  session la bv ba (prodb_u n) D e m -> mreal la (prodb_u n) m D rho al -> al n = 0 -> al (S n) = 0 ->
  exists e2 m2, @adiffs (XR la) (repeat [Fin 1] k) e m = Ok (e2, m2, repeat [Fin (P ^ 2 + cos P)] k) /\
    forall o, (o < n)%nat -> m2 1%nat o = Some (Fin (al o + INR k * (INR k + 1) * (INR k + 2) / 6 * ((2 * P - sin P) *
      (2 * rho o * prodn n (fun i => if (i =? o)%nat then 1 else rho i * rho i))))).
Proof. exact (prodb_loop la LA bv ba n D rho al k e m). Qed.
Print Assumptions C68_prod_loop.
(** ** The log-likelihood of a regression, residuals z, standard deviation a
    variable: one call, and the k calls of the loop, which add up. *)
Theorem C68_regression (la : linalg xr) (LA : la_ok la) bv ba n v v2 D rho al s e m
    (z := fun i => v i - rho 0%nat * v2 i) (d := rho 1%nat) :
  session la bv ba (regr_u n v v2) D e m -> mreal la (regr_u n v v2) m D rho al -> (1 <= n)%nat -> d <> 0 ->
  exists e2 m2, @autodiff (XR la) e [Fin s] m = Ok (e2, m2, [Fin (sumn n (fun i => - / 2 * (z i / d) ^ 2))]) /\
    m2 1%nat 0%nat = Some (Fin (al 0%nat + s * sumn n (fun i => z i * v2 i / d ^ 2))) /\
    m2 1%nat 1%nat = Some (Fin (al 1%nat + s * sumn n (fun i => z i ^ 2 / d ^ 3))).
Proof. exact (regr_thm la LA bv ba n v v2 D rho al s e m). Qed.
Print Assumptions C68_regression.
Theorem C68_regression_loop (la : linalg xr) (LA : la_ok la) bv ba n v v2 D rho al k e m
    (z := fun i => v i - rho 0%nat * v2 i) (d := rho 1%nat) :
  session la bv ba (regr_u n v v2) D e m -> mreal la (regr_u n v v2) m D rho al -> (1 <= n)%nat -> d <> 0 ->
  exists e2 m2, run (repeat (OpDiff (N := XR la) [Fin 1]) k) (e, m) = Ok (e2, m2) /\
    m2 1%nat 0%nat = Some (Fin (al 0%nat + INR k * sumn n (fun i => z i * v2 i / d ^ 2))) /\
    m2 1%nat 1%nat = Some (Fin (al 1%nat + INR k * sumn n (fun i => z i ^ 2 / d ^ 3))).
Proof. exact (regr_loop la LA bv ba n v v2 D rho al k e m). Qed.
Print Assumptions C68_regression_loop.
(** The same with a constant standard deviation and the term - log d. *)
Theorem C68_constant_sigma (la : linalg xr) (LA : la_ok la) bv ba n d v v2 D rho al s e m
    (z := fun i => v i - rho 0%nat * v2 i) :
  session la bv ba (norm_u n d v v2) D e m -> mreal la (norm_u n d v v2) m D rho al -> (1 <= n)%nat -> 0 < d ->
  exists e2 m2, @autodiff (XR la) e [Fin s] m = Ok (e2, m2, [Fin (sumn n (fun i => - / 2 * (z i / d) ^ 2 - ln d))]) /\
    m2 1%nat 0%nat = Some (Fin (al 0%nat + s * sumn n (fun i => z i * v2 i / d ^ 2))).
Proof. exact (norm_thm la LA bv ba n d v v2 D rho al s e m). Qed.
Print Assumptions C68_constant_sigma.
Theorem C68_constant_sigma_loop (la : linalg xr) (LA : la_ok la) bv ba n d v v2 D rho al k e m
    (z := fun i => v i - rho 0%nat * v2 i) :
  session la bv ba (norm_u n d v v2) D e m -> mreal la (norm_u n d v v2) m D rho al -> (1 <= n)%nat -> 0 < d ->
  exists e2 m2, run (repeat (OpDiff (N := XR la) [Fin 1]) k) (e, m) = Ok (e2, m2) /\
    m2 1%nat 0%nat = Some (Fin (al 0%nat + INR k * sumn n (fun i => z i * v2 i / d ^ 2))).
Proof. exact (norm_loop la LA bv ba n d v v2 D rho al k e m). Qed.
Print Assumptions C68_constant_sigma_loop.

(** The benchmarks' own numbers: ten variables x_i = i (so one of them is 0);
    w = (2, 1) and a sample of 1000 numbers v_i = v2_i = i. *)
Definition x68 (o : nat) : R := if (o <? 10)%nat then INR o else 0.
Definition w68 (o : nat) : R := match o with 0%nat => 2 | _ => 1 end.
Example C68_nonvacuous : exists es ms ep mp er mr en mn, la_ok exact_la /\
  session exact_la 2 3 (sumb_u 10) (fun _ => 0) es ms /\ mreal exact_la (sumb_u 10) ms (fun _ => 0) x68 (fun _ => 0) /\
  session exact_la 2 3 (prodb_u 10) (fun _ => 0) ep mp /\ mreal exact_la (prodb_u 10) mp (fun _ => 0) x68 (fun _ => 0) /\
  session exact_la 2 3 (regr_u 1000 INR INR) (fun _ => 0) er mr /\ mreal exact_la (regr_u 1000 INR INR) mr (fun _ => 0) w68 (fun _ => 0) /\
  session exact_la 2 3 (norm_u 1000 2 INR INR) (fun _ => 0) en mn /\ mreal exact_la (norm_u 1000 2 INR INR) mn (fun _ => 0) w68 (fun _ => 0) /\
  w68 1 <> 0.
Proof.
  assert (F : fresh 2 3) by (cbv; intuition discriminate).
  destruct (session_start exact_la exact_la_ok 2 3 (sumb_u 10) (fun _ => 0) x68 (fun _ => 0) F (two_ok _ (KSumI Scl) USin 10 (or_introl eq_refl) (or_introl eq_refl)) eq_refl) as [es [ms [S1 S2]]].
  destruct (session_start exact_la exact_la_ok 2 3 (prodb_u 10) (fun _ => 0) x68 (fun _ => 0) F (two_ok _ (KProdI Scl) UCos 10 (or_intror eq_refl) (or_intror eq_refl)) eq_refl) as [ep [mp [P1 P2]]].
  destruct (session_start exact_la exact_la_ok 2 3 (regr_u 1000 INR INR) (fun _ => 0) w68 (fun _ => 0) F (range_ok _ _ _ 1000 (regr1_plain INR INR)) (range_ctor _ _ _ 1000 (regr1_plain INR INR) (fun _ => eq_refl))) as [er [mr [R1 R2]]].
  destruct (session_start exact_la exact_la_ok 2 3 (norm_u 1000 2 INR INR) (fun _ => 0) w68 (fun _ => 0) F (range_ok _ _ _ 1000 (norm1_plain 2 INR INR)) (range_ctor _ _ _ 1000 (norm1_plain 2 INR INR) (fun _ => eq_refl))) as [en [mn [N1 N2]]].
  exists es, ms, ep, mp, er, mr, en, mn. repeat (split; [assumption || exact exact_la_ok|]). cbn. lra.
Qed.
