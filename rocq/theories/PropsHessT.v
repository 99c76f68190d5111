(** Property theorem C70: second derivatives of the functions of
    test/reverse/core/hessian_unittest.cpp, in closed form. *)
From Coq Require Import ZArith Reals Lra List Lia.
From Coquelicot Require Import Coquelicot.
From Verif Require Import Base Num Expr Node Stat Machine Wf Session Tape XR Spec RSess Grad LReal LDiff LKM Forward Ieee Hess HessSpec LHess HessT LHessT.
Import ListNotations.
Set Bullet Behavior "Strict Subproofs".
Local Open Scope R_scope.

(** one_dimensional, 54-75: sin(x) exp(x) - x + tan(x), tangent of x set to 1, one
    autodiff.  The formulas are the test's [deriv] and [hessian]; it takes the first
    from the tangent of the value and the second from the tangent of the adjoint. *)
Theorem C70_one (la : linalg xr) (LA : la_ok la) bv ba e m D rho (x := rho 0%nat) : cos x <> 0 ->
  @used (Duo (XR la)) bv ba (uD hess_f) e m -> dreal hess_f m D rho (fun _ => 1) (fun _ => 0) (fun _ => 0) ->
  let deriv := (cos x + sin x) * exp x - 1 + 1 / (cos x * cos x) in
  let hessian := 2 * (cos x * exp x + sin x / (cos x * cos x * cos x)) in
  exists e2 m2, @autodiff (Duo (XR la)) e [du 1 0] m = Ok (e2, m2, [du (sin x * exp x - x + tan x) deriv]) /\ m2 1%nat 0%nat = Some (du deriv hessian).
Proof. exact (hf1_thm la LA bv ba e m D rho). Qed.
Print Assumptions C70_one.
(** The same function through the loop of hessian.hpp, whatever the adjoints held. *)
Theorem C70_one_loop (la : linalg xr) (LA : la_ok la) bv ba e m D rho al be (x := rho 0%nat) : cos x <> 0 ->
  @used (Duo (XR la)) bv ba (uD hess_f) e m -> dreal hess_f m D rho (fun _ => 0) al be ->
  exists e2 m2, hess (XR la) [0%nat] [0%nat] None [0%nat] e m = Ok (e2, m2,
    [Fin ((cos x + sin x) * exp x - 1 + 1 / (cos x * cos x))], [[Fin (2 * (cos x * exp x + sin x / (cos x * cos x * cos x)))]]).
Proof. exact (hf_thm la LA bv ba e m D rho al be). Qed.
Print Assumptions C70_one_loop.
Example C70_one_nonvacuous : exists e m, cos 1 <> 0 /\
  @used (Duo (XR exact_la)) 2 3 (uD hess_f) e m /\ dreal hess_f m (fun _ => 0) (fun _ => 1) (fun _ => 1) (fun _ => 0) (fun _ => 0).
Proof.
  destruct (dual_run exact_la hess_f eq_refl eq_refl (fun _ => 0) (fun _ => 1) (fun _ => 1) (fun _ => 0) (fun _ => 0)) as [e [m [H1 H2]]].
  exists e, m. split; [|split; [exact H1|exact H2]]. apply Rgt_not_eq, cos_gt_0; pose proof PI2_1; lra.
Qed.

(** two_dimensional, 78-87: sin(x) cos(y) *)
Theorem C70_two (la : linalg xr) (LA : la_ok la) bv ba e m D rho al be (x := rho 0%nat) (y := rho 1%nat) :
  @used (Duo (XR la)) bv ba (uD hess_g) e m -> dreal hess_g m D rho (fun _ => 0) al be ->
  exists e2 m2, hess (XR la) [0; 1]%nat [0; 1]%nat None [0; 1]%nat e m = Ok (e2, m2, [Fin (cos x * cos y); Fin (- (sin x * sin y))],
    [[Fin (- (sin x * cos y)); Fin (- (cos x * sin y))]; [Fin (- (cos x * sin y)); Fin (- (sin x * cos y))]]).
Proof. exact (hg_thm la LA bv ba e m D rho al be). Qed.
Print Assumptions C70_two.
(** At the test's point (pi/3, pi/6): exactly the numbers the test expects. *)
Theorem C70_two_test (la : linalg xr) (LA : la_ok la) bv ba e m D rho al be :
  rho 0%nat = PI / 3 -> rho 1%nat = PI / 6 -> @used (Duo (XR la)) bv ba (uD hess_g) e m -> dreal hess_g m D rho (fun _ => 0) al be ->
  exists e2 m2 g, hess (XR la) [0; 1]%nat [0; 1]%nat None [0; 1]%nat e m = Ok (e2, m2, g, [[Fin (-0.75); Fin (-0.25)]; [Fin (-0.25); Fin (-0.75)]]).
Proof. exact (hg_point la LA bv ba e m D rho al be). Qed.
Print Assumptions C70_two_test.
Example C70_two_nonvacuous : exists e m, let rho := fun o => match o with 0%nat => PI / 3 | _ => PI / 6 end in
  @used (Duo (XR exact_la)) 2 3 (uD hess_g) e m /\ dreal hess_g m (fun _ => 0) rho (fun _ => 0) (fun _ => 5) (fun _ => 7).
Proof. exact (dual_run exact_la hess_g eq_refl eq_refl (fun _ => 0) _ (fun _ => 0) (fun _ => 5) (fun _ => 7)). Qed.

(** multi_dimensional, 90-99: sin(x) + x x + y y + cos(z w) *)
Theorem C70_multi (la : linalg xr) (LA : la_ok la) bv ba e m D rho al be
  (x := rho 0%nat) (y := rho 1%nat) (z := rho 2%nat) (w := rho 3%nat) (s := sin (z * w)) (c := cos (z * w)) :
  @used (Duo (XR la)) bv ba (uD hess_h) e m -> dreal hess_h m D rho (fun _ => 0) al be ->
  exists e2 m2, hess (XR la) [0; 1; 2; 3]%nat [0; 1; 2; 3]%nat None [0; 1; 2; 3]%nat e m = Ok (e2, m2,
    [Fin (cos x + 2 * x); Fin (2 * y); Fin (- (s * w)); Fin (- (s * z))],
    [[Fin (2 - sin x); Fin 0; Fin 0; Fin 0]; [Fin 0; Fin 2; Fin 0; Fin 0];
     [Fin 0; Fin 0; Fin (- (c * w ^ 2)); Fin (- (s + c * (z * w)))]; [Fin 0; Fin 0; Fin (- (s + c * (z * w))); Fin (- (c * z ^ 2))]]).
Proof. exact (hh_thm la LA bv ba e m D rho al be). Qed.
Print Assumptions C70_multi.
Example C70_multi_nonvacuous : exists e m, let rho := fun o => INR o + 1 in
  @used (Duo (XR exact_la)) 2 3 (uD hess_h) e m /\ dreal hess_h m (fun _ => 0) rho (fun _ => 0) (fun _ => 5) (fun _ => 7).
Proof. exact (dual_run exact_la hess_h eq_refl eq_refl (fun _ => 0) _ (fun _ => 0) (fun _ => 5) (fun _ => 7)). Qed.
