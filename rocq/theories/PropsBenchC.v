(** Property theorems for C69: the programs of benchmark/normal_benchmark.cpp, a
    multivariate normal log-density with all operands variables, for every size. *)
From Coq Require Import Reals Lra.
From Coquelicot Require Import Coquelicot.
From Verif Require Import Base Num Expr Node Stat Machine Wf Session Tape XR Spec RSess Grad LKM LGrd Progs BenchC LBenchC.
Local Open Scope R_scope.
Set Bullet Behavior "Strict Subproofs".

(** ** One call: with S = sigma, B its inverse, d = x - mu, w = B d the value is
    - d' B d / 2 - log(det S) / 2 and the gradient - w, w, - (B - w w') / 2. *)
Theorem C69_normal (la : linalg xr) (LA : la_ok la) bv ba n D rho al s e m
    (S := fun i j => rho (n + n + (j * n + i))%nat) (B := minv n S) (d := fun i => rho i - rho (n + i)%nat)
    (w := fun i => sumn n (fun p => B i p * d p)) :
  session la bv ba (mvn_u n) D e m -> mreal la (mvn_u n) m D rho al -> posdef n S ->
  exists e2 m2, @autodiff (XR la) e [Fin s] m = Ok (e2, m2, [Fin (- (1 / 2) * quad n B d d - 1 / 2 * ln (det n S))]) /\
    (forall i, (i < n)%nat -> m2 1%nat i = Some (Fin (al i + s * - w i)) /\
       m2 1%nat (n + i)%nat = Some (Fin (al (n + i)%nat + s * w i))) /\
    forall i j, (i < n)%nat -> (j < n)%nat -> m2 1%nat (n + n + (j * n + i))%nat =
       Some (Fin (al (n + n + (j * n + i))%nat + s * (- (1 / 2) * (B i j - w i * w j)))).
Proof. exact (mvn_thm la LA bv ba n D rho al s e m). Qed.
Print Assumptions C69_normal.
(** ** The k calls of the loop, which add up. *)
Theorem C69_normal_loop (la : linalg xr) (LA : la_ok la) bv ba n D rho al k e m
    (S := fun i j => rho (n + n + (j * n + i))%nat) (B := minv n S) (d := fun i => rho i - rho (n + i)%nat)
    (w := fun i => sumn n (fun p => B i p * d p)) :
  session la bv ba (mvn_u n) D e m -> mreal la (mvn_u n) m D rho al -> posdef n S ->
  exists e2 m2, run (repeat (OpDiff (N := XR la) [Fin 1]) k) (e, m) = Ok (e2, m2) /\
    (forall i, (i < n)%nat -> m2 1%nat i = Some (Fin (al i + INR k * - w i)) /\
       m2 1%nat (n + i)%nat = Some (Fin (al (n + i)%nat + INR k * w i))) /\
    forall i j, (i < n)%nat -> (j < n)%nat -> m2 1%nat (n + n + (j * n + i))%nat =
       Some (Fin (al (n + n + (j * n + i))%nat + INR k * (- (1 / 2) * (B i j - w i * w j)))).
Proof. exact (mvn_loop la LA bv ba n D rho al k e m). Qed.
Print Assumptions C69_normal_loop.
(** ** make_cov: whatever Random yields, the matrix is positive definite with
    determinant 10^(2n), so the [while] loop makes one turn. *)
Theorem C69_make_cov (la : linalg xr) (LA : la_ok la) n r :
  posdef n (make_cov n r) /\ det n (make_cov n r) = (10 ^ n) ^ 2 /\
  llt_ok _ la n (map Fin (mkm n n (make_cov n r))) = true.
Proof. exact (conj (cov_posdef n r) (conj (cov_det n r) (cov_llt la LA n r))). Qed.
Print Assumptions C69_make_cov.
(** ** The benchmark as it stands.  [x.get().Random()] and [mu.get().Random()]
    (lines 58-59, 90-91) call a static function and drop its result, so x and mu
    keep the zeros of the buffer: whatever the random matrix, the value is
    - n log 10, the adjoints of x and mu never change, and only sigma's do. *)
Theorem C69_benchmark (la : linalg xr) (LA : la_ok la) bv ba n D rho al k q e m :
  session la bv ba (mvn_u n) D e m -> mreal la (mvn_u n) m D rho al ->
  (forall i, (i < n + n)%nat -> rho i = 0) ->
  (forall i j, (i < n)%nat -> (j < n)%nat -> rho (n + n + (j * n + i))%nat = make_cov n q i j) ->
  (exists e2 m2, @autodiff (XR la) e [Fin 1] m = Ok (e2, m2, [Fin (- (INR n * ln 10))])) /\
  exists e2 m2, run (repeat (OpDiff (N := XR la) [Fin 1]) k) (e, m) = Ok (e2, m2) /\
    (forall i, (i < n + n)%nat -> m2 1%nat i = Some (Fin (al i))) /\
    forall i j, (i < n)%nat -> (j < n)%nat -> m2 1%nat (n + n + (j * n + i))%nat =
       Some (Fin (al (n + n + (j * n + i))%nat - INR k / 2 * minv n (make_cov n q) i j)).
Proof. exact (cov_bench la LA bv ba n D rho al k q e m). Qed.
Print Assumptions C69_benchmark.

(** The benchmark's first size, 10, the random numbers 1/(1 + i + j); and x = (1, 0),
    mu = (0, 3), sigma = [[2,1],[1,2]] for the general theorems. *)
Definition r69 : mat := fun i j => / (1 + INR i + INR j).
Definition x69 (o : nat) : R :=
  if (o <? 20)%nat then 0 else make_cov 10 r69 ((o - 20) mod 10)%nat ((o - 20) / 10)%nat.
Definition y69 (o : nat) : R := nth o [1; 0; 0; 3; 2; 1; 1; 2] 0.
Example C69_nonvacuous : exists e m f p, la_ok exact_la /\
  session exact_la 2 3 (mvn_u 10) (fun _ => 0) e m /\ mreal exact_la (mvn_u 10) m (fun _ => 0) x69 (fun _ => 0) /\
  (forall i, (i < 10 + 10)%nat -> x69 i = 0) /\
  (forall i j, (i < 10)%nat -> (j < 10)%nat -> x69 (10 + 10 + (j * 10 + i))%nat = make_cov 10 r69 i j) /\
  session exact_la 2 3 (mvn_u 2) (fun _ => 0) f p /\ mreal exact_la (mvn_u 2) p (fun _ => 0) y69 (fun _ => 0) /\
  posdef 2 (fun i j => y69 (2 + 2 + (j * 2 + i))%nat).
Proof.
  assert (F : fresh 2 3) by (cbv; intuition discriminate).
  destruct (session_start exact_la exact_la_ok 2 3 (mvn_u 10) (fun _ => 0) x69 (fun _ => 0) F (mvn_okx _ 10) eq_refl) as [e [m [S1 S2]]].
  destruct (session_start exact_la exact_la_ok 2 3 (mvn_u 2) (fun _ => 0) y69 (fun _ => 0) F (mvn_okx _ 2) eq_refl) as [f [p [P1 P2]]].
  exists e, m, f, p. split; [exact exact_la_ok|]. do 2 (split; [assumption|]). split; [|split; [|split; [assumption|split; [assumption|]]]].
  - intros i Hi. unfold x69. now rewrite (proj2 (Nat.ltb_lt i 20) Hi).
  - intros i j Hi Hj. unfold x69. replace (10 + 10 + (j * 10 + i) <? 20)%nat with false by (symmetry; apply Nat.ltb_ge; lia).
    replace (10 + 10 + (j * 10 + i) - 20)%nat with (i + j * 10)%nat by lia.
    rewrite Nat.mod_add, Nat.mod_small, Nat.div_add, Nat.div_small by lia. reflexivity.
  - split.
    + intros i j Hi Hj. destruct i as [|[|i]], j as [|[|j]]; try lia; reflexivity.
    + intros x [i [Hi Hx]]. unfold quad, sumn, y69; cbn.
      assert (Q : x 0%nat <> 0 \/ x 1%nat <> 0) by (destruct i as [|[|i]]; [tauto|tauto|lia]).
      assert (0 <= x 0%nat * x 0%nat) by apply Rle_0_sqr. assert (0 <= x 1%nat * x 1%nat) by apply Rle_0_sqr.
      assert (0 <= (x 0%nat + x 1%nat) * (x 0%nat + x 1%nat)) by apply Rle_0_sqr.
      assert (0 < x 0%nat * x 0%nat + x 1%nat * x 1%nat).
      { destruct Q as [Q|Q]; apply Rsqr_pos_lt in Q; unfold Rsqr in Q; lra. }
      lra.
Qed.
