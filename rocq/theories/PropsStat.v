(** Property theorems C23, C25, C26 and C31-C35 where a node's value or gradient
    is not the ordinary one: infinite values, nodes that pass nothing on
    ([node_idle], Rules.v), and the cases in which the code is wrong. *)
From Coq Require Import Reals Lra.
From Coquelicot Require Import Coquelicot.
From Verif Require Import Base Num Expr Node Stat Machine Wf Session Tape XR Spec RSess Grad Rules LKM LNode LInf.
Open Scope R_scope.
Set Bullet Behavior "Strict Subproofs".
Notation D0 := (fun _ : nat => 0).
Notation X := (expr xr unit).

(** ** C23: powers at every x: infinity at 0 for negative exponents. *)
Theorem C23_pow_value (la : linalg xr) (LA : la_ok la) z (y : expr (XR la) unit) D rho :
  okexpr la (EComp (KPow z) tt [y]) -> dom D false false (y : X) rho ->
  node_value la (KPow z) [y] D rho (map (pow_x z) (val D (y : X) rho)).
Proof. exact (value_pow la LA z y D rho). Qed.
Print Assumptions C23_pow_value.
(** x = (0, 2), exponent -3 *)
Definition n23 : expr (XR exact_la) unit := EVar (Sh Vec 2 1) 0.
Definition rho23 (o : nat) : R := nth o [0; 2] 0.
Example C23_value_nonvacuous : live (EComp (KPow (-3)) tt [n23]) rho23 /\ dom D0 false false (n23 : X) rho23 /\
  map (pow_x (-3)) (val D0 (n23 : X) rho23) = [PInf; Fin (/ 8)].
Proof.
  split; [apply live_ok; [split; [reflexivity|split; [reflexivity|cbn; tauto]]|reflexivity]|].
  split; [exact I|]. cbn. unfold pow_x. cbn [Z.ltb Z.compare andb].
  destruct (Req_EM_T 0 0) as [_|N]; [|congruence]. destruct (Req_EM_T 2 0) as [N|_]; [lra|].
  unfold powerRZ. replace (2 ^ Pos.to_nat 3) with 8; [reflexivity|]. change (Pos.to_nat 3) with 3%nat. ring.
Qed.

(** ** C26: the determinant at a singular matrix: value 0 and no gradient. *)
Theorem C26_det_singular (la : linalg xr) (LA : la_ok la) (y : expr (XR la) unit) D rho (n := rows (shape_of (y : X))) :
  okexpr la (EComp (KDet LU) tt [y]) -> dom D false false (y : X) rho -> det n (m_of n (val D (y : X) rho)) = 0 ->
  node_idle la (KDet LU) [y] D rho [Fin 0].
Proof. exact (idle_det la LA y D rho). Qed.
Print Assumptions C26_det_singular.
Theorem C26_log_det_singular (la : linalg xr) (LA : la_ok la) (y : expr (XR la) unit) D rho (n := rows (shape_of (y : X))) :
  okexpr la (EComp (KLogDet LU) tt [y]) -> dom D false false (y : X) rho -> det n (m_of n (val D (y : X) rho)) = 0 ->
  node_idle la (KLogDet LU) [y] D rho [NInf].
Proof. exact (idle_logdet la LA y D rho). Qed.
Print Assumptions C26_log_det_singular.
(** Hence the gradient is wrong: at diag(1, 0) the derivative with respect to the
    last entry is 1, yet its adjoint stays 0. *)
Theorem C26_refuted : live u26 rho26 /\ det 2 (m_of 2 (val D0 (EVar (Sh Mat 2 2) 0 : X) rho26)) = 0 /\
  partials D0 (u26 : X) rho26 3 (fun k => if (k =? 0)%nat then 1 else 0) /\
  forall e1 m1, session exact_la 2 3 u26 D0 e1 m1 -> mreal exact_la u26 m1 D0 rho26 D0 ->
  exists e2 m2, autodiff e1 [Fin 1] m1 = Ok (e2, m2, [Fin 0]) /\ m2 1%nat 3%nat = Some (Fin 0).
Proof. exact w26. Qed.
Print Assumptions C26_refuted.

(** ** C31: non-positive sigma, sigma not positive definite. *)
Theorem C31_normal_ninf (la : linalg xr) (LA : la_ok la) q (es : list (expr (XR la) unit)) D rho (E := es : list X) :
  okexpr la (EComp (KStat q) tt es) -> In q fam_norm -> odomv la D es rho -> ~ opall D E rho 2 (fun r => 0 < r) ->
  node_idle la (KStat q) es D rho [NInf].
Proof. exact (ninf_normal la LA q es D rho). Qed.
Print Assumptions C31_normal_ninf.
Theorem C31_multivariate_ninf (la : linalg xr) (LA : la_ok la) q (es : list (expr (XR la) unit)) D rho (E := es : list X) :
  okexpr la (EComp (KStat q) tt es) -> In q fam_mvn -> odomv la D es rho ->
  symm (opdim E) (opmat D E rho 2) -> ~ posdef (opdim E) (opmat D E rho 2) ->
  node_idle la (KStat q) es D rho [NInf].
Proof. exact (ninf_mvn la LA q es D rho). Qed.
Print Assumptions C31_multivariate_ninf.
(** sigma = (2, 0); sigma = [[0,1],[1,0]] *)
Definition fs31 : list (expr (XR exact_la) unit) := [EVar (Sh Vec 2 1) 0; ECst scl [Fin 4]; EVar (Sh Vec 2 1) 2].
Definition fs31m : list (expr (XR exact_la) unit) := [EVar (Sh Vec 2 1) 0; ECst scl [Fin 4]; EVar (Sh Mat 2 2) 2].
Definition sig31 (o : nat) : R := nth o [5; 7; 2; 0] 1.
Definition sig31m (o : nat) : R := nth o [5; 7; 0; 1; 1; 0] 1.
Example C31_ninf_nonvacuous : live (EComp (KStat NormVSV) tt fs31) sig31 /\ odomv exact_la D0 fs31 sig31 /\
  ~ opall D0 (fs31 : list X) sig31 2 (fun r => 0 < r) /\
  live (EComp (KStat NormVSM) tt fs31m) sig31m /\ odomv exact_la D0 fs31m sig31m /\
  symm 2 (opmat D0 (fs31m : list X) sig31m 2) /\ ~ posdef 2 (opmat D0 (fs31m : list X) sig31m 2).
Proof.
  split; [apply live_ok; [split; [reflexivity|split; [reflexivity|cbn; repeat (split || constructor); try (eexists; reflexivity)]]|reflexivity]|].
  split; [cbn; repeat (split || constructor); try (eexists; reflexivity)|].
  split; [intros H; specialize (H 1%nat ltac:(cbn; lia)); cbn in H; lra|].
  split; [apply live_ok; [split; [reflexivity|split; [reflexivity|cbn; repeat (split || constructor); try (eexists; reflexivity)]]|reflexivity]|].
  split; [cbn; repeat (split || constructor); try (eexists; reflexivity)|].
  split; [intros i j Hi Hj; destruct i as [|[|i]], j as [|[|j]]; try lia; reflexivity|].
  intros [_ P]. specialize (P (fun i => if (i =? 0)%nat then 1 else 0)). unfold quad, sumn, opmat, m_of, el in P. cbn in P.
  assert (Q : exists i, (i < 2)%nat /\ (if (i =? 0)%nat then 1 else 0) <> 0) by (exists 0%nat; split; [lia|cbn; lra]).
  specialize (P Q). lra.
Qed.

(** ** C32: non-positive scale; the exact effect of any seed on vector nodes. *)
Theorem C32_cauchy_ninf (la : linalg xr) (LA : la_ok la) q (es : list (expr (XR la) unit)) D rho (E := es : list X) :
  okexpr la (EComp (KStat q) tt es) -> In q fam_cau -> odomv la D es rho -> ~ opall D E rho 2 (fun r => 0 < r) ->
  node_idle la (KStat q) es D rho [NInf].
Proof. exact (ninf_cauchy la LA q es D rho). Qed.
Print Assumptions C32_cauchy_ninf.
(** The location's contribution carries the square of the seed; so does part of
    the scale's. *)
Theorem C32_cauchy_seed (la : linalg xr) (LA : la_ok la) q (es : list (expr (XR la) unit)) D rho (E := es : list X)
    (x := opent D E rho 0) (m := opent D E rho 1) (g := opent D E rho 2) (n := opdim E) :
  okexpr la (EComp (KStat q) tt es) -> In q fam_cau -> q <> CauSSS -> odoms la D es rho -> opall D E rho 2 (fun r => 0 < r) ->
  node_adds la (KStat q) es D rho [Fin (sumn n (fun j => cau1 (x j) (m j) (g j)))]
    (fun seed d => sumn n (fun j => el seed 0 * cau_dx (x j) (m j) (g j) * dent E d 0 j +
       el seed 0 ^ 2 * cau_dm (x j) (m j) (g j) * dent E d 1 j +
       cau_code_dg (el seed 0) (x j) (m j) (g j) * dent E d 2 j)).
Proof. exact (seed_cauchy la LA q es D rho). Qed.
Print Assumptions C32_cauchy_seed.
(** cauchy([1], m, 1) at m = 0: the derivative is 1 but seed s adds s^2.  So the
    gradient is wrong for seed 2, and seeds do not act linearly (C09). *)
Theorem C32_seed_refuted : live u32 D0 /\ dom D0 true true (u32 : X) D0 /\
  partials D0 (u32 : X) D0 0 (fun k => if (k =? 0)%nat then 1 else 0) /\
  forall e1 m1 s, session exact_la 2 3 u32 D0 e1 m1 -> mreal exact_la u32 m1 D0 D0 D0 ->
  exists e2 m2, autodiff e1 [Fin s] m1 = Ok (e2, m2, map Fin (val D0 (u32 : X) D0)) /\ m2 1%nat 0%nat = Some (Fin (s ^ 2)).
Proof. exact w32. Qed.
Print Assumptions C32_seed_refuted.
Example C32_ninf_nonvacuous : live (EComp (KStat CauVSV) tt fs31) sig31 /\ odomv exact_la D0 fs31 sig31 /\
  ~ opall D0 (fs31 : list X) sig31 2 (fun r => 0 < r).
Proof.
  split; [apply live_ok; [split; [reflexivity|split; [reflexivity|cbn; repeat (split || constructor); try (eexists; reflexivity)]]|reflexivity]|].
  split; [cbn; repeat (split || constructor); try (eexists; reflexivity)|].
  intros H; specialize (H 1%nat ltac:(cbn; lia)); cbn in H; lra.
Qed.

(** ** C33: out of bounds in some component. *)
Theorem C33_uniform_ninf (la : linalg xr) (LA : la_ok la) q (es : list (expr (XR la) unit)) D rho (E := es : list X)
    (x := opent D E rho 0) (a := opent D E rho 1) (b := opent D E rho 2) :
  okexpr la (EComp (KStat q) tt es) -> In q fam_uni -> odomv la D es rho ->
  ~ (forall j, (j < opdim E)%nat -> a j < x j < b j) ->
  (q = UniVSV -> opconst E 0 = true -> opconst E 2 = true) -> (q = UniVVS -> opconst E 0 = true -> opconst E 1 = true) ->
  node_idle la (KStat q) es D rho [NInf].
Proof. exact (ninf_uniform la LA q es D rho). Qed.
Print Assumptions C33_uniform_ninf.
Example C33_ninf_nonvacuous : live (EComp (KStat UniVSV) tt fs31) sig31 /\ odomv exact_la D0 fs31 sig31 /\
  ~ (forall j, (j < opdim (fs31 : list X))%nat -> opent D0 (fs31 : list X) sig31 1 j < opent D0 (fs31 : list X) sig31 0 j < opent D0 (fs31 : list X) sig31 2 j).
Proof.
  split; [apply live_ok; [split; [reflexivity|split; [reflexivity|cbn; repeat (split || constructor); try (eexists; reflexivity)]]|reflexivity]|].
  split; [cbn; repeat (split || constructor); try (eexists; reflexivity)|].
  intros H; specialize (H 0%nat ltac:(cbn; lia)); cbn in H; lra.
Qed.
(** uniform([3/2], a, b) with vector b, built while b = 1: after b has been set
    to 2, a = 0, the value is still -infinity. *)
Theorem C33_stale_refuted (rho := fun o => nth o [0; 2] 0) : live u33s0 rho /\ rho 0%nat < 3 / 2 < rho 1%nat /\
  exists e1 m1, session exact_la 2 3 u33s0 D0 e1 m1 /\ mreal exact_la u33s0 m1 D0 rho D0 /\
  exists e2 m2, evaluate e1 m1 = Ok (e2, m2, [NInf]).
Proof. exact w33. Qed.
Print Assumptions C33_stale_refuted.

(** ** C34: Bernoulli log-pmf: some x neither 0 nor 1; any p otherwise. *)
Theorem C34_bernoulli_ninf (la : linalg xr) (LA : la_ok la) q (es : list (expr (XR la) unit)) D rho (E := es : list X)
    (x := opent D E rho 0) :
  okexpr la (EComp (KStat q) tt es) -> In q fam_ber -> odomv la D es rho ->
  ~ (forall j, (j < opdim E)%nat -> x j = 0 \/ x j = 1) -> node_idle la (KStat q) es D rho [NInf].
Proof. exact (ninf_bernoulli la LA q es D rho). Qed.
Print Assumptions C34_bernoulli_ninf.
(** The value is the sum of [ber_lp] (clipped p, possibly -infinity); components
    with p outside (0,1) contribute no gradient. *)
Theorem C34_bernoulli_clip (la : linalg xr) (LA : la_ok la) q (es : list (expr (XR la) unit)) D rho (E := es : list X)
    (x := opent D E rho 0) (p := opent D E rho 1) (n := opdim E) :
  okexpr la (EComp (KStat q) tt es) -> In q fam_ber -> odoms la D es rho ->
  (forall j, (j < n)%nat -> x j = 0 \/ x j = 1) ->
  node_adds la (KStat q) es D rho [xsumn n (fun j => ber_lp (x j) (p j))]
    (fun seed d => el seed 0 * sumn n (fun j => ber_dlp (x j) (p j) * dent E d 1 j)).
Proof. exact (clip_bernoulli la LA q es D rho). Qed.
Print Assumptions C34_bernoulli_clip.
(** x = (1, 1/2); then x = (1, 0), p = (3, 1/3): the first term is 0, the second log(2/3) *)
Definition fs34 : list (expr (XR exact_la) unit) := [ECst (Sh Vec 2 1) [Fin 1; Fin (1 / 2)]; EVar (Sh Vec 2 1) 0].
Definition gs34 : list (expr (XR exact_la) unit) := [ECst (Sh Vec 2 1) [Fin 1; Fin 0]; EVar (Sh Vec 2 1) 0].
Definition p34 (o : nat) : R := nth o [3; 1 / 3] 1.
Example C34_clip_nonvacuous : live (EComp (KStat BerVV) tt fs34) p34 /\ odomv exact_la D0 fs34 p34 /\
  ~ (forall j, (j < opdim (fs34 : list X))%nat -> opent D0 (fs34 : list X) p34 0 j = 0 \/ opent D0 (fs34 : list X) p34 0 j = 1) /\
  live (EComp (KStat BerVV) tt gs34) p34 /\ odoms exact_la D0 gs34 p34 /\
  (forall j, (j < opdim (gs34 : list X))%nat -> opent D0 (gs34 : list X) p34 0 j = 0 \/ opent D0 (gs34 : list X) p34 0 j = 1) /\
  xsumn 2 (fun j => ber_lp (opent D0 (gs34 : list X) p34 0 j) (opent D0 (gs34 : list X) p34 1 j)) = Fin (ln (1 - 1 / 3)).
Proof.
  split; [apply live_ok; [split; [reflexivity|split; [reflexivity|cbn; repeat (split || constructor); try (eexists; reflexivity)]]|reflexivity]|].
  split; [cbn; repeat (split || constructor); try (eexists; reflexivity)|].
  split; [intros H; specialize (H 1%nat ltac:(cbn; lia)); cbn in H; destruct H as [H|H]; lra|].
  split; [apply live_ok; [split; [reflexivity|split; [reflexivity|cbn; repeat (split || constructor); try (eexists; reflexivity)]]|reflexivity]|].
  split; [cbn; repeat (split || constructor); try (eexists; reflexivity)|].
  split; [intros j Hj; cbn in Hj; destruct j as [|[|j]]; [right|left|lia]; reflexivity|].
  cbn. unfold opent, ent, el, ber_lp. cbn.
  destruct (Req_EM_T 1 1) as [_|N]; [|congruence]. destruct (Rle_dec 3 0) as [N|_]; [lra|]. destruct (Rle_dec 1 3) as [_|N]; [|lra].
  destruct (Req_EM_T 0 1) as [N|_]; [lra|]. destruct (Req_EM_T 0 0) as [_|N]; [|congruence].
  destruct (Rle_dec 1 (1 / 3)) as [N|_]; [lra|]. destruct (Rle_dec (1 / 3) 0) as [N|_]; [lra|]. cbn. f_equal. ring.
Qed.

(** ** C35: Wishart log-density outside its support. *)
Theorem C35_wishart_ninf (la : linalg xr) (LA : la_ok la) (es : list (expr (XR la) unit)) D rho (E := es : list X) (n := opdim E) :
  okexpr la (EComp (KStat Wish) tt es) -> odomv la D es rho -> symm n (opmat D E rho 0) -> symm n (opmat D E rho 1) ->
  ~ (posdef n (opmat D E rho 0) /\ posdef n (opmat D E rho 1) /\ INR n - 1 < el (nth 2 (vals D E rho) []) 0) ->
  node_idle la (KStat Wish) es D rho [NInf].
Proof. exact (ninf_wishart la LA es D rho). Qed.
Print Assumptions C35_wishart_ninf.
(** x = v = I2, n = 1 *)
Definition fs35 : list (expr (XR exact_la) unit) := [EVar (Sh Mat 2 2) 0; EVar (Sh Mat 2 2) 0; ECst scl [Fin 1]].
Example C35_ninf_nonvacuous : live (EComp (KStat Wish) tt fs35) rho35c /\ odomv exact_la D0 fs35 rho35c /\
  symm 2 (opmat D0 (fs35 : list X) rho35c 0) /\ ~ (INR 2 - 1 < el (nth 2 (vals D0 (fs35 : list X) rho35c) []) 0).
Proof.
  split; [apply live_ok; [split; [reflexivity|split; [reflexivity|cbn; repeat (split || constructor); try (eexists; reflexivity)]]|reflexivity]|].
  split; [cbn; repeat (split || constructor); try (eexists; reflexivity)|].
  split; [intros i j Hi Hj; destruct i as [|[|i]], j as [|[|j]]; try lia; reflexivity|]. cbn. lra.
Qed.
(** With x a constant and v not, the value is always -infinity... *)
Theorem C35_const_x (la : linalg xr) (LA : la_ok la) (es : list (expr (XR la) unit)) D rho (E := es : list X) :
  okexpr la (EComp (KStat Wish) tt es) -> odomv la D es rho -> opconst E 0 = true -> opconst E 1 = false ->
  node_idle la (KStat Wish) es D rho [NInf].
Proof. exact (ninf_wishart_const la LA es D rho). Qed.
Print Assumptions C35_const_x.
(** ... even inside the support: x = v = I2, n = 3. *)
Theorem C35_const_x_refuted : live (EComp (KStat Wish) tt es35c) rho35c /\
  opconst (es35c : list X) 0 = true /\ opconst (es35c : list X) 1 = false /\ odomv exact_la D0 es35c rho35c /\
  posdef 2 (opmat D0 (es35c : list X) rho35c 0) /\ posdef 2 (opmat D0 (es35c : list X) rho35c 1) /\
  INR 2 - 1 < el (nth 2 (vals D0 (es35c : list X) rho35c) []) 0 /\
  node_idle exact_la (KStat Wish) es35c D0 rho35c [NInf].
Proof. exact w35. Qed.
Print Assumptions C35_const_x_refuted.
