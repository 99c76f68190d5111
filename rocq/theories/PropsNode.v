(** Property theorems C17, C18, C20, C21, C23-C25 and the gradients of C31-C35:
    what each kind of node returns and adds to the adjoints.  [node_law]
    (Rules.v): in every session of the node and every state, autodiff returns the
    given value and adds the given combination of the operands' derivatives to
    the adjoint of every variable.  Values are lists in column-major order, [el]
    is indexing, [ent] indexing with scalars broadcast, [m_of] the entry of a
    matrix. *)
From Coq Require Import Reals Lra.
From Coquelicot Require Import Coquelicot.
From Verif Require Import Base Num Expr Node Stat Machine Wf Session Tape XR Spec RSess Grad Rules LKM LNode.
Open Scope R_scope.
Set Bullet Behavior "Strict Subproofs".
Notation D0 := (fun _ : nat => 0).
Notation X := (expr xr unit).

(** ** C17: element-wise functions. *)
Theorem C17_unary (la : linalg xr) (LA : la_ok la) f (y : expr (XR la) unit) D rho
    (n := size (shape_of y)) (x := el (val D (y : X) rho)) :
  okexpr la (EComp (KUn f) tt [y]) -> dom D true false (y : X) rho ->
  (forall i, (i < n)%nat -> un_dom true f (x i)) ->
  node_law la (KUn f) [y] D false rho (tab n (fun i => un_s f (x i)))
    (fun seed d => sumn n (fun i => el seed i * d_un f (x i) * el (nth 0 d []) i)).
Proof. exact (law_un la LA f y D rho). Qed.
Print Assumptions C17_unary.
(** asin of a vector variable holding (1/2, 1/2) *)
Definition n17 : expr (XR exact_la) unit := EVar (Sh Vec 2 1) 0.
Example C17_nonvacuous : live (EComp (KUn UAsin) tt [n17]) (fun _ => 1 / 2) /\
  dom D0 true false (n17 : X) (fun _ => 1 / 2) /\
  (forall i, (i < size (shape_of n17))%nat -> un_dom true UAsin (el (val D0 (n17 : X) (fun _ => 1 / 2)) i)) /\
  d_un UAsin (1 / 2) = 1 / sqrt (1 - (1 / 2) ^ 2).
Proof.
  split; [apply live_ok; [split; [reflexivity|split; [reflexivity|cbn; tauto]]|reflexivity]|].
  split; [exact I|]. split; [|reflexivity].
  intros i Hi. cbn in Hi. destruct i as [|[|i]]; [cbn; lra|cbn; lra|lia].
Qed.

(** ** C18: arithmetic with broadcasting.
    [b] is one of + - * / ; either operand may be a scalar. *)
Theorem C18_arith (la : linalg xr) (LA : la_ok la) b (y z : expr (XR la) unit) D rho
    (n := size (kshape (KBin b) [shape_of y; shape_of z])) (vs := vals D ([y; z] : list X) rho)
    (a := ent (shape_of y) (nth 0 vs [])) (c := ent (shape_of z) (nth 1 vs [])) :
  cmp b = false -> okexpr la (EComp (KBin b) tt [y; z]) -> odoms la D [y; z] rho ->
  (b = BDiv -> forall i, (i < n)%nat -> c i <> 0) ->
  node_law la (KBin b) [y; z] D false rho (tab n (fun i => bi_s b (a i) (c i)))
    (fun seed d => sumn n (fun i => el seed i * (d_bi1 b (a i) (c i) * ent (shape_of y) (nth 0 d []) i +
                                                  d_bi2 b (a i) (c i) * ent (shape_of z) (nth 1 d []) i))).
Proof. exact (law_bin la LA b y z D rho). Qed.
Print Assumptions C18_arith.
(** scalar / vector *)
Example C18_nonvacuous (y := EVar scl 0 : expr (XR exact_la) unit) (z := EVar (Sh Vec 3 1) 1 : expr (XR exact_la) unit) :
  live (EComp (KBin BDiv) tt [y; z]) (fun _ => 2) /\ cmp BDiv = false /\ odoms exact_la D0 [y; z] (fun _ => 2) /\
  (forall i, (i < size (kshape (KBin BDiv) [shape_of y; shape_of z]))%nat -> ent (shape_of z) (nth 1 (vals D0 ([y; z] : list X) (fun _ => 2)) []) i <> 0) /\
  size (kshape (KBin BDiv) [shape_of y; shape_of z]) = 3%nat.
Proof.
  split; [apply live_ok; [split; [reflexivity|split; [reflexivity|cbn; tauto]]|reflexivity]|].
  split; [reflexivity|]. split; [cbn; tauto|]. split; [|reflexivity].
  intros i Hi. cbn in Hi. destruct i as [|[|[|i]]]; cbn; try lra. lia.
Qed.

(** ** C20: sums over the elements of an expression and over a range of
    expressions (the empty range is 0). *)
Theorem C20_sum_elements (la : linalg xr) (LA : la_ok la) (y : expr (XR la) unit) D rho
    (n := size (shape_of y)) (x := el (val D (y : X) rho)) :
  okexpr la (EComp KSumE tt [y]) -> dom D true false (y : X) rho ->
  node_law la KSumE [y] D false rho [sumn n x] (fun seed d => el seed 0 * sumn n (el (nth 0 d []))).
Proof. exact (law_sumE la LA y D rho). Qed.
Print Assumptions C20_sum_elements.
Theorem C20_sum_range (la : linalg xr) (LA : la_ok la) s (es : list (expr (XR la) unit)) D rho
    (n := size (kshape (KSumI s) (map shape_of es))) (x := fun p i => el (nth p (vals D (es : list X) rho) []) i) :
  okexpr la (EComp (KSumI s) tt es) -> odoms la D es rho ->
  node_law la (KSumI s) es D false rho (tab n (fun i => sumn (length es) (fun p => x p i)))
    (fun seed d => sumn n (fun i => el seed i * sumn (length es) (fun p => el (nth p d []) i))).
Proof. exact (law_sumI la LA s es D rho). Qed.
Print Assumptions C20_sum_range.
Example C20_nonvacuous (es := [EVar (Sh Vec 2 1) 0; EComp (KUn UExp) tt [EVar (Sh Vec 2 1) 2]] : list (expr (XR exact_la) unit)) :
  live (EComp KSumE tt [EVar (Sh Mat 2 3) 0]) (fun _ => 2) /\
  live (EComp (KSumI Vec) tt es) (fun _ => 2) /\ odoms exact_la D0 es (fun _ => 2) /\
  live (EComp (KSumI Scl) tt []) (fun _ => 2) /\ tab 1 (fun _ => sumn (length (@nil X)) (fun _ => 1)) = [0].
Proof.
  do 2 (split; [apply live_ok; [split; [reflexivity|split; [reflexivity|cbn; tauto]]|reflexivity]|]).
  split; [cbn; repeat split; auto|].
  split; [apply live_ok; [split; [reflexivity|split; [reflexivity|cbn; tauto]]|reflexivity]|reflexivity].
Qed.

(** ** C21: products, whatever the number of zero factors.
    [butone n p f] is the product of all [f q], q <> p. *)
Theorem C21_prod_elements (la : linalg xr) (LA : la_ok la) (y : expr (XR la) unit) D rho
    (n := size (shape_of y)) (x := el (val D (y : X) rho)) :
  okexpr la (EComp KProdE tt [y]) -> dom D true false (y : X) rho ->
  node_law la KProdE [y] D false rho [prodn n x]
    (fun seed d => el seed 0 * sumn n (fun p => butone n p x * el (nth 0 d []) p)).
Proof. exact (law_prodE la LA y D rho). Qed.
Print Assumptions C21_prod_elements.
Theorem C21_prod_range (la : linalg xr) (LA : la_ok la) s (es : list (expr (XR la) unit)) D rho
    (n := size (kshape (KProdI s) (map shape_of es))) (x := fun p i => el (nth p (vals D (es : list X) rho) []) i) :
  okexpr la (EComp (KProdI s) tt es) -> odoms la D es rho ->
  node_law la (KProdI s) es D false rho (tab n (fun i => prodn (length es) (fun p => x p i)))
    (fun seed d => sumn n (fun i => el seed i * sumn (length es) (fun p => butone (length es) p (fun r => x r i) * el (nth p d []) i))).
Proof. exact (law_prodI la LA s es D rho). Qed.
Print Assumptions C21_prod_range.
(** One factor is zero. *)
Example C21_nonvacuous (rho := fun o : nat => match o with 1%nat => 0 | _ => 3 end)
    (es := [EVar scl 0; EVar scl 1; EVar scl 2] : list (expr (XR exact_la) unit)) :
  live (EComp KProdE tt [EVar (Sh Vec 3 1) 0]) rho /\ live (EComp (KProdI Scl) tt es) rho /\ odoms exact_la D0 es rho /\
  prodn 3 rho = 0 /\ butone 3 1 rho = 9 /\ butone 3 0 rho = 0.
Proof.
  split; [apply live_ok; [split; [reflexivity|split; [reflexivity|cbn; tauto]]|reflexivity]|].
  split; [apply live_ok; [split; [reflexivity|split; [reflexivity|cbn; tauto]]|reflexivity]|].
  split; [cbn; tauto|]. unfold butone, prodn; cbn. repeat split; lra.
Qed.

(** ** C23: integer powers ([d_pow z x] = z * x ^ (z - 1)); see PropsStat.v for
    the value at 0 of negative powers. *)
Theorem C23_pow (la : linalg xr) (LA : la_ok la) z (y : expr (XR la) unit) D rho
    (n := size (shape_of y)) (x := el (val D (y : X) rho)) :
  okexpr la (EComp (KPow z) tt [y]) -> dom D true false (y : X) rho ->
  ((z < 0)%Z -> forall i, (i < n)%nat -> x i <> 0) ->
  node_law la (KPow z) [y] D false rho (tab n (fun i => powerRZ (x i) z))
    (fun seed d => sumn n (fun i => el seed i * d_pow z (x i) * el (nth 0 d []) i)).
Proof. exact (law_pow la LA z y D rho). Qed.
Print Assumptions C23_pow.
(** x^3 at 0, and x^(-2) at 2 *)
Example C23_nonvacuous (y := EVar scl 0 : expr (XR exact_la) unit) :
  live (EComp (KPow 3) tt [y]) D0 /\ live (EComp (KPow (-2)) tt [y]) (fun _ => 2) /\
  d_pow 3 0 = 0 /\ d_pow (-2) 2 = - (1 / 4) /\ powerRZ 2 (-2) = 1 / 4.
Proof.
  split; [apply live_ok; [split; [reflexivity|split; [reflexivity|cbn; tauto]]|reflexivity]|].
  split; [apply live_ok; [split; [reflexivity|split; [reflexivity|cbn; tauto]]|reflexivity]|].
  unfold d_pow. replace (3 - 1)%Z with (Z.of_nat 2) by reflexivity. replace (-2 - 1)%Z with (Z.neg 3) by reflexivity.
  rewrite <- pow_powerRZ. unfold powerRZ.
  replace (Pos.to_nat 3) with 3%nat by reflexivity. replace (Pos.to_nat 2) with 2%nat by reflexivity.
  repeat split; field.
Qed.

(** ** C24: matrix product, transpose, squared norm. *)
Theorem C24_dot (la : linalg xr) (LA : la_ok la) (y z : expr (XR la) unit) D rho
    (r := rows (shape_of y)) (k := cols (shape_of y)) (c := cols (shape_of z)) (vs := vals D ([y; z] : list X) rho)
    (A := m_of r (nth 0 vs [])) (B := m_of k (nth 1 vs [])) :
  okexpr la (EComp KDot tt [y; z]) -> odoms la D [y; z] rho ->
  node_law la KDot [y; z] D false rho (mkm r c (fun i j => sumn k (fun p => A i p * B p j)))
    (fun seed d => sumn c (fun j => sumn r (fun i => m_of r seed i j *
       sumn k (fun p => m_of r (nth 0 d []) i p * B p j + A i p * m_of k (nth 1 d []) p j)))).
Proof. exact (law_dot la LA y z D rho). Qed.
Print Assumptions C24_dot.
Theorem C24_transpose (la : linalg xr) (LA : la_ok la) (y : expr (XR la) unit) D rho
    (r := rows (shape_of y)) (c := cols (shape_of y)) (x := m_of r (val D (y : X) rho)) :
  okexpr la (EComp KTrans tt [y]) -> dom D true false (y : X) rho ->
  node_law la KTrans [y] D false rho (mkm c r (fun i j => x j i))
    (fun seed d => sumn r (fun i => sumn c (fun j => m_of c seed j i * m_of r (nth 0 d []) i j))).
Proof. exact (law_trans la LA y D rho). Qed.
Print Assumptions C24_transpose.
Theorem C24_norm (la : linalg xr) (LA : la_ok la) (y : expr (XR la) unit) D rho
    (n := size (shape_of y)) (x := el (val D (y : X) rho)) :
  okexpr la (EComp KNorm tt [y]) -> dom D true false (y : X) rho ->
  node_law la KNorm [y] D false rho [sumn n (fun i => x i ^ 2)]
    (fun seed d => el seed 0 * sumn n (fun i => 2 * x i * el (nth 0 d []) i)).
Proof. exact (law_norm la LA y D rho). Qed.
Print Assumptions C24_norm.
(** A 2x3 matrix times a vector; the same matrix transposed; its norm. *)
Example C24_nonvacuous (y := EVar (Sh Mat 2 3) 0 : expr (XR exact_la) unit) (z := EVar (Sh Vec 3 1) 6 : expr (XR exact_la) unit) (rho := INR) :
  live (EComp KDot tt [y; z]) rho /\ live (EComp KTrans tt [y]) rho /\ live (EComp KNorm tt [y]) rho /\
  odoms exact_la D0 [y; z] rho /\ dom D0 true false (y : X) rho /\
  mkm 3 2 (fun i j => m_of 2 (val D0 (y : X) rho) j i) = map INR [0; 2; 4; 1; 3; 5]%nat.
Proof.
  do 3 (split; [apply live_ok; [split; [reflexivity|split; [reflexivity|cbn; tauto]]|reflexivity]|]).
  split; [cbn; tauto|]. split; [exact I|]. reflexivity.
Qed.

(** ** C25: determinants.  [decomp_ok]: invertible for FullPivLU; symmetric
    positive definite for LDLT and LLT. *)
Theorem C25_det (la : linalg xr) (LA : la_ok la) f (y : expr (XR la) unit) D rho
    (n := rows (shape_of y)) (A := m_of n (val D (y : X) rho)) :
  okexpr la (EComp (KDet f) tt [y]) -> dom D true false (y : X) rho -> decomp_ok f n A ->
  node_law la (KDet f) [y] D false rho [det n A]
    (fun seed d => el seed 0 * sumn n (fun i => sumn n (fun j => cofac n A i j * m_of n (nth 0 d []) i j))).
Proof. exact (law_det la LA f y D rho). Qed.
Print Assumptions C25_det.
Theorem C25_log_det (la : linalg xr) (LA : la_ok la) f (y : expr (XR la) unit) D rho
    (n := rows (shape_of y)) (A := m_of n (val D (y : X) rho)) :
  okexpr la (EComp (KLogDet f) tt [y]) -> dom D true false (y : X) rho -> decomp_ok f n A ->
  node_law la (KLogDet f) [y] D false rho [ln (Rabs (det n A))]
    (fun seed d => el seed 0 * sumn n (fun i => sumn n (fun j => minv n A j i * m_of n (nth 0 d []) i j))).
Proof. exact (law_logdet la LA f y D rho). Qed.
Print Assumptions C25_log_det.
(** ((2, 1), (1, 3)) and, not symmetric, ((0, 1), (-2, 5)) *)
Definition rho25 (o : nat) : R := nth o [2; 1; 1; 3] 0.
Definition rho25' (o : nat) : R := nth o [0; -2; 1; 5] 0.
Definition n25 : expr (XR exact_la) unit := EVar (Sh Mat 2 2) 0.
Example C25_nonvacuous : live (EComp (KDet LLT) tt [n25]) rho25 /\ live (EComp (KLogDet LU) tt [n25]) rho25' /\
  dom D0 true false (n25 : X) rho25 /\
  decomp_ok LLT 2 (m_of 2 (val D0 (n25 : X) rho25)) /\ decomp_ok LU 2 (m_of 2 (val D0 (n25 : X) rho25')) /\
  det 2 (m_of 2 (val D0 (n25 : X) rho25)) = 5 /\ cofac 2 (m_of 2 (val D0 (n25 : X) rho25')) 0 1 = 2.
Proof.
  do 2 (split; [apply live_ok; [split; [reflexivity|split; [reflexivity|cbn; tauto]]|reflexivity]|]).
  split; [exact I|].
  split.
  { split.
    - intros i j Hi Hj. destruct i as [|[|i]], j as [|[|j]]; try lia; reflexivity.
    - intros x [i [Hi Hx]]. unfold quad, sumn, m_of, el; cbn.
      assert (Q : x 0%nat <> 0 \/ x 1%nat <> 0) by (destruct i as [|[|i]]; [tauto|tauto|lia]).
      assert (0 <= x 0%nat * x 0%nat) by apply Rle_0_sqr. assert (0 <= x 1%nat * x 1%nat) by apply Rle_0_sqr.
      assert (0 <= (x 0%nat + x 1%nat) * (x 0%nat + x 1%nat)) by apply Rle_0_sqr.
      assert (0 < x 0%nat * x 0%nat + x 1%nat * x 1%nat).
      { destruct Q as [Q|Q]; pose proof (Rsqr_pos_lt _ Q) as P; unfold Rsqr in P; lra. }
      lra. }
  unfold decomp_ok, cofac, det, sumn, m_of, minor, el; cbn. repeat split; lra.
Qed.

(** ** C31: normal log-density, [sigma] scalar or vector ([norm1 x m s] is
    -((x-m)/s)^2/2 - ln s). *)
Theorem C31_normal (la : linalg xr) (LA : la_ok la) q (es : list (expr (XR la) unit)) D rho (E := es : list X)
    (x := opent D E rho 0) (m := opent D E rho 1) (s := opent D E rho 2) (n := opdim E) :
  In q fam_norm -> okexpr la (EComp (KStat q) tt es) -> odoms la D es rho ->
  opall D E rho 2 (fun r => 0 < r) ->
  node_law la (KStat q) es D false rho [sumn n (fun j => norm1 (x j) (m j) (s j))]
    (fun seed d => el seed 0 * sumn n (fun j =>
       nrm_dx (x j) (m j) (s j) * dent E d 0 j + nrm_dm (x j) (m j) (s j) * dent E d 1 j + nrm_ds (x j) (m j) (s j) * dent E d 2 j)).
Proof. exact (law_normal la LA q es D rho). Qed.
Print Assumptions C31_normal.
(** [sigma] a matrix. *)
Theorem C31_multivariate (la : linalg xr) (LA : la_ok la) q (es : list (expr (XR la) unit)) D rho (E := es : list X) (n := opdim E)
    (S := opmat D E rho 2) (B := minv n S) (d := fun i => opent D E rho 0 i - opent D E rho 1 i)
    (w := fun i => sumn n (fun p => B i p * d p)) :
  In q fam_mvn -> okexpr la (EComp (KStat q) tt es) -> odoms la D es rho -> posdef n S ->
  node_law la (KStat q) es D false rho [- (1 / 2) * quad n B d d - 1 / 2 * ln (det n S)]
    (fun seed dv => el seed 0 * (sumn n (fun i => - w i * (dent E dv 0 i - dent E dv 1 i)) +
       sumn n (fun i => sumn n (fun j => - (1 / 2) * (B i j - w i * w j) * dmat E dv 2 i j)))).
Proof.
  exact (fun HQ => law_mvn la LA q es D rho (match HQ with or_introl H => or_introl (eq_sym H) | or_intror (or_introl H) => or_intror (eq_sym H)
    | or_intror (or_intror F) => match F with end end)).
Qed.
Print Assumptions C31_multivariate.
(** Vector x, constant scalar mean, vector sigma; x a constant, scalar sigma; the
    multivariate case. *)
Definition rho31 (o : nat) : R := nth o [5; 7; 2; 1; 1; 3] 1.
Definition es31 : list (expr (XR exact_la) unit) := [EVar (Sh Vec 2 1) 0; ECst scl [Fin 4]; EVar (Sh Vec 2 1) 2].
Definition es31' : list (expr (XR exact_la) unit) := [ECst (Sh Vec 2 1) [Fin 1; Fin 2]; EVar scl 0; EVar scl 1].
Definition es31m : list (expr (XR exact_la) unit) := [EVar (Sh Vec 2 1) 0; ECst scl [Fin 4]; EVar (Sh Mat 2 2) 2].
Example C31_nonvacuous : live (EComp (KStat NormVSV) tt es31) rho31 /\ live (EComp (KStat NormVSS) tt es31') rho31 /\
  live (EComp (KStat NormVSM) tt es31m) rho31 /\ odoms exact_la D0 es31 rho31 /\ odoms exact_la D0 es31' rho31 /\ odoms exact_la D0 es31m rho31 /\
  opall D0 (es31 : list X) rho31 2 (fun r => 0 < r) /\ opall D0 (es31' : list X) rho31 2 (fun r => 0 < r) /\
  posdef 2 (opmat D0 (es31m : list X) rho31 2).
Proof.
  do 3 (split; [apply live_ok; [split; [reflexivity|split; [reflexivity|cbn; repeat (split || constructor); try (eexists; reflexivity)]]|reflexivity]|]).
  do 3 (split; [cbn; repeat (split || constructor); try (eexists; reflexivity)|]).
  split; [intros j Hj; cbn in Hj; destruct j as [|[|j]]; [cbn; lra|cbn; lra|lia]|].
  split; [intros j Hj; cbn in Hj; destruct j as [|j]; [cbn; lra|lia]|].
  split.
  - intros i j Hi Hj. destruct i as [|[|i]], j as [|[|j]]; try lia; reflexivity.
  - intros x [i [Hi Hx]]. unfold quad, sumn, opmat, m_of, el; cbn.
    assert (Q : x 0%nat <> 0 \/ x 1%nat <> 0) by (destruct i as [|[|i]]; [tauto|tauto|lia]).
    assert (0 <= x 0%nat * x 0%nat) by apply Rle_0_sqr. assert (0 <= x 1%nat * x 1%nat) by apply Rle_0_sqr.
    assert (0 <= (x 0%nat + x 1%nat) * (x 0%nat + x 1%nat)) by apply Rle_0_sqr.
    assert (0 < x 0%nat * x 0%nat + x 1%nat * x 1%nat).
    { destruct Q as [Q|Q]; pose proof (Rsqr_pos_lt _ Q) as P; unfold Rsqr in P; lra. }
    lra.
Qed.

(** ** C32: Cauchy log-density ([cau1 x m g] is -ln(g (1 + ((x-m)/g)^2))).
    For vectors the gradient in location and scale is right only for seed 1
    ([b]); see C32_seed_refuted. *)
Theorem C32_cauchy_partial (la : linalg xr) (LA : la_ok la) q b (es : list (expr (XR la) unit)) D rho (E := es : list X)
    (x := opent D E rho 0) (m := opent D E rho 1) (g := opent D E rho 2) (n := opdim E) :
  In q fam_cau -> okexpr la (EComp (KStat q) tt es) -> odoms la D es rho ->
  opall D E rho 2 (fun r => 0 < r) ->
  (b = true \/ q = CauSSS \/ (opconst E 1 = true /\ opconst E 2 = true)) ->
  node_law la (KStat q) es D b rho [sumn n (fun j => cau1 (x j) (m j) (g j))]
    (fun seed d => el seed 0 * sumn n (fun j =>
       cau_dx (x j) (m j) (g j) * dent E d 0 j + cau_dm (x j) (m j) (g j) * dent E d 1 j + cau_dg (x j) (m j) (g j) * dent E d 2 j)).
Proof. exact (law_cauchy la LA q b es D rho). Qed.
Print Assumptions C32_cauchy_partial.
Example C32_nonvacuous : live (EComp (KStat CauVSV) tt es31) rho31 /\ odoms exact_la D0 es31 rho31 /\
  opall D0 (es31 : list X) rho31 2 (fun r => 0 < r).
Proof.
  split; [apply live_ok; [split; [reflexivity|split; [reflexivity|cbn; repeat (split || constructor); try (eexists; reflexivity)]]|reflexivity]|].
  split; [cbn; repeat (split || constructor); try (eexists; reflexivity)|].
  intros j Hj; cbn in Hj; destruct j as [|[|j]]; [cbn; lra|cbn; lra|lia].
Qed.

(** ** C33: uniform log-density.  The two conditions on constants: otherwise the
    node keeps using bounds it saw when constructed, see C33_stale_refuted. *)
Theorem C33_uniform_partial (la : linalg xr) (LA : la_ok la) q (es : list (expr (XR la) unit)) D rho (E := es : list X)
    (x := opent D E rho 0) (a := opent D E rho 1) (b := opent D E rho 2) (n := opdim E) :
  In q fam_uni -> okexpr la (EComp (KStat q) tt es) -> odoms la D es rho ->
  (forall j, (j < n)%nat -> a j < x j < b j) ->
  (q = UniVSV -> opconst E 0 = true -> opconst E 2 = true) -> (q = UniVVS -> opconst E 0 = true -> opconst E 1 = true) ->
  node_law la (KStat q) es D false rho [sumn n (fun j => - ln (b j - a j))]
    (fun seed d => el seed 0 * sumn n (fun j => uni_da (x j) (a j) (b j) * dent E d 1 j + uni_db (x j) (a j) (b j) * dent E d 2 j)).
Proof. exact (law_uniform la LA q es D rho). Qed.
Print Assumptions C33_uniform_partial.
(** x = (5, 7), min = 4, max = (6, 9) *)
Definition rho33 (o : nat) : R := nth o [5; 7; 6; 9] 1.
Example C33_nonvacuous : live (EComp (KStat UniVSV) tt es31) rho33 /\ odoms exact_la D0 es31 rho33 /\
  (forall j, (j < opdim (es31 : list X))%nat -> opent D0 (es31 : list X) rho33 1 j < opent D0 (es31 : list X) rho33 0 j < opent D0 (es31 : list X) rho33 2 j).
Proof.
  split; [apply live_ok; [split; [reflexivity|split; [reflexivity|cbn; repeat (split || constructor); try (eexists; reflexivity)]]|reflexivity]|].
  split; [cbn; repeat (split || constructor); try (eexists; reflexivity)|].
  intros j Hj; cbn in Hj; destruct j as [|[|j]]; [cbn; lra|cbn; lra|lia].
Qed.

(** ** C34: Bernoulli log-pmf, 0 < p < 1, x a constant (or locally constant). *)
Theorem C34_bernoulli (la : linalg xr) (LA : la_ok la) q (es : list (expr (XR la) unit)) D rho (E := es : list X)
    (x := opent D E rho 0) (p := opent D E rho 1) (n := opdim E) :
  In q fam_ber -> okexpr la (EComp (KStat q) tt es) -> odoms la D es rho ->
  opall D E rho 1 (fun r => 0 < r < 1) -> (forall j, (j < n)%nat -> x j = 0 \/ x j = 1) -> opflat E 0 = true ->
  node_law la (KStat q) es D false rho [sumn n (fun j => x j * ln (p j) + (1 - x j) * ln (1 - p j))]
    (fun seed d => el seed 0 * sumn n (fun j => ber_dp (x j) (p j) * dent E d 1 j)).
Proof. exact (law_bernoulli la LA q es D rho). Qed.
Print Assumptions C34_bernoulli.
Definition es34 : list (expr (XR exact_la) unit) := [ECst (Sh Vec 2 1) [Fin 1; Fin 0]; EVar (Sh Vec 2 1) 0].
Definition rho34 (o : nat) : R := nth o [1 / 4; 1 / 3] 1.
Example C34_nonvacuous : live (EComp (KStat BerVV) tt es34) rho34 /\ odoms exact_la D0 es34 rho34 /\
  opall D0 (es34 : list X) rho34 1 (fun r => 0 < r < 1) /\
  (forall j, (j < opdim (es34 : list X))%nat -> opent D0 (es34 : list X) rho34 0 j = 0 \/ opent D0 (es34 : list X) rho34 0 j = 1) /\
  opflat (es34 : list X) 0 = true.
Proof.
  split; [apply live_ok; [split; [reflexivity|split; [reflexivity|cbn; repeat (split || constructor); try (eexists; reflexivity)]]|reflexivity]|].
  split; [cbn; repeat (split || constructor); try (eexists; reflexivity)|].
  split; [intros j Hj; cbn in Hj; destruct j as [|[|j]]; [cbn; lra|cbn; lra|lia]|].
  split; [|reflexivity].
  intros j Hj; cbn in Hj; destruct j as [|[|j]]; [right|left|lia]; reflexivity.
Qed.

(** ** C35: Wishart log-density.  Not covered: constant x with v not constant
    (see C35_const_x_refuted), and n must not depend on variables, which wishart.hpp:25 asserts. *)
Theorem C35_wishart_partial (la : linalg xr) (LA : la_ok la) (es : list (expr (XR la) unit)) D rho (E := es : list X) (n := opdim E)
    (X0 := opmat D E rho 0) (V := opmat D E rho 1) (nu := el (nth 2 (vals D E rho) []) 0) (B := minv n X0) (W := minv n V) :
  okexpr la (EComp (KStat Wish) tt es) -> odoms la D es rho -> posdef n X0 -> posdef n V -> INR n - 1 < nu ->
  (opconst E 0 = true -> opconst E 1 = true) -> opflat E 2 = true ->
  node_law la (KStat Wish) es D false rho
    [(nu - INR n - 1) / 2 * ln (det n X0) - 1 / 2 * sumn n (fun i => sumn n (fun j => X0 i j * W j i)) - nu / 2 * ln (det n V)]
    (fun seed dv => el seed 0 *
       (sumn n (fun i => sumn n (fun j => 1 / 2 * ((nu - INR n - 1) * B i j - W i j) * dmat E dv 0 i j)) +
        sumn n (fun i => sumn n (fun j => 1 / 2 * (sumn n (fun p => W i p * sumn n (fun q => X0 p q * W q j)) - nu * W i j) * dmat E dv 1 i j)))).
Proof. exact (law_wish la LA es D rho). Qed.
Print Assumptions C35_wishart_partial.
Definition es35 : list (expr (XR exact_la) unit) := [EVar (Sh Mat 2 2) 0; EVar (Sh Mat 2 2) 4; ECst scl [Fin 3]].
Definition rho35 (o : nat) : R := nth o [2; 1; 1; 3; 1; 0; 0; 1] 1.
Example C35_nonvacuous : live (EComp (KStat Wish) tt es35) rho35 /\ odoms exact_la D0 es35 rho35 /\
  posdef 2 (opmat D0 (es35 : list X) rho35 0) /\ posdef 2 (opmat D0 (es35 : list X) rho35 1) /\
  INR 2 - 1 < el (nth 2 (vals D0 (es35 : list X) rho35) []) 0 /\
  (opconst (es35 : list X) 0 = true -> opconst (es35 : list X) 1 = true) /\ opflat (es35 : list X) 2 = true.
Proof.
  split; [apply live_ok; [split; [reflexivity|split; [reflexivity|cbn; repeat (split || constructor); try (eexists; reflexivity)]]|reflexivity]|].
  split; [cbn; repeat (split || constructor); try (eexists; reflexivity)|].
  do 2 (split; [split;
    [intros i j Hi Hj; destruct i as [|[|i]], j as [|[|j]]; try lia; reflexivity|
     intros x [i [Hi Hx]]; unfold quad, sumn, opmat, m_of, el; cbn;
     assert (Q : x 0%nat <> 0 \/ x 1%nat <> 0) by (destruct i as [|[|i]]; [tauto|tauto|lia]);
     assert (0 <= x 0%nat * x 0%nat) by apply Rle_0_sqr; assert (0 <= x 1%nat * x 1%nat) by apply Rle_0_sqr;
     assert (0 <= (x 0%nat + x 1%nat) * (x 0%nat + x 1%nat)) by apply Rle_0_sqr;
     assert (0 < x 0%nat * x 0%nat + x 1%nat * x 1%nat)
       by (destruct Q as [Q|Q]; pose proof (Rsqr_pos_lt _ Q) as P; unfold Rsqr in P; lra);
     lra]|]).
  split; [cbn; lra|]. split; [discriminate|reflexivity].
Qed.
