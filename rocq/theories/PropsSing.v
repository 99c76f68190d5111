(** Property theorems C26, continued: the determinants of the LDLT and Cholesky
    decompositions at matrices they reject.  The contract [la_ok] (Spec.v) says
    nothing of LDLT at singular matrices, so the theorems about it assume that
    the computed D is exact there: its entries multiply to the determinant, 0. *)
From Coq Require Import Reals Lra.
From Coquelicot Require Import Coquelicot.
From Verif Require Import Base Num Expr Node Stat Machine Wf Session Tape XR Spec RSess Grad Rules LKM LNode LSing.
Open Scope R_scope.
Notation D0 := (fun _ : nat => 0).
Notation X := (expr xr unit).

(** ** LDLT at a singular matrix: value 0 (log: -infinity) and no gradient. *)
Theorem C26_ldlt_singular (la : linalg xr) (LA : la_ok la) (y : expr (XR la) unit) D rho (n := rows (shape_of (y : X))) :
  okexpr la (EComp (KDet LDLT) tt [y]) -> dom D false false (y : X) rho ->
  (exists d, ldlt_d _ la n (map Fin (val D (y : X) rho)) = map Fin d /\ length d = n /\ prodn n (el d) = 0) ->
  node_idle la (KDet LDLT) [y] D rho [Fin 0].
Proof. exact (idle_det_ldlt la LA y D rho). Qed.
Print Assumptions C26_ldlt_singular.
Theorem C26_log_ldlt_singular (la : linalg xr) (LA : la_ok la) (y : expr (XR la) unit) D rho (n := rows (shape_of (y : X))) :
  okexpr la (EComp (KLogDet LDLT) tt [y]) -> dom D false false (y : X) rho ->
  (exists d, ldlt_d _ la n (map Fin (val D (y : X) rho)) = map Fin d /\ length d = n /\ prodn n (el d) = 0) ->
  node_idle la (KLogDet LDLT) [y] D rho [NInf].
Proof. exact (idle_logdet_ldlt la LA y D rho). Qed.
Print Assumptions C26_log_ldlt_singular.
(** ** Cholesky at a symmetric matrix that is not positive definite: some value,
    and no gradient. *)
Theorem C26_llt_rejected (la : linalg xr) (LA : la_ok la) k (y : expr (XR la) unit) D rho (n := rows (shape_of (y : X))) :
  k = KDet LLT \/ k = KLogDet LLT -> okexpr la (EComp k tt [y]) -> dom D false false (y : X) rho ->
  symm n (m_of n (val D (y : X) rho)) -> ~ posdef n (m_of n (val D (y : X) rho)) ->
  exists v, node_idle la k [y] D rho [v].
Proof. exact (idle_llt la LA k y D rho). Qed.
Print Assumptions C26_llt_rejected.
(** The matrix [[1, 1], [1, 1]]. *)
Example C26_rejected_nonvacuous :
  (forall k, In k [KDet LDLT; KLogDet LDLT; KDet LLT; KLogDet LLT] ->
     live (EComp k tt [y26]) rho26s /\ dom D0 false false (y26 : X) rho26s) /\
  val D0 (y26 : X) rho26s = [1; 1; 1; 1] /\
  (exists d, ldlt_d _ exact_la 2 (map Fin [1; 1; 1; 1]) = map Fin d /\ length d = 2%nat /\ prodn 2 (el d) = 0) /\
  symm 2 (m_of 2 [1; 1; 1; 1]) /\ ~ posdef 2 (m_of 2 [1; 1; 1; 1]).
Proof. exact (conj w26s (conj eq_refl (conj w26z w26p))). Qed.
