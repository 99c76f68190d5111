(** Vocabulary of the per-node theorems: what a node adds to the adjoints, in
    terms of the partial derivatives of its operands, and tables of derivatives. *)
From Coq Require Import Reals ZArith.
From Coquelicot Require Import Coquelicot.
From Verif Require Import Base Num Expr Node Stat Machine Wf Session Tape XR Spec RSess Grad.
Open Scope R_scope.

(** Values of the operands of a node (evaluated from left to right), and
    their partial derivatives with respect to the variable cell [o]. *)
Definition vals {A} (D : nat -> R) (es : list (expr xr A)) (rho : nat -> R) : list (list R) := fst (dens D es rho).
Definition opartials {A} (D : nat -> R) (es : list (expr xr A)) (rho : nat -> R) (o : nat) (dvs : list (list R)) : Prop :=
  forall p i, is_derive (fun t => el (nth p (vals D es (set1 rho o t)) []) i) (rho o) (el (nth p dvs []) i).

(** In every session of the node and every state with variables [rho] (adjoints
    of assigned variables zero), autodiff returns [v] and adds [F seed dvs] to
    the adjoint of every cell, [dvs] being the partial derivatives of the
    operands with respect to that cell. *)
Definition node_law (la : linalg xr) (k : kd) (es : list (expr (XR la) unit)) (D : nat -> R) (ones : bool) (rho : nat -> R)
    (v : list R) (F : list R -> list (list R) -> R) : Prop :=
  let u := EComp k tt es in
  forall bv ba e1 m1 al seed, session la bv ba u D e1 m1 -> mreal la u m1 D rho al ->
    length seed = size (kshape k (map shape_of es)) -> (ones = true -> forall j, (j < length seed)%nat -> el seed j = 1) ->
    (forall o, In o (writes u) -> al o = 0) ->
    exists e2 m2, autodiff e1 (map Fin seed) m1 = Ok (e2, m2, map Fin v) /\
      forall o, In o (refs u) -> ~ In o (eqw u) -> exists dvs, opartials D es rho o dvs /\
        m2 1%nat o = Some (Fin (al o + F seed dvs)).
(** The operands of a node lie in their domains. *)
Fixpoint odoms (la : linalg xr) (D : nat -> R) (es : list (expr (XR la) unit)) (rho : nat -> R) : Prop :=
  match es with
  | [] => True
  | y :: l => dom D true false (y : expr xr unit) rho /\ odoms la D l (fin_env D (y : expr xr unit) rho)
  end.

(** ** Derivatives *)
Definition d_un (f : un) (x : R) : R :=
  match f with
  | UNeg => -1
  | USin => cos x
  | UCos => - sin x
  | UTan => 1 / cos x ^ 2
  | UAsin => 1 / sqrt (1 - x ^ 2)
  | UAcos => - (1 / sqrt (1 - x ^ 2))
  | UAtan => 1 / (1 + x ^ 2)
  | UExp => exp x
  | ULog => 1 / x
  | USqrt => 1 / (2 * sqrt x)
  | UErf => 2 / sqrt PI * exp (- x ^ 2)
  | USigmoid => 1 / (1 + exp (- x)) * (1 - 1 / (1 + exp (- x)))
  | USinh => cosh x
  | UCosh => sinh x
  | UTanh => 1 - tanh x ^ 2
  end.
Definition d_pow (z : Z) (x : R) : R := IZR z * powerRZ x (z - 1).
Definition d_bi1 (b : bi) (x y : R) : R :=
  match b with BAdd | BSub => 1 | BMul => y | BDiv => 1 / y | _ => 0 end.
Definition d_bi2 (b : bi) (x y : R) : R :=
  match b with BAdd => 1 | BSub => -1 | BMul => x | BDiv => - x / y ^ 2 | _ => 0 end.
(** Product of all factors but one. *)
Definition butone (n p : nat) (f : nat -> R) : R := prodn n (fun q => if (q =? p)%nat then 1 else f q).

(** Partial derivatives of the summands of the log-densities. *)
Definition uni_da (x a b : R) : R := 1 / (b - a).
Definition uni_db (x a b : R) : R := - (1 / (b - a)).
Definition ber_dp (x p : R) : R := x / p - (1 - x) / (1 - p).
Definition nrm_dx (x m s : R) : R := - (x - m) / s ^ 2.
Definition nrm_dm (x m s : R) : R := (x - m) / s ^ 2.
Definition nrm_ds (x m s : R) : R := (x - m) ^ 2 / s ^ 3 - 1 / s.
Definition cau_dx (x m g : R) : R := - 2 * (x - m) / (g ^ 2 + (x - m) ^ 2).
Definition cau_dm (x m g : R) : R := 2 * (x - m) / (g ^ 2 + (x - m) ^ 2).
Definition cau_dg (x m g : R) : R := ((x - m) ^ 2 - g ^ 2) / (g * (g ^ 2 + (x - m) ^ 2)).

(** Families of log-density nodes whose terms do not mix components. *)
Definition fam_norm : list stat := [NormSSS; NormVSS; NormVVS; NormVSV; NormVVV].
Definition fam_mvn : list stat := [NormVSM; NormVVM].
Definition fam_cau : list stat := [CauSSS; CauVSS; CauVSV; CauVVS; CauVVV].
Definition fam_uni : list stat := [UniSSS; UniVSS; UniVSV; UniVVS; UniVVV].
Definition fam_ber : list stat := [BerSS; BerVS; BerVV].
(** Is operand [i] a constant; is it locally constant (a constant, or a
    comparison of locally constant things...)? *)
Definition opconst {A} (es : list (expr xr A)) (i : nat) : bool := nth i (map is_const es) false.
Definition opflat {A} (es : list (expr xr A)) (i : nat) : bool := nth i (map flat es) false.
(** All entries of operand [i] satisfy [P]. *)
Definition opall {A} (D : nat -> R) (es : list (expr xr A)) (rho : nat -> R) (i : nat) (P : R -> Prop) : Prop :=
  forall j, (j < size (nth_sh (map shape_of es) i))%nat -> P (el (nth i (vals D es rho) []) j).
(** Entry [j] of operand [i], scalars being broadcast. *)
Definition opent {A} (D : nat -> R) (es : list (expr xr A)) (rho : nat -> R) (i j : nat) : R :=
  ent (nth_sh (map shape_of es) i) (nth i (vals D es rho) []) j.
(** Entry [j] of the derivative of operand [i]. *)
Definition dent {A} (es : list (expr xr A)) (d : list (list R)) (i j : nat) : R :=
  ent (nth_sh (map shape_of es) i) (nth i d []) j.
(** Number of components of the first operand. *)
Definition opdim {A} (es : list (expr xr A)) : nat := rows (nth_sh (map shape_of es) 0).
(** Operand [i] as a square matrix. *)
Definition opmat {A} (D : nat -> R) (es : list (expr xr A)) (rho : nat -> R) (i : nat) : mat :=
  m_of (opdim es) (nth i (vals D es rho) []).
Definition dmat {A} (es : list (expr xr A)) (d : list (list R)) (i : nat) : mat := m_of (opdim es) (nth i d []).
(** Cofactors. *)
Definition cofac (n : nat) (A : mat) (i j : nat) : R := (-1) ^ (i + j) * det (pred n) (minor A i j).
(** What the decomposition requested by the call asks of the matrix. *)
Definition decomp_ok (f : fact) (n : nat) (A : mat) : Prop :=
  match f with LU => det n A <> 0 | _ => posdef n A end.

(** ** Nodes that stop the flow of adjoints *)
(** The operands of a node can be evaluated. *)
Fixpoint odomv (la : linalg xr) (D : nat -> R) (es : list (expr (XR la) unit)) (rho : nat -> R) : Prop :=
  match es with
  | [] => True
  | y :: l => dom D false false (y : expr xr unit) rho /\ odomv la D l (fin_env D (y : expr xr unit) rho)
  end.
(** In every session of the node and every state with variables [rho], evaluate
    and autodiff, whatever the seed, return [v], and autodiff changes no adjoint. *)
Definition node_idle (la : linalg xr) (k : kd) (es : list (expr (XR la) unit)) (D : nat -> R) (rho : nat -> R) (v : list xr) : Prop :=
  let u := EComp k tt es in
  forall bv ba e1 m1 al, session la bv ba u D e1 m1 -> mreal la u m1 D rho al ->
    (exists e2 m2, evaluate e1 m1 = Ok (e2, m2, v)) /\
    forall seed : list xr, length seed = size (kshape k (map shape_of es)) ->
      exists e2 m2, autodiff e1 seed m1 = Ok (e2, m2, v) /\
        forall o, In o (refs u) -> m2 1%nat o = Some (Fin (al o)).
(** The same for the value alone. *)
Definition node_value (la : linalg xr) (k : kd) (es : list (expr (XR la) unit)) (D : nat -> R) (rho : nat -> R) (v : list xr) : Prop :=
  let u := EComp k tt es in
  forall bv ba e1 m1 al, session la bv ba u D e1 m1 -> mreal la u m1 D rho al ->
    (exists e2 m2, evaluate e1 m1 = Ok (e2, m2, v)) /\
    forall seed : list xr, length seed = size (kshape k (map shape_of es)) ->
      exists e2 m2, autodiff e1 seed m1 = Ok (e2, m2, v).
(** Like [node_law], for nodes whose operands assign nothing; the value may be
    infinite, and no reference to the derivative of the node is made. *)
Definition node_adds (la : linalg xr) (k : kd) (es : list (expr (XR la) unit)) (D : nat -> R) (rho : nat -> R)
    (v : list xr) (F : list R -> list (list R) -> R) : Prop :=
  let u := EComp k tt es in
  forall bv ba e1 m1 al seed, session la bv ba u D e1 m1 -> mreal la u m1 D rho al ->
    length seed = size (kshape k (map shape_of es)) ->
    exists e2 m2, autodiff e1 (map Fin seed) m1 = Ok (e2, m2, v) /\
      forall o, In o (refs u) -> exists dvs, opartials D es rho o dvs /\ m2 1%nat o = Some (Fin (al o + F seed dvs)).
(** Sums that may be infinite. *)
Fixpoint xsumn (n : nat) (g : nat -> xr) : xr := match n with O => Fin 0 | S n' => xadd (xsumn n' g) (g n') end.
(** log P(x) for a Bernoulli variable with success probability [p] clipped to [0,1]. *)
Definition ber_lp (x p : R) : xr :=
  if Req_EM_T x 1 then if Rle_dec p 0 then NInf else if Rle_dec 1 p then Fin 0 else Fin (ln p)
  else if Req_EM_T x 0 then if Rle_dec 1 p then NInf else if Rle_dec p 0 then Fin 0 else Fin (ln (1 - p))
  else NInf.
(** Its derivative in [p], 0 outside (0,1). *)
Definition ber_dlp (x p : R) : R :=
  if Rlt_dec 0 p then if Rlt_dec p 1 then ber_dp x p else 0 else 0.
(** What the Cauchy node adds for scale [g]: right for [seed] 1 only. *)
Definition cau_code_dg (seed x m g : R) : R := seed ^ 2 * (cau_dg x m g + 1 / g) - seed * (1 / g).
(** Integer powers, infinite at 0 for negative exponents. *)
Definition pow_x (z : Z) (a : R) : xr :=
  if ((z <? 0)%Z && (if Req_EM_T a 0 then true else false))%bool then PInf else Fin (powerRZ a z).
