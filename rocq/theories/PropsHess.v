(** Property theorem C58: second derivatives by reverse mode on forward variables. *)
From Coq Require Import ZArith Reals Lra List Lia.
From Coquelicot Require Import Coquelicot.
From Verif Require Import Base Num Expr Node Stat Machine Wf Session Tape XR Spec RSess Grad LReal LDiff LKM Forward Ieee Hess HessSpec LHess.
Import ListNotations.
Set Bullet Behavior "Strict Subproofs".
Local Open Scope R_scope.

(** One autodiff over ForwardVar.  The variables hold [rho] with tangents [d], the
    adjoints [al] with tangents [be], the seed is [s] with tangents [ds].  The value
    carries the directional derivative of every component; the adjoint of every
    variable that is not a placeholder gains the partial derivative weighted by the
    seed, and its tangent the derivative of this, as the point moves along [d] and
    the seed along [ds]. *)
Theorem C58_second (la : linalg xr) (LA : la_ok la) (u : expr R unit) bv ba e m D rho d al be s ds : let n := size (shape_of u) in
  secx u = true -> wfs u = true -> disc u = true -> @used (Duo (XR la)) bv ba (uD u) e m -> dreal u m D rho d al be ->
  (forall o, In o (writes u) -> al o = 0 /\ be o = 0) -> locally 0 (fun t => dom D true false (uR u) (line rho d t)) ->
  exists e2 m2 v, @autodiff (Duo (XR la)) e (map (fun k => du (s k) (ds k)) (seq 0 n)) m = Ok (e2, m2, v) /\
    (length v = n /\ forall k, (k < n)%nat -> exists dv, is_derive (fun t => el (val D (uR u) (line rho d t)) k) 0 dv /\
       nth_error v k = Some (du (el (val D (uR u) (line rho d 0)) k) dv)) /\
    forall o, In o (refs u) -> ~ In o (eqw u) ->
      exists (G : R -> nat -> R) h, locally 0 (fun t => partials D (uR u) (line rho d t) o (G t)) /\
        is_derive (fun t => sumn n (fun k => (s k + t * ds k) * G t k)) 0 h /\
        m2 1%nat o = Some (du (al o + sumn n (fun k => s k * G 0 k)) (be o + h)).
Proof. exact (second_deriv la LA u bv ba e m D rho d al be s ds). Qed.
Print Assumptions C58_second.

(** (w = x * log(y), dot(A, w) / y);  A: 2x2 at 0, x: vector at 4, y: scalar at 6, w at 7 *)
Definition v2 := Sh Vec 2 1.
Definition u58 : expr R unit :=
  EGlue tt (EEq tt v2 7 (EComp (KBin BMul) tt [EVar v2 4; EComp (KUn ULog) tt [EVar scl 6]]))
    (EComp (KBin BDiv) tt [EComp KDot tt [EVar (Sh Mat 2 2) 0; EVar v2 7]; EVar scl 6]).
Example C58_second_nonvacuous : exists e m, secx u58 = true /\ wfs u58 = true /\ disc u58 = true /\
  @used (Duo (XR exact_la)) 2 3 (uD u58) e m /\ dreal u58 m (fun _ => 0) INR (fun o => INR o - 3) (fun _ => 0) (fun _ => 0) /\
  locally 0 (fun t => dom (fun _ => 0) true false (uR u58) (line INR (fun o => INR o - 3) t)).
Proof.
  destruct (dual_run exact_la u58 eq_refl eq_refl (fun _ => 0) INR (fun o => INR o - 3) (fun _ => 0) (fun _ => 0)) as [e [m [H1 H2]]].
  exists e, m. do 3 (split; [reflexivity|]). split; [exact H1|]. split; [exact H2|].
  apply (loc0 _ (1 / 2)); [lra|]. intros t Ht. apply Rabs_def2 in Ht.
  cbn. unfold line. cbn. repeat split; auto.
  - intros i Hi. replace i with 0%nat by lia. lra.
  - intros i Hi. lra.
Qed.

(** The loop of hessian.hpp over a scalar expression records the gradient and the
    Hessian at [rho], whatever the adjoints held, and leaves the values as they
    were.  Guards: a placeholder is assigned before it is read; = and op= do not
    both occur; the adjoints of all variables, placeholders included, are reset;
    tangents start at 0; the expression is within its domain along each coordinate
    direction near the point. *)
Theorem C58_hessian (la : linalg xr) (LA : la_ok la) (u : expr R unit) bv ba e m D rho al be vars os is :
  secx u = true -> wfs u = true -> disc u = true -> size (shape_of u) = 1%nat ->
  (forall o, In o (eqw u) -> ~ In o (inputs u)) -> eqw u = [] \/ opw u = [] ->
  (forall o, In o (refs u) -> In o vars) -> (forall o, In o os -> In o (refs u) /\ ~ In o (eqw u)) ->
  (forall i, In i is -> In i (refs u) /\ ~ In i (eqw u) /\ locally (rho i) (fun x => dom D true false (uR u) (set1 rho i x))) ->
  @used (Duo (XR la)) bv ba (uD u) e m -> dreal u m D rho (fun _ => 0) al be ->
  exists e2 m2 g cols, hess (XR la) vars os None is e m = Ok (e2, m2, map Fin g, map (map Fin) cols) /\
    Forall2 (partial1 D u rho) is g /\ Forall2 (fun i => Forall2 (partial2 D u rho i) os) is cols /\
    forall o, In o (refs u) -> ~ In o (eqw u) -> exists t, m2 0%nat o = Some (du (rho o) t).
Proof. intros H1 H2 H3 H4 H5 H6. exact (hess_thm la LA u H1 H2 H3 H4 H5 H6 D rho bv ba vars os is e m al be). Qed.
Print Assumptions C58_hessian.

(** (w = x * log(y), norm(w) / y + exp(x0)) over x: vector at 0, y at 2, w at 3 *)
Definition h58 : expr R unit :=
  EGlue tt (EEq tt v2 3 (EComp (KBin BMul) tt [EVar v2 0; EComp (KUn ULog) tt [EVar scl 2]]))
    (EComp (KBin BAdd) tt [EComp (KBin BDiv) tt [EComp KNorm tt [EVar v2 3]; EVar scl 2]; EComp (KUn UExp) tt [EVar scl 0]]).
Example C58_hessian_nonvacuous : let rho := fun o => INR o + 2 in exists e m,
  secx h58 = true /\ wfs h58 = true /\ disc h58 = true /\ size (shape_of h58) = 1%nat /\
  (forall o, In o (eqw h58) -> ~ In o (inputs h58)) /\ (eqw h58 = [] \/ opw h58 = []) /\
  (forall i, In i [0; 1; 2]%nat -> In i (refs h58) /\ ~ In i (eqw h58) /\ locally (rho i) (fun x => dom (fun _ => 0) true false (uR h58) (set1 rho i x))) /\
  @used (Duo (XR exact_la)) 2 3 (uD h58) e m /\ dreal h58 m (fun _ => 0) rho (fun _ => 0) (fun _ => 5) (fun _ => 7).
Proof.
  intros rho. destruct (dual_run exact_la h58 eq_refl eq_refl (fun _ => 0) rho (fun _ => 0) (fun _ => 5) (fun _ => 7)) as [e [m [H1 H2]]].
  exists e, m. do 4 (split; [reflexivity|]). split; [intros o Ho Hi; cbn in Ho, Hi; lia|]. split; [now right|]. split; [|split; [exact H1|exact H2]].
  intros i Hi. split; [cbn in *; lia|]. split; [cbn in *; lia|].
  exists (mkposreal (1 / 2) ltac:(lra)). intros x Hx. change (Rabs (x + - rho i) < 1 / 2) in Hx. apply Rabs_def2 in Hx. unfold rho in Hx.
  cbn in Hi. destruct Hi as [<-|[<-|[<-|[]]]]; cbn in Hx; cbn; unfold set1, rho; cbn; repeat split; auto; intros; try (replace i with 0%nat by lia); try lra.
Qed.
(** x * x * y at (3, 2), in exact arithmetic: gradient (12, 9), Hessian ((4, 6), (6, 0)).
    Adjoints hold rubbish at the start. *)
Definition p58 {T} : expr T unit := EComp (KBin BMul) tt [EComp (KBin BMul) tt [EVar scl 0; EVar scl 0]; EVar scl 1].
Definition m58 : mem (Duo Dyad) := fun b o =>
  if (b =? 0)%nat then Some (Dual (N := Dyad) (if (o =? 0)%nat then nofZ Dyad 3 else nofZ Dyad 2) (n0 Dyad))
  else if (b =? 1)%nat then Some (Dual (N := Dyad) (nofZ Dyad 17) (nofZ Dyad 5)) else None.
Definition r58 := ('(e, m) <- bound 2 3 (fun _ => n0 (Duo Dyad)) (fun _ => n0 (Duo Dyad)) p58 m58 ;;
  '(_, _, g, h) <- hess Dyad [0; 1]%nat [0; 1]%nat None [0; 1]%nat e m ;; Ok (g, h)).
Example C58_run : r58 = Ok (map (nofZ Dyad) [12; 9]%Z, map (map (nofZ Dyad)) [[4; 6]; [6; 0]]%Z).
Proof. vm_compute. reflexivity. Qed.
(** The guard on [vars] is needed: (w = y * y, w * x) at (3, 2) with the adjoint of
    the placeholder w (cell 2) left alone, as when only x is reset. *)
Definition q58 {T} : expr T unit := EGlue tt (EEq tt scl 2 (EComp (KBin BMul) tt [EVar scl 1; EVar scl 1])) (EComp (KBin BMul) tt [EVar scl 2; EVar scl 0]).
Definition s58 (vars : list nat) := ('(e, m) <- bound 2 3 (fun _ => n0 (Duo Dyad)) (fun _ => n0 (Duo Dyad)) q58
  (fun b o => if (b =? 1)%nat then Some (n0 (Duo Dyad)) else m58 b o) ;;
  '(_, _, _, h) <- hess Dyad vars [0; 1]%nat None [0; 1]%nat e m ;; Ok h).
Example C58_unreset : s58 [0; 1; 2]%nat = Ok (map (map (nofZ Dyad)) [[0; 4]; [4; 6]]%Z) /\
  s58 [0; 1]%nat = Ok (map (map (nofZ Dyad)) [[0; 4]; [4; 16]]%Z).
Proof. vm_compute. split; reflexivity. Qed.
