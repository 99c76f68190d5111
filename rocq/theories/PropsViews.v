(** Property theorems C60: what the results of ad::evaluate and ad::autodiff show
    after the call.  [rdref m h]: reading the returned object [h] when memory is [m]. *)
From Coq Require Import Reals Lra.
From Coquelicot Require Import Coquelicot.
From Verif Require Import Base Num Expr Node Stat Machine Wf LKind Session Tape XR Spec RSess Grad LKM LGrd LFind LSess
  Views LViews LViewR.
Local Open Scope R_scope.
Set Bullet Behavior "Strict Subproofs".

(** ** Scalar expressions: the result is a number, whatever happens to memory. *)
Theorem C60_scalar (la : linalg xr) (LA : la_ok la) bv ba (u : expr (XR la) unit) D e1 m1 rho al b seed :
  okexpr la u -> session la bv ba u D e1 m1 -> mreal la u m1 D rho al -> dom D true b u rho ->
  length seed = size (shape_of u) -> (b = true -> forall j, (j < length seed)%nat -> el seed j = 1) ->
  is_scl (shape_of u) = true ->
  exists e2 m2 e3 m3 h, evaluate_v e1 m1 = Ok (e2, m2, h) /\ autodiff_v e1 (map Fin seed) m1 = Ok (e3, m3, h) /\
    forall m, rdref m h = Ok (map Fin (val D u rho)).
Proof. exact (scalar_view la LA bv ba u D e1 m1 rho al b seed). Qed.
Print Assumptions C60_scalar.
(** v += x, scalars x v at 0 and 1. *)
Definition ex_sv {la} : expr (XR la) unit := EOpEq OAdd tt scl 1 (EVar scl 0).
Example C60_scalar_nonvacuous : exists e1 m1,
  la_ok exact_la /\ okexpr exact_la ex_sv /\ session exact_la 2 3 ex_sv (fun _ => 0) e1 m1 /\
  mreal exact_la ex_sv m1 (fun _ => 0) INR (fun _ => 0) /\ dom (fun _ => 0) true false (@ex_sv exact_la) INR /\
  length [3] = size (shape_of (@ex_sv exact_la)) /\ is_scl (shape_of (@ex_sv exact_la)) = true.
Proof.
  assert (HK : okexpr exact_la ex_sv) by (split; [reflexivity|split; [reflexivity|cbn; tauto]]).
  destruct (session_start exact_la exact_la_ok 2 3 ex_sv (fun _ => 0) INR (fun _ => 0)) as [e1 [m1 [H1 H2]]]; auto.
  { cbv; intuition discriminate. }
  exists e1, m1. split; [exact exact_la_ok|]. split; [exact HK|]. split; [exact H1|]. split; [exact H2|].
  split; [cbn; repeat (match goal with |- _ /\ _ => split end); auto; intros i Hi; auto|]. repeat split.
Qed.

(** ** Vector and matrix expressions: autodiff's result still shows the value
    after the backward pass, provided no op= touches the storage of the root
    ([root_kept], Views.v). *)
Theorem C60_kept (la : linalg xr) (LA : la_ok la) bv ba (u : expr (XR la) unit) D e1 m1 rho al b seed :
  okexpr la u -> session la bv ba u D e1 m1 -> mreal la u m1 D rho al -> dom D true b u rho ->
  length seed = size (shape_of u) -> root_kept u = true ->
  exists e2 m2 h, autodiff_v e1 (map Fin seed) m1 = Ok (e2, m2, h) /\ rdref m2 h = Ok (map Fin (val D u rho)).
Proof. exact (kept_thm la LA bv ba u D e1 m1 rho al b seed). Qed.
Print Assumptions C60_kept.
(** (v += x, sin(v) * v): vectors x v of length 2 at 0 and 2. *)
Definition ex_k {la} : expr (XR la) unit :=
  EGlue tt (EOpEq OAdd tt (Sh Vec 2 1) 2 (EVar (Sh Vec 2 1) 0))
    (EComp (KBin BMul) tt [EComp (KUn USin) tt [EVar (Sh Vec 2 1) 2]; EVar (Sh Vec 2 1) 2]).
Definition rho_k (o : nat) : R := INR o + 1.
Example C60_kept_nonvacuous : exists e1 m1,
  la_ok exact_la /\ okexpr exact_la ex_k /\ session exact_la 2 3 ex_k (fun _ => 0) e1 m1 /\
  mreal exact_la ex_k m1 (fun _ => 0) rho_k (fun _ => 0) /\ dom (fun _ => 0) true false (@ex_k exact_la) rho_k /\
  length [1; -1] = size (shape_of (@ex_k exact_la)) /\ root_kept (@ex_k exact_la) = true /\
  is_scl (shape_of (@ex_k exact_la)) = false.
Proof.
  assert (HK : okexpr exact_la ex_k) by (split; [reflexivity|split; [reflexivity|cbn; tauto]]).
  destruct (session_start exact_la exact_la_ok 2 3 ex_k (fun _ => 0) rho_k (fun _ => 0)) as [e1 [m1 [H1 H2]]]; auto.
  { cbv; intuition discriminate. }
  exists e1, m1. split; [exact exact_la_ok|]. split; [exact HK|]. split; [exact H1|]. split; [exact H2|].
  split; [cbn; repeat (match goal with |- _ /\ _ => split end); auto; intros i Hi; auto|].
  repeat split.
Qed.

(** ** With op= at the root, autodiff's result shows the old variable: the
    backward pass restores the storage the result looks at. *)
Theorem C60_opeq_refuted (la : linalg xr) (LA : la_ok la) bv ba q sh v (y : expr (XR la) unit) D e1 m1 rho al b seed
    (u := EOpEq q tt sh v y) :
  okexpr la u -> session la bv ba u D e1 m1 -> mreal la u m1 D rho al -> dom D true b u rho -> length seed = size sh ->
  is_scl sh = false -> (forall i, In i (cells sh v) -> ~ In i (eqw u)) ->
  exists e2 m2 h, autodiff_v e1 (map Fin seed) m1 = Ok (e2, m2, h) /\
    rdref m2 h = Ok (map Fin (tab (size sh) (fun i => rho (v + i)%nat))).
Proof. exact (opeq_view la LA bv ba q sh v y D e1 m1 rho al b seed). Qed.
Print Assumptions C60_opeq_refuted.
(** v += x: the value is [4; 6], the result shows [3; 4]. *)
Definition ex_oe {la} : expr (XR la) unit := EOpEq OAdd tt (Sh Vec 2 1) 2 (EVar (Sh Vec 2 1) 0).
Example C60_opeq_witness : exists e1 m1,
  la_ok exact_la /\ okexpr exact_la ex_oe /\ session exact_la 2 3 ex_oe (fun _ => 0) e1 m1 /\
  mreal exact_la ex_oe m1 (fun _ => 0) rho_k (fun _ => 0) /\ dom (fun _ => 0) true false (@ex_oe exact_la) rho_k /\
  val (fun _ => 0) (@ex_oe exact_la) rho_k = [4; 6] /\
  exists e2 m2 h, @autodiff_v (XR exact_la) e1 (map Fin [1; 1]) m1 = Ok (e2, m2, h) /\ rdref m2 h = Ok (map Fin [3; 4]).
Proof.
  assert (HK : okexpr exact_la ex_oe) by (split; [reflexivity|split; [reflexivity|cbn; tauto]]).
  destruct (session_start exact_la exact_la_ok 2 3 ex_oe (fun _ => 0) rho_k (fun _ => 0)) as [e1 [m1 [H1 H2]]]; auto.
  { cbv; intuition discriminate. }
  exists e1, m1. split; [exact exact_la_ok|]. split; [exact HK|]. split; [exact H1|]. split; [exact H2|].
  assert (HD : dom (fun _ => 0) true false (@ex_oe exact_la) rho_k).
  { cbn; repeat (match goal with |- _ /\ _ => split end); auto; intros i Hi; auto. }
  split; [exact HD|]. split; [cbn; unfold rho_k; cbn; f_equal; [lra|f_equal; lra]|].
  destruct (C60_opeq_refuted exact_la exact_la_ok 2 3 OAdd (Sh Vec 2 1) 2 (EVar (Sh Vec 2 1) 0) (fun _ => 0) e1 m1
    rho_k (fun _ => 0) false [1; 1] HK H1 H2 HD eq_refl eq_refl) as [e2 [m2 [h [Q1 Q2]]]].
  { cbn. tauto. }
  exists e2, m2, h. split; [exact Q1|]. rewrite Q2. do 2 f_equal. cbn. unfold rho_k. cbn. f_equal; [lra|f_equal; lra].
Qed.

(** ** Every evaluation returns the same view, so the result of an earlier call
    shows the latest value, not the one it was returned for.  For every
    arithmetic; [gettable u]: the root is not if_else. *)
Theorem C60_again (N : num) (LL : la_len N) (bv ba : nat) (uv ua : nat -> N) (u : expr N unit) (m : mem N) e m0 ops e1 m1 ops' e2 m2 :
  fresh bv ba -> wfs u = true -> avail u m -> bound bv ba uv ua u m = Ok (e, m0) ->
  gettable u = true -> is_scl (shape_of u) = false ->
  Forall (op_ok (size (shape_of u))) ops -> run ops (e, m0) = Ok (e1, m1) ->
  Forall (op_ok (size (shape_of u))) ops' -> run ops' (e1, m1) = Ok (e2, m2) ->
  exists h, (exists e1' m1', evaluate_v e1 m1 = Ok (e1', m1', h)) /\
    (exists e2' m2' v, evaluate e2 m2 = Ok (e2', m2', v) /\ evaluate_v e2 m2 = Ok (e2', m2', h) /\ rdref m2' h = Ok v) /\
    (forall seed, length seed = size (shape_of u) -> exists e1' m1', autodiff_v e1 seed m1 = Ok (e1', m1', h)).
Proof. exact (fun HF => view_again LL bv ba HF uv ua u m e m0 ops e1 m1 ops' e2 m2). Qed.
Print Assumptions C60_again.

(** ** The result of autodiff(bind(expr), seed) dangles for vector and matrix
    expressions: the temporary owns the storage. *)
Theorem C60_temporary_refuted (N : num) (LL : la_len N) (bv ba : nat) (uv ua : nat -> N) (u : expr N unit) (m : mem N) seed k es :
  fresh bv ba -> u = EComp k tt es -> wfs u = true -> ctor_ok u = true -> avail u m -> length seed = size (shape_of u) ->
  is_scl (shape_of u) = false -> (0 < size (shape_of u))%nat ->
  exists m' h, autodiff_temp bv ba uv ua u seed m = Ok (m', h) /\ rdref m' h = Err UBoob.
Proof. exact (fun HF => view_temp LL bv ba HF uv ua u m seed k es). Qed.
Print Assumptions C60_temporary_refuted.
(** sin(x) * x, x of length 2; evaluated, overwritten, differentiated. *)
Definition ex_v {N : num} : expr N unit :=
  EComp (KBin BMul) tt [EComp (KUn USin) tt [EVar (Sh Vec 2 1) 0]; EVar (Sh Vec 2 1) 0].
Definition half0 {N : num} (m : mem N) : mem N :=
  fun b o => match m b o with None => None | Some x => if Nat.eqb b 0 then Some (nhalf N) else Some x end.
Example C60_nonvacuous (N : num) : fresh 2 3 /\ wfs (@ex_v N) = true /\ ctor_ok (@ex_v N) = true /\
  avail (@ex_v N) (mem8 N (fun _ => n1 N)) /\ gettable (@ex_v N) = true /\ is_scl (shape_of (@ex_v N)) = false /\
  (exists e m0 e1 m1 e2 m2, bound 2 3 (any N) (any N) (@ex_v N) (mem8 N (fun _ => n1 N)) = Ok (e, m0) /\
     run [OpEval] (e, m0) = Ok (e1, m1) /\ run [OpUser half0; OpDiff [n1 N; n1 N]] (e1, m1) = Ok (e2, m2)) /\
  Forall (op_ok (N := N) (size (shape_of (@ex_v N)))) [OpUser half0; OpDiff [n1 N; n1 N]] /\
  (0 < size (shape_of (@ex_v N)))%nat.
Proof.
  split; [cbv; repeat split; discriminate|]. do 2 (split; [reflexivity|]). split.
  { split; cbn; intros o Ho; [|tauto]. repeat (destruct Ho as [<-|Ho]; [split; discriminate|]). destruct Ho. }
  do 2 (split; [reflexivity|]). split; [|split].
  - eexists _, _, _, _, _, _. split; [vm_compute; reflexivity|]. split; vm_compute; reflexivity.
  - repeat constructor. intros m b o H. unfold half0. destruct (m b o); [destruct (Nat.eqb b 0); discriminate|congruence].
  - cbn. repeat constructor.
Qed.
