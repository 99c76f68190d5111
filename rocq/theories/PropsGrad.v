(** Property theorems C01, C02, C07, C09-C12, C36: values and gradients of bound
    expressions over the reals ([XR]: the reals with infinities and NaN, exact
    arithmetic), for every implementation of the Eigen decompositions obeying
    [la_ok]. *)
From Coq Require Import Reals Lra.
From Coquelicot Require Import Coquelicot.
From Verif Require Import Base Num Expr Node Stat Machine Wf Session Tape XR Spec Nudge RSess Grad LKM LGrd LNGrad LPh.
Open Scope R_scope.
Set Bullet Behavior "Strict Subproofs".

(** ** C02: values.
    [session]: the expression was bound, then evaluated, differentiated and its
    caches and variables overwritten by the client any number of times.
    [mreal]: its variables now hold [rho], their adjoints [al], the constant
    buffers [D].  evaluate returns the value of the denotation ([val], Spec.v),
    leaves the final variable values of the denotation and no adjoint changed. *)
Theorem C02_value (la : linalg xr) (LA : la_ok la) bv ba (u : expr (XR la) unit) D e1 m1 rho al b :
  okexpr la u -> session la bv ba u D e1 m1 -> mreal la u m1 D rho al -> dom D false b u rho ->
  exists e2 m2, evaluate e1 m1 = Ok (e2, m2, map Fin (val D u rho)) /\ session la bv ba u D e2 m2 /\
    mreal la u m2 D (fin_env D u rho) al.
Proof. exact (value_thm la LA bv ba u D e1 m1 rho al b). Qed.
Print Assumptions C02_value.

(** ** C01: gradients.
    If moreover the adjoints of assigned variables are zero, autodiff adds the
    seed-weighted sum of the partial derivatives to every adjoint ([eqw]: the
    placeholders themselves, see C11).  [b]: the seed is all ones, which the
    vector Cauchy nodes need (C32). *)
Theorem C01_gradient (la : linalg xr) (LA : la_ok la) bv ba (u : expr (XR la) unit) D e1 m1 rho al b seed :
  okexpr la u -> session la bv ba u D e1 m1 -> mreal la u m1 D rho al -> dom D true b u rho ->
  length seed = size (shape_of u) -> (b = true -> forall j, (j < length seed)%nat -> el seed j = 1) ->
  (forall o, In o (writes u) -> al o = 0) ->
  exists e2 m2, autodiff e1 (map Fin seed) m1 = Ok (e2, m2, map Fin (val D u rho)) /\
    forall o, In o (refs u) -> ~ In o (eqw u) -> exists g, partials D u rho o g /\
      m2 1%nat o = Some (Fin (al o + dotp seed g)).
Proof. exact (grad_thm la LA bv ba u D e1 m1 rho al b seed). Qed.
Print Assumptions C01_gradient.
(** Without the assumption on the adjoints of assigned variables: those act as
    seeds of the variables' final values. *)
Theorem C01_gradient_general (la : linalg xr) (LA : la_ok la) bv ba (u : expr (XR la) unit) D e1 m1 rho al b seed :
  okexpr la u -> session la bv ba u D e1 m1 -> mreal la u m1 D rho al -> dom D true b u rho ->
  length seed = size (shape_of u) -> (b = true -> forall j, (j < length seed)%nat -> el seed j = 1) ->
  exists e2 m2, autodiff e1 (map Fin seed) m1 = Ok (e2, m2, map Fin (val D u rho)) /\
    forall o, In o (refs u) -> ~ In o (eqw u) -> exists g h, partials D u rho o g /\ epartials D u rho o h /\
      m2 0%nat o = Some (Fin (rho o)) /\
      forall M, (forall i, In i (refs u) -> (i < M)%nat) ->
      m2 1%nat o = Some (Fin (dotp seed g + sumn M (fun i => al i * h i))).
Proof. exact (grad_gen la LA bv ba u D e1 m1 rho al b seed). Qed.
Print Assumptions C01_gradient_general.

(** (w = x * y, (v += w, sin(w) * v + log(x)));  x y w v = 0 1 2 3 *)
Definition ex_g {la} : expr (XR la) unit :=
  EGlue tt (EEq tt scl 2 (EComp (KBin BMul) tt [EVar scl 0; EVar scl 1]))
    (EGlue tt (EOpEq OAdd tt scl 3 (EVar scl 2))
       (EComp (KBin BAdd) tt [EComp (KBin BMul) tt [EComp (KUn USin) tt [EVar scl 2]; EVar scl 3];
                              EComp (KUn ULog) tt [EVar scl 0]])).
Definition rho_g (o : nat) : R := match o with 0%nat => 2 | 1%nat => 3 | _ => 5 end.
Definition al_g (o : nat) : R := match o with 0%nat => 7 | 1%nat => -1 | _ => 0 end.
Example C01_nonvacuous : exists e1 m1,
  la_ok exact_la /\ okexpr exact_la ex_g /\ session exact_la 2 3 ex_g (fun _ => 0) e1 m1 /\
  mreal exact_la ex_g m1 (fun _ => 0) rho_g al_g /\ dom (fun _ => 0) true false (@ex_g exact_la) rho_g /\
  length [4] = size (shape_of (@ex_g exact_la)) /\
  (forall o, In o (writes (@ex_g exact_la)) -> al_g o = 0) /\
  val (fun _ => 0) (@ex_g exact_la) rho_g = [sin (2 * 3) * (5 + 2 * 3) + ln 2] /\
  refs (@ex_g exact_la) = [2; 0; 1; 3; 2; 2; 3; 0]%nat /\ eqw (@ex_g exact_la) = [2%nat].
Proof.
  assert (HK : okexpr exact_la ex_g) by (split; [reflexivity|split; [reflexivity|cbn; tauto]]).
  destruct (session_start exact_la exact_la_ok 2 3 ex_g (fun _ => 0) rho_g al_g) as [e1 [m1 [H1 H2]]]; auto.
  { cbv; intuition discriminate. }
  exists e1, m1. split; [exact exact_la_ok|]. split; [exact HK|]. split; [exact H1|]. split; [exact H2|].
  split.
  { cbn. repeat (match goal with |- _ /\ _ => split end); auto; intros i Hi; auto. destruct i; [cbn; lra|lia]. }
  split; [reflexivity|]. split.
  { intros o Ho. cbn in Ho. repeat (destruct Ho as [<-|Ho]; [reflexivity|]). destruct Ho. }
  split; [reflexivity|]. split; reflexivity.
Qed.

(** ** C12: op=.
    (v op= y): evaluate stores v op y in v; autodiff leaves all values as they
    were; the adjoint of new v (seed plus v's adjoint) is replaced by its
    propagation to old v and to the variables of y (v may occur in y). *)
Theorem C12_opeq (la : linalg xr) (LA : la_ok la) bv ba q sh v (y : expr (XR la) unit) D e1 m1 rho al seed
    (u := EOpEq q tt sh v y) :
  okexpr la u -> writes y = [] -> session la bv ba u D e1 m1 -> mreal la u m1 D rho al -> dom D true false u rho ->
  length seed = size sh ->
  (exists e2 m2, evaluate e1 m1 = Ok (e2, m2, map Fin (tab (size sh) (fun i => oe_s q (rho (v + i)%nat) (ent (shape_of y) (val D y rho) i)))) /\
     forall i, (i < size sh)%nat -> m2 0%nat (v + i)%nat = Some (Fin (oe_s q (rho (v + i)%nat) (ent (shape_of y) (val D y rho) i)))) /\
  exists e2 m2 w, autodiff e1 (map Fin seed) m1 = Ok (e2, m2, w) /\
    (forall o, In o (refs u) -> m2 0%nat o = Some (Fin (rho o))) /\
    forall o, In o (refs u) -> exists g, partials D u rho o g /\
      m2 1%nat o = Some (Fin ((if existsb (Nat.eqb o) (cells sh v) then 0 else al o) +
        sumn (size sh) (fun j => (al (v + j)%nat + el seed j) * g j))).
Proof. exact (opeq_thm la LA bv ba q sh v y D e1 m1 rho al seed). Qed.
Print Assumptions C12_opeq.
(** After autodiff of any expression, every variable that is not assigned with
    = has its old value, whatever op= it went through. *)
Theorem C12_restored (la : linalg xr) (LA : la_ok la) bv ba (u : expr (XR la) unit) D e1 m1 rho al b seed :
  okexpr la u -> session la bv ba u D e1 m1 -> mreal la u m1 D rho al -> dom D true b u rho ->
  length seed = size (shape_of u) -> (b = true -> forall j, (j < length seed)%nat -> el seed j = 1) ->
  exists e2 m2 w, autodiff e1 (map Fin seed) m1 = Ok (e2, m2, w) /\
    forall o, In o (refs u) -> ~ In o (eqw u) -> m2 0%nat o = m1 0%nat o.
Proof. exact (restore_thm la LA bv ba u D e1 m1 rho al b seed). Qed.
Print Assumptions C12_restored.
(** v /= (v * x + 1), v a vector of length 2 at 0, x scalar at 2 *)
Definition ex_op {la} : expr (XR la) unit :=
  EOpEq ODiv tt (Sh Vec 2 1) 0
    (EComp (KBin BAdd) tt [EComp (KBin BMul) tt [EVar (Sh Vec 2 1) 0; EVar scl 2]; ECst scl [Fin 1]]).
Example C12_nonvacuous : exists e1 m1,
  la_ok exact_la /\ okexpr exact_la ex_op /\ session exact_la 2 3 ex_op (fun _ => 0) e1 m1 /\
  mreal exact_la ex_op m1 (fun _ => 0) (fun _ => 1) (fun _ => 0) /\
  dom (fun _ => 0) true false (@ex_op exact_la) (fun _ => 1) /\
  opw (@ex_op exact_la) = [0; 1]%nat /\ refs (@ex_op exact_la) = [0; 1; 0; 1; 2]%nat.
Proof.
  assert (HK : okexpr exact_la ex_op).
  { split; [reflexivity|split; [reflexivity|cbn; repeat (match goal with |- _ /\ _ => split end); auto]].
    constructor; [eexists; reflexivity|constructor]. }
  destruct (session_start exact_la exact_la_ok 2 3 ex_op (fun _ => 0) (fun _ => 1) (fun _ => 0)) as [e1 [m1 [H1 H2]]]; auto.
  { cbv; intuition discriminate. }
  exists e1, m1. split; [exact exact_la_ok|]. split; [exact HK|]. split; [exact H1|]. split; [exact H2|].
  split; [|split; reflexivity].
  cbn. repeat (match goal with |- _ /\ _ => split end); auto.
  - constructor; [eexists; reflexivity|constructor].
  - intros i Hi. destruct i as [|[|i]]; cbn; [lra|lra|lia].
Qed.

(** ** C11: placeholders.
    In (w = y, f): after autodiff the adjoint of w has grown by the derivative of
    the final value with respect to w, and every other variable receives its
    direct contribution through f plus, through y, w's adjoint times the
    derivative of y, however often w is used. *)
Theorem C11_placeholder (la : linalg xr) (LA : la_ok la) bv ba sh w (y f : expr (XR la) unit) D e1 m1 rho al b seed
    (u := EGlue tt (EEq tt sh w y) f) rho1 :
  okexpr la u -> session la bv ba u D e1 m1 -> mreal la u m1 D rho al -> dom D true b u rho ->
  length seed = size (shape_of f) -> (b = true -> forall j, (j < length seed)%nat -> el seed j = 1) ->
  (forall o, In o (writes f) -> al o = 0) ->
  rho1 = put (fin_env D y rho) w (val D y rho) ->
  exists e2 m2 gw, autodiff e1 (map Fin seed) m1 = Ok (e2, m2, map Fin (val D f rho1)) /\
    (forall j, (j < size sh)%nat -> partials D f rho1 (w + j) (gw j) /\
       m2 1%nat (w + j)%nat = Some (Fin (al (w + j)%nat + dotp seed (gw j)))) /\
    (writes y = [] -> forall o, In o (refs u) -> ~ In o (eqw u) -> exists gf gy, partials D f rho1 o gf /\ partials D y rho o gy /\
       m2 1%nat o = Some (Fin (al o + dotp seed gf +
         sumn (size sh) (fun j => (al (w + j)%nat + dotp seed (gw j)) * gy j)))).
Proof. exact (ph_thm la LA bv ba sh w y f D e1 m1 rho al b seed rho1). Qed.
Print Assumptions C11_placeholder.
(** The value stored in the placeholder is the value of y. *)
Theorem C11_value (la : linalg xr) (LA : la_ok la) bv ba sh w (y f : expr (XR la) unit) D e1 m1 rho al b
    (u := EGlue tt (EEq tt sh w y) f) :
  okexpr la u -> session la bv ba u D e1 m1 -> mreal la u m1 D rho al -> dom D false b u rho ->
  (forall i, In i (cells sh w) -> ~ In i (opw f)) ->
  exists e2 m2 v, evaluate e1 m1 = Ok (e2, m2, v) /\
    forall j, (j < size sh)%nat -> m2 0%nat (w + j)%nat = Some (Fin (el (val D y rho) j)).
Proof. exact (ph_value la LA bv ba sh w y f D e1 m1 rho al b). Qed.
Print Assumptions C11_value.
(** For every variable of any expression, placeholders included: its adjoint grows
    by the seed times the derivative of the value under a change of that variable,
    where changing a variable means adding the same amount to its initial value
    and to every value assigned to it ([npartials], Nudge.v).  The adjoints of
    the assigned variables being zero before. *)
Theorem C11_adjoint (la : linalg xr) (LA : la_ok la) bv ba (u : expr (XR la) unit) D e1 m1 rho al b seed :
  okexpr la u -> session la bv ba u D e1 m1 -> mreal la u m1 D rho al -> dom D true b u rho ->
  length seed = size (shape_of u) -> (b = true -> forall j, (j < length seed)%nat -> el seed j = 1) ->
  (forall o, In o (writes u) -> al o = 0) ->
  exists e2 m2, autodiff e1 (map Fin seed) m1 = Ok (e2, m2, map Fin (val D u rho)) /\
    forall o, In o (refs u) -> exists g, npartials D u rho o g /\ m2 1%nat o = Some (Fin (al o + dotp seed g)).
Proof. exact (ngrad_thm la LA bv ba u D e1 m1 rho al b seed). Qed.
Print Assumptions C11_adjoint.
(** Whatever the adjoints are before. *)
Theorem C11_adjoint_general (la : linalg xr) (LA : la_ok la) bv ba (u : expr (XR la) unit) D e1 m1 rho al b seed :
  okexpr la u -> session la bv ba u D e1 m1 -> mreal la u m1 D rho al -> dom D true b u rho ->
  length seed = size (shape_of u) -> (b = true -> forall j, (j < length seed)%nat -> el seed j = 1) ->
  exists e2 m2, autodiff e1 (map Fin seed) m1 = Ok (e2, m2, map Fin (val D u rho)) /\
    forall o, In o (refs u) -> exists g h, npartials D u rho o g /\ nepartials D u rho o h /\
      forall M, (forall i, In i (refs u) -> (i < M)%nat) ->
        m2 1%nat o = Some (Fin (dotp seed g + sumn M (fun i => al i * h i))).
Proof. exact (ngrad_gen la LA bv ba u D e1 m1 rho al b seed). Qed.
Print Assumptions C11_adjoint_general.
(** For variables that are not assigned with =, this is the partial derivative. *)
Theorem C11_adjoint_input (la : linalg xr) D (u : expr (XR la) unit) rho o g : okexpr la u -> ~ In o (eqw u) ->
  npartials D u rho o g <-> partials D u rho o g.
Proof. exact (fun H => npartials_input D u rho o g (proj1 H)). Qed.
Print Assumptions C11_adjoint_input.
(** (w = x * y, w * w + x * w) *)
Definition ex_ph {la} : expr (XR la) unit :=
  EGlue tt (EEq tt scl 2 (EComp (KBin BMul) tt [EVar scl 0; EVar scl 1]))
    (EComp (KBin BAdd) tt [EComp (KBin BMul) tt [EVar scl 2; EVar scl 2]; EComp (KBin BMul) tt [EVar scl 0; EVar scl 2]]).
Example C11_nonvacuous : exists e1 m1,
  la_ok exact_la /\ okexpr exact_la ex_ph /\ session exact_la 2 3 ex_ph (fun _ => 0) e1 m1 /\
  mreal exact_la ex_ph m1 (fun _ => 0) rho_g al_g /\ dom (fun _ => 0) true false (@ex_ph exact_la) rho_g /\
  put (fin_env (fun _ => 0) (EComp (KBin BMul) tt [EVar scl 0; EVar scl 1] : expr xr unit) rho_g) 2
      (val (fun _ => 0) (EComp (KBin BMul) tt [EVar scl 0; EVar scl 1] : expr xr unit) rho_g) 2%nat = 2 * 3.
Proof.
  assert (HK : okexpr exact_la ex_ph) by (split; [reflexivity|split; [reflexivity|cbn; tauto]]).
  destruct (session_start exact_la exact_la_ok 2 3 ex_ph (fun _ => 0) rho_g al_g) as [e1 [m1 [H1 H2]]]; auto.
  { cbv; intuition discriminate. }
  exists e1, m1. split; [exact exact_la_ok|]. split; [exact HK|]. split; [exact H1|]. split; [exact H2|].
  split; [|reflexivity].
  cbn. repeat (match goal with |- _ /\ _ => split end); auto.
Qed.

(** The adjoint of w in it is that of w * w + x * w at w = x * y. *)
Example C11_nudge_nonvacuous : npartials (fun _ => 0) (ex_ph (la := exact_la)) rho_g 2 (fun k => match k with O => 2 * (2 * 3) + 2 | _ => 0 end) /\
  ~ (2 * (2 * 3) + 2 = 0).
Proof.
  split; [|lra]. intros [|k].
  - apply (is_derive_ext (fun x => (2 * 3 + x) * (2 * 3 + x) + 2 * (2 * 3 + x))).
    + intros x. cbn. unfold put, bump, rho_g. cbn. ring_simplify. ring.
    + auto_derive; [exact I|ring].
  - apply (is_derive_ext (fun _ => 0)); [|apply (is_derive_const 0)].
    intros x. cbn. destruct k; reflexivity.
Qed.

(** ** C09, C10: linearity in the seed.
    [dom _ true false]: no vector Cauchy node with varying location or scale
    (refuted for those, C32_seed_refuted). *)
Theorem C09_seed_linear (la : linalg xr) (LA : la_ok la) bv ba (u : expr (XR la) unit) D e1 m1 rho al s t a b
    (n := size (shape_of u)) :
  okexpr la u -> session la bv ba u D e1 m1 -> mreal la u m1 D rho al -> dom D true false u rho ->
  length s = n -> length t = n -> (forall o, In o (writes u) -> al o = 0) ->
  exists es ms et mt ec mc v, autodiff e1 (map Fin s) m1 = Ok (es, ms, v) /\
    autodiff e1 (map Fin t) m1 = Ok (et, mt, v) /\
    autodiff e1 (map Fin (tab n (fun k => a * el s k + b * el t k))) m1 = Ok (ec, mc, v) /\
    forall o, In o (refs u) -> exists xs xt, ms 1%nat o = Some (Fin (al o + xs)) /\
      mt 1%nat o = Some (Fin (al o + xt)) /\ mc 1%nat o = Some (Fin (al o + (a * xs + b * xt))).
Proof. exact (lin_thm la LA bv ba u D e1 m1 rho al s t a b). Qed.
Print Assumptions C09_seed_linear.
Theorem C10_zero_seed (la : linalg xr) (LA : la_ok la) bv ba (u : expr (XR la) unit) D e1 m1 rho al :
  okexpr la u -> session la bv ba u D e1 m1 -> mreal la u m1 D rho al -> dom D true false u rho ->
  (forall o, In o (writes u) -> al o = 0) ->
  exists e2 m2, autodiff e1 (repeat (Fin 0) (size (shape_of u))) m1 = Ok (e2, m2, map Fin (val D u rho)) /\
    forall o, In o (refs u) -> m2 1%nat o = m1 1%nat o.
Proof. exact (zero_thm la LA bv ba u D e1 m1 rho al). Qed.
Print Assumptions C10_zero_seed.
(** Their hypotheses are met by C01_nonvacuous. *)

(** ** C07: adjoints accumulate.
    [diffs]: one autodiff per seed, each after zeroing the adjoints of the
    assigned variables ([reset]; no effect if there are none).  Placeholders
    are not read before they are assigned. *)
Theorem C07_accumulate (la : linalg xr) (LA : la_ok la) bv ba (u : expr (XR la) unit) D b seeds rho e1 m1 al :
  okexpr la u -> (forall o, In o (eqw u) -> ~ In o (inputs u)) ->
  dom D true b u rho ->
  Forall (fun s => length s = size (shape_of u) /\ (b = true -> forall j, (j < length s)%nat -> el s j = 1)) seeds ->
  session la bv ba u D e1 m1 -> mreal la u m1 D rho al ->
  exists e2 m2, diffs la u seeds e1 m1 = Ok (e2, m2) /\
    forall o, In o (refs u) -> ~ In o (writes u) -> m2 0%nat o = Some (Fin (rho o)) /\
      exists g, partials D u rho o g /\ m2 1%nat o = Some (Fin (al o + sumr (map (fun s => dotp s g) seeds))).
Proof. exact (accum_thm la LA bv ba u D b seeds rho e1 m1 al). Qed.
Print Assumptions C07_accumulate.
(** Without placeholders nothing needs to be reset. *)
Theorem C07_no_placeholders (la : linalg xr) (LA : la_ok la) bv ba (u : expr (XR la) unit) D b seeds rho e1 m1 al :
  okexpr la u -> writes u = [] -> dom D true b u rho ->
  Forall (fun s => length s = size (shape_of u) /\ (b = true -> forall j, (j < length s)%nat -> el s j = 1)) seeds ->
  session la bv ba u D e1 m1 -> mreal la u m1 D rho al ->
  exists e2 m2, run (map (fun s => OpDiff (N := XR la) (map Fin s)) seeds) (e1, m1) = Ok (e2, m2) /\
    forall o, In o (refs u) -> m2 0%nat o = Some (Fin (rho o)) /\
      exists g, partials D u rho o g /\ m2 1%nat o = Some (Fin (al o + sumr (map (fun s => dotp s g) seeds))).
Proof. exact (accum_plain la LA bv ba u D b seeds rho e1 m1 al). Qed.
Print Assumptions C07_no_placeholders.
Example C07_nonvacuous : exists e1 m1,
  la_ok exact_la /\ okexpr exact_la ex_ph /\ session exact_la 2 3 ex_ph (fun _ => 0) e1 m1 /\
  mreal exact_la ex_ph m1 (fun _ => 0) rho_g al_g /\ dom (fun _ => 0) true false (@ex_ph exact_la) rho_g /\
  (forall o, In o (eqw (@ex_ph exact_la)) -> ~ In o (inputs (@ex_ph exact_la))) /\ opw (@ex_ph exact_la) = [] /\
  In 0%nat (refs (@ex_ph exact_la)) /\ ~ In 0%nat (writes (@ex_ph exact_la)).
Proof.
  destruct C11_nonvacuous as [e1 [m1 [H1 [H2 [H3 [H4 [H5 _]]]]]]]. exists e1, m1. do 5 (split; [assumption|]).
  split; [|split; [reflexivity|split; [cbn; auto|cbn; intuition discriminate]]].
  intros o Ho. cbn in Ho. destruct Ho as [<-|[]]. cbn. intuition discriminate.
Qed.

(** Both = and op=: (w = x * y, w += x, x -= y, w * x). *)
Definition ex_mix {la} : expr (XR la) unit :=
  EGlue tt (EEq tt scl 2 (EComp (KBin BMul) tt [EVar scl 0; EVar scl 1]))
    (EGlue tt (EOpEq OAdd tt scl 2 (EVar scl 0))
      (EGlue tt (EOpEq OSub tt scl 0 (EVar scl 1)) (EComp (KBin BMul) tt [EVar scl 2; EVar scl 0]))).
Example C07_mixed_nonvacuous : exists e1 m1,
  okexpr exact_la ex_mix /\ session exact_la 2 3 ex_mix (fun _ => 0) e1 m1 /\
  mreal exact_la ex_mix m1 (fun _ => 0) rho_g al_g /\ dom (fun _ => 0) true false (@ex_mix exact_la) rho_g /\
  (forall o, In o (eqw (@ex_mix exact_la)) -> ~ In o (inputs (@ex_mix exact_la))) /\
  In 1%nat (refs (@ex_mix exact_la)) /\ ~ In 1%nat (writes (@ex_mix exact_la)).
Proof.
  assert (K : okexpr exact_la ex_mix) by (split; [reflexivity|split; [reflexivity|cbn; tauto]]).
  destruct (session_start exact_la exact_la_ok 2 3 ex_mix (fun _ => 0) rho_g al_g) as [e1 [m1 [H1 H2]]]; auto.
  { cbv; intuition discriminate. }
  exists e1, m1. do 3 (split; [assumption|]). split; [cbn; repeat split; auto|].
  split; [intros o Ho; cbn in Ho; destruct Ho as [<-|[]]; cbn; intuition discriminate|]. cbn. split; [auto|intuition discriminate].
Qed.

(** ** C36: several bound expressions.
    Any schedule of evaluate and autodiff calls ([sched], Grad.v) on expressions
    sharing variables: every call returns its own expression's value, and the
    adjoint of every shared variable grows by the sum of the calls' gradients.
    Expressions with op= may be differentiated, not evaluated: evaluate leaves
    their variables updated. *)
Theorem C36_no_interference (la : linalg xr) (LA : la_ok la) (us : list (expr (XR la) unit)) D rho bs cs es m al :
  (forall i j u v, nth_error us i = Some u -> nth_error us j = Some v -> i <> j ->
     forall o, In o (writes u) -> ~ In o (refs v)) ->
  (forall i u, nth_error us i = Some u -> okexpr la u /\ (forall o, In o (eqw u) -> ~ In o (inputs u)) /\
     dom D true (bs i) u rho) ->
  (forall i s, In (i, s) cs -> exists u, nth_error us i = Some u /\ (s = None -> opw u = []) /\
     forall s', s = Some s' -> length s' = size (shape_of u) /\ (bs i = true -> forall j, (j < length s')%nat -> el s' j = 1)) ->
  (forall i u, nth_error us i = Some u -> exists bv ba e, nth_error es i = Some e /\ session la bv ba u D e m /\
     mreal la u m D rho al) ->
  exists es2 m2, sched la us cs es m =
      Ok (es2, m2, map (fun c : call => map Fin (match nth_error us (fst c) with Some u => val D u rho | None => [] end)) cs) /\
    forall o, (exists u, In u us /\ In o (refs u)) -> (forall u, In u us -> ~ In o (writes u)) ->
      m2 0%nat o = Some (Fin (rho o)) /\
      forall g, (forall i u, nth_error us i = Some u -> partials D u rho o (g i)) ->
        m2 1%nat o = Some (Fin (al o + sumr (map (gain g) cs))).
Proof. exact (inter_thm la LA us D rho bs cs es m al). Qed.
Print Assumptions C36_no_interference.
(** ex_ph above and sin(x) * y *)
Definition ex_sin {la} : expr (XR la) unit := EComp (KBin BMul) tt [EComp (KUn USin) tt [EVar scl 0]; EVar scl 1].
Example C36_nonvacuous : let us := [@ex_ph exact_la; ex_sin] in exists es m,
  (forall i j u v, nth_error us i = Some u -> nth_error us j = Some v -> i <> j ->
     forall o, In o (writes u) -> ~ In o (refs v)) /\
  (forall i u, nth_error us i = Some u -> okexpr exact_la u /\ (forall o, In o (eqw u) -> ~ In o (inputs u)) /\
     dom (fun _ => 0) true false u rho_g) /\
  (forall i s, In (i, s) [(0%nat, Some [1]); (1%nat, None); (1%nat, Some [2]); (0%nat, None)] -> exists u, nth_error us i = Some u /\ (s = None -> opw u = []) /\
     forall s', s = Some s' -> length s' = size (shape_of u)) /\
  (forall i u, nth_error us i = Some u -> exists bv ba e, nth_error es i = Some e /\ session exact_la bv ba u (fun _ => 0) e m /\
     mreal exact_la u m (fun _ => 0) rho_g al_g).
Proof.
  intros us.
  assert (KP : okexpr exact_la ex_ph) by (split; [reflexivity|split; [reflexivity|cbn; tauto]]).
  assert (KS : okexpr exact_la ex_sin) by (split; [reflexivity|split; [reflexivity|cbn; tauto]]).
  assert (HI : forall i (u : expr (XR exact_la) unit), nth_error us i = Some u -> (i = 0%nat /\ u = ex_ph) \/ (i = 1%nat /\ u = ex_sin)).
  { intros [|[|i]] u H; cbn in H; [left|right|destruct i; discriminate]; inversion H; auto. }
  destruct (sessions_start exact_la exact_la_ok [(2%nat, 3%nat, ex_ph); (5%nat, 6%nat, ex_sin)] (fun _ => 0) rho_g al_g) as [es [m HS]].
  { intros bv ba u [X|[X|[]]]; inversion X; subst; (split; [cbv; intuition discriminate|]); split; auto. }
  exists es, m. split; [|split; [|split]].
  - intros i j u v Hi Hj N o. destruct (HI i u Hi) as [[-> ->]|[-> ->]], (HI j v Hj) as [[-> ->]|[-> ->]]; try congruence; cbn; intuition congruence.
  - intros i u Hi. destruct (HI i u Hi) as [[-> ->]|[-> ->]]; (split; [auto|]); (split; [intros o Ho; cbn in Ho|]).
    + destruct Ho as [<-|[]]. cbn. intuition discriminate.
    + cbn. repeat (match goal with |- _ /\ _ => split end); auto.
    + destruct Ho.
    + cbn. repeat (match goal with |- _ /\ _ => split end); auto.
  - intros i s H. cbn in H. repeat (destruct H as [H|H]; [inversion H; subst; eexists; split; [reflexivity|]; split; [reflexivity|]; intros s' Q; inversion Q; reflexivity|]).
    destruct H.
  - intros i u Hi. destruct (HI i u Hi) as [[-> ->]|[-> ->]].
    + destruct (HS 0%nat _ _ _ eq_refl) as [e [E1 E2]]. exists 2%nat, 3%nat, e. auto.
    + destruct (HS 1%nat _ _ _ eq_refl) as [e [E1 E2]]. exists 5%nat, 6%nat, e. auto.
Qed.
