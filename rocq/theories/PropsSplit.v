(** Property theorems C52: a client that binds the parts of (w1 = y1, (w2 = y2,
    ... f)) separately, stores the intermediate results itself and passes the
    adjoints of the placeholders on as seeds, obtains what autodiff of the glued
    expression gives. *)
From Coq Require Import Reals Lra.
From Coquelicot Require Import Coquelicot.
From Verif Require Import Base Num Expr Node Stat Machine Wf Session Tape XR Spec RSess Grad LKM LGrd LPh Split LSplit.
Open Scope R_scope.
Set Bullet Behavior "Strict Subproofs".

(** One stage.  The adjoint of w itself agrees too, whatever it was before.
    [m]: memory of the glued program;  [m']: memory of the split one.  y assigns
    nothing; the adjoints of variables assigned in f start at 0 (C01). *)
Theorem C52_split (la : linalg xr) (LA : la_ok la) w sh (y f : expr (XR la) unit) D
    bv ba bv' ba' bv'' ba'' e ey ef m m' rho al b seed (u := EGlue tt (EEq tt sh w y) f) :
  okexpr la u -> writes y = [] ->
  session la bv ba u D e m -> mreal la u m D rho al ->
  session la bv' ba' y D ey m' -> session la bv'' ba'' f D ef m' -> mreal la u m' D rho al ->
  dom D true b u rho ->
  length seed = size (shape_of f) -> (b = true -> forall j, (j < length seed)%nat -> el seed j = 1) ->
  (forall o, In o (writes f) -> al o = 0) ->
  exists e2 m2 ey2 ef2 m2' x, autodiff e (map Fin seed) m = Ok (e2, m2, x) /\
    stages [(w, size sh, ey)] ef (map Fin seed) m' = Ok ([ey2], ef2, m2', x) /\
    (forall o, In o (refs u) -> ~ In o (eqw f) -> m2' 1%nat o = m2 1%nat o) /\
    forall o, In o (refs u) -> ~ In o (eqw u) -> m2' 0%nat o = m2 0%nat o.
Proof. exact (fun HK NY => split_thm la LA w sh y f D HK NY bv ba bv' ba' bv'' ba'' e ey ef m m' rho al b seed). Qed.
Print Assumptions C52_split.

(** Any number of stages [l], bound as [k], and the remaining part [f]. *)
Theorem C52_stages (la : linalg xr) (LA : la_ok la) (f : expr (XR la) unit) D b seed bvf baf ef
    (l : list (nat * shape * expr (XR la) unit)) k m bv ba e m0 rho al (u := glued l f) :
  okexpr la u -> ctor_ok u = true ->
  Forall2 (fun p q => exists w sh y ey bv ba, p = (w, sh, y) /\ q = (w, size sh, ey) /\ writes y = [] /\
    session la bv ba y D ey m) l k ->
  session la bvf baf f D ef m -> session la bv ba u D e m0 ->
  mreal la u m D rho al -> mreal la u m0 D rho al -> dom D true b u rho ->
  length seed = size (shape_of f) -> (b = true -> forall j, (j < length seed)%nat -> el seed j = 1) ->
  (forall o, In o (writes u) -> al o = 0) ->
  exists es ef1 m2 e1 m1 v, stages k ef (map Fin seed) m = Ok (es, ef1, m2, v) /\
    autodiff e (map Fin seed) m0 = Ok (e1, m1, v) /\
    forall o, In o (refs u) -> ~ In o (eqw u) -> m2 0%nat o = m1 0%nat o /\ m2 1%nat o = m1 1%nat o.
Proof. exact (stages_glue la LA f D b seed bvf baf ef l k m bv ba e m0 rho al). Qed.
Print Assumptions C52_stages.

(** (w = x * y, (z = sin(v) * w, sum(z) + w * x));  x y w v z = 0 1 2 3 6 *)
Definition v3 := Sh Vec 3 1.
Definition l52 {la} : list (nat * shape * expr (XR la) unit) :=
  [(2%nat, scl, EComp (KBin BMul) tt [EVar scl 0; EVar scl 1]);
   (6%nat, v3, EComp (KBin BMul) tt [EComp (KUn USin) tt [EVar v3 3]; EVar scl 2])].
Definition f52 {la} : expr (XR la) unit :=
  EComp (KBin BAdd) tt [EComp KSumE tt [EVar v3 6]; EComp (KBin BMul) tt [EVar scl 2; EVar scl 0]].
Example C52_nonvacuous : let u := glued (@l52 exact_la) f52 in
  exists e m0 ef k m, okexpr exact_la u /\ ctor_ok (N := XR exact_la) u = true /\
  Forall2 (fun p q => exists w sh y ey bv ba, p = (w, sh, y) /\ q = (w, size sh, ey) /\ writes y = [] /\
    session exact_la bv ba y (fun _ => 0) ey m) (@l52 exact_la) k /\
  session exact_la 9 10 f52 (fun _ => 0) ef m /\ session exact_la 2 3 u (fun _ => 0) e m0 /\
  mreal exact_la u m (fun _ => 0) (fun _ => 1) (fun _ => 0) /\ mreal exact_la u m0 (fun _ => 0) (fun _ => 1) (fun _ => 0) /\
  dom (fun _ => 0) true false u (fun _ => 1).
Proof.
  intros u. set (y1 := EComp (KBin BMul) tt [EVar scl 0; EVar scl 1] : expr (XR exact_la) unit).
  set (y2 := EComp (KBin BMul) tt [EComp (KUn USin) tt [EVar v3 3]; EVar scl 2] : expr (XR exact_la) unit).
  assert (HK : forall x : expr (XR exact_la) unit, In x [u; y1; y2; f52] -> okexpr exact_la x /\ ctor_ok (N := XR exact_la) x = true).
  { intros x Hx. repeat (destruct Hx as [<-|Hx]; [split; [split; [reflexivity|split; [reflexivity|cbn; tauto]]|reflexivity]|]). destruct Hx. }
  destruct (session_start exact_la exact_la_ok 2 3 u (fun _ => 0) (fun _ => 1) (fun _ => 0)) as [e [m0 [H1 H2]]].
  { cbv; intuition discriminate. } { apply HK; cbn; auto. } { apply HK; cbn; auto. }
  destruct (sessions_start exact_la exact_la_ok [(5%nat, 6%nat, y1); (7%nat, 8%nat, y2); (9%nat, 10%nat, f52); (11%nat, 12%nat, u)]
    (fun _ => 0) (fun _ => 1) (fun _ => 0)) as [es [m HS]].
  { intros bv ba x Hx. repeat (destruct Hx as [Q|Hx]; [inversion Q; subst; split; [cbv; intuition discriminate|apply HK; cbn; auto 6]|]). destruct Hx. }
  destruct (HS 0%nat _ _ _ eq_refl) as [ey1 [_ [A1 _]]]. destruct (HS 1%nat _ _ _ eq_refl) as [ey2 [_ [A2 _]]].
  destruct (HS 2%nat _ _ _ eq_refl) as [ef [_ [A3 _]]]. destruct (HS 3%nat _ _ _ eq_refl) as [eu [_ [_ A4]]].
  exists e, m0, ef, [(2%nat, 1%nat, ey1); (6%nat, 3%nat, ey2)], m.
  split; [apply HK; cbn; auto|]. split; [reflexivity|]. split; [|split; [exact A3|split; [exact H1|split; [exact A4|split; [exact H2|]]]]].
  - constructor; [|constructor; [|constructor]].
    + exists 2%nat, scl, y1, ey1, 5%nat, 6%nat. auto.
    + exists 6%nat, v3, y2, ey2, 7%nat, 8%nat. auto.
  - cbn. repeat (match goal with |- _ /\ _ => split end); auto.
Qed.
