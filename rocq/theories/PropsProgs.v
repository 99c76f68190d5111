(** Property theorems C50 and C51: programs of the documentation and of the
    integration tests, for any size and at every point. *)
From Coq Require Import Reals Lra.
From Coquelicot Require Import Coquelicot.
From Verif Require Import Base Num Expr Node Stat Machine Wf Session Tape XR Spec RSess Grad LKM LGrd Progs LProgs.
Open Scope R_scope.
Set Bullet Behavior "Strict Subproofs".

(** ** C50: README.md:567-610, x^T Sigma x for any Sigma (symmetric or not): the
    value is the quadratic form and the adjoint of x grows by the seed times
    (Sigma + Sigma^T) x.  [quad]: Spec.v. *)
Theorem C50_quadratic (la : linalg xr) (LA : la_ok la) bv ba n S D rho al s e m :
  length S = (n * n)%nat -> session la bv ba (quad_u n S) D e m -> mreal la (quad_u n S) m D rho al ->
  exists e2 m2, @autodiff (XR la) e [Fin s] m = Ok (e2, m2, [Fin (quad n (m_of n S) rho rho)]) /\
    forall i, (i < n)%nat -> m2 0%nat i = Some (Fin (rho i)) /\
      m2 1%nat i = Some (Fin (al i + s * sumn n (fun j => (m_of n S i j + m_of n S j i) * rho j))).
Proof. exact (quad_thm la LA bv ba n S D rho al s e m). Qed.
Print Assumptions C50_quadratic.
(** The numbers of README.md:581-607. *)
Definition x50 (o : nat) : R := match o with 0%nat => 5 / 10 | _ => 6 / 10 end.
Definition s50 : list R := [2; 3; 3; 6].
Example C50_nonvacuous : exists e m, la_ok exact_la /\ length s50 = (2 * 2)%nat /\
  session exact_la 2 3 (quad_u 2 s50) (fun _ => 0) e m /\ mreal exact_la (quad_u 2 s50) m (fun _ => 0) x50 (fun _ => 0) /\
  sumn 2 (fun j => (m_of 2 s50 0%nat j + m_of 2 s50 j 0%nat) * x50 j) = 56 / 10 /\
  sumn 2 (fun j => (m_of 2 s50 1%nat j + m_of 2 s50 j 1%nat) * x50 j) = 102 / 10.
Proof.
  destruct (session_start exact_la exact_la_ok 2 3 (quad_u 2 s50) (fun _ => 0) x50 (fun _ => 0)) as [e [m [H1 H2]]].
  { cbv; intuition discriminate. }
  { now apply quad_ok. }
  { reflexivity. }
  exists e, m. split; [exact exact_la_ok|]. split; [reflexivity|]. split; [exact H1|]. split; [exact H2|].
  cbn. split; lra.
Qed.

(** ** C51: test/integration/ad_inttest.cpp:10-26. *)
Theorem C51_f (la : linalg xr) (LA : la_ok la) bv ba D rho al s e m :
  session la bv ba int_f D e m -> mreal la int_f m D rho al -> (forall o, In o [5; 6; 7]%nat -> al o = 0) ->
  exists e2 m2, @autodiff (XR la) e [Fin s] m =
      Ok (e2, m2, [Fin (sin (rho 0%nat) * cos (rho 1%nat) + (rho 2%nat + rho 3%nat * rho 4%nat))]) /\
    forall o, (o < 5)%nat -> m2 0%nat o = Some (Fin (rho o)) /\
      m2 1%nat o = Some (Fin (al o + s * match o with
        | 0%nat => cos (rho 0%nat) * cos (rho 1%nat)
        | 1%nat => - sin (rho 0%nat) * sin (rho 1%nat)
        | 2%nat => 1
        | 3%nat => rho 4%nat
        | _ => rho 3%nat
        end)).
Proof. exact (f_thm la LA bv ba D rho al s e m). Qed.
Print Assumptions C51_f.
(** Any number [n] of variables. *)
Theorem C51_g (la : linalg xr) (LA : la_ok la) bv ba n D rho al s e m :
  session la bv ba (int_g n) D e m -> mreal la (int_g n) m D rho al -> al n = 0 -> al (S n) = 0 ->
  exists e2 m2, @autodiff (XR la) e [Fin s] m =
      Ok (e2, m2, [Fin (sumn n (fun i => sin (rho i)) ^ 2 - sumn n (fun i => cos (rho i)))]) /\
    forall o, (o < n)%nat -> m2 0%nat o = Some (Fin (rho o)) /\
      m2 1%nat o = Some (Fin (al o + s * (2 * sumn n (fun i => sin (rho i)) * cos (rho o) + sin (rho o)))).
Proof. exact (g_thm la LA bv ba n D rho al s e m). Qed.
Print Assumptions C51_g.
(** Variables that do not occur are not touched. *)
Theorem C51_h (la : linalg xr) (LA : la_ok la) bv ba D rho al s e m :
  session la bv ba int_h D e m -> mreal la int_h m D rho al -> al 5%nat = 0 ->
  exists e2 m2, @autodiff (XR la) e [Fin s] m = Ok (e2, m2, [Fin (rho 0%nat * rho 4%nat)]) /\
    m2 1%nat 0%nat = Some (Fin (al 0%nat + s * rho 4%nat)) /\ m2 1%nat 4%nat = Some (Fin (al 4%nat + s * rho 0%nat)) /\
    forall o, (o = 1 \/ o = 2 \/ o = 3)%nat -> m2 1%nat o = m 1%nat o.
Proof. exact (h_thm la LA bv ba D rho al s e m). Qed.
Print Assumptions C51_h.
(** The values of ad_inttest.cpp:51. *)
Definition x51 (o : nat) : R :=
  match o with 0%nat => 1 / 10 | 1%nat => 23 / 10 | 2%nat => -1 | 3%nat => 41 / 10 | _ => - (521 / 100) end.
Example C51_nonvacuous : exists ef mf eg mg eh mh, la_ok exact_la /\
  session exact_la 2 3 int_f (fun _ => 0) ef mf /\ mreal exact_la int_f mf (fun _ => 0) x51 (fun _ => 0) /\
  session exact_la 2 3 (int_g 5) (fun _ => 0) eg mg /\ mreal exact_la (int_g 5) mg (fun _ => 0) x51 (fun _ => 0) /\
  session exact_la 2 3 int_h (fun _ => 0) eh mh /\ mreal exact_la int_h mh (fun _ => 0) x51 (fun _ => 0).
Proof.
  assert (F : fresh 2 3) by (cbv; intuition discriminate).
  destruct (session_start exact_la exact_la_ok 2 3 int_f (fun _ => 0) x51 (fun _ => 0) F (f_ok _) eq_refl) as [ef [mf [F1 F2]]].
  destruct (session_start exact_la exact_la_ok 2 3 (int_g 5) (fun _ => 0) x51 (fun _ => 0) F (g_ok _ 5) eq_refl) as [eg [mg [G1 G2]]].
  destruct (session_start exact_la exact_la_ok 2 3 int_h (fun _ => 0) x51 (fun _ => 0) F (h_ok _) eq_refl) as [eh [mh [H1 H2]]].
  exists ef, mf, eg, mg, eh, mh. repeat (split; [assumption || exact exact_la_ok|]). exact H2.
Qed.
