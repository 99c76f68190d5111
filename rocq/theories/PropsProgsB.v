(** Property theorems C65: the op=, for_each, matrix and range-sum programs of
    test/integration/node_inttest.cpp, for any sizes and at every point. *)
From Coq Require Import Reals Lra.
From Coquelicot Require Import Coquelicot.
From Verif Require Import Base Num Expr Node Stat Machine Wf Session Tape XR Spec RSess Grad LKM LGrd Progs ProgsB LProgsB LProgsC.
Open Scope R_scope.
Set Bullet Behavior "Strict Subproofs".

(** A point used below, and the point of the test for_each. *)
Definition x65 (o : nat) : R := INR o - 2.
Definition p65 (o : nat) : R := match o with 0%nat => 100 | 1%nat => 20 | 2%nat => -10 | _ => / 1000 end.

(** ** node_inttest.cpp:193-221: eight op= on a vector of any length and a scalar.  The
    variables hold their old values afterwards, the adjoints are those of the closed form. *)
Theorem C65_opeq_nested (la : linalg xr) (LA : la_ok la) bv ba n D rho al s e m :
  (1 <= n)%nat -> rho n <> 0 -> rho n <> 2 ->
  session la bv ba (opeq_u n) D e m -> mreal la (opeq_u n) m D rho al -> (forall o, (o <= n)%nat -> al o = 0) ->
  exists e2 m2, @autodiff (XR la) e [Fin s] m = Ok (e2, m2, [Fin (1 / (rho n - 2) * (2 * sumn n rho - INR n) - INR n)]) /\
    m2 0%nat n = Some (Fin (rho n)) /\ m2 1%nat n = Some (Fin (s * (- (1 / (rho n - 2) ^ 2) * (2 * sumn n rho - INR n)))) /\
    forall i, (i < n)%nat -> m2 0%nat i = Some (Fin (rho i)) /\ m2 1%nat i = Some (Fin (s * (2 / (rho n - 2)))).
Proof. exact (opeq_thm la LA bv ba n D rho al s e m). Qed.
Print Assumptions C65_opeq_nested.
(** Five entries -2..2, scalar 3. *)
Example C65_opeq_nested_avail : exists e m, la_ok exact_la /\
  session exact_la 2 3 (opeq_u 5) (fun _ => 0) e m /\ mreal exact_la (opeq_u 5) m (fun _ => 0) x65 (fun _ => 0) /\
  x65 5 <> 0 /\ x65 5 <> 2 /\ 1 / (x65 5 - 2) * (2 * sumn 5 x65 - 5) - 5 = -10.
Proof.
  destruct (session_start exact_la exact_la_ok 2 3 (opeq_u 5) (fun _ => 0) x65 (fun _ => 0)) as [e [m [H1 H2]]].
  { cbv; intuition discriminate. }
  { apply opeq_ok. lia. }
  { reflexivity. }
  exists e, m. split; [exact exact_la_ok|]. split; [exact H1|]. split; [exact H2|]. unfold x65. cbn. repeat split; lra.
Qed.

(** ** node_inttest.cpp:223-252: [tail += scl * head] with overlapping head and tail.  Every
    cell is read before it is written: this is not the recurrence (comment at :225). *)
Theorem C65_head_tail (la : linalg xr) (LA : la_ok la) bv ba n D rho al s e m :
  (1 <= n)%nat ->
  session la bv ba (ht_u n) D e m -> mreal la (ht_u n) m D rho al -> (forall o, (1 <= o <= n)%nat -> al o = 0) ->
  exists e2 m2, @autodiff (XR la) e [Fin s] m = Ok (e2, m2, [Fin (sumn n (fun i => rho (S i) + rho (S n) * rho i))]) /\
    m2 0%nat (S n) = Some (Fin (rho (S n))) /\ m2 1%nat (S n) = Some (Fin (al (S n) + s * sumn n rho)) /\
    forall i, (i <= n)%nat -> m2 0%nat i = Some (Fin (rho i)) /\
      m2 1%nat i = Some (Fin (al i + s * ((if (i <? n)%nat then rho (S n) else 0) + (if (i =? 0)%nat then 0 else 1)))).
Proof. exact (ht_thm la LA bv ba n D rho al s e m). Qed.
Print Assumptions C65_head_tail.
(** Five entries -2..2, scalar 3. *)
Example C65_head_tail_avail : exists e m, la_ok exact_la /\
  session exact_la 2 3 (ht_u 4) (fun _ => 0) e m /\ mreal exact_la (ht_u 4) m (fun _ => 0) x65 (fun _ => 0) /\
  sumn 4 (fun i => x65 (S i) + x65 5 * x65 i) = -4.
Proof.
  destruct (session_start exact_la exact_la_ok 2 3 (ht_u 4) (fun _ => 0) x65 (fun _ => 0)) as [e [m [H1 H2]]].
  { cbv; intuition discriminate. }
  { apply ht_ok. lia. }
  { reflexivity. }
  exists e, m. split; [exact exact_la_ok|]. split; [exact H1|]. split; [exact H2|]. unfold x65. cbn. repeat split; lra.
Qed.

(** ** node_inttest.cpp:332-369: the product of n+1 variables by a for_each over
    placeholders, at every point (the test divides by the variable: here it may be 0). *)
Theorem C65_for_each (la : linalg xr) (LA : la_ok la) bv ba n D rho al s e m :
  (1 <= n)%nat ->
  session la bv ba (fe_u n) D e m -> mreal la (fe_u n) m D rho al -> (forall o, (n < o <= 2 * n + 2)%nat -> al o = 0) ->
  exists e2 m2, @autodiff (XR la) e [Fin s] m = Ok (e2, m2, [Fin (prodn (S n) rho * prodn (S n) rho + rho 0%nat)]) /\
    forall i, (i <= n)%nat -> m2 0%nat i = Some (Fin (rho i)) /\
      m2 1%nat i = Some (Fin (al i + s * ((if (i =? 0)%nat then 1 else 0) + 2 * prodn (S n) rho * prodn (S n) (set1 rho i 1)))).
Proof. exact (fe_thm la LA bv ba n D rho al s e m). Qed.
Print Assumptions C65_for_each.
(** The numbers of the test. *)
Example C65_for_each_avail : exists e m, la_ok exact_la /\
  session exact_la 2 3 (fe_u 3) (fun _ => 0) e m /\ mreal exact_la (fe_u 3) m (fun _ => 0) p65 (fun _ => 0) /\
  prodn 4 p65 = -20 /\ 2 * prodn 4 p65 * prodn 4 (set1 p65 1 1) = 40.
Proof.
  destruct (session_start exact_la exact_la_ok 2 3 (fe_u 3) (fun _ => 0) p65 (fun _ => 0)) as [e [m [H1 H2]]].
  { cbv; intuition discriminate. }
  { apply fe_ok. lia. }
  { reflexivity. }
  exists e, m. split; [exact exact_la_ok|]. split; [exact H1|]. split; [exact H2|]. unfold p65. cbn. repeat split; lra.
Qed.

(** ** node_inttest.cpp:371-395: sum of the entrywise square of a matrix of any size. *)
Theorem C65_matrix (la : linalg xr) (LA : la_ok la) bv ba p q D rho al s e m :
  session la bv ba (mr_u p q) D e m -> mreal la (mr_u p q) m D rho al -> (forall o, (p * q <= o <= 2 * (p * q))%nat -> al o = 0) ->
  exists e2 m2, @autodiff (XR la) e [Fin s] m = Ok (e2, m2, [Fin (sumn (p * q) (fun i => rho i * rho i))]) /\
    forall i, (i < p * q)%nat -> m2 0%nat i = Some (Fin (rho i)) /\ m2 1%nat i = Some (Fin (al i + s * (2 * rho i))).
Proof. exact (mr_thm la LA bv ba p q D rho al s e m). Qed.
Print Assumptions C65_matrix.
(** A 3x2 matrix with entries -2..3. *)
Example C65_matrix_avail : exists e m, la_ok exact_la /\
  session exact_la 2 3 (mr_u 3 2) (fun _ => 0) e m /\ mreal exact_la (mr_u 3 2) m (fun _ => 0) x65 (fun _ => 0) /\
  sumn 6 (fun i => x65 i * x65 i) = 19.
Proof.
  destruct (session_start exact_la exact_la_ok 2 3 (mr_u 3 2) (fun _ => 0) x65 (fun _ => 0)) as [e [m [H1 H2]]].
  { cbv; intuition discriminate. }
  { apply mr_ok. }
  { reflexivity. }
  exists e, m. split; [exact exact_la_ok|]. split; [exact H1|]. split; [exact H2|]. unfold x65. cbn. repeat split; lra.
Qed.

(** ** node_inttest.cpp:300-330: range sum of a function of each of n variables. *)
Theorem C65_range_sum (la : linalg xr) (LA : la_ok la) bv ba n D rho al s e m :
  session la bv ba (sn_u n) D e m -> mreal la (sn_u n) m D rho al ->
  exists e2 m2, @autodiff (XR la) e [Fin s] m = Ok (e2, m2, [Fin (sumn n (fun i => cos (sin (rho i) * rho i)))]) /\
    forall i, (i < n)%nat -> m2 0%nat i = Some (Fin (rho i)) /\
      m2 1%nat i = Some (Fin (al i + s * (- sin (sin (rho i) * rho i) * (cos (rho i) * rho i + sin (rho i))))).
Proof. exact (sn_thm la LA bv ba n D rho al s e m). Qed.
Print Assumptions C65_range_sum.
(** Three variables. *)
Example C65_range_sum_avail : exists e m, la_ok exact_la /\
  session exact_la 2 3 (sn_u 3) (fun _ => 0) e m /\ mreal exact_la (sn_u 3) m (fun _ => 0) x65 (fun _ => 0).
Proof.
  destruct (session_start exact_la exact_la_ok 2 3 (sn_u 3) (fun _ => 0) x65 (fun _ => 0)) as [e [m [H1 H2]]].
  { cbv; intuition discriminate. }
  { apply sn_ok. }
  { reflexivity. }
  exists e, m. split; [exact exact_la_ok|]. split; [exact H1|]. exact H2.
Qed.
