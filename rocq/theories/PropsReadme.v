(** Property theorems C59: the programs of README.md and example/main.cpp, for any
    sizes and at every point. *)
From Coq Require Import Reals Lra Lia.
From Coquelicot Require Import Coquelicot.
From Verif Require Import Base Num Expr Node Stat Machine Wf Session Tape XR Spec RSess Grad Forward Ieee LKM LGrd Progs LProgs Readme LReadme.
Open Scope R_scope.
Set Bullet Behavior "Strict Subproofs".

(** ** C59: example/main.cpp.  With f(x,y) = exp((x sin y + x y) x sin y), reverse mode
    adds the seed times both partial derivatives of f; the placeholders hold 0. *)
Theorem C59_main (la : linalg xr) (LA : la_ok la) bv ba D rho al s e m :
  session la bv ba main_u D e m -> mreal la main_u m D rho al -> (forall o, In o [2; 3; 4]%nat -> al o = 0) ->
  let x := rho 0%nat in let y := rho 1%nat in let f := exp ((x * sin y + x * y) * (x * sin y)) in
  exists e2 m2, @autodiff (XR la) e [Fin s] m = Ok (e2, m2, [Fin f]) /\
    m2 1%nat 0%nat = Some (Fin (al 0%nat + s * (f * (2 * x * (sin y + y) * sin y)))) /\
    m2 1%nat 1%nat = Some (Fin (al 1%nat + s * (f * (x * x * ((cos y + 1) * sin y + (sin y + y) * cos y))))).
Proof. exact (main_thm la LA bv ba D rho al s e m). Qed.
Print Assumptions C59_main.
(** The same function in forward mode: the tangent is the directional derivative. *)
Theorem C59_forward (la : linalg xr) (r d : nat -> R) :
  let x := r 0%nat in let y := r 1%nat in let f := exp ((x * sin y + x * y) * (x * sin y)) in
  stm_run (XR la) (main_f : stm (XR la)) (fun j => Dual (N := XR la) (Fin (r j)) (Fin (d j))) 4%nat =
    Dual (N := XR la) (Fin f) (Fin (d 0%nat * (f * (2 * x * (sin y + y) * sin y)) +
      d 1%nat * (f * (x * x * ((cos y + 1) * sin y + (sin y + y) * cos y))))).
Proof. exact (main_fwd la r d). Qed.
Print Assumptions C59_forward.
(** README.md:339-367, a vector seed: sin(x) + cos(v). *)
Theorem C59_seeded (la : linalg xr) (LA : la_ok la) bv ba n D rho al s e m : (0 < n)%nat -> length s = n ->
  session la bv ba (sc_u n) D e m -> mreal la (sc_u n) m D rho al ->
  exists e2 m2, @autodiff (XR la) e (map Fin s) m = Ok (e2, m2, map Fin (tab n (fun k => sin (rho 0%nat) + cos (rho (S k))))) /\
    m2 1%nat 0%nat = Some (Fin (al 0%nat + sumn n (el s) * cos (rho 0%nat))) /\
    forall k, (k < n)%nat -> m2 1%nat (S k) = Some (Fin (al (S k) - el s k * sin (rho (S k)))).
Proof. exact (sc_thm la LA bv ba n D rho al s e m). Qed.
Print Assumptions C59_seeded.
(** README.md:376-406: with w = M v1 + v2, A = sum w, B = sum (w v2), c = B + A v2 the
    adjoints grow by the seed times c v1^T (M), M^T c (v1) and c + A w (v2). *)
Theorem C59_matrix (la : linalg xr) (LA : la_ok la) bv ba p q D rho al s e m : (forall k, (k <= p)%nat -> al (oW p q + k)%nat = 0) ->
  session la bv ba (wr_u p q) D e m -> mreal la (wr_u p q) m D rho al ->
  let M i j := rho (j * p + i)%nat in let v1 j := rho (p * q + j)%nat in let v2 i := rho (p * q + q + i)%nat in
  let w i := sumn q (fun j => M i j * v1 j) + v2 i in
  let A := sumn p w in let B := sumn p (fun i => w i * v2 i) in let c i := B + A * v2 i in
  exists e2 m2, @autodiff (XR la) e [Fin s] m = Ok (e2, m2, [Fin (A * B)]) /\
    (forall i j, (i < p)%nat -> (j < q)%nat -> m2 1%nat (j * p + i)%nat = Some (Fin (al (j * p + i)%nat + s * (c i * v1 j)))) /\
    (forall j, (j < q)%nat -> m2 1%nat (p * q + j)%nat = Some (Fin (al (p * q + j)%nat + s * sumn p (fun i => M i j * c i)))) /\
    forall i, (i < p)%nat -> m2 1%nat (p * q + q + i)%nat = Some (Fin (al (p * q + q + i)%nat + s * (c i + A * w i))).
Proof. exact (wr_thm la LA bv ba p q D rho al s e m). Qed.
Print Assumptions C59_matrix.
(** README.md:416-432: sin(x) + cos(v) + sum(cos(v)) written out... *)
Theorem C59_repeated (la : linalg xr) (LA : la_ok la) bv ba n D rho al s e m : (0 < n)%nat -> length s = n ->
  session la bv ba (np_u n) D e m -> mreal la (np_u n) m D rho al ->
  exists e2 m2, @autodiff (XR la) e (map Fin s) m =
      Ok (e2, m2, map Fin (tab n (fun k => sin (rho 0%nat) + cos (rho (S k)) + sumn n (fun j => cos (rho (S j)))))) /\
    m2 1%nat 0%nat = Some (Fin (al 0%nat + sumn n (el s) * cos (rho 0%nat))) /\
    forall k, (k < n)%nat -> m2 1%nat (S k) = Some (Fin (al (S k) - (el s k + sumn n (el s)) * sin (rho (S k)))).
Proof. exact (np_thm la LA bv ba n D rho al s e m). Qed.
Print Assumptions C59_repeated.
(** ... and with the placeholder w = cos(v): the same value and the same adjoints. *)
Theorem C59_placeholder (la : linalg xr) (LA : la_ok la) bv ba n D rho al s e m : (0 < n)%nat -> length s = n ->
  (forall k, (k < n)%nat -> al (S n + k)%nat = 0) ->
  session la bv ba (ph_u n) D e m -> mreal la (ph_u n) m D rho al ->
  exists e2 m2, @autodiff (XR la) e (map Fin s) m =
      Ok (e2, m2, map Fin (tab n (fun k => sin (rho 0%nat) + cos (rho (S k)) + sumn n (fun j => cos (rho (S j)))))) /\
    m2 1%nat 0%nat = Some (Fin (al 0%nat + sumn n (el s) * cos (rho 0%nat))) /\
    forall k, (k < n)%nat -> m2 1%nat (S k) = Some (Fin (al (S k) - (el s k + sumn n (el s)) * sin (rho (S k)))).
Proof. exact (ph_thm la LA bv ba n D rho al s e m). Qed.
Print Assumptions C59_placeholder.

(** The sizes of the README (5, and 5 x 6); adjoints already 1 where they need not be 0. *)
Definition x59 (o : nat) : R := INR o / 10.
Definition a59 (k o : nat) : R := if (o <? k)%nat then 1 else 0.
Example C59_nonvacuous : exists e1 m1 e2 m2 e3 m3 e4 m4 e5 m5, la_ok exact_la /\
  (session exact_la 2 3 main_u (fun _ => 0) e1 m1 /\ mreal exact_la main_u m1 (fun _ => 0) x59 (a59 2)) /\
  (session exact_la 2 3 (sc_u 5) (fun _ => 0) e2 m2 /\ mreal exact_la (sc_u 5) m2 (fun _ => 0) x59 (a59 6)) /\
  (session exact_la 2 3 (wr_u 5 6) (fun _ => 0) e3 m3 /\ mreal exact_la (wr_u 5 6) m3 (fun _ => 0) x59 (a59 41)) /\
  (session exact_la 2 3 (np_u 5) (fun _ => 0) e4 m4 /\ mreal exact_la (np_u 5) m4 (fun _ => 0) x59 (a59 6)) /\
  (session exact_la 2 3 (ph_u 5) (fun _ => 0) e5 m5 /\ mreal exact_la (ph_u 5) m5 (fun _ => 0) x59 (a59 6)) /\
  (forall o, In o [2; 3; 4]%nat -> a59 2 o = 0) /\ (forall k, (k <= 5)%nat -> a59 41 (oW 5 6 + k) = 0) /\
  (forall k, (k < 5)%nat -> a59 6 (6 + k) = 0).
Proof.
  assert (F : fresh 2 3) by (cbv; intuition discriminate). assert (P : (0 < 5)%nat) by lia.
  destruct (session_start exact_la exact_la_ok 2 3 main_u (fun _ => 0) x59 (a59 2) F (main_ok _) eq_refl) as [e1 [m1 H1]].
  destruct (session_start exact_la exact_la_ok 2 3 (sc_u 5) (fun _ => 0) x59 (a59 6) F (sc_ok _ 5 P) eq_refl) as [e2 [m2 H2]].
  destruct (session_start exact_la exact_la_ok 2 3 (wr_u 5 6) (fun _ => 0) x59 (a59 41) F (wr_ok _ 5 6) eq_refl) as [e3 [m3 H3]].
  destruct (session_start exact_la exact_la_ok 2 3 (np_u 5) (fun _ => 0) x59 (a59 6) F (np_ok _ 5 P) eq_refl) as [e4 [m4 H4]].
  destruct (session_start exact_la exact_la_ok 2 3 (ph_u 5) (fun _ => 0) x59 (a59 6) F (ph_ok _ 5 P) eq_refl) as [e5 [m5 H5]].
  exists e1, m1, e2, m2, e3, m3, e4, m4, e5, m5. split; [exact exact_la_ok|].
  split; [exact H1|]. split; [exact H2|]. split; [exact H3|]. split; [exact H4|]. split; [exact H5|].
  unfold a59, oW. split; [|split].
  - intros o Ho. destruct (Nat.ltb_spec o 2); cbn in Ho; [lia|reflexivity].
  - intros k Hk. destruct (Nat.ltb_spec (5 * 6 + 6 + 5 + k) 41); [lia|reflexivity].
  - intros k Hk. destruct (Nat.ltb_spec (6 + k) 6); [lia|reflexivity].
Qed.
(** M = ((1, 2), (3, 4)), v1 = (1, -1), v2 = (2, 1), in exact arithmetic: w = (1, 0),
    A = 1, B = 2, c = (4, 3), so the adjoints are c v1^T, M^T c = (13, 20), c + A w = (5, 3). *)
Definition m59 : mem Dyad := fun b o =>
  if (b =? 0)%nat then Some (nofZ Dyad (nth o [1; 3; 2; 4; 1; -1; 2; 1; 0; 0; 0]%Z 0%Z)) else if (b =? 1)%nat then Some (n0 Dyad) else None.
Example C59_run : ('(e, m) <- bound 2 3 (fun _ => n0 Dyad) (fun _ => n0 Dyad) (cmap (fun _ => n0 Dyad) (wr_u 2 2)) m59 ;;
  '(_, m2, v) <- autodiff e [n1 Dyad] m ;; Ok (v, map (m2 1%nat) (seq 0 8))) =
  Ok ([nofZ Dyad 2], map (fun z => Some (nofZ Dyad z)) [4; 3; -4; -3; 13; 20; 5; 3]%Z).
Proof. vm_compute. reflexivity. Qed.
