(** Property theorems C54 and C55: the engine treats numbers abstractly, and
    what that implies for double: when a result is exact. *)
From Coq Require Import ZArith Reals Lia.
From Coquelicot Require Import Coquelicot.
From Flocq Require Import Core BinarySingleNaN.
From Verif Require Import Base Num Expr Node Stat Machine Wf Session LKind LUser Tape XR Spec Grad Ieee IeeeSpec LParam LCmap LDyad LIeee.
Set Bullet Behavior "Strict Subproofs".
Local Open Scope nat_scope.

(** [u]: a program over + - * /, the unary functions, pow with nonnegative
    exponent, sum, prod of elements, dot, transpose, norm, =, op=, for_each and
    glue, with constants of type [C].  Two uses of it in two
    arithmetics, after any histories, whose variables, adjoints and constant
    buffers are related by a relation the operations preserve: evaluate returns
    related values and leaves related memories. *)
Theorem C54_evaluate (C : Type) (N1 N2 : num) (LL1 : la_len N1) (LL2 : la_len N2) (R : N1 -> N2 -> Prop) (f : C -> N1) (g : C -> N2)
    bv ba bv' ba' (u : expr C unit) e e' m m' :
  prel R -> (forall c, R (f c) (g c)) -> arithx u = true -> wfs u = true -> disc u = true ->
  used bv ba (cmap f u) e m -> used bv' ba' (cmap g u) e' m' -> mrel R u m m' ->
  exists e1 m1 v e1' m1' v', evaluate e m = Ok (e1, m1, v) /\ evaluate e' m' = Ok (e1', m1', v') /\
    Forall2 R v v' /\ mrel R u m1 m1'.
Proof. exact (fun HP HC HA HW HD => par_eval LL1 LL2 R HP f g HC bv ba bv' ba' u HA HW HD e e' m m'). Qed.
Print Assumptions C54_evaluate.
(** ... and autodiff returns related values and leaves related adjoints and, but
    for placeholders next to op=, related variables. *)
Theorem C54_autodiff (C : Type) (N1 N2 : num) (LL1 : la_len N1) (LL2 : la_len N2) (R : N1 -> N2 -> Prop) (f : C -> N1) (g : C -> N2)
    bv ba bv' ba' (u : expr C unit) e e' m m' s s' :
  prel R -> (forall c, R (f c) (g c)) -> arithx u = true -> wfs u = true -> disc u = true ->
  used bv ba (cmap f u) e m -> used bv' ba' (cmap g u) e' m' -> mrel R u m m' ->
  length s = size (shape_of u) -> Forall2 R s s' ->
  exists e1 m1 v e1' m1' v', autodiff e s m = Ok (e1, m1, v) /\ autodiff e' s' m' = Ok (e1', m1', v') /\
    Forall2 R v v' /\ forall o, In o (refs u) -> crel R (m1 1 o) (m1' 1 o) /\
      (~ In o (eqw u) \/ opw u = [] -> crel R (m1 0 o) (m1' 0 o)).
Proof. exact (fun HP HC HA HW HD => par_diff LL1 LL2 R HP f g HC bv ba bv' ba' u HA HW HD e e' m m' s s'). Qed.
Print Assumptions C54_autodiff.

(** ** C55: exact results in double *)
(** [u]: a program over doubles, [e], [m]: any use of it in binary64 arithmetic,
    under any rounding mode, with any mathematical library and any order of
    summation and multiplication in Eigen's sum() and prod().  [d], [w]: any use
    of it in checked dyadic arithmetic on the same numbers (cells may also hold
    "unknown", e.g. placeholders).  Where the checked run has a result, the run in
    double has the same: no rounding happened on the way. *)
Theorem C55_evaluate (md : mode) (L : libm) (LL : la_len (B64 md L)) (RO : redok md L) (u : expr (B64 md L) unit) bv ba bv' ba' d w e m :
  arithx u = true -> wfs u = true -> disc u = true ->
  @used Dyad bv ba (cmap todyad u) d w -> used bv' ba' u e m -> mrel exactB u w m ->
  exists d1 w1 x e1 m1 y, @evaluate Dyad d w = Ok (d1, w1, x) /\ evaluate e m = Ok (e1, m1, y) /\
    Forall2 exactB x y /\ mrel exactB u w1 m1.
Proof. exact (fun HA HW HD => exact_eval md L LL RO u HA HW HD bv ba bv' ba' d w e m). Qed.
Print Assumptions C55_evaluate.
Theorem C55_autodiff (md : mode) (L : libm) (LL : la_len (B64 md L)) (RO : redok md L) (u : expr (B64 md L) unit) bv ba bv' ba' d w e m sd s :
  arithx u = true -> wfs u = true -> disc u = true ->
  @used Dyad bv ba (cmap todyad u) d w -> used bv' ba' u e m -> mrel exactB u w m ->
  length s = size (shape_of u) -> Forall2 exactB sd s ->
  exists d1 w1 x e1 m1 y, @autodiff Dyad d sd w = Ok (d1, w1, x) /\ autodiff e s m = Ok (e1, m1, y) /\
    Forall2 exactB x y /\ forall o, In o (refs u) -> crel exactB (w1 1 o) (m1 1 o) /\
      (~ In o (eqw u) \/ opw u = [] -> crel exactB (w1 0 o) (m1 0 o)).
Proof. exact (fun HA HW HD => exact_diff md L LL RO u HA HW HD bv ba bv' ba' d w e m sd s). Qed.
Print Assumptions C55_autodiff.
(** ... and that is the true value and the true gradient: the old adjoint plus
    the sum over outputs of seed times partial derivative. *)
Theorem C55_gradient (md : mode) (L : libm) (LL : la_len (B64 md L)) (RO : redok md L) (u : expr (B64 md L) unit) bv ba bv' ba' d w e m sd s
    (uR := cmap toreal u) (D := reals m 4) (rho := reals m 0) (al := reals m 1) :
  arithx u = true -> wfs u = true -> disc u = true ->
  @used Dyad bv ba (cmap todyad u) d w -> used bv' ba' u e m -> mrel exactB u w m ->
  length s = size (shape_of u) -> Forall2 exactB sd s ->
  dom D true false uR rho -> (forall o, In o (writes u) -> al o = 0%R) ->
  exists d1 w1 x e1 m1 y, @autodiff Dyad d sd w = Ok (d1, w1, x) /\ autodiff e s m = Ok (e1, m1, y) /\
    (forall k z, nth_error x k = Some (Some z) ->
       exists q, nth_error y k = Some q /\ is_finite q = true /\ B2R q = el (val D uR rho) k) /\
    forall o, In o (refs u) -> ~ In o (eqw u) -> exists g, partials D uR rho o g /\
      forall z, w1 1 o = Some (Some z) ->
      exists q, m1 1 o = Some q /\ is_finite q = true /\ B2R q = (al o + dotp (map B2R s) g)%R.
Proof. exact (fun HA HW HD => exact_grad md L LL RO u HA HW HD bv ba bv' ba' d w e m sd s). Qed.
Print Assumptions C55_gradient.
(** A whole box of inputs at once: [x], [w] is one run of the program on boxes.
    Where it yields a box, then for all doubles inside the input boxes the double
    result is the true value or gradient and lies in that box.  No division. *)
Theorem C55_boxes (md : mode) (L : libm) (LL : la_len (B64 md L)) (RO : redok md L) (u : expr (B64 md L) unit) bv ba bv' ba' x w e m sx s
    (uR := cmap toreal u) (D := reals m 4) (rho := reals m 0) (al := reals m 1) :
  arithx u = true -> wfs u = true -> disc u = true -> polyx u = true ->
  @used Boxes bv ba (cmap tobox u) x w -> used bv' ba' u e m -> mrel inboxB u w m ->
  length s = size (shape_of u) -> Forall2 inboxB sx s -> (forall o, In o (writes u) -> al o = 0%R) ->
  exists x1 w1 v e1 m1 y, @autodiff Boxes x sx w = Ok (x1, w1, v) /\ autodiff e s m = Ok (e1, m1, y) /\
    (forall k z, nth_error v k = Some (Some z) ->
       exists q, nth_error y k = Some q /\ inboxB (Some z) q /\ B2R q = el (val D uR rho) k) /\
    forall o, In o (refs u) -> ~ In o (eqw u) -> exists g, partials D uR rho o g /\
      forall z, w1 1 o = Some (Some z) ->
      exists q, m1 1 o = Some q /\ inboxB (Some z) q /\ B2R q = (al o + dotp (map B2R s) g)%R.
Proof. exact (fun HA HW HD => box_grad md L LL RO u HA HW HD bv ba bv' ba' x w e m sx s). Qed.
Print Assumptions C55_boxes.

(** (w = dot(A, x), norm(w) + 0.5 * sum(x * w));  A: 2x2 at 0, x at 4, w at 6 *)
Definition v2 := Sh Vec 2 1.
Definition half64 : b64 := ofdy mode_NE 1 (-1).
Definition u55 : expr b64 unit :=
  EGlue tt (EEq tt v2 6 (EComp KDot tt [EVar (Sh Mat 2 2) 0; EVar v2 4]))
    (EComp (KBin BAdd) tt [EComp KNorm tt [EVar v2 6];
       EComp (KBin BMul) tt [ECst scl [half64]; EComp KSumE tt [EComp (KBin BMul) tt [EVar v2 4; EVar v2 6]]]]).
(** Integers up to 1000 in A and x; the placeholder may hold anything. *)
Definition w55 : mem Boxes := fun b o =>
  match b with
  | 0 => Some (if o <? 6 then Some (1000, 0)%Z else None)
  | 1 => Some (Some (0, 0)%Z)
  | _ => None
  end.
Definition m55 : mem b64 := fun b o =>
  match b with
  | 0 => Some (if o <? 6 then ofdy mode_NE (Z.of_nat o - 3) 0 else B754_nan)
  | 1 => Some (B754_zero false)
  | _ => None
  end.
Definition Lx : libm :=
  let no (x : b64) := x in
  Libm no no no no no no no no no no no no (fun x _ => x)
    (fun l => fold_right (@Bplus _ _ Hprec64 Hmax64 mode_NE) (B754_zero false) l)   (* any order will do: here right to left *)
    (fun l => fold_left (@Bmult _ _ Hprec64 Hmax64 mode_NE) l (ofdy mode_NE 1 0))
    (LinAlg b64 (fun _ _ => B754_nan) (fun _ _ => false) (fun n _ => repeat B754_nan (n * n))
         (fun n _ => repeat B754_nan n) (fun _ _ => false) (fun n _ => repeat B754_nan (n * n))
         (fun _ _ => B754_nan) (fun _ _ => false) (fun n _ => repeat B754_nan (n * n))).
Lemma Lx_redok : redok mode_NE Lx.
Proof. intros l. split; [apply reduce_right|apply reduce_left]. Qed.
Definition z55 : nat -> dy := fun _ => Some (0, 0)%Z.
(** The box run has a result for the value and for every gradient. *)
Example C55_box_run :
  match @bound Boxes 2 3 z55 z55 (cmap tobox u55) w55 with
  | Ok (x, w) => match @autodiff Boxes x [Some (1, 0)%Z] w with
                 | Ok (_, w1, v) => (v, map (w1 1) (seq 0 6))
                 | _ => ([], []) end
  | _ => ([], []) end =
  ([Some (16004000000000, -1)%Z],
   [Some (Some (8001000000, -1)%Z); Some (Some (8001000000, -1)%Z); Some (Some (8001000000, -1)%Z);
    Some (Some (8001000000, -1)%Z); Some (Some (16004000000, -1)%Z); Some (Some (16004000000, -1)%Z)]).
Proof. vm_compute. reflexivity. Qed.
Lemma u55_refs o : In o (refs u55) -> o < 8.
Proof. cbn. lia. Qed.
(** The hypotheses of [C55_boxes] hold for it at A = [[-3,-1],[-2,0]], x = (1, 2),
    with not-a-number in the placeholder. *)
Example C55_boxes_nonvacuous : exists x w e m, let N := B64 mode_NE Lx in
  la_len N /\ redok mode_NE Lx /\ arithx u55 = true /\ wfs u55 = true /\ disc u55 = true /\ polyx u55 = true /\
  @bound Boxes 2 3 z55 z55 (cmap tobox u55) w55 = Ok (x, w) /\
  @used Boxes 2 3 (cmap tobox u55) x w /\ @used N 2 3 u55 e m /\ mrel inboxB u55 w m /\
  Forall2 inboxB [Some (1, 0)%Z] [ofdy mode_NE 1 0] /\ (forall o, In o (writes u55) -> reals m 1 o = 0%R).
Proof.
  set (N := B64 mode_NE Lx).
  assert (HL : la_len N) by (intros n X; cbn; rewrite !repeat_length; auto).
  assert (F : fresh 2 3) by (cbv; intuition discriminate).
  assert (WX : @wfs Boxes unit (cmap tobox u55) = true) by reflexivity.
  assert (WN : @wfs N unit u55 = true) by reflexivity.
  assert (AX : @avail Boxes (cmap tobox u55) w55) by (split; cbn; intros; [split; discriminate|contradiction]).
  assert (AN : @avail N u55 m55) by (split; cbn; intros; [split; discriminate|contradiction]).
  destruct (bind_safe Boxes Boxes_len 2 3 F z55 z55 (cmap tobox u55) w55 WX eq_refl AX) as [x [w [B1 _]]].
  destruct (inv_bound Boxes_len 2 3 F _ w55 _ _ x w WX AX B1) as [_ [B2 _]].
  destruct (bind_safe N HL 2 3 F (fun _ => n0 N) (fun _ => n0 N) u55 m55 WN eq_refl AN) as [e [m [C1 _]]].
  destruct (inv_bound HL 2 3 F _ m55 _ _ e m WN AN C1) as [_ [C2 _]].
  assert (Q : forall a z, (Z.abs z <= a)%Z -> (a <= 1000)%Z -> inboxB (Some (a, 0%Z)) (ofdy mode_NE z 0)).
  { intros a z H1 H2. apply inside_box with (x := chk z 0); [|apply b_Z].
    destruct (chk_ok z 0 1000 ltac:(lia) ltac:(discriminate)) as [q K]. exists z, q. auto. }
  exists x, w, e, m. split; [exact HL|]. split; [exact Lx_redok|]. do 4 (split; [reflexivity|]). split; [exact B1|].
  split; [exists w55, z55, z55, x, w, []; repeat (split; auto); constructor|].
  split; [exists m55, (fun _ => n0 N), (fun _ => n0 N), e, m, []; repeat (split; auto); constructor|].
  split; [|split; [constructor; [apply Q; lia|constructor]|]].
  - split; [|intros o []]. intros o Ho. pose proof (u55_refs o Ho). rewrite !B2, !C2 by discriminate. split.
    + eexists. eexists. split; [reflexivity|]. split; [reflexivity|]. destruct (o <? 6); [apply Q; lia|exact I].
    + eexists. eexists. split; [reflexivity|]. split; [reflexivity|]. split; [reflexivity|]. exists 0%Z. split; [cbn; lia|]. symmetry. apply fv_zero.
  - intros o _. unfold reals. rewrite C2 by discriminate. reflexivity.
Qed.
(** Beside [C54]: related arithmetics, e.g. checked dyadic numbers and doubles. *)
Example C54_nonvacuous : @prel Dyad (B64 mode_NE Lx) exactB /\ (forall c, exactB (todyad c) c) /\
  exactB (todyad half64) half64 /\ todyad half64 = Some (1, -1)%Z.
Proof. split; [apply prelB, Lx_redok|]. split; [apply todyad_exact|]. split; [apply todyad_exact|reflexivity]. Qed.
(** The checked run of [u55] at those inputs. *)
Definition d55 : mem Dyad := fun b o => option_map todyad (m55 b o).
Example C55_dyadic_run :
  match @bound Dyad 2 3 z55 z55 (cmap todyad u55) d55 with
  | Ok (x, w) => match @autodiff Dyad x [Some (1, 0)%Z] w with
                 | Ok (_, w1, v) => (v, map (w1 1) (seq 0 6))
                 | _ => ([], []) end
  | _ => ([], []) end =
  ([Some (49, -1)%Z], [Some (Some (-19, -1)%Z); Some (Some (-3, 0)%Z); Some (Some (-19, 0)%Z); Some (Some (-3, 1)%Z);
                       Some (Some (1, 5)%Z); Some (Some (17, -1)%Z)]).
Proof. vm_compute. reflexivity. Qed.
(** The same run in double. *)
Example C55_double_run : let N := B64 mode_NE Lx in
  match @bound N 2 3 (fun _ => n0 N) (fun _ => n0 N) u55 m55 with
  | Ok (x, w) => match @autodiff N x [ofdy mode_NE 1 0] w with
                 | Ok (_, w1, v) => (map todyad v, map (fun o => option_map todyad (w1 1 o)) (seq 0 6))
                 | _ => ([], []) end
  | _ => ([], []) end =
  ([Some (49, -1)%Z], [Some (Some (-19, -1)%Z); Some (Some (-3, 0)%Z); Some (Some (-19, 0)%Z); Some (Some (-3, 1)%Z);
                       Some (Some (1, 5)%Z); Some (Some (17, -1)%Z)]).
Proof. vm_compute. reflexivity. Qed.
