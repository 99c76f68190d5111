(** Property theorem C56: one run of a program on intervals bounds the results in
    double, the true results, and so the rounding error. *)
From Coq Require Import ZArith Reals Lra Lia.
From Coquelicot Require Import Coquelicot.
From Flocq Require Import Core BinarySingleNaN.
From Verif Require Import Base Num Expr Node Stat Machine Wf Session LKind LUser Tape XR Spec Grad Ieee IeeeSpec LCmap LDyad Ival IvalSpec LIval.
Set Bullet Behavior "Strict Subproofs".
Local Open Scope nat_scope.

(** [u]: a program with constants of type [C], each with a double ([fb]), a real
    number ([fr]) and an interval ([fi]) containing both: a literal 0.1 is not the
    number 1/10.  [F] encloses the functions of the mathematical library [L] and
    the true ones.  [x], [w]: any use of the program on intervals; [e], [m]: any
    use of it in binary64, under any rounding mode and with any order of summation
    and multiplication in sum() and prod(), with the doubles in the intervals; [D], [rho], [al]: real numbers in the intervals, not necessarily
    the doubles.  Then wherever the interval run ends with an interval, the
    double result is finite and in it, and so is the true value at [rho], or the
    true gradient: old adjoint plus sum of seed times partial derivative. *)
Theorem C56_enclosure (F : encl) (md : mode) (L : libm) (LL : la_len (B64 md L)) (C : Type) (fi : C -> iv) (fb : C -> b64) (fr : C -> R)
    (u : expr C unit) bv ba bv' ba' x w e m (D rho al : nat -> R) si s sr (uR := cmap (fun c => Fin (fr c)) u) :
  redok md L -> soundB F md L -> soundR F -> (forall c, inB (fi c) (fb c)) -> (forall c, within (fi c) (fr c)) ->
  arithx u = true -> wfs u = true -> disc u = true ->
  @used (Ival F) bv ba (cmap fi u) x w -> @used (B64 md L) bv' ba' (cmap fb u) e m -> mrel inB u w m -> mholds u w D rho al ->
  length s = size (shape_of u) -> Forall2 inB si s -> Forall2 within si sr ->
  dom D true false uR rho -> (forall o, In o (writes u) -> al o = 0%R) ->
  exists x1 w1 v e1 m1 y, @autodiff (Ival F) x si w = Ok (x1, w1, v) /\ @autodiff (B64 md L) e s m = Ok (e1, m1, y) /\
    (forall k a b, nth_error v k = Some (Some (a, b)) ->
       exists q, nth_error y k = Some q /\ both a b q (el (val D uR rho) k)) /\
    forall o, In o (refs u) -> ~ In o (eqw u) -> exists g, partials D uR rho o g /\
      forall a b, w1 1 o = Some (Some (a, b)) ->
      exists q, m1 1 o = Some q /\ both a b q (al o + dotp sr g).
Proof.
  exact (fun RO SB SR CB CR HA HW HD => iv_grad F md L RO SB SR LL fi fb fr CB CR u HA HW HD bv ba bv' ba' x w e m D rho al si s sr).
Qed.
Print Assumptions C56_enclosure.
(** The rounding error is at most the width. *)
Theorem C56_error (a b : Z * Z) (y : b64) (r : R) : both a b y r -> (Rabs (B2R y - r) <= dval b - dval a)%R.
Proof. exact (both_near a b y r). Qed.
Print Assumptions C56_error.

(** sqrt(x * x + y * y) / (x + 0.1), x at 0, y at 1 *)
Definition u56 : expr unit unit :=
  EComp (KBin BDiv) tt
    [EComp (KUn USqrt) tt [EComp (KBin BAdd) tt [EComp (KBin BMul) tt [EVar scl 0; EVar scl 0]; EComp (KBin BMul) tt [EVar scl 1; EVar scl 1]]];
     EComp (KBin BAdd) tt [EVar scl 0; ECst scl [tt]]].
(** 0.1 and 0.7, between neighbouring doubles, and as doubles. *)
Definition i01 : iv := Some ((7205759403792793, -56), (3602879701896397, -55))%Z.
Definition i07 : iv := Some ((3152519739159347, -52), (6305039478318695, -53))%Z.
Definition d01 : b64 := ofdy mode_NE 3602879701896397 (-55).
Definition d07 : b64 := ofdy mode_NE 3152519739159347 (-52).
Definition w56 : mem iv := fun b o =>
  match b with 0 => Some (if o =? 0 then i01 else i07) | 1 => Some (Some ((0, 0), (0, 0))%Z) | _ => None end.
Definition m56 : mem b64 := fun b o =>
  match b with 0 => Some (if o =? 0 then d01 else d07) | 1 => Some (B754_zero false) | _ => None end.
(** sin and cos between -1 and 1, nothing known about the other functions, and
    some library for which this holds. *)
Definition F56 : encl :=
  let no (i : ends) : iv := None in let one (i : ends) : iv := Some ((-1, 0), (1, 0))%Z in
  Encl one one no no no no no no no no no no (fun _ _ => None) None.
Definition L56 : libm :=
  let no (x : b64) := x in let zero (x : b64) : b64 := B754_zero false in
  Libm zero zero no no no no no no no no no no (fun x _ => x)
    (fun l => fold_left (@Bplus _ _ Hprec64 Hmax64 mode_NE) l (B754_zero false))
    (fun l => fold_left (@Bmult _ _ Hprec64 Hmax64 mode_NE) l (ofdy mode_NE 1 0))
    (LinAlg b64 (fun _ _ => B754_nan) (fun _ _ => false) (fun n _ => repeat B754_nan (n * n))
         (fun n _ => repeat B754_nan n) (fun _ _ => false) (fun n _ => repeat B754_nan (n * n))
         (fun _ _ => B754_nan) (fun _ _ => false) (fun n _ => repeat B754_nan (n * n))).
Definition o1 : iv := Some ((1, 0), (1, 0))%Z.
(** The interval run: the value is known to six units in the last place. *)
Example C56_interval_run :
  match @bound (Ival F56) 2 3 (fun _ => None) (fun _ => None) (cmap (fun _ => i01) u56) w56 with
  | Ok (x, w) => match @autodiff (Ival F56) x [o1] w with Ok (_, w1, v) => (v, map (w1 1) [0; 1]) | _ => ([], []) end
  | _ => ([], []) end =
  ([Some ((7961314590657213, -51), (7961314590657219, -51))%Z],
   [Some (Some ((-4776788754394333, -48), (-4776788754394325, -48))%Z);
    Some (Some ((348307513341253, -46), (5572920213460055, -50))%Z)]).
Proof. vm_compute. reflexivity. Qed.
(** The run in double. *)
Example C56_double_run : let N := B64 mode_NE L56 in
  match @bound N 2 3 (fun _ => n0 N) (fun _ => n0 N) (cmap (fun _ => d01) u56) m56 with
  | Ok (x, w) => match @autodiff N x [ofdy mode_NE 1 0] w with
                 | Ok (_, w1, v) => (map todyad v, map (fun o => option_map todyad (w1 1 o)) [0; 1])
                 | _ => ([], []) end
  | _ => ([], []) end =
  ([Some (7961314590657215, -51)%Z], [Some (Some (-4776788754394329, -48)%Z); Some (Some (5572920213460051, -50)%Z)]).
Proof. vm_compute. reflexivity. Qed.
Lemma s56O : redok mode_NE L56.
Proof. intros l. split; apply reduce_left. Qed.
Lemma s56B : soundB F56 mode_NE L56.
Proof.
  assert (Z : forall E, E = (fun _ : ends => Some ((-1, 0), (1, 0))%Z) -> enclB E (fun _ => B754_zero false)).
  { intros E -> i x _. split; [reflexivity|]. cbn. unfold dval, fv, F2R. cbn. lra. }
  split; [apply Z; reflexivity|]. split; [apply Z; reflexivity|].
  repeat (split; [intros i x _; exact I|]). split; [intros z i x _; exact I|exact I].
Qed.
Lemma s56R : soundR F56.
Proof.
  assert (Z : forall f, (forall r, -1 <= f r <= 1)%R -> enclR (fun _ : ends => Some ((-1, 0), (1, 0))%Z) (fun _ => True) f).
  { intros f Hf i r _ _. split; [exact I|]. cbn. unfold dval, fv, F2R. cbn. specialize (Hf r). lra. }
  split; [apply Z; apply SIN_bound|]. split; [apply Z; apply COS_bound|].
  repeat (split; [intros i r _ []; reflexivity|]). split; [intros z i r _ []; reflexivity|exact I].
Qed.
(** The hypotheses of [C56_enclosure], for the numbers 1/10 and 7/10. *)
Example C56_nonvacuous : exists x w e m, let N := B64 mode_NE L56 in let rho o := if o =? 0 then (1 / 10)%R else (7 / 10)%R in
  la_len N /\ redok mode_NE L56 /\ soundB F56 mode_NE L56 /\ soundR F56 /\
  inB i01 d01 /\ within i01 (1 / 10) /\ B2R d01 <> (1 / 10)%R /\
  arithx u56 = true /\ wfs u56 = true /\ disc u56 = true /\
  @bound (Ival F56) 2 3 (fun _ => None) (fun _ => None) (cmap (fun _ => i01) u56) w56 = Ok (x, w) /\
  @used (Ival F56) 2 3 (cmap (fun _ => i01) u56) x w /\ @used N 2 3 (cmap (fun _ => d01) u56) e m /\ mrel inB u56 w m /\
  mholds u56 w (fun _ => 0%R) rho (fun _ => 0%R) /\
  Forall2 inB [o1] [ofdy mode_NE 1 0] /\ Forall2 within [o1] [1%R] /\
  dom (fun _ => 0%R) true false (cmap (fun _ => Fin (1 / 10)) u56) rho.
Proof.
  set (N := B64 mode_NE L56). set (ui := cmap (fun _ => i01) u56). set (ub := cmap (fun _ => d01) u56).
  assert (HL : la_len N) by (intros n X; cbn; rewrite !repeat_length; auto).
  assert (F : fresh 2 3) by (cbv; intuition discriminate).
  assert (WX : @wfs (Ival F56) unit ui = true) by reflexivity.
  assert (WN : @wfs N unit ub = true) by reflexivity.
  assert (AX : @avail (Ival F56) ui w56) by (split; cbn; intros; [split; discriminate|contradiction]).
  assert (AN : @avail N ub m56) by (split; cbn; intros; [split; discriminate|contradiction]).
  destruct (bind_safe (Ival F56) (Ival_len F56) 2 3 F (fun _ => None) (fun _ => None) ui w56 WX eq_refl AX) as [x [w [B1 _]]].
  destruct (inv_bound (Ival_len F56) 2 3 F _ w56 _ _ x w WX AX B1) as [_ [B2 _]].
  destruct (bind_safe N HL 2 3 F (fun _ => n0 N) (fun _ => n0 N) ub m56 WN eq_refl AN) as [e [m [C1 _]]].
  destruct (inv_bound HL 2 3 F _ m56 _ _ e m WN AN C1) as [_ [C2 _]].
  destruct (b_Z mode_NE 3602879701896397 (-55)%Z) as [F1 V1]. destruct (b_Z mode_NE 3152519739159347 (-52)%Z) as [F7 V7].
  cbn [strip fits chk] in V1, V7.
  assert (I1 : inB i01 d01). { split; [exact F1|]. unfold within, i01, d01. rewrite V1. unfold dval, fv, F2R. cbn. lra. }
  assert (I7 : inB i07 d07). { split; [exact F7|]. unfold within, i07, d07. rewrite V7. unfold dval, fv, F2R. cbn. lra. }
  assert (J1 : within i01 (1 / 10)). { unfold within, i01, dval, fv, F2R. cbn. lra. }
  assert (J7 : within i07 (7 / 10)). { unfold within, i07, dval, fv, F2R. cbn. lra. }
  exists x, w, e, m. cbv zeta. split; [exact HL|]. split; [exact s56O|]. split; [exact s56B|]. split; [exact s56R|]. split; [exact I1|]. split; [exact J1|].
  split. { unfold d01. rewrite V1. unfold dval, fv, F2R. cbn. lra. }
  do 3 (split; [reflexivity|]). split; [exact B1|].
  split; [exists w56, (fun _ => None), (fun _ => None), x, w, []; repeat (split; auto); constructor|].
  split; [exists m56, (fun _ => n0 N), (fun _ => n0 N), e, m, []; repeat (split; auto); constructor|].
  split; [|split; [|split; [|split]]].
  - split; [|intros o []]. intros o Ho. rewrite !B2, !C2 by discriminate. split.
    + eexists. eexists. split; [reflexivity|]. split; [reflexivity|]. destruct (o =? 0); [exact I1|exact I7].
    + eexists. eexists. split; [reflexivity|]. split; [reflexivity|]. split; [reflexivity|]. cbn. unfold dval, fv, F2R. cbn. lra.
  - split; [|intros o []]. intros o Ho. rewrite !B2 by discriminate. split.
    + eexists. split; [reflexivity|]. destruct (o =? 0); [exact J1|exact J7].
    + eexists. split; [reflexivity|]. cbn. unfold dval, fv, F2R. cbn. lra.
  - constructor; [|constructor]. apply exact_in. exact (b_Z mode_NE 1 0).
  - constructor; [|constructor]. cbn. unfold dval, fv, F2R. cbn. lra.
  - cbn. repeat split.
    + intros [|i] Hi; [lra|lia].
    + constructor; [now eexists|constructor].
    + intros i _. lra.
Qed.
