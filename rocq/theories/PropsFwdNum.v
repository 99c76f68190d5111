(** Property theorems C57: forward mode in double. *)
From Coq Require Import ZArith Reals Lra Lia List Bool.
From Coquelicot Require Import Coquelicot.
From Flocq Require Import Core BinarySingleNaN.
From Verif Require Import Base Num Expr Node Machine XR Spec Forward FSpec Ieee IeeeSpec LDyad Ival IvalSpec LIval PropsIval FwdNum LFwdNum.
Import ListNotations.
Set Bullet Behavior "Strict Subproofs".
Local Open Scope nat_scope.

(** A forward-mode program of the client run in two arithmetics: if the
    operations preserve the relation [R], related constants and starting values
    lead to related values and adjoints of every variable, provided the first
    arithmetic decides every comparison made on the way. *)
Theorem C57_forward (C : Type) (N1 N2 : num) (R : N1 -> N2 -> Prop) (f : C -> N1) (g : C -> N2) (s : stm C) (r : fenv N1) (r' : fenv N2) :
  prel R -> brel R -> (forall c, R (f c) (g c)) -> (forall i, drel R (r i) (r' i)) -> sure N1 (smap f s) r = true ->
  forall i, drel R (stm_run N1 (smap f s) r i) (stm_run N2 (smap g s) r' i).
Proof. exact (fun HP HB HC H HS => stm_rel R HP HB f g HC s r r' H HS). Qed.
Print Assumptions C57_forward.

(** Where the run in checked dyadic arithmetic has results, the double is the true
    value of the function the program computes, and the double adjoint is its true
    derivative in the direction of the starting adjoints: no rounding error at all. *)
Theorem C57_exact (md : mode) (L : libm) (RO : redok md L) (s : stm b64) (q : fenv Dyad) (r : fenv (B64 md L))
    (rho := fun i => B2R (w_ (r i) : b64)) (del := fun i => B2R (df_ (r i) : b64)) :
  (forall i, drel (N1 := Dyad) (N2 := B64 md L) exactB (q i) (r i)) -> sure Dyad (smap todyad s) q = true -> pdom (smap B2R s) rho ->
  exists d', (forall i, is_derive (fun t => pden (smap B2R s) t (fun j => rho j + t * del j)%R i) 0%R (d' i)) /\
    forall i, let v := stm_run Dyad (smap todyad s) q i in let y := stm_run (B64 md L) s r i in
      (forall z, w_ v = Some z -> is_finite (w_ y : b64) = true /\ B2R (w_ y : b64) = pden (smap B2R s) 0 rho i) /\
      (forall z, df_ v = Some z -> is_finite (df_ y : b64) = true /\ B2R (df_ y : b64) = d' i).
Proof. exact (fwd_exact md L RO s q r). Qed.
Print Assumptions C57_exact.
(** x1 += 1/4 / x0; three times x1 = x1 * x0; if (x1 < 100) x1 = -x1. *)
Definition p57 : stm b64 :=
  SSeq (SAdd 1 (FBin FDiv (FNum (ofdy mode_NE 1 (-2)) (ofdy mode_NE 0 0)) (FVar 0)))
    (SSeq (SRep 3 (SSet 1 (FBin FMul (FVar 1) (FVar 0))))
       (SIf (FVar 1) (FNum (ofdy mode_NE 100 0) (ofdy mode_NE 0 0)) (SSet 1 (FUn FNeg (FVar 1))) (SAdd 1 (FVar 1)))).
(** x0 at 2 with adjoint 1, the others at 3 with adjoint 0 *)
Definition q57 : fenv Dyad := fun i => if i =? 0 then Dual (N := Dyad) (Some (1, 1)%Z) (Some (1, 0)%Z) else Dual (N := Dyad) (Some (3, 0)%Z) (Some (0, 0)%Z).
Definition r57 : fenv (B64 mode_NE L56) := fun i => let c z : b64 := ofdy mode_NE z 0 in
  if i =? 0 then Dual (N := B64 mode_NE L56) (c 2%Z) (c 1%Z) else Dual (N := B64 mode_NE L56) (c 3%Z) (c 0%Z).
Example C57_exact_run :
  let v := stm_run Dyad (smap todyad p57) q57 1 in let y := stm_run (B64 mode_NE L56) p57 r57 1 in
  (w_ v, df_ v) = (Some (-25, 0)%Z, Some (-37, 0)%Z) /\ (todyad (w_ y), todyad (df_ y)) = (Some (-25, 0)%Z, Some (-37, 0)%Z) /\
  sure Dyad (smap todyad p57) q57 = true.
Proof. vm_compute. repeat split. Qed.
Example C57_exact_nonvacuous : redok mode_NE L56 /\ (forall i, drel (N1 := Dyad) (N2 := B64 mode_NE L56) exactB (q57 i) (r57 i)) /\
  sure Dyad (smap todyad p57) q57 = true /\ pdom (smap B2R p57) (fun i => B2R (w_ (r57 i) : b64)).
Proof.
  pose proof (fun z e => b_Z mode_NE z e) as Z0.
  split; [exact s56O|]. split; [|split; [vm_compute; reflexivity|]].
  - intros i. unfold q57, r57. destruct (i =? 0); split; cbn [w_ df_]; [exact (Z0 2%Z 0%Z)|exact (Z0 1%Z 0%Z)|exact (Z0 3%Z 0%Z)|exact (Z0 0%Z 0%Z)].
  - assert (V : forall z e, chk z e <> None -> B2R (ofdy mode_NE z e) = fv z e).
    { intros z e H. destruct (chk z e) as [p|] eqn:K; [|contradiction]. pose proof (Z0 z e) as Q. rewrite K in Q. destruct Q as [_ Q]. rewrite Q. apply (chk_val _ _ _ K). }
    assert (H0 : B2R (w_ (r57 0) : b64) = 2%R) by (cbn [r57 Nat.eqb w_]; rewrite V by discriminate; unfold fv, F2R; cbn; lra).
    assert (H1 : B2R (w_ (r57 1) : b64) = 3%R) by (cbn [r57 Nat.eqb w_]; rewrite V by discriminate; unfold fv, F2R; cbn; lra).
    cbn [p57 smap fmap]. rewrite !V by discriminate.
    replace (fv 1 (-2)) with (1 / 4)%R by (unfold fv, F2R; cbn; lra). replace (fv 100 0) with 100%R by (unfold fv, F2R; cbn; lra).
    replace (fv 0 0) with 0%R by (unfold fv, F2R; cbn; lra).
    remember (fun i => B2R (w_ (r57 i) : b64)) as rho eqn:ER. assert (G0 : rho 0 = 2%R) by now subst rho. assert (G1 : rho 1 = 3%R) by now subst rho.
    clear ER H0 H1. cbn [pdom]. split; [|split].
    + cbn. rewrite G0. repeat split; auto; try discriminate; lra.
    + intros k Hk. cbn. repeat split; auto; discriminate.
    + cbn. unfold set1. cbn. rewrite G0, G1. unfold rltb. destruct (Rlt_dec _ _) as [|n]; [|exfalso; apply n; lra]. cbn. repeat split; auto; try discriminate; lra.
Qed.

(** [F] encloses the functions of the library and the true ones; the starting
    values and adjoints, as doubles ([r]) and as real numbers ([rho], [del]), are in
    the intervals [q]; so are the constants.  If the interval run decides every
    comparison, then wherever it ends with an interval the double is in it, and so
    is the true value, or the true derivative. *)
Theorem C57_enclosure (F : encl) (md : mode) (L : libm) (RO : redok md L) (C : Type) (fi : C -> iv) (fb : C -> b64) (fr : C -> R) (s : stm C)
    (q : fenv (Ival F)) (r : fenv (B64 md L)) (rho del : nat -> R) :
  soundB F md L -> soundR F -> (forall c, inB (fi c) (fb c)) -> (forall c, within (fi c) (fr c)) ->
  (forall i, drel (N1 := Ival F) (N2 := B64 md L) inB (q i) (r i)) -> (forall i, within (w_ (q i)) (rho i) /\ within (df_ (q i)) (del i)) ->
  sure (Ival F) (smap fi s) q = true -> pdom (smap fr s) rho ->
  exists d', (forall i, is_derive (fun t => pden (smap fr s) t (fun j => rho j + t * del j)%R i) 0%R (d' i)) /\
    forall i, let v := stm_run (Ival F) (smap fi s) q i in let y := stm_run (B64 md L) (smap fb s) r i in
      (forall a b, w_ v = Some (a, b) -> both a b (w_ y) (pden (smap fr s) 0 rho i)) /\
      (forall a b, df_ v = Some (a, b) -> both a b (df_ y) (d' i)).
Proof. exact (fwd_encl F md L RO C fi fb fr s q r rho del). Qed.
Print Assumptions C57_enclosure.
(** x1 += 0.1 / x0; twice x1 = x1 * x0; if (x1 < 0.1) x1 = x1 + 0.1 else x1 = x1 * x1, x0 and x1 at 0.7. *)
Definition s57 : stm bool :=
  SSeq (SAdd 1 (FBin FDiv (FNum true false) (FVar 0)))
    (SSeq (SRep 2 (SSet 1 (FBin FMul (FVar 1) (FVar 0))))
       (SIf (FVar 1) (FNum true false) (SSet 1 (FBin FAdd (FVar 1) (FNum true false))) (SSet 1 (FBin FMul (FVar 1) (FVar 1))))).
Definition z1 : iv := Some ((0, 0), (0, 0))%Z.
Definition fi57 (b : bool) : iv := if b then i01 else z1.
Definition fb57 (b : bool) : b64 := if b then d01 else B754_zero false.
Definition fr57 (b : bool) : R := if b then (1 / 10)%R else 0%R.
Definition qi57 : fenv (Ival F56) := fun i => Dual (N := Ival F56) i07 (if i =? 0 then o1 else z1).
Definition ri57 : fenv (B64 mode_NE L56) := fun i => Dual (N := B64 mode_NE L56) d07 (if i =? 0 then ofdy mode_NE 1 0 else B754_zero false).
Example C57_interval_run :
  let v := stm_run (Ival F56) (smap fi57 s57) qi57 1 in let y := stm_run (B64 mode_NE L56) (smap fb57 s57) ri57 1 in
  sure (Ival F56) (smap fi57 s57) qi57 = true /\
  w_ v = Some ((6145395878727661, -55), (768174484840959, -52))%Z /\ df_ v = Some ((4017571155584669, -52), (1004392788896169, -50))%Z /\
  todyad (w_ y) = Some (384087242420479, -51)%Z /\ todyad (df_ y) = Some (8035142311169343, -53)%Z.
Proof. vm_compute. repeat split. Qed.
Example C57_enclosure_nonvacuous : redok mode_NE L56 /\ soundB F56 mode_NE L56 /\ soundR F56 /\
  (forall c, inB (fi57 c) (fb57 c)) /\ (forall c, within (fi57 c) (fr57 c)) /\
  (forall i, drel (N1 := Ival F56) (N2 := B64 mode_NE L56) inB (qi57 i) (ri57 i)) /\
  (forall i, within (w_ (qi57 i)) (7 / 10)%R /\ within (df_ (qi57 i)) (if i =? 0 then 1 else 0)%R) /\
  sure (Ival F56) (smap fi57 s57) qi57 = true /\ pdom (smap fr57 s57) (fun _ => (7 / 10)%R).
Proof.
  destruct (b_Z mode_NE 3602879701896397 (-55)%Z) as [F1 V1]. destruct (b_Z mode_NE 3152519739159347 (-52)%Z) as [F7 V7].
  cbn [strip fits chk] in V1, V7.
  assert (I1 : inB i01 d01). { split; [exact F1|]. unfold within, i01, d01. rewrite V1. unfold dval, fv, F2R. cbn. lra. }
  assert (I7 : inB i07 d07). { split; [exact F7|]. unfold within, i07, d07. rewrite V7. unfold dval, fv, F2R. cbn. lra. }
  assert (I0 : inB z1 (B754_zero false)). { split; [reflexivity|]. cbn. unfold dval, fv, F2R. cbn. lra. }
  assert (J0 : within z1 0%R). { cbn. unfold dval, fv, F2R. cbn. lra. }
  assert (J1 : within i01 (1 / 10)). { unfold within, i01, dval, fv, F2R. cbn. lra. }
  assert (J7 : within i07 (7 / 10)). { unfold within, i07, dval, fv, F2R. cbn. lra. }
  split; [exact s56O|]. split; [exact s56B|]. split; [exact s56R|].
  split; [intros [|]; assumption|]. split; [intros [|]; assumption|].
  split; [|split; [|split; [vm_compute; reflexivity|]]].
  - intros i. unfold qi57, ri57. split; cbn [w_ df_]; [exact I7|]. destruct (i =? 0); [|exact I0]. apply exact_in. exact (b_Z mode_NE 1 0).
  - intros i. unfold qi57. cbn [w_ df_]. split; [exact J7|]. destruct (i =? 0); [|exact J0]. cbn. unfold dval, fv, F2R. cbn. lra.
  - cbn [s57 smap fmap fr57 pdom]. split; [|split].
    + cbn. repeat split; auto; try discriminate; lra.
    + intros k Hk. cbn. repeat split; auto; discriminate.
    + cbn. unfold set1. cbn. unfold rltb. destruct (Rlt_dec _ _) as [H|H]; [exfalso; lra|]. cbn. repeat split; auto; try discriminate; lra.
Qed.
