(** Property theorems C29 and C30: forward mode. *)
From Coq Require Import Reals Lra.
From Coquelicot Require Import Coquelicot.
From Verif Require Import Base Num Expr Node Machine Wf Session XR Spec RSess LKM LNode Forward FSpec LFwd.
Open Scope R_scope.
Set Bullet Behavior "Strict Subproofs".

(** ** C29: every program of the client, started with values [r] and adjoints
    [d], ends with the values of the function it computes and their derivatives
    in direction [d].  erf is excluded (C30_refuted). *)
Theorem C29_forward_partial (la : linalg xr) (s : stm R) (r d : nat -> R) : pdom s r ->
  exists d', (forall i, stm_run (XR la) (smap Fin s : stm (XR la)) (fun j => Dual (N := XR la) (Fin (r j)) (Fin (d j))) i =
                Dual (N := XR la) (Fin (pden s 0 r i)) (Fin (d' i))) /\
    forall i, is_derive (fun t => pden s t (fun j => r j + t * d j) i) 0 (d' i).
Proof. exact (fwd_thm la s r d). Qed.
Print Assumptions C29_forward_partial.
(** Forward mode in the direction of variable [o] computes what reverse mode
    adds to the adjoint of [o]. *)
Theorem C29_forward_reverse (la : linalg xr) (LA : la_ok la) bv ba (e : fe R) D e1 m1 r al o :
  fdom false e r -> const0 e ->
  session la bv ba (rev_of e : expr (XR la) unit) D e1 m1 -> mreal la (rev_of e : expr (XR la) unit) m1 D r al ->
  In o (refs (rev_of e : expr (XR la) unit)) ->
  exists dd e2 m2,
    fe_run (XR la) (fmap Fin e : fe (XR la)) (fun i => Dual (N := XR la) (Fin (r i)) (Fin (unit_dir o i))) =
      Dual (N := XR la) (Fin (fden e 0 r)) (Fin dd) /\
    autodiff e1 [Fin 1] m1 = Ok (e2, m2, [Fin (fden e 0 r)]) /\ m2 1%nat o = Some (Fin (al o + dd)).
Proof. exact (fwd_rev la LA bv ba e D e1 m1 r al o). Qed.
Print Assumptions C29_forward_reverse.
(** x1 += sin(x0) / x0; three times x1 = x1 * x0; if (x1 < 100) x1 = -x1. *)
Definition p29 : stm R :=
  SSeq (SAdd 1 (FBin FDiv (FUn FSin (FVar 0)) (FVar 0)))
    (SSeq (SRep 3 (SSet 1 (FBin FMul (FVar 1) (FVar 0))))
       (SIf (FVar 1) (FNum 100 0) (SSet 1 (FUn FNeg (FVar 1))) (SAdd 1 (FVar 1)))).
Example C29_nonvacuous : pdom p29 (fun _ => 2) /\ pden p29 0 (fun _ => 2) 1%nat = - ((2 + sin 2 / 2) * 2 * 2 * 2) /\
  fdom false (FBin FDiv (FUn FSin (FVar 0)) (FVar 0)) (fun _ => 2) /\ const0 (FBin FDiv (FUn FSin (FVar 0)) (FVar 0)) /\
  live (rev_of (FBin FDiv (FUn FSin (FVar 0)) (FVar 0))) (fun _ => 2).
Proof.
  assert (B : -1 <= sin 2 <= 1) by apply SIN_bound.
  assert (L : rltb ((2 + sin 2 / 2) * 2 * 2 * 2) (100 + 0 * 0) = true).
  { unfold rltb. destruct (Rlt_dec ((2 + sin 2 / 2) * 2 * 2 * 2) (100 + 0 * 0)); [reflexivity|lra]. }
  split.
  - cbn [p29 pdom]. split; [|split].
    + cbn. repeat split; auto; try discriminate; lra.
    + intros k Hk. cbn. repeat split; auto; discriminate.
    + cbn. unfold set1. cbn. rewrite L. cbn. repeat split; auto; try discriminate; lra.
  - split; [cbn; unfold set1; cbn; rewrite L; reflexivity|]. split; [cbn; repeat split; auto; try discriminate; lra|]. split; [cbn; auto|].
    apply live_ok; [split; [reflexivity|split; [reflexivity|cbn; tauto]]|reflexivity].
Qed.

(** ** C30: the adjoint of erf does not depend on the adjoint of its argument, so
    it is the derivative only for argument adjoint 1. *)
Theorem C30_erf_law (la : linalg xr) x d :
  f1_run (XR la) FErf (Dual (N := XR la) (Fin x) (Fin d)) = Dual (N := XR la) (Fin (erf x)) (Fin (2 / sqrt PI * exp (- x ^ 2))).
Proof. exact (erf_thm la x d). Qed.
Print Assumptions C30_erf_law.
Theorem C30_refuted (la : linalg xr) : ~ (forall x d, exists d',
  f1_run (XR la) FErf (Dual (N := XR la) (Fin x) (Fin d)) = Dual (N := XR la) (Fin (erf x)) (Fin d') /\
  is_derive (fun t => erf (x + t * d)) 0 d').
Proof. exact (erf_wrong la). Qed.
Print Assumptions C30_refuted.
