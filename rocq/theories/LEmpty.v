(** Proofs about Empty.v. *)
From Coq Require Import Reals Lra.
From Coquelicot Require Import Coquelicot.
From Verif Require Import Base Num Expr Node Stat Machine Wf Pure LBase LKind LMem LBind Session LUser
  Tape LTape LTop XR Spec RSess Grad LReal LKM LVal LGrad LDiff LGrd LFind Progs LProgs Empty.
Local Open Scope R_scope.
Set Bullet Behavior "Strict Subproofs".

Lemma uni_empty (N : num) (f : nat -> N) q : In q [UniVSS; UniVSV; UniVVS] -> bind_eval N (emp q) (mem8 N f) = Err UBshape.
Proof. intros [<-|[<-|[<-|[]]]]; reflexivity. Qed.
Lemma norm_empty (N : num) (f : nat -> N) : bound 2 3 (any N) (any N) (empc (T := N)) (mem8 N f) = Err UBshape.
Proof. reflexivity. Qed.
Definition good : list stat := [NormVSS; NormVVS; NormVSV; NormVVV; CauVSS; CauVSV; CauVVS; CauVVV; UniVVV; BerVS; BerVV].
Section P.
Variable la : linalg xr.
Hypothesis LA : la_ok la.
Notation N := (XR la).
Notation E := (expr N (ann N)).
Lemma emp_ok q : In q good -> okexpr la (emp q).
Proof. intros H. cbn in H. repeat (destruct H as [<-|H]; [repeat split; auto|]). destruct H. Qed.
Lemma emp_val D q r : In q good -> val D (emp q) r = [0].
Proof. intros H. cbn in H. repeat (destruct H as [<-|H]; [reflexivity|]). destruct H. Qed.
Lemma emp_dom D d q r : In q good -> (d = true -> In q [NormVSS; NormVVS; NormVSV; NormVVV; UniVVV]) -> 0 < r 1%nat < 1 -> dom D d false (emp q) r.
Proof.
  intros H HD HR. cbn in H. decompose [or] H; try contradiction; subst q; cbn; repeat split; auto; try (intros j Hj; exfalso; lia);
    try (intros [|j] Hj; [cbn; lra|exfalso; lia]); try discriminate;
    try (intros ->; exfalso; specialize (HD eq_refl); cbn in HD; intuition discriminate).
  all: match goal with X : (?k < _)%nat |- _ => destruct k; try lra; exfalso; lia end.
Qed.
Lemma emp_value bv ba q D rho al (e : E) m : In q good -> 0 < rho 1%nat < 1 ->
  session la bv ba (emp q) D e m -> mreal la (emp q) m D rho al ->
  exists e2 m2, @evaluate N e m = Ok (e2, m2, [Fin 0]).
Proof.
  intros H HR HS HM. destruct (value_thm la LA bv ba (emp q) D e m rho al false (emp_ok q H) HS HM) as [e2 [m2 [Q _]]].
  { apply emp_dom; auto. discriminate. }
  exists e2, m2. rewrite Q, emp_val by exact H. reflexivity.
Qed.
Lemma emp_grad bv ba q D rho al s (e : E) m : In q [NormVSS; NormVVS; NormVSV; NormVVV; UniVVV] -> 0 < rho 1%nat < 1 ->
  session la bv ba (emp q) D e m -> mreal la (emp q) m D rho al ->
  exists e2 m2, @autodiff N e [Fin s] m = Ok (e2, m2, [Fin 0]) /\
    forall o, In o (refs (emp (T := xr) q)) -> m2 0%nat o = Some (Fin (rho o)) /\ m2 1%nat o = Some (Fin (al o)).
Proof.
  intros H HR HS HM. assert (G : In q good) by (cbn in H |- *; tauto).
  assert (W : writes (emp (T := xr) q) = [] /\ eqw (emp (T := xr) q) = []).
  { cbn in H. repeat (destruct H as [<-|H]; [split; reflexivity|]). destruct H. }
  destruct (prog1 la LA bv ba (emp q) (fun _ => 0) D rho al s e m (emp_ok q G)) as [e2 [m2 [Q1 Q2]]]; auto.
  { intros r. now apply emp_val. }
  { now apply emp_dom. }
  { intros o Ho. destruct W as [W _]. change (In o (writes (emp (T := xr) q))) in Ho. rewrite W in Ho. destruct Ho. }
  exists e2, m2. split; [exact Q1|]. intros o Ho.
  destruct (Q2 o 0) as [A B]; auto.
  { destruct W as [_ W]. change (~ In o (eqw (emp (T := xr) q))). rewrite W. intros []. }
  { apply (is_derive_const (K := R_AbsRing) (V := R_NormedModule) 0). }
  split; [exact A|]. rewrite B. do 2 f_equal. ring.
Qed.
End P.
