(** The LDLT and Cholesky determinants where the decomposition finds no
    invertible (positive definite) matrix. *)
From Coq Require Import Reals Lra Psatz.
From Coquelicot Require Import Coquelicot.
From Verif Require Import Base Num Expr Node Stat Machine Wf Pure LBase LKind LSimDef LMem LSimF LSimB LBind Session LUser
  Tape LTape LState LNrm LTop XR Spec RSess Grad Rules LReal LScal LKA LKB LKS LMx LMat LKM LVal LGrad LDiff LIndep LGrd LNode LInf.
Open Scope R_scope.
Set Bullet Behavior "Strict Subproofs".

Section LS.
Variable la : linalg xr.
Hypothesis LA : la_ok la.
Notation N := (XR la).
Notation U := (expr N unit).
Notation X := (expr xr unit).

Lemma idle_fac k f (y : U) D rho (n := rows (shape_of (y : X))) v : k = KDet f \/ k = KLogDet f ->
  okexpr la (EComp k tt [y]) -> dom D false false (y : X) rho ->
  let x := map Fin (val D (y : X) rho) in
  (length (val D (y : X) rho) = (n * n)%nat ->
   match k with
   | KDet _ => det_f N f n x = v /\ det_valid N f n x = false
   | _ => logdet_f N f n x = v /\ logdet_valid N f n x = false
   end) -> node_idle la k [y] D rho [v].
Proof.
  intros Hk HK HO x0 HZ. unfold x0 in *. clear x0.
  assert (NP : notprod k) by (destruct Hk as [-> | ->]; exact I).
  apply (idle la LA); [exact NP|exact HK|exact (conj HO I)|]. intros s _. revert s. apply (op1 la k y D rho); [exact HK|].
  intros c sh x -> Ex HSh L s. destruct (sq_facts k _ (ex_intro _ f Hk) HSh) as [m Em]. injection Em as Em.
  unfold n in *. change (carrier N) with xr in *. rewrite <- Ex in HZ. clear Ex. revert L HZ. rewrite Em. unfold size. cbn [rows cols]. intros L HZ.
  specialize (HZ L). destruct Hk as [-> | ->]; destruct HZ as [V W]; eexists; split.
  - unfold kf. cbn [kfwd]. unfold arg, FF, nth_sh. cbn [map nth rows]. change (carrier N) with xr. rewrite V. reflexivity.
  - intros seed i. cbn [kseed]. unfold nth_sh, arg, FF. cbn [map nth rows ma]. change (carrier N) with xr. rewrite W. cbn [negb]. now rewrite orb_true_r.
  - unfold kf. cbn [kfwd]. unfold arg, FF, nth_sh. cbn [map nth rows]. change (carrier N) with xr. rewrite V. reflexivity.
  - intros seed i. cbn [kseed]. unfold nth_sh, arg, FF. cbn [map nth rows ma]. change (carrier N) with xr. rewrite W. cbn [negb]. now rewrite orb_true_r.
Qed.
(** What LDLT computes when it is exact on a matrix of determinant zero. *)
Definition ldlt_zero (n : nat) (x : list R) : Prop :=
  exists d, ldlt_d _ la n (map Fin x) = map Fin d /\ length d = n /\ prodn n (el d) = 0.
Lemma ldlt_zero_prod n x : ldlt_zero n x -> nprod N (ldlt_d _ la n (map Fin x)) = Fin 0.
Proof. intros [d [A [B C]]]. rewrite A, (nprod_fin la), B, C. reflexivity. Qed.
Lemma idle_det_ldlt (y : U) D rho (n := rows (shape_of (y : X))) :
  okexpr la (EComp (KDet LDLT) tt [y]) -> dom D false false (y : X) rho -> ldlt_zero n (val D (y : X) rho) ->
  node_idle la (KDet LDLT) [y] D rho [Fin 0].
Proof.
  intros HK HO HZ. apply (idle_fac (KDet LDLT) LDLT); auto. intros _. apply ldlt_zero_prod in HZ.
  unfold det_f, det_valid. change (nla N) with la. change (carrier N) with xr. fold n. rewrite HZ. split; [reflexivity|].
  cbn. rewrite reqb_refl. reflexivity.
Qed.
Lemma idle_logdet_ldlt (y : U) D rho (n := rows (shape_of (y : X))) :
  okexpr la (EComp (KLogDet LDLT) tt [y]) -> dom D false false (y : X) rho -> ldlt_zero n (val D (y : X) rho) ->
  node_idle la (KLogDet LDLT) [y] D rho [NInf].
Proof.
  intros HK HO HZ. apply (idle_fac (KLogDet LDLT) LDLT); auto. intros _. apply ldlt_zero_prod in HZ.
  unfold logdet_valid, logdet_f. change (nla N) with la. change (carrier N) with xr. fold n. rewrite HZ.
  cbn. rewrite Rabs_R0, reqb_refl. split; reflexivity.
Qed.
Lemma idle_llt k (y : U) D rho (n := rows (shape_of (y : X))) :
  k = KDet LLT \/ k = KLogDet LLT -> okexpr la (EComp k tt [y]) -> dom D false false (y : X) rho ->
  symm n (m_of n (val D (y : X) rho)) -> ~ posdef n (m_of n (val D (y : X) rho)) ->
  exists v, node_idle la k [y] D rho [v].
Proof.
  intros Hk HK HO HS HP.
  assert (B : length (val D (y : X) rho) = (n * n)%nat -> llt_ok _ la n (map Fin (val D (y : X) rho)) = false).
  { intros L. destruct (llt_ok _ la n _) eqn:Q; auto. apply (la_llt_ok la LA n _ L HS) in Q. contradiction. }
  destruct Hk as [-> | ->]; eexists; (eapply (idle_fac _ LLT y D rho); [auto|exact HK|exact HO|]);
    intros L; (split; [reflexivity|exact (B L)]).
Qed.
End LS.

(** ** A singular matrix: [[1, 1], [1, 1]] *)
Definition y26 : expr (XR exact_la) unit := EVar (Sh Mat 2 2) 0.
Definition rho26s (_ : nat) : R := 1.
Lemma w26s k : In k [KDet LDLT; KLogDet LDLT; KDet LLT; KLogDet LLT] ->
  live (EComp k tt [y26]) rho26s /\ dom (fun _ => 0) false false (y26 : expr xr unit) rho26s.
Proof.
  intros H. split; [|exact I].
  apply live_ok; cbn [In] in H; decompose [or] H; subst; try contradiction; try reflexivity;
    (split; [reflexivity|split; [reflexivity|cbn; repeat (split || constructor)]]).
Qed.
Lemma w26d : det 2 (m_of 2 [1; 1; 1; 1]) = 0.
Proof. unfold m_of, el, sumn; cbn. unfold sumn; cbn. ring. Qed.
Lemma w26z : ldlt_zero exact_la 2 [1; 1; 1; 1].
Proof.
  exists [0; 1]. split; [|split; [reflexivity|cbn; lra]]. cbn [ldlt_d exact_la repeat]. rewrite xmat_fin, w26d. reflexivity.
Qed.
Lemma w26p : symm 2 (m_of 2 [1; 1; 1; 1]) /\ ~ posdef 2 (m_of 2 [1; 1; 1; 1]).
Proof.
  split.
  - intros i j Hi Hj. destruct i as [|[|]], j as [|[|]]; try lia; reflexivity.
  - intros H. apply posdef_det in H. rewrite w26d in H. lra.
Qed.
