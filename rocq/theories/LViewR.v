(** The views returned by evaluate and autodiff, over the reals. *)
From Coq Require Import Reals Lra FunctionalExtensionality.
From Coquelicot Require Import Coquelicot.
From Verif Require Import Base Num Expr Node Stat Machine Wf Pure LBase LKind LSimDef LMem LSimF LSimB LBind Session LUser
  Tape LTape LState LNrm LTop XR Spec RSess Grad LReal LScal LKA LKB LKM LVal LGrad LDiff LRestR LIndep LGrd Views LViews.
Open Scope R_scope.
Set Bullet Behavior "Strict Subproofs".

Section ViewR.
Variable la : linalg xr.
Hypothesis LA : la_ok la.
Notation N := (XR la).
Notation E := (expr N (ann N)).
Notation U := (expr N unit).
Let LL : la_len N := la_ok_len la LA.
Let HKV := KV_all la LA.

Lemma kept_thm bv ba (u : U) D (e1 : E) m1 rho al b seed : okexpr la u -> session la bv ba u D e1 m1 ->
  mreal la u m1 D rho al -> dom D true b u rho -> length seed = size (shape_of u) -> root_kept u = true ->
  exists e2 m2 h, @autodiff_v N e1 (map Fin seed) m1 = Ok (e2, m2, h) /\ rdref m2 h = Ok (map Fin (val D u rho)).
Proof.
  intros HK HS HM HD HL HR. destruct (session_inv la LL bv ba u D e1 m1 HK HS) as [cv [ca [HF [HI [HG [HW HE]]]]]].
  assert (HD' : dom D true b e1 rho) by (rewrite <- HE in HD; unfold er in HD; now apply dom_amap in HD).
  change (carrier N) with xr in *.
  destruct (@tf N (liftE la D) e1 (liftE la rho)) as [t r'] eqn:ET.
  destruct (LV_all la D HKV e1 b rho t r' HW HG (dom_mono D true e1 b rho HD') ET) as [V1 ->].
  pose proof (PO_all la D HKV e1 b rho t _ HW HG (dom_mono D true e1 b rho HD') ET) as HP.
  assert (VU : forall r, val D u r = val D e1 r) by (intros; rewrite <- HE; apply val_amap).
  destruct (kept_gen LL bv ba HF u cv ca e1 m1 (liftE la D) (liftE la rho) (liftE la al) t _ (map Fin seed) HI (proj1 (proj2 HK)) HM ET HP
    ltac:(rewrite map_length; exact HL) HR) as [e2 [m2 [h [Q1 Q2]]]].
  exists e2, m2, h. split; [exact Q1|]. rewrite VU. change (carrier N) with xr in *. rewrite Q2. f_equal. exact V1.
Qed.

Lemma opeq_view bv ba q sh v (y : U) D (e1 : E) m1 rho al b seed (u := EOpEq q tt sh v y) : okexpr la u ->
  session la bv ba u D e1 m1 -> mreal la u m1 D rho al -> dom D true b u rho -> length seed = size sh ->
  is_scl sh = false -> (forall i, In i (cells sh v) -> ~ In i (eqw u)) ->
  exists e2 m2 h, @autodiff_v N e1 (map Fin seed) m1 = Ok (e2, m2, h) /\
    rdref m2 h = Ok (map Fin (tab (size sh) (fun i => rho (v + i)%nat))).
Proof.
  intros HK HS HM HD HL HR HQ. destruct (session_inv la LL bv ba u D e1 m1 HK HS) as [cv [ca [HF [HI [HG [HW HE]]]]]].
  assert (HD' : dom D true b e1 rho) by (rewrite <- HE in HD; unfold er in HD; now apply dom_amap in HD).
  change (carrier N) with xr in *.
  destruct (@tf N (liftE la D) e1 (liftE la rho)) as [t r'] eqn:ET.
  destruct (LV_all la D HKV e1 b rho t r' HW HG (dom_mono D true e1 b rho HD') ET) as [V1 ->].
  pose proof (PO_all la D HKV e1 b rho t _ HW HG (dom_mono D true e1 b rho HD') ET) as HP.
  destruct (opeq_gen LL bv ba HF q sh v y cv ca e1 m1 (liftE la D) (liftE la rho) (liftE la al) t _ (map Fin seed) HI (proj1 (proj2 HK)) HM ET HP
    ltac:(rewrite map_length; exact HL) HR HQ) as [e2 [m2 [Q1 Q2]]].
  exists e2, m2, (RMem (Ptr 0 v) (size sh)). split; [exact Q1|]. change (carrier N) with xr in *. rewrite Q2. f_equal.
  unfold rdv, tab. rewrite map_map. generalize (size sh). clear. intros n.
  assert (X : seq v n = map (fun i => (v + i)%nat) (seq 0 n)).
  { clear. induction n as [|n IH]; auto. rewrite !seq_S, map_app, IH. reflexivity. }
  rewrite X, map_map. reflexivity.
Qed.

Lemma scalar_view bv ba (u : U) D (e1 : E) m1 rho al b seed : okexpr la u -> session la bv ba u D e1 m1 ->
  mreal la u m1 D rho al -> dom D true b u rho -> length seed = size (shape_of u) ->
  (b = true -> forall j, (j < length seed)%nat -> el seed j = 1) -> is_scl (shape_of u) = true ->
  exists e2 m2 e3 m3 h, @evaluate_v N e1 m1 = Ok (e2, m2, h) /\ @autodiff_v N e1 (map Fin seed) m1 = Ok (e3, m3, h) /\
    forall m, rdref m h = Ok (map Fin (val D u rho)).
Proof.
  intros HK HS HM HD HL HU HC.
  assert (SE : is_scl (shape_of e1) = true).
  { destruct (session_inv la LL bv ba u D e1 m1 HK HS) as [cv [ca [_ [_ [_ [_ HE]]]]]].
    rewrite <- HE in HC. unfold er in HC. now rewrite shape_of_amap in HC. }
  destruct (value_thm la LA bv ba u D e1 m1 rho al b HK HS HM (dom_mono D true u b rho HD)) as [e2 [m2 [Q1 _]]].
  destruct (grad_gen la LA bv ba u D e1 m1 rho al b seed HK HS HM HD HL HU) as [e3 [m3 [Q2 _]]].
  exists e2, m2, e3, m3, (@RCst N (map Fin (val D u rho))).
  split; [exact (eval_scl (N := N) e1 m1 _ _ _ SE Q1)|]. split; [exact (diff_scl (N := N) e1 _ m1 _ _ _ SE Q2)|]. reflexivity.
Qed.
End ViewR.
