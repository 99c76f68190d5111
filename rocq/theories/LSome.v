(** Where the program is differentiable, the run on curves never loses track. *)
From Coq Require Import ZArith Reals Lra Psatz List Bool Lia ClassicalEpsilon.
From Coquelicot Require Import Coquelicot.
From Verif Require Import Base Num Expr Node Stat Machine Wf Pure LBase LKind LState Tape LTape LNrm XR Spec LReal LScal LKA LKB LKM LVal
  Forward FSpec LFwd Ieee LParam Hess LCurve.
Import ListNotations.
Set Bullet Behavior "Strict Subproofs".
Local Open Scope R_scope.

Section Lists.
Context {A A' B B' C C' D D' X X' : Type}.
Variables (RA : A -> A' -> Prop) (RB : B -> B' -> Prop) (RC : C -> C' -> Prop) (RD : D -> D' -> Prop) (RX : X -> X' -> Prop).
Lemma F2_map2 f g : (forall a a' b b', RA a a' -> RB b b' -> RX (f a b) (g a' b')) ->
  forall l l' k k', Forall2 RA l l' -> Forall2 RB k k' -> Forall2 RX (map2 f l k) (map2 g l' k').
Proof. intros HF l l' k k' HA. revert k k'. induction HA; intros k k' [|]; cbn; constructor; auto. Qed.
Lemma F2_map3 f g : (forall a a' b b' c c', RA a a' -> RB b b' -> RC c c' -> RX (f a b c) (g a' b' c')) ->
  forall l l' k k' j j', Forall2 RA l l' -> Forall2 RB k k' -> Forall2 RC j j' -> Forall2 RX (map3 f l k j) (map3 g l' k' j').
Proof. intros HF l l' k k' j j' HA. revert k k' j j'. induction HA; intros k k' j j' [|]; cbn; try constructor. intros [|]; constructor; auto. Qed.
Lemma F2_map4 f g : (forall a a' b b' c c' d d', RA a a' -> RB b b' -> RC c c' -> RD d d' -> RX (f a b c d) (g a' b' c' d')) ->
  forall l l' k k' j j' i i', Forall2 RA l l' -> Forall2 RB k k' -> Forall2 RC j j' -> Forall2 RD i i' -> Forall2 RX (map4 f l k j i) (map4 g l' k' j' i').
Proof.
  intros HF l l' k k' j j' i i' HA. revert k k' j j' i i'. induction HA; intros k k' j j' i i' [|]; cbn; try constructor.
  intros [|]; cbn; try constructor. intros [|]; constructor; auto.
Qed.
Lemma F2_and (P : A' -> Prop) l l' : Forall2 RA l l' -> Forall P l' -> Forall2 (fun x y => RA x y /\ P y) l l'.
Proof. induction 1; intros HP; inversion HP; subst; constructor; auto. Qed.
End Lists.
Lemma map4_nil {A B C D X} (f : A -> B -> C -> D -> X) a b c : map4 f a b c [] = [].
Proof. destruct a, b, c; reflexivity. Qed.

Section S.
Variable la : linalg xr.
Notation N := (XR la).
Definition So (x : oc) (y : xr) : Prop := exists c, x = Some c /\ y = Fin (cf c 0).
Notation SL := (Forall2 So).
Definition nz (y : xr) : Prop := y <> Fin 0.
Definition uok (w : un) (y : xr) : Prop := exists r, y = Fin r /\ un_dom true w r.

Lemma so_cst r : So (cst r) (Fin r). Proof. eexists. split; reflexivity. Qed.
Lemma so_op F H (g : xr -> xr -> xr) : (forall a b, g (Fin a) (Fin b) = Fin (F a b)) ->
  forall x y x' y', So x x' -> So y y' -> So (cop2 F H x y) (g x' y').
Proof. intros HG x y x' y' [a [-> ->]] [b [-> ->]]. eexists. split; [reflexivity|]. cbn. apply HG. Qed.
Lemma so_add x y x' y' : So x x' -> So y y' -> So (cadd x y) (xadd x' y'). Proof. now apply so_op. Qed.
Lemma so_sub x y x' y' : So x x' -> So y y' -> So (csub x y) (xsub x' y'). Proof. apply so_op. reflexivity. Qed.
Lemma so_mul x y x' y' : So x x' -> So y y' -> So (cmul x y) (xmul x' y'). Proof. now apply so_op. Qed.
Lemma so_div x y x' y' : So x x' -> So y y' -> nz y' -> So (cdiv x y) (xdiv x' y').
Proof.
  intros [a [-> ->]] [b [-> ->]] HZ. unfold cdiv, cinv. cbn [lift]. assert (H : cf b 0 <> 0) by (intros H; apply HZ; now rewrite H).
  destruct (excluded_middle_informative _) as [H'|H']; [|contradiction]. eexists. split; [reflexivity|]. cbn. now rewrite reqb_f.
Qed.
Lemma so_un f x y : f <> FErf -> So x y -> uok (f1_un f) y -> So (cun (f1_un f) x) (w_ (f1_run N f (Dual (N := N) y (Fin 0)))).
Proof.
  intros HF [c [-> ->]] [r [E HD]]. inversion E; subst r. unfold cun. cbn [lift].
  destruct (excluded_middle_informative _) as [H'|H']; [|contradiction]. eexists. split; [reflexivity|]. rewrite f1_fin by assumption. reflexivity.
Qed.
Lemma so_fin x y : So x y -> exists r, y = Fin r. Proof. intros [c [_ ->]]. eauto. Qed.
Lemma so_opp x y : So x y -> So (cun UNeg x) (xopp y).
Proof. intros H. refine (so_un FNeg x y _ H _); [discriminate|]. destruct (so_fin _ _ H) as [r ->]. exists r. split; [reflexivity|exact I]. Qed.
Lemma so_sin x y : So x y -> So (cun USin x) (nsin N y).
Proof. intros H. refine (so_un FSin x y _ H _); [discriminate|]. destruct (so_fin _ _ H) as [r ->]. exists r. split; [reflexivity|exact I]. Qed.
Lemma so_cos x y : So x y -> So (cun UCos x) (ncos N y).
Proof. intros H. refine (so_un FCos x y _ H _); [discriminate|]. destruct (so_fin _ _ H) as [r ->]. exists r. split; [reflexivity|exact I]. Qed.
Lemma so_exp x y : So x y -> So (cun UExp x) (nexp N y).
Proof. intros H. refine (so_un FExp x y _ H _); [discriminate|]. destruct (so_fin _ _ H) as [r ->]. exists r. split; [reflexivity|exact I]. Qed.
Lemma so_sqrt x y : So x y -> uok USqrt y -> So (cun USqrt x) (nsqrt N y).
Proof. intros H. apply (so_un FSqrt x y ltac:(discriminate) H). Qed.
Definition un2 (w : un) : bool := second (KUn w).
Lemma so_unf w x y : un2 w = true -> So x y -> uok w y -> So (un_f Curve w x) (un_f N w y).
Proof.
  intros HW H HU. destruct w; try discriminate HW.
  - now apply so_opp. - now apply so_sin. - now apply so_cos.
  - exact (so_un FTan x y ltac:(discriminate) H HU). - exact (so_un FAsin x y ltac:(discriminate) H HU).
  - exact (so_un FAcos x y ltac:(discriminate) H HU). - exact (so_un FAtan x y ltac:(discriminate) H HU).
  - now apply so_exp. - exact (so_un FLog x y ltac:(discriminate) H HU). - now apply so_sqrt.
  - cbn [un_f]. apply so_div; [apply so_cst|apply so_add; [apply so_cst|apply so_exp, so_opp, H]|].
    destruct (so_fin _ _ H) as [r ->]. cbn. intros E. inversion E. pose proof (exp_pos (- r)). lra.
Qed.
Lemma so_unb w s x f s' x' f' : un2 w = true -> So s s' -> So x x' -> So f f' -> uok w x' -> (w = USqrt -> nz f') ->
  So (un_b Curve w s x f) (un_b N w s' x' f').
Proof.
  intros HW HS HX HF HU HQ. destruct HU as [r [-> HU]]. destruct w; try discriminate HW; cbn [un_b].
  - now apply so_opp.
  - apply so_mul; [exact HS|now apply so_cos].
  - apply so_mul; [now apply so_opp|now apply so_sin].
  - apply so_div; [exact HS|apply so_mul; now apply so_cos|]. cbn. cbn in HU. intros E. inversion E. nra.
  - apply so_div; [exact HS|apply so_sqrt; [apply so_sub; [apply so_cst|now apply so_mul]|]|].
    + cbn in HU. eexists. split; [reflexivity|]. cbn. nra.
    + cbn in HU. cbn. rewrite rleb_t by nra. intros E. inversion E as [E1]. apply sqrt_eq_0 in E1; nra.
  - apply so_opp. apply so_div; [exact HS|apply so_sqrt; [apply so_sub; [apply so_cst|now apply so_mul]|]|].
    + cbn in HU. eexists. split; [reflexivity|]. cbn. nra.
    + cbn in HU. cbn. rewrite rleb_t by nra. intros E. inversion E as [E1]. apply sqrt_eq_0 in E1; nra.
  - apply so_div; [exact HS|apply so_add; [apply so_cst|now apply so_mul]|]. cbn. intros E. inversion E. nra.
  - now apply so_mul.
  - apply so_div; auto. cbn in HU. intros E. inversion E. lra.
  - apply so_div; [apply so_mul; [apply so_cst|exact HS]|exact HF|now apply HQ].
  - apply so_div; [apply so_mul; [exact HS|now apply so_exp, so_opp]|apply so_mul; (apply so_add; [now apply so_exp, so_opp|apply so_cst])|].
    cbn. intros E. inversion E. pose proof (exp_pos (- r)). nra.
Qed.
Lemma so_sum l l' : SL l l' -> So (nsum Curve l) (nsum N l').
Proof. intros H. refine (F2_fold _ _ _ _ _ _ _ H _ _ (so_cst 0)). intros. now apply so_add. Qed.
Lemma so_bc s n l l' : SL l l' -> SL (bc Curve s n l) (bc N s n l').
Proof. intros H. unfold bc. destruct (is_scl s); auto. apply F2_rep. unfold hd0. apply F2_hd; [apply so_cst|auto]. Qed.
Lemma so_mget r l l' i j : SL l l' -> So (mget (n0 Curve) r l i j) (mget (n0 N) r l' i j).
Proof. intros H. unfold mget. apply F2_nth; [apply so_cst|auto]. Qed.
Lemma so_mkm r c f g : (forall i j, So (f i j) (g i j)) -> SL (mkm r c f) (mkm r c g).
Proof. intros H. apply F2_fm. intros j _. apply F2_maps. auto. Qed.
Lemma so_mt r c l l' : SL l l' -> SL (mt Curve r c l) (mt N r c l').
Proof. intros H. apply so_mkm. intros. now apply so_mget. Qed.
Lemma so_mm r k c a a' b b' : SL a a' -> SL b b' -> SL (mm Curve r k c a b) (mm N r k c a' b').
Proof. intros HA HB. apply so_mkm. intros. apply so_sum, F2_maps. intros. apply so_mul; now apply so_mget. Qed.
Lemma so_red s s' l l' : SL l l' -> SL (red Curve s s' l) (red N s s' l').
Proof. intros H. unfold red. destruct (_ && _); auto. constructor; [now apply so_sum|constructor]. Qed.

(** ** Nodes *)
Definition ng (k : kd) (ss : list shape) (vs : list (list xr)) (f : list xr) : Prop :=
  match k with
  | KUn w => Forall (uok w) (arg N vs 0) /\ (w = USqrt -> Forall nz f)
  | KBin BDiv => f = [] \/ forall n, Forall nz (bc N (nth_sh ss 1) n (arg N vs 1))
  | _ => True
  end.
Lemma so_arg vs vs' i : Forall2 SL vs vs' -> SL (arg Curve vs i) (arg N vs' i).
Proof. intros H. unfold arg. apply F2_nth; auto. Qed.
Lemma so_kf k cs ss s s' vs vs' : second k = true -> Forall2 SL vs vs' -> ng k ss vs' (snd (kf (N := N) k cs ss s' vs')) ->
  SL (snd (kf (N := Curve) k cs ss s vs)) (snd (kf (N := N) k cs ss s' vs')).
Proof.
  intros HK HV HG. pose proof (so_arg vs vs' 0 HV) as A0. pose proof (so_arg vs vs' 1 HV) as A1.
  revert HG. unfold kf. destruct k; try discriminate HK; cbn [kfwd bindR snd ng]; intros HG.
  - destruct HG as [HG _]. eapply F2_map; [|exact (F2_and _ _ _ _ A0 HG)]. intros x y [Q1 Q2]. now apply so_unf.
  - now apply so_mt.
  - constructor; [now apply so_sum|constructor].
  - constructor; [|constructor]. apply so_sum. eapply F2_map; [|exact A0]. intros. unfold nsq. now apply so_mul.
  - unfold bin_fwd in *. set (n := size _) in *. pose proof (so_bc (nth_sh ss 0) n _ _ A0) as B0. pose proof (so_bc (nth_sh ss 1) n _ _ A1) as B1.
    destruct b; try discriminate HK; cbn [bi_f].
    + eapply F2_map2; [|exact B0|exact B1]. intros. now apply so_add.
    + eapply F2_map2; [|exact B0|exact B1]. intros. now apply so_sub.
    + eapply F2_map2; [|exact B0|exact B1]. intros. now apply so_mul.
    + destruct HG as [HG|HG].
      * revert HG. cbn [bi_f]. clear -B0 B1. destruct B0; [constructor|]. destruct B1; [constructor|]. discriminate.
      * eapply F2_map2; [|exact B0|exact (F2_and _ _ _ _ B1 (HG n))]. intros a a' b b' Q1 [Q2 Q3]. now apply so_div.
  - now apply so_mm.
  - eapply F2_fold; [|exact HV|now apply F2_rep, so_cst]. intros. eapply F2_map2; [|eassumption|eassumption]. intros. now apply so_add.
Qed.
Lemma so_kseed k cs ss s s' ad ad' vs vs' f f' i : second k = true -> SL ad ad' -> Forall2 SL vs vs' -> SL f f' ->
  (kget k = true -> ng k ss vs' f') ->
  match kseed (N := Curve) k cs ss s ad vs f i, kseed (N := N) k cs ss s' ad' vs' f' i with
  | Some l, Some l' => SL l l' | None, None => True | _, _ => False end.
Proof.
  intros HK HA HV HF HG. pose proof (so_arg vs vs' 0 HV) as A0. pose proof (so_arg vs vs' 1 HV) as A1.
  assert (HD : So (hd0 Curve ad) (hd0 N ad')) by (unfold hd0; apply F2_hd; [apply so_cst|auto]).
  destruct k; try discriminate HK; cbn [kseed].
  - destruct (HG eq_refl) as [G1 G2]. pose proof (F2_and _ _ _ _ A0 G1) as A2. assert (E : u = USqrt \/ u <> USqrt) by (destruct u; (left; reflexivity) || (right; discriminate)); destruct E as [E|E].
    + eapply F2_map3; [|exact HA|exact A2|exact (F2_and _ _ _ _ HF (G2 E))]. intros a a' b b' c c' Q1 [Q2 Q3] [Q4 Q5]. now apply so_unb.
    + eapply F2_map3; [|exact HA|exact A2|exact HF]. intros a a' b b' c c' Q1 [Q2 Q3] Q4. apply so_unb; auto. contradiction.
  - now apply so_mt.
  - now apply F2_rep.
  - eapply F2_map; [|exact A0]. intros. apply so_mul; auto. apply so_mul; [exact HD|apply so_cst].
  - assert (LE : length ad = length ad') by (eapply F2_len; exact HA).
    assert (HC : is_cmp b = false) by (destruct b; (reflexivity || discriminate HK)). rewrite HC.
    assert (HG' : ng (KBin b) ss vs' f') by (apply HG; destruct b; (reflexivity || discriminate HK)). clear HG.
    pose proof (so_bc (nth_sh ss 0) (length ad) _ _ A0) as B0. pose proof (so_bc (nth_sh ss 1) (length ad) _ _ A1) as B1.
    replace (bc N (nth_sh ss 0) (length ad)) with (bc N (nth_sh ss 0) (length ad')) in B0 by now rewrite LE.
    replace (bc N (nth_sh ss 1) (length ad)) with (bc N (nth_sh ss 1) (length ad')) in B1 by now rewrite LE.
    destruct i as [|i].
    + unfold bin_bl. apply so_red. destruct b; try discriminate HK.
      1-3: eapply F2_map4; [|exact HA|exact B0|exact B1|exact HF]; intros; cbn [bi_bl]; auto; now apply so_mul.
      destruct HG' as [->|HG'].
      * inversion HF. rewrite !map4_nil. constructor.
      * eapply F2_map4; [|exact HA|exact B0|exact (F2_and _ _ _ _ B1 (HG' _))|exact HF]. intros z1 z1' z2 z2' z3 z3' z4 z4' Q1 Q2 [Q3 Q4] Q5. now apply so_div.
    + assert (Q : b <> BSub -> SL (red Curve (nth_sh ss 1) (nth_sh ss 0) (map4 (bi_br Curve b) ad (bc Curve (nth_sh ss 0) (length ad) (arg Curve vs 0)) (bc Curve (nth_sh ss 1) (length ad) (arg Curve vs 1)) f))
        (red N (nth_sh ss 1) (nth_sh ss 0) (map4 (bi_br N b) ad' (bc N (nth_sh ss 0) (length ad') (arg N vs' 0)) (bc N (nth_sh ss 1) (length ad') (arg N vs' 1)) f'))).
      { intros NB. apply so_red. destruct b; try discriminate HK; try congruence.
        1-2: eapply F2_map4; [|exact HA|exact B0|exact B1|exact HF]; intros; cbn [bi_br]; auto; now apply so_mul.
        destruct HG' as [->|HG'].
        - inversion HF. rewrite !map4_nil. constructor.
        - eapply F2_map4; [|exact HA|exact B0|exact (F2_and _ _ _ _ B1 (HG' _))|exact HF]. intros z1 z1' z2 z2' z3 z3' z4 z4' Q1 Q2 [Q3 Q4] Q5.
          apply so_div; [|exact Q3|exact Q4]. apply so_mul; [|exact Q5]. now apply so_opp. }
      unfold bin_br. destruct b; try discriminate HK; try (now apply Q). destruct (_ && _).
      * constructor; [|constructor]. now apply so_opp, so_sum.
      * apply so_red. eapply F2_map4; [|exact HA|exact B0|exact B1|exact HF]; intros; cbn [bi_br]. now apply so_opp.
  - destruct i; apply so_mm; auto using so_mt.
  - exact HA.
Qed.

Ltac len H := let L := fresh in pose proof (F2_len _ _ _ H) as L; change (carrier N) with xr in *; rewrite <- L; clear L.
(** ** Compound assignment *)
Definition og (q : oe) (se : shape) (x y : list xr) : Prop :=
  match q with ODiv => x = [] \/ forall n, Forall nz (bc N se n y) | _ => True end.
Lemma so_oef q se x x' y y' : SL x x' -> SL y y' -> og q se x' y' -> SL (oe_fwd Curve q se x y) (oe_fwd N q se x' y').
Proof.
  intros HX HY HG. unfold oe_fwd. len HX. pose proof (so_bc se (length x) _ _ HY) as B. destruct q.
  - eapply F2_map2; [|exact HX|exact B]. intros. now apply so_add.
  - eapply F2_map2; [|exact HX|exact B]. intros. now apply so_sub.
  - eapply F2_map2; [|exact HX|exact B]. intros. now apply so_mul.
  - destruct HG as [->|HG]; [inversion HX; constructor|].
    eapply F2_map2; [|exact HX|exact (F2_and _ _ _ _ B (HG _))]. intros a a' b b' Q1 [Q2 Q3]. now apply so_div.
Qed.
Lemma map3_nil {A B C X} (f : A -> B -> C -> X) a c : map3 f a [] c = [].
Proof. destruct a, c; reflexivity. Qed.
Lemma so_oel q se s s' x x' y y' : SL s s' -> SL x x' -> SL y y' -> og q se x' y' -> SL (oe_lseed Curve q se s x y) (oe_lseed N q se s' x' y').
Proof.
  intros HS HX HY HG. unfold oe_lseed. len HS. pose proof (so_bc se (length s) _ _ HY) as B. destruct q.
  1-3: eapply F2_map3; [|exact HS|exact HX|exact B]; intros; cbn [oe_bl]; auto; now apply so_mul.
  destruct HG as [->|HG]; [inversion HX; rewrite !map3_nil; constructor|].
  eapply F2_map3; [|exact HS|exact HX|exact (F2_and _ _ _ _ B (HG _))]. intros a a' b b' c c' Q1 Q2 [Q3 Q4]. now apply so_div.
Qed.
Lemma so_oer q sv se s s' x x' y y' : SL s s' -> SL x x' -> SL y y' -> og q se x' y' -> SL (oe_rseed Curve q sv se s x y) (oe_rseed N q sv se s' x' y').
Proof.
  intros HS HX HY HG.
  assert (Q : SL (map3 (oe_br Curve q) s x (bc Curve se (length s) y)) (map3 (oe_br N q) s' x' (bc N se (length s') y'))).
  { len HS. pose proof (so_bc se (length s) _ _ HY) as B. destruct q.
    1-3: eapply F2_map3; [|exact HS|exact HX|exact B]; intros; cbn [oe_br]; auto; try (now apply so_mul); now apply so_opp.
    destruct HG as [->|HG]; [inversion HX; rewrite !map3_nil; constructor|].
    eapply F2_map3; [|exact HS|exact HX|exact (F2_and _ _ _ _ B (HG _))]. intros a a' b b' c c' Q1 Q2 [Q3 Q4].
    cbn [oe_br]. apply so_div; [apply so_mul; [now apply so_opp|exact Q2]|now apply so_mul|].
    destruct (so_fin _ _ Q3) as [r ->]. cbn. intros E. inversion E. apply Q4. f_equal. nra. }
  unfold oe_rseed. destruct (_ && _); auto. destruct q; (constructor; [|constructor]); try (now apply so_sum); now apply so_opp, so_sum.
Qed.

(** ** What is known along the record of a run *)
Notation E1 := (expr Curve (ann Curve)).
Notation E2 := (expr xr (ann N)).
Fixpoint gd (e : E2) (t : rec N) {struct e} : Prop :=
  match e with
  | EVar _ _ | ECst _ _ | ECvw _ _ => True
  | EComp k _ es => second k = true /\ ng k (map shape_of es) (map nv (nts t)) (nv t) /\
      (fix go es ts := match es, ts with y :: l, x :: r => gd y x /\ go l r | _, _ => True end) es (nts t)
  | EEq _ _ _ y => match nts t with [x] => gd y x | _ => True end
  | EOpEq q _ _ _ y => match nts t with [x] => gd y x /\ og q (shape_of y) (no t) (nv x) | _ => True end
  | EGlue _ l r => match nts t with [a; b] => gd l a /\ gd r b | _ => True end
  | EFor _ _ es => (fix go es ts := match es, ts with y :: l, x :: r => gd y x /\ go l r | _, _ => True end) es (nts t)
  | EIf _ _ _ _ => False
  end.
Definition gds : list E2 -> list (rec N) -> Prop :=
  fix go es ts := match es, ts with y :: l, x :: r => gd y x /\ go l r | _, _ => True end.
Variable D : nat -> R.
Notation DX := (liftE la D).
Hypothesis HKV : forall k, KV la k.

Lemma sg_sec (e : E2) : secx e = true -> sg la D e.
Proof.
  induction e using expr_ind'; cbn [secx]; intros HS; try discriminate; try exact I; auto.
  - apply andb_true_iff in HS. destruct HS as [H1 H2]. rewrite sg_comp. split; [destruct k; try exact I; discriminate H1|].
    clear -H H2. induction H; cbn; auto. cbn in H2. apply andb_true_iff in H2. split; tauto.
  - apply andb_true_iff in HS. destruct HS. cbn. auto.
  - rewrite sg_for. clear -H HS. induction H; cbn; auto. cbn in HS. apply andb_true_iff in HS. split; tauto.
Qed.
Lemma ng_dom k cs fl ss s u vs : kshape_ok k ss = true -> kdim_ok k ss = true -> lensR vs ss -> second k = true ->
  kdom true u k cs fl ss vs -> ng k ss (FF vs) (snd (kf (N := N) k cs ss s (FF vs))).
Proof.
  intros HS HM HL HK HD. destruct k; try exact I.
  - cbn [kdom] in HD. unfold ng, kf. cbn [kfwd snd]. rewrite arg_fin.
    assert (L : length (nth 0 vs []) = size (nth_sh ss 0)).
    { destruct ss as [|a ss]; [discriminate HS|]. apply (lensR_nth vs (a :: ss) 0 HL). cbn. lia. }
    assert (U : Forall (uok u0) (map Fin (nth 0 vs []))).
    { apply Forall_forall. intros y Hy. apply in_map_iff in Hy. destruct Hy as [r [<- Hr]]. exists r. split; [reflexivity|].
      apply (In_nth _ _ 0) in Hr. destruct Hr as [i [Hi <-]]. apply HD. now rewrite <- L. }
    split; [exact U|]. intros ->. apply Forall_forall. intros y Hy. apply in_map_iff in Hy. destruct Hy as [x [<- Hx]].
    rewrite Forall_forall in U. destruct (U x Hx) as [r [-> Hr]]. cbn in Hr. cbn. rewrite rleb_t by lra. intros E. inversion E as [E1].
    apply sqrt_eq_0 in E1; lra.
  - destruct b; try exact I. cbn [kdom bi_dom] in HD.
    destruct (bin_facts BDiv ss HS) as [a [c [-> [F1 [F2 [F3 [F4 F5]]]]]]]. cbn [ng]. rewrite arg_fin.
    assert (L0 : length (nth 0 vs []) = size a) by (apply (lensR_nth vs [a; c] 0 HL); cbn; lia).
    assert (L1 : length (nth 1 vs []) = size c) by (apply (lensR_nth vs [a; c] 1 HL); cbn; lia).
    set (n := size (kshape (KBin BDiv) [a; c])) in *.
    assert (NE : n = 0%nat \/ (0 < n)%nat) by lia. destruct NE as [NE|NE].
    + left. unfold kf. cbn [kfwd snd]. unfold bin_fwd. rewrite !arg_fin. unfold nth_sh. cbn [nth].
      change (size _) with n. rewrite !bc_fin by auto. rewrite tab_map2, NE. reflexivity.
    + right. intros m. unfold nth_sh in *. cbn [nth] in *. unfold bc. destruct (is_scl c) eqn:EC.
      * apply Forall_forall. intros y Hy. apply repeat_spec in Hy. subst y. rewrite F3 in L1 by auto.
        destruct (nth 1 vs []) as [|r [|]] eqn:EV; try discriminate L1. cbn. pose proof (HD 0%nat NE) as Q. unfold ent in Q. rewrite EC in Q.
        cbn in Q. intros E. inversion E. contradiction.
      * apply Forall_forall. intros y Hy. apply in_map_iff in Hy. destruct Hy as [r [<- Hr]]. intros E. inversion E; subst r.
        apply (In_nth _ _ 0) in Hr. destruct Hr as [i [Hi Q]]. apply (HD i); [rewrite <- F4, <- L1 by auto; exact Hi|]. unfold ent. rewrite EC. exact Q.
Qed.
Lemma og_dom q sh se x y : length x = size sh -> length y = size se -> (is_scl se = true -> size se = 1%nat) -> (is_scl se = false -> size se = size sh) ->
  match q with ODiv => forall i, (i < size sh)%nat -> ent se y i <> 0 | _ => True end -> og q se x (map Fin y).
Proof.
  intros LX LY H1 H2 HD. destruct q; try exact I. cbn [og].
  assert (NE : size sh = 0%nat \/ (0 < size sh)%nat) by lia. destruct NE as [NE|NE]; [left; destruct x; [reflexivity|cbn in LX; lia]|]. right. intros m.
  unfold bc. destruct (is_scl se) eqn:EC.
  - apply Forall_forall. intros z Hy. apply repeat_spec in Hy. subst z. rewrite H1 in LY by auto.
    destruct y as [|r [|]]; try discriminate LY. cbn. pose proof (HD 0%nat NE) as Q. unfold ent in Q. rewrite EC in Q.
    cbn in Q. intros E. inversion E. contradiction.
  - apply Forall_forall. intros z Hy. apply in_map_iff in Hy. destruct Hy as [r [<- Hr]]. intros E. inversion E; subst r.
    apply (In_nth _ _ 0) in Hr. destruct Hr as [i [Hi Q]]. apply (HD i); [rewrite <- H2, <- LY by auto; exact Hi|]. unfold ent. rewrite EC. exact Q.
Qed.

Notation ERS := (ER (N1 := Curve) (N2 := N) So).
Notation TS := (TRr (N1 := Curve) (N2 := N) So).
Notation er_envS := (er_env (N1 := Curve) (N2 := N) So).
Lemma ts_nv t t' : TS t t' -> SL (nv t) (nv t'). Proof. now intros []. Qed.
Lemma ts_no t t' : TS t t' -> SL (no t) (no t'). Proof. now intros []. Qed.
Lemma ts_nts t t' : TS t t' -> Forall2 TS (nts t) (nts t'). Proof. now intros []. Qed.
Lemma tbx_comp k an (es : list E2) t seed a : @tb N (EComp k an es) t seed a = @tbl N k es t seed 0 es (nts t) a.
Proof. reflexivity. Qed.
Lemma tbx_for an s (es : list E2) t seed a : @tb N (EFor an s es) t seed a = @tbf N seed es (nts t) a.
Proof. reflexivity. Qed.
Lemma so_rdv r r' o n : er_envS r r' -> SL (rdv (N := Curve) r o n) (rdv (N := N) r' o n).
Proof. intros H. apply F2_maps. intros. apply H. Qed.
Lemma so_upd r r' o l l' : er_envS r r' -> SL l l' -> er_envS (upd (N := Curve) r o l) (upd (N := N) r' o l').
Proof. intros H HL i. unfold upd. len HL. destruct (_ && _); [|apply H]. apply F2_nth; [apply so_cst|auto]. Qed.
Lemma so_padd r r' o l l' : er_envS r r' -> SL l l' -> er_envS (padd (N := Curve) r o l) (padd (N := N) r' o l').
Proof.
  intros H HL. apply so_upd; auto. eapply F2_map2; [|len HL; now apply so_rdv|exact HL]. intros. now apply so_add.
Qed.
Variable DC : nat -> Curve.
Hypothesis HDC : er_envS DC DX.
Ltac shp HE := let L := fresh in pose proof (proj1 (ER_shape (N1 := Curve) (N2 := N) So _ _ HE)) as L; change (carrier N) with xr in *; change (carrier Curve) with oc in *; rewrite L; clear L.
Definition PS (e' : E2) : Prop := forall (e : E1) u r rho t q t' q', ERS e e' -> secx e' = true -> wfs e' = true -> dom D true u e' rho ->
  er_envS r (liftE la rho) -> tf (N := Curve) DC e r = (t, q) -> tf (N := N) DX e' (liftE la rho) = (t', q') ->
  TS t t' /\ gd e' t' /\ er_envS q q'.
Definition domt : list E2 -> (nat -> R) -> Prop :=
  fix go es r := match es with [] => True | y :: l => (exists u, dom D true u y r) /\ go l (fin_env D y r) end.
Lemma domt_s us (es : list E2) : forall i r, doms D true us i es r -> domt es r.
Proof. induction es as [|y l IH]; intros i r; cbn; auto. intros [H1 H2]. split; eauto. Qed.
Lemma domt_f u (es : list E2) : forall r, domf D true u es r -> domt es r.
Proof. induction es as [|y l IH]; intros r; cbn; auto. intros [H1 H2]. split; eauto. Qed.
Lemma tfs_s (es' : list E2) : Forall PS es' -> forall (es : list E1) r rho ts q ts' q', Forall2 ERS es es' -> forallb secx es' = true -> forallb wfs es' = true ->
  domt es' rho -> er_envS r (liftE la rho) -> tfs (N := Curve) DC es r = (ts, q) -> tfs (N := N) DX es' (liftE la rho) = (ts', q') ->
  Forall2 TS ts ts' /\ gds es' ts' /\ er_envS q q'.
Proof.
  induction 1 as [|y' l' HY H IH]; intros es r rho ts q ts' q' HE HX HW HD HR Q1 Q2; inversion HE; subst; cbn [tfs] in Q1, Q2.
  - inversion Q1; inversion Q2; subst. split; [constructor|]. split; [exact I|exact HR].
  - fold (tfs (N := Curve) DC) in Q1. fold (tfs (N := N) DX) in Q2. cbn in HX, HW. apply andb_true_iff in HX. apply andb_true_iff in HW.
    destruct HX as [X1 X2], HW as [W1 W2], HD as [[u D1] D2].
    destruct (tf (N := Curve) DC x r) as [t r1] eqn:A1. destruct (tf (N := N) DX y' (liftE la rho)) as [t' r1'] eqn:A2.
    destruct (HY _ _ _ _ _ _ _ _ ltac:(eassumption) X1 W1 D1 HR A1 A2) as [C1 [C2 C3]].
    destruct (LV_all la D HKV y' u rho t' r1' W1 (sg_sec y' X1) (dom_mono _ _ _ _ _ D1) A2) as [_ ->].
    destruct (tfs (N := Curve) DC l r1) as [t2 r2] eqn:B1. destruct (tfs (N := N) DX l' (liftE la (fin_env D y' rho))) as [t2' r2'] eqn:B2.
    inversion Q1; inversion Q2; subst.
    destruct (IH _ _ _ _ _ _ _ ltac:(eassumption) X2 W2 D2 C3 B1 B2) as [I1 [I2 I3]]. split; [constructor; auto|]. split; [split; auto|exact I3].
Qed.
Lemma sgs_sec (es : list E2) : forallb secx es = true -> sgs la D es.
Proof. induction es; cbn; auto. intros H. apply andb_true_iff in H. split; [apply sg_sec|]; tauto. Qed.
Lemma domq_t (es : list E2) : forall r, domt es r -> domq la D es r.
Proof. induction es as [|y l IH]; intros r; cbn; auto. intros [[u H1] H2]. apply dom_mono in H1. split; eauto. Qed.
Lemma ps_all e' : PS e'.
Proof.
  induction e' using expr_ind'; intros e0 u r rho t w t' w' HE HX HW HD HR Q1 Q2; destruct e0; try contradiction; cbn [ER] in HE; try discriminate HX.
  - destruct HE as [-> ->]. inversion Q1; inversion Q2; subst. split; [constructor; auto; now apply so_rdv|]. split; [exact I|exact HR].
  - destruct HE as [-> HC]. inversion Q1; inversion Q2; subst. split; [constructor; auto|]. split; [exact I|exact HR].
  - destruct HE as [-> ->]. inversion Q1; inversion Q2; subst. split; [constructor; auto; now apply so_rdv|]. split; [exact I|exact HR].
  - destruct HE as [-> [HK HE]]. rewrite ER_list in HE. rewrite tf_comp in Q1. rewrite tfx_comp in Q2.
    cbn [secx] in HX. apply andb_true_iff in HX. destruct HX as [X1 X2].
    cbn [wfs] in HW. rewrite !andb_true_iff in HW. destruct HW as [[[W1 W2] W3] W4]. rewrite dom_comp in HD. destruct HD as [D1 D2].
    destruct (tfs (N := Curve) DC es0 r) as [ts r1] eqn:A1. destruct (tfs (N := N) DX es (liftE la rho)) as [ts' r1'] eqn:A2.
    destruct (tfs_s es H es0 r rho _ _ _ _ HE X2 W1 (domt_s _ _ _ _ D1) HR A1 A2) as [C1 [C2 C3]].
    destruct (LVs la D es ltac:(apply Forall_forall; intros; now apply LV_all) rho ts' r1' W1 (sgs_sec _ X2) (domq_t _ _ (domt_s _ _ _ _ D1)) A2) as [V1 _].
    destruct (ER_shapes (N1 := Curve) (N2 := N) So _ _ HE) as [S1 S2].
    pose proof (ng_dom k (map is_const es) (map flat es) (map shape_of es) (st a) u _ W2 W3 (vals_len D es rho W1) X1 D2) as G.
    change (carrier N) with xr in *. rewrite <- V1 in G.
    assert (CV : Forall2 SL (map nv ts) (map nv ts')) by (eapply F2_map; [|exact C1]; intros; now apply ts_nv).
    pose proof (so_kf k (map is_const es) (map shape_of es) (st a0) (st a) (map nv ts) (map nv ts') X1 CV G) as HF.
    change (carrier N) with xr in *.
    rewrite S1, S2 in Q1.
    destruct (kf (N := Curve) k _ _ (st a0) _) as [s1 v1] eqn:K1. destruct (kf (N := N) k _ _ (st a) _) as [s2 v2] eqn:K2.
    inversion Q1; inversion Q2; subst. split; [constructor; auto|]. split; [|exact C3]. split; [exact X1|]. split; [exact G|exact C2].
  - destruct HE as [-> [-> HE]]. cbn [tf] in Q1, Q2. cbn [wfs] in HW. rewrite !andb_true_iff in HW. destruct HW as [[[W1 W2] W3] W4].
    destruct (tf (N := Curve) DC e0 r) as [t1 r1] eqn:A1. destruct (tf (N := N) DX e' (liftE la rho)) as [t1' r1'] eqn:A2.
    destruct (IHe' _ _ _ _ _ _ _ _ HE HX W1 HD HR A1 A2) as [C1 [C2 C3]]. inversion Q1; inversion Q2; subst.
    split; [constructor; auto using ts_nv|]. split; [exact C2|]. apply so_upd; auto. exact (ts_nv _ _ C1).
  - destruct HE as [-> [-> [-> HE]]]. cbn [tf] in Q1, Q2. cbn [wfs] in HW. rewrite !andb_true_iff in HW. destruct HW as [[[W1 W2] W3] W4].
    destruct HD as [D1 D2].
    destruct (tf (N := Curve) DC e0 r) as [t1 r1] eqn:A1. destruct (tf (N := N) DX e' (liftE la rho)) as [t1' r1'] eqn:A2.
    destruct (IHe' _ _ _ _ _ _ _ _ HE HX W1 D1 HR A1 A2) as [C1 [C2 C3]].
    destruct (LV_all la D HKV e' false rho t1' r1' W1 (sg_sec e' HX) (dom_mono _ _ _ _ _ D1) A2) as [V1 ->].
    inversion Q1; inversion Q2; subst. shp HE.
    assert (G : og q (shape_of e') (rdv (N := N) (liftE la (fin_env D e' rho)) o (size sh)) (nv t1')).
    { rewrite V1. apply (og_dom q sh); auto.
      - unfold rdv. now rewrite map_length, seq_length.
      - apply val_len. exact W1.
      - intros X. apply scl_size; [now apply wfs_shape'|exact X].
      - intros X. apply orb_true_iff in W3. destruct W3 as [W3|W3]; [congruence|]. apply shape_eqb_eq in W3. now rewrite W3. }
    assert (W : SL (oe_fwd Curve q (shape_of e') (rdv (N := Curve) r1 o (size sh)) (nv t1)) (oe_fwd N q (shape_of e') (rdv (N := N) (liftE la (fin_env D e' rho)) o (size sh)) (nv t1')))
      by (apply so_oef; [now apply so_rdv|exact (ts_nv _ _ C1)|exact G]).
    split; [constructor; auto; now apply so_rdv|]. split; [split; [exact C2|exact G]|]. now apply so_upd.
  - destruct HE as [HE1 HE2]. cbn [tf] in Q1, Q2. cbn [wfs] in HW. rewrite !andb_true_iff in HW. destruct HW as [[[W1 W2] W3] W4].
    cbn [secx] in HX. apply andb_true_iff in HX. destruct HX as [X1 X2]. destruct HD as [D1 D2].
    destruct (tf (N := Curve) DC e0_1 r) as [t1 r1] eqn:A1. destruct (tf (N := N) DX e'1 (liftE la rho)) as [t1' r1'] eqn:A2.
    destruct (IHe'1 _ _ _ _ _ _ _ _ HE1 X1 W1 D1 HR A1 A2) as [C1 [C2 C3]].
    destruct (LV_all la D HKV e'1 false rho t1' r1' W1 (sg_sec _ X1) (dom_mono _ _ _ _ _ D1) A2) as [_ ->].
    destruct (tf (N := Curve) DC e0_2 r1) as [t2 r2] eqn:B1. destruct (tf (N := N) DX e'2 (liftE la (fin_env D e'1 rho))) as [t2' r2'] eqn:B2.
    destruct (IHe'2 _ _ _ _ _ _ _ _ HE2 X2 W2 D2 C3 B1 B2) as [C4 [C5 C6]]. inversion Q1; inversion Q2; subst.
    split; [constructor; auto; exact (ts_nv _ _ C4)|]. split; [split; auto|exact C6].
  - destruct HE as [-> HE]. rewrite ER_list in HE. rewrite tf_for in Q1. rewrite tfx_for in Q2.
    cbn [wfs] in HW. rewrite !andb_true_iff in HW. destruct HW as [[[W1 W2] W3] W4]. rewrite dom_for in HD.
    destruct (tfs (N := Curve) DC es0 r) as [ts r1] eqn:A1. destruct (tfs (N := N) DX es (liftE la rho)) as [ts' r1'] eqn:A2.
    destruct (tfs_s es H es0 r rho _ _ _ _ HE HX W1 (domt_f _ _ _ HD) HR A1 A2) as [C1 [C2 C3]]. inversion Q1; inversion Q2; subst.
    split; [|split; [exact C2|exact C3]].
    constructor; auto. clear -C1. induction C1 as [|x x' l l' HX HL IH]; [cbn; constructor|].
    destruct HL; [exact (ts_nv _ _ HX)|exact IH].
Qed.
Definition BS (e' : E2) : Prop := forall (e : E1) t t' s s' a a', ERS e e' -> TS t t' -> gd e' t' -> SL s s' -> er_envS a a' ->
  er_envS (tb (N := Curve) e t s a) (tb (N := N) e' t' s' a').
Lemma bs_all e' : BS e'.
Proof.
  induction e' using expr_ind'; intros e0 t t' sd sd' al al' HE HT HG HS HA; destruct e0; try contradiction; cbn [ER] in HE.
  - destruct HE as [-> ->]. now apply so_padd.
  - exact HA.
  - exact HA.
  - destruct HE as [-> [HK HE]]. rewrite ER_list in HE. rewrite tb_comp, tbx_comp. destruct (ER_shapes (N1 := Curve) (N2 := N) So _ _ HE) as [S1 S2].
    destruct HG as [HS2 [HN HG]]. change (gds es (nts t')) in HG.
    assert (G : forall l l' i ts ts' al al', Forall BS l' -> Forall2 ERS l l' -> Forall2 TS ts ts' -> gds l' ts' -> er_envS al al' ->
      er_envS (tbl (N := Curve) k es0 t sd i l ts al) (tbl (N := N) k es t' sd' i l' ts' al')).
    { clear HA al al'. induction l as [|y l IH]; intros l' i ts ts' al al' HF HL HTS HGS HA; inversion HL; subst; [exact HA|].
      inversion HF; subst. destruct HTS as [|ty ty' ts ts' HTY HTS]; [exact HA|]. destruct HGS as [G1 G2]. cbn [tbl].
      fold (tbl (N := Curve) k es0 t sd). fold (tbl (N := N) k es t' sd'). rewrite S1, S2.
      assert (HV : Forall2 SL (vsel k (map nv (nts t))) (vsel k (map nv (nts t')))).
      { unfold vsel. destruct (kget k); [|rewrite !map_map; eapply F2_map; [|exact (ts_nts _ _ HT)]; constructor].
        eapply F2_map; [|exact (ts_nts _ _ HT)]. intros x x' Q. exact (ts_nv _ _ Q). }
      pose proof (IH l'0 (S i) ts ts' al al' ltac:(assumption) ltac:(assumption) HTS G2 HA) as HA1.
      assert (KP : forall vs f, @kpre Curve k i vs f = None) by (intros; destruct k; try discriminate HK; reflexivity).
      assert (KP' : forall vs f, @kpre N k i vs f = None) by (intros; destruct k; try discriminate HK; reflexivity).
      rewrite KP, KP'.
      assert (NGV : kget k = true -> ng k (map shape_of es) (vsel k (map nv (nts t'))) (nv t')) by (intros KG; unfold vsel; rewrite KG; exact HN).
      pose proof (so_kseed k (map is_const es) (map shape_of es) (ns t) (ns t') sd sd' _ _ (nv t) (nv t') i HS2 HS HV (ts_nv _ _ HT) NGV) as KS.
      change (carrier N) with xr in *.
      destruct (kseed (N := Curve) k _ _ (ns t) _ _ _ _), (kseed (N := N) k _ _ (ns t') _ _ _ _); try contradiction; auto. }
    apply G; auto. now apply ts_nts.
  - destruct HE as [-> [-> HE]]. cbn [tb]. cbn [gd] in HG. pose proof (ts_nts _ _ HT) as HN. destruct HN as [|x x' l l' HX [|]]; auto.
    assert (P : er_envS (padd (N := Curve) al o sd) (padd (N := N) al' o sd')) by now apply so_padd.
    apply IHe'; auto. now apply so_rdv.
  - destruct HE as [-> [-> [-> HE]]]. cbn [tb]. cbn [gd] in HG. pose proof (ts_nts _ _ HT) as HN. destruct HN as [|x x' l l' HX [|]]; auto.
    destruct HG as [G1 G2]. shp HE.
    assert (P : er_envS (padd (N := Curve) al o sd) (padd (N := N) al' o sd')) by now apply so_padd.
    assert (G : SL (rdv (N := Curve) (padd (N := Curve) al o sd) o (size sh)) (rdv (N := N) (padd (N := N) al' o sd') o (size sh))) by now apply so_rdv.
    apply so_padd; [|apply so_oel; auto; [exact (ts_no _ _ HT)|exact (ts_nv _ _ HX)]].
    apply IHe'; auto; [apply so_oer; auto; [exact (ts_no _ _ HT)|exact (ts_nv _ _ HX)]|]. apply so_upd; auto. apply F2_rep, so_cst.
  - destruct HE as [HE1 HE2]. cbn [tb]. cbn [gd] in HG. pose proof (ts_nts _ _ HT) as HN. destruct HN as [|x x' l1 l1' HX [|y y' l2 l2' HY [|]]]; auto.
    destruct HG. shp HE1. apply IHe'1; auto. apply F2_rep, so_cst.
  - destruct HE as [-> HE]. rewrite ER_list in HE. rewrite tb_for, tbx_for. pose proof (ts_nts _ _ HT) as HN. change (gds es (nts t')) in HG.
    revert al al' HA HG. clear HT. revert HE HN. generalize (nts t) (nts t'). intros ts ts' HE. revert ts ts'.
    induction HE as [|y y' l l' HY HL IH]; intros ts ts' HN al al' HA HG; [destruct HN; exact HA|].
    inversion H; subst. destruct HN as [|x x' ts ts' HX HN]; [exact HA|]. destruct HG as [G1 G2]. cbn [tbf]. fold (tbf (N := Curve) sd). fold (tbf (N := N) sd').
    destruct HL as [|z z' l l' HZ HL]; [now apply H2|]. shp HY.
    apply H2; [exact HY|exact HX|exact G1|apply F2_rep, so_cst|]. apply IH; auto.
Qed.
End S.
