(** What each kind of node adds to the adjoints. *)
From Coq Require Import Reals Lra Psatz FunctionalExtensionality.
From Coquelicot Require Import Coquelicot.
From Verif Require Import Base Num Expr Node Stat Machine Wf Pure LBase LKind LSimDef LMem LSimF LSimB LBind Session LUser
  Tape LTape LState LNrm LTop XR Spec RSess Grad Rules LReal LScal LKA LKB LKS LMx LMat LKM LVal LGrad LDiff LIndep LGrd.
Open Scope R_scope.
Set Bullet Behavior "Strict Subproofs".

Section LN.
Variable la : linalg xr.
Hypothesis LA : la_ok la.
Notation N := (XR la).
Notation E := (expr N (ann N)).
Notation U := (expr N unit).
Let LL : la_len N := la_ok_len la LA.
Let HKV := KV_all la LA.
Let HKA := KA_all la LA.

Lemma ops_der bv ba k (es : list U) D (e1 : E) m1 rho b o : okexpr la (EComp k tt es) ->
  session la bv ba (EComp k tt es) D e1 m1 -> dom D true b (EComp k tt es : expr xr unit) rho ->
  exists dvs, opartials D es rho o dvs /\
    (forall p, nth p (map flat (es : list (expr xr unit))) false = true -> forall i, el (nth p dvs []) i = 0).
Proof.
  intros HK HS HD. destruct (session_inv la LL bv ba _ D e1 m1 HK HS) as [cv [ca [HF [HI [HG [HW HE]]]]]].
  destruct e1 as [| | |k' an es1| | | | |]; try discriminate HE.
  cbn [er amap] in HE. injection HE as -> HEs.
  assert (HD' : dom D true b (EComp k an es1 : expr xr (ann N)) rho).
  { apply (proj1 (dom_amap (fun _ => tt) D true (EComp k an es1 : expr xr (ann N)) b rho)). cbn [amap].
    exact (eq_ind_r (fun l : list (expr xr unit) => dom D true b (EComp k tt l : expr xr unit) rho) HD HEs). }
  rewrite dom_comp in HD'. destruct HD' as [HD1 _]. rewrite sg_comp in HG. destruct HG as [_ HG].
  cbn [wfs] in HW. rewrite !andb_true_iff in HW. destruct HW as [[[W1 W2] W3] W4].
  destruct HK as [_ [K2 _]].
  assert (DI : @disc N (ann N) (EComp k an es1) = true).
  { destruct (inv_facts _ _ _ _ _ _ _ HI) as [_ [F2 _]]. now rewrite F2. }
  cbn [disc] in DI. rewrite !andb_true_iff in DI.
  destruct (@tfs N (liftE la D) es1 (liftE la rho)) as [ts r'] eqn:ET.
  destruct (GRs la D HKV HKA (S (list_max (flat_map refs es1))) es1
    (fun i => b && ones k (map shape_of es1) i) 0 (set1 rho o) (ind o) (rho o) ts r') as [dvs [dr' [A1 [A2 [A3 [A4 _]]]]]]; auto.
  - tauto.
  - apply (@later_weak N writes eqw es1 (fun e o => eqw_writes e o)). tauto.
  - intros i Hi. now apply refs_bound.
  - rewrite set1_same. exact HD1.
  - intros i. apply set1_der.
  - now rewrite set1_same.
  - exists dvs. split.
    + intros p i. eapply der_ext; [|exact (A2 p i)]. intros t. cbn beta. unfold vals. rewrite <- HEs.
      now rewrite (dens_amap' (fun _ : ann N => tt) D es1).
    + intros p Hp i. assert (Hp' : nth p (map flat (es1 : list (expr xr (ann N)))) false = true).
      { exact (eq_trans (f_equal (fun l => nth p l false) (eq_sym (flats_am (fun _ : ann N => tt) es1))) (eq_trans (f_equal (fun l : list (expr xr unit) => nth p (map flat l) false) HEs) Hp)). }
      eapply der_unique; [exact (A2 p i)|].
      apply der_loc_const with (c := el (nth p (fst (dens D es1 (set1 rho o (rho o)))) []) i).
      eapply filter_imp; [|exact (A4 p Hp')]. intros t Ht. now rewrite Ht.
Qed.

(** The law of a node, from the derivative of its denotation along curves. *)
Lemma law k (es : list U) D b rho v F :
  okexpr la (EComp k tt es) -> dom D true b (EComp k tt es : expr xr unit) rho ->
  v = kden k (map shape_of es) (vals D es rho) ->
  (forall seed o dvs, length seed = size (kshape k (map shape_of es)) -> opartials D es rho o dvs ->
     (forall p, nth p (map flat (es : list (expr xr unit))) false = true -> forall i, el (nth p dvs []) i = 0) ->
     exists dv, (forall j, is_derive (fun t => el (kden k (map shape_of es) (vals D es (set1 rho o t))) j) (rho o) (el dv j)) /\
       F seed dvs = ip seed dv) ->
  node_law la k es D b rho v F.
Proof.
  intros HK HD -> HF. unfold node_law. intros bv ba e1 m1 al seed HS HM HL HU HZ. set (u := EComp k tt es) in *.
  destruct (grad_thm la LA bv ba u D e1 m1 rho al b seed HK HS HM HD HL HU HZ) as [e2 [m2 [A1 A2]]].
  exists e2, m2. split.
  { rewrite A1. do 3 f_equal. unfold u, val, vals. now rewrite den_comp. }
  intros o Ho Hn. destruct (A2 o Ho Hn) as [g [G1 G2]].
  destruct (ops_der bv ba k es D e1 m1 rho b o HK HS HD) as [dvs [HO HFl]].
  exists dvs. split; [exact HO|]. rewrite G2. do 3 f_equal.
  destruct (HF seed o dvs HL HO HFl) as [dv [B1 B2]]. rewrite B2. unfold ip, dotp. apply sumn_ext. intros j _. f_equal.
  eapply der_unique; [exact (G1 j)|]. eapply der_ext; [|exact (B1 j)]. intros t. cbn beta. unfold u, val, vals. now rewrite den_comp.
Qed.
Lemma odoms_doms D (es : list U) : forall rho us i, (forall j, us j = false) -> odoms la D es rho -> doms D true us i (es : list (expr xr unit)) rho.
Proof.
  induction es as [|y l IH]; intros rho us i H HD; [exact I|]. destruct HD as [H1 H2]. split; [rewrite H; exact H1|now apply IH].
Qed.
Lemma law0 k (es : list U) D rho v F :
  okexpr la (EComp k tt es) -> odoms la D es rho ->
  kdom true false k (map is_const (es : list (expr xr unit))) (map flat (es : list (expr xr unit))) (map shape_of es) (vals D es rho) ->
  v = kden k (map shape_of es) (vals D es rho) ->
  (forall seed o dvs, length seed = size (kshape k (map shape_of es)) -> opartials D es rho o dvs ->
     (forall p, nth p (map flat (es : list (expr xr unit))) false = true -> forall i, el (nth p dvs []) i = 0) ->
     exists dv, (forall j, is_derive (fun t => el (kden k (map shape_of es) (vals D es (set1 rho o t))) j) (rho o) (el dv j)) /\
       F seed dvs = ip seed dv) ->
  node_law la k es D false rho v F.
Proof.
  intros HK HO HD. apply law; auto. rewrite dom_comp. split; [|exact HD]. apply odoms_doms; auto.
Qed.
Lemma ok_shapes k (es : list U) : okexpr la (EComp k tt es) ->
  kshape_ok k (map shape_of es) = true /\ forallb wfs (es : list (expr xr unit)) = true.
Proof. intros [H _]. cbn [wfs] in H. rewrite !andb_true_iff in H. tauto. Qed.
Lemma vals_lens (es : list U) D rho : forallb wfs (es : list (expr xr unit)) = true -> lensR (vals D es rho) (map shape_of es).
Proof. apply (vals_len D (es : list (expr xr unit))). Qed.
Lemma at0 D (es : list U) rho o : vals D es (set1 rho o (rho o)) = vals D es rho.
Proof. now rewrite set1_same. Qed.
Lemma kden_sz k (es : list U) D rho : okexpr la (EComp k tt es) ->
  length (kden k (map shape_of es) (vals D es rho)) = size (kshape k (map shape_of es)).
Proof. intros H. destruct (ok_shapes _ _ H). apply kden_len; auto. now apply vals_lens. Qed.

Lemma ip1 seed g : length seed = 1%nat -> ip seed [g] = el seed 0 * g.
Proof. intros H. unfold ip. rewrite H. cbn [sumn]. change (el [g] 0) with g. ring. Qed.

(** ** C17, C23 *)
Lemma d_un_eq f x : un_dom true f x -> un_d f x = d_un f x.
Proof.
  intros H. assert (X : forall r, r * r = r ^ 2) by (intros; ring).
  destruct f; cbn [un_d d_un un_dom] in *; rewrite ?X; try reflexivity.
  - assert (sqrt x <> 0) by (apply Rgt_not_eq, sqrt_lt_R0; exact H). field. auto.
  - do 2 f_equal. ring.
  - pose proof (exp_pos (- x)). field. lra.
Qed.
Lemma law_un f (y : U) D rho (n := size (shape_of y)) (x := el (val D (y : expr xr unit) rho)) :
  okexpr la (EComp (KUn f) tt [y]) -> dom D true false (y : expr xr unit) rho ->
  (forall i, (i < n)%nat -> un_dom true f (x i)) ->
  node_law la (KUn f) [y] D false rho (tab n (fun i => un_s f (x i)))
    (fun seed d => sumn n (fun i => el seed i * d_un f (x i) * el (nth 0 d []) i)).
Proof.
  intros HK HY HX. assert (EV : nth 0 (vals D [y] rho) [] = val D (y : expr xr unit) rho) by (unfold vals; now rewrite dens_cons).
  assert (EX : forall i, el (nth 0 (vals D [y] rho) []) i = x i) by (intros; now rewrite EV).
  apply law0; auto.
  - split; [exact HY|exact I].
  - cbn [kdom map nth nth_sh]. intros i Hi. rewrite EX. now apply HX.
  - cbn [kden map nth nth_sh]. apply tab_ext. intros i Hi. rewrite EX. reflexivity.
  - intros seed o dvs HL HO HFl. exists (tab n (fun i => d_un f (x i) * el (nth 0 dvs []) i)). split.
    + apply (der_tab n (fun t i => un_s f (el (nth 0 (vals D [y] (set1 rho o t)) []) i))). intros i Hi. rewrite <- d_un_eq by auto.
      apply (der_comp (un_s f) (fun t => el (nth 0 (vals D [y] (set1 rho o t)) []) i)); [|apply (HO 0%nat i)].
      rewrite at0, EX. now apply un_der, HX.
    + unfold ip. rewrite HL. cbn [kshape map nth nth_sh]. apply sumn_ext. intros i Hi. rewrite el_tab by exact Hi. ring.
Qed.
Lemma d_pow_eq z x : ((z < 0)%Z -> x <> 0) -> pow_d z x = d_pow z x.
Proof.
  intros H. unfold d_pow. destruct z as [|p|p]; cbn [pow_d].
  - ring.
  - rewrite IZR_pos. f_equal. destruct (Pos.to_nat p) as [|n] eqn:Q; [lia|]. cbn [pred].
    replace (Z.pos p - 1)%Z with (Z.of_nat n) by lia. apply pow_powerRZ.
  - specialize (H ltac:(lia)). change (Z.neg p) with (- Z.pos p)%Z at 1. rewrite opp_IZR, IZR_pos. f_equal.
    replace (Z.neg p - 1)%Z with (Z.neg (p + 1)) by lia. cbn [powerRZ]. do 2 f_equal. lia.
Qed.
Lemma law_pow z (y : U) D rho (n := size (shape_of y)) (x := el (val D (y : expr xr unit) rho)) :
  okexpr la (EComp (KPow z) tt [y]) -> dom D true false (y : expr xr unit) rho ->
  ((z < 0)%Z -> forall i, (i < n)%nat -> x i <> 0) ->
  node_law la (KPow z) [y] D false rho (tab n (fun i => powerRZ (x i) z))
    (fun seed d => sumn n (fun i => el seed i * d_pow z (x i) * el (nth 0 d []) i)).
Proof.
  intros HK HY HX. assert (EV : nth 0 (vals D [y] rho) [] = val D (y : expr xr unit) rho) by (unfold vals; now rewrite dens_cons).
  assert (EX : forall i, el (nth 0 (vals D [y] rho) []) i = x i) by (intros; now rewrite EV).
  apply law0; auto.
  - split; [exact HY|exact I].
  - cbn [kdom map nth nth_sh]. intros Hz i Hi. rewrite EX. now apply HX.
  - cbn [kden map nth nth_sh]. apply tab_ext. intros i Hi. rewrite EX. reflexivity.
  - intros seed o dvs HL HO HFl. exists (tab n (fun i => d_pow z (x i) * el (nth 0 dvs []) i)). split.
    + apply (der_tab n (fun t i => powerRZ (el (nth 0 (vals D [y] (set1 rho o t)) []) i) z)). intros i Hi. rewrite <- d_pow_eq by auto.
      apply (der_comp (fun r => powerRZ r z) (fun t => el (nth 0 (vals D [y] (set1 rho o t)) []) i)); [|apply (HO 0%nat i)].
      rewrite at0, EX. apply pow_der. auto.
    + unfold ip. rewrite HL. cbn [kshape map nth nth_sh]. apply sumn_ext. intros i Hi. rewrite el_tab by exact Hi. ring.
Qed.

(** ** C18 *)
Lemma d_bi_eq b x y : (b = BDiv -> y <> 0) -> bi_dx b x y = d_bi1 b x y /\ bi_dy b x y = d_bi2 b x y.
Proof. intros H. destruct b; cbn; split; auto. field. auto. Qed.
Lemma law_bin b (y z : U) D rho (n := size (kshape (KBin b) [shape_of y; shape_of z])) (vs := vals D [y; z] rho)
    (a := ent (shape_of y) (nth 0 vs [])) (c := ent (shape_of z) (nth 1 vs [])) :
  cmp b = false -> okexpr la (EComp (KBin b) tt [y; z]) -> odoms la D [y; z] rho ->
  (b = BDiv -> forall i, (i < n)%nat -> c i <> 0) ->
  node_law la (KBin b) [y; z] D false rho (tab n (fun i => bi_s b (a i) (c i)))
    (fun seed d => sumn n (fun i => el seed i * (d_bi1 b (a i) (c i) * ent (shape_of y) (nth 0 d []) i +
                                                  d_bi2 b (a i) (c i) * ent (shape_of z) (nth 1 d []) i))).
Proof.
  intros HC HK HY HX. apply law0; auto.
  - cbn [kdom map nth nth_sh]. intros i Hi. destruct b; try discriminate HC; try exact I. exact (HX eq_refl i Hi).
  - intros seed o dvs HL HO HFl.
    exists (tab n (fun i => d_bi1 b (a i) (c i) * ent (shape_of y) (nth 0 dvs []) i + d_bi2 b (a i) (c i) * ent (shape_of z) (nth 1 dvs []) i)). split.
    + apply (der_tab n (fun t i => bi_s b (ent (shape_of y) (nth 0 (vals D [y; z] (set1 rho o t)) []) i)
         (ent (shape_of z) (nth 1 (vals D [y; z] (set1 rho o t)) []) i))). intros i Hi.
      destruct (d_bi_eq b (a i) (c i)) as [<- <-]; [intros Q; now apply HX|].
      eapply der_eq; [apply (bi_der b (fun t => ent (shape_of y) (nth 0 (vals D [y; z] (set1 rho o t)) []) i)
        (fun t => ent (shape_of z) (nth 1 (vals D [y; z] (set1 rho o t)) []) i)); auto|].
      * intros Q. rewrite at0. now apply HX.
      * unfold ent. apply (HO 0%nat).
      * unfold ent. apply (HO 1%nat).
      * rewrite at0. reflexivity.
    + unfold ip. rewrite HL. cbn [map]. apply sumn_ext. intros i Hi. now rewrite el_tab by exact Hi.
Qed.

(** ** C20, C21 *)
Lemma law_sumE (y : U) D rho (n := size (shape_of y)) (x := el (val D (y : expr xr unit) rho)) :
  okexpr la (EComp KSumE tt [y]) -> dom D true false (y : expr xr unit) rho ->
  node_law la KSumE [y] D false rho [sumn n x] (fun seed d => el seed 0 * sumn n (el (nth 0 d []))).
Proof.
  intros HK HY. assert (EV : nth 0 (vals D [y] rho) [] = val D (y : expr xr unit) rho) by (unfold vals; now rewrite dens_cons).
  apply law0; auto.
  - split; [exact HY|exact I].
  - exact I.
  - cbn [kden map nth nth_sh]. now rewrite EV.
  - intros seed o dvs HL HO HFl. exists [sumn n (el (nth 0 dvs []))]. split.
    + apply der_one. apply (der_sumn n (fun i t => el (nth 0 (vals D [y] (set1 rho o t)) []) i)). intros i Hi. apply (HO 0%nat i).
    + symmetry. now apply ip1.
Qed.
Lemma law_norm (y : U) D rho (n := size (shape_of y)) (x := el (val D (y : expr xr unit) rho)) :
  okexpr la (EComp KNorm tt [y]) -> dom D true false (y : expr xr unit) rho ->
  node_law la KNorm [y] D false rho [sumn n (fun i => x i ^ 2)] (fun seed d => el seed 0 * sumn n (fun i => 2 * x i * el (nth 0 d []) i)).
Proof.
  intros HK HY. assert (EV : nth 0 (vals D [y] rho) [] = val D (y : expr xr unit) rho) by (unfold vals; now rewrite dens_cons).
  apply law0; auto.
  - split; [exact HY|exact I].
  - exact I.
  - cbn [kden map nth nth_sh]. now rewrite EV.
  - intros seed o dvs HL HO HFl. exists [sumn n (fun i => 2 * x i * el (nth 0 dvs []) i)]. split.
    + apply der_one. apply (der_sumn n (fun i t => el (nth 0 (vals D [y] (set1 rho o t)) []) i ^ 2)). intros i Hi.
      eapply der_eq; [apply (is_derive_pow (fun t => el (nth 0 (vals D [y] (set1 rho o t)) []) i) 2); apply (HO 0%nat i)|].
      cbv beta. rewrite at0, EV. fold (x i). cbn. ring.
    + symmetry. now apply ip1.
Qed.
Lemma der_butone n (f : nat -> R -> R) (t : R) f' : (forall i, (i < n)%nat -> is_derive (f i) t (f' i)) ->
  is_derive (fun s => prodn n (fun i => f i s)) t (sumn n (fun p => butone n p (fun i => f i t) * f' p)).
Proof.
  intros H. eapply der_eq; [apply (der_prodn n f t f'); exact H|]. apply sumn_ext. intros i Hi. unfold butone, prodx. ring.
Qed.
Lemma law_prodE (y : U) D rho (n := size (shape_of y)) (x := el (val D (y : expr xr unit) rho)) :
  okexpr la (EComp KProdE tt [y]) -> dom D true false (y : expr xr unit) rho ->
  node_law la KProdE [y] D false rho [prodn n x]
    (fun seed d => el seed 0 * sumn n (fun p => butone n p x * el (nth 0 d []) p)).
Proof.
  intros HK HY. assert (EV : nth 0 (vals D [y] rho) [] = val D (y : expr xr unit) rho) by (unfold vals; now rewrite dens_cons).
  apply law0; auto.
  - split; [exact HY|exact I].
  - exact I.
  - cbn [kden map nth nth_sh]. now rewrite EV.
  - intros seed o dvs HL HO HFl. exists [sumn n (fun p => butone n p x * el (nth 0 dvs []) p)]. split.
    + apply der_one. eapply der_eq; [apply (der_butone n (fun i t => el (nth 0 (vals D [y] (set1 rho o t)) []) i) (rho o) (el (nth 0 dvs [])));
        intros i Hi; apply (HO 0%nat i)|]. apply sumn_ext. intros p Hp. f_equal. unfold butone. apply prodn_ext. intros q Hq. cbv beta.
      rewrite at0, EV. reflexivity.
    + symmetry. now apply ip1.
Qed.
Lemma vals_length (es : list U) D rho : forallb wfs (es : list (expr xr unit)) = true -> length (vals D es rho) = length es.
Proof. intros H. pose proof (lensR_len _ _ (vals_lens es D rho H)) as Q. rewrite map_length in Q. exact Q. Qed.
Lemma law_sumI q (es : list U) D rho (n := size (kshape (KSumI q) (map shape_of es))) (x := fun p i => el (nth p (vals D es rho) []) i) :
  okexpr la (EComp (KSumI q) tt es) -> odoms la D es rho ->
  node_law la (KSumI q) es D false rho (tab n (fun i => sumn (length es) (fun p => x p i)))
    (fun seed d => sumn n (fun i => el seed i * sumn (length es) (fun p => el (nth p d []) i))).
Proof.
  intros HK HY. destruct (ok_shapes _ _ HK) as [_ HW]. apply law0; auto.
  - exact I.
  - cbn [kden]. pose proof (vals_length es D rho HW) as VL. change (carrier N) with xr in *. now rewrite VL.
  - intros seed o dvs HL HO HFl. exists (tab n (fun i => sumn (length es) (fun p => el (nth p dvs []) i))). split.
    + intros j. apply (der_ext (fun t => el (tab n (fun i => sumn (length es) (fun p => el (nth p (vals D es (set1 rho o t)) []) i))) j)).
      { intros t. cbn [kden]. pose proof (vals_length es D (set1 rho o t) HW) as VL. change (carrier N) with xr in *. now rewrite VL. }
      apply (der_tab n (fun t i => sumn (length es) (fun p => el (nth p (vals D es (set1 rho o t)) []) i))). intros i Hi. apply (der_sumn (length es) (fun p t => el (nth p (vals D es (set1 rho o t)) []) i)). intros p Hp. apply HO.
    + unfold ip. rewrite HL. apply sumn_ext. intros i Hi. now rewrite el_tab by exact Hi.
Qed.
Lemma law_prodI q (es : list U) D rho (n := size (kshape (KProdI q) (map shape_of es))) (x := fun p i => el (nth p (vals D es rho) []) i) :
  okexpr la (EComp (KProdI q) tt es) -> odoms la D es rho ->
  node_law la (KProdI q) es D false rho (tab n (fun i => prodn (length es) (fun p => x p i)))
    (fun seed d => sumn n (fun i => el seed i * sumn (length es) (fun p => butone (length es) p (fun r => x r i) * el (nth p d []) i))).
Proof.
  intros HK HY. destruct (ok_shapes _ _ HK) as [_ HW]. apply law0; auto.
  - exact I.
  - cbn [kden]. pose proof (vals_length es D rho HW) as VL. change (carrier N) with xr in *. now rewrite VL.
  - intros seed o dvs HL HO HFl. exists (tab n (fun i => sumn (length es) (fun p => butone (length es) p (fun r => x r i) * el (nth p dvs []) i))). split.
    + intros j. apply (der_ext (fun t => el (tab n (fun i => prodn (length es) (fun p => el (nth p (vals D es (set1 rho o t)) []) i))) j)).
      { intros t. cbn [kden]. pose proof (vals_length es D (set1 rho o t) HW) as VL. change (carrier N) with xr in *. now rewrite VL. }
      apply (der_tab n (fun t i => prodn (length es) (fun p => el (nth p (vals D es (set1 rho o t)) []) i))). intros i Hi. eapply der_eq; [apply (der_butone (length es) (fun p t => el (nth p (vals D es (set1 rho o t)) []) i) (rho o)
        (fun p => el (nth p dvs []) i)); intros p Hp; apply HO|].
      apply sumn_ext. intros p Hp. f_equal. unfold butone. apply prodn_ext. intros r Hr. cbv beta. now rewrite at0.
    + unfold ip. rewrite HL. apply sumn_ext. intros i Hi. now rewrite el_tab by exact Hi.
Qed.

(** ** C24 *)
Lemma law_trans (y : U) D rho (r := rows (shape_of y)) (c := cols (shape_of y)) (x := m_of r (val D (y : expr xr unit) rho)) :
  okexpr la (EComp KTrans tt [y]) -> dom D true false (y : expr xr unit) rho ->
  node_law la KTrans [y] D false rho (mkm c r (fun i j => x j i))
    (fun seed d => sumn r (fun i => sumn c (fun j => m_of c seed j i * m_of r (nth 0 d []) i j))).
Proof.
  intros HK HY. assert (EV : nth 0 (vals D [y] rho) [] = val D (y : expr xr unit) rho) by (unfold vals; now rewrite dens_cons).
  apply law0; auto.
  - split; [exact HY|exact I].
  - exact I.
  - cbn [kden map nth nth_sh]. now rewrite EV.
  - intros seed o dvs HL HO HFl. exists (mkm c r (fun i j => m_of r (nth 0 dvs []) j i)). split.
    + apply (der_mkm c r (fun t i j => m_of r (nth 0 (vals D [y] (set1 rho o t)) []) j i)). intros i j Hi Hj. apply (HO 0%nat).
    + symmetry. apply (ip_mkm c r seed _ (fun i j => m_of r (nth 0 dvs []) j i)); [exact HL|].
      intros i j Hi Hj. unfold el. now rewrite mkm_nth.
Qed.
Lemma law_dot (y z : U) D rho (r := rows (shape_of y)) (k := cols (shape_of y)) (c := cols (shape_of z)) (vs := vals D [y; z] rho)
    (A := m_of r (nth 0 vs [])) (B := m_of k (nth 1 vs [])) :
  okexpr la (EComp KDot tt [y; z]) -> odoms la D [y; z] rho ->
  node_law la KDot [y; z] D false rho (mkm r c (fun i j => sumn k (fun p => A i p * B p j)))
    (fun seed d => sumn c (fun j => sumn r (fun i => m_of r seed i j *
       sumn k (fun p => m_of r (nth 0 d []) i p * B p j + A i p * m_of k (nth 1 d []) p j)))).
Proof.
  intros HK HY. apply law0; auto.
  - exact I.
  - intros seed o dvs HL HO HFl.
    exists (mkm r c (fun i j => sumn k (fun p => m_of r (nth 0 dvs []) i p * B p j + A i p * m_of k (nth 1 dvs []) p j))). split.
    + apply (der_mkm r c (fun t i j => sumn k (fun p => m_of r (nth 0 (vals D [y; z] (set1 rho o t)) []) i p *
        m_of k (nth 1 (vals D [y; z] (set1 rho o t)) []) p j))). intros i j Hi Hj.
      apply (der_sumn k (fun p t => m_of r (nth 0 (vals D [y; z] (set1 rho o t)) []) i p * m_of k (nth 1 (vals D [y; z] (set1 rho o t)) []) p j)).
      intros p Hp. eapply der_eq; [apply (der_mult (fun t => m_of r (nth 0 (vals D [y; z] (set1 rho o t)) []) i p)
        (fun t => m_of k (nth 1 (vals D [y; z] (set1 rho o t)) []) p j)); [apply (HO 0%nat)|apply (HO 1%nat)]|].
      cbv beta. rewrite at0. reflexivity.
    + symmetry. apply (ip_mkm r c seed _ (fun i j => sumn k (fun p => m_of r (nth 0 dvs []) i p * B p j + A i p * m_of k (nth 1 dvs []) p j))); [exact HL|].
      intros i j Hi Hj. unfold el. now rewrite mkm_nth.
Qed.

(** ** C25 *)
Lemma op_derm D (es : list U) rho o dvs p n : opartials D es rho o dvs ->
  derm n (fun t => m_of n (nth p (vals D es (set1 rho o t)) [])) (rho o) (m_of n (nth p dvs [])).
Proof. intros H i j _ _. unfold m_of. apply H. Qed.
Lemma law_det f (y : U) D rho (n := rows (shape_of y)) (A := m_of n (val D (y : expr xr unit) rho)) :
  okexpr la (EComp (KDet f) tt [y]) -> dom D true false (y : expr xr unit) rho -> fdom f n A ->
  node_law la (KDet f) [y] D false rho [det n A]
    (fun seed d => el seed 0 * sumn n (fun i => sumn n (fun j => cofac n A i j * m_of n (nth 0 d []) i j))).
Proof.
  intros HK HY HX. assert (EV : nth 0 (vals D [y] rho) [] = val D (y : expr xr unit) rho) by (unfold vals; now rewrite dens_cons).
  apply law0; auto.
  - split; [exact HY|exact I].
  - cbn [kdom map nth nth_sh]. rewrite EV. fold n A. destruct f; exact HX.
  - cbn [kden map nth nth_sh]. now rewrite EV.
  - intros seed o dvs HL HO HFl. exists [sumn n (fun i => sumn n (fun j => cofac n A i j * m_of n (nth 0 dvs []) i j))]. split.
    + apply der_one. eapply der_eq; [apply (der_det n (fun t => m_of n (nth 0 (vals D [y] (set1 rho o t)) [])) (rho o) (m_of n (nth 0 dvs []))); now apply op_derm|].
      cbv beta. rewrite at0, EV. fold A. apply sumn_ext. intros i Hi. apply sumn_ext. intros j Hj. unfold cofac, cof. ring.
    + symmetry. now apply ip1.
Qed.
Lemma law_logdet f (y : U) D rho (n := rows (shape_of y)) (A := m_of n (val D (y : expr xr unit) rho)) :
  okexpr la (EComp (KLogDet f) tt [y]) -> dom D true false (y : expr xr unit) rho -> fdom f n A ->
  node_law la (KLogDet f) [y] D false rho [ln (Rabs (det n A))]
    (fun seed d => el seed 0 * sumn n (fun i => sumn n (fun j => minv n A j i * m_of n (nth 0 d []) i j))).
Proof.
  intros HK HY HX. assert (EV : nth 0 (vals D [y] rho) [] = val D (y : expr xr unit) rho) by (unfold vals; now rewrite dens_cons).
  pose proof (fdom_det _ _ _ HX) as NZ.
  apply law0; auto.
  - split; [exact HY|exact I].
  - cbn [kdom map nth nth_sh]. rewrite EV. fold n A. destruct f; exact HX.
  - cbn [kden map nth nth_sh]. now rewrite EV.
  - intros seed o dvs HL HO HFl. exists [sumn n (fun i => sumn n (fun j => minv n A j i * m_of n (nth 0 dvs []) i j))]. split.
    + apply der_one. eapply der_eq; [apply (der_lndet n (fun t => m_of n (nth 0 (vals D [y] (set1 rho o t)) [])) (rho o) (m_of n (nth 0 dvs [])));
        [now apply op_derm|cbv beta; rewrite at0, EV; exact NZ]|].
      cbv beta. rewrite at0, EV. fold A. apply sumn_ext. intros i Hi. apply sumn_ext. intros j Hj. ring.
    + symmetry. now apply ip1.
Qed.

(** ** Log-densities *)
Lemma law_ew q (es : list U) D b rho (ss := map shape_of es) (vs := vals D es rho)
    (x := ent (nth_sh ss 0) (nth 0 vs [])) (y := ent (nth_sh ss 1) (nth 1 vs [])) (z := ent (nth_sh ss 2) (nth 2 vs [])) :
  elementwise q = true -> okexpr la (EComp (KStat q) tt es) -> dom D true b (EComp (KStat q) tt es : expr xr unit) rho ->
  node_law la (KStat q) es D b rho [sumn (rows (nth_sh ss 0)) (fun j => sp1 q (x j) (y j) (z j))]
    (fun seed d => el seed 0 * sumn (rows (nth_sh ss 0)) (fun j =>
       spd q 0 (x j) (y j) (z j) * ent (nth_sh ss 0) (nth 0 d []) j + spd q 1 (x j) (y j) (z j) * ent (nth_sh ss 1) (nth 1 d []) j +
       spd q 2 (x j) (y j) (z j) * (if (arity q =? 2)%nat then 0 else ent (nth_sh ss 2) (nth 2 d []) j))).
Proof.
  intros HQ HK HD. destruct (ok_shapes _ _ HK) as [HS HW]. unfold kshape_ok in HS. apply andb_true_iff in HS. destruct HS as [HS1 HS2].
  assert (HD' := HD). rewrite dom_comp in HD'. destruct HD' as [_ HD2]. cbn [kdom] in HD2.
  apply law; auto.
  - cbn [kden]. rewrite sden_sp1 by exact HQ. reflexivity.
  - intros seed o dvs HL HO HFl. eexists. split; [|symmetry; apply ip1; exact HL].
    intros j. apply (der_ext (fun t => el [sumn (rows (nth_sh ss 0)) (fun j => sp1 q (ent (nth_sh ss 0) (nth 0 (vals D es (set1 rho o t)) []) j)
      (ent (nth_sh ss 1) (nth 1 (vals D es (set1 rho o t)) []) j) (ent (nth_sh ss 2) (nth 2 (vals D es (set1 rho o t)) []) j))] j)).
    { intros t. cbn [kden]. now rewrite sden_sp1 by exact HQ. }
    revert j. apply (der_one (fun t => sumn (rows (nth_sh ss 0)) (fun j => sp1 q (ent (nth_sh ss 0) (nth 0 (vals D es (set1 rho o t)) []) j)
      (ent (nth_sh ss 1) (nth 1 (vals D es (set1 rho o t)) []) j) (ent (nth_sh ss 2) (nth 2 (vals D es (set1 rho o t)) []) j)))).
    apply (der_sumn (rows (nth_sh ss 0)) (fun j t => sp1 q (ent (nth_sh ss 0) (nth 0 (vals D es (set1 rho o t)) []) j)
      (ent (nth_sh ss 1) (nth 1 (vals D es (set1 rho o t)) []) j) (ent (nth_sh ss 2) (nth 2 (vals D es (set1 rho o t)) []) j))).
    intros j Hj. eapply der_eq; [apply (sp_der q (fun t => ent (nth_sh ss 0) (nth 0 (vals D es (set1 rho o t)) []) j)
      (fun t => ent (nth_sh ss 1) (nth 1 (vals D es (set1 rho o t)) []) j) (fun t => ent (nth_sh ss 2) (nth 2 (vals D es (set1 rho o t)) []) j) (rho o)
      (ent (nth_sh ss 0) (nth 0 dvs []) j) (ent (nth_sh ss 1) (nth 1 dvs []) j) (ent (nth_sh ss 2) (nth 2 dvs []) j) HQ)|].
    + rewrite at0. eapply sdom_sok; eauto.
    + unfold ent. apply HO.
    + unfold ent. apply HO.
    + unfold ent. apply HO.
    + cbv beta. rewrite at0. fold vs. fold (x j) (y j) (z j). destruct q; try discriminate HQ; cbn [arity sumn Nat.eqb]; ring.
Qed.
Lemma law_mvn q (es : list U) D rho (ss := map shape_of es) (vs := vals D es rho) (n := rows (nth_sh ss 0))
    (d := fun i => ent (nth_sh ss 0) (nth 0 vs []) i - ent (nth_sh ss 1) (nth 1 vs []) i) (S := m_of n (nth 2 vs []))
    (B := minv n S) (w := fun i => sumn n (fun p => B i p * d p)) :
  q = NormVSM \/ q = NormVVM -> okexpr la (EComp (KStat q) tt es) -> odoms la D es rho -> posdef n S ->
  node_law la (KStat q) es D false rho [- (1 / 2) * quad n B d d - 1 / 2 * ln (det n S)]
    (fun seed dv => el seed 0 * (sumn n (fun i => - w i * (ent (nth_sh ss 0) (nth 0 dv []) i - ent (nth_sh ss 1) (nth 1 dv []) i)) +
       sumn n (fun i => sumn n (fun j => - (1 / 2) * (B i j - w i * w j) * m_of n (nth 2 dv []) i j)))).
Proof.
  intros HQ HK HO HP. apply law0; auto.
  - destruct HQ as [-> | ->]; exact HP.
  - destruct HQ as [-> | ->]; reflexivity.
  - intros seed o dvs HL HOp HFl. eexists. split; [|symmetry; apply ip1; exact HL].
    pose (d' := fun i => ent (nth_sh ss 0) (nth 0 dvs []) i - ent (nth_sh ss 1) (nth 1 dvs []) i).
    intros j. apply (der_ext (fun t => el [- (1 / 2) * quad n (minv n (m_of n (nth 2 (vals D es (set1 rho o t)) [])))
        (fun i => ent (nth_sh ss 0) (nth 0 (vals D es (set1 rho o t)) []) i - ent (nth_sh ss 1) (nth 1 (vals D es (set1 rho o t)) []) i)
        (fun i => ent (nth_sh ss 0) (nth 0 (vals D es (set1 rho o t)) []) i - ent (nth_sh ss 1) (nth 1 (vals D es (set1 rho o t)) []) i)
        - 1 / 2 * ln (det n (m_of n (nth 2 (vals D es (set1 rho o t)) [])))] j)).
    { intros t. destruct HQ as [-> | ->]; reflexivity. }
    revert j. apply der_one. eapply der_eq; [apply (der_mvn n (fun t => m_of n (nth 2 (vals D es (set1 rho o t)) []))
      (fun t i => ent (nth_sh ss 0) (nth 0 (vals D es (set1 rho o t)) []) i - ent (nth_sh ss 1) (nth 1 (vals D es (set1 rho o t)) []) i)
      (rho o) (m_of n (nth 2 dvs [])) d')|].
    + now apply op_derm.
    + intros i Hi. unfold d'. apply (der_minus (fun t => ent (nth_sh ss 0) (nth 0 (vals D es (set1 rho o t)) []) i)); unfold ent; apply HOp.
    + cbv beta. rewrite at0. exact HP.
    + cbv beta. rewrite at0. reflexivity.
Qed.
Lemma law_wish (es : list U) D rho (ss := map shape_of es) (vs := vals D es rho) (n := rows (nth_sh ss 0))
    (X := m_of n (nth 0 vs [])) (V := m_of n (nth 1 vs [])) (nu := el (nth 2 vs []) 0) (B := minv n X) (W := minv n V) :
  okexpr la (EComp (KStat Wish) tt es) -> odoms la D es rho -> posdef n X -> posdef n V -> INR n - 1 < nu ->
  (nth 0 (map is_const (es : list (expr xr unit))) false = true -> nth 1 (map is_const (es : list (expr xr unit))) false = true) ->
  nth 2 (map flat (es : list (expr xr unit))) false = true ->
  node_law la (KStat Wish) es D false rho
    [(nu - INR n - 1) / 2 * ln (det n X) - 1 / 2 * sumn n (fun i => sumn n (fun j => X i j * W j i)) - nu / 2 * ln (det n V)]
    (fun seed dv => el seed 0 * (sumn n (fun i => sumn n (fun j => 1 / 2 * ((nu - INR n - 1) * B i j - W i j) * m_of n (nth 0 dv []) i j)) +
       sumn n (fun i => sumn n (fun j => 1 / 2 * (sumn n (fun p => W i p * sumn n (fun q => X p q * W q j)) - nu * W i j) * m_of n (nth 1 dv []) i j)))).
Proof.
  intros HK HO PX PV HN HC HF2. apply law0; auto.
  - cbn [kdom sdom]. repeat (match goal with |- _ /\ _ => split end); auto.
  - intros seed o dvs HL HOp HFl. eexists. split; [|symmetry; apply ip1; exact HL].
    apply (der_one (fun t => (el (nth 2 (vals D es (set1 rho o t)) []) 0 - INR n - 1) / 2 * ln (det n (m_of n (nth 0 (vals D es (set1 rho o t)) [])))
      - 1 / 2 * sumn n (fun i => sumn n (fun j => m_of n (nth 0 (vals D es (set1 rho o t)) []) i j * minv n (m_of n (nth 1 (vals D es (set1 rho o t)) [])) j i))
      - el (nth 2 (vals D es (set1 rho o t)) []) 0 / 2 * ln (det n (m_of n (nth 1 (vals D es (set1 rho o t)) []))))).
    eapply der_eq; [apply (der_wish n (fun t => m_of n (nth 0 (vals D es (set1 rho o t)) [])) (fun t => m_of n (nth 1 (vals D es (set1 rho o t)) []))
      (fun t => el (nth 2 (vals D es (set1 rho o t)) []) 0) (rho o) (m_of n (nth 0 dvs [])) (m_of n (nth 1 dvs [])) (el (nth 2 dvs []) 0))|].
    + now apply op_derm.
    + now apply op_derm.
    + apply HOp.
    + cbv beta. rewrite at0. exact PX.
    + cbv beta. rewrite at0. exact PV.
    + cbv beta. rewrite at0, (HFl 2%nat HF2). fold vs X V nu B W. ring.
Qed.

Lemma odom_stat q (es : list U) D b rho : odoms la D es rho ->
  sdom true b q (map is_const (es : list (expr xr unit))) (map flat (es : list (expr xr unit))) (map shape_of es) (vals D es rho) ->
  dom D true b (EComp (KStat q) tt es : expr xr unit) rho.
Proof. intros HO HD. rewrite dom_comp. split; [|exact HD]. apply odoms_doms; auto. intros j. apply andb_false_r. Qed.
Lemma law_fam q (es : list U) D b rho f fx fy fz (x := opent D (es : list (expr xr unit)) rho 0) (y := opent D (es : list (expr xr unit)) rho 1)
    (z := opent D (es : list (expr xr unit)) rho 2) (de := dent (es : list (expr xr unit))) (n := opdim (es : list (expr xr unit))) :
  elementwise q = true -> okexpr la (EComp (KStat q) tt es) -> odoms la D es rho ->
  sdom true b q (map is_const (es : list (expr xr unit))) (map flat (es : list (expr xr unit))) (map shape_of es) (vals D es rho) ->
  (forall x y z, sp1 q x y z = f x y z) ->
  (forall x y z, sok q x y z -> spd q 0 x y z = fx x y z /\ spd q 1 x y z = fy x y z /\ (if (arity q =? 2)%nat then 0 else spd q 2 x y z) = fz x y z) ->
  node_law la (KStat q) es D b rho [sumn n (fun j => f (x j) (y j) (z j))]
    (fun seed d => el seed 0 * sumn n (fun j => fx (x j) (y j) (z j) * de d 0%nat j + fy (x j) (y j) (z j) * de d 1%nat j +
                                            fz (x j) (y j) (z j) * de d 2%nat j)).
Proof.
  intros EW HK HO HD Hf Hd.
  pose proof (law_ew q es D b rho EW HK (odom_stat q es D b rho HO HD)) as L. cbv zeta in L.
  destruct (ok_shapes _ _ HK) as [HS HW]. unfold kshape_ok in HS. apply andb_true_iff in HS. destruct HS as [HS1 HS2].
  intros bv ba e1 m1 al seed S M Le On Z. destruct (L bv ba e1 m1 al seed S M Le On Z) as [e2 [m2 [A1 A2]]].
  exists e2, m2. split.
  - rewrite A1. do 4 f_equal. apply sumn_ext. intros j Hj. apply Hf.
  - intros o Ho Hn. destruct (A2 o Ho Hn) as [dvs [B1 B2]]. exists dvs. split; [exact B1|]. rewrite B2. do 4 f_equal.
    apply sumn_ext. intros j Hj. destruct (Hd (x j) (y j) (z j)) as [E1 [E2 E3]].
    { exact (sdom_sok true b q _ _ _ _ EW HS1 HS2 HD j Hj). }
    rewrite <- E1, <- E2, <- E3. unfold de, dent, x, y, z, opent. change (carrier N) with xr. destruct (arity q =? 2)%nat; ring.
Qed.
Ltac fam H := cbn in H; repeat (destruct H as [H|H]; [subst; cbn|]); try contradiction.
(** The constructor took the mean of a constant x. *)
Lemma mean_ne bv ba (es : list U) D e1 m1 : okexpr la (EComp (KStat NormVSS) tt es) -> session la bv ba (EComp (KStat NormVSS) tt es) D e1 m1 ->
  opconst (es : list (expr xr unit)) 0 = true -> opdim (es : list (expr xr unit)) <> 0%nat.
Proof.
  intros [HK _] [m [uv [ua [e [m0 [ops [_ [HA [HB _]]]]]]]]] HC H0.
  unfold bound in HB. apply bindR_ok in HB. destruct HB as [e0 [HM _]].
  destruct (mk_inv LL _ _ _ HM) as [HE _]. cbn [mk] in HM. apply bindR_ok in HM. destruct HM as [es' [_ H2]].
  destruct (kassert _ _); [|discriminate H2]. apply bindR_ok in H2. destruct H2 as [s [H3 H4]]. injection H4 as <-.
  unfold er in HE. cbn [amap] in HE. injection HE as HE. subst es.
  cbn [wfs] in HK. rewrite !andb_true_iff in HK. assert (KS := proj2 (proj1 (proj1 HK))).
  rewrite map_map in KS. rewrite (map_ext (fun x => shape_of (amap (fun _ => tt) x)) shape_of) in KS by (intros ?; apply shape_of_amap).
  unfold kshape_ok in KS. apply andb_true_iff in KS. destruct KS as [_ KS].
  destruct es' as [|x [|y [|z [|]]]]; try discriminate KS.
  assert (W : wfs (er x) = true) by (destruct HK as [[[W _] _] _]; cbn [map forallb] in W; apply andb_true_iff in W; exact (proj1 W)).
  unfold stat_shape_ok, nth_sh in KS. cbn [map nth] in KS. rewrite !andb_true_iff in KS. destruct KS as [[V _] _].
  unfold opconst in HC. cbn [map nth] in HC. unfold opdim, nth_sh in H0. cbn [map nth] in H0.
  destruct (getref_leaf (er x) x m eq_refl) as [l [R1 R2]].
  - apply is_const_leaf. exact HC.
  - destruct HA as [A1 A2]. cbn [refs drefs flat_map map] in A1, A2. split; intros o Ho; [apply A1|apply A2]; apply in_or_app; left; exact Ho.
  - specialize (R2 W). apply shape_eqb_eq in V. unfold er in R2, H0. rewrite shape_of_amap in R2, H0. change (carrier N) with xr in *.
    rewrite V, H0 in R2. unfold size in R2. cbn in R2. destruct l; [|discriminate R2].
    cbn [stat_init map nth] in H3. unfold cst in H3. cbn [nth] in H3. apply bindR_ok in H3. destruct H3 as [st0 [_ H3]].
    match type of H3 with (if ?c then _ else _) = _ => replace c with true in H3 by (symmetry; destruct x; exact HC) end.
    rewrite R1 in H3. cbn [bindR meanco] in H3. discriminate H3.
Qed.
Lemma law_normal q (es : list U) D rho (x := opent D (es : list (expr xr unit)) rho 0) (m := opent D (es : list (expr xr unit)) rho 1)
    (s := opent D (es : list (expr xr unit)) rho 2) (de := dent (es : list (expr xr unit))) (n := opdim (es : list (expr xr unit))) :
  In q fam_norm -> okexpr la (EComp (KStat q) tt es) -> odoms la D es rho ->
  opall D (es : list (expr xr unit)) rho 2 (fun r => 0 < r) ->
  node_law la (KStat q) es D false rho [sumn n (fun j => norm1 (x j) (m j) (s j))]
    (fun seed d => el seed 0 * sumn n (fun j => nrm_dx (x j) (m j) (s j) * de d 0%nat j + nrm_dm (x j) (m j) (s j) * de d 1%nat j +
                                            nrm_ds (x j) (m j) (s j) * de d 2%nat j)).
Proof.
  intros HQ HK HO HP bv ba e1 m1 al seed S.
  assert (HC : q = NormVSS -> opconst (es : list (expr xr unit)) 0 = true -> n <> 0%nat).
  { intros ->. exact (mean_ne bv ba es D e1 m1 HK S). }
  revert bv ba e1 m1 al seed S. 
  apply law_fam; auto.
  - fam HQ; reflexivity.
  - fam HQ; try exact HP. split; [exact HP|exact (HC eq_refl)].
  - fam HQ; reflexivity.
  - unfold nrm_dx, nrm_dm, nrm_ds. fam HQ; intros u v w W; repeat split; field; lra.
Qed.
Lemma law_cauchy q b (es : list U) D rho (x := opent D (es : list (expr xr unit)) rho 0) (m := opent D (es : list (expr xr unit)) rho 1)
    (g := opent D (es : list (expr xr unit)) rho 2) (de := dent (es : list (expr xr unit))) (n := opdim (es : list (expr xr unit))) :
  In q fam_cau -> okexpr la (EComp (KStat q) tt es) -> odoms la D es rho ->
  opall D (es : list (expr xr unit)) rho 2 (fun r => 0 < r) ->
  (b = true \/ q = CauSSS \/ (opconst (es : list (expr xr unit)) 1 = true /\ opconst (es : list (expr xr unit)) 2 = true)) ->
  node_law la (KStat q) es D b rho [sumn n (fun j => cau1 (x j) (m j) (g j))]
    (fun seed d => el seed 0 * sumn n (fun j => cau_dx (x j) (m j) (g j) * de d 0%nat j + cau_dm (x j) (m j) (g j) * de d 1%nat j +
                                            cau_dg (x j) (m j) (g j) * de d 2%nat j)).
Proof.
  intros HQ HK HO HP HC. apply law_fam; auto.
  - fam HQ; reflexivity.
  - fam HQ; try exact HP; (split; [exact HP|intros _; destruct HC as [H|[H|H]]; [left; exact H|discriminate H|right; exact H]]).
  - fam HQ; reflexivity.
  - unfold cau_dx, cau_dm, cau_dg. fam HQ; intros u v w W; assert (0 < w * w) by nra; pose proof (Rle_0_sqr (u - v)) as SQ; unfold Rsqr in SQ;
      repeat split; field; repeat split; nra.
Qed.
Lemma law_uniform q (es : list U) D rho (x := opent D (es : list (expr xr unit)) rho 0) (a := opent D (es : list (expr xr unit)) rho 1)
    (b := opent D (es : list (expr xr unit)) rho 2) (de := dent (es : list (expr xr unit))) (n := opdim (es : list (expr xr unit))) :
  In q fam_uni -> okexpr la (EComp (KStat q) tt es) -> odoms la D es rho ->
  (forall j, (j < n)%nat -> a j < x j < b j) ->
  (q = UniVSV -> opconst (es : list (expr xr unit)) 0 = true -> opconst (es : list (expr xr unit)) 2 = true) ->
  (q = UniVVS -> opconst (es : list (expr xr unit)) 0 = true -> opconst (es : list (expr xr unit)) 1 = true) ->
  node_law la (KStat q) es D false rho [sumn n (fun j => - ln (b j - a j))]
    (fun seed d => el seed 0 * sumn n (fun j => uni_da (x j) (a j) (b j) * de d 1%nat j + uni_db (x j) (a j) (b j) * de d 2%nat j)).
Proof.
  intros HQ HK HO HP H1 H2.
  assert (L : node_law la (KStat q) es D false rho [sumn n (fun j => uni1 (x j) (a j) (b j))]
    (fun seed d => el seed 0 * sumn n (fun j => (fun _ _ _ => 0) (x j) (a j) (b j) * de d 0%nat j + uni_da (x j) (a j) (b j) * de d 1%nat j + uni_db (x j) (a j) (b j) * de d 2%nat j))).
  { apply (law_fam q es D false rho uni1 (fun _ _ _ => 0) uni_da uni_db); auto.
    - fam HQ; reflexivity.
    - fam HQ; try exact HP; (split; [exact HP|]); [exact (H1 eq_refl)|exact (H2 eq_refl)].
    - fam HQ; reflexivity.
    - unfold uni_da, uni_db. fam HQ; intros u v w W; repeat split; field; lra. }
  intros bv ba e1 m1 al seed S M Le On Z. destruct (L bv ba e1 m1 al seed S M Le On Z) as [e2 [m2 [A1 A2]]].
  exists e2, m2. split; [exact A1|]. intros o Ho Hn. destruct (A2 o Ho Hn) as [dvs [B1 B2]]. exists dvs. split; [exact B1|]. rewrite B2. do 4 f_equal.
  apply sumn_ext. intros j Hj. ring.
Qed.
Lemma law_bernoulli q (es : list U) D rho (x := opent D (es : list (expr xr unit)) rho 0) (p := opent D (es : list (expr xr unit)) rho 1)
    (de := dent (es : list (expr xr unit))) (n := opdim (es : list (expr xr unit))) :
  In q fam_ber -> okexpr la (EComp (KStat q) tt es) -> odoms la D es rho ->
  opall D (es : list (expr xr unit)) rho 1 (fun r => 0 < r < 1) -> (forall j, (j < n)%nat -> x j = 0 \/ x j = 1) ->
  opflat (es : list (expr xr unit)) 0 = true ->
  node_law la (KStat q) es D false rho [sumn n (fun j => x j * ln (p j) + (1 - x j) * ln (1 - p j))]
    (fun seed d => el seed 0 * sumn n (fun j => ber_dp (x j) (p j) * de d 1%nat j)).
Proof.
  intros HQ HK HO HP HX HF.
  assert (EW : elementwise q = true) by (fam HQ; reflexivity).
  assert (HD : sdom true false q (map is_const (es : list (expr xr unit))) (map flat (es : list (expr xr unit))) (map shape_of es) (vals D es rho)).
  { fam HQ; (split; [exact HP|split; [exact HX|intros _; exact HF]]). }
  destruct (ok_shapes _ _ HK) as [HS HW]. unfold kshape_ok in HS. apply andb_true_iff in HS. destruct HS as [HS1 HS2].
  apply law; auto.
  - now apply odom_stat.
  - cbn [kden]. rewrite sden_sp1 by exact EW. f_equal. apply sumn_ext. intros j Hj. fam HQ; reflexivity.
  - intros seed o dvs HL HOp HFl. pose (z := fun r => ent (nth_sh (map shape_of es) 0) (nth 0 (vals D es r) [])).
    eexists. split; [|symmetry; apply ip1; exact HL]. intros j.
    apply (der_ext (fun t => el [sumn n (fun j => sp1 q (opent D (es : list (expr xr unit)) (set1 rho o t) 0 j)
      (opent D (es : list (expr xr unit)) (set1 rho o t) 1 j) 0)] j)).
    { intros t. cbn [kden]. rewrite sden_sp1 by exact EW. do 2 f_equal. apply sumn_ext. intros i Hi. fam HQ; reflexivity. }
    revert j. apply (der_one (fun t => sumn n (fun j => sp1 q (opent D (es : list (expr xr unit)) (set1 rho o t) 0 j)
      (opent D (es : list (expr xr unit)) (set1 rho o t) 1 j) 0))).
    apply (der_sumn n (fun j t => sp1 q (opent D (es : list (expr xr unit)) (set1 rho o t) 0 j)
      (opent D (es : list (expr xr unit)) (set1 rho o t) 1 j) 0)).
    intros j Hj. eapply der_eq; [apply (sp_der q (fun t => opent D (es : list (expr xr unit)) (set1 rho o t) 0 j)
      (fun t => opent D (es : list (expr xr unit)) (set1 rho o t) 1 j) (fun _ => 0) (rho o) (de dvs 0%nat j) (de dvs 1%nat j) 0 EW)|].
    + cbv beta. rewrite set1_same. pose proof (sdom_sok true false q _ _ _ _ EW HS1 HS2 HD j Hj) as X. fam HQ; exact X.
    + unfold opent, de, dent, ent. apply HOp.
    + unfold opent, de, dent, ent. apply HOp.
    + exact (der_const 0 (rho o)).
    + cbv beta. rewrite set1_same. assert (E0 : de dvs 0%nat j = 0) by (unfold de, dent, ent; now apply HFl).
      unfold ber_dp. fam HQ; fold (x j) (p j); rewrite E0; unfold Rdiv; ring.
Qed.
End LN.

(** Concrete sessions, for examples. *)
Definition live (u : expr (XR exact_la) unit) (rho : nat -> R) : Prop :=
  la_ok exact_la /\ okexpr exact_la u /\
  exists e1 m1, session exact_la 2 3 u (fun _ => 0) e1 m1 /\ mreal exact_la u m1 (fun _ => 0) rho (fun _ => 0).
Lemma live_ok u rho : okexpr exact_la u -> ctor_ok (u : expr (XR exact_la) unit) = true -> live u rho.
Proof.
  intros H1 H2. split; [exact exact_la_ok|]. split; [exact H1|].
  destruct (session_start exact_la exact_la_ok 2 3 u (fun _ => 0) rho (fun _ => 0)) as [e1 [m1 [A B]]]; auto.
  - cbv; intuition discriminate.
  - eauto.
Qed.
