(** Log-densities that are sums over the elements. *)
From Coq Require Import Reals Lra Psatz.
From Coquelicot Require Import Coquelicot.
From Verif Require Import Base Num Expr Node Stat Machine Wf Pure LBase LKind LState XR Spec LReal LScal LKA.
Open Scope R_scope.
Set Bullet Behavior "Strict Subproofs".

Definition elementwise (q : stat) : bool :=
  match q with NormVSM | NormVVM | Wish => false | _ => true end.
Definition sp1 (q : stat) (x y z : R) : R :=
  match q with
  | NormSSS | NormVSS | NormVVS | NormVSV | NormVVV => norm1 x y z
  | CauSSS | CauVSS | CauVSV | CauVVS | CauVVV => cau1 x y z
  | UniSSS | UniVSS | UniVSV | UniVVS | UniVVV => uni1 x y z
  | _ => ber1 x y
  end.
(** Partial derivatives. *)
Definition spd (q : stat) (i : nat) (x y z : R) : R :=
  match q with
  | NormSSS | NormVSS | NormVVS | NormVSV | NormVVV =>
      match i with O => (y - x) / (z * z) | 1%nat => (x - y) / (z * z) | _ => (((x - y) / z) ^ 2 - 1) / z end
  | CauSSS | CauVSS | CauVSV | CauVVS | CauVVV =>
      match i with O => -2 * (x - y) / (z * z + (x - y) * (x - y)) | 1%nat => 2 * (x - y) / (z * z + (x - y) * (x - y))
      | _ => 2 * (x - y) * (x - y) / (z * (z * z + (x - y) * (x - y))) - 1 / z end
  | UniSSS | UniVSS | UniVSV | UniVVS | UniVVV =>
      match i with O => 0 | 1%nat => 1 / (z - y) | _ => -1 / (z - y) end
  | _ => match i with O => ln y - ln (1 - y) | 1%nat => x / y - (1 - x) / (1 - y) | _ => 0 end
  end.
Definition sok (q : stat) (x y z : R) : Prop :=
  match q with
  | NormSSS | NormVSS | NormVVS | NormVSV | NormVVV => 0 < z
  | CauSSS | CauVSS | CauVSV | CauVVS | CauVVV => 0 < z
  | UniSSS | UniVSS | UniVSV | UniVVS | UniVVV => y < z
  | _ => 0 < y < 1
  end.
Definition arity (q : stat) : nat := match q with BerSS | BerVS | BerVV => 2%nat | _ => 3%nat end.

Lemma cau_pos g d : 0 < g -> 0 < g * (1 + (d / g) ^ 2).
Proof. intros H. apply Rmult_lt_0_compat; auto. pose proof (pow2_ge_0 (d / g)). lra. Qed.
Lemma sp_der q (x y z : R -> R) (t a b c : R) : elementwise q = true -> sok q (x t) (y t) (z t) ->
  is_derive x t a -> is_derive y t b -> is_derive z t c ->
  is_derive (fun t => sp1 q (x t) (y t) (z t)) t
    (sumn (arity q) (fun i => spd q i (x t) (y t) (z t) * match i with O => a | 1%nat => b | _ => c end)).
Proof.
  intros HE HS Hx Hy Hz.
  assert (EX : Derive (fun u => x u) t = a) by now apply is_derive_unique.
  assert (EY : Derive (fun u => y u) t = b) by now apply is_derive_unique.
  assert (EZ : Derive (fun u => z u) t = c) by now apply is_derive_unique.
  assert (DX : ex_derive x t) by now exists a.
  assert (DY : ex_derive y t) by now exists b.
  assert (DZ : ex_derive z t) by now exists c.
  destruct q; try discriminate HE; cbn [sok sp1 spd arity sumn] in *; unfold norm1, cau1, uni1, ber1.
  all: auto_derive; [repeat split; auto; try lra; try (apply cau_pos; lra)|].
  all: rewrite ?EX, ?EY, ?EZ; try (field; repeat split; lra).
  6-8: change (1 + - y t) with (1 - y t); field; split; lra.
  all: assert (0 < z t * z t + (x t - y t) * (x t - y t)) by (pose proof (Rle_0_sqr (x t - y t)) as HH; unfold Rsqr in HH; nra).
  all: field; repeat split; try lra.
  all: nra.
Qed.

Lemma sumn_lin n h f a b : (forall i, (i < n)%nat -> h i = a * f i + b) -> sumn n h = a * sumn n f + INR n * b.
Proof. intros H. rewrite (sumn_ext n h _ H), sumn_plus, sumn_l, sumn_const. reflexivity. Qed.
Lemma sumn_aff n h f a : (forall i, (i < n)%nat -> h i = a * f i) -> sumn n h = a * sumn n f.
Proof. intros H. rewrite (sumn_ext n h _ H), sumn_l. reflexivity. Qed.
Lemma xsum_tab n F g : (forall i, (i < n)%nat -> F i = Fin (g i)) -> xsum (tab n F) = Fin (sumn n g).
Proof. intros H. rewrite (tab_ext n F _ H). apply xsum_fin. Qed.
Lemma tab_fin n F g : (forall i, (i < n)%nat -> F i = Fin (g i)) -> tab n F = map Fin (tab n g).
Proof. intros H. rewrite (tab_ext n F _ H). apply fin_tab. Qed.
Lemma scl_eq s : shape_ok s = true -> is_scl s = true -> s = scl.
Proof.
  destruct s as [k r c]. unfold shape_ok, is_scl. cbn. destruct k; try discriminate.
  rewrite andb_true_iff, !Nat.eqb_eq. intros [-> ->] _. reflexivity.
Qed.
Lemma IZN n : IZR (Z.of_nat n) = INR n.
Proof. symmetry. apply INR_IZR_INZ. Qed.

Section K.
Variable la : linalg xr.
Notation N := (XR la).

Definition good (q : stat) (cs fl : list bool) (ss : list shape) (vs : list (list R)) (i : nat) (seed : R) (o : option (list R)) : Prop :=
  let n := rows (nth_sh ss 0) in
  let x := ent (nth_sh ss 0) (nth 0 vs []) in
  let y := ent (nth_sh ss 1) (nth 1 vs []) in
  let z := ent (nth_sh ss 2) (nth 2 vs []) in
  match o with
  | None => nth i cs false = true \/ (forall j, (j < n)%nat -> spd q i (x j) (y j) (z j) = 0) \/ nth i fl false = true
  | Some l => length l = size (nth_sh ss i) /\
      (nth i cs false = true \/ l = agg (nth_sh ss i) n (fun j => seed * spd q i (x j) (y j) (z j)))
  end.
Definition SC (q : stat) : Prop := forall cs fl ss vs gs s0 d u,
  forallb shape_ok ss = true -> stat_shape_ok q ss = true -> kdim_ok (KStat q) ss = true -> lensR vs ss ->
  (forall i, nth i cs false = true -> nth i gs (Ok []) = Ok (map Fin (nth i vs []))) ->
  stat_init N q cs ss gs = Ok s0 -> sdom d u q cs fl ss vs ->
  exists s1, stat_fwd N q cs ss s0 (FF vs) = Ok (s1, Fin (sden q ss vs)) /\
    (d = true -> forall seed i, seed <> 0 -> (u = true -> seed = 1) -> (i < length ss)%nat ->
       exists o, stat_bwd N q cs ss s1 (Fin seed) (FF vs) i = option_map (map Fin) o /\ good q cs fl ss vs i seed o).

Ltac xn := 
  change (carrier N) with xr in *;
  change (n0 N) with (Fin 0) in *; change (n1 N) with (Fin 1) in *; change (nhalf N) with (Fin (1/2)) in *;
  change (nadd N) with xadd in *; change (nsub N) with xsub in *; change (nmul N) with xmul in *;
  change (ndiv N) with xdiv in *; change (nopp N) with xopp in *; change (nlog N) with xlog in *;
  change (nltb N) with xltb in *; change (nleb N) with xleb in *; change (neqb N) with xeqb in *;
  change (nsum N) with xsum in *; change (n2 N) with (Fin 2) in *;
  repeat match goal with
  | |- context [nofn N ?n] => change (nofn N n) with (Fin (IZR (Z.of_nat n))); rewrite !(IZN n)
  | H : context [nofn N ?n] |- _ => change (nofn N n) with (Fin (IZR (Z.of_nat n))) in H; rewrite !(IZN n) in H
  end;
  change (nninf N) with NInf in *.

Ltac shp HW HS HL :=
  match type of HL with lensR ?vs ?ss =>
  destruct ss as [|[ka na ca] [|[kb nb cb] [|[kc nc cc] [|]]]]; try discriminate HS;
  unfold stat_shape_ok, is_vecn, is_sqmat, nth_sh in HS; cbn [nth rows] in HS;
  rewrite ?andb_true_iff in HS; repeat match goal with H : _ /\ _ |- _ => destruct H end;
  cbn [forallb] in HW; rewrite ?andb_true_iff in HW; repeat match goal with H : _ /\ _ |- _ => destruct H end;
  repeat match goal with H : shape_eqb _ _ = true |- _ => apply shape_eqb_eq in H; injection H; intros; subst; clear H end;
  repeat match goal with H : is_scl ?s = true, H2 : shape_ok ?s = true |- _ =>
     apply (scl_eq s H2) in H; injection H; intros; subst; clear H end;
  repeat match goal with H : lensR _ (_ :: _) |- _ => inversion H; subst; clear H
     | H : Forall2 _ _ _ |- _ => inversion H; subst; clear H end;
  repeat match goal with H : length ?l = size _ |- _ =>
     unfold size in H; cbn [rows cols] in H; rewrite Nat.mul_1_r in H end;
  repeat match goal with H : length ?l = 1%nat |- _ => destruct l as [|? [|]]; try discriminate H; clear H end
  end.

Lemma allpos_fin v : (forall j, (j < length v)%nat -> 0 < el v j) -> allpos N (map Fin v) = true.
Proof.
  intros H. unfold allpos. rewrite (fin_list v _ eq_refl). apply tab_forallb. intros i Hi.
  unfold pos. xn. cbn. apply rltb_t. now apply H.
Qed.

Ltac inst := repeat match goal with
  | H : forall j, (j < ?n)%nat -> _, Hi : (?i < ?n)%nat |- _ =>
      match goal with H0 : ?P |- _ => let T := type of (H i Hi) in constr_eq T P; fail 2 | _ => pose proof (H i Hi) end end.
Lemma cauA g d : 0 < g -> 0 < g + 1 / g * (d * d).
Proof. intros H. replace (g + 1 / g * (d * d)) with (g * (1 + (d / g) ^ 2)) by (field; lra). now apply cau_pos. Qed.
Lemma cauB g d : 0 < g -> 0 < g + d * d / g.
Proof. intros H. replace (g + d * d / g) with (g * (1 + (d / g) ^ 2)) by (field; lra). now apply cau_pos. Qed.
Lemma cauC g d : 0 < g -> g * g + d * d <> 0.
Proof. intros H. pose proof (Rle_0_sqr d) as HH. unfold Rsqr in HH. nra. Qed.
Lemma cauD g d : 0 < g -> g * (g + d * d / g) <> 0.
Proof. intros H. pose proof (cauB g d H). nra. Qed.
Ltac nz := first [ lra | apply cauA; lra | apply cauB; lra | apply cauC; lra | apply cauD; lra | apply Rgt_not_eq; nra | nra ].
Lemma xadd_fin a b : xadd (Fin a) (Fin b) = Fin (a + b). Proof. reflexivity. Qed.
Lemma xmul_fin a b : xmul (Fin a) (Fin b) = Fin (a * b). Proof. reflexivity. Qed.
Lemma xopp_fin a : xopp (Fin a) = Fin (- a). Proof. reflexivity. Qed.
Ltac fin := unfold nsq; xn;
  repeat (first [ rewrite xadd_fin | rewrite xsub_fin | rewrite xmul_fin | rewrite xopp_fin | rewrite xdiv_fin by nz | rewrite xlog_fin by nz | rewrite reqb_f by nz | rewrite rltb_t by nz ]).
Ltac fl := repeat match goal with H : length ?v = ?n |- _ => rewrite !(fin_list v n H) end; repeat (rewrite tab_map || rewrite tab_map2 || rewrite tab_map3 || rewrite tab_len).
Ltac sums := repeat match goal with
  | |- context [xsum (tab ?n ?F)] => erewrite (xsum_tab n F); [|intros ? ?; inst; fin; reflexivity] end.
Ltac tabs := rewrite ?tab_map, ?tab_map2, ?tab_map3, ?tab_len.


Definition SCb (q : stat) (ss : list shape) (vs : list (list R)) : Prop := forall cs fl gs s0 d u,
  kdim_ok (KStat q) ss = true ->
  (forall i, nth i cs false = true -> nth i gs (Ok []) = Ok (map Fin (nth i vs []))) ->
  stat_init N q cs ss gs = Ok s0 -> sdom d u q cs fl ss vs ->
  exists s1, stat_fwd N q cs ss s0 (FF vs) = Ok (s1, Fin (sden q ss vs)) /\
    (d = true -> forall seed i, seed <> 0 -> (u = true -> seed = 1) -> (i < length ss)%nat ->
       exists o, stat_bwd N q cs ss s1 (Fin seed) (FF vs) i = option_map (map Fin) o /\ good q cs fl ss vs i seed o).
Notation vec n := (Sh Vec n 1).
Ltac pat := intros HQ H cs fl ss vs gs s0 d u HW HS HK HL HG HI HD;
  match type of HQ with In ?q _ => cbn in HQ; repeat (destruct HQ as [<-|HQ]); try contradiction end;
  shp HW HS HL; eapply H; eauto.
Lemma SC_sss q : In q [NormSSS; CauSSS; UniSSS] -> (forall x y z, SCb q [scl; scl; scl] [[x]; [y]; [z]]) -> SC q.
Proof. pat. Qed.
Lemma SC_vss q : In q [NormVSS; CauVSS; UniVSS] ->
  (forall n x y z, length x = n -> SCb q [vec n; scl; scl] [x; [y]; [z]]) -> SC q.
Proof. pat. Qed.
Lemma SC_vvs q : In q [NormVVS; CauVVS; UniVVS] ->
  (forall n x y z, length x = n -> length y = n -> SCb q [vec n; vec n; scl] [x; y; [z]]) -> SC q.
Proof. pat. Qed.
Lemma SC_vsv q : In q [NormVSV; CauVSV; UniVSV] ->
  (forall n x y z, length x = n -> length z = n -> SCb q [vec n; scl; vec n] [x; [y]; z]) -> SC q.
Proof. pat. Qed.
Lemma SC_vvv q : In q [NormVVV; CauVVV; UniVVV] ->
  (forall n x y z, length x = n -> length y = n -> length z = n -> SCb q [vec n; vec n; vec n] [x; y; z]) -> SC q.
Proof. pat. Qed.
Lemma SC_ss q : In q [BerSS] -> (forall x y, SCb q [scl; scl] [[x]; [y]]) -> SC q.
Proof. pat. Qed.
Lemma SC_vs q : In q [BerVS] -> (forall n x y, length x = n -> SCb q [vec n; scl] [x; [y]]) -> SC q.
Proof. pat. Qed.
Lemma SC_vv q : In q [BerVV] -> (forall n x y, length x = n -> length y = n -> SCb q [vec n; vec n] [x; y]) -> SC q.
Proof. pat. Qed.

Ltac start := unfold SCb; intros cs fl gs s0 d u HK HG HI HD;
  unfold FF; cbn [map]; cbn [sden sdom nth_sh nth rows] in HD |- *; unfold nth_sh in *; cbn [nth rows] in HD |- *;
  unfold ent in HD |- *; cbn [is_scl kind scl sk_eqb] in HD |- *.
(** constructor *)
Ltac ini HI HG gs := unfold stat_init, cst in HI; xn;
  repeat match type of HI with context [if ?b then _ else _] =>
     lazymatch b with context [if _ then _ else _] => fail | _ => destruct b eqn:? end end;
  repeat match goal with C : nth ?i ?cs false = true |- _ => lazymatch goal with
     | _ : nth i gs (Ok []) = _ |- _ => fail | _ => pose proof (HG i C) end end;
  repeat match goal with Hg : nth ?i gs (Ok []) = Ok _ |- _ => rewrite Hg in HI; clear Hg end;
  cbn [bindR nth] in HI.
Ltac ini3 HI HG gs cs := unfold stat_init, cst in HI; xn;
  destruct (nth 0 cs false) eqn:C0, (nth 1 cs false) eqn:C1, (nth 2 cs false) eqn:C2; cbn [andb] in HI; ini HI HG gs.
Lemma nleb0 z : 0 < z -> xleb (Fin z) (Fin 0) = false.
Proof. intros H. rewrite xleb_fin. now apply rleb_f. Qed.


Ltac proj := unfold set_sa, set_sab, set_sb, set_sbc, set_scd, set_sbcd, set_fa, set_fb, set_mb, sst0 in *; cbn [sa sb sc sd fa fb ma mb mc] in *.
Ltac evl := unfold stat_fwd, stat_bwd, cst, norm_upd_s, norm_upd_v, uni_upd, uni_updx, ber_upd, ber_updx, uni_in, arg, hd0, sqnorm, vdot;
  cbn [nth hd map]; xn; repeat match goal with C : nth ?i ?cs false = _ |- context [nth ?i ?cs false] => rewrite C end; proj; cbn [andb negb].
Ltac val := apply f_equal, f_equal2; [reflexivity|]; apply f_equal.
(** seeds: [sd0] on a scalar operand, [sdn] on a vector *)
Ltac bwd := intros HT seed i NZ HU Hi; cbn [length] in Hi; xn;
  destruct i as [|[|[|i]]]; [| | |lia]; evl; cbn [xeqb]; rewrite (reqb_f seed 0) by auto.
Ltac none := exists None; split; [reflexivity|]; cbn [good]; auto.
Ltac some := eexists (Some (agg _ _ _)); split; [|split; [|right; reflexivity]];
  cbn [option_map agg nth_sh nth is_scl scl kind sk_eqb ent map length rows size cols]; [apply f_equal|auto; try (rewrite tab_len; unfold size; cbn [rows cols]; lia)].

Ltac sg := unfold spd, nth_sh, ent; cbn [nth is_scl scl kind sk_eqb];
  repeat match goal with |- context [el [?a] 0] => change (el [a] 0) with a end.
Ltac vecn := apply tab_fin; intros ? ?; inst; fin; apply f_equal; sg; field; repeat split.
Ltac sclr := apply f_equal2; [apply f_equal|reflexivity]; sg.
Ltac sumeq := repeat first [rewrite <- sumn_l | rewrite <- sumn_r | rewrite <- sumn_minus | rewrite <- sumn_plus | rewrite <- sumn_opp];
  apply sumn_ext; intros ? ?; inst.
Lemma SC_NormSSS : SC NormSSS.
Proof.
  apply SC_sss; [cbn; auto|]. intros x y z. start. pose proof (HD 0%nat ltac:(cbn; lia)) as P. cbn in P.
  ini HI HG gs; injection HI as <-; (eexists; split; [evl; rewrite nleb0 by auto; fin; val; cbn; unfold norm1; field; lra|]);
  bwd; rewrite nleb0 by auto; try none; fin; some; cbn; do 2 f_equal; field; lra.
Qed.



Lemma norm_s n (f : nat -> R) z : z <> 0 -> sumn n (fun i => - (1 / 2) * (f i / z) ^ 2 - ln z)
  = - (1 / 2) * (sumn n (fun i => f i * f i) / (z * z)) - INR n * ln z.
Proof.
  intros H. rewrite (sumn_lin n _ (fun i => f i * f i) (- (1 / 2) / (z * z)) (- ln z)) by (intros; field; auto). field; auto.
Qed.
Lemma norm_ds n (f : nat -> R) z k : z <> 0 -> sumn n (fun i => k * (((f i / z) ^ 2 - 1) / z))
  = k * (sumn n (fun i => f i * f i) / (z * z) - INR n) * (1 / z).
Proof.
  intros H. rewrite (sumn_lin n _ (fun i => f i * f i) (k / (z * z) / z) (- k / z)) by (intros; field; auto). field; auto.
Qed.
Lemma steiner n f y : INR n <> 0 -> let m := sumn n f / INR n in
  sumn n (fun i => (f i - m) * (f i - m)) + INR n * (y - m) * (y - m) = sumn n (fun i => (f i - y) * (f i - y)).
Proof.
  intros H m. assert (E : sumn n f = m * INR n) by (unfold m; field; auto). clearbody m.
  rewrite (sumn_ext n (fun i => (f i - m) * (f i - m)) (fun i => (f i - y) * (f i - y) + (2 * (y - m) * f i + (m * m - y * y)))) by (intros; ring).
  rewrite sumn_plus, (sumn_lin n (fun i => 2 * (y - m) * f i + (m * m - y * y)) f (2 * (y - m)) (m * m - y * y)) by (intros; ring).
  rewrite E. ring.
Qed.
Lemma sum_ctr n f y : sumn n (fun i => f i - y) = sumn n f - INR n * y.
Proof. rewrite (sumn_lin n _ f 1 (- y)) by (intros; ring). ring. Qed.

Lemma meanco_ne (x : list R) n : length x = n -> n <> 0%nat ->
  meanco N (map Fin x) = Ok (ndiv N (nsum N (map Fin x)) (nofn N (length (map Fin x)))).
Proof. intros <- H. destruct x; [cbn in H; congruence|reflexivity]. Qed.
Lemma SC_NormVSS : SC NormVSS.
Proof.
  apply SC_vss; [cbn; auto|]. intros n x y z Lx. start. destruct HD as [HD HN]. pose proof (HD 0%nat ltac:(cbn; lia)) as P. cbn in P.
  assert (PZ : z * z <> 0) by nra.
  ini HI HG gs; try (rewrite (meanco_ne x n Lx) in HI by auto; cbn [bindR] in HI); injection HI as <-; try (assert (Nn : INR n <> 0) by (apply not_0_INR; auto));
  (eexists; split; [evl; rewrite nleb0 by auto; fl; fin; sums; fin; sums; fin; val;
     try (pose proof (steiner n (el x) y Nn) as HS; cbv zeta in HS; rewrite HS); unfold norm1;
     rewrite (norm_s n (fun i => el x i - el [y] 0) (el [z] 0)) by (cbn; lra); cbn; field; lra|]);
  bwd; rewrite nleb0 by auto; try none; fl; fin; sums; fin; some; try (vecn; lra); sclr;
     try (rewrite steiner by auto; rewrite (norm_ds n (fun i => el x i - y) z seed) by lra);
     try (rewrite (norm_ds n (fun i => el x i - y) z seed) by lra);
     try rewrite (sumn_aff n (fun j => seed * ((el x j - y) / (z * z))) (fun j => el x j - y) (seed / (z * z))) by (intros; field; lra);
     try rewrite !sum_ctr; field; lra.
Qed.
Lemma SC_NormVVS : SC NormVVS.
Proof.
  apply SC_vvs; [cbn; auto|]. intros n x y z Lx Ly. start. pose proof (HD 0%nat ltac:(cbn; lia)) as P. cbn in P.
  assert (PZ : z * z <> 0) by nra.
  ini HI HG gs; injection HI as <-;
  (eexists; split; [evl; rewrite nleb0 by auto; fl; fin; sums; fin; sums; fin; val; unfold norm1;
     rewrite (norm_s n (fun i => el x i - el y i) (el [z] 0)) by (cbn; lra); cbn; field; lra|]);
  bwd; rewrite nleb0 by auto; try none; fl; fin; sums; fin; some; try (vecn; lra); sclr;
     rewrite (norm_ds n (fun i => el x i - el y i) z seed) by lra; field; lra.
Qed.
Lemma pos_fin z : 0 < z -> pos N (Fin z) = true.
Proof. intros H. unfold pos. xn. cbn. now apply rltb_t. Qed.
Lemma SC_NormVSV : SC NormVSV.
Proof.
  apply SC_vsv; [cbn; auto|]. intros n x y z Lx Lz. start. change (size (vec n)) with (n * 1)%nat in HD. rewrite Nat.mul_1_r in HD.
  assert (AP : allpos N (map Fin z) = true) by (apply allpos_fin; rewrite Lz; auto). xn.
  unfold stat_init, cst in HI; destruct (nth 0 cs false) eqn:C0;
  ini HI HG gs; injection HI as <-;
  (eexists; split; [evl; rewrite ?AP; proj; cbn [negb]; fl; fin; sums; fin; sums; fin; val; unfold norm1; sumeq; cbn; field; lra|]);
  bwd; try none; fl; fin; sums; fin; some; try (vecn; lra); sclr; sumeq; field; lra.
Qed.
Lemma SC_NormVVV : SC NormVVV.
Proof.
  apply SC_vvv; [cbn; auto|]. intros n x y z Lx Ly Lz. start. change (size (vec n)) with (n * 1)%nat in HD. rewrite Nat.mul_1_r in HD.
  assert (AP : allpos N (map Fin z) = true) by (apply allpos_fin; rewrite Lz; auto). xn.
  ini HI HG gs; injection HI as <-;
  (eexists; split; [evl; rewrite ?AP; proj; cbn [negb]; fl; fin; sums; fin; sums; fin; val; unfold norm1; sumeq; cbn; field; lra|]);
  bwd; try none; fl; fin; sums; fin; some; try (vecn; lra); sclr; sumeq; field; lra.
Qed.

(** *** Cauchy *)
Ltac any := first
  [ eexists (Some [_]); split; [reflexivity|split; [reflexivity|left; assumption]]
  | match goal with |- context [tab ?n ?F] =>
      eexists (Some (tab n _)); split; [cbn [option_map]; apply f_equal, tab_fin; intros ? ?; inst; fin; reflexivity
      | split; [rewrite tab_len; unfold nth_sh, size; cbn [nth rows cols]; lia|left; assumption]] end ].
Lemma INRs n : INR n = sumn n (fun _ => 1).
Proof. rewrite sumn_const. ring. Qed.
Ltac lnf := unfold cau1; do 2 f_equal; cbn; field; lra.
Lemma SC_CauSSS : SC CauSSS.
Proof.
  apply SC_sss; [cbn; auto|]. intros x y z. start. pose proof (HD 0%nat ltac:(cbn; lia)) as P. cbn in P.
  injection HI as <-; eexists; split.
  - evl. rewrite pos_fin by auto. cbn [negb]. fin. val. cbn. rewrite Rplus_0_l. lnf.
  - pose proof (cauB z (x - y) P) as Q. pose proof (cauC z (x - y) P) as Q2.
    bwd; rewrite pos_fin by auto; cbn [negb]; fin; some; sclr; cbn [sumn rows]; field; repeat split; auto; lra.
Qed.
Lemma SC_CauVSS : SC CauVSS.
Proof.
  apply SC_vss; [cbn; auto|]. intros n x y z Lx. start. destruct HD as [HD H2]. pose proof (HD 0%nat ltac:(cbn; lia)) as P. cbn in P.
  injection HI as <-; eexists; split.
  - evl. rewrite pos_fin by auto. cbn [negb]. fl; fin; sums; fin; val. sumeq. lnf.
  - bwd; rewrite pos_fin by auto; cbn [negb]; fl; fin; sums; fin;
      try (some; vecn; pose proof (cauC z (el x i - y) P); lra);
      (destruct (H2 HT) as [Hu|[C1 C2]]; [rewrite (HU Hu) in *; some; sclr|any]).
    + sumeq. field. pose proof (cauC z (el x i - y) P). lra.
    + rewrite (INRs n). sumeq. field. pose proof (cauC z (el x i - y) P). split; lra.
Qed.
Lemma SC_CauVVS : SC CauVVS.
Proof.
  apply SC_vvs; [cbn; auto|]. intros n x y z Lx Ly. start. destruct HD as [HD H2]. pose proof (HD 0%nat ltac:(cbn; lia)) as P. cbn in P.
  injection HI as <-; eexists; split.
  - evl. rewrite pos_fin by auto. cbn [negb]. fl; fin; sums; fin; val. sumeq. lnf.
  - bwd; rewrite pos_fin by auto; cbn [negb]; fl; fin; sums; fin;
      try (some; vecn; pose proof (cauC z (el x i - el y i) P); lra);
      (destruct (H2 HT) as [Hu|[C1 C2]]; [rewrite (HU Hu) in *; some; try sclr|any]).
    + vecn. pose proof (cauC z (el x i - el y i) P); lra.
    + rewrite (INRs n). sumeq. field. pose proof (cauC z (el x i - el y i) P). split; lra.
Qed.
Lemma SC_CauVSV : SC CauVSV.
Proof.
  apply SC_vsv; [cbn; auto|]. intros n x y z Lx Lz. start. destruct HD as [HD H2]. change (size (vec n)) with (n * 1)%nat in HD. rewrite Nat.mul_1_r in HD.
  assert (AP : allpos N (map Fin z) = true) by (apply allpos_fin; rewrite Lz; auto). xn.
  injection HI as <-; eexists; split.
  - evl. rewrite AP. cbn [negb]. fl; fin; sums; fin; val. sumeq. lnf.
  - bwd; rewrite AP; cbn [negb]; fl; fin; sums; fin;
      try (some; vecn; pose proof (cauC (el z i) (el x i - y) (HD i ltac:(auto))); lra);
      (destruct (H2 HT) as [Hu|[C1 C2]]; [rewrite (HU Hu) in *; some; try sclr|any]).
    + sumeq. field. pose proof (cauC (el z i) (el x i - y) ltac:(auto)). lra.
    + vecn; pose proof (cauC (el z i) (el x i - y) ltac:(auto)); lra.
Qed.
Lemma SC_CauVVV : SC CauVVV.
Proof.
  apply SC_vvv; [cbn; auto|]. intros n x y z Lx Ly Lz. start. destruct HD as [HD H2]. change (size (vec n)) with (n * 1)%nat in HD. rewrite Nat.mul_1_r in HD.
  assert (AP : allpos N (map Fin z) = true) by (apply allpos_fin; rewrite Lz; auto). xn.
  injection HI as <-; eexists; split.
  - evl. rewrite AP. cbn [negb]. fl; fin; sums; fin; val. sumeq. lnf.
  - bwd; rewrite AP; cbn [negb]; fl; fin; sums; fin;
      try (some; vecn; pose proof (cauC (el z i) (el x i - el y i) (HD i ltac:(auto))); lra);
      (destruct (H2 HT) as [Hu|[C1 C2]]; [rewrite (HU Hu) in *; some; try sclr|any]).
    + vecn; pose proof (cauC (el z i) (el x i - el y i) ltac:(auto)); lra.
    + vecn; pose proof (cauC (el z i) (el x i - el y i) ltac:(auto)); lra.
Qed.

(** *** Uniform *)
Lemma fold_sel (f : xr -> xr -> xr) (Hf : forall a b, f (Fin a) (Fin b) = Fin a \/ f (Fin a) (Fin b) = Fin b) l :
  forall a, exists b, fold_left f (map Fin l) (Fin a) = Fin b /\ (b = a \/ In b l).
Proof.
  induction l as [|c l IH]; intros a; cbn [map fold_left]; [exists a; auto|].
  destruct (Hf a c) as [-> | ->].
  - destruct (IH a) as [b [E [H|H]]]; exists b; cbn; auto.
  - destruct (IH c) as [b [E [H|H]]]; exists b; cbn; auto.
Qed.
Lemma minco_fin x n : length x = n -> n <> 0%nat ->
  exists i, (i < n)%nat /\ minco N (map Fin x) = Ok (Fin (el x i)).
Proof.
  intros L HN. destruct x as [|a x]; cbn in L; [congruence|].
  destruct (fold_sel (nmin N) ltac:(intros; unfold nmin; destruct (nltb N _ _); auto) x a) as [b [E HB]].
  assert (HI : In b (a :: x)) by (destruct HB; subst; cbn; auto). apply (In_nth _ _ 0) in HI. destruct HI as [i [Hi Ei]].
  exists i. cbn in Hi. split; [lia|]. cbn [minco map]. unfold minco. xn. rewrite E. now rewrite <- Ei.
Qed.
Lemma maxco_fin x n : length x = n -> n <> 0%nat ->
  exists i, (i < n)%nat /\ maxco N (map Fin x) = Ok (Fin (el x i)).
Proof.
  intros L HN. destruct x as [|a x]; cbn in L; [congruence|].
  destruct (fold_sel (nmax N) ltac:(intros; unfold nmax; destruct (nltb N _ _); auto) x a) as [b [E HB]].
  assert (HI : In b (a :: x)) by (destruct HB; subst; cbn; auto). apply (In_nth _ _ 0) in HI. destruct HI as [i [Hi Ei]].
  exists i. cbn in Hi. split; [lia|]. cbn [maxco map]. unfold maxco. xn. rewrite E. now rewrite <- Ei.
Qed.
Lemma forall2b_fin n x y (f : xr -> xr -> bool) : length x = n -> length y = n ->
  (forall i, (i < n)%nat -> f (Fin (el x i)) (Fin (el y i)) = true) -> forall2b N f (map Fin x) (map Fin y) = true.
Proof.
  intros L1 L2 H. unfold forall2b. xn. rewrite (fin_list x n L1), (fin_list y n L2), tab_combine.
  apply tab_forallb. auto.
Qed.
Lemma xltb_t a b : a < b -> xltb (Fin a) (Fin b) = true.
Proof. intros. cbn. now apply rltb_t. Qed.
Lemma SC_UniSSS : SC UniSSS.
Proof.
  apply SC_sss; [cbn; auto|]. intros x y z. start. pose proof (HD 0%nat ltac:(cbn; lia)) as P. cbn in P.
  ini3 HI HG gs cs; injection HI as <-; (eexists; split; [evl; rewrite !xltb_t by lra; cbn [andb negb bindR]; proj; fin; val; cbn; unfold uni1, Rminus; lra|]);
  bwd; rewrite !xltb_t by lra; cbn [andb negb]; try (none; fail); try (exists None; split; [reflexivity|right; left; reflexivity]); fin; some; sclr; cbn [sumn rows]; field; lra.
Qed.
Lemma uni_k n : negb (rows (nth_sh [vec n; scl; scl] 0) =? 0)%nat = true -> n <> 0%nat.
Proof. cbn. destruct n; cbn; congruence. Qed.
Lemma SC_UniVSS : SC UniVSS.
Proof.
  apply SC_vss; [cbn; auto|]. intros n x y z Lx. start. pose proof (uni_k n HK) as HN.
  destruct (minco_fin x n Lx HN) as [i1 [I1 M1]]. destruct (maxco_fin x n Lx HN) as [i2 [I2 M2]].
  pose proof (HD i1 I1) as P1. pose proof (HD i2 I2) as P2. cbn in P1, P2. xn.
  ini3 HI HG gs cs; unfold uni_updx in HI; xn; rewrite ?M1, ?M2 in HI; cbn [bindR] in HI; injection HI as <-;
  (eexists; split; [evl; unfold uni_updx; xn; rewrite ?M1, ?M2; cbn [bindR]; proj; rewrite !xltb_t by lra; cbn [andb negb bindR]; fl; fin; val|]).
  all: try (unfold uni1, Rminus; rewrite sumn_opp, sumn_const; cbn; ring).
  all: bwd; rewrite !xltb_t by lra; cbn [andb negb]; try (exists None; split; [reflexivity|right; left; reflexivity]); fl; fin; some; sclr;
    rewrite sumn_const; field; lra.
Qed.
Lemma SC_UniVSV : SC UniVSV.
Proof.
  apply SC_vsv; [cbn; auto|]. intros n x y z Lx Lz. start. pose proof (uni_k n HK) as HN. destruct HD as [HD HC].
  destruct (minco_fin x n Lx HN) as [i1 [I1 M1]]. pose proof (HD i1 I1) as P1. cbn in P1.
  assert (F : forall2b N (fun u v => nltb N u v) (map Fin x) (map Fin z) = true).
  { apply (forall2b_fin n); auto. intros i Hi. apply rltb_t. now apply HD. } xn.
  assert (HY : forall i, (i < n)%nat -> 0 < el z i - y) by (intros i Hi; pose proof (HD i Hi); cbn in *; lra).
  ini3 HI HG gs cs; try (specialize (HC eq_refl); discriminate);
  unfold uni_updx in HI; xn; rewrite ?M1 in HI; cbn [bindR] in HI; rewrite ?F in HI; injection HI as <-;
  (eexists; split; [evl; unfold uni_updx; xn; rewrite ?M1, ?F; cbn [bindR]; proj; rewrite !xltb_t by lra; cbn [andb negb bindR]; fl; fin; sums; fin; val;
     sumeq; reflexivity|]);
  bwd; rewrite !xltb_t by lra; cbn [andb negb]; try (exists None; split; [reflexivity|right; left; reflexivity]); fl; fin; sums; fin; some;
    first [vecn; lra | sclr; sumeq; field; lra].
Qed.
Lemma SC_UniVVS : SC UniVVS.
Proof.
  apply SC_vvs; [cbn; auto|]. intros n x y z Lx Ly. start. pose proof (uni_k n HK) as HN. destruct HD as [HD HC].
  destruct (maxco_fin x n Lx HN) as [i1 [I1 M1]]. pose proof (HD i1 I1) as P1. cbn in P1.
  assert (F : forall2b N (fun u v => nltb N v u) (map Fin x) (map Fin y) = true).
  { apply (forall2b_fin n); auto. intros i Hi. apply rltb_t. now apply HD. } xn.
  assert (HY : forall i, (i < n)%nat -> 0 < z - el y i) by (intros i Hi; pose proof (HD i Hi); cbn in *; lra).
  ini3 HI HG gs cs; try (specialize (HC eq_refl); discriminate);
  unfold uni_updx in HI; xn; rewrite ?M1 in HI; cbn [bindR] in HI; rewrite ?F in HI; injection HI as <-;
  (eexists; split; [evl; unfold uni_updx; xn; rewrite ?M1, ?F; cbn [bindR]; proj; rewrite !xltb_t by lra; cbn [andb negb bindR]; fl; fin; sums; fin; val;
     sumeq; reflexivity|]);
  bwd; rewrite !xltb_t by lra; cbn [andb negb]; try (exists None; split; [reflexivity|right; left; reflexivity]); fl; fin; sums; fin; some;
    first [vecn; lra | sclr; sumeq; field; lra].
Qed.
Lemma SC_UniVVV : SC UniVVV.
Proof.
  apply SC_vvv; [cbn; auto|]. intros n x y z Lx Ly Lz. start.
  assert (F1 : forall2b N (fun u v => nltb N v u) (map Fin x) (map Fin y) = true).
  { apply (forall2b_fin n); auto. intros i Hi. apply rltb_t. now apply HD. }
  assert (F2 : forall2b N (fun u v => nltb N u v) (map Fin x) (map Fin z) = true).
  { apply (forall2b_fin n); auto. intros i Hi. apply rltb_t. now apply HD. } xn.
  assert (HY : forall i, (i < n)%nat -> 0 < el z i - el y i) by (intros i Hi; pose proof (HD i Hi); cbn in *; lra).
  ini3 HI HG gs cs; injection HI as <-;
  (eexists; split; [evl; rewrite F1, F2; cbn [andb negb bindR]; proj; fl; fin; sums; fin; val; sumeq; reflexivity|]);
  bwd; cbn [andb negb]; try (exists None; split; [reflexivity|right; left; reflexivity]); fl; fin; sums; fin; some; vecn; lra.
Qed.

(** *** Bernoulli *)
Lemma in01_t p : 0 < p < 1 -> in01 N (Fin p) = true.
Proof. intros. unfold in01. xn. rewrite !xltb_t by lra. reflexivity. Qed.
Lemma is01_t x : x = 0 \/ x = 1 -> is01 N (Fin x) = true.
Proof. unfold is01. xn. cbn. intros [->| ->]; rewrite reqb_refl; auto using orb_true_r. Qed.
Lemma req10 : reqb 1 0 = false. Proof. apply reqb_f. lra. Qed.
Lemma req01 : reqb 0 1 = false. Proof. apply reqb_f. lra. Qed.
Lemma fin_all (P : xr -> bool) n x : length x = n -> (forall i, (i < n)%nat -> P (Fin (el x i)) = true) -> forallb P (map Fin x) = true.
Proof. intros L H. rewrite (fin_list x n L). now apply tab_forallb. Qed.
Ltac bwd2 := intros HT seed i NZ HU Hi; cbn [length] in Hi; xn;
  destruct i as [|[|i]]; [| |lia]; evl; cbn [xeqb]; rewrite (reqb_f seed 0) by auto.
Lemma SC_BerSS : SC BerSS.
Proof.
  apply SC_ss; [cbn; auto|]. intros x p. start. destruct HD as [HP [HX HF]].
  pose proof (HP 0%nat ltac:(cbn; lia)) as P. pose proof (HX 0%nat ltac:(cbn; lia)) as X. cbn in P, X.
  destruct X as [-> | ->];
  ini HI HG gs; injection HI as <-;
  (eexists; split; [evl; rewrite !in01_t by auto; cbn [negb]; proj; cbn [xeqb]; fin; rewrite ?req10, ?reqb_refl; val; cbn; unfold ber1, Rminus; lra|]);
  bwd2; rewrite in01_t, is01_t by auto; cbn [negb orb]; try (exists None; split; [reflexivity|right; right; auto]);
  cbn [xeqb]; rewrite ?req10, ?reqb_refl; fin; some; sclr; cbn [sumn rows]; field; lra.
Qed.
Lemma SC_BerVS : SC BerVS.
Proof.
  apply SC_vs; [cbn; auto|]. intros n x p Lx. start. destruct HD as [HP [HX HF]].
  pose proof (HP 0%nat ltac:(cbn; lia)) as P. cbn in P.
  assert (A1 : forallb (is01 N) (map Fin x) = true) by (apply (fin_all _ n); auto; intros; apply is01_t; auto). xn.
  ini HI HG gs; injection HI as <-;
  (eexists; split; [evl; rewrite !in01_t by auto; rewrite A1; cbn [negb]; proj; fl; fin; sums; fin; val;
     unfold ber1; rewrite sumn_plus, !sumn_r, sumn_minus, sumn_const; cbn; unfold Rminus; ring|]);
  bwd2; rewrite in01_t by auto; cbn [negb orb]; try (exists None; split; [reflexivity|right; right; auto]);
  fl; fin; sums; fin; some; sclr.
  all: rewrite (sumn_lin n (fun j => seed * (el x j / p - (1 - el x j) / (1 - p))) (el x) (seed / p + seed / (1 - p)) (- seed / (1 - p))) by (intros; field; lra).
  all: field; lra.
Qed.
Lemma SC_BerVV : SC BerVV.
Proof.
  apply SC_vv; [cbn; auto|]. intros n x y Lx Ly. start. destruct HD as [HP [HX HF]].
  change (size (vec n)) with (n * 1)%nat in HP. rewrite Nat.mul_1_r in HP.
  assert (A1 : forallb (is01 N) (map Fin x) = true) by (apply (fin_all _ n); auto; intros; apply is01_t; auto).
  assert (A2 : forallb (in01 N) (map Fin y) = true) by (apply (fin_all _ n); auto; intros; apply in01_t; auto). xn.
  ini HI HG gs; injection HI as <-;
  (eexists; split; [evl; rewrite A1, A2; cbn [negb]; fl; apply f_equal, f_equal2; [reflexivity|];
     apply xsum_tab; intros j Hj; pose proof (HP j Hj); destruct (HX j Hj) as [E|E]; rewrite E; fin; unfold ber1;
     apply f_equal; match goal with |- ln ?a = ?b * ln ?c + ?d * ln ?e => first [replace a with c by ring; ring | replace a with e by ring; ring] end|]);
  bwd2; cbn [negb]; try (exists None; split; [reflexivity|right; right; auto]);
  fl; some; apply tab_fin; intros j Hj; pose proof (HP j Hj); rewrite in01_t by auto; cbn [xeqb]; destruct (HX j Hj) as [E|E];
  rewrite E; rewrite ?req01, ?reqb_refl; fin; apply f_equal; sg; rewrite E; field; lra.
Qed.
Lemma SC_all q : elementwise q = true -> SC q.
Proof.
  destruct q; try discriminate 1; intros _;
  [apply SC_NormSSS|apply SC_NormVSS|apply SC_NormVVS|apply SC_NormVSV|apply SC_NormVVV
  |apply SC_CauSSS|apply SC_CauVSS|apply SC_CauVSV|apply SC_CauVVS|apply SC_CauVVV
  |apply SC_UniSSS|apply SC_UniVSS|apply SC_UniVSV|apply SC_UniVVS|apply SC_UniVVV
  |apply SC_BerSS|apply SC_BerVS|apply SC_BerVV].
Qed.

(** *** Calculus *)
Lemma sden_sp1 q ss vs : elementwise q = true -> sden q ss vs = sumn (rows (nth_sh ss 0)) (fun j =>
  sp1 q (ent (nth_sh ss 0) (nth 0 vs []) j) (ent (nth_sh ss 1) (nth 1 vs []) j) (ent (nth_sh ss 2) (nth 2 vs []) j)).
Proof. destruct q; try discriminate 1; reflexivity. Qed.
Lemma ew_sizes q ss : elementwise q = true -> forallb shape_ok ss = true -> stat_shape_ok q ss = true ->
  length ss = arity q /\ forall i, (i < length ss)%nat ->
  (is_scl (nth_sh ss i) = true -> size (nth_sh ss i) = 1%nat) /\
  (is_scl (nth_sh ss i) = false -> size (nth_sh ss i) = rows (nth_sh ss 0)).
Proof.
  intros HE HW HS.
  destruct q; try discriminate HE;
  destruct ss as [|[ka na ca] [|[kb nb cb] [|[kc nc cc] [|]]]]; try discriminate HS;
  (split; [reflexivity|]); intros i Hi;
  unfold stat_shape_ok, is_vecn, is_sqmat, nth_sh in HS; cbn [nth rows] in HS;
  rewrite ?andb_true_iff in HS; repeat match goal with H : _ /\ _ |- _ => destruct H end;
  cbn [forallb] in HW; rewrite ?andb_true_iff in HW; repeat match goal with H : _ /\ _ |- _ => destruct H end;
  repeat match goal with H : shape_eqb _ _ = true |- _ => apply shape_eqb_eq in H; injection H; clear H; intros; subst end;
  repeat match goal with H : is_scl ?s = true, H2 : shape_ok ?s = true |- _ =>
     apply (scl_eq s H2) in H; injection H; clear H; intros; subst end;
  destruct i as [|[|[|i]]]; cbn in Hi; try lia; cbn; split; intros; try discriminate; lia.
Qed.
Lemma sdom_sok d u q cs fl ss vs : elementwise q = true -> forallb shape_ok ss = true -> stat_shape_ok q ss = true ->
  sdom d u q cs fl ss vs -> forall j, (j < rows (nth_sh ss 0))%nat ->
  sok q (ent (nth_sh ss 0) (nth 0 vs []) j) (ent (nth_sh ss 1) (nth 1 vs []) j) (ent (nth_sh ss 2) (nth 2 vs []) j).
Proof.
  intros HE HW HS HD j Hj. destruct (ew_sizes q ss HE HW HS) as [HL HZ].
  assert (AUX : forall i (P : R -> Prop), (i < length ss)%nat -> (forall k, (k < size (nth_sh ss i))%nat -> P (el (nth i vs []) k)) ->
    P (ent (nth_sh ss i) (nth i vs []) j)).
  { intros i P Hi H. unfold ent. destruct (HZ i Hi) as [Z1 Z2]. destruct (is_scl (nth_sh ss i)); apply H;
      [rewrite Z1|rewrite Z2]; auto. }
  destruct q; try discriminate HE; cbn [sdom sok arity] in *;
  repeat match goal with H : _ /\ _ |- _ => destruct H end;
  try (apply (AUX 2%nat (fun r => 0 < r)); [rewrite HL; lia|assumption]);
  try (apply (AUX 1%nat (fun r => 0 < r < 1)); [rewrite HL; lia|assumption]);
  match goal with H : forall i, (i < _)%nat -> _ < _ < _ |- _ => pose proof (H j Hj); lra end.
Qed.
Lemma fin_choice {X} n (P : nat -> X -> Prop) (x0 : X) : (forall i, (i < n)%nat -> exists o, P i o) ->
  exists f, forall i, (i < n)%nat -> P i (f i).
Proof.
  induction n; intros H; [exists (fun _ => x0); lia|].
  destruct IHn as [f Hf]; [intros; apply H; lia|]. destruct (H n ltac:(lia)) as [o Ho].
  exists (fun i => if (i =? n)%nat then o else f i). intros i Hi. destruct (Nat.eqb_spec i n); [subst; auto|apply Hf; lia].
Qed.
Lemma stat_run q cs ss s vs gs s0 s1 r : stat_init N q cs ss gs = Ok s0 -> stn q cs s = stn q cs s0 ->
  stat_fwd N q cs ss s0 vs = Ok (s1, r) ->
  exists s', kf (KStat q) cs ss s vs = (s', [r]) /\
    forall seed i, stat_bwd N q cs ss s' seed vs i = stat_bwd N q cs ss s1 seed vs i.
Proof.
  intros HI HN HF. destruct (stat_indep q cs ss s0 s vs s1 r (eq_sym HN) HF) as [s' [E1 E2]].
  exists s'. split; [unfold kf; cbn [kfwd]; rewrite E1; reflexivity|]. intros. symmetry. apply E2.
Qed.
Lemma KV_stat_ew q : elementwise q = true -> KV la (KStat q).
Proof.
  intros HE cs fl ss s u vs HS HD HL [gs [s0 [HI [HG HN]]]] HDom.
  unfold kshape_ok in HS. apply andb_true_iff in HS. destruct HS as [HW HS].
  destruct (SC_all q HE cs fl ss vs gs s0 false u HW HS HD HL HG HI HDom) as [s1 [E1 _]].
  destruct (stat_run q cs ss s (FF vs) gs s0 s1 _ HI HN E1) as [s' [E2 _]]. rewrite E2. reflexivity.
Qed.
Lemma KA_stat_ew q : elementwise q = true -> KA la (KStat q).
Proof.
  intros HE cs fl ss s u vs dvs t0 HS HK HC [gs [s0 [HI [HG HN]]]] HDom.
  unfold kshape_ok in HS. apply andb_true_iff in HS. destruct HS as [HW HS].
  destruct (SC_all q HE cs fl ss (vs t0) gs s0 true u HW HS HK (cv_len _ _ _ _ _ _ HC t0) HG HI HDom) as [s1 [E1 HB]].
  destruct (stat_run q cs ss s (FF (vs t0)) gs s0 s1 _ HI HN E1) as [s' [E2 EB]].
  destruct (ew_sizes q ss HE HW HS) as [HA HZ].
  set (n := rows (nth_sh ss 0)) in *.
  set (x := ent (nth_sh ss 0) (nth 0 (vs t0) [])). set (y := ent (nth_sh ss 1) (nth 1 (vs t0) [])). set (z := ent (nth_sh ss 2) (nth 2 (vs t0) [])).
  set (w := fun j i => spd q i (x j) (y j) (z j) * ent (nth_sh ss i) (nth i dvs []) j).
  exists [sumn n (fun j => sumn (length ss) (w j))]. split; [reflexivity|]. split.
  { apply (der_one (fun t => sden q ss (vs t))).
    eapply der_ext; [intros t; symmetry; apply (sden_sp1 q ss (vs t) HE)|].
    apply (der_sumn _ (fun j t => sp1 q (ent (nth_sh ss 0) (nth 0 (vs t) []) j) (ent (nth_sh ss 1) (nth 1 (vs t) []) j) (ent (nth_sh ss 2) (nth 2 (vs t) []) j))).
    intros j Hj. eapply der_eq.
    - apply (sp_der q (fun t => ent (nth_sh ss 0) (nth 0 (vs t) []) j) (fun t => ent (nth_sh ss 1) (nth 1 (vs t) []) j) (fun t => ent (nth_sh ss 2) (nth 2 (vs t) []) j) t0
               (ent (nth_sh ss 0) (nth 0 dvs []) j) (ent (nth_sh ss 1) (nth 1 dvs []) j) (ent (nth_sh ss 2) (nth 2 dvs []) j)); auto.
      + eapply sdom_sok; eauto.
      + apply (der_ent _ _ _ _ _ _ 0 j _ HC).
      + apply (der_ent _ _ _ _ _ _ 1 j _ HC).
      + apply (der_ent _ _ _ _ _ _ 2 j _ HC).
    - rewrite HA. apply sumn_ext. intros i Hi. unfold w. fold x y z. f_equal.
      assert (i < 3)%nat by (destruct q; cbn in Hi; lia). destruct i as [|[|[|i]]]; [reflexivity..|lia]. }
  intros seed LS HU. destruct seed as [|sv [|]]; try discriminate LS. clear LS.
  assert (HU1 : u = true -> sv = 1) by (intros Hu; apply (HU Hu 0%nat); cbn; lia).
  assert (CZ : forall i, nth i cs false = true \/ nth i fl false = true -> forall j, el (nth i dvs []) j = 0).
  { intros i Hi j. eapply der_unique; [apply (cv_der _ _ _ _ _ _ HC)|].
    apply der_loc_const with (c := el (nth i (vs t0) []) j). destruct Hi as [Hi|Hi].
    - apply filter_forall. intros t. now rewrite (cv_cst _ _ _ _ _ _ HC i Hi t).
    - eapply filter_imp; [|apply (cv_flat _ _ _ _ _ _ HC i Hi)]. intros t E. now rewrite E. }
  assert (CE : forall i, nth i cs false = true \/ nth i fl false = true -> forall s' j, ent s' (nth i dvs []) j = 0).
  { intros i Hi s2 j. unfold ent. now apply CZ. }
  assert (CH : exists sd : nat -> option (list R), forall i, (i < length ss)%nat ->
    stat_bwd N q cs ss s' (Fin sv) (FF (vs t0)) i = option_map (map Fin) (sd i) /\
    match sd i with None => sumn n (fun j => sv * w j i) = 0
    | Some l => length l = size (nth_sh ss i) /\ ip l (nth i dvs []) = sumn n (fun j => sv * w j i) end).
  { apply (fin_choice _ (fun i o => stat_bwd N q cs ss s' (Fin sv) (FF (vs t0)) i = option_map (map Fin) o /\
    match o with None => sumn n (fun j => sv * w j i) = 0
    | Some l => length l = size (nth_sh ss i) /\ ip l (nth i dvs []) = sumn n (fun j => sv * w j i) end) None).
    intros i Hi. destruct (Req_EM_T sv 0) as [Z|NZ].
    - exists None. split.
      + unfold stat_bwd. change (neqb N) with xeqb. change (n0 N) with (Fin 0). cbn [xeqb]. rewrite reqb_t by auto. reflexivity.
      + apply sumn_0. intros. rewrite Z. ring.
    - destruct (HB eq_refl sv i NZ HU1 Hi) as [o [B1 B2]]. exists o. split; [rewrite EB; exact B1|].
      unfold good in B2. fold n x y z in B2. destruct o as [l|].
      + destruct B2 as [BL B2]. split; auto. destruct B2 as [B2|B2].
        * rewrite (sumn_0 n) by (intros; unfold w; rewrite CE by auto; ring).
          unfold ip. apply sumn_0. intros. rewrite CZ by auto. ring.
        * subst l. rewrite ip_agg by apply (HZ i Hi). apply sumn_ext. intros j Hj. unfold w. ring.
      + apply sumn_0. intros j Hj. unfold w. destruct B2 as [B2|[B2|B2]].
        * rewrite CE by auto. ring.
        * rewrite B2 by auto. ring.
        * rewrite CE by auto. ring. }
  destruct CH as [sd HSD]. exists sd. split; [|split].
  - intros i Hi. unfold seeds. rewrite E2. cbn [kseed kpre vsel kget]. apply (HSD i Hi).
  - intros i l Hi E. destruct (HSD i Hi) as [_ H]. rewrite E in H. split; [apply H|discriminate 2].
  - unfold ip at 1. cbn [length sumn]. change (el [sv] 0) with sv.
    change (el [sumn n (fun j => sumn (length ss) (w j))] 0) with (sumn n (fun j => sumn (length ss) (w j))).
    rewrite Rplus_0_l, <- sumn_l.
    rewrite (sumn_ext n _ (fun j => sumn (length ss) (fun i => sv * w j i))) by (intros; now rewrite sumn_l).
    rewrite sumn_swap. apply sumn_ext. intros i Hi. destruct (HSD i Hi) as [_ H]. destruct (sd i); [symmetry; apply H|exact H].
Qed.
End K.
