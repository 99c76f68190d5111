(** Arithmetic of differentiable curves through the numbers of a run, and its
    relation to dual numbers and to runs at neighbouring points. *)
From Coq Require Import ZArith Reals Lra Psatz List Bool ClassicalEpsilon.
From Coquelicot Require Import Coquelicot.
From Verif Require Import Base Num Expr Node Stat Machine XR Spec LReal LScal Forward FSpec LFwd Ieee LParam Hess.
Import ListNotations.
Set Bullet Behavior "Strict Subproofs".
Local Open Scope R_scope.

(** A function of t, known for |t| < [cr] and differentiable at 0. *)
Record crv := Crv { cf : R -> R; cr : R; cr_pos : 0 < cr; cf_d : ex_derive cf 0 }.
Notation oc := (option crv).
Lemma near (P : R -> Prop) (c : crv) : open P -> P (cf c 0) ->
  exists d, 0 < d <= cr c /\ forall t, Rabs t < d -> P (cf c t).
Proof.
  intros HO H0. pose proof (ex_derive_continuous (cf c) 0 (cf_d c) P (HO _ H0)) as [e He].
  exists (Rmin e (cr c)). pose proof (cr_pos c). pose proof (cond_pos e). split.
  - split; [now apply Rmin_pos|apply Rmin_r].
  - intros t Ht. apply He. change (Rabs (t + - 0) < e).
    replace (t + - 0) with t by ring. eapply Rlt_le_trans; [exact Ht|apply Rmin_l].
Qed.
Definition near_r (P : R -> Prop) (c : crv) (HO : open P) (H0 : P (cf c 0)) : R :=
  proj1_sig (constructive_indefinite_description _ (near P c HO H0)).
Lemma near_ok P c HO H0 : 0 < near_r P c HO H0 <= cr c /\ forall t, Rabs t < near_r P c HO H0 -> P (cf c t).
Proof. unfold near_r. now destruct (constructive_indefinite_description _ _). Qed.
Definition lift_c (P : R -> Prop) (F : R -> R) (HO : open P) (HD : forall x, P x -> ex_derive F x) (c : crv) (H0 : P (cf c 0)) : crv :=
  Crv (fun t => F (cf c t)) (near_r P c HO H0) (proj1 (proj1 (near_ok P c HO H0))) (ex_derive_comp F (cf c) 0 (HD _ H0) (cf_d c)).
Definition lift P F HO HD (x : oc) : oc :=
  match x with
  | None => None
  | Some c => match excluded_middle_informative (P (cf c 0)) with left H => Some (lift_c P F HO HD c H) | right _ => None end
  end.
Definition cst (r : R) : oc := Some (Crv (fun _ => r) 1 Rlt_0_1 (ex_derive_const r 0)).
Definition cop2 (F : R -> R -> R) (H : forall f g : R -> R, ex_derive f 0 -> ex_derive g 0 -> ex_derive (fun t => F (f t) (g t)) 0) (x y : oc) : oc :=
  match x, y with
  | Some a, Some b => Some (Crv (fun t => F (cf a t) (cf b t)) (Rmin (cr a) (cr b)) (Rmin_pos _ _ (cr_pos a) (cr_pos b)) (H _ _ (cf_d a) (cf_d b)))
  | _, _ => None
  end.
Lemma d_plus (f g : R -> R) : ex_derive f 0 -> ex_derive g 0 -> ex_derive (fun t => f t + g t) 0.
Proof. intros [a Ha] [b Hb]. exists (a + b). now apply (is_derive_plus f g). Qed.
Lemma d_minus (f g : R -> R) : ex_derive f 0 -> ex_derive g 0 -> ex_derive (fun t => f t - g t) 0.
Proof. intros [a Ha] [b Hb]. exists (a - b). now apply (is_derive_minus f g). Qed.
Lemma d_mult (f g : R -> R) : ex_derive f 0 -> ex_derive g 0 -> ex_derive (fun t => f t * g t) 0.
Proof. intros [a Ha] [b Hb]. eexists. apply (is_derive_mult f g); eauto. intros; apply Rmult_comm. Qed.
Definition cadd := cop2 Rplus d_plus.
Definition csub := cop2 Rminus d_minus.
Definition cmul := cop2 Rmult d_mult.
Lemma open_ne0 : open (fun x : R => x <> 0). Proof. apply open_neq. Qed.
Lemma inv_d x : x <> 0 -> ex_derive Rinv x. Proof. intros H. auto_derive. auto. Qed.
Definition cinv : oc -> oc := lift (fun x => x <> 0) Rinv open_ne0 inv_d.
Definition cdiv (x y : oc) : oc := cmul x (cinv y).
Lemma un_open w : open (un_dom true w).
Proof.
  destruct w; cbn [un_dom]; try apply open_true; try apply (open_gt 0).
  - assert (Q : forall x, continuous cos x) by (intros x; apply (ex_derive_continuous cos); auto_derive; auto).
    intros x Hx. exact (Q x _ (open_ne0 _ Hx)).
  - apply open_and; [apply (open_gt (-1))|apply (open_lt 1)].
  - apply open_and; [apply (open_gt (-1))|apply (open_lt 1)].
Qed.
Lemma un_exd w x : un_dom true w x -> ex_derive (un_s w) x.
Proof. intros H. eexists. now apply un_der. Qed.
Definition cun (w : un) : oc -> oc := lift (un_dom true w) (un_s w) (un_open w) (un_exd w).
(** Unknown for the functions ForwardVar lacks or gets wrong, and comparisons. *)
Definition Curve : num :=
  let no (x : oc) : oc := None in
  {| carrier := oc; n0 := cst 0; n1 := cst 1; nhalf := cst (1 / 2); nerfc := cst (2 / sqrt PI);
     nofZ := fun z => cst (IZR z); npinf := None; nninf := None;
     nadd := cadd; nsub := csub; nmul := cmul; ndiv := cdiv; nopp := cun UNeg; nabs := no;
     nsin := cun USin; ncos := cun UCos; ntan := cun UTan; nasin := cun UAsin; nacos := cun UAcos; natan := cun UAtan;
     nexp := cun UExp; nlog := cun ULog; nsqrt := cun USqrt; nerf := no; nsinh := no; ncosh := no; ntanh := no;
     npow := fun _ _ => None; nltb := fun _ _ => false; nleb := fun _ _ => false; neqb := fun _ _ => false;
     nfin := fun _ => false;
     nsum := fun l => fold_left cadd l (cst 0); nprod := fun l => fold_left cmul l (cst 1); nla := nola None |}.

Section Rel.
Variable la : linalg xr.
Notation N := (XR la).

(** ** The run at a neighbouring point *)
Definition Rt (t : R) (x : oc) (y : xr) : Prop := match x with Some c => Rabs t < cr c -> y = Fin (cf c t) | None => True end.
(** ** The run on dual numbers *)
Definition RD (x : oc) (v : dual N) : Prop :=
  match x with Some c => v = Dual (N := N) (Fin (cf c 0)) (Fin (Derive (cf c) 0)) | None => True end.
Lemma lift_t t (P : R -> Prop) F HO HD (g : xr -> xr) x y : (forall r, P r -> g (Fin r) = Fin (F r)) -> Rt t x y -> Rt t (lift P F HO HD x) (g y).
Proof.
  intros HG. destruct x as [c|]; cbn; [|auto]. intros HR. destruct (excluded_middle_informative _) as [H|H]; cbn; [|exact I].
  intros Ht. destruct (near_ok P c HO H) as [[_ Q1] Q2]. rewrite HR by lra. apply HG. now apply Q2.
Qed.
Lemma lift_D (P : R -> Prop) F HO HD (g : dual N -> dual N) x v :
  (forall r d, P r -> exists f', is_derive F r f' /\ g (Dual (N := N) (Fin r) (Fin d)) = Dual (N := N) (Fin (F r)) (Fin (f' * d))) ->
  RD x v -> RD (lift P F HO HD x) (g v).
Proof.
  intros HG. destruct x as [c|]; cbn; [|auto]. intros ->. destruct (excluded_middle_informative _) as [H|H]; cbn; [|exact I].
  destruct (HG _ (Derive (cf c) 0) H) as [f' [Q1 ->]]. f_equal. f_equal. symmetry. apply is_derive_unique.
  pose proof (is_derive_comp F (cf c) 0 f' (Derive (cf c) 0) Q1 (Derive_correct _ _ (cf_d c))) as Q. 
  replace (f' * Derive (cf c) 0) with (scal (Derive (cf c) 0) f') by (unfold scal; cbn; unfold mult; cbn; ring). exact Q.
Qed.
Lemma cun_t t f x y : f <> FErf -> Rt t x y -> Rt t (cun (f1_un f) x) (w_ (f1_run N f (Dual (N := N) y (Fin 0)))).
Proof.
  intros HF. apply (lift_t t _ _ _ _ (fun y => w_ (f1_run N f (Dual (N := N) y (Fin 0))))). intros r Hr. now rewrite f1_fin.
Qed.
Lemma cun_D f x v : f <> FErf -> RD x v -> RD (cun (f1_un f) x) (f1_run N f v).
Proof.
  intros HF. apply lift_D. intros r d Hr. exists (un_d (f1_un f) r). split; [now apply un_der|]. now apply f1_fin.
Qed.
Lemma cop_t t F H (g : xr -> xr -> xr) : (forall a b, g (Fin a) (Fin b) = Fin (F a b)) ->
  forall x y x' y', Rt t x x' -> Rt t y y' -> Rt t (cop2 F H x y) (g x' y').
Proof.
  intros HG [a|] [b|] x' y' H1 H2; cbn; auto. cbn in H1, H2. intros Ht. pose proof (Rmin_l (cr a) (cr b)). pose proof (Rmin_r (cr a) (cr b)).
  rewrite H1, H2 by lra. apply HG.
Qed.
Lemma cop_D F H (g : dual N -> dual N -> dual N) :
  (forall a b : crv, g (Dual (N := N) (Fin (cf a 0)) (Fin (Derive (cf a) 0))) (Dual (N := N) (Fin (cf b 0)) (Fin (Derive (cf b) 0))) =
    Dual (N := N) (Fin (F (cf a 0) (cf b 0))) (Fin (Derive (fun t => F (cf a t) (cf b t)) 0))) ->
  forall x y x' y', RD x x' -> RD y y' -> RD (cop2 F H x y) (g x' y').
Proof. intros HG [a|] [b|] x' y'; cbn; auto. intros -> ->. apply HG. Qed.
Lemma add_t t x y x' y' : Rt t x x' -> Rt t y y' -> Rt t (cadd x y) (xadd x' y').
Proof. now apply cop_t. Qed.
Lemma mul_t t x y x' y' : Rt t x x' -> Rt t y y' -> Rt t (cmul x y) (xmul x' y').
Proof. now apply cop_t. Qed.
Lemma add_D x y x' y' : RD x x' -> RD y y' -> RD (cadd x y) (f2_run N FAdd x' y').
Proof. apply cop_D. intros a b. cbn. rewrite (Derive_plus (cf a) (cf b)) by apply cf_d. reflexivity. Qed.
Lemma sub_D x y x' y' : RD x x' -> RD y y' -> RD (csub x y) (f2_run N FSub x' y').
Proof. apply cop_D. intros a b. cbn. rewrite (Derive_minus (cf a) (cf b)) by apply cf_d. reflexivity. Qed.
Lemma mul_D x y x' y' : RD x x' -> RD y y' -> RD (cmul x y) (f2_run N FMul x' y').
Proof. apply cop_D. intros a b. cbn. rewrite (Derive_mult (cf a) (cf b)) by apply cf_d. do 2 f_equal. ring. Qed.
Lemma div_t t x y x' y' : Rt t x x' -> Rt t y y' -> Rt t (cdiv x y) (xdiv x' y').
Proof.
  destruct x as [a|], y as [b|]; try exact (fun _ _ => I). intros H1 H2. unfold cdiv, cinv. cbn [lift].
  destruct (excluded_middle_informative _) as [H|H]; [|exact I]. cbn. intros Ht.
  destruct (near_ok _ b open_ne0 H) as [[_ Q1] Q2]. set (n := near_r _ _ _ _) in *.
  pose proof (Rmin_l (cr a) n). pose proof (Rmin_r (cr a) n). cbn in H1, H2. rewrite H1, H2 by lra.
  cbn. rewrite reqb_f; [reflexivity|]. apply Q2. lra.
Qed.
Lemma div_D x y x' y' : RD x x' -> RD y y' -> RD (cdiv x y) (f2_run N FDiv x' y').
Proof.
  destruct x as [a|], y as [b|]; try exact (fun _ _ => I). intros H1 H2. unfold cdiv, cinv. cbn [lift].
  destruct (excluded_middle_informative _) as [H|H]; [|exact I]. cbn [RD cmul cop2 cf lift_c] in *. subst x' y'. cbn.
  assert (HB : cf b 0 * cf b 0 <> 0) by nra. rewrite !reqb_f by assumption. f_equal. f_equal.
  rewrite (Derive_ext (fun t => cf a t * / cf b t) (fun t => cf a t / cf b t)) by reflexivity.
  rewrite Derive_div by (try apply cf_d; exact H). unfold Rdiv, Rsqr. cbn. rewrite Rmult_1_r. reflexivity.
Qed.
Lemma fold_t t (f : oc -> oc -> oc) (g : xr -> xr -> xr) : (forall x y x' y', Rt t x x' -> Rt t y y' -> Rt t (f x y) (g x' y')) ->
  forall l l', Forall2 (Rt t) l l' -> forall a a', Rt t a a' -> Rt t (fold_left f l a) (fold_left g l' a').
Proof. intros HF l l' H a a'. eapply F2_fold; [|exact H]. auto. Qed.
Lemma prelT t : @prel Curve N (Rt t).
Proof.
  constructor; try (intros; exact I); try (intros; cbn; reflexivity).
  - exact (add_t t).
  - apply (cop_t t Rminus d_minus xsub). reflexivity.
  - exact (mul_t t).
  - exact (div_t t).
  - intros x x' H. exact (cun_t t FNeg x x' ltac:(discriminate) H).
  - intros x x' H. exact (cun_t t FSin x x' ltac:(discriminate) H).
  - intros x x' H. exact (cun_t t FCos x x' ltac:(discriminate) H).
  - intros x x' H. exact (cun_t t FTan x x' ltac:(discriminate) H).
  - intros x x' H. exact (cun_t t FAsin x x' ltac:(discriminate) H).
  - intros x x' H. exact (cun_t t FAcos x x' ltac:(discriminate) H).
  - intros x x' H. exact (cun_t t FAtan x x' ltac:(discriminate) H).
  - intros x x' H. exact (cun_t t FExp x x' ltac:(discriminate) H).
  - intros x x' H. exact (cun_t t FLog x x' ltac:(discriminate) H).
  - intros x x' H. exact (cun_t t FSqrt x x' ltac:(discriminate) H).
  - intros l l' H. apply (fold_t t cadd xadd (add_t t) l l' H). cbn. reflexivity.
  - intros l l' H. apply (fold_t t cmul xmul (mul_t t) l l' H). cbn. reflexivity.
  - intros x x' H. destruct x as [c|]; [|right; split; [reflexivity|intros [a|] [b|] y; exact I]].
    destruct (excluded_middle_informative (cf c 0 <> 0)) as [H0|H0].
    + destruct (near_ok _ c open_ne0 H0) as [[_ Q1] Q2]. destruct (Rlt_dec (Rabs t) (near_r _ c open_ne0 H0)) as [L|L].
      * left. cbn in H. rewrite H by lra. cbn. symmetry. apply reqb_f. now apply Q2.
      * right. split; [reflexivity|]. intros [a|] [b|] y; try exact I; cbn -[Rmin]; unfold cdiv, cinv; cbn [lift];
          (destruct (excluded_middle_informative _) as [H1|H1]; [|exact I]); try exact I. cbn. intros Ht. exfalso.
        destruct (near_ok _ c open_ne0 H1) as [[_ Q3] Q4]. apply L.
        replace H0 with H1 by apply proof_irrelevance. 
        eapply Rlt_le_trans; [exact Ht|]. eapply Rle_trans; apply Rmin_r.
    + right. split; [reflexivity|]. intros [a|] [b|] y; try exact I; cbn -[Rmin]; unfold cdiv, cinv; cbn [lift];
      (destruct (excluded_middle_informative _) as [H1|H1]; [contradiction|exact I]).
Qed.
Lemma cst_D r : RD (cst r) (Dual (N := N) (Fin r) (Fin 0)).
Proof. cbn. f_equal. f_equal. symmetry. apply Derive_const. Qed.
Lemma fold_D (f : oc -> oc -> oc) g : (forall x y x' y', RD x x' -> RD y y' -> RD (f x y) (g x' y')) ->
  forall l l', Forall2 RD l l' -> forall a a', RD a a' -> RD (fold_left f l a) (fold_left g l' a').
Proof. intros HF l l' H a a'. eapply F2_fold; [|exact H]. auto. Qed.
Lemma prelD : @prel Curve (Duo N) RD.
Proof.
  constructor; try (intros; exact I); try (intros; apply cst_D).
  - exact add_D. - exact sub_D. - exact mul_D. - exact div_D.
  - intros x x' H. exact (cun_D FNeg x x' ltac:(discriminate) H).
  - intros x x' H. exact (cun_D FSin x x' ltac:(discriminate) H).
  - intros x x' H. exact (cun_D FCos x x' ltac:(discriminate) H).
  - intros x x' H. exact (cun_D FTan x x' ltac:(discriminate) H).
  - intros x x' H. exact (cun_D FAsin x x' ltac:(discriminate) H).
  - intros x x' H. exact (cun_D FAcos x x' ltac:(discriminate) H).
  - intros x x' H. exact (cun_D FAtan x x' ltac:(discriminate) H).
  - intros x x' H. exact (cun_D FExp x x' ltac:(discriminate) H).
  - intros x x' H. exact (cun_D FLog x x' ltac:(discriminate) H).
  - intros x x' H. exact (cun_D FSqrt x x' ltac:(discriminate) H).
  - intros l l' H. apply (fold_D cadd _ add_D l l' H). apply cst_D.
  - intros l l' H. apply (fold_D cmul _ mul_D l l' H). apply cst_D.
  - intros x x' H. destruct x as [c|]; [|right; split; [reflexivity|intros [a|] [b|] y; exact I]].
    destruct (excluded_middle_informative (cf c 0 <> 0)) as [H0|H0].
    + left. cbn in H. rewrite H. cbn. symmetry. now apply reqb_f.
    + right. split; [reflexivity|]. intros [a|] [b|] y; try exact I; cbn -[Rmin]; unfold cdiv, cinv; cbn [lift];
      (destruct (excluded_middle_informative _) as [H1|H1]; [contradiction|exact I]).
Qed.
End Rel.
