(** Backward evaluation is the transpose of the derivative of the denotation. *)
From Coq Require Import Reals Lra FunctionalExtensionality.
From Coquelicot Require Import Coquelicot.
From Verif Require Import Base Num Expr Node Stat Machine Wf Pure LBase LKind LSimDef LMem LSimF LSimB Tape LTape LState LNrm
  XR Spec Nudge LReal LScal LKA LKB LVal LNudge.
Open Scope R_scope.
Set Bullet Behavior "Strict Subproofs".

(** ** Sums over cells *)
Definition inb (o : nat) (l : list nat) : bool := existsb (Nat.eqb o) l.
Lemma inb_spec o l : inb o l = true <-> In o l.
Proof.
  unfold inb. rewrite existsb_exists. split.
  - intros [x [H1 H2]]. apply Nat.eqb_eq in H2. now subst.
  - intros H. exists o. split; auto. apply Nat.eqb_refl.
Qed.
Lemma inb_f o l : ~ In o l -> inb o l = false.
Proof. intros H. destruct (inb o l) eqn:EB; auto. apply inb_spec in EB. tauto. Qed.
Lemma inb_app o l l' : inb o (l ++ l') = inb o l || inb o l'.
Proof. apply existsb_app. Qed.
Definition inr (o n i : nat) : bool := ((o <=? i) && (i <? o + n))%nat.
Lemma inr_spec o n i : inr o n i = true <-> (o <= i < o + n)%nat.
Proof. unfold inr. rewrite andb_true_iff, Nat.leb_le, Nat.ltb_lt. tauto. Qed.
Lemma inb_cells o sh i : inb i (cells sh o) = inr o (size sh) i.
Proof.
  destruct (inr o (size sh) i) eqn:EB.
  - apply inb_spec, in_cells, inr_spec, EB.
  - apply inb_f. rewrite in_cells, <- inr_spec. congruence.
Qed.
Lemma put_inr r o l i : put r o l i = if inr o (length l) i then el l (i - o) else r i.
Proof. reflexivity. Qed.
Lemma sumn_range M o n g : (o + n <= M)%nat ->
  sumn M g = sumn M (fun i => if inr o n i then 0 else g i) + sumn n (fun j => g (o + j)%nat).
Proof.
  intros H. replace M with (o + n + (M - o - n))%nat by lia. generalize (M - o - n)%nat. intros k.
  rewrite !sumn_app.
  rewrite (sumn_ext o (fun i => if inr o n i then 0 else g i) g), (sumn_0 n (fun i => if inr o n (o + i) then 0 else g (o + i)%nat)), (sumn_ext k (fun i => if inr o n (o + n + i) then 0 else g (o + n + i)%nat) (fun i => g (o + n + i)%nat)); [lra| | |].
  - intros i Hi. destruct (inr o n (o + n + i)) eqn:EB; auto. apply inr_spec in EB. lia.
  - intros i Hi. destruct (inr o n (o + i)) eqn:EB; auto. exfalso. assert (inr o n (o + i) = true) by (apply inr_spec; lia). congruence.
  - intros i Hi. destruct (inr o n i) eqn:EB; auto. apply inr_spec in EB. lia.
Qed.
Lemma sumn_put M r o l f : (o + length l <= M)%nat ->
  sumn M (fun i => put r o l i * f i) = sumn M (fun i => if inr o (length l) i then 0 else r i * f i) + ip l (map f (seq o (length l))).
Proof.
  intros H. rewrite (sumn_range M o (length l)) by exact H. f_equal.
  - apply sumn_ext. intros i Hi. rewrite put_inr. destruct (inr _ _ _); reflexivity.
  - unfold ip. apply sumn_ext. intros j Hj. rewrite put_in by auto. rewrite map_r_seq, el_tab by auto. reflexivity.
Qed.
Lemma sumn_put_r M r o l f : (o + length l <= M)%nat ->
  sumn M (fun i => f i * put r o l i) = sumn M (fun i => if inr o (length l) i then 0 else f i * r i) + ip (map f (seq o (length l))) l.
Proof.
  intros H. rewrite (sumn_ext M _ (fun i => put r o l i * f i)) by (intros; ring). rewrite sumn_put by exact H. f_equal.
  - apply sumn_ext. intros. destruct (inr _ _ _); ring.
  - unfold ip. rewrite map_length, seq_length. apply sumn_ext. intros. ring.
Qed.
(** Adding to cells. *)
Definition addp (r : nat -> R) (o : nat) (l : list R) : nat -> R := put r o (tab (length l) (fun i => r (o + i)%nat + el l i)).
Lemma addp_out r o l i : ~ (o <= i < o + length l)%nat -> addp r o l i = r i.
Proof. intros H. apply put_out. now rewrite tab_len. Qed.
Lemma addp_in r o l i : (i < length l)%nat -> addp r o l (o + i) = r (o + i)%nat + el l i.
Proof. intros H. unfold addp. rewrite put_in by (rewrite tab_len; auto). now rewrite el_tab. Qed.
Lemma addp_cells r o l n : length l = n -> map (addp r o l) (seq o n) = tab n (fun i => r (o + i)%nat + el l i).
Proof. intros <-. rewrite map_r_seq. apply tab_ext. intros. now apply addp_in. Qed.
Lemma sumn_addp M r o l f : (o + length l <= M)%nat ->
  sumn M (fun i => addp r o l i * f i) = sumn M (fun i => r i * f i) + ip l (map f (seq o (length l))).
Proof.
  intros H. unfold addp. rewrite sumn_put by (now rewrite tab_len). rewrite (sumn_range M o (length l) (fun i => r i * f i)) by auto.
  rewrite tab_len, Rplus_assoc. f_equal. unfold ip. rewrite tab_len, <- sumn_plus. apply sumn_ext. intros j Hj.
  rewrite map_r_seq, !el_tab by auto. ring.
Qed.
Lemma ip_0l n v : ip (repeat 0 n) v = 0.
Proof. unfold ip. apply sumn_0. intros i Hi. unfold el. rewrite nth_repeat. ring. Qed.
Lemma ip_0r n v : ip v (repeat 0 n) = 0.
Proof. unfold ip. apply sumn_0. intros i Hi. unfold el. rewrite nth_repeat. ring. Qed.
Lemma last_nth {X} (l : list X) d : last l d = nth (length l - 1) l d.
Proof.
  induction l as [|x l IH]; [reflexivity|]. destruct l as [|y l]; [reflexivity|].
  change (last (x :: y :: l) d) with (last (y :: l) d). rewrite IH. cbn [length]. replace (S (S (length l)) - 1)%nat with (S (S (length l) - 1)) by lia. reflexivity.
Qed.

Section Grad.
Variable la : linalg xr.
Notation N := (XR la).
Notation E := (expr xr (ann N)).
Notation liftE := (liftE la).
Variable D : nat -> R.
Notation DX := (liftE D).
Hypothesis HKV : forall k, KV la k.
Hypothesis HKA : forall k, KA la k.
Variable M : nat.

Lemma padd_lift r o l : @padd N (liftE r) o (map Fin l) = liftE (addp r o l).
Proof.
  unfold padd, addp. rewrite map_length, rdv_lift.
  assert (X : map2 (nadd N) (map Fin (map r (seq o (length l)))) (map Fin l) =
    map Fin (tab (length l) (fun i => r (o + i)%nat + el l i))).
  { rewrite map_r_seq, tab_map, (fin_list l (length l) eq_refl), tab_map2, tab_map. reflexivity. }
  rewrite X. apply upd_lift.
Qed.
Lemma rep0 n : repeat (n0 N) n = map Fin (repeat 0 n).
Proof. induction n; cbn; [reflexivity|]. now f_equal. Qed.

(** Backward sweep over operands with given seeds. *)
Definition tbo (sd : nat -> option (list xr)) : nat -> list E -> list (rec N) -> (nat -> carrier N) -> nat -> carrier N :=
  fix go i l ts a :=
    match l, ts with
    | y :: l', ty :: ts' =>
        let a := go (S i) l' ts' a in
        match sd i with None => a | Some s => @tb N y ty s a end
    | _, _ => a
    end.
Lemma tbl_tbo k (es : list E) t seed sd l : forall i ts a,
  (forall j, (i <= j < i + length l)%nat ->
     kseed k (map is_const es) (map shape_of es) (ns t) seed (vsel k (map nv (nts t)))
       (match kpre k j (vsel k (map nv (nts t))) (nv t) with None => nv t | Some f1 => f1 end) j = sd j) ->
  @tbl N k es t seed i l ts a = tbo sd i l ts a.
Proof.
  induction l as [|y l IH]; intros i ts a H; [reflexivity|]. destruct ts as [|ty ts]; [reflexivity|].
  cbn [tbl tbo]. change (carrier N) with xr in *.
  rewrite H by (cbn; lia). 
  change ((@tbl N k es t seed) (S i) l ts a) with (@tbl N k es t seed (S i) l ts a).
  rewrite (IH (S i) ts a) by (intros; apply H; cbn; lia). reflexivity.
Qed.
Lemma tbx_comp k an (es : list E) t seed a : @tb N (EComp k an es) t seed a = @tbl N k es t seed 0 es (nts t) a.
Proof. reflexivity. Qed.
Lemma tbx_for an s (es : list E) t seed a : @tb N (EFor an s es) t seed a = @tbf N seed es (nts t) a.
Proof. reflexivity. Qed.
Definition fsd (seed : list R) (ss : list shape) (i : nat) : list R :=
  if (S i =? length ss)%nat then seed else repeat 0 (size (nth_sh ss i)).
Lemma tbf_tbo seed ss (l : list E) : forall pre ts a, ss = pre ++ map shape_of l ->
  @tbf N (map Fin seed) l ts a = tbo (fun i => Some (map Fin (fsd seed ss i))) (length pre) l ts a.
Proof.
  induction l as [|y l IH]; intros pre ts a HS; [reflexivity|]. destruct ts as [|ty ts]; [reflexivity|].
  assert (HN : nth_sh ss (length pre) = shape_of y).
  { subst ss. unfold nth_sh. rewrite app_nth2 by lia. now rewrite Nat.sub_diag. }
  assert (HL : length ss = (length pre + S (length l))%nat) by (subst ss; rewrite app_length; cbn; now rewrite map_length).
  cbn [tbo]. unfold fsd at 1. rewrite HN, HL.
  destruct l as [|z l].
  - cbn [tbf length tbo]. replace (S (length pre) =? length pre + 1)%nat with true by (symmetry; apply Nat.eqb_eq; lia). reflexivity.
  - replace (S (length pre) =? length pre + S (length (z :: l)))%nat with false by (symmetry; apply Nat.eqb_neq; cbn; lia).
    change (@tbf N (map Fin seed) (y :: z :: l) (ty :: ts) a) with
      (@tb N y ty (repeat (n0 N) (size (shape_of y))) (@tbf N (map Fin seed) (z :: l) ts a)).
    rewrite rep0. f_equal. specialize (IH (pre ++ [shape_of y]) ts a). rewrite app_length in IH. cbn [length] in IH.
    replace (length pre + 1)%nat with (S (length pre)) in IH by lia. apply IH. rewrite HS, <- app_assoc. reflexivity.
Qed.

Definition BK (e : E) (t : rec N) (u : bool) (dv : list R) (dr dr' : nat -> R) : Prop :=
  forall seed al, length seed = size (shape_of e) -> (u = true -> forall j, (j < length seed)%nat -> el seed j = 1) ->
  exists al', @tb N e t (map Fin seed) (liftE al) = liftE al' /\ (forall o, ~ In o (refs e) -> al' o = al o) /\
    ip seed dv + sumn M (fun o => al o * dr' o) = sumn M (fun o => if inb o (@asg N e t) then 0 else al' o * dr o).
Definition bnd (e : E) : Prop := forall o, In o (refs e) -> (o < M)%nat.
Definition GR (e : E) : Prop := forall u (g : R -> nat -> R) dr t0 t r',
  wfs e = true -> disc e = true -> sg la D e -> bnd e -> dom D true u e (g t0) ->
  (forall o, is_derive (fun x => g x o) t0 (dr o)) -> @tf N DX e (liftE (g t0)) = (t, r') ->
  exists dv dr', length dv = size (shape_of e) /\
    (forall j, is_derive (fun x => el (val D e (g x)) j) t0 (el dv j)) /\
    (forall o, is_derive (fun x => fin_env D e (g x) o) t0 (dr' o)) /\
    (flat e = true -> locally t0 (fun x => val D e (g x) = val D e (g t0))) /\
    BK e t u dv dr dr'.

Lemma dr_keep (e : E) g dr dr' t0 o : wfs e = true -> (forall o, is_derive (fun x => g x o) t0 (dr o)) ->
  (forall o, is_derive (fun x => fin_env D e (g x) o) t0 (dr' o)) -> ~ In o (writes e) -> dr' o = dr o.
Proof.
  intros HW H1 H2 HO. eapply der_unique; [apply H2|]. eapply der_ext; [|apply (H1 o)].
  intros x. cbn. symmetry. now apply env_keep.
Qed.
(** With nudges [p] of the assigned cells. *)
Definition nBK (e : E) (t : rec N) (u : bool) (dv : list R) (dr p dr' : nat -> R) : Prop :=
  forall seed al, length seed = size (shape_of e) -> (u = true -> forall j, (j < length seed)%nat -> el seed j = 1) ->
  exists al', @tb N e t (map Fin seed) (liftE al) = liftE al' /\ (forall o, ~ In o (refs e) -> al' o = al o) /\
    ip seed dv + sumn M (fun o => al o * dr' o) = sumn M (fun o => if inb o (@asg N e t) then al' o * p o else al' o * dr o).
Definition nGR (e : E) : Prop := forall u (g h : R -> nat -> R) dr p t0 t r',
  wfs e = true -> disc e = true -> sg la D e -> bnd e -> dom D true u e (g t0) ->
  (forall o, is_derive (fun x => g x o) t0 (dr o)) -> h t0 = (fun _ => 0) -> (forall o, is_derive (fun x => h x o) t0 (p o)) ->
  @tf N DX e (liftE (g t0)) = (t, r') ->
  exists dv dr', length dv = size (shape_of e) /\
    (forall j, is_derive (fun x => el (nval D (h x) e (g x)) j) t0 (el dv j)) /\
    (forall o, is_derive (fun x => nfin D (h x) e (g x) o) t0 (dr' o)) /\
    (flat e = true -> locally t0 (fun x => nval D (h x) e (g x) = nval D (h t0) e (g t0))) /\
    nBK e t u dv dr p dr'.

Lemma ndr_keep (e : E) g (h : R -> nat -> R) dr dr' t0 o : wfs e = true -> (forall o, is_derive (fun x => g x o) t0 (dr o)) ->
  (forall o, is_derive (fun x => nfin D (h x) e (g x) o) t0 (dr' o)) -> ~ In o (writes e) -> dr' o = dr o.
Proof.
  intros HW H1 H2 HO. eapply der_unique; [apply H2|]. eapply der_ext; [|apply (H1 o)].
  intros x. cbn. symmetry. now apply nenv_keep.
Qed.
Lemma ncvals h (es : list E) : forall r i, nth i (map is_const es) false = true ->
  nth i (fst (ndens D h es r)) [] = nth i (map (cval D) es) [].
Proof.
  induction es as [|y l IH]; intros r i H; [destruct i; discriminate|]. rewrite ndens_cons. destruct i; cbn [map nth fst] in *.
  - destruct y; try discriminate; reflexivity.
  - now apply IH.
Qed.
(** The balance when some cells that [e] does not touch have other weights. *)
Lemma nbal (e : E) t seed dv dr dr' p al al' (X : nat -> bool) :
  (forall o, X o = true -> ~ In o (refs e)) -> (forall o, ~ In o (refs e) -> al' o = al o) ->
  (forall o, ~ In o (writes e) -> dr' o = dr o) ->
  ip seed dv + sumn M (fun o => al o * dr' o) = sumn M (fun o => if inb o (@asg N e t) then al' o * p o else al' o * dr o) ->
  ip seed dv + sumn M (fun o => if X o then al o * p o else al o * dr' o) =
  sumn M (fun o => if X o || inb o (@asg N e t) then al' o * p o else al' o * dr o).
Proof.
  intros HX HA HD HB.
  assert (S1 : sumn M (fun o => al o * dr' o) + sumn M (fun o => if X o then al o * p o else 0) =
    sumn M (fun o => if X o then al o * p o else al o * dr' o) + sumn M (fun o => if X o then al o * dr' o else 0)).
  { rewrite <- !sumn_plus. apply sumn_ext. intros. destruct (X i); ring. }
  assert (S2 : sumn M (fun o => if inb o (@asg N e t) then al' o * p o else al' o * dr o) + sumn M (fun o => if X o then al o * p o else 0) =
    sumn M (fun o => if X o || inb o (@asg N e t) then al' o * p o else al' o * dr o) + sumn M (fun o => if X o then al o * dr' o else 0)).
  { rewrite <- !sumn_plus. apply sumn_ext. intros i Hi. destruct (X i) eqn:EX; cbn [orb].
    - specialize (HX i EX). rewrite inb_f, HA, HD; auto; [ring| |].
      + intros Q. apply HX. now apply writes_refs.
      + intros Q. apply HX. apply writes_refs, eqw_writes, (@asg_eqw N e t). exact Q.
    - destruct (inb _ _); ring. }
  lra.
Qed.

Lemma asgs_eqw2 (es : list E) ts o : In o (@asgs N es ts) -> In o (flat_map eqw es).
Proof. apply (asgs_eqw' (N := N) es ts o). Qed.
Lemma nGRs es : Forall nGR es -> forall us i (g h : R -> nat -> R) dr p t0 ts r',
  forallb wfs es = true -> forallb disc es = true -> later eqw es = true -> sgs la D es ->
  (forall o, In o (flat_map refs es) -> (o < M)%nat) -> doms D true us i es (g t0) ->
  (forall o, is_derive (fun x => g x o) t0 (dr o)) -> h t0 = (fun _ => 0) -> (forall o, is_derive (fun x => h x o) t0 (p o)) -> @tfs N DX es (liftE (g t0)) = (ts, r') ->
  exists dvs dr', lensR dvs (map shape_of es) /\
    (forall k j, is_derive (fun x => el (nth k (fst (ndens D (h x) es (g x))) []) j) t0 (el (nth k dvs []) j)) /\
    (forall o, is_derive (fun x => snd (ndens D (h x) es (g x)) o) t0 (dr' o)) /\
    (forall k, nth k (map flat es) false = true ->
       locally t0 (fun x => nth k (fst (ndens D (h x) es (g x))) [] = nth k (fst (ndens D (h t0) es (g t0))) [])) /\
    forall (sd : nat -> option (list R)) al,
      (forall k, (k < length es)%nat -> match sd (i + k)%nat with
         | Some s => length s = size (nth_sh (map shape_of es) k) /\
                     (us (i + k)%nat = true -> forall j, (j < length s)%nat -> el s j = 1)
         | None => nth k (map writes es) [] = []
         end) ->
      exists al', tbo (fun j => option_map (map Fin) (sd j)) i es ts (liftE al) = liftE al' /\
        (forall o, ~ In o (flat_map refs es) -> al' o = al o) /\
        sumn (length es) (fun k => match sd (i + k)%nat with Some s => ip s (nth k dvs []) | None => 0 end) +
          sumn M (fun o => al o * dr' o) = sumn M (fun o => if inb o (@asgs N es ts) then al' o * p o else al' o * dr o).
Proof.
  induction 1 as [|y l HY H IH]; intros us i g h dr p t0 ts r' HW HD HLt HG HB HDom Hg Hz Hh HE.
  - inversion HE; subst. exists [], dr. split; [constructor|]. split; [|split; [|split]].
    + intros k j. cbn. destruct k; cbn; (eapply der_eq; [apply der_const|]); destruct j; reflexivity.
    + exact Hg.
    + intros [|k]; discriminate.
    + intros sd al _. exists al. split; [reflexivity|]. split; [auto|]. cbn. lra.
  - cbn [tfs] in HE. cbn [forallb] in HW, HD. apply andb_true_iff in HW, HD. destruct HW as [W1 W2], HD as [D1 D2].
    destruct (later_hd _ _ _ HLt) as [L1 L2]. destruct HG as [G1 G2]. cbn [doms] in HDom. destruct HDom as [M1 M2].
    cbn [flat_map] in HB.
    destruct (@tf N DX y (liftE (g t0))) as [t ra] eqn:F1.
    pose proof (LV_all la D HKV y (us i) (g t0) t ra W1 G1 (dom_mono D true y _ _ M1) F1) as [_ ->].
    destruct (@tfs N DX l (liftE (fin_env D y (g t0)))) as [ts' rb] eqn:F2. inversion HE; subst ts r'. clear HE.
    assert (Z1 : nfin D (h t0) y (g t0) = fin_env D y (g t0)) by (rewrite Hz; now apply nfin0).
    rewrite <- Z1 in M2, F2.
    destruct (HY (us i) g h dr p t0 t _ W1 D1 G1 ltac:(intros o Ho; apply HB, in_app_iff; auto) M1 Hg Hz Hh F1) as [dv [dr1 [A1 [A2 [A3 [A4 A5]]]]]].
    destruct (IH us (S i) (fun x => nfin D (h x) y (g x)) h dr1 p t0 ts' rb W2 D2 L2 G2 ltac:(intros o Ho; apply HB, in_app_iff; auto) M2 A3 Hz Hh F2)
      as [dvs [dr2 [B1 [B2 [B3 [B4 B5]]]]]].
    exists (dv :: dvs), dr2. split; [constructor; auto|]. split; [|split; [|split]].
    + intros k j. eapply der_ext; [intros x; rewrite ndens_cons; reflexivity|]. cbn [fst]. destruct k; [apply A2|apply B2].
    + intros o. eapply der_ext; [intros x; rewrite ndens_cons; reflexivity|]. apply B3.
    + intros k Hk. rewrite ndens_cons. eapply filter_imp; [intros x HX; rewrite ndens_cons; exact HX|].
      cbn [fst]. destruct k; [apply A4; exact Hk|apply B4; exact Hk].
    + intros sd al HS.
      destruct (B5 sd al) as [al1 [C1 [C2 C3]]].
      { intros k Hk. specialize (HS (S k) ltac:(cbn; lia)). rewrite Nat.add_succ_r in HS. exact HS. }
      cbn [tbo]. change (tbo (fun j => option_map (map Fin) (sd j)) (S i) l ts' (liftE al)) with
        ((tbo (fun j => option_map (map Fin) (sd j))) (S i) l ts' (liftE al)) in C1.
      rewrite C1. specialize (HS 0%nat ltac:(cbn; lia)). rewrite Nat.add_0_r in HS.
      assert (SM : sumn (length (y :: l)) (fun k => match sd (i + k)%nat with Some s => ip s (nth k (dv :: dvs) []) | None => 0 end) =
        match sd i with Some s => ip s dv | None => 0 end +
        sumn (length l) (fun k => match sd (S i + k)%nat with Some s => ip s (nth k dvs []) | None => 0 end)).
      { cbn [length]. rewrite sumn_S, Nat.add_0_r. f_equal. apply sumn_ext. intros k Hk. rewrite Nat.add_succ_r. reflexivity. }
      rewrite SM. clear SM. cbn [asgs].
      destruct (sd i) as [s|].
      * destruct HS as [HS1 HS2]. cbn [map nth_sh nth] in HS1.
        destruct (A5 s al1 HS1 HS2) as [al2 [E1 [E2 E3]]]. exists al2. cbn [option_map]. split; [exact E1|]. split.
        { intros o Ho. cbn [flat_map] in Ho. rewrite in_app_iff in Ho. rewrite E2, C2 by tauto. reflexivity. }
        pose proof (nbal y t s dv dr dr1 p al1 al2 (fun o => inb o (@asgs N l ts'))) as BX. cbv beta in BX.
        rewrite (sumn_ext M (fun o => if inb o (@asg N y t ++ @asgs N l ts') then al2 o * p o else al2 o * dr o)
           (fun o => if inb o (@asgs N l ts') || inb o (@asg N y t) then al2 o * p o else al2 o * dr o)).
        2: { intros o Ho. rewrite inb_app, orb_comm. reflexivity. }
        rewrite <- BX; auto.
        -- rewrite <- C3. lra.
        -- intros o Ho Hr. apply inb_spec in Ho. apply asgs_eqw2 in Ho. eapply L1; eauto.
        -- intros o Ho. eapply ndr_keep; eauto.
      * cbn [map nth] in HS. exists al1. cbn [option_map]. split; [reflexivity|]. split.
        { intros o Ho. cbn [flat_map] in Ho. rewrite in_app_iff in Ho. apply C2. tauto. }
        assert (AY : @asg N y t = []).
        { destruct (@asg N y t) as [|o q] eqn:EA; auto. exfalso. assert (In o (writes y)); [|rewrite HS in *; auto].
          apply eqw_writes, (@asg_eqw N y t). rewrite EA. left. reflexivity. }
        rewrite AY. cbn [app].
        transitivity (sumn M (fun o => if inb o (@asgs N l ts') then al1 o * p o else al1 o * dr1 o)).
        { rewrite <- C3. lra. }
        apply sumn_ext. intros o Ho. rewrite (ndr_keep y g h dr dr1 t0 o); auto. rewrite HS. auto.
Qed.

Lemma asg_nil (e : E) t : writes e = [] -> @asg N e t = [].
Proof.
  intros HW. destruct (@asg N e t) as [|o q] eqn:EA; auto. exfalso. assert (In o (writes e)); [|rewrite HW in *; auto].
  apply eqw_writes, (@asg_eqw N e t). rewrite EA. left. reflexivity.
Qed.
Lemma seeds_pure k cs ss s (V : list (list N)) seed i : seeds la k cs ss s V seed i = None -> kpure k = true.
Proof.
  unfold seeds. destruct (kf k cs ss s V) as [s' fv]. intros H. destruct (kpure k) eqn:EK; auto.
  destruct (kseed_some k cs ss s' (map Fin seed) (vsel k V) (match kpre k i (vsel k V) fv with None => fv | Some f => f end) i EK) as [l HL].
  change (carrier N) with xr in *. congruence.
Qed.

Lemma nGR_comp k an es : Forall nGR es -> nGR (EComp k an es).
Proof.
  intros H u g h dr p t0 t r' HW HDi HG HB HDom Hg Hz Hh HE.
  rewrite tfx_comp in HE. rewrite sg_comp in HG. rewrite dom_comp in HDom. destruct HG as [G1 G2]. destruct HDom as [M1 M2].
  cbn [wfs] in HW. rewrite !andb_true_iff in HW. destruct HW as [[[W1 W2] W3] W4].
  cbn [disc] in HDi. rewrite !andb_true_iff in HDi. destruct HDi as [[[D1 D2] D3] D4].
  destruct (@tfs N DX es (liftE (g t0))) as [ts r1] eqn:F1.
  destruct (LVs la D es (proj2 (Forall_forall _ _) (fun y _ => LV_all la D HKV y)) (g t0) ts r1 W1 G2) as [V1 V2]; [|exact F1|].
  { eapply domq_s; eauto. }
  destruct (nGRs es H _ 0%nat g h dr p t0 ts r1 W1 D1 (@later_weak N writes eqw es (fun e o => eqw_writes e o) D2) G2 HB M1 Hg Hz Hh F1)
    as [dvs [dr' [A1 [A2 [A3 [A4 A5]]]]]].
  assert (CV : curves (map is_const es) (map flat es) (map shape_of es) (fun x => fst (ndens D (h x) es (g x))) dvs t0).
  { constructor; auto.
    - intros x. now apply nvals_len.
    - intros i Hi x. rewrite !ncvals; auto. }
  assert (Z1 : ndens D (h t0) es (g t0) = dens D es (g t0)) by (rewrite Hz; now apply ndens0).
  pose proof (SGk_vals la D k an es (g t0) G1) as G3. rewrite <- Z1 in G3, M2.
  destruct (HKA k _ _ _ (st an) u _ dvs t0 W2 W3 CV G3 M2) as [dv [K1 [K2 K3]]]. cbv beta in K3. rewrite Z1 in K3.
  exists dv, dr'. split; [exact K1|]. split; [|split; [|split]].
  - intros j. eapply der_ext; [intros x; unfold nval; rewrite nden_comp; reflexivity|]. apply K2.
  - intros o. eapply der_ext; [intros x; unfold nfin; rewrite nden_comp; reflexivity|]. apply A3.
  - intros HF. destruct k; try discriminate HF. cbn [flat] in HF.
    unfold nval. rewrite nden_comp. cbn [fst]. eapply filter_imp; [intros x HX; rewrite nden_comp; exact HX|].
    cbn [fst]. eapply (KF_bin b); eauto.
  - intros seed al HL HU. cbn [shape_of] in HL. destruct (K3 seed HL HU) as [sd [S1 [S2 S3]]].
    assert (LS : length (map shape_of es) = length es) by apply map_length. rewrite LS in S1, S2, S3.
    destruct (A5 sd al) as [al' [B1 [B2 B3]]].
    { intros i Hi. cbn [Nat.add]. specialize (S1 i Hi). specialize (S2 i). destruct (sd i) as [l|].
      - destruct (S2 l Hi eq_refl) as [Q1 Q2]. split; [exact Q1|]. intros HO. apply andb_true_iff in HO. destruct HO. auto.
      - cbn [option_map] in S1. apply seeds_pure in S1. rewrite S1 in D3. cbn [negb orb] in D3. rewrite forallb_forall in D3.
        destruct (nth_in_or_default i (map writes es) []) as [Q|Q]; [|exact Q].
        apply in_map_iff in Q. destruct Q as [y [<- Hy]]. apply nilb_spec, D3, Hy. }
    exists al'. rewrite V1 in HE. destruct (kf k (map is_const es) (map shape_of es) (st an) (FF (fst (dens D es (g t0))))) as [s' fv] eqn:EK.
    inversion HE; subst t r'. split; [|split].
    + rewrite tbx_comp. rewrite (tbl_tbo k es _ (map Fin seed) (fun j => option_map (map Fin) (sd j))); [exact B1|].
      intros j Hj. cbn [nts ns nv]. specialize (S1 j (proj2 Hj)). unfold seeds in S1. rewrite EK in S1. rewrite V1. exact S1.
    + exact B2.
    + change (@asg N (EComp k an es) (Nd fv s' [] ts)) with (@asgs N es ts). rewrite <- B3. f_equal. exact S3.
Qed.

Lemma cells_bnd sh o : (forall i, In i (cells sh o) -> (i < M)%nat) -> (o + size sh <= M)%nat \/ size sh = 0%nat.
Proof.
  intros H. destruct (size sh) as [|n] eqn:EN; [auto|left]. assert (o + n < M)%nat; [|lia].
  apply H. apply in_cells. lia.
Qed.
Lemma range_any o n g : (forall i, (o <= i < o + n)%nat -> (i < M)%nat) ->
  sumn M g = sumn M (fun i => if inr o n i then 0 else g i) + sumn n (fun j => g (o + j)%nat).
Proof.
  intros H. destruct n as [|n].
  - cbn [sumn]. rewrite Rplus_0_r. apply sumn_ext. intros i _. destruct (inr o 0 i) eqn:EB; auto. apply inr_spec in EB. lia.
  - apply sumn_range. assert (o + n < M)%nat by (apply H; lia). lia.
Qed.
Lemma oe_der q (f h : R -> R) (t a b : R) : is_derive f t a -> is_derive h t b -> (q = ODiv -> h t <> 0) ->
  is_derive (fun x => oe_s q (f x) (h x)) t
    (match q with OAdd | OSub => 1 | OMul => h t | ODiv => / h t end * a +
     match q with OAdd => 1 | OSub => -1 | OMul => f t | ODiv => - f t / (h t * h t) end * b).
Proof.
  intros H1 H2 HN. destruct q; cbn [oe_s].
  - eapply der_eq; [apply der_plus; eassumption|ring].
  - eapply der_eq; [apply der_minus; eassumption|ring].
  - eapply der_eq; [apply der_mult; eassumption|ring].
  - specialize (HN eq_refl). eapply der_eq.
    + apply (is_derive_div f h t a b H1 H2 HN).
    + cbn. unfold minus, plus, opp, scal, mult, Rdiv; cbn. field. exact HN.
Qed.
Definition oe1 (q : oe) (x y : R) : R := match q with OAdd | OSub => 1 | OMul => y | ODiv => / y end.
Definition oe2 (q : oe) (x y : R) : R := match q with OAdd => 1 | OSub => -1 | OMul => x | ODiv => - x / (y * y) end.
Lemma oe_lseed_fin q s g x y n : length g = n -> length x = n -> length y = size s ->
  (is_scl s = true -> size s = 1%nat) -> (is_scl s = false -> size s = n) ->
  match q with ODiv => forall i, (i < n)%nat -> ent s y i <> 0 | _ => True end ->
  oe_lseed N q s (map Fin g) (map Fin x) (map Fin y) = map Fin (tab n (fun i => el g i * oe1 q (el x i) (ent s y i))).
Proof.
  intros Lg Lx Ly H1 H2 HD. unfold oe_lseed. rewrite map_length, Lg. rewrite (bc_fin la s n y) by auto.
  rewrite (fin_list x n Lx), (fin_list g n Lg), tab_map3, tab_map. apply tab_ext. intros i Hi. destruct q; cbn.
  - f_equal. ring.
  - f_equal. ring.
  - reflexivity.
  - rewrite reqb_f by auto. reflexivity.
Qed.
Lemma oe_rseed_fin q sv s g x y n : length g = n -> length x = n -> length y = size s ->
  (is_scl s = true -> size s = 1%nat) -> (is_scl s = false -> size s = n) -> (is_scl sv = true -> n = 1%nat) ->
  match q with ODiv => forall i, (i < n)%nat -> ent s y i <> 0 | _ => True end ->
  oe_rseed N q sv s (map Fin g) (map Fin x) (map Fin y) = map Fin (agg s n (fun i => el g i * oe2 q (el x i) (ent s y i))).
Proof.
  intros Lg Lx Ly H1 H2 H3 HD. unfold oe_rseed. rewrite map_length, Lg.
  assert (M3 : map3 (oe_br N q) (map Fin g) (map Fin x) (bc N s n (map Fin y)) =
    tab n (fun i => Fin (el g i * oe2 q (el x i) (ent s y i)))).
  { rewrite (bc_fin la s n y) by auto. rewrite (fin_list x n Lx), (fin_list g n Lg), tab_map3. apply tab_ext. intros i Hi. destruct q; cbn.
    - f_equal. ring.
    - f_equal. ring.
    - reflexivity.
    - rewrite reqb_f. { f_equal. field. now apply HD. }
      intros Q. apply (HD i Hi). apply Rmult_integral in Q. tauto. }
  rewrite M3. unfold agg. destruct (is_scl s) eqn:ES; cbn [andb].
  - destruct (is_scl sv) eqn:EV; cbn [negb].
    + rewrite H3 by auto. cbn. f_equal. f_equal. ring.
    + cbn [map]. change (nsum N (tab n (fun i => Fin (el g i * oe2 q (el x i) (ent s y i))))) with
       (xsum (tab n (fun i => Fin (el g i * oe2 q (el x i) (ent s y i))))). rewrite xsum_fin.
      assert (XS : nsum N (map Fin g) = Fin (sumn n (el g))).
      { rewrite (fin_list g n Lg). apply (xsum_fin n (el g)). }
      destruct q; auto. rewrite XS. cbn. do 2 f_equal. rewrite <- sumn_opp. apply sumn_ext. intros. cbn. ring.
  - apply fin_tab.
Qed.

Lemma nGR_opeq q a sh o e : nGR e -> nGR (EOpEq q a sh o e).
Proof.
  intros IHe u g h dr p t0 t r' HW HDi HG HB HDom Hg Hz Hh HE.
  cbn [tf] in HE. cbn [wfs] in HW. rewrite !andb_true_iff in HW. destruct HW as [[[W1 W2] W3] W4].
  cbn [disc] in HDi. rewrite !andb_true_iff in HDi. destruct HDi as [[D1 D2] D3].
  destruct HDom as [M1 M2]. cbn [sg] in HG.
  assert (HB1 : bnd e) by (intros i Hi; apply HB; cbn [refs]; apply in_app_iff; auto).
  assert (HBo : forall i, (o <= i < o + size sh)%nat -> (i < M)%nat).
  { intros i Hi. apply HB. cbn [refs]. apply in_app_iff. left. now apply in_cells. }
  destruct (@tf N DX e (liftE (g t0))) as [t1 r1] eqn:F1.
  destruct (LV_all la D HKV e false (g t0) t1 r1 W1 HG (dom_mono D true e _ _ M1) F1) as [V1 ->].
  destruct (IHe false g h dr p t0 t1 _ W1 D1 HG HB1 M1 Hg Hz Hh F1) as [dv [dr1 [A1 [A2 [A3 [_ A5]]]]]].
  inversion HE; subst t r'. clear HE.
  set (n := size sh) in *. set (s := shape_of e) in *. set (v := val D e (g t0)) in *. set (r1 := fin_env D e (g t0)) in *.
  assert (Ly : length v = size s) by (apply val_len; auto).
  assert (H1 : is_scl s = true -> size s = 1%nat) by (intros X; apply scl_size; [now apply wfs_shape'|exact X]).
  assert (H2 : is_scl s = false -> size s = n).
  { intros X. apply orb_true_iff in W3. destruct W3 as [W3|W3]; [congruence|]. apply shape_eqb_eq in W3. unfold n, s. unfold s in W3; now rewrite W3. }
  assert (H3 : is_scl sh = true -> n = 1%nat) by (intros X; now apply scl_size).
  set (old := map r1 (seq o n)). assert (Lo : length old = n) by (unfold old; now rewrite map_length, seq_length).
  assert (EO : forall i, (i < n)%nat -> el old i = r1 (o + i)%nat) by (intros; unfold old; now rewrite map_r_seq, el_tab).
  set (p1 := fun i => oe1 q (el old i) (ent s v i)). set (p2 := fun i => oe2 q (el old i) (ent s v i)).
  set (dw := tab n (fun i => p1 i * dr1 (o + i)%nat + p2 i * ent s dv i)).
  assert (Ldw : length dw = n) by apply tab_len.
  assert (DW : forall x, nden D (h x) (EOpEq q a sh o e) (g x) =
    (tab n (fun i => oe_s q (nfin D (h x) e (g x) (o + i)%nat) (ent s (nval D (h x) e (g x)) i)),
     put (nfin D (h x) e (g x)) o (tab n (fun i => oe_s q (nfin D (h x) e (g x) (o + i)%nat) (ent s (nval D (h x) e (g x)) i))))).
  { intros x. unfold nfin, nval. cbn [nden]. fold n s. destruct (nden D (h x) e (g x)). reflexivity. }
  assert (DV : forall j, is_derive (fun x => el (nval D (h x) (EOpEq q a sh o e) (g x)) j) t0 (el dw j)).
  { intros j. eapply der_ext; [intros x; unfold nval at 1; rewrite DW; reflexivity|]. cbn [fst].
    apply (der_tab n (fun x i => oe_s q (nfin D (h x) e (g x) (o + i)%nat) (ent s (nval D (h x) e (g x)) i))).
    intros i Hi. eapply der_eq.
    - apply (oe_der q (fun x => nfin D (h x) e (g x) (o + i)%nat) (fun x => ent s (nval D (h x) e (g x)) i) t0 (dr1 (o + i)%nat) (ent s dv i)).
      + apply A3.
      + unfold ent. apply A2.
      + intros ->. rewrite Hz, nval0 by exact W1. apply (M2 i Hi).
    - unfold p1, p2, oe1, oe2. rewrite EO by auto. rewrite Hz, nval0, nfin0 by exact W1. reflexivity. }
  exists dw, (put dr1 o dw). split; [exact Ldw|]. split; [exact DV|]. split; [|split; [discriminate|]].
  - intros i. eapply der_ext.
    + intros x. symmetry. change (nfin D (h x) (EOpEq q a sh o e) (g x)) with (snd (nden D (h x) (EOpEq q a sh o e) (g x))). rewrite DW. cbn [snd].
      rewrite put_inr, tab_len. reflexivity.
    + rewrite put_inr, Ldw. destruct (inr o n i); [|apply A3].
      eapply der_ext; [|apply (DV (i - o)%nat)]. intros x. unfold nval at 1. rewrite DW. reflexivity.
  - intros seed al HL HU. cbn [shape_of] in HL. fold n in HL. cbn [tb nts no nv].
    rewrite padd_lift, !rdv_lift, V1. fold r1 v. fold n. change (@shape_of (carrier N) (ann N) e) with s. fold old.
    set (gg := map (addp al o seed) (seq o n)).
    assert (EG : gg = tab n (fun i => al (o + i)%nat + el seed i)) by (apply addp_cells; auto).
    assert (Lg : length gg = n) by (rewrite EG; apply tab_len).
    rewrite (oe_rseed_fin q sh s gg old v n) by auto. rewrite (oe_lseed_fin q s gg old v n) by auto.
    fold p1 p2. change (fun i => el gg i * oe2 q (el old i) (ent s v i)) with (fun i => el gg i * p2 i).
    change (fun i => el gg i * oe1 q (el old i) (ent s v i)) with (fun i => el gg i * p1 i).
    rewrite rep0, upd_lift.
    set (al2 := put (addp al o seed) o (repeat 0 n)).
    destruct (A5 (agg s n (fun i => el gg i * p2 i)) al2) as [al3 [B1 [B2 B3]]].
    { now apply agg_len. }
    { discriminate 1. }
    rewrite B1, padd_lift. set (ls := tab n (fun i => el gg i * p1 i)). assert (Lls : length ls = n) by apply tab_len.
    exists (addp al3 o ls). split; [reflexivity|]. split.
    + intros i Hi. cbn [refs] in Hi. rewrite in_app_iff, in_cells in Hi. fold n in Hi.
      rewrite addp_out by (rewrite Lls; tauto). rewrite B2 by tauto. unfold al2. rewrite put_out by (rewrite repeat_length; tauto).
      rewrite addp_out by (rewrite HL; tauto). reflexivity.
    + change (@asg N (EOpEq q a sh o e) (@Nd N (oe_fwd N q s (map Fin old) (map Fin v)) (sst0 N) (map Fin old) [t1])) with (@asg N e t1).
      assert (WO : forall i, (o <= i < o + n)%nat -> ~ In i (writes e)).
      { intros i Hi Q. apply (dj_spec _ _ D2 i); [now apply in_cells|exact Q]. }
      assert (AO : forall i, (o <= i < o + n)%nat -> inb i (@asg N e t1) = false).
      { intros i Hi. apply inb_f. intros Q. apply (WO i Hi). apply eqw_writes, (@asg_eqw N e t1), Q. }
      assert (DO : forall i, (o <= i < o + n)%nat -> dr1 i = dr i).
      { intros i Hi. eapply ndr_keep; eauto. }
      rewrite (range_any o n (fun i => al i * put dr1 o dw i)) by auto.
      rewrite (range_any o n (fun i => if inb i (@asg N e t1) then addp al3 o ls i * p i else addp al3 o ls i * dr i)) by auto.
      rewrite (range_any o n (fun i => al2 i * dr1 i)) in B3 by auto.
      rewrite (range_any o n (fun i => if inb i (@asg N e t1) then al3 i * p i else al3 i * dr i)) in B3 by auto.
      rewrite ip_agg in B3 by auto.
      assert (X1 : sumn M (fun i => if inr o n i then 0 else al i * put dr1 o dw i) = sumn M (fun i => if inr o n i then 0 else al2 i * dr1 i)).
      { apply sumn_ext. intros i _. destruct (inr o n i) eqn:EI; auto. unfold al2.
        assert (~ (o <= i < o + n)%nat) by (rewrite <- inr_spec; congruence).
        rewrite !put_out by (rewrite ?Ldw, ?repeat_length; auto). rewrite addp_out by (rewrite HL; auto). reflexivity. }
      assert (X2 : sumn n (fun j => al2 (o + j)%nat * dr1 (o + j)%nat) = 0).
      { apply sumn_0. intros j Hj. unfold al2. rewrite put_in by (rewrite repeat_length; auto). unfold el. rewrite nth_repeat. ring. }
      assert (X3 : sumn M (fun i => if inr o n i then 0 else if inb i (@asg N e t1) then addp al3 o ls i * p i else addp al3 o ls i * dr i) =
                   sumn M (fun i => if inr o n i then 0 else if inb i (@asg N e t1) then al3 i * p i else al3 i * dr i)).
      { apply sumn_ext. intros i _. destruct (inr o n i) eqn:EI; auto.
        assert (~ (o <= i < o + n)%nat) by (rewrite <- inr_spec; congruence). rewrite addp_out by (rewrite Lls; auto). reflexivity. }
      assert (X4 : sumn n (fun j => if inb (o + j)%nat (@asg N e t1) then addp al3 o ls (o + j)%nat * p (o + j)%nat else addp al3 o ls (o + j)%nat * dr (o + j)%nat) =
        sumn n (fun j => if inb (o + j)%nat (@asg N e t1) then al3 (o + j)%nat * p (o + j)%nat else al3 (o + j)%nat * dr (o + j)%nat) +
        sumn n (fun j => el gg j * p1 j * dr1 (o + j)%nat)).
      { rewrite <- sumn_plus. apply sumn_ext. intros j Hj. rewrite AO by lia. rewrite addp_in by (rewrite Lls; auto).
        unfold ls. rewrite el_tab by auto. rewrite DO by lia. ring. }
      assert (X5 : ip seed dw + sumn n (fun j => al (o + j)%nat * put dr1 o dw (o + j)%nat) =
        sumn n (fun j => el gg j * p1 j * dr1 (o + j)%nat) + sumn n (fun j => el gg j * p2 j * ent s dv j)).
      { unfold ip. rewrite HL, <- !sumn_plus. apply sumn_ext. intros j Hj. rewrite put_in by (rewrite Ldw; auto).
        unfold dw. rewrite el_tab by auto. rewrite EG, el_tab by auto. ring. }
      rewrite X3, X4, X1. rewrite X2 in B3. lra.
Qed.

Lemma nGR_all e : nGR e.
Proof.
  induction e using expr_ind'.
  - intros u g h dr p t0 t r' HW HDi HG HB HDom Hg Hz Hh HE. inversion HE; subst t r'.
    exists (map dr (seq o (size sh))), dr. split; [now rewrite map_length, seq_length|]. split; [|split; [exact Hg|split; [discriminate|]]].
    + intros j. change (fun x => el (nval D (h x) (EVar sh o) (g x)) j) with (fun x => el (map (g x) (seq o (size sh))) j).
      rewrite map_r_seq. eapply der_ext; [intros x; rewrite map_r_seq; reflexivity|].
      apply (der_tab (size sh) (fun x i => g x (o + i)%nat)). intros; apply Hg.
    + intros seed al HL HU. cbn [shape_of] in HL. exists (addp al o seed). cbn [tb]. split; [apply padd_lift|]. split.
      * intros i Hi. apply addp_out. rewrite HL. cbn [refs] in Hi. now rewrite in_cells in Hi.
      * assert (EA : forall o', inb o' (@asg N (EVar sh o) (@Nd N (rdv (liftE (g t0)) o (size sh)) (sst0 N) [] [])) = false) by reflexivity.
        destruct (cells_bnd sh o HB) as [HO|HO].
        -- rewrite <- HL in HO. cbn [asg inb existsb]. rewrite sumn_addp by exact HO. rewrite HL. apply Rplus_comm.
        -- rewrite HO in HL. destruct seed; [|discriminate]. cbn [asg inb existsb ip length sumn]. unfold ip; cbn [length sumn].
           rewrite Rplus_0_l. apply sumn_ext. intros i _. rewrite addp_out by (cbn; lia). reflexivity.
  - intros u g h dr p t0 t r' HW HDi HG HB HDom Hg Hz Hh HE. inversion HE; subst t r'.
    exists (repeat 0 (size sh)), dr. split; [apply repeat_length|]. split; [|split; [exact Hg|split]].
    + intros j. eapply der_eq; [apply (der_const (el (val D (ECst sh c : E) (g t0)) j))|]. unfold el. now rewrite nth_repeat.
    + intros _. apply filter_forall. reflexivity.
    + intros seed al HL HU. exists al. split; [reflexivity|]. split; [auto|]. cbn [asg inb existsb].
      rewrite ip_0r. apply Rplus_0_l.
  - intros u g h dr p t0 t r' HW HDi HG HB HDom Hg Hz Hh HE. inversion HE; subst t r'.
    exists (repeat 0 (size sh)), dr. split; [apply repeat_length|]. split; [|split; [exact Hg|split]].
    + intros j. eapply der_eq; [apply (der_const (el (val D (ECvw sh o : E) (g t0)) j))|]. unfold el. now rewrite nth_repeat.
    + intros _. apply filter_forall. reflexivity.
    + intros seed al HL HU. exists al. split; [reflexivity|]. split; [auto|]. cbn [asg inb existsb].
      rewrite ip_0r. apply Rplus_0_l.
  - now apply nGR_comp.
  - intros u g h dr p t0 t r' HW HDi HG HB HDom Hg Hz Hh HE.
    cbn [tf] in HE. cbn [wfs] in HW. rewrite !andb_true_iff in HW. destruct HW as [[[W1 W2] W3] W4]. apply shape_eqb_eq in W3.
    cbn [disc] in HDi. rewrite !andb_true_iff in HDi. destruct HDi as [D1 D2]. cbn [sg dom] in HG, HDom.
    assert (HB1 : bnd e) by (intros i Hi; apply HB; cbn [refs]; apply in_app_iff; auto).
    assert (HBo : forall i, (o <= i < o + size sh)%nat -> (i < M)%nat).
    { intros i Hi. apply HB. cbn [refs]. apply in_app_iff. left. now apply in_cells. }
    destruct (@tf N DX e (liftE (g t0))) as [t1 r1] eqn:F1.
    destruct (LV_all la D HKV e false (g t0) t1 r1 W1 HG (dom_mono D true e _ _ HDom) F1) as [V1 ->].
    destruct (IHe false g h dr p t0 t1 _ W1 D1 HG HB1 HDom Hg Hz Hh F1) as [dv [dr1 [A1 [A2 [A3 [_ A5]]]]]].
    inversion HE; subst t r'. clear HE. rewrite <- W3 in A1.
    set (wv := fun x => tab (size sh) (fun i => el (nval D (h x) e (g x)) i + h x (o + i)%nat)).
    assert (DW : forall x, nden D (h x) (EEq a sh o e) (g x) = (wv x, put (nfin D (h x) e (g x)) o (wv x))).
    { intros x. unfold wv, nfin, nval. cbn [nden]. destruct (nden D (h x) e (g x)). reflexivity. }
    set (dw := tab (size sh) (fun i => el dv i + p (o + i)%nat)).
    assert (Ldw : length dw = size sh) by apply tab_len.
    assert (DV : forall j, is_derive (fun x => el (wv x) j) t0 (el dw j)).
    { intros j. apply (der_tab (size sh) (fun x i => el (nval D (h x) e (g x)) i + h x (o + i)%nat)).
      intros i Hi. apply der_plus; [apply A2|apply Hh]. }
    exists dw, (put dr1 o dw). split; [exact Ldw|]. split; [|split; [|split; [discriminate|]]].
    + intros j. eapply der_ext; [intros x; unfold nval at 1; rewrite DW; reflexivity|]. apply DV.
    + intros i. eapply der_ext.
      * intros x. symmetry. change (nfin D (h x) (EEq a sh o e) (g x)) with (snd (nden D (h x) (EEq a sh o e) (g x))). rewrite DW. cbn [snd].
        rewrite put_inr. unfold wv at 1. rewrite tab_len. reflexivity.
      * rewrite put_inr, Ldw. destruct (inr o (size sh) i); [apply DV|apply A3].
    + intros seed al HL HU. cbn [shape_of] in HL. cbn [tb nts]. rewrite padd_lift, rdv_lift.
      destruct (A5 (map (addp al o seed) (seq o (size sh))) (addp al o seed)) as [al' [B1 [B2 B3]]].
      { now rewrite map_length, seq_length, W3. }
      { discriminate 1. }
      exists al'. split; [exact B1|]. split.
      * intros i Hi. cbn [refs] in Hi. rewrite in_app_iff, in_cells in Hi. rewrite B2 by tauto. apply addp_out. rewrite HL. tauto.
      * change (@asg N (EEq a sh o e) (@Nd N (nv t1) (sst0 N) [] [t1])) with (cells sh o ++ @asg N e t1).
        pose proof (nbal e t1 (map (addp al o seed) (seq o (size sh))) dv dr dr1 p (addp al o seed) al' (fun i => inr o (size sh) i)) as BX. cbv beta in BX.
        rewrite (sumn_ext M (fun o0 => if inb o0 (cells sh o ++ @asg N e t1) then al' o0 * p o0 else al' o0 * dr o0)
           (fun o0 => if inr o (size sh) o0 || inb o0 (@asg N e t1) then al' o0 * p o0 else al' o0 * dr o0)).
        2: { intros i _. now rewrite inb_app, inb_cells. }
        rewrite <- BX; auto.
        -- rewrite (range_any o (size sh) (fun i => al i * put dr1 o dw i)) by auto.
           rewrite (range_any o (size sh) (fun i => if inr o (size sh) i then addp al o seed i * p i else addp al o seed i * dr1 i)) by auto.
           rewrite (sumn_ext M (fun i => if inr o (size sh) i then 0 else if inr o (size sh) i then addp al o seed i * p i else addp al o seed i * dr1 i)
             (fun i => if inr o (size sh) i then 0 else al i * put dr1 o dw i)).
           ++ assert (X : ip seed dw + sumn (size sh) (fun j => al (o + j)%nat * put dr1 o dw (o + j)%nat) =
                ip (map (addp al o seed) (seq o (size sh))) dv +
                sumn (size sh) (fun j => if inr o (size sh) (o + j) then addp al o seed (o + j)%nat * p (o + j)%nat else addp al o seed (o + j)%nat * dr1 (o + j)%nat)); [|lra].
              unfold ip. rewrite map_length, seq_length, HL, <- !sumn_plus. apply sumn_ext. intros j Hj.
              rewrite put_in by (rewrite Ldw; auto). rewrite addp_cells, el_tab by auto.
              replace (inr o (size sh) (o + j)) with true by (symmetry; apply inr_spec; lia).
              rewrite addp_in by (rewrite HL; auto). unfold dw. rewrite el_tab by auto. ring.
           ++ intros i _. destruct (inr o (size sh) i) eqn:EI; auto.
              assert (~ (o <= i < o + size sh)%nat) by (rewrite <- inr_spec; congruence).
              rewrite put_out by (rewrite Ldw; auto). rewrite addp_out by (rewrite HL; auto). reflexivity.
        -- intros i Hi Hr. apply inr_spec in Hi. apply (dj_spec _ _ D2 i); [now apply in_cells|exact Hr].
        -- intros i Hi. eapply ndr_keep; eauto.
  - now apply nGR_opeq.
  - intros u g h dr p t0 t r' HW HDi HG HB HDom Hg Hz Hh HE.
    cbn [tf] in HE. cbn [wfs] in HW. rewrite !andb_true_iff in HW. destruct HW as [[[W1 W2] W3] W4].
    cbn [disc] in HDi. rewrite !andb_true_iff in HDi. destruct HDi as [[D1 D2] D3]. cbn [sg dom] in HG, HDom.
    destruct HG as [G1 G2]. destruct HDom as [M1 M2].
    assert (HB1 : bnd e1) by (intros i Hi; apply HB; cbn [refs]; apply in_app_iff; auto).
    assert (HB2 : bnd e2) by (intros i Hi; apply HB; cbn [refs]; apply in_app_iff; auto).
    destruct (@tf N DX e1 (liftE (g t0))) as [t1 r1] eqn:F1.
    destruct (LV_all la D HKV e1 false (g t0) t1 r1 W1 G1 (dom_mono D true e1 _ _ M1) F1) as [V1 ->].
    destruct (@tf N DX e2 (liftE (fin_env D e1 (g t0)))) as [t2 r2] eqn:F2.
    destruct (IHe1 false g h dr p t0 t1 _ W1 D1 G1 HB1 M1 Hg Hz Hh F1) as [dv1 [dr1 [A1 [A2 [A3 [_ A5]]]]]].
    rewrite <- (nfin0 D e1 (g t0) W1), <- Hz in M2, F2.
    destruct (IHe2 u (fun x => nfin D (h x) e1 (g x)) h dr1 p t0 t2 _ W2 D2 G2 HB2 M2 A3 Hz Hh F2) as [dv2 [dr2 [B1 [B2 [B3 [_ B5]]]]]].
    inversion HE; subst t r'. clear HE.
    assert (DW : forall x, nden D (h x) (EGlue a e1 e2) (g x) = nden D (h x) e2 (nfin D (h x) e1 (g x))).
    { intros x. unfold nfin. cbn [nden]. destruct (nden D (h x) e1 (g x)). reflexivity. }
    exists dv2, dr2. split; [exact B1|]. split; [|split; [|split; [discriminate|]]].
    + intros j. eapply der_ext; [intros x; unfold nval; rewrite DW; reflexivity|]. apply B2.
    + intros i. eapply der_ext; [intros x; unfold nfin at 1; rewrite DW; reflexivity|]. apply B3.
    + intros seed al HL HU. cbn [shape_of] in HL. cbn [tb nts].
      destruct (B5 seed al HL HU) as [al1 [P1 [P2 P3]]].
      destruct (A5 (repeat 0 (size (shape_of e1))) al1 (repeat_length _ _) ltac:(discriminate)) as [al2 [Q1 [Q2 Q3]]].
      exists al2. split; [rewrite P1, rep0; exact Q1|]. split.
      * intros i Hi. cbn [refs] in Hi. rewrite in_app_iff in Hi. rewrite Q2, P2 by tauto. reflexivity.
      * change (@asg N (EGlue a e1 e2) (@Nd N (nv t2) (sst0 N) [] [t1; t2])) with (@asg N e1 t1 ++ @asg N e2 t2).
        pose proof (nbal e1 t1 (repeat 0 (size (shape_of e1))) dv1 dr dr1 p al1 al2 (fun i => inb i (@asg N e2 t2))) as BX. cbv beta in BX.
        rewrite (sumn_ext M (fun o0 => if inb o0 (@asg N e1 t1 ++ @asg N e2 t2) then al2 o0 * p o0 else al2 o0 * dr o0)
           (fun o0 => if inb o0 (@asg N e2 t2) || inb o0 (@asg N e1 t1) then al2 o0 * p o0 else al2 o0 * dr o0)).
        2: { intros i _. now rewrite inb_app, orb_comm. }
        rewrite <- BX; auto.
        -- rewrite ip_0l, Rplus_0_l. exact P3.
        -- intros i Hi Hr. apply inb_spec in Hi. apply (@asg_eqw N e2 t2) in Hi. exact (dj_spec _ _ D3 i Hi Hr).
        -- intros i Hi. eapply (ndr_keep e1); eauto.
  - intros u g h dr p t0 t r' HW HDi HG HB HDom Hg Hz Hh HE.
    rewrite tfx_for in HE. rewrite sg_for in HG. rewrite dom_for in HDom.
    cbn [wfs] in HW. rewrite !andb_true_iff in HW. destruct HW as [[[W1 W2] W3] W4].
    cbn [disc] in HDi. rewrite !andb_true_iff in HDi. destruct HDi as [D1 D2].
    destruct (@tfs N DX es (liftE (g t0))) as [ts r1] eqn:F1.
    set (ss := map shape_of es) in *. assert (LS : length ss = length es) by apply map_length.
    assert (M1 : doms D true (fun i => (S i =? length es)%nat && u) 0 es (g t0)).
    { assert (X : forall (l : list E) i r, (i + length l = length es)%nat -> domf D true u l r -> doms D true (fun i => (S i =? length es)%nat && u) i l r);
        [|apply X; auto].
      clear. induction l as [|y l IH]; intros i r HI; cbn [doms domf]; auto. intros [Q1 Q2]. cbn in HI. split; [|apply IH; auto; lia].
      destruct l as [|z l].
      - cbn in HI. replace (S i =? length es)%nat with true by (symmetry; apply Nat.eqb_eq; lia). exact Q1.
      - cbn in HI. replace (S i =? length es)%nat with false by (symmetry; apply Nat.eqb_neq; lia). exact Q1. }
    destruct (nGRs es H _ 0%nat g h dr p t0 ts r1 W1 D1 D2 HG HB M1 Hg Hz Hh F1) as [dvs [dr' [A1 [A2 [A3 [A4 A5]]]]]].
    inversion HE; subst t r'. clear HE.
    assert (SZ : forall i, S i = length es -> size (nth_sh ss i) = size (iter_shape s ss)).
    { intros i Hi. rewrite <- (for_iter s ss); [|clear i Hi|exact W2|unfold ss; destruct es; [discriminate|discriminate]].
      { f_equal. rewrite last_nth, LS. unfold nth_sh. f_equal. lia. }
      rewrite forallb_forall. intros sh Hs. apply in_map_iff in Hs. destruct Hs as [z [<- Hzz]].
      apply (wfs_shape' D). exact (proj1 (forallb_forall wfs es) W1 z Hzz). }
    assert (LD : length dvs = length es) by (rewrite <- LS; now apply lensR_len).
    assert (DW : forall x, nden D (h x) (EFor a s es) (g x) = (nth (length es - 1) (fst (ndens D (h x) es (g x))) [], snd (ndens D (h x) es (g x)))).
    { intros x. rewrite nden_for, last_nth. rewrite (lensR_len _ _ (nvals_len D (h x) es (g x) W1)), map_length. reflexivity. }
    exists (nth (length es - 1) dvs []), dr'. split; [|split; [|split; [|split; [discriminate|]]]].
    + destruct es as [|y l].
      * destruct dvs; [|discriminate LD]. cbn. destruct s; [discriminate|reflexivity|reflexivity].
      * cbn [shape_of]. fold ss. rewrite <- (SZ (length (y :: l) - 1)%nat) by (cbn; lia).
        apply lensR_nth; auto. rewrite LS. cbn. lia.
    + intros j. eapply der_ext; [intros x; unfold nval; rewrite DW; reflexivity|]. apply A2.
    + intros i. eapply der_ext; [intros x; unfold nfin; rewrite DW; reflexivity|]. apply A3.
    + intros seed al HL HU. cbn [shape_of] in HL. fold ss in HL.
      destruct (A5 (fun i => Some (fsd seed ss i)) al) as [al' [P1 [P2 P3]]].
      { intros k Hk. cbn [Nat.add]. unfold fsd. rewrite LS. destruct (S k =? length es)%nat eqn:EK.
        - split; [rewrite SZ by (now apply Nat.eqb_eq); auto|]. intros Q. apply HU. exact Q.
        - split; [apply repeat_length|]. discriminate 1. }
      exists al'. split; [|split].
      * rewrite tbx_for. cbn [nts]. rewrite (tbf_tbo seed ss es [] ts (liftE al) eq_refl). exact P1.
      * exact P2.
      * change (@asg N (EFor a s es) (@Nd N (nv (last ts (@Nd N [] (sst0 N) [] []))) (sst0 N) [] ts)) with (@asgs N es ts).
        rewrite <- P3. f_equal. cbn [Nat.add].
        destruct es as [|y l].
        -- cbn [length sumn]. assert (LQ : length seed = 0%nat) by (rewrite HL; destruct s; [discriminate|reflexivity|reflexivity]).
           destruct seed; [reflexivity|discriminate].
        -- rewrite (sumn_one _ (length (y :: l) - 1)) by (try (cbn; lia); intros i Hi Hn; unfold fsd; rewrite LS;
             replace (S i =? length (y :: l))%nat with false by (symmetry; apply Nat.eqb_neq; lia); apply ip_0l).
           unfold fsd. rewrite LS. replace (S (length (y :: l) - 1) =? length (y :: l))%nat with true; [reflexivity|].
           symmetry. apply Nat.eqb_eq. cbn. lia.
  - intros u g h dr p t0 t r' HW HDi HG HB HDom Hg Hz Hh HE.
    cbn [tf] in HE. cbn [wfs] in HW. rewrite !andb_true_iff in HW. destruct HW as [[[[[W1 W2] W3] W4] W5] W6]. apply shape_eqb_eq in W6.
    cbn [disc] in HDi. rewrite !andb_true_iff in HDi. destruct HDi as [[[[D0 D1] D2] D3] D4]. apply nilb_spec in D0.
    cbn [sg dom] in HG, HDom. destruct HG as [G1 [G2 G3]]. destruct HDom as [M1 [M2 M3]]. specialize (M2 eq_refl).
    assert (HB1 : bnd e1) by (intros i Hi; apply HB; cbn [refs]; rewrite !in_app_iff; auto).
    assert (HB2 : bnd e2) by (intros i Hi; apply HB; cbn [refs]; rewrite !in_app_iff; auto).
    assert (HB3 : bnd e3) by (intros i Hi; apply HB; cbn [refs]; rewrite !in_app_iff; auto).
    assert (ES : forall r, fin_env D e1 r = r) by (intros; apply env_same; auto).
    assert (ESn : forall q r, nfin D q e1 r = r) by (intros; apply nenv_same; auto).
    destruct (@tf N DX e1 (liftE (g t0))) as [t1 r1] eqn:F1.
    destruct (LV_all la D HKV e1 false (g t0) t1 r1 W1 G1 (dom_mono D true e1 _ _ M1) F1) as [V1 ->].
    destruct (IHe1 false g h dr p t0 t1 _ W1 D1 G1 HB1 M1 Hg Hz Hh F1) as [dv1 [dr1 [A1 [A2 [A3 [A4 A5]]]]]].
    rewrite ES in *.
    assert (Z1 : nval D (h t0) e1 (g t0) = val D e1 (g t0)) by (rewrite Hz; now apply nval0).
    rewrite Z1 in A4.
    assert (NT : ntrue N (hd0 N (nv t1)) = negb (reqb (el (val D e1 (g t0)) 0) 0)).
    { rewrite V1. unfold ntrue, hd0. destruct (val D e1 (g t0)); reflexivity. }
    assert (LC : locally t0 (fun x => reqb (el (nval D (h x) e1 (g x)) 0) 0 = reqb (el (val D e1 (g t0)) 0) 0)).
    { destruct M2 as [M2|M2].
      - eapply filter_imp; [|apply (A4 M2)]. intros x HX. now rewrite HX.
      - rewrite (reqb_f (el (val D e1 (g t0)) 0) 0 M2).
        pose proof (der_cont _ _ _ (A2 0%nat)) as HC. unfold continuous in HC. rewrite Z1 in HC.
        assert (HL : locally (el (val D e1 (g t0)) 0) (fun y : R => y <> 0)).
        { destruct (Rtotal_order (el (val D e1 (g t0)) 0) 0) as [X|[X|X]]; [|tauto|].
          - eapply filter_imp; [|apply (open_lt 0 _ X)]. cbn. intros; lra.
          - eapply filter_imp; [|apply (open_gt 0 _ X)]. cbn. intros; lra. }
        eapply filter_imp; [|apply (HC _ HL)]. cbn. intros x HX. now apply reqb_f. }
    assert (DW : forall x, nden D (h x) (EIf a e1 e2 e3) (g x) = if reqb (el (nval D (h x) e1 (g x)) 0) 0 then nden D (h x) e3 (g x) else nden D (h x) e2 (g x)).
    { intros x. specialize (ESn (h x) (g x)). unfold nfin, nval in *. cbn [nden]. destruct (nden D (h x) e1 (g x)) as [v1 q1]. cbn [fst snd] in *. subst q1. reflexivity. }
    assert (AN : @asg N e1 t1 = []) by (now apply asg_nil).
    rewrite NT in HE.
    destruct (reqb (el (val D e1 (g t0)) 0) 0) eqn:EC; cbn [negb] in HE.
    + destruct (@tf N DX e3 (liftE (g t0))) as [t2 r2] eqn:F2. inversion HE; subst t r'. clear HE.
      destruct (IHe3 u g h dr p t0 t2 _ W3 D3 G3 HB3 M3 Hg Hz Hh F2) as [dv [dr' [B1 [B2 [B3 [_ B5]]]]]].
      exists dv, dr'. split; [cbn [shape_of]; now rewrite W6|]. split; [|split; [|split; [discriminate|]]].
      * intros j. eapply is_derive_ext_loc; [|apply (B2 j)]. eapply filter_imp; [|exact LC]. intros x HX. unfold nval at 2. rewrite DW, HX. reflexivity.
      * intros i. eapply is_derive_ext_loc; [|apply (B3 i)]. eapply filter_imp; [|exact LC]. intros x HX. unfold nfin at 2. rewrite DW, HX. reflexivity.
      * intros seed al HL HU. cbn [shape_of] in HL. rewrite W6 in HL. destruct (B5 seed al HL HU) as [al' [P1 [P2 P3]]].
        exists al'. cbn [tb nts asg]. rewrite NT. cbn [negb]. split; [exact P1|]. split.
        { intros i Hi. apply P2. cbn [refs] in Hi. rewrite !in_app_iff in Hi. tauto. }
        change (carrier N) with xr in *. rewrite AN. exact P3.
    + destruct (@tf N DX e2 (liftE (g t0))) as [t2 r2] eqn:F2. inversion HE; subst t r'. clear HE.
      destruct (IHe2 u g h dr p t0 t2 _ W2 D2 G2 HB2 M3 Hg Hz Hh F2) as [dv [dr' [B1 [B2 [B3 [_ B5]]]]]].
      exists dv, dr'. split; [exact B1|]. split; [|split; [|split; [discriminate|]]].
      * intros j. eapply is_derive_ext_loc; [|apply (B2 j)]. eapply filter_imp; [|exact LC]. intros x HX. unfold nval at 2. rewrite DW, HX. reflexivity.
      * intros i. eapply is_derive_ext_loc; [|apply (B3 i)]. eapply filter_imp; [|exact LC]. intros x HX. unfold nfin at 2. rewrite DW, HX. reflexivity.
      * intros seed al HL HU. cbn [shape_of] in HL. destruct (B5 seed al HL HU) as [al' [P1 [P2 P3]]].
        exists al'. cbn [tb nts asg]. rewrite NT. cbn [negb]. split; [exact P1|]. split.
        { intros i Hi. apply P2. cbn [refs] in Hi. rewrite !in_app_iff in Hi. tauto. }
        change (carrier N) with xr in *. rewrite AN. exact P3.
Qed.
(** Without nudges. *)
Lemma GR_all e : GR e.
Proof.
  intros u g dr t0 t r' HW HDi HG HB HDom Hg HE.
  destruct (nGR_all e u g (fun _ _ => 0) dr (fun _ => 0) t0 t r' HW HDi HG HB HDom Hg eq_refl (fun _ => der_const 0 t0) HE)
    as [dv [dr' [A1 [A2 [A3 [A4 A5]]]]]].
  exists dv, dr'. split; [exact A1|]. split; [|split; [|split]].
  - intros j. eapply der_ext; [|apply A2]. intros x. cbn. now rewrite nval0.
  - intros o. eapply der_ext; [|apply A3]. intros x. cbn. now rewrite nfin0.
  - intros HF. eapply filter_imp; [|apply (A4 HF)]. intros x. now rewrite !nval0.
  - intros seed al HL HU. destruct (A5 seed al HL HU) as [al' [B1 [B2 B3]]]. exists al'. split; [exact B1|]. split; [exact B2|].
    rewrite B3. apply sumn_ext. intros o _. destruct (inb _ _); ring.
Qed.
Lemma GRs es : forall us i (g : R -> nat -> R) dr t0 ts r',
  forallb wfs es = true -> forallb disc es = true -> later eqw es = true -> sgs la D es ->
  (forall o, In o (flat_map refs es) -> (o < M)%nat) -> doms D true us i es (g t0) ->
  (forall o, is_derive (fun x => g x o) t0 (dr o)) -> @tfs N DX es (liftE (g t0)) = (ts, r') ->
  exists dvs dr', lensR dvs (map shape_of es) /\
    (forall k j, is_derive (fun x => el (nth k (fst (dens D es (g x))) []) j) t0 (el (nth k dvs []) j)) /\
    (forall o, is_derive (fun x => snd (dens D es (g x)) o) t0 (dr' o)) /\
    (forall k, nth k (map flat es) false = true ->
       locally t0 (fun x => nth k (fst (dens D es (g x))) [] = nth k (fst (dens D es (g t0))) [])) /\
    forall (sd : nat -> option (list R)) al,
      (forall k, (k < length es)%nat -> match sd (i + k)%nat with
         | Some s => length s = size (nth_sh (map shape_of es) k) /\
                     (us (i + k)%nat = true -> forall j, (j < length s)%nat -> el s j = 1)
         | None => nth k (map writes es) [] = []
         end) ->
      exists al', tbo (fun j => option_map (map Fin) (sd j)) i es ts (liftE al) = liftE al' /\
        (forall o, ~ In o (flat_map refs es) -> al' o = al o) /\
        sumn (length es) (fun k => match sd (i + k)%nat with Some s => ip s (nth k dvs []) | None => 0 end) +
          sumn M (fun o => al o * dr' o) = sumn M (fun o => if inb o (@asgs N es ts) then 0 else al' o * dr o).
Proof.
  intros us i g dr t0 ts r' HW HDi HLt HG HB HDom Hg HE.
  destruct (nGRs es (proj2 (Forall_forall _ _) (fun y _ => nGR_all y)) us i g (fun _ _ => 0) dr (fun _ => 0) t0 ts r' HW HDi HLt HG HB HDom Hg eq_refl (fun _ => der_const 0 t0) HE)
    as [dvs [dr' [A1 [A2 [A3 [A4 A5]]]]]].
  exists dvs, dr'. split; [exact A1|]. split; [|split; [|split]].
  - intros k j. eapply der_ext; [|apply (A2 k j)]. intros x. cbn. now rewrite ndens0.
  - intros o. eapply der_ext; [|apply A3]. intros x. cbn. now rewrite ndens0.
  - intros k HF. eapply filter_imp; [|apply (A4 k HF)]. intros x. now rewrite !ndens0.
  - intros sd al HS. destruct (A5 sd al HS) as [al' [B1 [B2 B3]]]. exists al'. split; [exact B1|]. split; [exact B2|].
    rewrite B3. apply sumn_ext. intros o _. destruct (inb _ _); ring.
Qed.
End Grad.
