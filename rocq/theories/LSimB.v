(** Backward evaluation of the machine refines [pb]. *)
From Verif Require Import Base Num Expr Node Stat Machine Wf Pure LBase LKind LSimDef LMem LSimF.

Section SimB.
Context {N : num}.
Notation T := (carrier N).
Notation E := (expr T (ann N)).
Notation env := (nat -> T).

(** ** Unfolding *)
Section Unf.
Variables (k : kd) (an : ann N) (es : list E) (n : nat) (ss : list shape) (cs : list bool)
          (seed : list T).
Definition bgo (p0 : list (list T) * list T * list T) :=
  fix go (i : nat) (l : list E) (m : mem T) {struct l} : res (mem T) :=
   match l with
   | [] => Ok m
   | x :: t =>
       m <- go (S i) t m ;;
       '(vs, f, ad) <- (if klazy k ss then pack k an es n seed m else Ok p0) ;;
       let pre := kpre k i vs f in
       m <- match pre with Some f1 => store m (av an) f1 | None => Ok m end ;;
       let f := match pre with Some f1 => f1 | None => f end in
       m <- match kseed k cs ss (st an) ad vs f i with
            | None => Ok m
            | Some s =>
                s <- chk (size (shape_of x)) s ;;
                m <- (if kaux k then store m (xa an) s else Ok m) ;;
                beval x s m
            end ;;
       match pre with
       | None => Ok m
       | Some _ =>
           f <- load m (av an) n ;;
           v <- rdref m (getref x) ;;
           store m (av an) (map2 (nmul N) f v)
       end
   end.

Definition adv (x : option nat) (a : env) := if kadj k then rx x a n seed else seed.
Definition pgo (x : option nat) (t : tape N) P0 :=
  fix go (pre : list (pref N)) (l : list E) (ts : list (tape N)) (r a : env) {struct l}
   : list (pref N) * list T * env * env :=
     match l, ts with
     | y :: l', ty :: ts' =>
         let '(qs, f, r, a) := go (pre ++ [tp ty]) l' ts' r a in
         let '(vs, fv, ad) :=
           if klazy k ss
           then (vsel k (map (rdp r) (pre ++ tp ty :: qs)), rx x r n f, adv x a)
           else P0 in
         let i := length pre in
         let pr := kpre k i vs fv in
         let '(f, r, fv) :=
           match pr with
           | None => (f, r, fv)
           | Some f1 => (match x with None => f1 | Some _ => f end, wx x r f1, f1)
           end in
         let '(q, r, a) :=
           match kseed k cs ss (tst t) ad vs fv i with
           | None => (tp ty, r, a)
           | Some s => pb None y ty s r a
           end in
         match pr with
         | None => (q :: qs, f, r, a)
         | Some _ => let w := map2 (nmul N) (rx x r n f) (rdp r q) in
                     (q :: qs, match x with None => w | Some _ => f end, wx x r w, a)
         end
     | _, _ => ([], tv t, r, a)
     end.
End Unf.

Lemma beval_comp k an es seed m : es <> [] ->
  beval (EComp k an es) seed m =
  (let n := size (kshape k (map shape_of es)) in
   seed <- chk n seed ;;
   m <- (if kadj k then store m (aa an) seed else Ok m) ;;
   p0 <- pack k an es n seed m ;;
   bgo k an es n (map shape_of es) (map is_const es) seed p0 0 es m).
Proof. destruct es; [congruence|reflexivity]. Qed.

Lemma pb_comp x k an es t seed r a : es <> [] ->
  pb x (EComp k an es) t seed r a =
  (let n := size (kshape k (map shape_of es)) in
   let a0 := if kadj k then wx x a seed else a in
   let P0 := (vsel k (map (fun t => rdp r (tp t)) (tts t)), rx x r n (tv t), adv k n seed x a0) in
   let '(_, f, r', a') := pgo k n (map shape_of es) (map is_const es) seed x t P0 [] es (tts t) r a0 in
   (px x n (PL f), r', a')).
Proof. destruct es; [congruence|reflexivity]. Qed.

Definition fgo (seed : list T) :=
  fix go (l : list E) (m : mem T) {struct l} : res (mem T) :=
   match l with
   | [] => Ok m
   | x :: t => match t with
               | [] => beval x seed m
               | _ :: _ => m1 <- go t m ;;
                           beval x (repeat (n0 N) (size (shape_of x))) m1
               end
   end.
Lemma beval_for an s es seed m : beval (EFor an s es) seed m = fgo seed es m.
Proof. reflexivity. Qed.
Definition pfgo (d : pref N) (seed : list T) :=
  fix go (l : list E) (ts : list (tape N)) (r a : env) {struct l} :=
   match l, ts with
   | y :: l', ty :: ts' =>
       match l' with
       | [] => pb None y ty seed r a
       | _ :: _ =>
           let '(q, r1, a1) := go l' ts' r a in
           let '(_, r2, a2) := pb None y ty (repeat (n0 N) (size (shape_of y))) r1 a1 in
           (q, r2, a2)
       end
   | _, _ => (d, r, a)
   end.
Lemma pb_for x an s es t seed r a :
  pb x (EFor an s es) t seed r a =
  (let '(q, r', a') := pfgo (tp t) seed es (tts t) r a in
   (px x (size (iter_shape s (map shape_of es))) q, r', a')).
Proof. reflexivity. Qed.

(** ** Statement *)
Context {bv ba : nat}.
Hypothesis Hbv : bv <> 0 /\ bv <> 1 /\ bv <> 4.
Hypothesis Hba : ba <> 0 /\ ba <> 1 /\ ba <> 4 /\ ba <> bv.
Context {V W : nat -> Prop}.
Context {D : env}.
Notation lay := (lay bv ba).
Notation lays := (lays bv ba).
Notation MR := (MR V W D).
Notation refR := (refR bv V).
Notation K := (K bv ba V).
Notation Ks := (Ks bv ba V).
Implicit Types (m : mem T) (r : env).
Hypothesis LL : la_len N.

Definition BP (x : option nat) (e : E) v v' a a' : nat -> nat -> Prop := fun b o =>
  (b = bv /\ v <= o < v') \/ (b = ba /\ a <= o < a') \/
  (b = 0 /\ (In o (writes e) \/ xin x (size (shape_of e)) o)) \/
  (b = 1 /\ (In o (refs e) \/ xin x (size (shape_of e)) o)).
Definition preB (x : option nat) (e : E) : Prop :=
  wfs e = true /\ (forall o, In o (refs e) -> V o) /\
  (forall o, xin x (size (shape_of e)) o -> V o) /\ (x <> None -> rhs_ok e = true).

Definition BS (e : E) : Prop := forall x t seed v a v' a' m r al,
  K x e t m v a v' a' -> preB x e -> MR m r al -> alc m ba a a' ->
  length seed = size (shape_of e) ->
  exists m', beval e seed m = Ok m' /\
    let '(q, r', al') := pb x e t seed r al in
    MR m' r' al' /\ (gettable e = true -> refR m' v v' (size (shape_of e)) (getref e) q) /\
    fr (BP x e v v' a a') m m'.

Lemma preB_intro (e : E) : wfs e = true -> (forall o, In o (refs e) -> V o) -> preB None e.
Proof. intros H1 H2. split; [auto|split; [auto|split]]; [cbn; tauto|intros Hx; now destruct Hx]. Qed.

Lemma K_get e x t m v a v' a' : K x e t m v a v' a' -> gettable e = true ->
  refR m v v' (size (shape_of e)) (getref e) (tp t).
Proof. destruct e; cbn; intros [H _] G; auto. Qed.

Lemma padd_upd m r al o s sh : MR m r al -> (forall i, o <= i < o + size sh -> V i) ->
  length s = size sh ->
  exists m', var_beval sh o s m = Ok m' /\ MR m' r (padd al o s) /\
    fr (fun b i => b = 1 /\ o <= i < o + size sh) m m'.
Proof.
  intros HM HV HL. unfold var_beval. rewrite (chk_ok _ _ HL). cbn [bindR].
  rewrite (MR_load1 _ _ _ _ _ HM HV). cbn [bindR].
  destruct (store_ok m 1 o (map2 (nadd N) (rdv al o (size sh)) s)) as [m' [E1 U]].
  { intros i Hi. rewrite map2_length, rdv_length in Hi. eapply MR_alloc1; eauto. apply HV. lia. }
  exists m'. split; [exact E1|]. split.
  - unfold padd. rewrite HL. eapply MR_upd1; eauto.
  - eapply fr_weak; [|eapply updm_fr; eauto]. cbn. rewrite map2_length, rdv_length. intros; lia.
Qed.

Lemma Ks_snoc m pes : forall pts v a vm am y ty v2 a2,
  Ks m vm am pes pts v a -> K None y ty m vm am v2 a2 ->
  Ks m v2 a2 (pes ++ [y]) (pts ++ [ty]) v a.
Proof.
  clear. induction pes; intros [|pt pts] v a' vm am y ty v2 a2 KP KY; cbn in KP; try contradiction.
  - destruct KP as [-> ->]. exists v2, a2. split; [assumption|]. split; reflexivity.
  - destruct KP as [v3 [a3 [K1 K2]]]. exists v3, a3. split; [assumption|]. 
    change (Ks m v2 a2 (pes ++ [y]) (pts ++ [ty]) v3 a3). eapply IHpes; eauto.
Qed.
Lemma Ks_len m pes : forall pts v a vm am, Ks m vm am pes pts v a -> length pts = length pes.
Proof.
  clear. induction pes; intros [|pt pts] v a' vm am KP; cbn in KP; try contradiction; auto.
  destruct KP as [v3 [a3 [K1 K2]]]. cbn. f_equal. eapply IHpes; eauto.
Qed.

Definition REF m lo hi (l : list E) (qs : list (pref N)) : Prop :=
  Forall2 (fun e q => gettable e = true -> refR m lo hi (size (shape_of e)) (getref e) q) l qs.

Lemma REF_mono m lo hi lo' hi' l qs : lo' <= lo -> hi <= hi' -> REF m lo hi l qs -> REF m lo' hi' l qs.
Proof. intros H1 H2 H. induction H; constructor; auto. intros. eapply refR_mono; [..|auto]; eauto. Qed.
Lemma REF_frame m m' lo hi l qs : (forall o, lo <= o < hi -> m' bv o = m bv o) ->
  (forall o, m' 4 o = m 4 o) -> REF m lo hi l qs -> REF m' lo hi l qs.
Proof. intros H1 H2 H. induction H; constructor; auto. intros. eapply refR_frame; eauto. Qed.
Lemma Ks_REF m l : forall ts lo ao hi ah, Ks m hi ah l ts lo ao -> REF m lo hi l (map tp ts).
Proof.
  induction l; intros [|ty ts] lo ao hi ah HK; cbn in HK; try contradiction; [constructor|].
  destruct HK as [v2 [a2 [K1 K2]]]. pose proof (K_le _ _ _ _ _ _ _ _ K1).
  pose proof (Ks_le _ _ _ _ _ _ _ K2). constructor.
  - intros G. eapply refR_mono; [| |eapply K_get; eauto]; lia.
  - eapply REF_mono; [| |eapply IHl; eauto]; lia.
Qed.

(** ** The operand loop *)
Section Loop.
Variables (k : kd) (an : ann N) (es : list E) (t : tape N) (x : option nat) (seed : list T).
Variables v a v1 a1 v' a' : nat.
Notation ss := (map shape_of es).
Notation cs := (map is_const es).
Notation n := (size (kshape k (map shape_of es))).
Notation n0' := (size (nth_sh (map shape_of es) 0)).
Hypothesis Hst : st an = tst t.
Hypothesis Hpost : stpost N k ss (tst t).
Hypothesis Hshape : kshape_ok k ss = true.
Hypothesis Hget : kget k = true -> forallb gettable es = true.
Hypothesis Hseed : length seed = n.
Hypothesis HXA : kaux k = true -> xa an = Ptr ba a1.
Hypothesis Hown : match x with
    | None =>
        let a2 := if kaux k then a1 + n0' else a1 in
        av an = Ptr bv v1 /\ (kadj k = true -> aa an = Ptr ba a2) /\
        v' = v1 + n /\ a' = if kadj k then a2 + n else a2
    | Some c => kaux k = false /\ av an = Ptr 0 c /\ aa an = Ptr 1 c /\ v' = v1 /\ a' = a1
    end.
Hypothesis HxV : forall o, xin x n o -> V o.

Definition ownf m f : Prop := match x with None => load m (av an) n = Ok f /\ length f = n | Some _ => True end.
Definition owna m : Prop :=
  kadj k = true -> match x with None => load m (aa an) n = Ok seed | Some _ => True end.
Definition LP (v a : nat) : nat -> nat -> Prop := fun b o =>
  (b = bv /\ v <= o < v') \/ (b = ba /\ a <= o < a') \/
  (b = 0 /\ (In o (flat_map writes es) \/ xin x n o)) \/
  (b = 1 /\ In o (flat_map refs es)).

Lemma pack_ok m r al qs f : MR m r al -> REF m v v1 es qs -> ownf m f -> owna m ->
  pack k an es n seed m =
    Ok (vsel k (map (rdp r) qs), rx x r n f, adv k n seed x al) /\
  vlens N k (vsel k (map (rdp r) qs)) ss /\
  length (rx x r n f) = n /\ length (adv k n seed x al) = n.
Proof.
  intros HM HR HF HA. unfold pack, vsel, vlens, adv.
  assert (E1 : (if kget k then mapR (fun e => rdref m (getref e)) es else Ok (map (fun _ => []) es)) =
     Ok (if kget k then map (rdp r) qs else map (fun _ => []) (map (rdp r) qs)) /\
     if kget k then lens N (if kget k then map (rdp r) qs else map (fun _ => []) (map (rdp r) qs)) ss else True).
  { destruct (kget k).
    - specialize (Hget eq_refl). clear - HM HR Hget. induction HR; cbn; [split; constructor|].
      cbn in Hget. apply andb_true_iff in Hget. destruct Hget as [G1 G2].
      destruct (refR_read _ _ _ _ _ _ _ _ HM (H G1)) as [-> L]. cbn [bindR].
      destruct (IHHR G2) as [-> L2]. cbn. split; [reflexivity|constructor; auto].
    - split; [|exact I]. f_equal. rewrite map_map. clear - HR. induction HR; cbn; congruence. }
  destruct E1 as [E1 E1']. rewrite E1. cbn [bindR].
  assert (E2 : load m (av an) n = Ok (rx x r n f) /\ length (rx x r n f) = n).
  { unfold ownf in HF. destruct x as [c|]; cbn [rx]; [|auto].
    destruct Hown as [_ [-> _]]. split; [|apply rdv_length]. eapply MR_load0; eauto. }
  destruct E2 as [E2 E2']. rewrite E2. cbn [bindR].
  assert (E3 : (if kadj k then load m (aa an) n else Ok seed) = Ok (if kadj k then rx x al n seed else seed) /\
     length (if kadj k then rx x al n seed else seed) = n).
  { destruct (kadj k) eqn:Ek; [|auto]. specialize (HA Ek). destruct x as [c|]; cbn [rx]; [|auto].
    destruct Hown as [_ [_ [-> _]]]. split; [|apply rdv_length]. eapply MR_load1; eauto. }
  destruct E3 as [E3 E3']. rewrite E3. cbn [bindR]. auto.
Qed.

Definition P0ok (p0 : list (list T) * list T * list T) : Prop :=
  let '(vs, f, ad) := p0 in vlens N k vs ss /\ length f = n /\ length ad = n.

Lemma own_store m r al f f1 : MR m r al -> ownf m f -> length f1 = n ->
  exists m', store m (av an) f1 = Ok m' /\ MR m' (wx x r f1) al /\
    ownf m' (match x with None => f1 | Some _ => f end) /\
    fr (fun b o => (x = None /\ b = bv /\ v1 <= o < v') \/ (b = 0 /\ xin x n o)) m m'.
Proof.
  intros HM HF HL. unfold ownf in *. destruct x as [c|]; cbn [wx].
  - destruct Hown as [_ [AV _]]. rewrite AV in *.
    destruct (store_ok m 0 c f1) as [m' [E1 U]].
    { intros i Hi. eapply MR_alloc0; eauto. apply HxV. cbn. lia. }
    exists m'. split; [exact E1|]. split; [eapply MR_upd0; eauto|]. split; [exact I|].
    eapply fr_weak; [|eapply updm_fr; eauto]. cbn. rewrite HL. intros b o Hb. right. exact Hb.
  - destruct Hown as [AV [_ [EV _]]]. rewrite AV in *. destruct HF as [HF HF'].
    destruct (store_ok m bv v1 f1) as [m' [E1 U]].
    { intros i Hi. apply load_inv in HF. destruct HF as [_ HF]. rewrite HF by lia. discriminate. }
    exists m'. split; [exact E1|]. split; [|split].
    + eapply MR_fr; [eapply updm_fr; eauto| |assumption]. cbn. intros; lia.
    + split; auto. rewrite <- HL. eapply updm_load; eauto.
    + eapply fr_weak; [|eapply updm_fr; eauto]. cbn. intros b o Hb. left. split; [reflexivity|lia].
Qed.

Lemma ownf_frame m m' f : (forall o, v1 <= o < v' -> m' bv o = m bv o) -> ownf m f -> ownf m' f.
Proof.
  intros F. unfold ownf. destruct x; auto. destruct Hown as [AV [_ [EV _]]]. rewrite AV.
  intros [H1 H2]. split; auto. eapply load_frame; [|exact H1]. intros; apply F; lia.
Qed.
Lemma owna_frame m m' : (forall o, a1 + (if kaux k then n0' else 0) <= o < a' -> m' ba o = m ba o) -> owna m -> owna m'.
Proof.
  intros F. unfold owna. intros HO Ek. specialize (HO Ek). destruct x; auto.
  destruct Hown as [AV [AA [EV EA]]]. rewrite Ek in EA. rewrite (AA Ek) in *.
  eapply load_frame; [|exact HO]. intros; apply F. destruct (kaux k); lia.
Qed.

Lemma nth_sh_split (pes : list E) y l : nth_sh (map shape_of (pes ++ y :: l)) (length pes) = shape_of y.
Proof.
  unfold nth_sh. rewrite map_app, app_nth2; rewrite map_length; [|lia]. now rewrite Nat.sub_diag.
Qed.

Hypothesis HBS : Forall BS es.
Hypothesis HpreB : Forall (preB None) es.
Variable p0 : list (list T) * list T * list T.
Hypothesis Hp0 : P0ok p0.

Lemma loop_ok l : forall pes pts lts vm am m r al f0,
  es = pes ++ l -> f0 = tv t ->
  Ks m vm am pes pts v a -> Ks m v1 a1 l lts vm am ->
  MR m r al -> ownf m f0 -> owna m -> alc m ba a a' ->
  exists m', bgo k an es n ss cs seed p0 (length pes) l m = Ok m' /\
    let '(qs, f, r', al') := pgo k n ss cs seed x t p0 (map tp pts) l lts r al in
    MR m' r' al' /\ REF m' vm v1 l qs /\ ownf m' f /\ owna m' /\ fr (LP vm am) m m'.
Proof.
  induction l as [|y l IH]; intros pes pts lts vm am m r al f0 Hes Hf0 KP KL HM HF HA HC.
  - destruct lts; [|destruct KL]. destruct KL as [-> ->]. exists m. cbn. split; [reflexivity|].
    subst f0. split; [assumption|]. split; [constructor|].
    split; [assumption|]. split; [assumption|]. apply fr_refl.
  - destruct lts as [|ty lts]; [destruct KL|]. destruct KL as [v2 [a2 [KY KL]]].
    pose proof (K_le _ _ _ _ _ _ _ _ KY) as LY. pose proof (Ks_le _ _ _ _ _ _ _ KL) as LLs.
    pose proof (Ks_le _ _ _ _ _ _ _ KP) as LPs.
    assert (LA : v1 <= v' /\ a1 + (if kaux k then n0' else 0) <= a').
    { destruct x; [destruct Hown as [Hk Ho]; rewrite Hk; lia|].
      destruct Hown as [_ [_ [-> ->]]]. destruct (kaux k), (kadj k); lia. }
    assert (KP2 : Ks m v2 a2 (pes ++ [y]) (pts ++ [ty]) v a).
    { eapply Ks_snoc; eauto. }
    destruct (IH (pes ++ [y]) (pts ++ [ty]) lts v2 a2 m r al f0) as [m1 [E1 Q]]; auto.
    { now rewrite <- app_assoc. }
    rewrite app_length in E1. cbn [length] in E1. rewrite Nat.add_1_r in E1.
    cbn [bgo pgo]. 
    change ((fix go (i : nat) (l : list E) (m : mem T) {struct l} := _) (S (length pes)) l m)
      with (bgo k an es n ss cs seed p0 (S (length pes)) l m).
    rewrite E1. cbn [bindR].
    rewrite map_app in Q. cbn [map] in Q.
    change ((fix go (pre : list (pref N)) (l : list E) (ts : list (tape N)) (r a : env) {struct l} := _)
       (map tp pts ++ [tp ty]) l lts r al)
      with (pgo k n ss cs seed x t p0 (map tp pts ++ [tp ty]) l lts r al).
    destruct (pgo k n ss cs seed x t p0 (map tp pts ++ [tp ty]) l lts r al) as [[[qs f] r1] al1].
    destruct Q as [M1 [R1 [F1 [A1 FR1]]]].
    assert (KP1 : Ks m1 vm am pes pts v a).
    { eapply Ks_frame; [| |exact KP]; intros; apply FR1; unfold LP; lia. }
    assert (KY1 : K None y ty m1 vm am v2 a2).
    { eapply K_frame; [| |exact KY]; intros; apply FR1; unfold LP; lia. }
    assert (RR : REF m1 v v1 es (map tp pts ++ tp ty :: qs)).
    { rewrite Hes. apply Forall2_app.
      - eapply REF_mono; [| |eapply Ks_REF; exact KP1]; lia.
      - constructor; [|eapply REF_mono; [| |exact R1]; lia].
        intros G. eapply refR_mono; [| |eapply K_get; eauto]; lia. }
    destruct (pack_ok m1 r1 al1 _ f M1 RR F1 A1) as [E2 P2].
    assert (PQ : exists vs fv ad,
       (if klazy k ss then pack k an es n seed m1 else Ok p0) = Ok (vs, fv, ad) /\
       (if klazy k ss then (vsel k (map (rdp r1) (map tp pts ++ tp ty :: qs)), rx x r1 n f, adv k n seed x al1)
        else p0) = (vs, fv, ad) /\ P0ok (vs, fv, ad)).
    { destruct (klazy k ss).
      - eexists _, _, _. split; [exact E2|]. split; [reflexivity|exact P2].
      - destruct p0 as [[vs fv] ad]. exists vs, fv, ad. auto. }
    destruct PQ as [vs [fv [ad [-> [-> [VL [FL AL]]]]]]]. cbn [bindR].
    rewrite map_length.
    assert (LPP : length pts = length pes).
    { eapply Ks_len; eauto. }
    rewrite LPP. set (i := length pes) in *.
    assert (ISH : nth_sh ss i = shape_of y) by (rewrite Hes; apply nth_sh_split).
    assert (IL : i < length ss) by (rewrite Hes, map_length, app_length; cbn; unfold i; lia).
    assert (NAUX : kaux k = true -> n0' = size (shape_of y) /\ a1 = a2).
    { intros Ek. assert (length es = 1).
      { destruct k; try discriminate Ek. unfold kshape_ok in Hshape. apply andb_true_iff in Hshape.
        destruct Hshape as [_ Hs]. destruct es as [|? [|? ?]]; try discriminate Hs. reflexivity. }
      rewrite Hes, app_length in H. cbn in H. assert (i = 0) as I0 by (unfold i; lia).
      rewrite <- I0, ISH. split; [reflexivity|]. destruct l; [|cbn in H; lia].
      destruct lts; [|destruct KL]. destruct KL as [_ ?]. auto. }
    (* own value before the operand *)
    set (pr := kpre k i vs fv).
    set (fv1 := match pr with Some f1 => f1 | None => fv end).
    assert (S1 : exists m2 f2 r2,
      match pr with Some f1 => store m1 (av an) f1 | None => Ok m1 end = Ok m2 /\
      (match pr with
       | Some f1 => (match x with None => f1 | Some _ => f end, wx x r1 f1, f1)
       | None => (f, r1, fv)
       end) = (f2, r2, fv1) /\ length fv1 = n /\
      MR m2 r2 al1 /\ ownf m2 f2 /\
      fr (fun b o => (x = None /\ b = bv /\ v1 <= o < v') \/ (b = 0 /\ xin x n o)) m1 m2).
    { unfold fv1. destruct pr as [f1|] eqn:Epr.
      - assert (L1 : length f1 = n) by (eapply kpre_len; [exact Hshape|exact VL|exact FL|exact Epr]).
        destruct (own_store m1 r1 al1 f f1 M1 F1 L1) as [m2 [E3 [M2 [O2 FR2]]]].
        eexists m2, _, _. split; [exact E3|]. split; [reflexivity|]. auto.
      - exists m1, f, r1. do 5 (split; [solve [auto]|]). apply fr_refl. }
    destruct S1 as [m2 [f2 [r2 [E3 [-> [FL1 [M2 [F2 FR2]]]]]]]]. 
    cbv zeta. fold pr. rewrite E3. cbn [bindR]. fold fv1. 
    assert (A2 : owna m2).
    { eapply owna_frame; [|exact A1]. intros; apply FR2. lia. }
    assert (KY2 : K None y ty m2 vm am v2 a2).
    { eapply K_frame; [| |exact KY1]; intros; apply FR2; lia. }
    assert (HC2 : alc m2 ba a a').
    { eapply alc_fr; [exact FR2|]. eapply alc_fr; eauto. }
    assert (R2 : REF m2 v2 v1 l qs).
    { eapply REF_frame; [| |exact R1]; intros; apply FR2; lia. }
    (* the operand *)
    rewrite Hst.
    assert (S2 : exists m3,
      match kseed k cs ss (tst t) ad vs fv1 i with
      | Some s =>
          s <- chk (size (shape_of y)) s ;;
          m <- (if kaux k then store m2 (xa an) s else Ok m2) ;;
          beval y s m
      | None => Ok m2
      end = Ok m3 /\
      let '(q, r3, al3) := match kseed k cs ss (tst t) ad vs fv1 i with
         | Some s => pb None y ty s r2 al1
         | None => (tp ty, r2, al1)
         end in
      MR m3 r3 al3 /\ (gettable y = true -> refR m3 vm v2 (size (shape_of y)) (getref y) q) /\
      owna m3 /\
      fr (fun b o => BP None y vm v2 am a2 b o \/ (b = ba /\ a1 <= o < a')) m2 m3).
    { destruct (kseed k cs ss (tst t) ad vs fv1 i) as [s|] eqn:Es.
      - assert (LS : length s = size (shape_of y)).
        { rewrite <- ISH. eapply (kseed_len N LL); [exact Hshape|exact Hpost|exact VL|exact AL|exact FL1|exact IL|exact Es]. }
        rewrite (chk_ok _ _ LS). cbn [bindR].
        assert (S3 : exists m2', (if kaux k then store m2 (xa an) s else Ok m2) = Ok m2' /\
           fr (fun b o => kaux k = true /\ b = ba /\ a1 <= o < a1 + n0') m2 m2').
        { destruct (kaux k) eqn:Ek.
          - rewrite (HXA eq_refl). destruct (NAUX eq_refl) as [N1 N2].
            destruct (store_ok m2 ba a1 s) as [m2' [E4 U]].
            { intros j Hj. apply HC2. rewrite LS, <- N1 in Hj. lia. }
            exists m2'. split; [exact E4|]. eapply fr_weak; [|eapply updm_fr; eauto].
            cbn. intros b o Hb. rewrite LS, <- N1 in Hb. auto.
          - exists m2. split; [reflexivity|apply fr_refl]. }
        destruct S3 as [m2' [E4 FR3]]. rewrite E4. cbn [bindR].
        assert (BSy : BS y /\ preB None y).
        { rewrite Forall_forall in HBS, HpreB. split; [apply HBS|apply HpreB];
            rewrite Hes; apply in_or_app; right; left; reflexivity. }
        destruct BSy as [BSy PBy].
        destruct (BSy None ty s vm am v2 a2 m2' r2 al1) as [m3 [E5 Q]]; auto.
        { eapply K_frame; [| |exact KY2]; intros; apply FR3; lia. }
        { eapply MR_fr; [exact FR3| |exact M2]. cbn. intros; lia. }
        { eapply alc_fr; [exact FR3|]. eapply alc_mono; [exact HC2|lia|]. destruct (kaux k); lia. }
        exists m3. split; [exact E5|]. destruct (pb None y ty s r2 al1) as [[q r3] al3].
        destruct Q as [M3 [G3 FR4]]. split; [exact M3|]. split; [exact G3|]. split.
        + eapply owna_frame; [|exact A2]. intros o Ho. destruct FR4 as [FR4 _]. rewrite FR4.
          * apply FR3. destruct (kaux k); lia.
          * unfold BP. cbn [xin]. destruct (kaux k); lia.
        + eapply fr_weak; [|eapply fr_trans; [exact FR3|exact FR4]]. cbn. intros b o [Hb|Hb]; [|auto].
          right. destruct Hb as [Hk Hb]. rewrite Hk in LA. lia.
      - exists m2. split; [reflexivity|]. split; [exact M2|]. split; [|split; [exact A2|apply fr_refl]].
        intros G. eapply K_get; eauto. }
    destruct S2 as [m3 [E5 Q]]. rewrite E5. cbn [bindR].
    destruct (match kseed k cs ss (tst t) ad vs fv1 i with
         | Some s => pb None y ty s r2 al1
         | None => (tp ty, r2, al1)
         end) as [[q r3] al3].
    destruct Q as [M3 [G3 [A3 FR3]]].
    assert (F3 : ownf m3 f2).
    { eapply ownf_frame; [|exact F2]. intros; apply FR3. unfold BP. cbn [xin]. lia. }
    assert (R3 : REF m3 vm v1 (y :: l) (q :: qs)).
    { constructor; [intros G; eapply refR_mono; [| |auto]; lia|].
      eapply REF_mono with (lo := v2) (hi := v1); try lia.
      eapply REF_frame; [| |exact R2]; intros; apply FR3; unfold BP; cbn [xin]; lia. }
    assert (FRA : fr (LP vm am) m m3).
    { eapply fr_weak; [|eapply fr_trans; [exact FR1|eapply fr_trans; [exact FR2|exact FR3]]].
      assert (IY : In y es) by (rewrite Hes; apply in_or_app; right; left; reflexivity).
      intros b o. unfold LP, BP. cbn [xin].
      intros [Hb|[Hb|[Hb|Hb]]]; [destruct Hb as [Hb|[Hb|Hb]]| | |].
      - lia.
      - lia.
      - right; right. exact Hb.
      - destruct Hb as [[_ Hb]|[Hb Hx]]; [left; lia|]. right; right; left. auto.
      - destruct Hb as [Hb|[Hb|[[Hb [Hi|[]]]|[Hb [Hi|[]]]]]]; [lia|lia| |]; right; right; [left|right];
          split; auto; [left|]; apply in_flat_map; eauto.
      - lia. }
    destruct pr as [f1|] eqn:Epr.
    + assert (GY : gettable y = true).
      { assert (G : kget k = true) by (destruct k; cbn in Epr; try discriminate; reflexivity).
        specialize (Hget G). rewrite forallb_forall in Hget. apply Hget. rewrite Hes.
        apply in_or_app; right; left; reflexivity. }
      assert (E6 : load m3 (av an) n = Ok (rx x r3 n f2)).
      { unfold ownf in F3. destruct x as [c|]; cbn [rx]; [|apply F3].
        destruct Hown as [_ [-> _]]. eapply MR_load0; eauto. }
      rewrite E6. cbn [bindR].
      destruct (refR_read _ _ _ _ _ _ _ _ M3 (G3 GY)) as [E7 L7]. rewrite E7. cbn [bindR].
      assert (LW : length (map2 (nmul N) (rx x r3 n f2) (rdp r3 q)) = n).
      { assert (SN : size (nth_sh ss i) = n).
        { unfold pr, kpre in Epr. destruct k; try discriminate Epr. unfold kshape_ok in Hshape.
          apply andb_true_iff in Hshape. destruct Hshape as [Hok Hs]. cbn [kshape].
          apply (iter_nth N); auto; now destruct ss. }
        rewrite ISH in SN. rewrite map2_length, L7. unfold ownf in F3.
        destruct x as [c|]; cbn [rx]; [rewrite rdv_length|destruct F3 as [_ ->]]; lia. }
      destruct (own_store m3 r3 al3 f2 _ M3 F3 LW) as [m4 [E8 [M4 [F4 FR4]]]].
      exists m4. split; [exact E8|]. split; [exact M4|]. split; [|split; [|split]].
      * eapply REF_frame; [| |exact R3]; intros; apply FR4; lia.
      * exact F4.
      * eapply owna_frame; [|exact A3]. intros; apply FR4; lia.
      * eapply fr_weak; [|eapply fr_trans; [exact FRA|exact FR4]]. intros b o [Hb|Hb]; [exact Hb|].
        unfold LP. destruct Hb as [Hb|[Hb Hx]]; [left; lia|]. right; right; left. auto.
    + exists m3. split; [reflexivity|]. auto.
Qed.
End Loop.

Lemma preB_comp x k an es : preB x (EComp k an es) -> Forall (preB None) es.
Proof.
  intros [H1 [H2 _]]. cbn [wfs refs] in *. rewrite !andb_true_iff, forallb_forall in H1.
  destruct H1 as [[[H1 _] _] _]. apply Forall_forall. intros e He. apply preB_intro; auto.
  intros o Ho. apply H2. apply in_flat_map. eauto.
Qed.
Lemma preB_for x an s es : preB x (EFor an s es) -> Forall (preB None) es.
Proof.
  intros [H1 [H2 _]]. cbn [wfs refs] in *. rewrite !andb_true_iff, forallb_forall in H1.
  destruct H1 as [[[H1 _] _] _]. apply Forall_forall. intros e He. apply preB_intro; auto.
  intros o Ho. apply H2. apply in_flat_map. eauto.
Qed.


Lemma oe_rseed_length q sv se (seed x y : list T) :
  shape_ok sv = true -> shape_ok se = true -> is_scl se || shape_eqb sv se = true ->
  length seed = size sv -> length x = size sv -> length y = size se ->
  length (oe_rseed N q sv se seed x y) = size se.
Proof.
  clear. intros H1 H2 H3 L1 L2 L3. unfold oe_rseed.
  assert (LB : length (bc N se (length seed) y) = size sv).
  { rewrite bc_length. destruct (is_scl se); [exact L1|]. cbn in H3. apply shape_eqb_eq in H3. congruence. }
  assert (S1 : is_scl se = true -> size se = 1).
  { destruct se as [[] r c]; cbn in *; try discriminate. intros _.
    rewrite andb_true_iff, !Nat.eqb_eq in H2. destruct H2 as [-> ->]. reflexivity. }
  destruct (is_scl se) eqn:E1; cbn [andb negb].
  - rewrite S1 by reflexivity. destruct (is_scl sv) eqn:E2; cbn [negb].
    + rewrite map3_length. assert (size sv = 1); [|lia].
      destruct sv as [[] r c]; cbn in *; try discriminate.
      rewrite andb_true_iff, !Nat.eqb_eq in H1. destruct H1 as [-> ->]. reflexivity.
    + destruct q; reflexivity.
  - cbn in H3. apply shape_eqb_eq in H3. subst. rewrite map3_length. lia.
Qed.
Lemma oe_lseed_length q sv se (seed x y : list T) :
  is_scl se || shape_eqb sv se = true ->
  length seed = size sv -> length x = size sv -> length y = size se ->
  length (oe_lseed N q se seed x y) = size sv.
Proof.
  clear. intros H3 L1 L2 L3. unfold oe_lseed. rewrite map3_length, bc_length.
  destruct (is_scl se); [lia|]. cbn in H3. apply shape_eqb_eq in H3. subst. lia.
Qed.

Definition BPs (es : list E) v v' a a' : nat -> nat -> Prop := fun b o =>
  (b = bv /\ v <= o < v') \/ (b = ba /\ a <= o < a') \/
  (b = 0 /\ In o (flat_map writes es)) \/ (b = 1 /\ In o (flat_map refs es)).

Lemma for_ok (es : list E) seed d : Forall BS es -> Forall (preB None) es ->
  forall ts v a v' a' m r al,
  Ks m v' a' es ts v a -> MR m r al -> alc m ba a a' ->
  (match es with [] => True | _ => length seed = size (shape_of (last es (EVar scl 0))) end) ->
  exists m', fgo seed es m = Ok m' /\
    let '(q, r', al') := pfgo d seed es ts r al in
    MR m' r' al' /\
    match rev es with
    | [] => q = d
    | y :: _ => gettable y = true -> refR m' v v' (size (shape_of y)) (getref y) q
    end /\ fr (BPs es v v' a a') m m'.
Proof.
  intros H. induction H as [|y l HB H IH]; intros HP ts v a v' a' m r al HK HM HC HL.
  - exists m. split; [reflexivity|]. cbn. split; [exact HM|]. split; [reflexivity|apply fr_refl].
  - destruct ts as [|ty ts]; [destruct HK|]. destruct HK as [v2 [a2 [KY KL]]].
    change (Ks m v' a' l ts v2 a2) in KL.
    assert (LE1 := K_le _ _ _ _ _ _ _ _ KY). assert (LE2 := Ks_le _ _ _ _ _ _ _ KL).
    inversion HP as [|? ? PY PL]; subst. destruct l as [|z l].
    + destruct ts; [|destruct KL]. destruct KL as [-> ->].
      destruct (HB None ty seed v a v2 a2 m r al KY PY HM HC HL) as [m1 [E1 Q]].
      exists m1. split; [exact E1|]. cbn [pfgo]. destruct (pb None y ty seed r al) as [[q r1] al1].
      destruct Q as [M1 [G1 F1]]. split; [exact M1|]. split; [exact G1|].
      eapply fr_weak; [|exact F1]. unfold BP, BPs. cbn [flat_map xin]. intros b i. rewrite !app_nil_r. tauto.
    + destruct (IH PL ts v2 a2 v' a' m r al KL HM) as [m1 [E1 Q]]; auto.
      { eapply alc_mono; eauto; lia. }
      change (fgo seed (y :: z :: l) m) with
        (m1 <- fgo seed (z :: l) m ;; beval y (repeat (n0 N) (size (shape_of y))) m1).
      rewrite E1. cbn [bindR].
      change (pfgo d seed (y :: z :: l) (ty :: ts) r al) with
        (let '(q, r1, a1) := pfgo d seed (z :: l) ts r al in
         let '(_, r2, a2) := pb None y ty (repeat (n0 N) (size (shape_of y))) r1 a1 in
         (q, r2, a2)).
      destruct (pfgo d seed (z :: l) ts r al) as [[q r1] al1]. destruct Q as [M1 [G1 F1]].
      destruct (HB None ty (repeat (n0 N) (size (shape_of y))) v a v2 a2 m1 r1 al1) as [m2 [E2 Q]].
      { eapply K_frame; [| |exact KY]; intros; apply F1; unfold BPs; lia. }
      { exact PY. }
      { exact M1. }
      { eapply alc_fr; [exact F1|]. eapply alc_mono; eauto; lia. }
      { apply repeat_length. }
      exists m2. split; [exact E2|]. destruct (pb None y ty _ r1 al1) as [[qy r2] al2].
      destruct Q as [M2 [_ F2]]. split; [exact M2|]. split.
      * change (rev (y :: z :: l)) with (rev (z :: l) ++ [y]).
        destruct (rev (z :: l)) as [|w rl] eqn:ER.
        { apply (f_equal (@length _)) in ER. rewrite rev_length in ER. discriminate ER. }
        cbn [app]. intros G. eapply refR_mono with (v := v2) (v' := v'); [lia|lia|].
        eapply refR_frame; [| |exact (G1 G)]; intros; apply F2; unfold BP; cbn [xin]; lia.
      * eapply fr_weak; [|eapply fr_trans; [exact F1|exact F2]]. intros b i Hb.
        unfold BP, BPs in *. cbn [xin] in Hb.
        change (flat_map writes (y :: z :: l)) with (writes y ++ flat_map writes (z :: l)).
        change (flat_map refs (y :: z :: l)) with (refs y ++ flat_map refs (z :: l)).
        rewrite !in_app_iff.
        destruct Hb as [[Hb|[Hb|[Hb|Hb]]]|[Hb|[Hb|[Hb|Hb]]]]; [lia|lia| | |lia|lia| |]; right; right;
          [left|right|left|right]; tauto.
Qed.

Theorem BS_all e : BS e.
Proof.
  induction e using expr_ind'; intros x t seed v a' v' a'' m r al HK HP HM HC HL.
  - (* variable *)
    destruct HK as [HG [-> ->]]. destruct HP as [_ [HV _]]. cbn [refs] in HV.
    destruct (padd_upd m r al o seed sh) as [m' [E1 [M1 F1]]]; auto.
    { intros i Hi. apply HV. unfold cells. apply in_seq. lia. }
    exists m'. split; [exact E1|]. cbn [pb]. split; [exact M1|]. split.
    + intros G. eapply refR_frame; [| |exact (HG G)]; intros; apply F1; lia.
    + eapply fr_weak; [|exact F1]. cbn. intros b i [-> Hi]. right; right; right. split; auto.
      left. cbn. unfold cells. apply in_seq. lia.
  - exists m. split; [reflexivity|]. cbn [pb]. destruct HK as [HG _]. split; [exact HM|].
    split; [exact HG|apply fr_refl].
  - exists m. split; [reflexivity|]. cbn [pb]. destruct HK as [HG _]. split; [exact HM|].
    split; [exact HG|apply fr_refl].
  - (* computation *)
    assert (ED : es = [] \/ es <> []) by (destruct es; [left|right]; congruence). destruct ED as [->|NE].
    { exists m. split; [reflexivity|]. cbn [pb]. destruct HK as [HG _]. split; [exact HM|].
      split; [exact HG|apply fr_refl]. }
    rewrite K_comp in HK. cbv zeta in HK.
    destruct HK as [HG [Hst [Hpost [HLv [Htp [v1 [a1 [HKs [HXA Hown]]]]]]]]].
    assert (HW := HP). destruct HW as [HW [HV [HxV _]]]. cbn [wfs] in HW.
    rewrite !andb_true_iff in HW. destruct HW as [[[HW1 HW2] HW3] HW4].
    cbn [shape_of] in HL, HxV.
    rewrite beval_comp, pb_comp by assumption. cbv zeta. rewrite (chk_ok _ _ HL). cbn [bindR].
    assert (S0 : exists m1, (if kadj k then store m (aa a) seed else Ok m) = Ok m1 /\
      let al1 := if kadj k then wx x al seed else al in
      MR m1 r al1 /\ owna k a es x seed m1 /\
      fr (fun b o => kadj k = true /\ ((x = None /\ b = ba /\ a1 <= o < a'') \/
            (b = 1 /\ xin x (size (kshape k (map shape_of es))) o))) m m1).
    { unfold owna. destruct (kadj k) eqn:Ek.
      2:{ exists m. split; [reflexivity|]. split; [exact HM|]. split; [discriminate|apply fr_refl]. }
      destruct x as [c|]; cbn [wx].
      - destruct Hown as [_ [_ [-> _]]]. destruct (store_ok m 1 c seed) as [m1 [E1 U]].
        { intros i Hi. eapply MR_alloc1; eauto. apply HxV. cbn. lia. }
        exists m1. split; [exact E1|]. split; [eapply MR_upd1; eauto|]. split; [auto|].
        eapply fr_weak; [|eapply updm_fr; eauto]. cbn. rewrite HL. intros b i Hb. tauto.
      - destruct Hown as [_ [AA [_ EA]]]. rewrite (AA eq_refl).
        set (a2 := if kaux k then _ else _) in *.
        assert (a1 <= a2) by (unfold a2; destruct (kaux k); lia).
        assert (HLk : a' <= a1) by (eapply Ks_le; eauto).
        destruct (store_ok m ba a2 seed) as [m1 [E1 U]].
        { intros i Hi. apply HC. lia. }
        exists m1. split; [exact E1|]. split; [|split].
        + eapply MR_fr; [eapply updm_fr; eauto| |exact HM]. cbn. intros; lia.
        + intros _. rewrite <- HL. eapply updm_load; eauto.
        + eapply fr_weak; [|eapply updm_fr; eauto]. cbn. intros b i Hb. split; auto. left. split; [reflexivity|lia]. }
    destruct S0 as [m1 [E1 [M1 [A1 F1]]]]. rewrite E1. cbn [bindR].
    assert (LLe := Ks_le _ _ _ _ _ _ _ HKs).
    assert (KS1 : Ks m1 v1 a1 es (tts t) v a').
    { eapply Ks_frame; [| |exact HKs]; intros; apply F1; lia. }
    assert (FT1 : ownf k a es x m1 (tv t)).
    { unfold ownf. destruct x; [exact I|]. split; [|exact HLv]. specialize (HG eq_refl).
      rewrite Htp in HG. cbn [px refR] in HG. destruct HG as [_ [HG _]]. cbn [rdref] in HG.
      destruct Hown as [AV Hown]. rewrite AV in *.
      eapply load_frame; [|exact HG]. intros; apply F1; lia. }
    assert (HGT : kget k = true -> forallb gettable es = true).
    { intros G. rewrite G in HW4. exact HW4. }
    destruct (pack_ok k a es x seed v v1 a1 v' a'' HGT HL Hown HxV m1 r _ (map tp (tts t)) (tv t) M1) as [EP PO];
      [eapply Ks_REF; exact KS1|exact FT1|exact A1|].
    rewrite map_map in EP, PO. rewrite EP. cbn [bindR].
    set (p0 := (vsel k _, _, _)).
    destruct (loop_ok k a es t x seed v a' v1 a1 v' a'' Hst Hpost HW2 HGT HL HXA Hown HxV H
      (preB_comp _ _ _ _ HP) p0 PO es [] [] (tts t) v a' m1 r (if kadj k then wx x al seed else al) (tv t))
      as [m2 [E2 Q]]; auto.
    { split; reflexivity. }
    { eapply alc_fr; eauto. }
    cbn [length map] in E2, Q. exists m2. split; [exact E2|].
    destruct (pgo _ _ _ _ _ _ _ _ _ _ _ _ _) as [[[qs f] r2] al2].
    destruct Q as [M2 [R2 [F2 [A2 FR2]]]]. split; [exact M2|]. split.
    + intros _. cbn [getref own shape_of]. unfold ownf in F2. destruct x as [c|]; cbn [px].
      * destruct Hown as [_ [-> _]]. cbn. auto.
      * destruct Hown as [AV [_ [-> _]]]. rewrite AV in *. destruct F2 as [F2 F2'].
        cbn. split; [exact F2'|]. split; [exact F2|]. right; left. lia.
    + assert (v1 <= v' /\ a1 <= a'').
      { destruct x; [lia|]. destruct Hown as [_ [_ [-> ->]]]. destruct (kaux k), (kadj k); lia. }
      eapply fr_weak; [|eapply fr_trans; [exact F1|exact FR2]]. intros b o Hb. unfold BP. cbn [writes refs shape_of].
      destruct Hb as [[_ [Hb|Hb]]|[Hb|[Hb|[Hb|Hb]]]]; [right; left; lia|right; right; right; tauto|lia|lia| |].
      * right; right; left. tauto.
      * right; right; right. tauto.
  - (* assignment *)
    rewrite K_eq in HK. destruct HK as [HG [Htp [ty [Hts HK]]]].
    destruct HP as [HW [HV [HxV _]]]. cbn [wfs] in HW. rewrite !andb_true_iff in HW.
    destruct HW as [[[HW1 HW2] HW3] HW4]. apply shape_eqb_eq in HW3. cbn [shape_of] in HL, HxV.
    cbn [refs] in HV.
    assert (HVo : forall i, o <= i < o + size sh -> V i).
    { intros i Hi. apply HV, in_or_app. left. apply in_seq. lia. }
    destruct (padd_upd m r al o seed sh HM HVo HL) as [m1 [E1 [M1 F1]]].
    cbn [beval]. rewrite E1. cbn [bindR]. rewrite (MR_load1 _ _ _ _ _ M1 HVo). cbn [bindR].
    destruct (IHe (Some o) ty (rdv (padd al o seed) o (size sh)) v a' v' a'' m1 r (padd al o seed))
      as [m2 [E2 Q]].
    { eapply K_frame; [| |exact HK]; intros; apply F1; lia. }
    { split; [exact HW1|]. split; [|split; [|auto]].
      - intros i Hi. apply HV, in_or_app. auto.
      - rewrite <- HW3. cbn. exact HVo. }
    { exact M1. }
    { eapply alc_fr; eauto. }
    { rewrite rdv_length. now rewrite HW3. }
    exists m2. split; [exact E2|]. cbn [pb shape_of]. rewrite Hts.
    destruct (pb (Some o) e ty _ r _) as [[q r2] al2].
    destruct Q as [M2 [_ F2]]. split; [exact M2|]. split.
    + intros G. specialize (HG G). rewrite Htp in *. exact HG.
    + eapply fr_weak; [|eapply fr_trans; [exact F1|exact F2]]. intros b i Hb. unfold BP in *.
      cbn [writes refs shape_of xin] in *. rewrite <- HW3 in Hb.
      assert (IC : o <= i < o + size sh -> In i (cells sh o)) by (intros; apply in_seq; lia).
      rewrite !in_app_iff. destruct Hb as [Hb|[Hb|[Hb|[Hb|Hb]]]]; [|lia|lia| |]; right; right; [right|left|right]; tauto.
  - (* update *)
    rewrite K_opeq in HK. destruct HK as [HG [Htp [ty [v1 [a1 [Hts [HK [Hold [XV [XA [EV EA]]]]]]]]]]].
    destruct HP as [HW [HV [HxV _]]]. cbn [wfs] in HW. rewrite !andb_true_iff in HW.
    destruct HW as [[[HW1 HW2] HW3] HW4]. cbn [shape_of] in HL, HxV. cbn [refs] in HV.
    assert (HVo : forall i, o <= i < o + size sh -> V i).
    { intros i Hi. apply HV, in_or_app. left. apply in_seq. lia. }
    assert (LE := K_le _ _ _ _ _ _ _ _ HK).
    destruct (padd_upd m r al o seed sh HM HVo HL) as [m1 [E1 [M1 F1]]].
    cbn [beval]. rewrite E1. cbn [bindR].
    assert (HL1 : load m1 (xv a) (size sh) = Ok (told t)).
    { rewrite XV in *. eapply load_frame; [|exact Hold]. intros; apply F1; lia. }
    rewrite HL1. cbn [bindR].
    assert (Lold : length (told t) = size sh).
    { rewrite XV in HL1. apply load_inv in HL1. apply HL1. }
    destruct (store_ok m1 0 o (told t)) as [m2 [E2 U2]].
    { intros i Hi. eapply MR_alloc0; eauto. apply HVo. lia. }
    rewrite E2. cbn [bindR].
    assert (M2 := MR_upd0 _ _ _ _ _ _ U2 M1).
    assert (F2 := updm_fr _ _ _ _ _ U2). 
    rewrite (MR_load1 _ _ _ _ _ M2 HVo). cbn [bindR]. rewrite XA.
    set (al1 := padd al o seed) in *. set (g := rdv al1 o (size sh)) in *.
    assert (Lg : length g = size sh) by apply rdv_length.
    destruct (store_ok m2 ba a1 g) as [m3 [E3 U3]].
    { intros i Hi. eapply F2, F1. apply HC. lia. }
    rewrite E3. cbn [bindR].
    assert (F3 := updm_fr _ _ _ _ _ U3).
    assert (M3 : MR m3 (upd r o (told t)) al1).
    { eapply MR_fr; [exact F3| |exact M2]. cbn. intros; lia. }
    destruct (store_ok m3 1 o (repeat (n0 N) (size sh))) as [m4 [E4 U4]].
    { intros i Hi. rewrite repeat_length in Hi. eapply MR_alloc1; eauto. }
    rewrite E4. cbn [bindR].
    assert (M4 := MR_upd1 _ _ _ _ _ _ U4 M3).
    assert (F4 := updm_fr _ _ _ _ _ U4).
    assert (FA : fr (fun b i => (b = 0 /\ o <= i < o + size sh) \/ (b = 1 /\ o <= i < o + size sh) \/
                     (b = ba /\ a1 <= i < a'')) m m4).
    { eapply fr_weak; [|eapply fr_trans; [exact F1|eapply fr_trans; [exact F2|eapply fr_trans; [exact F3|exact F4]]]].
      cbn. rewrite repeat_length. intros b i Hb. lia. }
    assert (K4 : K None e ty m4 v a' v1 a1).
    { eapply K_frame; [| |exact HK]; intros; apply FA; lia. }
    assert (GE := K_get _ _ _ _ _ _ _ _ K4 HW4).
    destruct (refR_read _ _ _ _ _ _ _ _ M4 GE) as [E5 L5]. rewrite E5. cbn [bindR].
    set (rs := oe_rseed _ _ _ _ _ _ _).
    assert (Lrs : length rs = size (shape_of e)).
    { apply oe_rseed_length; auto. apply wfs_shape; auto. }
    rewrite (chk_ok _ _ Lrs). cbn [bindR].
    destruct (IHe None ty rs v a' v1 a1 m4 (upd r o (told t)) (upd al1 o (repeat (n0 N) (size sh))) K4) as [m5 [E6 Q]].
    { apply preB_intro; auto. intros i Hi. apply HV, in_or_app. auto. }
    { exact M4. }
    { eapply alc_fr; [exact FA|]. eapply alc_mono; eauto; lia. }
    { exact Lrs. }
    rewrite E6. cbn [bindR pb shape_of]. rewrite Hts.
    fold al1. fold g. fold rs.
    destruct (pb None e ty rs _ _) as [[qy r5] al5].
    destruct Q as [M5 [G5 F5]].
    assert (S6 : exists ls, (if is_scl sh || is_scl (shape_of e) then Ok (oe_lseed N q (shape_of e) g (told t) (rdp (upd r o (told t)) (tp ty)))
       else g' <- load m5 (Ptr ba a1) (size sh) ;;
            v'0 <- load m5 (Ptr 0 o) (size sh) ;;
            y' <- rdref m5 (getref e) ;;
            Ok (oe_lseed N q (shape_of e) g' v'0 y')) = Ok ls /\
       ls = (if is_scl sh || is_scl (shape_of e) then oe_lseed N q (shape_of e) g (told t) (rdp (upd r o (told t)) (tp ty))
             else oe_lseed N q (shape_of e) g (rdv r5 o (size sh)) (rdp r5 qy)) /\
       length ls = size sh).
    { destruct (is_scl sh || is_scl (shape_of e)).
      - eexists. split; [reflexivity|]. split; [reflexivity|]. eapply oe_lseed_length; eauto.
      - assert (LG : load m5 (Ptr ba a1) (size sh) = Ok g).
        { assert (X : load m3 (Ptr ba a1) (size sh) = Ok g) by (rewrite <- Lg; eapply updm_load; eauto).
          eapply load_frame; [|exact X]. intros i Hi. destruct F5 as [F5 _]. rewrite F5.
          - apply F4. lia.
          - unfold BP. cbn [xin]. lia. }
        rewrite LG. cbn [bindR]. rewrite (MR_load0 _ _ _ _ _ M5 HVo). cbn [bindR].
        destruct (refR_read _ _ _ _ _ _ _ _ M5 (G5 HW4)) as [E7 L7]. rewrite E7. cbn [bindR].
        eexists. split; [reflexivity|]. split; [reflexivity|]. eapply oe_lseed_length; eauto using rdv_length. }
    destruct S6 as [ls [E7 [<- Lls]]]. rewrite E7. cbn [bindR].
    destruct (padd_upd m5 r5 al5 o ls sh M5 HVo Lls) as [m6 [E8 [M6 F6]]].
    exists m6. split; [exact E8|]. split; [exact M6|]. split.
    + intros G. specialize (HG G). rewrite Htp in *. exact HG.
    + eapply fr_weak; [|eapply fr_trans; [exact FA|eapply fr_trans; [exact F5|exact F6]]]. intros b i Hb.
      unfold BP in *. cbn [writes refs shape_of xin] in *.
      assert (IC : o <= i < o + size sh -> In i (cells sh o)) by (intros; apply in_seq; lia).
      rewrite !in_app_iff.
      destruct Hb as [[Hb|[Hb|Hb]]|[[Hb|[Hb|[Hb|Hb]]]|Hb]]; [| |lia|lia|lia| | |]; right; right;
        [left|right|left|right|right]; tauto.
  - (* glue *)
    rewrite K_glue in HK. destruct HK as [HG [tl [tr [v1 [a1 [Hts [HK1 [HK2 [Htp AV]]]]]]]]].
    destruct HP as [HW [HV [HxV _]]]. cbn [wfs] in HW. rewrite !andb_true_iff in HW.
    destruct HW as [[[HW1 HW2] HW3] HW4]. cbn [shape_of] in HL, HxV. cbn [refs] in HV.
    assert (LE1 := K_le _ _ _ _ _ _ _ _ HK1). assert (LE2 := K_le _ _ _ _ _ _ _ _ HK2).
    destruct (IHe2 None tr seed v1 a1 v' a'' m r al HK2) as [m1 [E1 Q]]; auto.
    { apply preB_intro; auto. intros i Hi. apply HV, in_or_app. auto. }
    { eapply alc_mono; eauto; lia. }
    cbn [beval pb shape_of]. rewrite E1, Hts. cbn [bindR].
    destruct (pb None e2 tr seed r al) as [[q r1] al1]. destruct Q as [M1 [G1 F1]].
    destruct (IHe1 None tl (repeat (n0 N) (size (shape_of e1))) v a' v1 a1 m1 r1 al1) as [m2 [E2 Q]].
    { eapply K_frame; [| |exact HK1]; intros; apply F1; unfold BP; cbn [xin]; lia. }
    { apply preB_intro; auto. intros i Hi. apply HV, in_or_app. auto. }
    { exact M1. }
    { eapply alc_fr; [exact F1|]. eapply alc_mono; eauto; lia. }
    { apply repeat_length. }
    rewrite E2. exists m2. split; [reflexivity|].
    destruct (pb None e1 tl _ r1 al1) as [[ql r2] al2]. destruct Q as [M2 [_ F2]].
    split; [exact M2|]. split.
    + intros G. specialize (HG G). cbn [getref own] in *.
      destruct x as [c|]; cbn [px] in *.
      * rewrite Htp in HG. exact HG.
      * cbn [shape_of]. rewrite AV. rewrite <- getref_dptr by (now destruct e2).
        eapply refR_mono with (v := v1) (v' := v'); [lia|lia|].
        eapply refR_frame; [| |exact (G1 HW3)]; intros; apply F2; unfold BP; cbn [xin]; lia.
    + eapply fr_weak; [|eapply fr_trans; [exact F1|exact F2]]. intros b i Hb.
      unfold BP in *. cbn [writes refs shape_of xin] in *. rewrite !in_app_iff.
      destruct Hb as [[Hb|[Hb|[Hb|Hb]]]|[Hb|[Hb|[Hb|Hb]]]]; [lia|lia| | |lia|lia| |]; right; right;
        [left|right|left|right]; tauto.
  - (* for_each *)
    rewrite K_for in HK. cbv zeta in HK. destruct HK as [HG [HKs [Htp AV]]].
    assert (HP' := preB_for _ _ _ _ HP).
    destruct HP as [HW [HV [HxV _]]]. cbn [wfs] in HW. rewrite !andb_true_iff in HW.
    destruct HW as [[[HW1 HW2] HW3] HW4]. cbn [shape_of] in HL, HxV. cbn [refs] in HV.
    rewrite beval_for, pb_for.
    assert (SZ : match es with [] => True | _ =>
       size (iter_shape s (map shape_of es)) = size (shape_of (last es (EVar scl 0))) end).
    { destruct es as [|e0 es0]; [exact I|].
      rewrite <- (for_iter s (map shape_of (e0 :: es0))).
      - f_equal. clear. revert e0. induction es0 as [|e1 es0 IH]; intros; [reflexivity|]. apply IH.
      - apply forallb_forall. intros sh Hs. apply in_map_iff in Hs. destruct Hs as [e [<- He]].
        apply wfs_shape. rewrite forallb_forall in HW1. auto.
      - exact HW2.
      - discriminate. }
    destruct (for_ok es seed (tp t) H HP' (tts t) v a' v' a'' m r al HKs HM HC) as [m1 [E1 Q]].
    { destruct es; [exact I|]. congruence. }
    exists m1. split; [exact E1|]. destruct (pfgo _ _ _ _ _ _) as [[q r1] al1].
    destruct Q as [M1 [G1 F1]]. split; [exact M1|]. split.
    + intros G. specialize (HG G). cbn [getref own shape_of] in *.
      destruct x as [c|]; cbn [px] in *.
      * rewrite Htp in HG. exact HG.
      * destruct es as [|e0 es0].
        { cbn in HKs. destruct (tts t); [|destruct HKs]. destruct HKs as [-> ->]. cbn in *.
          rewrite G1. eapply refR_frame; [| |exact HG]; intros; apply F1; unfold BPs; cbn [flat_map In]; lia. }
        assert (LR : exists y rl, rev (e0 :: es0) = y :: rl /\ y = last (e0 :: es0) (EVar scl 0) /\ In y (e0 :: es0)).
        { clear. revert e0. induction es0 as [|e1 es0 IH]; intros e0.
          - exists e0, []. cbn. auto.
          - destruct (IH e1) as [y [rl [R1 [R2 R3]]]]. exists y, (rl ++ [e0]).
            change (rev (e0 :: e1 :: es0)) with (rev (e1 :: es0) ++ [e0]). rewrite R1.
            split; [reflexivity|]. split; [exact R2|]. right. exact R3. }
        destruct LR as [y [rl [R1 [R2 R3]]]]. rewrite R1 in *. rewrite AV, SZ, <- R2.
        rewrite <- getref_dptr.
        { apply G1. rewrite R2. exact HW4. }
        apply negb_true_iff in HW3. destruct (is_const y) eqn:EC; [|reflexivity].
        assert (existsb is_const (e0 :: es0) = true) by (apply existsb_exists; eauto). congruence.
    + eapply fr_weak; [|exact F1]. unfold BP, BPs. cbn [writes refs shape_of]. tauto.
  - (* if_else *)
    rewrite K_if in HK. destruct HK as [_ [tc [tb [v1 [a1 [v2 [a2 [Hts [HKc [L1 [L2 HKb]]]]]]]]]]].
    destruct HP as [HW [HV [HxV _]]]. cbn [wfs] in HW. rewrite !andb_true_iff in HW.
    destruct HW as [[[[[HW1 HW2] HW3] HW4] HW5] HW6]. apply shape_eqb_eq in HW6.
    cbn [shape_of] in HL, HxV. cbn [refs] in HV.
    assert (LE1 := K_le _ _ _ _ _ _ _ _ HKc). apply lay_le in L1. apply lay_le in L2.
    assert (GC : gettable e1 = true) by now destruct e1.
    assert (GE := K_get _ _ _ _ _ _ _ _ HKc GC).
    destruct (refR_read _ _ _ _ _ _ _ _ HM GE) as [E5 L5].
    cbn [beval pb shape_of]. rewrite E5, Hts. cbn [bindR].
    destruct (tp tc) as [|l]; [destruct HKb|]. cbn [rdp].
    destruct (ntrue N (hd0 N l)).
    + destruct (IHe2 None tb seed v1 a1 v2 a2 m r al HKb) as [m1 [E1 Q]]; auto.
      { apply preB_intro; auto. intros i Hi. apply HV, in_or_app. right. apply in_or_app. auto. }
      { eapply alc_mono; eauto; lia. }
      exists m1. split; [exact E1|]. destruct (pb None e2 tb seed r al) as [[q r1] al1].
      destruct Q as [M1 [_ F1]]. split; [exact M1|]. split; [discriminate|].
      eapply fr_weak; [|exact F1]. unfold BP. cbn [writes refs shape_of xin]. intros b i Hb.
      rewrite !in_app_iff. destruct Hb as [Hb|[Hb|[Hb|Hb]]]; [lia|lia| |]; right; right; [left|right]; tauto.
    + destruct (IHe3 None tb seed v2 a2 v' a'' m r al HKb) as [m1 [E1 Q]]; auto.
      { apply preB_intro; auto. intros i Hi. apply HV, in_or_app. right. apply in_or_app. auto. }
      { eapply alc_mono; eauto; lia. }
      { now rewrite HL, HW6. }
      exists m1. split; [exact E1|]. destruct (pb None e3 tb seed r al) as [[q r1] al1].
      destruct Q as [M1 [_ F1]]. split; [exact M1|]. split; [discriminate|].
      eapply fr_weak; [|exact F1]. unfold BP. cbn [writes refs shape_of xin]. intros b i Hb.
      rewrite !in_app_iff. destruct Hb as [Hb|[Hb|[Hb|Hb]]]; [lia|lia| |]; right; right; [left|right]; tauto.
Qed.
End SimB.
