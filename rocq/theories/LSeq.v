(** Sequences and branches behave like the same statements bound separately. *)
From Verif Require Import Base Num Expr Node Stat Machine Wf Pure LBase LKind LSimDef LMem LSimF LSimB LBind Session LUser Tape LTape Flow LFlow.

Section Sep.
Context {N : num}.
Notation T := (carrier N).
Notation E := (expr T (ann N)).
Notation U := (expr T unit).
Notation env := (nat -> T).
Hypothesis LL : la_len N.
Variable bs : nat -> nat * nat.
Hypothesis SB : separate bs.
Variables V W : nat -> Prop.

Lemma bs_v i : fst (bs i) <> 0 /\ fst (bs i) <> 1 /\ fst (bs i) <> 4. Proof. apply SB. Qed.
Lemma bs_a i : snd (bs i) <> 0 /\ snd (bs i) <> 1 /\ snd (bs i) <> 4 /\ snd (bs i) <> fst (bs i). Proof. apply SB. Qed.

Fixpoint IT (i : nat) (es : list E) (m : mem T) : Prop :=
  match es with
  | [] => True
  | e :: l => (exists cv ca, lay (fst (bs i)) (snd (bs i)) None e 0 0 cv ca /\
                 alc m (fst (bs i)) 0 cv /\ alc m (snd (bs i)) 0 ca) /\
              pre (V := V) (W := W) None e /\ IT (S i) l m
  end.
Fixpoint KT (i : nat) (es : list E) (ts : list (tape N)) (m : mem T) : Prop :=
  match es, ts with
  | [], [] => True
  | e :: l, t :: lt => (exists cv ca, K (fst (bs i)) (snd (bs i)) V None e t m 0 0 cv ca /\ alc m (snd (bs i)) 0 ca) /\
                       KT (S i) l lt m
  | _, _ => False
  end.
Lemma IT_keeps es : forall i m m', (forall b o, m b o <> None -> m' b o <> None) -> IT i es m -> IT i es m'.
Proof.
  induction es as [|e l IH]; intros i m m' H; cbn; auto.
  intros [[cv [ca [H1 [H2 H3]]]] [H4 H5]]. split; [|split; [auto|eapply IH; eauto]].
  exists cv, ca. split; [auto|]. split; intros o Ho; apply H; auto.
Qed.
Lemma KT_frame es : forall i ts m m', (forall b o, m b o <> None -> m' b o <> None) ->
  (forall j o, i <= j -> m' (fst (bs j)) o = m (fst (bs j)) o) -> (forall o, m' 4 o = m 4 o) -> KT i es ts m -> KT i es ts m'.
Proof.
  induction es as [|e l IH]; intros i [|t ts] m m' H F F4; cbn; auto.
  intros [[cv [ca [H1 H2]]] H3]. split.
  - exists cv, ca. split; [|intros o Ho; apply H, H2, Ho].
    eapply K_frame; [| |exact H1]; auto.
  - eapply IH; eauto. intros j o Hj. apply F. lia.
Qed.
Definition SPf (i : nat) (es : list E) : nat -> nat -> Prop := fun b o =>
  (exists j, i <= j /\ b = fst (bs j)) \/ (b = 0 /\ In o (flat_map writes es)).
Definition SPb (i : nat) (es : list E) : nat -> nat -> Prop := fun b o =>
  (exists j, i <= j /\ (b = fst (bs j) \/ b = snd (bs j))) \/ (b = 0 /\ In o (flat_map writes es)) \/
  (b = 1 /\ In o (flat_map refs es)).

Section D.
Variable D : env.
Notation MR := (MR V W D).

Lemma one_eval i e m r al : IT i [e] m -> MR m r al ->
  exists e' m', let '(t, r', p) := pf D None e r in
    evaluate e m = Ok (e', m', rdp r' p) /\ sk e' = skp (sk e) t /\ strip e' = strip e /\
    KT i [e'] [t] m' /\ IT i [e'] m' /\ MR m' r' al /\
    fr (fun b o => b = fst (bs i) \/ (b = 0 /\ In o (writes e))) m m'.
Proof.
  intros [[cv [ca [HL [A1 A2]]]] [HP _]] HM.
  destruct (FS_all (bs_v i) (bs_a i) LL e None 0 0 cv ca m r al HL HP HM A1) as [e' [m' [q [E1 Q]]]].
  exists e', m'. pose proof (SKP_all (D := D) (bs_v i) (bs_a i) LL e None 0 0 cv ca m r al e' m' q HL HP HM A1 E1) as SS.
  unfold evaluate. rewrite E1. cbn [bindR]. destruct (pf D None e r) as [[t r'] p].
  destruct Q as [Q1 [Q2 [Q3 [Q4 [Q5 [Q6 Q7]]]]]].
  destruct (refR_read _ _ _ _ _ _ _ _ Q3 Q4) as [E2 L2]. rewrite E2. cbn [bindR fst] in *.
  split; [reflexivity|]. split; [exact SS|]. split; [exact Q1|].
  assert (A2' : alc m' (snd (bs i)) 0 ca) by (intros o Ho; apply Q7, A2, Ho).
  split; [|split; [|split; [exact Q3|]]].
  - split; [|exact I]. exists cv, ca. auto.
  - split; [|split; [|exact I]].
    + exists cv, ca. split; [apply lay_strip; rewrite Q1; now apply lay_strip|]. split; [|exact A2'].
      intros o Ho; apply Q7, A1, Ho.
    + destruct HP as [P1 [P2 [P3 [P4 [P5 P6]]]]]. pose proof (er_strip _ _ Q1) as ER. unfold er in ER.
      apply (pre_intro (D := D) (bs_v i) (bs_a i)).
      * rewrite <- (wfs_amap (fun _ => tt) e'), ER. now rewrite wfs_amap.
      * exact Q2.
      * intros o Ho. apply P3. rewrite <- (refs_amap (fun _ => tt) e), <- ER. now rewrite refs_amap.
      * intros o Ho. apply P4. rewrite <- (drefs_amap (fun _ => tt) e), <- ER. now rewrite drefs_amap.
  - eapply fr_weak; [|exact Q7]. unfold FP. cbn [xin]. intros b o. intuition.
Qed.

Lemma one_back i e t m r al seed : IT i [e] m -> KT i [e] [t] m -> MR m r al -> length seed = size (shape_of e) ->
  exists m', evaluate_adj e seed m = Ok m' /\
    let '(_, r', a') := pb None e t seed r al in
    MR m' r' a' /\ fr (fun b o => b = fst (bs i) \/ b = snd (bs i) \/ (b = 0 /\ In o (writes e)) \/ (b = 1 /\ In o (refs e))) m m'.
Proof.
  intros [_ [HP _]] [[cv [ca [HK HA]]] _] HM HL.
  assert (PB : preB (V := V) None e).
  { apply (preB_intro (D := D) (W := W) (bs_v i) (bs_a i)); apply HP. }
  destruct (BS_all (bs_v i) (bs_a i) LL e None t seed 0 0 cv ca m r al HK PB HM HA HL) as [m' [E1 Q]].
  exists m'. split; [exact E1|]. destruct (pb None e t seed r al) as [[q r'] a']. destruct Q as [Q1 [_ Q2]].
  split; [exact Q1|]. eapply fr_weak; [|exact Q2]. unfold BP. cbn [xin]. intros b o. intuition.
Qed.

Lemma seq_fwd es : forall i m r al p0, IT i es m -> MR m r al ->
  exists es' m' vs, evaluate_all es m = Ok (es', m', vs) /\
    let '(ts, r', p) := pfsf D es r p0 in
    map sk es' = skps (map sk es) ts /\ map strip es' = map strip es /\ KT i es' ts m' /\ IT i es' m' /\
    MR m' r' al /\ fr (SPf i es) m m' /\ (es <> [] -> last vs [] = rdp r' p).
Proof.
  induction es as [|e l IH]; intros i m r al p0 HI HM.
  - exists [], m, []. split; [reflexivity|]. cbn. repeat split; auto; try apply HM; auto.
    congruence.
  - rewrite pfsf_cons. destruct HI as [H1 [H2 H3]].
    destruct (one_eval i e m r al (conj H1 (conj H2 I)) HM) as [e' [m1 Q]].
    destruct (pf D None e r) as [[t r1] p]. destruct Q as [Q1 [Q2 [Q3 [Q4 [Q5 [Q6 Q7]]]]]].
    destruct (IH (S i) m1 r1 al p) as [l' [m2 [vs [E2 Q]]]]; [eapply IT_keeps; [apply Q7|exact H3]|exact Q6|].
    cbn [evaluate_all]. rewrite Q1. cbn [bindR]. rewrite E2. cbn [bindR].
    exists (e' :: l'), m2, (rdp r1 p :: vs). split; [reflexivity|].
    destruct (pfsf D l r1 p) as [[ts r2] p2] eqn:EP. destruct Q as [W1 [W2 [W3 [W4 [W5 [W6 W7]]]]]].
    assert (X1 : KT i [e'] [t] m2).
    { destruct Q4 as [[cv [ca [K1 K2]]] _]. split; [|exact I]. exists cv, ca. split.
      - eapply K_frame; [| |exact K1].
        + intros o Ho. apply W6. unfold SPf. intros [[j [J1 J2]]|[J1 _]].
          * destruct SB as [_ S2]. destruct (S2 i j) as [S3 _]; [lia|]. auto.
          * destruct (bs_v i) as [F _]. auto.
        + intros o. apply W6. unfold SPf. intros [[j [J1 J2]]|[J1 _]]; [|lia].
          destruct (bs_v j) as [_ [_ F]]. auto.
      - intros o Ho. apply W6, K2, Ho. }
    split; [cbn; f_equal; [exact Q2|exact W1]|]. split; [cbn; congruence|].
    split; [cbn; split; [apply X1|exact W3]|].
    split; [cbn; destruct Q5 as [Z1 [Z2 _]]; split; [|split; [exact Z2|exact W4]]|].
    { destruct Z1 as [cv [ca [Z3 [Z4 Z5]]]]. exists cv, ca. split; [exact Z3|]. split; intros o Ho; apply W6; auto. }
    split; [exact W5|]. split.
    + eapply fr_weak; [|eapply fr_trans; [exact Q7|exact W6]]. unfold SPf. cbn. intros b o.
      rewrite in_app_iff. intros [[A|A]|[[j [A1 A2]]|A]]; [left; exists i; auto|tauto|left; exists j; split; [lia|auto]|tauto].
    + intros _. destruct l as [|w l].
      * inversion EP; subst. cbn in E2. inversion E2; subst. reflexivity.
      * rewrite <- W7 by discriminate. destruct vs; [|reflexivity].
        cbn [evaluate_all] in E2. destruct (evaluate w m1) as [[[? ?] ?]|]; [|discriminate]. cbn in E2.
        destruct (evaluate_all l _) as [[[? ?] ?]|]; discriminate.
Qed.

Lemma seq_bwd es d : forall i ts m r al seed, es <> [] -> IT i es m -> KT i es ts m -> MR m r al ->
  length seed = size (shape_of (last es (EVar scl 0))) ->
  exists m', evaluate_adj_all es seed m = Ok m' /\
    let '(_, r', a') := pfgo d seed es ts r al in
    MR m' r' a' /\ fr (SPb i es) m m'.
Proof.
  induction es as [|e l IH]; intros i ts m r al seed NE HI HK HM HL; [congruence|].
  destruct ts as [|t ts]; [destruct HK|]. destruct HI as [I1 [I2 I3]]. destruct HK as [K1 K2].
  destruct l as [|w l].
  - destruct ts; [|destruct K2]. cbn [evaluate_adj_all pfgo].
    destruct (one_back i e t m r al seed (conj I1 (conj I2 I)) (conj K1 I) HM HL) as [m' [E1 Q]].
    exists m'. split; [exact E1|]. destruct (pb None e t seed r al) as [[q r'] a']. destruct Q as [Q1 Q2].
    split; [exact Q1|]. eapply fr_weak; [|exact Q2]. unfold SPb. cbn. intros b o. rewrite !app_nil_r.
    intros [A|[A|A]]; [left; exists i; auto|left; exists i; auto|tauto].
  - destruct (IH (S i) ts m r al seed ltac:(discriminate) I3 K2 HM HL) as [m1 [E1 Q]].
    change (evaluate_adj_all (e :: w :: l) seed m) with
      (m1 <- evaluate_adj_all (w :: l) seed m ;; evaluate_adj e (repeat (n0 N) (size (shape_of e))) m1).
    rewrite E1. cbn [bindR]. rewrite pfgo_cons.
    destruct (pfgo d seed (w :: l) ts r al) as [[q r1] a1]. destruct Q as [Q1 Q2].
    assert (NB : forall o, m1 (fst (bs i)) o = m (fst (bs i)) o).
    { intros o. apply Q2. unfold SPb. intros [[j [J1 J2]]|[[J1 _]|[J1 _]]].
      - destruct SB as [_ S2]. destruct (S2 i j) as [S3 [S4 _]]; [lia|]. intuition.
      - destruct (bs_v i). auto.
      - destruct (bs_v i) as [_ [? _]]. auto. }
    assert (N4 : forall o, m1 4 o = m 4 o).
    { intros o. apply Q2. unfold SPb. intros [[j [J1 [J2|J2]]]|[[J1 _]|[J1 _]]]; try lia.
      - destruct (bs_v j) as [_ [_ ?]]. auto.
      - destruct (bs_a j) as [_ [_ [? _]]]. auto. }
    destruct (one_back i e t m1 r1 a1 (repeat (n0 N) (size (shape_of e)))) as [m2 [E2 Q]].
    + split; [|split; [exact I2|exact I]]. destruct I1 as [cv [ca [A1 [A2 A3]]]]. exists cv, ca.
      split; [exact A1|]. split; intros o Ho; apply Q2; auto.
    + split; [|exact I]. destruct K1 as [cv [ca [A1 A2]]]. exists cv, ca. split; [|intros o Ho; apply Q2, A2, Ho].
      eapply K_frame; [| |exact A1]; auto.
    + exact Q1.
    + apply repeat_length.
    + exists m2. split; [exact E2|]. destruct (pb None e t _ r1 a1) as [[q2 r2] a2]. destruct Q as [Q3 Q4].
      split; [exact Q3|]. eapply fr_weak; [|eapply fr_trans; [exact Q2|exact Q4]]. unfold SPb. intros b o.
      cbn [flat_map]. rewrite !in_app_iff. cbn [flat_map].
      intros [[[j [J1 J2]]|A]|[A|[A|A]]]; [left; exists j; split; [lia|auto]|tauto|left; exists i; auto|left; exists i; auto|tauto].
Qed.
End D.
End Sep.

Section Bind.
Context {N : num}.
Notation T := (carrier N).
Notation E := (expr T (ann N)).
Notation U := (expr T unit).
Notation env := (nat -> T).

Lemma agree_refl (m : mem T) : agree m m. Proof. intros o; auto. Qed.
Lemma agree_sym (m m' : mem T) : agree m m' -> agree m' m.
Proof. intros H o. destruct (H o) as [? [? ?]]. auto. Qed.
Lemma agree_trans (m1 m2 m3 : mem T) : agree m1 m2 -> agree m2 m3 -> agree m1 m3.
Proof. intros H G o. destruct (H o) as [? [? ?]], (G o) as [? [? ?]]. repeat split; congruence. Qed.

Lemma rdn_ext (m m' : mem T) b n : forall o, (forall i, m b i = m' b i) -> rdn m b o n = rdn m' b o n.
Proof. induction n as [|n IH]; intros o H; cbn; auto. unfold rd1. rewrite H. destruct (m' b o); cbn; auto. now rewrite (IH _ H). Qed.
Lemma mk_ref (u : U) m m' e : agree m m' -> mk u m = Ok e -> rdref m (getref e) = rdref m' (getref e).
Proof.
  intros HA HE. destruct u; cbn [mk] in HE;
    repeat (match type of HE with
            | (if ?b then _ else _) = _ => destruct b; [|discriminate]
            | bindR _ _ = _ => apply bindR_ok in HE; destruct HE as [? [? HE]]; cbv beta zeta in HE
            | (if ?b then Err _ else _) = _ => destruct b; [discriminate|]
            end);
    inversion HE; subst; try reflexivity; cbn [getref rdref load]; apply rdn_ext; intros i; apply (HA i).
Qed.
Lemma mk_comp k (es : list U) m : mk (EComp k tt es) m =
  (es' <- mks es m ;;
   if kassert k (map shape_of es') then
     s <- match k with
          | KStat q => stat_init N q (map is_const es') (map shape_of es') (map (fun x => rdref m (getref x)) es')
          | _ => Ok (sst0 N)
          end ;;
     Ok (EComp k (set_st (ann0 N) s) es')
   else Err UBshape).
Proof. reflexivity. Qed.
Lemma mk_for s (es : list U) m : mk (EFor tt s es) m =
  (es' <- mks es m ;;
   if forallb (fun b => sk_eqb (kind b) s) (map shape_of es') && negb (existsb is_const es') then Ok (EFor (ann0 N) s es') else Err UBshape).
Proof. reflexivity. Qed.
Lemma mk_agree (u : U) m m' : agree m m' -> mk u m = mk u m'.
Proof.
  intros HA.
  assert (LST : forall es : list U, Forall (fun u => mk u m = mk u m') es -> mks es m = mks es m').
  { induction 1 as [|y l HY H IH]; [reflexivity|]. cbn. unfold mks in IH. now rewrite HY, IH. }
  induction u using expr_ind'; try reflexivity.
  - destruct a. rewrite !mk_comp. rewrite <- (LST es H). destruct (mks es m) as [es'|] eqn:EM; [|reflexivity]. cbn [bindR].
    destruct (kassert k _); [|reflexivity]. destruct k; auto.
    assert (X : map (fun x => rdref m (getref x)) es' = map (fun x => rdref m' (getref x)) es').
    { clear - EM HA. revert es' EM. induction es as [|y l IH]; cbn; intros es' EM; [inversion EM; reflexivity|].
      apply bindR_ok in EM. destruct EM as [y' [Q1 EM]]. apply bindR_ok in EM. destruct EM as [l' [Q2 EM]].
      inversion EM. cbn. f_equal; [eapply mk_ref; eauto|apply IH, Q2]. }
    now rewrite X.
  - cbn [mk]. now rewrite IHu.
  - cbn [mk]. now rewrite IHu.
  - cbn [mk]. now rewrite IHu1, IHu2.
  - destruct a. rewrite !mk_for. now rewrite <- (LST es H).
  - cbn [mk]. now rewrite IHu1, IHu2, IHu3.
Qed.

Lemma mk_stmts (u : U) m : forall e, mk u m = Ok e -> Forall2 (fun u e => mk u m = Ok e) (stmts u) (stmts e).
Proof.
  assert (LST : forall es : list U, Forall (fun u => forall e, mk u m = Ok e -> Forall2 (fun u e => mk u m = Ok e) (stmts u) (stmts e)) es ->
    forall l, mks es m = Ok l -> Forall2 (fun u e => mk u m = Ok e) (flat_map stmts es) (flat_map stmts l)).
  { induction 1 as [|w l1 HY H IH]; intros l H1.
    - inversion H1; subst. constructor.
    - apply bindR_ok in H1. destruct H1 as [w' [Q1 H1]]. apply bindR_ok in H1. destruct H1 as [l' [Q2 H1]].
      inversion H1; subst. cbn [flat_map]. apply Forall2_app; auto. }
  induction u using expr_ind'; intros e HE;
  try (assert (X : stmts e = [e]); [|rewrite X; repeat constructor; exact HE];
       cbn [mk] in HE;
       repeat (match type of HE with
            | (if ?b then _ else _) = _ => destruct b; [|discriminate]
            | bindR _ _ = _ => apply bindR_ok in HE; destruct HE as [? [? HE]]; cbv beta zeta in HE
            end); inversion HE; reflexivity).
  - cbn [mk] in HE. apply bindR_ok in HE. destruct HE as [l [H1 HE]]. apply bindR_ok in HE. destruct HE as [r [H2 HE]].
    cbv beta in HE. destruct (is_const r); [discriminate|]. inversion HE; subst. cbn [stmts]. apply Forall2_app; auto.
  - assert (HE' := HE). destruct a. rewrite mk_for in HE. apply bindR_ok in HE. destruct HE as [l [H1 HE]].
    destruct (_ && _); [|discriminate]. inversion HE; subst. clear HE.
    destruct es as [|y l0].
    + inversion H1; subst. constructor; [exact HE'|constructor].
    + pose proof (LST _ H _ H1) as X.
      rewrite stmts_for by discriminate. rewrite stmts_for; [exact X|].
      intros ->. cbn in X. inversion X as [HX|]. symmetry in HX. apply app_eq_nil in HX. now apply (stmts_ne y).
Qed.

Lemma stmts_wfs {A} (u : expr T A) : wfs u = true -> Forall (fun y => wfs y = true) (stmts u).
Proof.
  induction u using expr_ind'; intros HW; try (constructor; [exact HW|constructor]).
  - cbn [wfs stmts] in *. rewrite !andb_true_iff in HW. apply Forall_app. split; [apply IHu1|apply IHu2]; tauto.
  - destruct es as [|y l]; [constructor; [exact HW|constructor]|]. rewrite stmts_for by discriminate.
    cbn [wfs] in HW. rewrite !andb_true_iff in HW. destruct HW as [[[W1 _] _] _].
    induction H as [|w l' HY H IH]; [constructor|]. cbn [forallb flat_map] in *. apply andb_true_iff in W1.
    apply Forall_app. split; [apply HY|apply IH]; tauto.
Qed.
Lemma stmts_sub {A} (f : expr T A -> list nat) (Hg : forall a l r, f (EGlue a l r) = f l ++ f r)
  (Hf : forall a s es, f (EFor a s es) = flat_map f es) (u : expr T A) : flat_map f (stmts u) = f u.
Proof.
  induction u using expr_ind'; try (cbn [stmts flat_map]; apply app_nil_r).
  - cbn [stmts]. now rewrite flat_map_app, IHu1, IHu2, Hg.
  - destruct es as [|y l]; [cbn [stmts flat_map]; apply app_nil_r|]. rewrite stmts_for by discriminate. rewrite Hf.
    induction H as [|w l' HY H IH]; [reflexivity|]. cbn [flat_map]. now rewrite flat_map_app, HY, IH.
Qed.
Lemma stmts_refs {A} (u : expr T A) : flat_map refs (stmts u) = refs u.
Proof. apply stmts_sub; reflexivity. Qed.
Lemma stmts_drefs {A} (u : expr T A) : flat_map drefs (stmts u) = drefs u.
Proof. apply stmts_sub; reflexivity. Qed.

Hypothesis LL : la_len N.
Variable bs : nat -> nat * nat.
Hypothesis SB : separate bs.
Variables V W : nat -> Prop.

Lemma bind_one bv ba uv ua (u : U) e0 m m1 : fresh bv ba -> wfs u = true -> avail u m1 -> mk u m = Ok e0 -> agree m m1 ->
  exists e m2, bound bv ba uv ua u m1 = Ok (e, m2) /\ sk e = sk e0 /\
    inv bv ba u (fst (csize e)) (snd (csize e)) e m2 /\ forall b o, b <> bv -> b <> ba -> m2 b o = m1 b o.
Proof.
  intros HF HW HA HM HG.
  assert (HB : exists e m2, bound bv ba uv ua u m1 = Ok (e, m2) /\ sk e = sk e0).
  { unfold bound. rewrite <- (mk_agree u m m1 HG), HM. cbn [bindR].
    assert (W0 : wfs e0 = true).
    { destruct (mk_inv LL u m e0 HM) as [<- _]. unfold er in HW. now rewrite wfs_amap in HW. }
    unfold ad_bind. pose proof (BD_all bv ba e0 0 0 W0) as B. destruct (bindc bv ba e0 0 0) as [[e1 v1] a1].
    destruct B as [_ [_ [_ S1]]]. eauto. }
  destruct HB as [e [m2 [HB HS]]]. exists e, m2. split; [exact HB|]. split; [exact HS|].
  destruct (inv_bound LL bv ba HF u m1 uv ua e m2 HW HA HB) as [HI [H0 _]]. auto.
Qed.

Lemma avail_agree (u : U) (m m' : mem T) : agree m m' -> avail u m -> avail u m'.
Proof.
  intros HG [A1 A2]. split; intros o Ho; destruct (HG o) as [G1 [G2 G3]]; rewrite <- ?G1, <- ?G2, <- ?G3; auto.
Qed.
Lemma blocks_agree (m m' : mem T) i : (forall b o, (forall j, i <= j -> b <> fst (bs j) /\ b <> snd (bs j)) -> m' b o = m b o) -> agree m m'.
Proof.
  intros H o. repeat split; symmetry; apply H; intros j _; split; apply not_eq_sym.
  all: try apply (bs_v bs SB j); apply (bs_a bs SB j).
Qed.
Lemma bind_all_ok (uv ua : nat -> nat -> T) us es0 m : Forall2 (fun (u : U) e => mk u m = Ok e) us es0 ->
  Forall (fun u => wfs u = true) us -> (forall o, In o (flat_map refs us) -> V o) -> (forall o, In o (flat_map drefs us) -> W o) ->
  Forall (fun u => avail u m) us -> forall i m1, agree m m1 ->
  exists es ms, bind_all bs uv ua i us m1 = Ok (es, ms) /\ map sk es = map sk es0 /\ IT bs V W i es ms /\
    (forall b o, (forall j, i <= j -> b <> fst (bs j) /\ b <> snd (bs j)) -> ms b o = m1 b o).
Proof.
  induction 1 as [|u e0 us es0 HM H IH]; intros HW HV HD HA i m1 HG.
  - exists [], m1. cbn. auto.
  - inversion HW as [|? ? W1 W2]; subst. inversion HA as [|? ? A1 A2]; subst. cbn [flat_map] in HV, HD.
    destruct (bind_one (fst (bs i)) (snd (bs i)) (uv i) (ua i) u e0 m m1 (proj1 SB i) W1
      (avail_agree _ _ _ HG A1) HM HG) as [e [m2 [B1 [B2 [B3 B4]]]]].
    assert (G2 : agree m m2).
    { eapply agree_trans; [exact HG|]. apply (blocks_agree _ _ i). intros b o Hb. apply B4; apply (Hb i); lia. }
    destruct (IH W2 ltac:(intros; apply HV, in_or_app; auto) ltac:(intros; apply HD, in_or_app; auto) A2 (S i) m2 G2)
      as [es [ms [C1 [C2 [C3 C4]]]]].
    exists (e :: es), ms. cbn [bind_all]. rewrite B1. cbn [bindR]. rewrite C1. cbn [bindR].
    split; [reflexivity|]. split; [cbn; congruence|]. split.
    + cbn. destruct B3 as [D1 [D2 [D3 [D4 [D5 [D6 D7]]]]]]. destruct SB as [S1 S2]. split; [|split; [|exact C3]].
      * exists (fst (csize e)), (snd (csize e)). split; [exact D4|]. split; intros o Ho; rewrite C4; auto.
        -- intros j Hj. destruct (S2 i j) as [X1 [X2 X3]]; [lia|]. auto.
        -- intros j Hj. destruct (S2 i j) as [X1 [X2 X3]]; [lia|]. destruct (S2 j i) as [Y1 [Y2 Y3]]; [lia|]. auto.
      * subst u. unfold er in *. rewrite wfs_amap in W1. rewrite refs_amap in HV. rewrite drefs_amap in HD.
        apply (pre_intro (D := fun _ => n0 N) (bs_v bs SB i) (bs_a bs SB i)); auto.
        -- intros; apply HV, in_or_app; auto.
        -- intros; apply HD, in_or_app; auto.
    + intros b o Hb. rewrite C4 by (intros j Hj; apply Hb; lia). apply B4; apply (Hb i); lia.
Qed.
End Bind.

Section Sim.
Context {N : num}.
Notation T := (carrier N).
Notation E := (expr T (ann N)).
Notation U := (expr T unit).
Notation env := (nat -> T).
Hypothesis LL : la_len N.
Variables bv ba : nat.
Hypothesis HF : fresh bv ba.
Variable bs : nat -> nat * nat.
Hypothesis SB : separate bs.
Variable u : U.
Notation V := (vset u).
Notation W := (wset u).

(** Changes a client can see are confined to the cells of [V]. *)
Definition quiet (m m' : mem T) : Prop :=
  (forall o, ~ V o -> m' 0 o = m 0 o /\ m' 1 o = m 1 o) /\ forall o, m' 4 o = m 4 o.
Lemma agree_next (D : env) (m m' ms ms' : mem T) (r a : env) : agree m ms -> quiet m m' -> quiet ms ms' ->
  MR V W D m' r a -> MR V W D ms' r a -> agree m' ms'.
Proof.
  intros HA [Q1 Q2] [Q3 Q4] [M1 _] [M2 _] o. destruct (HA o) as [A1 [A2 A3]].
  split; [|split; [|rewrite Q2, Q4; exact A3]].
  - destruct (in_dec Nat.eq_dec o (refs u)) as [H|H].
    + destruct (M1 o H) as [-> _], (M2 o H) as [-> _]. reflexivity.
    + destruct (Q1 o H) as [-> _], (Q3 o H) as [-> _]. exact A1.
  - destruct (in_dec Nat.eq_dec o (refs u)) as [H|H].
    + destruct (M1 o H) as [_ ->], (M2 o H) as [_ ->]. reflexivity.
    + destruct (Q1 o H) as [_ ->], (Q3 o H) as [_ ->]. exact A2.
Qed.
Lemma agree_MR (D : env) (m ms : mem T) (r a : env) : agree m ms -> MR V W D m r a -> MR V W D ms r a.
Proof.
  intros HA [M1 M2]. split.
  - intros o Ho. destruct (HA o) as [A1 [A2 A3]]. rewrite <- A1, <- A2. auto.
  - intros o Ho. destruct (HA o) as [A1 [A2 A3]]. rewrite <- A3. auto.
Qed.
Lemma quiet_EP cv (m m' : mem T) : fr (EP bv u cv) m m' -> quiet m m'.
Proof.
  destruct HF as [[F1 [F2 F3]] _]. intros [F _]. split; [intros o Ho; split|intros o]; apply F; unfold EP;
    intros [[X _]|[X X2]]; try congruence. apply Ho. now apply writes_refs.
Qed.
Lemma quiet_DP cv ca (m m' : mem T) : fr (DP bv ba u cv ca) m m' -> quiet m m'.
Proof.
  destruct HF as [[F1 [F2 F3]] [F4 [F5 [F6 F7]]]]. intros [F _]. split; [intros o Ho; split|intros o]; apply F; unfold DP;
    intros [[X _]|[[X _]|[[X X2]|[X X2]]]]; try congruence; apply Ho; [now apply writes_refs|exact X2].
Qed.
Lemma IT_refs (es : list E) : forall i m, IT bs V W i es m -> forall o, In o (flat_map refs es) -> V o.
Proof.
  induction es as [|e l IH]; intros i m; cbn; [tauto|]. intros [_ [P H]] o Ho. apply in_app_iff in Ho.
  destruct Ho as [Ho|Ho]; [destruct P as [_ [_ [P _]]]; apply P, Ho|eapply IH; eauto].
Qed.
Lemma flat_writes (es : list E) o : In o (flat_map writes es) -> In o (flat_map refs es).
Proof. rewrite !in_flat_map. intros [e [H1 H2]]. exists e. split; [auto|now apply writes_refs]. Qed.
Lemma quiet_f i (es : list E) (m m' ms : mem T) : IT bs V W i es ms -> fr (SPf bs i es) m m' -> quiet m m'.
Proof.
  intros HI [F _].
  split; [intros o Ho; split|intros o]; apply F; unfold SPf; intros [[j [_ X]]|[X X2]];
    try (destruct (bs_v bs SB j) as [? [? ?]]; congruence); try congruence.
  apply Ho. eapply IT_refs; eauto using flat_writes.
Qed.
Lemma quiet_b i (es : list E) (m m' ms : mem T) : IT bs V W i es ms -> fr (SPb bs i es) m m' -> quiet m m'.
Proof.
  intros HI [F _].
  split; [intros o Ho; split|intros o]; apply F; unfold SPb; intros [[j [_ [X|X]]]|[[X X2]|[X X2]]];
    try (destruct (bs_v bs SB j) as [? [? ?]]; congruence); try (destruct (bs_a bs SB j) as [? [? [? ?]]]; congruence); try congruence;
    apply Ho; eapply IT_refs; eauto using flat_writes.
Qed.
Lemma quiet_trans m1 m2 m3 : quiet m1 m2 -> quiet m2 m3 -> quiet m1 m3.
Proof.
  intros [A1 A2] [B1 B2]. split; intros o; [intros Ho|].
  - destruct (A1 o Ho), (B1 o Ho). split; congruence.
  - now rewrite B2, A2.
Qed.

Definition SIM (e : E) (m : mem T) (es : list E) (ms : mem T) : Prop :=
  (exists cv ca, inv bv ba u cv ca e m) /\ IT bs V W 0 es ms /\ map sk es = map sk (stmts e) /\ agree m ms.

Lemma state_step cv ca (e : E) (m : mem T) (D r al : env) (e' : E) (m' : mem T) v : inv bv ba u cv ca e m -> MR V W D m r al ->
  evaluate e m = Ok (e', m', v) -> sk e' = skp (sk e) (fst (fst (pf D None e r))).
Proof.
  intros HI HM HE. unfold evaluate in HE. apply bindR_ok in HE. destruct HE as [[[e1 m1] q] [E1 HE]].
  apply bindR_ok in HE. destruct HE as [l [_ HE]]. inversion HE; subst.
  pose proof HI as [_ [_ [_ [H4 [H5 _]]]]]. destruct HF as [Fb Fa].
  eapply (SKP_all Fb Fa LL); [exact H4|eapply inv_pre; eauto|exact HM|exact H5|exact E1].
Qed.
Lemma shape_last cv ca (e : E) (m : mem T) (es : list E) : inv bv ba u cv ca e m -> map sk es = map sk (stmts e) ->
  size (shape_of (last es (EVar scl 0))) = size (shape_of u).
Proof.
  intros [HE [HW _]] HS. rewrite <- HE in *. unfold er in HW. rewrite wfs_amap in HW. rewrite shape_er.
  rewrite <- (stmts_shape e HW). f_equal. apply sk_shape.
  assert (X : forall l : list E, l <> [] -> sk (last l (EVar scl 0)) = last (map sk l) (EVar scl 0)).
  { intros l Hl. symmetry. now apply last_map. }
  assert (NE : stmts e <> []) by apply stmts_ne.
  assert (NE2 : es <> []) by (intros ->; destruct (stmts e); [now apply NE|discriminate]).
  now rewrite !X, HS.
Qed.

Lemma map_sk_er (l l' : list E) : map sk l = map sk l' -> map er l = map er l'.
Proof.
  revert l'; induction l; intros [|y l']; cbn; try discriminate; auto. intros H. injection H as H1 H2.
  f_equal; auto. now apply er_sk.
Qed.
Lemma map_strip_er (l l' : list E) : map strip l = map strip l' -> map er l = map er l'.
Proof.
  revert l'; induction l; intros [|y l']; cbn; try discriminate; auto. intros H. injection H as H1 H2.
  f_equal; auto. now apply er_strip.
Qed.

Lemma sim_eval e m es ms : SIM e m es ms ->
  exists e' m' es' ms' v, evaluate e m = Ok (e', m', v) /\ seq_eval es ms = Ok (es', ms', v) /\ SIM e' m' es' ms'.
Proof.
  intros [[cv [ca HI]] [HT [HS HA]]].
  pose proof (MR_renv u m (proj2 (proj2 (proj2 (proj2 (proj2 (proj2 HI))))))) as HM.
  pose proof (agree_MR _ _ _ _ _ HA HM) as HMs.
  destruct (evaluate_ok LL bv ba HF u cv ca e m _ _ _ HI HM) as [e' [m' Q]].
  pose proof (state_step cv ca e m (renv m 4) (renv m 0) (renv m 1) e' m') as SS.
  destruct (pf (renv m 4) None e (renv m 0)) as [[t r'] p] eqn:EP. destruct Q as [Q1 [Q2 [Q3 [Q4 _]]]].
  specialize (SS _ HI HM Q1). cbn [fst] in SS.
  destruct (seq_fwd LL bs SB V W _ es 0 ms _ _ p HT HMs) as [es' [ms' [vs [E2 Q]]]].
  rewrite (pfsf_sk _ (stmts e) es HS) in Q. rewrite (PFL_all _ e _ _ _ _ p EP) in Q.
  destruct Q as [W1 [W2 [W3 [W4 [W5 [W6 W7]]]]]].
  exists e', m', es', ms', (rdp r' p). split; [exact Q1|]. split.
  - unfold seq_eval. rewrite E2. cbn [bindR]. rewrite W7; [reflexivity|].
    intros ->. pose proof (stmts_ne e). destruct (stmts e); [congruence|discriminate].
  - split; [eauto|]. split; [exact W4|]. split.
    + rewrite W1, HS. rewrite <- (SKF_all _ e _ _ _ _ EP), <- SS. unfold sk. apply stmts_amap.
    + eapply agree_next; [exact HA|eapply quiet_EP; eauto|exact (quiet_f 0 es _ _ ms HT W6)|exact Q3|exact W5].
Qed.

Lemma sim_diff e m es ms seed : SIM e m es ms -> length seed = size (shape_of u) ->
  exists e' m' es' ms' v, autodiff e seed m = Ok (e', m', v) /\ seq_diff es seed ms = Ok (es', ms', v) /\ SIM e' m' es' ms'.
Proof.
  intros [[cv [ca HI]] [HT [HS HA]]] HL.
  pose proof (MR_renv u m (proj2 (proj2 (proj2 (proj2 (proj2 (proj2 HI))))))) as HM.
  pose proof (agree_MR _ _ _ _ _ HA HM) as HMs.
  destruct (autodiff_ok LL bv ba HF u cv ca e m _ _ _ seed HI HM HL) as [e' [m' Q]].
  pose proof (state_step cv ca e m (renv m 4) (renv m 0) (renv m 1) e') as SS.
  destruct (pf (renv m 4) None e (renv m 0)) as [[t r'] p] eqn:EP.
  destruct (pb None e' t seed r' (renv m 1)) as [[q r2] a2] eqn:EB.
  destruct Q as [Q1 [Q2 [Q3 [Q4 Q5]]]].
  assert (Q1' := Q1). unfold autodiff in Q1'. apply bindR_ok in Q1'. destruct Q1' as [[[e1 m1] v1] [E1 Q1']].
  apply bindR_ok in Q1'. destruct Q1' as [m2 [_ Q1']]. inversion Q1'; subst e1 m2 v1. clear Q1'.
  specialize (SS m1 _ HI HM E1). cbn [fst] in SS.
  destruct (seq_fwd LL bs SB V W _ es 0 ms _ _ p HT HMs) as [es' [ms' [vs [E2 Q]]]].
  rewrite (pfsf_sk _ (stmts e) es HS) in Q. rewrite (PFL_all _ e _ _ _ _ p EP) in Q.
  destruct Q as [W1 [W2 [W3 [W4 [W5 [W6 W7]]]]]].
  assert (NE : es <> []).
  { intros ->. pose proof (stmts_ne e). destruct (stmts e); [congruence|discriminate]. }
  assert (ERS : map er es' = map er (stmts e)).
  { rewrite (map_strip_er _ _ W2). now apply map_sk_er. }
  assert (NE' : es' <> []) by (intros ->; destruct es; [congruence|discriminate W2]).
  assert (SK' : map sk es' = map sk (stmts e')).
  { rewrite W1, HS. rewrite <- (SKF_all _ e _ _ _ _ EP), <- SS. unfold sk. apply stmts_amap. }
  assert (HW : wfs e = true).
  { pose proof HI as [X1 [X2 _]]. rewrite <- X1 in X2. unfold er in X2. now rewrite wfs_amap in X2. }
  destruct (seq_bwd LL bs SB V W _ es' p 0 _ ms' _ _ seed NE' W4 W3 W5) as [ms2 [E3 Q]].
  { rewrite (shape_last cv ca e' m' es'); auto. }
  rewrite (pfgo_er (stmts e) es' p seed ERS) in Q.
  rewrite <- (PBL_all _ e _ _ _ _ p seed r' (renv m 1) HW EP) in Q.
  rewrite <- (pb_er e e' None t seed r' (renv m 1)) in Q by (now apply er_strip). rewrite EB in Q. destruct Q as [Z1 Z2].
  exists e', m', es', ms2, (rdp r' p). split; [exact Q1|]. split.
  - unfold seq_diff, seq_eval. rewrite E2. cbn [bindR]. rewrite E3. cbn [bindR]. rewrite W7 by exact NE. reflexivity.
  - split; [eauto|]. split; [eapply IT_keeps; [apply Z2|exact W4]|]. split; [exact SK'|].
    eapply agree_next; [exact HA|eapply quiet_DP; eauto|eapply quiet_trans; [exact (quiet_f 0 es _ _ ms HT W6)|exact (quiet_b 0 es' _ _ _ W4 Z2)]|exact Q3|exact Z1].
Qed.

Lemma sim_play ops : Forall (op_ok (size (shape_of u))) ops -> Forall op_shared ops -> forall e m es ms, SIM e m es ms ->
  exists e' m' es' ms' vs, play evaluate autodiff ops e m = Ok (e', m', vs) /\
    play seq_eval seq_diff ops es ms = Ok (es', ms', vs) /\ SIM e' m' es' ms'.
Proof.
  induction 1 as [|o ops HO H IH]; intros HS e m es ms HSim.
  - exists e, m, es, ms, []. cbn. auto.
  - inversion HS as [|? ? S1 S2]; subst. cbn [play].
    assert (X : exists e1 m1 es1 ms1 v,
      match o with OpEval => evaluate e m | OpDiff seed => autodiff e seed m | OpUser f => Ok (e, f m, []) end = Ok (e1, m1, v) /\
      match o with OpEval => seq_eval es ms | OpDiff seed => seq_diff es seed ms | OpUser f => Ok (es, f ms, []) end = Ok (es1, ms1, v) /\
      SIM e1 m1 es1 ms1).
    { destruct o as [|seed|f]; [now apply sim_eval|now apply sim_diff|].
      exists e, (f m), es, (f ms), []. split; [reflexivity|]. split; [reflexivity|].
      destruct HSim as [[cv [ca HI]] [HT [HK HA]]]. cbn in HO, S1. split; [|split; [|split; [exact HK|auto]]].
      - exists cv, ca. eapply inv_keeps; eauto.
      - eapply IT_keeps; [|exact HT]. auto. }
    destruct X as [e1 [m1 [es1 [ms1 [v [-> [-> X]]]]]]]. cbn [bindR].
    destruct (IH S2 e1 m1 es1 ms1 X) as [e2 [m2 [es2 [ms2 [vs [-> [-> Y]]]]]]]. cbn [bindR]. eauto 10.
Qed.

Theorem sequence (uv ua : nat -> T) (uvs uas : nat -> nat -> T) m ops :
  wfs u = true -> ctor_ok u = true -> avail u m ->
  Forall (op_ok (size (shape_of u))) ops -> Forall op_shared ops ->
  exists e m0 e' m' es ms0 es' ms' vs,
    bound bv ba uv ua u m = Ok (e, m0) /\ play evaluate autodiff ops e m0 = Ok (e', m', vs) /\
    bind_all bs uvs uas 0 (stmts u) m = Ok (es, ms0) /\ play seq_eval seq_diff ops es ms0 = Ok (es', ms', vs) /\
    agree m' ms'.
Proof.
  intros HW HC HA HO HS. destruct (mk_ok LL u m HW HC HA) as [e0 HM].
  destruct (bind_one LL bv ba uv ua u e0 m m HF HW HA HM (agree_refl m)) as [e [m0 [B1 [B2 [B3 B4]]]]].
  destruct (bind_all_ok LL bs SB V W uvs uas (stmts u) (stmts e0) m (mk_stmts u m e0 HM) (stmts_wfs u HW)) with (i := 0) (m1 := m)
    as [es [ms0 [C1 [C2 [C3 C4]]]]].
  - intros o. now rewrite stmts_refs.
  - intros o. now rewrite stmts_drefs.
  - apply Forall_forall. intros y Hy. destruct HA as [A1 A2]. split; intros o Ho; [apply A1|apply A2].
    + rewrite <- stmts_refs. apply in_flat_map; eauto.
    + rewrite <- stmts_drefs. apply in_flat_map; eauto.
  - apply agree_refl.
  - assert (X : SIM e m0 es ms0).
    { split; [eauto|]. split; [exact C3|]. split.
      - rewrite C2. unfold sk in *. rewrite <- !stmts_amap. now rewrite B2.
      - eapply agree_trans; [apply agree_sym|eapply (blocks_agree bs SB _ _ 0); exact C4].
        intros o. destruct HF as [[F1 [F2 F3]] [F4 [F5 [F6 F7]]]]. repeat split; symmetry; apply B4; auto. }
    destruct (sim_play ops HO HS e m0 es ms0 X) as [e' [m' [es' [ms' [vs [P1 [P2 [_ [_ [_ P3]]]]]]]]]].
    eauto 20.
Qed.
End Sim.
