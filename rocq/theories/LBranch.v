(** An if_else behaves like the client's own branch over separately bound
    condition and branches; sequences with the same statements are
    indistinguishable. *)
From Verif Require Import Base Num Expr Node Stat Machine Wf Pure LBase LKind LSimDef LMem LSimF LSimB LBind Session LUser Tape LTape Flow LFlow LSeq LFind.

Section Branch.
Context {N : num}.
Notation T := (carrier N).
Notation E := (expr T (ann N)).
Notation U := (expr T unit).
Notation env := (nat -> T).
Hypothesis LL : la_len N.
Variables bv ba : nat.
Hypothesis HF : fresh bv ba.
Variable bs : nat -> nat * nat.
Hypothesis SB : separate bs.
Variables uc ut uf : U.
Notation u := (EIf tt uc ut uf).
Notation V := (vset u).
Notation W := (wset u).

Lemma pf_cond D (c : E) r : cond_ok c = true ->
  let '(tc, r1, pc) := pf D None c r in exists l, tp tc = PL l /\ pc = PL l.
Proof.
  destruct c; try discriminate; intros _; cbn [pf]; try (eexists; split; reflexivity).
  destruct (pfs D es r) as [[[ts r1] ps] im] eqn:EP; unfold pfs in EP; rewrite EP.
  destruct (kf _ _ _ _ _) as [s' val].
  eexists; split; reflexivity.
Qed.
Lemma pf_if D an (c a b : E) r : pf D None (EIf an c a b) r =
  let '(tc, r1, pc) := pf D None c r in
  let '(tb, r2, p) := if ntrue N (hd0 N (rdp r1 pc)) then pf D None a r1 else pf D None b r1 in
  (Tp p (rdp r2 p) (sst0 N) [] [tc; tb], r2, p).
Proof. reflexivity. Qed.

Lemma quiet_one j (e : E) (m m' : mem T) : pre (V := V) (W := W) None e ->
  fr (fun b o => b = fst (bs j) \/ (b = 0 /\ In o (writes e))) m m' -> quiet u m m'.
Proof.
  intros [_ [_ [P _]]] [F _]. destruct (bs_v bs SB j) as [F1 [F2 F3]].
  split; [intros o Ho; split|intros o]; apply F; intros [X|[X X2]]; try congruence.
  apply Ho, P. now apply writes_refs.
Qed.
Lemma quiet_oneb j (e : E) (m m' : mem T) : pre (V := V) (W := W) None e ->
  fr (fun b o => b = fst (bs j) \/ b = snd (bs j) \/ (b = 0 /\ In o (writes e)) \/ (b = 1 /\ In o (refs e))) m m' -> quiet u m m'.
Proof.
  intros [_ [_ [P _]]] [F _]. destruct (bs_v bs SB j) as [F1 [F2 F3]], (bs_a bs SB j) as [G1 [G2 [G3 G4]]].
  split; [intros o Ho; split|intros o]; apply F; intros [X|[X|[[X X2]|[X X2]]]]; try congruence.
  - apply Ho, P. now apply writes_refs.
  - apply Ho, P. exact X2.
Qed.

Definition BIM (e : E) (m : mem T) (s : E * E * E) (ms : mem T) : Prop :=
  (exists cv ca, inv bv ba u cv ca e m) /\
  (let '(c, a, b) := s in IT bs V W 0 [c; a; b] ms /\ exists an, sk e = EIf an (sk c) (sk a) (sk b)) /\ agree m ms.

Lemma IT_1 i (e : E) l m : IT bs V W i (e :: l) m -> IT bs V W i [e] m.
Proof. cbn. tauto. Qed.
Lemma IT_3 (c a b c' a' b' : E) m m' : (forall bb o, m bb o <> None -> m' bb o <> None) ->
  IT bs V W 0 [c; a; b] m -> (IT bs V W 0 [c'] m' \/ c' = c) -> (IT bs V W 1 [a'] m' \/ a' = a) -> (IT bs V W 2 [b'] m' \/ b' = b) ->
  IT bs V W 0 [c'; a'; b'] m'.
Proof.
  intros HK HI H1 H2 H3. apply (IT_keeps bs V W _ _ m m' HK) in HI.
  assert (X : forall i (e : E) l, IT bs V W i (e :: l) m' <-> IT bs V W i [e] m' /\ IT bs V W (S i) l m') by (intros; cbn; tauto).
  rewrite X in HI. destruct HI as [I1 HI]. rewrite X in HI. destruct HI as [I2 I3].
  apply X. split; [destruct H1; subst; auto|]. apply X. split; [destruct H2; subst; auto|destruct H3; subst; auto].
Qed.
Lemma IT_one i (e : E) l m : IT bs V W i (e :: l) m <-> IT bs V W i [e] m /\ IT bs V W (S i) l m.
Proof. cbn; tauto. Qed.

Lemma bim_parts e m s ms : BIM e m s ms ->
  exists an c a b, e = EIf an c a b /\ sk (fst (fst s)) = sk c /\ sk (snd (fst s)) = sk a /\ sk (snd s) = sk b /\
    cond_ok c = true /\ shape_of a = shape_of u /\ shape_of b = shape_of u.
Proof.
  intros [[cv [ca [HI [HW _]]]] [HS _]]. destruct s as [[c2 a2] b2]. destruct HS as [_ [an0 HS]].
  destruct e; try discriminate HS. cbn in HS. injection HS as H0 H1 H2 H3. cbn in HI. injection HI as I1 I2 I3.
  cbn [wfs] in HW. rewrite !andb_true_iff in HW. destruct HW as [[_ HC] HSh]. apply LBase.shape_eqb_eq in HSh.
  exists a, e1, e2, e3. cbn. repeat split; auto.
  - rewrite <- I1 in HC. unfold er in HC. now rewrite cond_ok_amap in HC.
  - rewrite <- I2. exact (eq_sym (shape_er e2)).
  - rewrite HSh, <- I3. exact (eq_sym (shape_er e3)).
Qed.

Lemma bim_eval e m s ms : BIM e m s ms ->
  exists e' m' s' ms' v, evaluate e m = Ok (e', m', v) /\ if_eval s ms = Ok (s', ms', v) /\ BIM e' m' s' ms'.
Proof.
  intros HB. destruct (bim_parts _ _ _ _ HB) as [an [c [a [b [-> [KC [KA [KB [HC _]]]]]]]]].
  destruct HB as [[cv [ca HI]] [HT HA]]. destruct s as [[c2 a2] b2]. cbn [fst snd] in *. destruct HT as [HT _].
  pose proof (MR_renv u m (proj2 (proj2 (proj2 (proj2 (proj2 (proj2 HI))))))) as HM.
  pose proof (agree_MR u _ _ _ _ _ HA HM) as HMs.
  destruct (evaluate_ok LL bv ba HF u cv ca _ m _ _ _ HI HM) as [e' [m' Q]].
  pose proof (state_step LL bv ba HF u cv ca (EIf an c a b) m (renv m 4) (renv m 0) (renv m 1) e' m') as SS. pose proof (fun v => SS v HI HM) as SS0. clear SS. rename SS0 into SS. cbv beta in SS.
  rewrite pf_if in Q, SS.
  destruct (one_eval LL bs SB V W _ 0 c2 ms _ _ (IT_1 _ _ _ _ HT) HMs) as [c3 [ms1 QC]].
  rewrite (pf_sk _ c c2 None _ KC) in QC. pose proof (pf_cond (renv m 4) c (renv m 0) HC) as PC.
  destruct (pf (renv m 4) None c (renv m 0)) as [[tc r1] pc]. destruct PC as [l [P1 P2]]. subst pc. cbn [rdp] in *.
  destruct QC as [C1 [C2 [C3 [C4 [C5 [C6 C7]]]]]].
  pose proof (proj1 (IT_one _ _ _ _) HT) as [T1 T2]. pose proof (proj1 (IT_one _ _ _ _) T2) as [T3 T4].
  destruct (ntrue N (hd0 N l)) eqn:EN.
  - destruct (one_eval LL bs SB V W _ 1 a2 ms1 _ _ (IT_keeps bs V W _ _ _ _ (proj2 C7) T3) C6) as [a3 [ms2 QA]].
    rewrite (pf_sk _ a a2 None _ KA) in QA.
    destruct (pf (renv m 4) None a r1) as [[tb r2] p]. destruct Q as [Q1 [Q2 [Q3 [Q4 _]]]].
    specialize (SS _ Q1). cbn [fst] in SS. destruct QA as [A1 [A2 [A3 [A4 [A5 [A6 A7]]]]]].
    exists e', m', (c3, a3, b2), ms2, (rdp r2 p). split; [exact Q1|]. split.
    + unfold if_eval. rewrite C1. cbn [bindR]. rewrite EN. cbn [rdp]. rewrite A1. reflexivity.
    + split; [eauto|]. split; [split|].
      * eapply IT_3; [|exact HT| | |]; [|left|left; exact A5|right; reflexivity].
        -- intros bb o Ho. apply A7, C7, Ho.
        -- eapply IT_keeps; [apply A7|exact C5].
      * exists (st an). rewrite SS. cbn [sk amap skp tts]. rewrite P1, EN. fold (sk c) (sk a) (sk b).
        rewrite C2, A2, KC, KA, KB. reflexivity.
      * destruct T1 as [_ [T1 _]]. destruct T3 as [_ [T3 _]].
        eapply agree_next; [exact HA|eapply quiet_EP; eauto|eapply quiet_trans; [eapply quiet_one; [exact T1|exact C7]|eapply quiet_one; [exact T3|exact A7]]|exact Q3|exact A6].
  - destruct (one_eval LL bs SB V W _ 2 b2 ms1 _ _ (IT_keeps bs V W _ _ _ _ (proj2 C7) T4) C6) as [a3 [ms2 QA]].
    rewrite (pf_sk _ b b2 None _ KB) in QA.
    destruct (pf (renv m 4) None b r1) as [[tb r2] p]. destruct Q as [Q1 [Q2 [Q3 [Q4 _]]]].
    specialize (SS _ Q1). cbn [fst] in SS. destruct QA as [A1 [A2 [A3 [A4 [A5 [A6 A7]]]]]].
    exists e', m', (c3, a2, a3), ms2, (rdp r2 p). split; [exact Q1|]. split.
    + unfold if_eval. rewrite C1. cbn [bindR]. rewrite EN. cbn [rdp]. rewrite A1. reflexivity.
    + split; [eauto|]. split; [split|].
      * eapply IT_3; [|exact HT| | |]; [|left|right; reflexivity|left; exact A5].
        -- intros bb o Ho. apply A7, C7, Ho.
        -- eapply IT_keeps; [apply A7|exact C5].
      * exists (st an). rewrite SS. cbn [sk amap skp tts]. rewrite P1, EN. fold (sk c) (sk a) (sk b).
        rewrite C2, A2, KC, KA, KB. reflexivity.
      * destruct T1 as [_ [T1 _]]. destruct T4 as [_ [T4 _]].
        eapply agree_next; [exact HA|eapply quiet_EP; eauto|eapply quiet_trans; [eapply quiet_one; [exact T1|exact C7]|eapply quiet_one; [exact T4|exact A7]]|exact Q3|exact A6].
Qed.

Lemma pb_if an (c a b : E) t tc tb l s r al : tts t = [tc; tb] -> tp tc = PL l ->
  pb None (EIf an c a b) t s r al = if ntrue N (hd0 N l) then pb None a tb s r al else pb None b tb s r al.
Proof. intros H1 H2. cbn [pb]. rewrite H1, H2. reflexivity. Qed.

Lemma bim_diff e m s ms seed : BIM e m s ms -> length seed = size (shape_of u) ->
  exists e' m' s' ms' v, autodiff e seed m = Ok (e', m', v) /\ if_diff s seed ms = Ok (s', ms', v) /\ BIM e' m' s' ms'.
Proof.
  intros HB HL. destruct (bim_parts _ _ _ _ HB) as [an [c [a [b [-> [KC [KA [KB [HC [SHa SHb]]]]]]]]]].
  destruct HB as [[cv [ca HI]] [HT HA]]. destruct s as [[c2 a2] b2]. cbn [fst snd] in *. destruct HT as [HT _].
  pose proof (MR_renv u m (proj2 (proj2 (proj2 (proj2 (proj2 (proj2 HI))))))) as HM.
  pose proof (agree_MR u _ _ _ _ _ HA HM) as HMs.
  destruct (autodiff_ok LL bv ba HF u cv ca _ m _ _ _ seed HI HM HL) as [e' [m' Q]].
  pose proof (state_step LL bv ba HF u cv ca (EIf an c a b) m (renv m 4) (renv m 0) (renv m 1) e') as SS.
  rewrite pf_if in Q, SS.
  destruct (one_eval LL bs SB V W _ 0 c2 ms _ _ (IT_1 _ _ _ _ HT) HMs) as [c3 [ms1 QC]].
  rewrite (pf_sk _ c c2 None _ KC) in QC. pose proof (pf_cond (renv m 4) c (renv m 0) HC) as PC.
  destruct (pf (renv m 4) None c (renv m 0)) as [[tc r1] pc]. destruct PC as [l [P1 P2]]. subst pc. cbn [rdp] in *.
  destruct QC as [C1 [C2 [C3 [C4 [C5 [C6 C7]]]]]].
  pose proof (proj1 (IT_one _ _ _ _) HT) as [T1 T2]. pose proof (proj1 (IT_one _ _ _ _) T2) as [T3 T4].
  assert (HSH : forall x y : E, sk x = sk y -> shape_of x = shape_of y).
  { intros x y H. rewrite <- (shape_er x), <- (shape_er y). f_equal. now apply er_sk. }
  assert (HSt : forall x y : E, strip x = strip y -> shape_of x = shape_of y).
  { intros x y H. rewrite <- (shape_er x), <- (shape_er y). f_equal. now apply er_strip. }
  destruct (ntrue N (hd0 N l)) eqn:EN.
  - destruct (one_eval LL bs SB V W _ 1 a2 ms1 _ _ (IT_keeps bs V W _ _ _ _ (proj2 C7) T3) C6) as [a3 [ms2 QA]].
    rewrite (pf_sk _ a a2 None _ KA) in QA.
    destruct (pf (renv m 4) None a r1) as [[tb r2] p].
    destruct (pb None e' _ seed r2 (renv m 1)) as [[q r3] a4] eqn:EB. destruct Q as [Q1 [Q2 [Q3 [Q4 Q5]]]].
    assert (Q1' := Q1). unfold autodiff in Q1'. apply bindR_ok in Q1'. destruct Q1' as [[[e1 m1] v1] [E1 Q1']].
    apply bindR_ok in Q1'. destruct Q1' as [m2 [_ Q1']]. inversion Q1'; subst e1 m2 v1. clear Q1'.
    specialize (SS m1 _ HI HM E1). cbn [fst] in SS. destruct QA as [A1 [A2 [A3 [A4 [A5 [A6 A7]]]]]].
    rewrite (pb_er (EIf an c a b) e' None _ seed r2 (renv m 1) (er_strip _ _ Q5)) in EB.
    rewrite (pb_if _ _ _ _ _ tc tb l) in EB by (auto; reflexivity). rewrite EN in EB.
    destruct (one_back LL bs SB V W _ 1 a3 tb ms2 _ _ seed A5 A4 A6) as [ms3 [E3 QB]].
    { rewrite (HSt _ _ A3), (HSH _ _ KA), SHa. exact HL. }
    rewrite (pb_er a a3 None) in QB by (transitivity (er a2); [now apply er_strip|now apply er_sk]).
    rewrite EB in QB. destruct QB as [B1 B2].
    exists e', m', (c3, a3, b2), ms3, (rdp r2 p). split; [exact Q1|]. split.
    + unfold if_diff. rewrite C1. cbn [bindR]. rewrite EN. cbn [rdp]. rewrite A1. cbn [bindR]. rewrite E3. reflexivity.
    + split; [eauto|]. split; [split|].
      * eapply IT_3; [|exact HT| | |]; [|left|left|right; reflexivity].
        -- intros bb o Ho. apply B2, A7, C7, Ho.
        -- eapply IT_keeps; [apply B2|eapply IT_keeps; [apply A7|exact C5]].
        -- eapply IT_keeps; [apply B2|exact A5].
      * exists (st an). rewrite SS. cbn [sk amap skp tts]. rewrite P1, EN. fold (sk c) (sk a) (sk b).
        rewrite C2, A2, KC, KA, KB. reflexivity.
      * destruct T1 as [_ [T1 _]]. destruct T3 as [_ [T3 _]]. destruct A5 as [_ [A5 _]].
        eapply agree_next; [exact HA|eapply quiet_DP; eauto| |exact Q3|exact B1].
        eapply quiet_trans; [eapply quiet_one; [exact T1|exact C7]|].
        eapply quiet_trans; [eapply quiet_one; [exact T3|exact A7]|]. eapply quiet_oneb; [exact A5|exact B2].
  - destruct (one_eval LL bs SB V W _ 2 b2 ms1 _ _ (IT_keeps bs V W _ _ _ _ (proj2 C7) T4) C6) as [a3 [ms2 QA]].
    rewrite (pf_sk _ b b2 None _ KB) in QA.
    destruct (pf (renv m 4) None b r1) as [[tb r2] p].
    destruct (pb None e' _ seed r2 (renv m 1)) as [[q r3] a4] eqn:EB. destruct Q as [Q1 [Q2 [Q3 [Q4 Q5]]]].
    assert (Q1' := Q1). unfold autodiff in Q1'. apply bindR_ok in Q1'. destruct Q1' as [[[e1 m1] v1] [E1 Q1']].
    apply bindR_ok in Q1'. destruct Q1' as [m2 [_ Q1']]. inversion Q1'; subst e1 m2 v1. clear Q1'.
    specialize (SS m1 _ HI HM E1). cbn [fst] in SS. destruct QA as [A1 [A2 [A3 [A4 [A5 [A6 A7]]]]]].
    rewrite (pb_er (EIf an c a b) e' None _ seed r2 (renv m 1) (er_strip _ _ Q5)) in EB.
    rewrite (pb_if _ _ _ _ _ tc tb l) in EB by (auto; reflexivity). rewrite EN in EB.
    destruct (one_back LL bs SB V W _ 2 a3 tb ms2 _ _ seed A5 A4 A6) as [ms3 [E3 QB]].
    { rewrite (HSt _ _ A3), (HSH _ _ KB), SHb. exact HL. }
    rewrite (pb_er b a3 None) in QB by (transitivity (er b2); [now apply er_strip|now apply er_sk]).
    rewrite EB in QB. destruct QB as [B1 B2].
    exists e', m', (c3, a2, a3), ms3, (rdp r2 p). split; [exact Q1|]. split.
    + unfold if_diff. rewrite C1. cbn [bindR]. rewrite EN. cbn [rdp]. rewrite A1. cbn [bindR]. rewrite E3. reflexivity.
    + split; [eauto|]. split; [split|].
      * eapply IT_3; [|exact HT| | |]; [|left|right; reflexivity|left].
        -- intros bb o Ho. apply B2, A7, C7, Ho.
        -- eapply IT_keeps; [apply B2|eapply IT_keeps; [apply A7|exact C5]].
        -- eapply IT_keeps; [apply B2|exact A5].
      * exists (st an). rewrite SS. cbn [sk amap skp tts]. rewrite P1, EN. fold (sk c) (sk a) (sk b).
        rewrite C2, A2, KC, KA, KB. reflexivity.
      * destruct T1 as [_ [T1 _]]. destruct T4 as [_ [T4 _]]. destruct A5 as [_ [A5 _]].
        eapply agree_next; [exact HA|eapply quiet_DP; eauto| |exact Q3|exact B1].
        eapply quiet_trans; [eapply quiet_one; [exact T1|exact C7]|].
        eapply quiet_trans; [eapply quiet_one; [exact T4|exact A7]|]. eapply quiet_oneb; [exact A5|exact B2].
Qed.

Lemma bim_play ops : Forall (op_ok (size (shape_of u))) ops -> Forall op_shared ops -> forall e m s ms, BIM e m s ms ->
  exists e' m' s' ms' vs, play evaluate autodiff ops e m = Ok (e', m', vs) /\
    play if_eval if_diff ops s ms = Ok (s', ms', vs) /\ BIM e' m' s' ms'.
Proof.
  induction 1 as [|o ops HO H IH]; intros HS e m s ms HSim.
  - exists e, m, s, ms, []. cbn. auto.
  - inversion HS as [|? ? S1 S2]; subst. cbn [play].
    assert (X : exists e1 m1 s1 ms1 v,
      match o with OpEval => evaluate e m | OpDiff seed => autodiff e seed m | OpUser f => Ok (e, f m, []) end = Ok (e1, m1, v) /\
      match o with OpEval => if_eval s ms | OpDiff seed => if_diff s seed ms | OpUser f => Ok (s, f ms, []) end = Ok (s1, ms1, v) /\
      BIM e1 m1 s1 ms1).
    { destruct o as [|seed|f]; [now apply bim_eval|now apply bim_diff|].
      exists e, (f m), s, (f ms), []. split; [reflexivity|]. split; [reflexivity|].
      destruct HSim as [[cv [ca HI]] [HT HA]]. cbn in HO, S1. split; [|split; [|auto]].
      - exists cv, ca. eapply inv_keeps; eauto.
      - destruct s as [[c a] b]. destruct HT as [HT HT2]. split; [|exact HT2]. eapply IT_keeps; [|exact HT]. auto. }
    destruct X as [e1 [m1 [s1 [ms1 [v [-> [-> X]]]]]]]. cbn [bindR].
    destruct (IH S2 e1 m1 s1 ms1 X) as [e2 [m2 [s2 [ms2 [vs [-> [-> Y]]]]]]]. cbn [bindR]. eauto 10.
Qed.

Theorem branch (uv ua : nat -> T) (uvs uas : nat -> nat -> T) m ops :
  wfs u = true -> ctor_ok u = true -> avail u m ->
  Forall (op_ok (size (shape_of u))) ops -> Forall op_shared ops ->
  exists e m0 e' m' c a b ms0 s' ms' vs,
    bound bv ba uv ua u m = Ok (e, m0) /\ play evaluate autodiff ops e m0 = Ok (e', m', vs) /\
    bind_all bs uvs uas 0 [uc; ut; uf] m = Ok ([c; a; b], ms0) /\ play if_eval if_diff ops (c, a, b) ms0 = Ok (s', ms', vs) /\
    agree m' ms'.
Proof.
  intros HW HC HA HO HS. destruct (mk_ok LL u m HW HC HA) as [e0 HM].
  destruct (bind_one LL bv ba uv ua u e0 m m HF HW HA HM (agree_refl m)) as [e [m0 [B1 [B2 [B3 B4]]]]].
  assert (HM' := HM). cbn [mk] in HM'. apply bindR_ok in HM'. destruct HM' as [c0 [M1 HM']].
  apply bindR_ok in HM'. destruct HM' as [a0 [M2 HM']]. apply bindR_ok in HM'. destruct HM' as [b0 [M3 HM']].
  assert (E0 : exists an0, e0 = EIf an0 c0 a0 b0).
  { cbv beta in HM'. destruct (_ && _) in HM'; inversion HM'; eauto. }
  destruct E0 as [an0 ->].
  assert (HW' := HW). cbn [wfs] in HW'. rewrite !andb_true_iff in HW'.
  destruct (bind_all_ok LL bs SB V W uvs uas [uc; ut; uf] [c0; a0; b0] m) with (i := 0) (m1 := m)
    as [es [ms0 [C1 [C2 [C3 C4]]]]].
  - repeat constructor; auto.
  - repeat constructor; tauto.
  - intros o. cbn [flat_map]. rewrite app_nil_r. auto.
  - intros o. cbn [flat_map]. rewrite app_nil_r. auto.
  - destruct HA as [A1 A2]. cbn [refs drefs] in A1, A2.
    repeat (apply Forall_cons; [split; intros o Ho; [apply A1|apply A2]; rewrite !in_app_iff; auto|]). apply Forall_nil.
  - apply agree_refl.
  - destruct es as [|c [|a [|b [|]]]]; try discriminate C2. cbn in C2. injection C2 as D1 D2 D3.
    assert (X : BIM e m0 (c, a, b) ms0).
    { split; [eauto|]. split; [split; [exact C3|]|].
      - exists (st an0). rewrite B2. cbn [sk amap]. fold (sk c0) (sk a0) (sk b0). now rewrite D1, D2, D3.
      - eapply agree_trans; [apply agree_sym|eapply (blocks_agree bs SB _ _ 0); exact C4].
        intros o. destruct HF as [[F1 [F2 F3]] [F4 [F5 [F6 F7]]]]. repeat split; symmetry; apply B4; auto. }
    destruct (bim_play ops HO HS e m0 (c, a, b) ms0 X) as [e' [m' [s' [ms' [vs [P1 [P2 [_ [_ P3]]]]]]]]].
    exists e, m0, e', m', c, a, b, ms0, s', ms', vs. auto 10.
Qed.
End Branch.

(** ** Sequences with the same statements *)
Section Chain.
Context {N : num}.
Notation T := (carrier N).
Notation U := (expr T unit).
Hypothesis LL : la_len N.

Lemma separate_ex : exists bs, separate bs.
Proof.
  exists (fun i => (10 + 2 * i, 11 + 2 * i)). split; [|intros i j; cbn [fst snd]; lia].
  intros i. unfold fresh. cbn [fst snd]. lia.
Qed.
Theorem same_stmts (u1 u2 : U) bv1 ba1 bv2 ba2 (uv1 ua1 uv2 ua2 : nat -> T) m ops :
  stmts u1 = stmts u2 -> fresh bv1 ba1 -> fresh bv2 ba2 ->
  wfs u1 = true -> ctor_ok u1 = true -> wfs u2 = true -> ctor_ok u2 = true -> avail u1 m ->
  Forall (op_ok (size (shape_of u1))) ops -> Forall op_shared ops ->
  exists e1 m1 e1' m1' e2 m2 e2' m2' vs,
    bound bv1 ba1 uv1 ua1 u1 m = Ok (e1, m1) /\ play evaluate autodiff ops e1 m1 = Ok (e1', m1', vs) /\
    bound bv2 ba2 uv2 ua2 u2 m = Ok (e2, m2) /\ play evaluate autodiff ops e2 m2 = Ok (e2', m2', vs) /\
    agree m1' m2'.
Proof.
  intros HS F1 F2 W1 C1 W2 C2 HA HO HSh. destruct separate_ex as [bs SB].
  assert (HA2 : avail u2 m).
  { destruct HA as [A1 A2]. split; intros o Ho; [apply A1|apply A2].
    - rewrite <- (stmts_refs u1), HS, stmts_refs. exact Ho.
    - rewrite <- (stmts_drefs u1), HS, stmts_drefs. exact Ho. }
  assert (HSz : size (shape_of u2) = size (shape_of u1)).
  { destruct (mk_ok LL u1 m W1 C1 HA) as [e1 M1], (mk_ok LL u2 m W2 C2 HA2) as [e2 M2].
    pose proof (mk_stmts u1 m e1 M1) as X1. pose proof (mk_stmts u2 m e2 M2) as X2.
    destruct (mk_inv LL u1 m e1 M1) as [ER1 _], (mk_inv LL u2 m e2 M2) as [ER2 _].
    rewrite <- ER1, <- ER2 in *. rewrite !shape_er. unfold er in W1, W2. rewrite wfs_amap in W1, W2.
    rewrite <- (stmts_shape e1 W1), <- (stmts_shape e2 W2). assert (XE : stmts e1 = stmts e2); [|now rewrite XE].
    rewrite HS in X1. clear - X1 X2. revert X2 X1. generalize (stmts e1) (stmts e2) (stmts (er e2)).
      intros l1 l2 l H. revert l1. induction H as [|y z l l' HY H IH]; intros l1 H1; inversion H1; subst; auto. f_equal; [congruence|auto]. }
  destruct (sequence LL bv1 ba1 F1 bs SB u1 uv1 ua1 (fun _ _ => n0 N) (fun _ _ => n0 N) m ops W1 C1 HA HO HSh)
    as [e1 [m1 [e1' [m1' [es [ms [es' [ms' [vs [P1 [P2 [P3 [P4 P5]]]]]]]]]]]]].
  rewrite <- HSz in HO.
  destruct (sequence LL bv2 ba2 F2 bs SB u2 uv2 ua2 (fun _ _ => n0 N) (fun _ _ => n0 N) m ops W2 C2 HA2 HO HSh)
    as [e2 [m2 [e2' [m2' [es2 [ms2 [es2' [ms2' [vs2 [R1 [R2 [R3 [R4 R5]]]]]]]]]]]]].
  rewrite <- HS, P3 in R3. inversion R3; subst. rewrite P4 in R4. inversion R4; subst.
  exists e1, m1, e1', m1', e2, m2, e2', m2', vs2. repeat (split; [assumption|]).
  eapply agree_trans; [exact P5|now apply agree_sym].
Qed.
Lemma stmts_chain (y : U) l s : stmts (chain y l) = stmts (EFor tt s (y :: l)).
Proof.
  rewrite stmts_for by discriminate. unfold chain. revert y. induction l as [|z l IH]; intros y; cbn [fold_left flat_map].
  - now rewrite app_nil_r.
  - rewrite IH. cbn [flat_map stmts]. now rewrite app_assoc.
Qed.
Lemma chain_ctor (y : U) l s : ctor_ok (EFor tt s (y :: l)) = true -> ctor_ok (chain y l) = true.
Proof.
  cbn [ctor_ok]. unfold chain. revert y. induction l as [|z l IH]; intros y; cbn [fold_left forallb] in *.
  - now rewrite andb_true_r.
  - rewrite !andb_true_iff. intros [H1 [H2 H3]]. apply IH. cbn. now rewrite H1, H2, H3.
Qed.
Theorem for_chain (y : U) l s bv1 ba1 bv2 ba2 (uv1 ua1 uv2 ua2 : nat -> T) m ops :
  let u := EFor tt s (y :: l) in
  fresh bv1 ba1 -> fresh bv2 ba2 ->
  wfs u = true -> ctor_ok u = true -> wfs (chain y l) = true -> avail u m ->
  Forall (op_ok (size (shape_of u))) ops -> Forall op_shared ops ->
  exists e1 m1 e1' m1' e2 m2 e2' m2' vs,
    bound bv1 ba1 uv1 ua1 u m = Ok (e1, m1) /\ play evaluate autodiff ops e1 m1 = Ok (e1', m1', vs) /\
    bound bv2 ba2 uv2 ua2 (chain y l) m = Ok (e2, m2) /\ play evaluate autodiff ops e2 m2 = Ok (e2', m2', vs) /\
    agree m1' m2'.
Proof.
  intros u F1 F2 W1 C1 W2 HA HO HS. eapply same_stmts; eauto.
  - symmetry. apply stmts_chain.
  - eapply chain_ctor; eauto.
Qed.
End Chain.

(** ** A condition that the selected branch changes *)
Section Bad.
Context (N : num).
Notation T := (carrier N).
Notation U := (expr T unit).
Notation E := (expr T (ann N)).
(** if_else(w, (w = x - x), y * y) *)
Definition bad_if : U :=
  EIf tt (EVar scl 0) (EEq tt scl 0 (EComp (KBin BSub) tt [EVar scl 1; EVar scl 1]))
         (EComp (KBin BMul) tt [EVar scl 2; EVar scl 2]).
Lemma bad_if_avail f : avail bad_if (mem8 N f).
Proof. split; cbn; intros o Ho; [|tauto]. repeat (destruct Ho as [<-|Ho]; [split; discriminate|]). destruct Ho. Qed.
Section Run.
Variables (f : nat -> T) (s : T).
Definition bi_o : E := match bound 2 3 (any N) (any N) bad_if (mem8 N f) with Ok c => fst c | Err _ => EVar scl 0 end.
Definition bi_m0 : mem T := match bound 2 3 (any N) (any N) bad_if (mem8 N f) with Ok c => snd c | Err _ => mem8 N f end.
Definition bi_t : E := match bi_o with EIf _ _ a _ => a | e => e end.
Definition bi_f : E := match bi_o with EIf _ _ _ b => b | e => e end.
Definition bi_m1 : mem T := match feval bi_t bi_m0 with Ok (_, m, _) => m | Err _ => bi_m0 end.
Definition bi_m2 : mem T := match beval bi_f [s] bi_m1 with Ok m => m | Err _ => bi_m1 end.
Lemma bi_bound : bound 2 3 (any N) (any N) bad_if (mem8 N f) = Ok (bi_o, bi_m0). Proof. vm_compute. reflexivity. Qed.
Lemma bi_shape : bi_o = EIf (ann0 N) (EVar scl 0) bi_t bi_f. Proof. vm_compute. reflexivity. Qed.
Lemma bi_fwd : feval bi_t bi_m0 = Ok (bi_t, bi_m1, RMem (Ptr 0 0) 1). Proof. vm_compute. reflexivity. Qed.
Lemma bi_bwd : beval bi_f [s] bi_m1 = Ok bi_m2. Proof. vm_compute. reflexivity. Qed.
Lemma bi_r0 : rdref bi_m0 (RMem (Ptr 0 0) 1) = Ok [f 0]. Proof. vm_compute. reflexivity. Qed.
Lemma bi_r1 : rdref bi_m1 (RMem (Ptr 0 0) 1) = Ok [nsub N (f 1) (f 1)]. Proof. vm_compute. reflexivity. Qed.
End Run.
Lemma bad_if_wrong f s : nz (f 0) = true -> nz (nsub N (f 1) (f 1)) = false ->
  exists e m v, bind_diff N bad_if (mem8 N f) [s] = Ok (e, m, v) /\ v = [nsub N (f 1) (f 1)] /\
    m 1 0 = Some (n0 N) /\ m 1 1 = Some (n0 N) /\
    m 1 2 = Some (nadd N (nadd N (n0 N) (nmul N s (f 2))) (nmul N s (f 2))).
Proof.
  intros H1 H2. exists (bi_o f), (bi_m2 f s), [nsub N (f 1) (f 1)].
  split; [|split; [reflexivity|split; [|split]; vm_compute; reflexivity]].
  unfold bind_diff. rewrite bi_bound. cbn [bindR fst snd]. rewrite bi_shape. unfold autodiff, evaluate.
  cbn [feval getref]. cbn [bindR]. change (size scl) with 1. rewrite bi_r0. cbn [bindR].
  change (ntrue N (hd0 N [f 0])) with (nz (f 0)). rewrite H1, bi_fwd. cbn [bindR]. rewrite bi_r1. cbn [bindR].
  cbn [beval getref]. change (size scl) with 1. rewrite bi_r1. cbn [bindR].
  change (ntrue N (hd0 N [nsub N (f 1) (f 1)])) with (nz (nsub N (f 1) (f 1))). rewrite H2, bi_bwd. reflexivity.
Qed.
End Bad.
