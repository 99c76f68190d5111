(** Definitions for the refinement proof of LSim.v: layout of a bound
    expression, contents of its cache after feval, unfolding equations. *)
From Verif Require Import Base Num Expr Node Stat Machine Wf Pure LBase LKind.

(** ** Mapping annotations *)
Fixpoint amap {T A B} (f : A -> B) (e : expr T A) : expr T B :=
  match e with
  | EVar sh o => EVar sh o
  | ECst sh c => ECst sh c
  | ECvw sh o => ECvw sh o
  | EComp k a es => EComp k (f a) (map (amap f) es)
  | EEq a sh o y => EEq (f a) sh o (amap f y)
  | EOpEq q a sh o y => EOpEq q (f a) sh o (amap f y)
  | EGlue a l r => EGlue (f a) (amap f l) (amap f r)
  | EFor a s es => EFor (f a) s (map (amap f) es)
  | EIf a c t g => EIf (f a) (amap f c) (amap f t) (amap f g)
  end.

Section Amap.
Context {T A B : Type} (f : A -> B).
Implicit Types e : expr T A.

Lemma map_ext_Forall {X Y} (g h : X -> Y) l :
  Forall (fun x => g x = h x) l -> map g l = map h l.
Proof. induction 1; cbn; congruence. Qed.
Lemma flat_map_ext_Forall {X Y} (g h : X -> list Y) l :
  Forall (fun x => g x = h x) l -> flat_map g l = flat_map h l.
Proof. induction 1; cbn; congruence. Qed.
Lemma forallb_ext_Forall {X} (g h : X -> bool) l :
  Forall (fun x => g x = h x) l -> forallb g l = forallb h l.
Proof. induction 1; cbn; congruence. Qed.
Lemma flat_map_map {X Y Z} (g : Y -> list Z) (h : X -> Y) l :
  flat_map g (map h l) = flat_map (fun x => g (h x)) l.
Proof. induction l; cbn; congruence. Qed.
Lemma forallb_map {X Y} (g : Y -> bool) (h : X -> Y) l :
  forallb g (map h l) = forallb (fun x => g (h x)) l.
Proof. induction l; cbn; congruence. Qed.
Lemma existsb_map {X Y} (g : Y -> bool) (h : X -> Y) l :
  existsb g (map h l) = existsb (fun x => g (h x)) l.
Proof. induction l; cbn; congruence. Qed.

Lemma shape_of_amap e : shape_of (amap f e) = shape_of e.
Proof.
  induction e using expr_ind'; cbn; auto; rewrite map_map;
    now rewrite (map_ext_Forall (fun x => shape_of (amap f x)) shape_of).
Qed.
Lemma shapes_amap (es : list (expr T A)) : map shape_of (map (amap f) es) = map shape_of es.
Proof. rewrite map_map. apply map_ext. apply shape_of_amap. Qed.
Lemma is_const_amap e : is_const (amap f e) = is_const e.
Proof. now destruct e. Qed.
Lemma consts_amap (es : list (expr T A)) : map is_const (map (amap f) es) = map is_const es.
Proof. rewrite map_map. apply map_ext. apply is_const_amap. Qed.
Lemma gettable_amap e : gettable (amap f e) = gettable e.
Proof. now destruct e. Qed.
Lemma cond_ok_amap e : cond_ok (amap f e) = cond_ok e.
Proof. now destruct e. Qed.
Lemma rhs_ok_amap e : rhs_ok (amap f e) = rhs_ok e.
Proof. now destruct e as [| | |[]| | | | |]. Qed.

Ltac am e := induction e using expr_ind'; cbn; auto; try congruence;
  rewrite flat_map_map; now apply flat_map_ext_Forall.
Lemma refs_amap e : refs (amap f e) = refs e. Proof. am e. Qed.
Lemma drefs_amap e : drefs (amap f e) = drefs e. Proof. am e. Qed.
Lemma writes_amap e : writes (amap f e) = writes e. Proof. am e. Qed.
Lemma eqw_amap e : eqw (amap f e) = eqw e. Proof. am e. Qed.
Lemma opw_amap e : opw (amap f e) = opw e. Proof. am e. Qed.

Lemma last_map {X Y} (g : X -> Y) l d d' : l <> [] -> last (map g l) d' = g (last l d).
Proof.
  induction l as [|x [|y l] IH]; cbn; auto; try congruence.
  intros _. apply IH. discriminate.
Qed.

Lemma wfs_amap e : wfs (amap f e) = wfs e.
Proof.
  induction e using expr_ind'; cbn [amap wfs]; rewrite ?shape_of_amap, ?shapes_amap,
    ?gettable_amap, ?cond_ok_amap, ?rhs_ok_amap, ?is_const_amap; auto; try congruence.
  - rewrite !forallb_map, (forallb_ext_Forall (fun x => wfs (amap f x)) wfs) by assumption.
    rewrite (forallb_ext_Forall (fun x => gettable (amap f x)) gettable); auto.
    apply Forall_forall; intros; apply gettable_amap.
  - rewrite forallb_map, existsb_map, (forallb_ext_Forall (fun x => wfs (amap f x)) wfs)
      by assumption.
    f_equal.
    + do 2 f_equal. clear; induction es; cbn; rewrite ?is_const_amap; congruence.
    + destruct es as [|y es]; auto. 
      change (gettable (last (map (amap f) (y :: es)) (EVar scl 0)) =
              gettable (last (y :: es) (EVar scl 0))).
      rewrite last_map with (d := EVar scl 0) by discriminate. apply gettable_amap.
Qed.
End Amap.

Section Def.
Context (N : num).
Notation T := (carrier N).
Notation E := (expr T (ann N)).
Notation env := (nat -> T).

Definition strip : E -> E := amap (fun a => set_st a (sst0 N)).

(** ** Unfolding *)
Definition fevals : list E -> mem T ->
  res (list E * mem T * list (vref N) * list (list T)) :=
  fix go es m := match es with
                 | [] => Ok ([], m, [], [])
                 | x :: t => '(x', m1, r) <- feval x m ;;
                             v <- rdref m1 r ;;
                             '(t', m2, rs, im) <- go t m1 ;;
                             Ok (x' :: t', m2, r :: rs, v :: im)
                 end.
Lemma feval_comp k an es m :
  feval (EComp k an es) m =
  ('(es', m1, rs, im) <- fevals es m ;;
   vs <- opvals k m1 es' rs im ;;
   _ <- guard (kshape_ok k (map shape_of es)) ;;
   '(s', val) <- kfwd k (map is_const es) (map shape_of es) (st an) vs ;;
   val <- chk (size (kshape k (map shape_of es))) val ;;
   m2 <- store m1 (av an) val ;;
   Ok (EComp k (set_st an s') es', m2, RMem (av an) (size (kshape k (map shape_of es))))).
Proof. reflexivity. Qed.

Definition fevalsf : list E -> mem T -> res (list E * mem T) :=
  fix go es m := match es with
                 | [] => Ok ([], m)
                 | x :: t => '(x', m1, _) <- feval x m ;;
                             '(t', m2) <- go t m1 ;;
                             Ok (x' :: t', m2)
                 end.
Lemma feval_for an s es m :
  feval (EFor an s es) m =
  ('(es', m1) <- fevalsf es m ;;
   match rev es' with
   | [] => Ok (EFor an s es', m1, RMem (av an) (size (iter_shape s (map shape_of es))))
   | x :: _ =>
       _ <- guard (shape_eqb (shape_of x) (iter_shape s (map shape_of es))) ;;
       v <- rdref m1 (getref x) ;;
       m2 <- store m1 (av an) v ;;
       Ok (EFor an s es', m2, RMem (av an) (size (iter_shape s (map shape_of es))))
   end).
Proof. reflexivity. Qed.

Section PF.
Variable D : env.
Definition pfs : list E -> env -> list (tape N) * env * list (pref N) * list (list T) :=
  fix go es r := match es with
                 | [] => ([], r, [], [])
                 | y :: l => let '(t, r1, p) := pf D None y r in
                             let v := rdp r1 p in
                             let '(ts, r2, ps, im) := go l r1 in
                             (t :: ts, r2, p :: ps, v :: im)
                 end.
Lemma pf_comp x k an es r :
  pf D x (EComp k an es) r =
  (let n := size (kshape k (map shape_of es)) in
   let '(ts, r1, ps, im) := pfs es r in
   let '(s', val) := kf k (map is_const es) (map shape_of es) (st an)
                        (pvals k r1 ts ps im) in
   let p := px x n (PL val) in
   (Tp p val s' [] ts, wx x r1 val, p)).
Proof. reflexivity. Qed.
Definition pfsf : list E -> env -> pref N -> list (tape N) * env * pref N :=
  fix go es r p := match es with
                   | [] => ([], r, p)
                   | y :: l => let '(t, r1, p) := pf D None y r in
                               let '(ts, r2, p) := go l r1 p in
                               (t :: ts, r2, p)
                   end.
Lemma pf_for x an s es r :
  pf D x (EFor an s es) r =
  (let n := size (iter_shape s (map shape_of es)) in
   let '(ts, r1, p) := pfsf es r (px x n (PL [])) in
   let v := rdp r1 p in
   let q := px x n p in
   (Tp q v (sst0 N) [] ts, match es with [] => r1 | _ => wx x r1 v end, q)).
Proof. reflexivity. Qed.
End PF.

(** ** Layout *)
Section Lay.
Variables bv ba : nat.
Fixpoint lay (x : option nat) (e : E) (v a v' a' : nat) {struct e} : Prop :=
  match e with
  | EVar _ _ | ECst _ _ | ECvw _ _ => v' = v /\ a' = a
  | EComp k an es =>
      let n := size (kshape k (map shape_of es)) in
      let n0 := size (nth_sh (map shape_of es) 0) in
      exists v1 a1,
        (fix go es v a := match es with
                          | [] => v1 = v /\ a1 = a
                          | y :: l => exists v2 a2, lay None y v a v2 a2 /\ go l v2 a2
                          end) es v a /\
        (kaux k = true -> xa an = Ptr ba a1) /\
        match x with
        | None =>
            let a2 := if kaux k then a1 + n0 else a1 in
            av an = Ptr bv v1 /\ (kadj k = true -> aa an = Ptr ba a2) /\
            v' = v1 + n /\ a' = if kadj k then a2 + n else a2
        | Some c => kaux k = false /\ av an = Ptr 0 c /\ aa an = Ptr 1 c /\ v' = v1 /\ a' = a1
        end
  | EEq an sh o y => lay (Some o) y v a v' a' /\ av an = Ptr 0 (root x o)
  | EOpEq q an sh o y =>
      exists v1 a1, lay None y v a v1 a1 /\ av an = Ptr 0 (root x o) /\
        xv an = Ptr bv v1 /\ xa an = Ptr ba a1 /\ v' = v1 + size sh /\ a' = a1 + size sh
  | EGlue an l r =>
      exists v1 a1, lay None l v a v1 a1 /\ lay None r v1 a1 v' a' /\
        av an = match x with Some c => Ptr 0 c | None => fst (dptr r) end
  | EFor an s es =>
      (fix go es v a := match es with
                        | [] => v' = v /\ a' = a
                        | y :: l => exists v2 a2, lay None y v a v2 a2 /\ go l v2 a2
                        end) es v a /\
      match x with
      | Some c => av an = Ptr 0 c
      | None => match rev es with [] => True | y :: _ => av an = fst (dptr y) end
      end
  | EIf an c t f =>
      exists v1 a1 v2 a2, lay None c v a v1 a1 /\ lay None t v1 a1 v2 a2 /\
        lay None f v2 a2 v' a'
  end.
Definition lays (v' a' : nat) : list E -> nat -> nat -> Prop :=
  fix go es v a := match es with
                   | [] => v' = v /\ a' = a
                   | y :: l => exists v2 a2, lay None y v a v2 a2 /\ go l v2 a2
                   end.

Lemma lays_le v' a' es v a :
  Forall (fun e => forall x v a v' a', lay x e v a v' a' -> v <= v' /\ a <= a') es ->
  lays v' a' es v a -> v <= v' /\ a <= a'.
Proof.
  intros H. revert v a. induction H; cbn; intros v a; [lia|].
  intros [v2 [a2 [H1 H2]]]. apply H in H1. apply IHForall in H2. lia.
Qed.
Lemma lay_le e : forall x v a v' a', lay x e v a v' a' -> v <= v' /\ a <= a'.
Proof.
  induction e using expr_ind'; intros x v a' v' a0 HH; cbn [lay] in HH.
  - lia.
  - lia.
  - lia.
  - destruct HH as [v1 [a1 [H1 [_ H2]]]]. apply (lays_le v1 a1) in H1; auto.
    destruct x; [|destruct (kaux k), (kadj k)]; lia.
  - destruct HH as [HH _]. eauto.
  - destruct HH as [v1 [a1 [H1 H2]]]. apply IHe in H1. lia.
  - destruct HH as [v1 [a1 [H1 [H2 _]]]]. apply IHe1 in H1. apply IHe2 in H2. lia.
  - destruct HH as [H1 _]. apply (lays_le v' a0) in H1; auto.
  - destruct HH as [v1 [a1 [v2 [a2 [H1 [H2 H3]]]]]].
    apply IHe1 in H1. apply IHe2 in H2. apply IHe3 in H3. lia.
Qed.

Lemma lay_comp x k an es v a v' a' :
  lay x (EComp k an es) v a v' a' =
  let n := size (kshape k (map shape_of es)) in
  let n0 := size (nth_sh (map shape_of es) 0) in
  exists v1 a1, lays v1 a1 es v a /\
    (kaux k = true -> xa an = Ptr ba a1) /\
    match x with
    | None =>
        let a2 := if kaux k then a1 + n0 else a1 in
        av an = Ptr bv v1 /\ (kadj k = true -> aa an = Ptr ba a2) /\
        v' = v1 + n /\ a' = if kadj k then a2 + n else a2
    | Some c => kaux k = false /\ av an = Ptr 0 c /\ aa an = Ptr 1 c /\ v' = v1 /\ a' = a1
    end.
Proof. reflexivity. Qed.
Lemma lay_for x an s es v a v' a' :
  lay x (EFor an s es) v a v' a' =
  (lays v' a' es v a /\
   match x with
   | Some c => av an = Ptr 0 c
   | None => match rev es with [] => True | y :: _ => av an = fst (dptr y) end
   end).
Proof. reflexivity. Qed.

(** ** Memory relations *)
Variables V W : nat -> Prop.
Variable D : env.

Definition MR (m : mem T) (r a : env) : Prop :=
  (forall o, V o -> m 0 o = Some (r o) /\ m 1 o = Some (a o)) /\
  forall o, W o -> m 4 o = Some (D o).

(** Changes are confined to [P]; allocated cells stay allocated. *)
Definition fr (P : nat -> nat -> Prop) (m m' : mem T) : Prop :=
  (forall b o, ~ P b o -> m' b o = m b o) /\ (forall b o, m b o <> None -> m' b o <> None).

Definition refR (m : mem T) (v v' n : nat) (r : vref N) (p : pref N) : Prop :=
  match p with
  | PV o k => k = n /\ r = RMem (Ptr 0 o) n /\ forall i, o <= i < o + n -> V i
  | PL l => length l = n /\ rdref m r = Ok l /\
            match r with
            | RCst _ | RMem Null _ => True
            | RMem (Ptr b c) k => k = 0 \/ (b = bv /\ v <= c /\ c + k <= v') \/ b = 4
            end
  end.

Definition xin (x : option nat) (n o : nat) : Prop :=
  match x with Some c => c <= o < c + n | None => False end.

(** The caches of [e] hold what feval left there. *)
Fixpoint K (x : option nat) (e : E) (t : tape N) (m : mem T) (v a v' a' : nat) {struct e} : Prop :=
  (gettable e = true -> refR m v v' (size (shape_of e)) (getref e) (tp t)) /\
  match e with
  | EVar _ _ | ECst _ _ | ECvw _ _ => v' = v /\ a' = a
  | EComp k an es =>
      let n := size (kshape k (map shape_of es)) in
      let n0 := size (nth_sh (map shape_of es) 0) in
      st an = tst t /\ stpost N k (map shape_of es) (tst t) /\
      length (tv t) = n /\ tp t = px x n (PL (tv t)) /\
      exists v1 a1,
        (fix go es ts v a := match es, ts with
                          | [], [] => v1 = v /\ a1 = a
                          | y :: l, ty :: lt => exists v2 a2, K None y ty m v a v2 a2 /\ go l lt v2 a2
                          | _, _ => False
                          end) es (tts t) v a /\
        (kaux k = true -> xa an = Ptr ba a1) /\
        match x with
        | None =>
            let a2 := if kaux k then a1 + n0 else a1 in
            av an = Ptr bv v1 /\ (kadj k = true -> aa an = Ptr ba a2) /\
            v' = v1 + n /\ a' = if kadj k then a2 + n else a2
        | Some c => kaux k = false /\ av an = Ptr 0 c /\ aa an = Ptr 1 c /\ v' = v1 /\ a' = a1
        end
  | EEq an sh o y =>
      tp t = PV (root x o) (size sh) /\ exists ty, tts t = [ty] /\ K (Some o) y ty m v a v' a'
  | EOpEq q an sh o y =>
      tp t = PV (root x o) (size sh) /\
      exists ty v1 a1, tts t = [ty] /\ K None y ty m v a v1 a1 /\
        load m (xv an) (size sh) = Ok (told t) /\ 
        xv an = Ptr bv v1 /\ xa an = Ptr ba a1 /\ v' = v1 + size sh /\ a' = a1 + size sh
  | EGlue an l r =>
      exists tl tr v1 a1, tts t = [tl; tr] /\ K None l tl m v a v1 a1 /\ K None r tr m v1 a1 v' a' /\
        tp t = px x (size (shape_of r)) (tp tr) /\
        av an = match x with Some c => Ptr 0 c | None => fst (dptr r) end
  | EFor an s es =>
      (fix go es ts v a := match es, ts with
                        | [], [] => v' = v /\ a' = a
                        | y :: l, ty :: lt => exists v2 a2, K None y ty m v a v2 a2 /\ go l lt v2 a2
                        | _, _ => False
                        end) es (tts t) v a /\
      tp t = px x (size (iter_shape s (map shape_of es)))
               (match rev (tts t) with [] => PL [] | y :: _ => tp y end) /\
      match x with
      | Some c => av an = Ptr 0 c
      | None => match rev es with [] => True | y :: _ => av an = fst (dptr y) end
      end
  | EIf an c t0 f =>
      exists tc tb v1 a1 v2 a2, tts t = [tc; tb] /\
        K None c tc m v a v1 a1 /\ lay None t0 v1 a1 v2 a2 /\ lay None f v2 a2 v' a' /\
        match tp tc with
        | PV _ _ => False
        | PL l => if ntrue N (hd0 N l) then K None t0 tb m v1 a1 v2 a2
                  else K None f tb m v2 a2 v' a'
        end
  end.
Definition Ks (m : mem T) (v' a' : nat) : list E -> list (tape N) -> nat -> nat -> Prop :=
  fix go es ts v a := match es, ts with
                   | [], [] => v' = v /\ a' = a
                   | y :: l, ty :: lt => exists v2 a2, K None y ty m v a v2 a2 /\ go l lt v2 a2
                   | _, _ => False
                   end.

Lemma K_comp x k an es t m v a v' a' :
  K x (EComp k an es) t m v a v' a' =
  let n := size (kshape k (map shape_of es)) in
  let n0 := size (nth_sh (map shape_of es) 0) in
  ((true = true -> refR m v v' n (RMem (av an) n) (tp t)) /\
   st an = tst t /\ stpost N k (map shape_of es) (tst t) /\
   length (tv t) = n /\ tp t = px x n (PL (tv t)) /\
   exists v1 a1, Ks m v1 a1 es (tts t) v a /\
     (kaux k = true -> xa an = Ptr ba a1) /\
     match x with
     | None =>
         let a2 := if kaux k then a1 + n0 else a1 in
         av an = Ptr bv v1 /\ (kadj k = true -> aa an = Ptr ba a2) /\
         v' = v1 + n /\ a' = if kadj k then a2 + n else a2
     | Some c => kaux k = false /\ av an = Ptr 0 c /\ aa an = Ptr 1 c /\ v' = v1 /\ a' = a1
     end).
Proof. reflexivity. Qed.
Lemma K_eq x an sh o y t m v a v' a' :
  K x (EEq an sh o y) t m v a v' a' =
  ((true = true -> refR m v v' (size sh) (RMem (av an) (size sh)) (tp t)) /\
   tp t = PV (root x o) (size sh) /\ exists ty, tts t = [ty] /\ K (Some o) y ty m v a v' a').
Proof. reflexivity. Qed.
Lemma K_opeq x q an sh o y t m v a v' a' :
  K x (EOpEq q an sh o y) t m v a v' a' =
  ((true = true -> refR m v v' (size sh) (RMem (av an) (size sh)) (tp t)) /\
   tp t = PV (root x o) (size sh) /\
   exists ty v1 a1, tts t = [ty] /\ K None y ty m v a v1 a1 /\
     load m (xv an) (size sh) = Ok (told t) /\
     xv an = Ptr bv v1 /\ xa an = Ptr ba a1 /\ v' = v1 + size sh /\ a' = a1 + size sh).
Proof. reflexivity. Qed.
Lemma K_glue x an l r t m v a v' a' :
  K x (EGlue an l r) t m v a v' a' =
  ((true = true -> refR m v v' (size (shape_of r)) (RMem (av an) (size (shape_of r))) (tp t)) /\
   exists tl tr v1 a1, tts t = [tl; tr] /\ K None l tl m v a v1 a1 /\ K None r tr m v1 a1 v' a' /\
     tp t = px x (size (shape_of r)) (tp tr) /\
     av an = match x with Some c => Ptr 0 c | None => fst (dptr r) end).
Proof. reflexivity. Qed.
Lemma K_for x an s es t m v a v' a' :
  K x (EFor an s es) t m v a v' a' =
  let n := size (iter_shape s (map shape_of es)) in
  ((true = true -> refR m v v' n (RMem (av an) n) (tp t)) /\
   Ks m v' a' es (tts t) v a /\
   tp t = px x n (match rev (tts t) with [] => PL [] | y :: _ => tp y end) /\
   match x with
   | Some c => av an = Ptr 0 c
   | None => match rev es with [] => True | y :: _ => av an = fst (dptr y) end
   end).
Proof. reflexivity. Qed.
Lemma K_if x an c t0 f t m v a v' a' :
  K x (EIf an c t0 f) t m v a v' a' =
  ((false = true -> refR m v v' (size (shape_of t0)) (RMem (av an) (size (shape_of t0))) (tp t)) /\
   exists tc tb v1 a1 v2 a2, tts t = [tc; tb] /\
     K None c tc m v a v1 a1 /\ lay None t0 v1 a1 v2 a2 /\ lay None f v2 a2 v' a' /\
     match tp tc with
     | PV _ _ => False
     | PL l => if ntrue N (hd0 N l) then K None t0 tb m v1 a1 v2 a2
               else K None f tb m v2 a2 v' a'
     end).
Proof. reflexivity. Qed.

Fixpoint stok (e : E) : Prop :=
  match e with
  | EVar _ _ | ECst _ _ | ECvw _ _ => True
  | EComp k an es =>
      stpre N k (map shape_of es) (st an) /\
      (fix go es := match es with [] => True | y :: l => stok y /\ go l end) es
  | EEq _ _ _ y | EOpEq _ _ _ _ y => stok y
  | EGlue _ l r => stok l /\ stok r
  | EFor _ _ es => (fix go es := match es with [] => True | y :: l => stok y /\ go l end) es
  | EIf _ c t f => stok c /\ stok t /\ stok f
  end.
Definition stoks : list E -> Prop :=
  fix go es := match es with [] => True | y :: l => stok y /\ go l end.

End Lay.
End Def.
Arguments strip {N}. Arguments fevals {N}. Arguments fevalsf {N}. Arguments pfs {N}.
Arguments pfsf {N}. Arguments lay {N}. Arguments lays {N}. Arguments MR {N}.
Arguments fr {N}. Arguments refR {N}. Arguments K {N}. Arguments Ks {N}.
Arguments stok {N}. Arguments stoks {N}.
