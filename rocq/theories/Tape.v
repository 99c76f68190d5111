(** Proof device: evaluation with values captured when they are computed.

    [tf] and [tb] are what a textbook tape-based reverse mode does: the forward
    sweep records the value of every node, the backward sweep only looks at the
    record.  The engine instead keeps references to variables and re-reads them.
    LTape.v proves that the two agree for expressions obeying [disc]. *)
From Verif Require Import Base Num Expr Node Stat Machine Pure Wf.

(** ** Usage discipline for assignments *)
Section Disc.
Context {T A : Type}.
Notation E := (expr T A).
Definition dj (a b : list nat) : bool := forallb (fun x => negb (existsb (Nat.eqb x) b)) a.
Definition nilb (l : list nat) : bool := match l with [] => true | _ => false end.

(** Nodes that do not always visit their operands in beval: comparisons
    (binary.hpp:120-124), det and log_det (det.hpp:58-63), log-densities. *)
Definition kpure (k : kd) : bool :=
  match k with
  | KBin b => is_cmp b
  | KDet _ | KLogDet _ | KStat _ => true
  | _ => false
  end.
(** No statement writes what an earlier one refers to. *)
Definition later (f : E -> list nat) : list E -> bool :=
  fix go es := match es with
               | [] => true
               | y :: l => dj (flat_map f l) (refs y) && go l
               end.

(** - operands of a node: a later operand assigns nothing an earlier one refers
      to; operands of [kpure] nodes assign nothing; where seeds are computed
      lazily, op= occurs in the first operand only;
    - w = e: w does not occur in e;
    - v op= e: e does not assign v; when both are arrays e contains no op=;
    - (a, b) and for_each: a placeholder is not assigned after it was used;
    - the condition of if_else assigns nothing and uses no placeholder that a
      branch assigns. *)
Fixpoint disc (e : E) : bool :=
  match e with
  | EVar _ _ | ECst _ _ | ECvw _ _ => true
  | EComp k _ es =>
      forallb disc es && later writes es
      && (negb (kpure k) || forallb (fun y => nilb (writes y)) es)
      && (negb (klazy k (map shape_of es)) || forallb (fun y => nilb (opw y)) (tl es))
  | EEq _ sh o y => disc y && dj (cells sh o) (refs y)
  | EOpEq _ _ sh o y => disc y && dj (cells sh o) (writes y) && (is_scl sh || is_scl (shape_of y) || nilb (opw y))
  | EGlue _ l r => disc l && disc r && dj (eqw r) (refs l)
  | EFor _ _ es => forallb disc es && later eqw es
  | EIf _ c t f => nilb (writes c) && disc c && disc t && disc f && dj (eqw t ++ eqw f) (refs c)
  end.

(** Placeholders that are assigned in every evaluation (both branches of
    if_else assign them). *)
Fixpoint da (e : E) : list nat :=
  match e with
  | EVar _ _ | ECst _ _ | ECvw _ _ => []
  | EComp _ _ es | EFor _ _ es => flat_map da es
  | EEq _ sh o y => cells sh o ++ da y
  | EOpEq _ _ _ _ y => da y
  | EGlue _ l r => da l ++ da r
  | EIf _ c t f => da c ++ filter (fun o => existsb (Nat.eqb o) (da f)) (da t)
  end.
End Disc.

Section Tape.
Context (N : num).
Notation T := (carrier N).
Notation E := (expr T (ann N)).
Notation env := (nat -> T).
Variable D : env.

(** Value, state, overwritten value (op=), operands. *)
Inductive rec := Nd (v : list T) (s : sst N) (old : list T) (ts : list rec).
Definition nv (t : rec) : list T := let 'Nd v _ _ _ := t in v.
Definition ns (t : rec) : sst N := let 'Nd _ s _ _ := t in s.
Definition no (t : rec) : list T := let 'Nd _ _ o _ := t in o.
Definition nts (t : rec) : list rec := let 'Nd _ _ _ l := t in l.
Notation s0 := (sst0 N).

Fixpoint tf (e : E) (r : env) {struct e} : rec * env :=
  match e with
  | EVar sh o => (Nd (rdv r o (size sh)) s0 [] [], r)
  | ECst _ c => (Nd c s0 [] [], r)
  | ECvw sh o => (Nd (rdv D o (size sh)) s0 [] [], r)
  | EComp k an es =>
      let '(ts, r1) :=
        (fix go es r := match es with
                        | [] => ([], r)
                        | y :: l => let '(t, r1) := tf y r in
                                    let '(ts, r2) := go l r1 in (t :: ts, r2)
                        end) es r in
      let '(s', val) := kf k (map is_const es) (map shape_of es) (st an) (map nv ts) in
      (Nd val s' [] ts, r1)
  | EEq _ sh o y =>
      let '(t, r1) := tf y r in (Nd (nv t) s0 [] [t], upd r1 o (nv t))
  | EOpEq q _ sh o y =>
      let '(t, r1) := tf y r in
      let old := rdv r1 o (size sh) in
      let v := oe_fwd N q (shape_of y) old (nv t) in
      (Nd v s0 old [t], upd r1 o v)
  | EGlue _ l r0 =>
      let '(tl, r1) := tf l r in
      let '(tr, r2) := tf r0 r1 in (Nd (nv tr) s0 [] [tl; tr], r2)
  | EFor _ _ es =>
      let '(ts, r1) :=
        (fix go es r := match es with
                        | [] => ([], r)
                        | y :: l => let '(t, r1) := tf y r in
                                    let '(ts, r2) := go l r1 in (t :: ts, r2)
                        end) es r in
      (Nd (nv (last ts (Nd [] s0 [] []))) s0 [] ts, r1)
  | EIf _ c t f =>
      let '(tc, r1) := tf c r in
      let '(tb, r2) := if ntrue N (hd0 N (nv tc)) then tf t r1 else tf f r1 in
      (Nd (nv tb) s0 [] [tc; tb], r2)
  end.

(** Adjoints. *)
Fixpoint tb (e : E) (t : rec) (seed : list T) (a : env) {struct e} : env :=
  match e with
  | EVar sh o => padd a o seed
  | ECst _ _ | ECvw _ _ => a
  | EComp k an es =>
      let vs := vsel k (map nv (nts t)) in
      (fix go (i : nat) (l : list E) (ts : list rec) (a : env) {struct l} : env :=
         match l, ts with
         | y :: l', ty :: ts' =>
             let a := go (S i) l' ts' a in
             let f := match kpre k i vs (nv t) with None => nv t | Some f1 => f1 end in
             match kseed k (map is_const es) (map shape_of es) (ns t) seed vs f i with
             | None => a
             | Some s => tb y ty s a
             end
         | _, _ => a
         end) 0 es (nts t) a
  | EEq _ sh o y =>
      match nts t with
      | [ty] => let a1 := padd a o seed in tb y ty (rdv a1 o (size sh)) a1
      | _ => a
      end
  | EOpEq q _ sh o y =>
      match nts t with
      | [ty] =>
          let a1 := padd a o seed in
          let g := rdv a1 o (size sh) in
          let a2 := upd a1 o (repeat (n0 N) (size sh)) in
          let a3 := tb y ty (oe_rseed N q sh (shape_of y) g (no t) (nv ty)) a2 in
          padd a3 o (oe_lseed N q (shape_of y) g (no t) (nv ty))
      | _ => a
      end
  | EGlue _ l r =>
      match nts t with
      | [tl; tr] => tb l tl (repeat (n0 N) (size (shape_of l))) (tb r tr seed a)
      | _ => a
      end
  | EFor _ _ es =>
      (fix go (l : list E) (ts : list rec) (a : env) {struct l} :=
         match l, ts with
         | y :: l', ty :: ts' =>
             match l' with
             | [] => tb y ty seed a
             | _ :: _ => tb y ty (repeat (n0 N) (size (shape_of y))) (go l' ts' a)
             end
         | _, _ => a
         end) es (nts t) a
  | EIf _ c t0 f =>
      match nts t with
      | [tc; tk] => if ntrue N (hd0 N (nv tc)) then tb t0 tk seed a else tb f tk seed a
      | _ => a
      end
  end.

(** Values: op= is undone. *)
Fixpoint rs (e : E) (t : rec) (r : env) {struct e} : env :=
  match e with
  | EVar _ _ | ECst _ _ | ECvw _ _ => r
  | EComp k _ es =>
      if kpure k then r else
      (fix go (l : list E) (ts : list rec) (r : env) {struct l} :=
         match l, ts with
         | y :: l', ty :: ts' => rs y ty (go l' ts' r)
         | _, _ => r
         end) es (nts t) r
  | EEq _ _ _ y => match nts t with [ty] => rs y ty r | _ => r end
  | EOpEq _ _ _ o y => match nts t with [ty] => rs y ty (upd r o (no t)) | _ => r end
  | EGlue _ l r0 => match nts t with [tl; tr] => rs l tl (rs r0 tr r) | _ => r end
  | EFor _ _ es =>
      (fix go (l : list E) (ts : list rec) (r : env) {struct l} :=
         match l, ts with
         | y :: l', ty :: ts' => rs y ty (go l' ts' r)
         | _, _ => r
         end) es (nts t) r
  | EIf _ c t0 f =>
      match nts t with
      | [tc; tk] => if ntrue N (hd0 N (nv tc)) then rs t0 tk r else rs f tk r
      | _ => r
      end
  end.

(** Multiplying the product of the other factors by a factor containing a zero
    gives the product back (prod.hpp:91-96 relies on it). *)
Definition prod_ok1 (vs : list (list T)) (f : list T) : Prop :=
  forall i, i < length vs -> anyzero (nth i vs []) = true ->
    map2 (nmul N) (fold_left (map2 (nmul N)) (firstn i vs ++ skipn (S i) vs)
                             (repeat (n1 N) (length f))) (nth i vs []) = f.
Fixpoint prod_ok (e : E) (t : rec) {struct e} : Prop :=
  match e with
  | EVar _ _ | ECst _ _ | ECvw _ _ => True
  | EComp k _ es =>
      match k with KProdI _ => prod_ok1 (map nv (nts t)) (nv t) | _ => True end /\
      (fix go (l : list E) (ts : list rec) : Prop :=
         match l, ts with
         | y :: l', ty :: ts' => prod_ok y ty /\ go l' ts'
         | _, _ => True
         end) es (nts t)
  | EEq _ _ _ y | EOpEq _ _ _ _ y => match nts t with [ty] => prod_ok y ty | _ => True end
  | EGlue _ l r => match nts t with [tl; tr] => prod_ok l tl /\ prod_ok r tr | _ => True end
  | EFor _ _ es =>
      (fix go (l : list E) (ts : list rec) : Prop :=
         match l, ts with
         | y :: l', ty :: ts' => prod_ok y ty /\ go l' ts'
         | _, _ => True
         end) es (nts t)
  | EIf _ c t0 f =>
      match nts t with
      | [tc; tk] => if ntrue N (hd0 N (nv tc)) then prod_ok t0 tk else prod_ok f tk
      | _ => True
      end
  end.
End Tape.
Arguments Nd {N}. Arguments nv {N}. Arguments ns {N}. Arguments no {N}. Arguments nts {N}.
Arguments tf {N}. Arguments tb {N}. Arguments rs {N}. Arguments prod_ok {N}.
Arguments prod_ok1 {N}.
