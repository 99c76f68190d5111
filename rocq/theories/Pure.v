(** Proof device: the engine without pointers and caches.

    [pf] and [pb] are forward and backward evaluation as functions of the
    variables' values and adjoints ([nat -> T]); what the C++ code keeps in its
    caches is returned in a tape.  Nothing is idealised with respect to the
    machine: operands that live in variables are still read at the moment the
    machine reads them.  LSim.v proves that the machine refines these
    functions. *)
From Verif Require Import Base Num Expr Node Stat Machine.

Section Pure.
Context (N : num).
Notation T := (carrier N).
Notation E := (expr T (ann N)).
Notation env := (nat -> T).
Variable D : env.                     (* data behind constant views *)

(** What a reference denotes: variable cells, or a cached / constant value. *)
Inductive pref := PV (o n : nat) | PL (l : list T).
Definition rdv (r : env) (o n : nat) : list T := map r (seq o n).
Definition upd (r : env) (o : nat) (l : list T) : env :=
  fun i => if (o <=? i) && (i <? o + length l) then nth (i - o) l (n0 N) else r i.
Definition rdp (r : env) (p : pref) : list T :=
  match p with PV o n => rdv r o n | PL l => l end.

Inductive tape := Tp (p : pref) (v : list T) (s : sst N) (old : list T) (ts : list tape).
Definition tp (t : tape) : pref := let 'Tp p _ _ _ _ := t in p.
Definition tv (t : tape) : list T := let 'Tp _ v _ _ _ := t in v.
Definition tst (t : tape) : sst N := let 'Tp _ _ s _ _ := t in s.
Definition told (t : tape) : list T := let 'Tp _ _ _ o _ := t in o.
Definition tts (t : tape) : list tape := let 'Tp _ _ _ _ l := t in l.

Definition root (x : option nat) (o : nat) : nat :=
  match x with Some c => c | None => o end.
Definition wx (x : option nat) (r : env) (l : list T) : env :=
  match x with Some c => upd r c l | None => r end.
Definition rx (x : option nat) (r : env) (n : nat) (d : list T) : list T :=
  match x with Some c => rdv r c n | None => d end.
Definition px (x : option nat) (n : nat) (p : pref) : pref :=
  match x with Some c => PV c n | None => p end.

Definition kf (k : kd) (cs : list bool) (ss : list shape) (s : sst N)
           (vs : list (list T)) : sst N * list T :=
  match kfwd k cs ss s vs with Ok p => p | Err _ => (s, []) end.

Notation s0 := (sst0 N).

Definition pvals (k : kd) (r : env) (ts : list tape) (ps : list pref)
           (im : list (list T)) : list (list T) :=
  if kseq k then im else
  map (rdp r) (map (fun '(i, (t, p)) => if kgetf k i then tp t else p)
                   (combine (seq 0 (length ts)) (combine ts ps))).

(** [x]: cells the root's own view has been rebound to (operand of [=]). *)
Fixpoint pf (x : option nat) (e : E) (r : env) {struct e} : tape * env * pref :=
  let n := size (shape_of e) in
  match e with
  | EVar sh o => (Tp (PV o n) (rdv r o n) s0 [] [], r, PV o n)
  | ECst _ c => (Tp (PL c) c s0 [] [], r, PL c)
  | ECvw _ o => (Tp (PL (rdv D o n)) (rdv D o n) s0 [] [], r, PL (rdv D o n))
  | EComp k an es =>
      let '(ts, r1, ps, im) :=
        (fix go es r := match es with
                        | [] => ([], r, [], [])
                        | y :: l => let '(t, r1, p) := pf None y r in
                                    let v := rdp r1 p in
                                    let '(ts, r2, ps, im) := go l r1 in
                                    (t :: ts, r2, p :: ps, v :: im)
                        end) es r in
      let '(s', val) := kf k (map is_const es) (map shape_of es) (st an)
                           (pvals k r1 ts ps im) in
      let p := px x n (PL val) in
      (Tp p val s' [] ts, wx x r1 val, p)
  | EEq an sh o y =>
      let '(t, r1, p) := pf (Some o) y r in
      let v := rdp r1 p in
      let q := PV (root x o) n in
      (Tp q v s0 [] [t], upd (upd r1 o v) (root x o) v, q)
  | EOpEq q an sh o y =>
      let old := rdv r o n in
      let '(t, r1, p) := pf None y r in
      let v := oe_fwd N q (shape_of y) (rdv r1 o n) (rdp r1 p) in
      let q := PV (root x o) n in
      (Tp q v s0 old [t], upd (upd r1 o v) (root x o) v, q)
  | EGlue an l r0 =>
      let '(tl, r1, _) := pf None l r in
      let '(tr, r2, p) := pf None r0 r1 in
      let v := rdp r2 p in
      let q := px x n p in
      (Tp q v s0 [] [tl; tr], wx x r2 v, q)
  | EFor an s es =>
      let '(ts, r1, p) :=
        (fix go es r p := match es with
                          | [] => ([], r, p)
                          | y :: l => let '(t, r1, p) := pf None y r in
                                      let '(ts, r2, p) := go l r1 p in
                                      (t :: ts, r2, p)
                          end) es r (px x n (PL [])) in
      let v := rdp r1 p in
      let q := px x n p in
      (Tp q v s0 [] ts, match es with [] => r1 | _ => wx x r1 v end, q)
  | EIf an c t f =>
      let '(tc, r1, pc) := pf None c r in
      let '(tb, r2, p) := if ntrue N (hd0 N (rdp r1 pc)) then pf None t r1
                          else pf None f r1 in
      (Tp p (rdp r2 p) s0 [] [tc; tb], r2, p)
  end.

Definition padd (a : env) (o : nat) (l : list T) : env :=
  upd a o (map2 (nadd N) (rdv a o (length l)) l).

Definition vsel (k : kd) (vs : list (list T)) : list (list T) :=
  if kget k then vs else map (fun _ => []) vs.

(** Backward evaluation; the first component is what get() refers to
    afterwards. *)
Fixpoint pb (x : option nat) (e : E) (t : tape) (seed : list T) (r a : env) {struct e}
  : pref * env * env :=
  let n := size (shape_of e) in
  match e with
  | EVar sh o => (tp t, r, padd a o seed)
  | ECst _ _ | ECvw _ _ => (tp t, r, a)
  | EComp k an es =>
      match es with [] => (tp t, r, a) | _ :: _ =>
      let ss := map shape_of es in
      let cs := map is_const es in
      let a0 := if kadj k then wx x a seed else a in
      let adv (a : env) := if kadj k then rx x a n seed else seed in
      let P0 := (vsel k (map (fun t => rdp r (tp t)) (tts t)), rx x r n (tv t), adv a0) in
      let '(_, f, r', a') :=
        (fix go (pre : list pref) (l : list E) (ts : list tape) (r a : env) {struct l}
         : list pref * list T * env * env :=
           match l, ts with
           | y :: l', ty :: ts' =>
               let '(qs, f, r, a) := go (pre ++ [tp ty]) l' ts' r a in
               let '(vs, fv, ad) :=
                 if klazy k ss
                 then (vsel k (map (rdp r) (pre ++ tp ty :: qs)), rx x r n f, adv a)
                 else P0 in
               let i := length pre in
               let pr := kpre k i vs fv in
               let '(f, r, fv) :=
                 match pr with
                 | None => (f, r, fv)
                 | Some f1 => (match x with None => f1 | Some _ => f end, wx x r f1, f1)
                 end in
               let '(q, r, a) :=
                 match kseed k cs ss (tst t) ad vs fv i with
                 | None => (tp ty, r, a)
                 | Some s => pb None y ty s r a
                 end in
               match pr with
               | None => (q :: qs, f, r, a)
               | Some _ => let w := map2 (nmul N) (rx x r n f) (rdp r q) in
                           (q :: qs, match x with None => w | Some _ => f end, wx x r w, a)
               end
           | _, _ => ([], tv t, r, a)
           end) [] es (tts t) r a0 in
      (px x n (PL f), r', a')
      end
  | EEq an sh o y =>
      let a1 := padd a o seed in
      match tts t with
      | [ty] => let '(_, r', a') := pb (Some o) y ty (rdv a1 o n) r a1 in (tp t, r', a')
      | _ => (tp t, r, a)
      end
  | EOpEq q an sh o y =>
      let a1 := padd a o seed in
      let r1 := upd r o (told t) in
      let g := rdv a1 o n in
      let a2 := upd a1 o (repeat (n0 N) n) in
      match tts t with
      | [ty] =>
          let yv := rdp r1 (tp ty) in
          let '(qy, r2, a3) := pb None y ty (oe_rseed N q sh (shape_of y) g (told t) yv) r1 a2 in
          let ls := if is_scl sh || is_scl (shape_of y) then oe_lseed N q (shape_of y) g (told t) yv
                    else oe_lseed N q (shape_of y) g (rdv r2 o n) (rdp r2 qy) in
          (tp t, r2, padd a3 o ls)
      | _ => (tp t, r, a)
      end
  | EGlue an l r0 =>
      match tts t with
      | [tl; tr] =>
          let '(q, r1, a1) := pb None r0 tr seed r a in
          let '(_, r2, a2) := pb None l tl (repeat (n0 N) (size (shape_of l))) r1 a1 in
          (px x n q, r2, a2)
      | _ => (tp t, r, a)
      end
  | EFor an s es =>
      let '(q, r', a') :=
        (fix go (l : list E) (ts : list tape) (r a : env) {struct l} :=
           match l, ts with
           | y :: l', ty :: ts' =>
               match l' with
               | [] => pb None y ty seed r a
               | _ :: _ =>
                   let '(q, r1, a1) := go l' ts' r a in
                   let '(_, r2, a2) := pb None y ty (repeat (n0 N) (size (shape_of y))) r1 a1 in
                   (q, r2, a2)
               end
           | _, _ => (tp t, r, a)
           end) es (tts t) r a in
      (px x n q, r', a')
  | EIf an c t0 f =>
      match tts t with
      | [tc; tb] =>
          if ntrue N (hd0 N (rdp r (tp tc))) then pb None t0 tb seed r a
          else pb None f tb seed r a
      | _ => (tp t, r, a)
      end
  end.

End Pure.
Arguments PV {N}. Arguments PL {N}. Arguments Tp {N}. Arguments tp {N}. Arguments tv {N}.
Arguments tst {N}. Arguments told {N}. Arguments tts {N}. Arguments rdv {N}.
Arguments upd {N}. Arguments rdp {N}. Arguments wx {N}. Arguments rx {N}. Arguments px {N}.
Arguments kf {N}. Arguments pvals {N}. Arguments pf {N}. Arguments pb {N}.
Arguments padd {N}. Arguments vsel {N}.
