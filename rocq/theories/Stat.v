(** The log-density nodes of /repo/include/fastad_bits/reverse/stat: the work of
    their constructors, of feval and of beval, for an arbitrary [num].

    Operand lists are in call order: normal [x; mean; sigma], Cauchy
    [x; loc; scale], uniform [x; min; max], Bernoulli [x; p],
    Wishart [x; v; n].  [cs] says which operands are constants
    (util::is_constant_v).  [stat_bwd] gives the seed sent to each operand,
    [None] when the operand is not visited; operands are visited from last to
    first, which is the order of the C++ bodies. *)
From Verif Require Import Base Num Expr Node.

Section Stat.
Context (N : num).
Notation T := (carrier N).
Notation "x +! y" := (nadd N x y) (at level 50, left associativity).
Notation "x -! y" := (nsub N x y) (at level 50, left associativity).
Notation "x *! y" := (nmul N x y) (at level 40, left associativity).
Notation "x /! y" := (ndiv N x y) (at level 40, left associativity).
Notation "-! x" := (nopp N x) (at level 35, right associativity).
Notation "x <? y" := (nltb N x y) (at level 70).
Notation "x <=? y" := (nleb N x y) (at level 70).
Notation "x =? y" := (neqb N x y) (at level 70).
Notation "0" := (n0 N).
Notation "1" := (n1 N).
Notation "½" := (nhalf N).
Notation S_ := (sst N).
Notation hd0 := (hd0 N).
Notation nsum := (nsum N).
Notation n2 := (n2 N).
Notation nofn := (nofn N).
Notation nsq := (nsq N).
Notation sqnorm := (sqnorm N).

Definition cst (cs : list bool) (i : nat) : bool := nth i cs false.
Definition arg (vs : list (list T)) (i : nat) : list T := nth i vs [].
Definition pos (x : T) : bool := 0 <? x.
Definition allpos (l : list T) : bool := forallb pos l.

(** minCoeff / maxCoeff / mean assert a non-empty argument. *)
Definition minco (l : list T) : res T :=
  match l with [] => Err UBshape | x :: t => Ok (fold_left (nmin N) t x) end.
Definition maxco (l : list T) : res T :=
  match l with [] => Err UBshape | x :: t => Ok (fold_left (nmax N) t x) end.
Definition meanco (l : list T) : res T :=
  match l with [] => Err UBshape | _ => Ok (nsum l /! nofn (length l)) end.

Definition set_sa (s : S_) (v : T) : S_ :=
  SST v (sb s) (sc s) (sd s) (fa s) (fb s) (ma s) (mb s) (mc s).
Definition set_sab (s : S_) (a b : T) : S_ :=
  SST a b (sc s) (sd s) (fa s) (fb s) (ma s) (mb s) (mc s).
Definition set_sb (s : S_) (v : T) : S_ :=
  SST (sa s) v (sc s) (sd s) (fa s) (fb s) (ma s) (mb s) (mc s).
Definition set_sbc (s : S_) (b c : T) : S_ :=
  SST (sa s) b c (sd s) (fa s) (fb s) (ma s) (mb s) (mc s).
Definition set_scd (s : S_) (c d : T) : S_ :=
  SST (sa s) (sb s) c d (fa s) (fb s) (ma s) (mb s) (mc s).
Definition set_sbcd (s : S_) (b c d : T) : S_ :=
  SST (sa s) b c d (fa s) (fb s) (ma s) (mb s) (mc s).
Definition set_fa (s : S_) (f : bool) : S_ :=
  SST (sa s) (sb s) (sc s) (sd s) f (fb s) (ma s) (mb s) (mc s).
Definition set_fb (s : S_) (f : bool) : S_ :=
  SST (sa s) (sb s) (sc s) (sd s) (fa s) f (ma s) (mb s) (mc s).
Definition set_mb (s : S_) (l : list T) : S_ :=
  SST (sa s) (sb s) (sc s) (sd s) (fa s) (fb s) (ma s) l (mc s).

(** ** Normal: sa = log_sigma / log_det, sb = z_sq, sc = x_mean, sd = x_var for
    vss; sb, sc, sd = sq_term, lin_term, const_term for vsv; fa = is_pos_def;
    ma = inv, mb = z. *)

(** update_cache for a scalar sigma, normal.hpp:174-176, 289-291, 375-377 *)
Definition norm_upd_s (st : S_) (s : list T) : S_ := set_sa st (nlog N (hd0 s)).
(** update_cache for a vector sigma, normal.hpp:481-486, 568-574 *)
Definition norm_upd_v (st : S_) (s : list T) : S_ :=
  let st := set_fa st (allpos s) in
  if fa st then set_sa st (nsum (map (nlog N) s)) else st.
(** update_cache for a matrix sigma, normal.hpp:658-665, 756-763 *)
Definition norm_upd_m (st : S_) (n : nat) (s : list T) : S_ :=
  let ok := llt_ok T (nla N) n s in
  if ok then SST (nlog N (llt_ldet T (nla N) n s)) (sb st) (sc st) (sd st) true (fb st)
                 (llt_inv T (nla N) n s) (mb st) (mc st)
  else set_fa st false.

(** ** Uniform: sa = log_diff, sb = x_min, sc = x_max, fa = x_bounded_above,
    fb = x_bounded_below. *)

(** update_cache / update_log_diff_cache, uniform.hpp:166-168, 253-255, 347-349,
    440-442, 528-530 *)
Definition uni_upd (st : S_) (k : stat) (mn mx : list T) : S_ :=
  match k with
  | UniSSS | UniVSS => set_sa st (nlog N (hd0 mx -! hd0 mn))
  | UniVSV => set_sa st (nsum (map (fun b => nlog N (b -! hd0 mn)) mx))
  | UniVVS => set_sa st (nsum (map (fun a => nlog N (hd0 mx -! a)) mn))
  | _ => set_sa st (nsum (map2 (fun b a => nlog N (b -! a)) mx mn))
  end.
Definition forall2b (f : T -> T -> bool) (a b : list T) : bool :=
  forallb (fun p => f (fst p) (snd p)) (combine a b).
(** update_x_cache, uniform.hpp:257-260, 351-354, 444-447 *)
Definition uni_updx (st : S_) (k : stat) (x mn mx : list T) : res S_ :=
  match k with
  | UniVSS => a <- minco x ;; b <- maxco x ;; Ok (set_sbc st a b)
  | UniVSV => a <- minco x ;;
              Ok (set_fa (set_sb st a) (forall2b (fun u v => u <? v) x mx))
  | UniVVS => b <- maxco x ;;
              Ok (set_fb (set_sbc st (sb st) b) (forall2b (fun u v => v <? u) x mn))
  | _ => Ok st
  end.
(** within_range, uniform.hpp:170-173, 262-265, 356-358, 449-451, 532-534 *)
Definition uni_in (k : stat) (st : S_) (x mn mx : list T) : bool :=
  match k with
  | UniSSS => (hd0 mn <? hd0 x) && (hd0 x <? hd0 mx)
  | UniVSS => (hd0 mn <? sb st) && (sc st <? hd0 mx)
  | UniVSV => (hd0 mn <? sb st) && fa st
  | UniVVS => fb st && (sc st <? hd0 mx)
  | _ => fb st && fa st
  end.

(** ** Bernoulli: sa = log_p, sb = log_p_dual, sc = x_sum, fa = is_x_zero_one,
    fb = is_p_within_range. *)
Definition in01 (p : T) : bool := (0 <? p) && (p <? 1).
Definition is01 (x : T) : bool := (x =? 0) || (x =? 1).
(** update_cache, bernoulli.hpp:162-167, 256-261, 367-370 *)
Definition ber_upd (st : S_) (k : stat) (p : list T) : S_ :=
  match k with
  | BerVV => set_fb st (forallb in01 p)
  | _ => if in01 (hd0 p) then set_sab st (nlog N (hd0 p)) (nlog N (1 -! hd0 p)) else st
  end.
(** update_x_cache, bernoulli.hpp:263-267, 372-375 *)
Definition ber_updx (st : S_) (k : stat) (x : list T) : S_ :=
  match k with
  | BerVS => set_scd (set_fa st (forallb is01 x)) (nsum x) (sd st)
  | BerVV => set_fa st (forallb is01 x)
  | _ => st
  end.
(** the loop of bernoulli.hpp:329-340 *)
Fixpoint ber_clip (acc : T) (x p : list T) : T :=
  match x, p with
  | xi :: x', pi :: p' =>
      if (pi <=? 0) && negb (xi =? 0) then nninf N
      else if (1 <=? pi) && negb (xi =? 1) then nninf N
      else if in01 pi then
             ber_clip (acc +! (if xi =? 1 then nlog N pi else nlog N (1 -! pi))) x' p'
           else ber_clip acc x' p'
  | _, _ => acc
  end.

(** ** Wishart: sa = log_x_det, sb = log_v_det, fa = is_x_pos_def,
    fb = is_v_pos_def, ma = x_inv, mb = v_inv, mc = xv_inv. *)
(** update_v_cache, wishart.hpp:197-204 *)
Definition wish_updv (st : S_) (n : nat) (v : list T) : S_ :=
  if llt_ok T (nla N) n v then
    SST (sa st) (nlog N (llt_ldet T (nla N) n v)) (sc st) (sd st) (fa st) true
        (ma st) (llt_inv T (nla N) n v) (mc st)
  else set_fb st false.
(** update_x_cache, wishart.hpp:206-216 *)
Definition wish_updx (st : S_) (n : nat) (x : list T) : S_ :=
  if fb st then
    if llt_ok T (nla N) n x then
      SST (nlog N (llt_ldet T (nla N) n x)) (sb st) (sc st) (sd st) true (fb st)
          (llt_inv T (nla N) n x) (mb st) (mm N n n n x (mb st))
    else set_fa st false
  else st.
(** valid, wishart.hpp:218-222 *)
Definition wish_ok (st : S_) (p : nat) (nn : T) : bool :=
  fa st && fb st && (nofn p <? nn +! 1).

(** ** Constructors.  [gs i] is what get() of operand [i] yields at
    construction time (undefined for operands that are not bound yet). *)
Definition stat_init (k : stat) (cs : list bool) (ss : list shape)
           (gs : list (res (list T))) : res S_ :=
  let g i := nth i gs (Ok []) in
  let st := sst0 N in
  match k with
  | NormSSS | NormVVS =>                               (* 130-139, 326-336 *)
      if cst cs 2 then s <- g 2%nat ;; Ok (norm_upd_s st s) else Ok st
  | NormVSS =>                                         (* 204-223 *)
      st <- (if cst cs 2 then s <- g 2%nat ;; Ok (norm_upd_s st s) else Ok st) ;;
      if cst cs 0 then
        x <- g 0%nat ;;
        m <- meanco x ;;
        Ok (set_scd st m (sqnorm (map (fun xi => xi -! m) x)))
      else Ok st
  | NormVSV =>                                         (* 406-428 *)
      if cst cs 2 then
        s <- g 2%nat ;;
        let st := norm_upd_v st s in
        if cst cs 0 then
          x <- g 0%nat ;;
          Ok (set_sbcd st (sqnorm (map2 (ndiv N) x s))
                          (nsum (map2 (fun xi si => xi /! (si *! si)) x s))
                          (sqnorm (map (fun si => 1 /! si) s)))
        else Ok st
      else Ok st
  | NormVVV =>                                         (* 520-530 *)
      if cst cs 2 then s <- g 2%nat ;; Ok (norm_upd_v st s) else Ok st
  | NormVSM | NormVVM =>                               (* 605-622, 702-720 *)
      if cst cs 2 then s <- g 2%nat ;; Ok (norm_upd_m st (rows (nth_sh ss 2)) s) else Ok st
  | CauSSS | CauVSS | CauVSV | CauVVS | CauVVV => Ok st
  | UniSSS | UniVVV =>                                 (* 126-136, 483-495 *)
      if cst cs 1 && cst cs 2 then
        a <- g 1%nat ;; b <- g 2%nat ;; Ok (uni_upd st k a b)
      else Ok st
  | UniVSS | UniVSV | UniVVS =>                        (* 203-218, 297-312, 390-405 *)
      st <- (if cst cs 1 && cst cs 2 then
               a <- g 1%nat ;; b <- g 2%nat ;; Ok (uni_upd st k a b)
             else Ok st) ;;
      if cst cs 0 then
        x <- g 0%nat ;;
        a <- match k with UniVVS => g 1%nat | _ => Ok [] end ;;
        b <- match k with UniVSV => g 2%nat | _ => Ok [] end ;;
        uni_updx st k x a b
      else Ok st
  | BerSS | BerVS | BerVV =>                           (* 115-124, 199-213, 301-313 *)
      st <- (if cst cs 1 then p <- g 1%nat ;; Ok (ber_upd st k p) else Ok st) ;;
      if cst cs 0 then x <- g 0%nat ;; Ok (ber_updx st k x) else Ok st
  | Wish =>                                            (* 138-158 *)
      st <- (if cst cs 1 then v <- g 1%nat ;; Ok (wish_updv st (rows (nth_sh ss 1)) v)
             else Ok st) ;;
      if cst cs 0 then x <- g 0%nat ;; Ok (wish_updx st (rows (nth_sh ss 0)) x) else Ok st
  end.

(** ** feval *)
Definition stat_fwd (k : stat) (cs : list bool) (ss : list shape) (st : S_)
           (vs : list (list T)) : res (S_ * T) :=
  let a := arg vs 0 in
  let b := arg vs 1 in
  let c := arg vs 2 in
  let n := length a in
  match k with
  | NormSSS =>                                         (* 141-156 *)
      let s := hd0 c in
      if s <=? 0 then Ok (st, nninf N) else
      let st := if cst cs 2 then st else norm_upd_s st c in
      let z := (hd0 a -! hd0 b) /! s in
      Ok (st, (-! ½) *! z *! z -! sa st)
  | NormVSS =>                                         (* 225-248 *)
      let s := hd0 c in
      let m := hd0 b in
      if s <=? 0 then Ok (st, nninf N) else
      let st := if cst cs 2 then st else norm_upd_s st c in
      if cst cs 0 then
        let ctr := m -! sc st in
        let inv := 1 /! (s *! s) in
        Ok (st, (-! ½) *! inv *! (sd st +! nofn n *! ctr *! ctr) -! nofn n *! sa st)
      else
        let st := set_sb st (sqnorm (map (fun x => x -! m) a) /! (s *! s)) in
        Ok (st, (-! ½) *! sb st -! nofn n *! sa st)
  | NormVVS =>                                         (* 338-354 *)
      let s := hd0 c in
      if s <=? 0 then Ok (st, nninf N) else
      let st := if cst cs 2 then st else norm_upd_s st c in
      let st := set_sb st (sqnorm (map2 (nsub N) a b) /! (s *! s)) in
      Ok (st, (-! ½) *! sb st -! nofn n *! sa st)
  | NormVSV =>                                         (* 430-453 *)
      let m := hd0 b in
      let st := if cst cs 2 then st else norm_upd_v st c in
      if negb (fa st) then Ok (st, nninf N) else
      if cst cs 0 && cst cs 2 then
        Ok (st, (-! ½) *! (sb st -! n2 *! m *! sc st +! m *! m *! sd st) -! sa st)
      else Ok (st, (-! ½) *! sqnorm (map2 (fun x s => (x -! m) /! s) a c) -! sa st)
  | NormVVV =>                                         (* 532-549 *)
      let st := if cst cs 2 then st else norm_upd_v st c in
      if negb (fa st) then Ok (st, nninf N) else
      Ok (st, (-! ½) *! sqnorm (map3 (fun x m s => (x -! m) /! s) a b c) -! sa st)
  | NormVSM | NormVVM =>                               (* 624-642, 722-740 *)
      let st := if cst cs 2 then st else norm_upd_m st (rows (nth_sh ss 2)) c in
      if negb (fa st) then Ok (st, nninf N) else
      let d := match k with
               | NormVSM => map (fun x => x -! hd0 b) a
               | _ => map2 (nsub N) a b end in
      let st := set_mb st (mm N n n 1 (ma st) d) in
      Ok (st, (-! ½) *! vdot N d (mb st) -! sa st)
  | CauSSS =>                                          (* 134-147 *)
      if negb (pos (hd0 c)) then Ok (st, nninf N) else
      let d := hd0 a -! hd0 b in
      let st := set_sa st (hd0 c +! (d *! d) /! hd0 c) in
      Ok (st, -! nlog N (sa st))
  | CauVSS =>                                          (* 206-218 *)
      if negb (pos (hd0 c)) then Ok (st, nninf N) else
      Ok (st, -! nsum (map (fun x => nlog N (hd0 c +! (1 /! hd0 c) *! nsq (x -! hd0 b))) a))
  | CauVSV =>                                          (* 276-288 *)
      if negb (allpos c) then Ok (st, nninf N) else
      Ok (st, -! nsum (map2 (fun x g => nlog N (g +! nsq (x -! hd0 b) /! g)) a c))
  | CauVVS =>                                          (* 345-357 *)
      if negb (pos (hd0 c)) then Ok (st, nninf N) else
      Ok (st, -! nsum (map2 (fun x m => nlog N (hd0 c +! (1 /! hd0 c) *! nsq (x -! m))) a b))
  | CauVVV =>                                          (* 415-427 *)
      if negb (allpos c) then Ok (st, nninf N) else
      Ok (st, -! nsum (map3 (fun x m g => nlog N (g +! nsq (x -! m) /! g)) a b c))
  | UniSSS | UniVSS | UniVSV | UniVVS =>               (* 138-155, 220-241, 314-334, 407-427 *)
      let st := if cst cs 1 && cst cs 2 then st else uni_upd st k b c in
      st <- (if cst cs 0 then Ok st else uni_updx st k a b c) ;;
      if negb (uni_in k st a b c) then Ok (st, nninf N) else
      Ok (st, match k with
              | UniVSS => (-! nofn n) *! sa st
              | _ => -! sa st end)
  | UniVVV =>                                          (* 497-516 *)
      let st := if cst cs 1 && cst cs 2 then st else uni_upd st k b c in
      let st := set_fb st (forall2b (fun u v => v <? u) a b) in
      let st := set_fa st (forall2b (fun u v => u <? v) a c) in
      if negb (uni_in k st a b c) then Ok (st, nninf N) else Ok (st, -! sa st)
  | BerSS =>                                           (* 126-151 *)
      let x := hd0 a in let p := hd0 b in
      let st := if cst cs 1 then st else ber_upd st k b in
      Ok (st,
        if negb (in01 p) then
          if p <=? 0 then if x =? 0 then 0 else nninf N
          else if x =? 1 then 0 else nninf N
        else if x =? 0 then sb st
        else if x =? 1 then sa st else nninf N)
  | BerVS =>                                           (* 215-244 *)
      let p := hd0 b in
      let st := if cst cs 1 then st else ber_upd st k b in
      let st := if cst cs 0 then st else ber_updx st k a in
      Ok (st,
        if negb (in01 p) then
          if p <=? 0 then if (sc st =? 0) && fa st then 0 else nninf N
          else if (sc st =? nofn n) && fa st then 0 else nninf N
        else if fa st then sc st *! sa st +! (nofn n -! sc st) *! sb st
        else nninf N)
  | BerVV =>                                           (* 315-347 *)
      let st := if cst cs 1 then st else ber_upd st k b in
      let st := if cst cs 0 then st else ber_updx st k a in
      Ok (st,
        if fa st then
          if negb (fb st) then ber_clip 0 a b
          else nsum (map2 (fun x p => nlog N (x *! p +! (1 -! x) *! (1 -! p))) a b)
        else nninf N)
  | Wish =>                                            (* 160-181 *)
      let p := rows (nth_sh ss 1) in
      let nn := hd0 c in
      let st := if cst cs 1 then st else wish_updv st p b in
      let st := if cst cs 0 then st else wish_updx st (rows (nth_sh ss 0)) a in
      if negb (wish_ok st p nn) then Ok (st, nninf N) else
      Ok (st, (nn -! nofn p -! 1) *! sa st -! ½ *! ntrace N p (mc st) -! nn *! sb st)
  end.

(** ** beval *)
Definition stat_bwd (k : stat) (cs : list bool) (ss : list shape) (st : S_)
           (seed : T) (vs : list (list T)) (i : nat) : option (list T) :=
  let a := arg vs 0 in
  let b := arg vs 1 in
  let c := arg vs 2 in
  let n := length a in
  if seed =? 0 then None else
  match k with
  | NormSSS =>                                         (* 158-171 *)
      if hd0 c <=? 0 then None else
      let inv := 1 /! hd0 c in
      let z := (hd0 a -! hd0 b) *! inv in
      let adj := seed *! z *! inv in
      match i with
      | 2 => if cst cs 2 then None else Some [seed *! (z *! z -! 1) *! inv]
      | 1 => Some [adj]
      | _ => Some [-! adj]
      end
  | NormVSS =>                                         (* 250-286 *)
      if hd0 c <=? 0 then None else
      let inv := 1 /! hd0 c in
      let inv2 := inv *! inv in
      let m := hd0 b in
      if cst cs 0 then
        match i with
        | 2 => if cst cs 2 then None else
               let ctr := m -! sc st in
               Some [seed *! (((sd st +! nofn n *! ctr *! ctr) *! inv2 -! nofn n) *! inv)]
        | 1 => Some [seed *! (nofn n *! (sc st -! m) *! inv2)]
        | _ => None
        end
      else
        match i with
        | 2 => if cst cs 2 then None else Some [seed *! (sb st -! nofn n) *! inv]
        | 1 => Some [seed *! (nsum (map (fun x => x -! m) a) *! inv2)]
        | _ => Some (map (fun x => (seed *! inv2) *! (m -! x)) a)
        end
  | NormVVS =>                                         (* 356-372 *)
      if hd0 c <=? 0 then None else
      let inv := 1 /! hd0 c in
      let inv2 := inv *! inv in
      match i with
      | 2 => if cst cs 2 then None else Some [seed *! (sb st -! nofn n) *! inv]
      | 1 => Some (map2 (fun x m => (seed *! inv2) *! (x -! m)) a b)
      | _ => Some (map2 (fun x m => (seed *! inv2) *! (m -! x)) a b)
      end
  | NormVSV =>                                         (* 455-478 *)
      if negb (fa st) then None else
      let m := hd0 b in
      if cst cs 0 && cst cs 2 then
        match i with
        | 1 => Some [seed *! (sc st -! m *! sd st)]
        | _ => None
        end
      else
        match i with
        | 2 => if cst cs 2 then None else
               Some (map2 (fun x s => (seed /! s) *! (nsq ((x -! m) /! s) -! 1)) a c)
        | 1 => Some [seed *! nsum (map2 (fun x s => (x -! m) /! nsq s) a c)]
        | _ => Some (map2 (fun x s => (seed /! nsq s) *! (m -! x)) a c)
        end
  | NormVVV =>                                         (* 551-565 *)
      if negb (fa st) then None else
      match i with
      | 2 => if cst cs 2 then None else
             Some (map3 (fun x m s => (seed /! s) *! (nsq ((x -! m) /! s) -! 1)) a b c)
      | 1 => Some (map3 (fun x m s => seed *! (x -! m) /! nsq s) a b c)
      | _ => Some (map3 (fun x m s => seed *! (m -! x) /! nsq s) a b c)
      end
  | NormVSM | NormVVM =>                               (* 644-655, 742-753 *)
      if negb (fa st) then None else
      let p := rows (nth_sh ss 2) in
      let z := mb st in
      match i with
      | 2 => if cst cs 2 then None else
             Some (mkm p p (fun r q => ((-! ½) *! seed) *!
                     (mget 0 p (ma st) r q -! nth r z 0 *! nth q z 0)))
      | 1 => match k with
             | NormVSM => Some [seed *! nsum z]
             | _ => Some (map (fun zi => seed *! zi) z)
             end
      | _ => Some (map (fun zi => (-! seed) *! zi) z)
      end
  | CauSSS =>                                          (* 149-165 *)
      if negb (pos (hd0 c)) then None else
      let g := hd0 c in
      let d := hd0 a -! hd0 b in
      let x0 := n2 *! d /! (g *! sa st) in
      match i with
      | 2 => Some [seed *! (1 /! g *! (x0 *! d -! 1))]
      | 1 => Some [seed *! x0]
      | _ => Some [seed *! (-! x0)]
      end
  | CauVSS =>                                          (* 220-237 *)
      if negb (pos (hd0 c)) then None else
      let g := hd0 c in
      let dx x := ((-! n2) *! seed) *! (x -! hd0 b) /! (g *! g +! nsq (x -! hd0 b)) in
      match i with
      | 2 => Some [((-! seed) /! g) *!
                   (nsum (map (fun x => dx x *! (x -! hd0 b)) a) +! nofn n)]
      | 1 => Some [(-! seed) *! nsum (map dx a)]
      | _ => Some (map dx a)
      end
  | CauVSV =>                                          (* 290-306 *)
      if negb (allpos c) then None else
      let dx x g := ((-! n2) *! seed) *! (x -! hd0 b) /! (nsq g +! nsq (x -! hd0 b)) in
      match i with
      | 2 => Some (map2 (fun x g => (-! seed) *! (dx x g *! (x -! hd0 b) +! 1) /! g) a c)
      | 1 => Some [(-! seed) *! nsum (map2 dx a c)]
      | _ => Some (map2 dx a c)
      end
  | CauVVS =>                                          (* 359-376 *)
      if negb (pos (hd0 c)) then None else
      let g := hd0 c in
      let dx x m := ((-! n2) *! seed) *! (x -! m) /! (g *! g +! nsq (x -! m)) in
      match i with
      | 2 => Some [((-! seed) /! g) *!
                   (nsum (map2 (fun x m => dx x m *! (x -! m)) a b) +! nofn n)]
      | 1 => Some (map2 (fun x m => (-! seed) *! dx x m) a b)
      | _ => Some (map2 dx a b)
      end
  | CauVVV =>                                          (* 429-445 *)
      if negb (allpos c) then None else
      let dx x m g := ((-! n2) *! seed) *! (x -! m) /! (nsq g +! nsq (x -! m)) in
      match i with
      | 2 => Some (map3 (fun x m g => ((-! seed) /! g) *! (dx x m g *! (x -! m) +! 1)) a b c)
      | 1 => Some (map3 (fun x m g => (-! seed) *! dx x m g) a b c)
      | _ => Some (map3 dx a b c)
      end
  | UniSSS =>                                          (* 157-163 *)
      if negb (uni_in k st a b c) then None else
      let adj := seed /! (hd0 c -! hd0 b) in
      match i with 2 => Some [-! adj] | 1 => Some [adj] | _ => None end
  | UniVSS =>                                          (* 243-250 *)
      if negb (uni_in k st a b c) then None else
      let adj := seed *! nofn n /! (hd0 c -! hd0 b) in
      match i with 2 => Some [-! adj] | 1 => Some [adj] | _ => None end
  | UniVSV =>                                          (* 336-344 *)
      if negb (uni_in k st a b c) then None else
      match i with
      | 2 => Some (map (fun u => (-! seed) /! (u -! hd0 b)) c)
      | 1 => Some [seed *! nsum (map (fun u => 1 /! (u -! hd0 b)) c)]
      | _ => None
      end
  | UniVVS =>                                          (* 429-437 *)
      if negb (uni_in k st a b c) then None else
      match i with
      | 2 => Some [(-! seed) *! nsum (map (fun u => 1 /! (hd0 c -! u)) b)]
      | 1 => Some (map (fun u => seed /! (hd0 c -! u)) b)
      | _ => None
      end
  | UniVVV =>                                          (* 518-525 *)
      if negb (uni_in k st a b c) then None else
      match i with
      | 2 => Some (map2 (fun u l => (-! seed) /! (u -! l)) c b)
      | 1 => Some (map2 (fun u l => seed /! (u -! l)) c b)
      | _ => None
      end
  | BerSS =>                                           (* 153-159 *)
      let x := hd0 a in let p := hd0 b in
      if negb (in01 p) || negb (is01 x) then None else
      match i with
      | 1 => Some [if x =? 0 then (-! seed) /! (1 -! p) else seed /! p]
      | _ => None
      end
  | BerVS =>                                           (* 246-253 *)
      let p := hd0 b in
      if negb (in01 p) || negb (fa st) then None else
      match i with
      | 1 => Some [seed *! ((sc st -! nofn n *! p) /! (p *! (1 -! p)))]
      | _ => None
      end
  | BerVV =>                                           (* 349-364 *)
      if negb (fa st) then None else
      match i with
      | 1 => Some (map2 (fun x p => if in01 p then
                           if x =? 1 then seed /! p else (-! seed) /! (1 -! p)
                         else 0) a b)
      | _ => None
      end
  | Wish =>                                            (* 183-194 *)
      let p := rows (nth_sh ss 1) in
      let nn := hd0 c in
      if negb (wish_ok st p nn) then None else
      match i with
      | 1 => Some (map2 (fun u w => (½ *! seed) *! (u -! nn *! w))
                        (mm N p p p (mb st) (mc st)) (mb st))
      | 0 => Some (map2 (fun u w => (½ *! seed) *! ((nn -! nofn p -! 1) *! u -! w))
                        (ma st) (mb st))
      | _ => None
      end
  end.
End Stat.
