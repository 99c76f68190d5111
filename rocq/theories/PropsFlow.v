(** Property theorems C13, C14, C15 and C19: sequences, loops, branches and
    comparisons, for every arithmetic [N], IEEE doubles included.

    Spec: the bound expression is compared with a client program that binds the
    parts separately and drives them itself (Flow.v).  Any number of evaluate,
    autodiff and client steps may follow each other ([ops]); both programs must
    return the same values at every step and leave the same variables,
    adjoints and constant data ([agree]).  Guards: [wfs] and [ctor_ok] as in C03;
    [op_ok]: client steps free nothing and seeds have the right size;
    [op_shared]: client steps do not look into the caches. *)
From Verif Require Import Base Num Expr Node Stat Machine Wf LBase LKind Session LUser LFind Flow LSeq LBranch LCmp.

(** ** C13: sequencing.  [stmts u] lists the statements of [u], first to last;
    [seq_eval] evaluates them in this order and returns the last value;
    [seq_diff] then gives the seed to the last and zeros to the others, last to
    first. *)
Theorem C13_sequence (N : num) (LL : la_len N) (bv ba : nat) (bs : nat -> nat * nat) (uv ua : nat -> N)
    (uvs uas : nat -> nat -> N) (u : expr N unit) (m : mem N) ops :
  fresh bv ba -> separate bs -> wfs u = true -> ctor_ok u = true -> avail u m ->
  Forall (op_ok (size (shape_of u))) ops -> Forall op_shared ops ->
  exists e m0 e' m' es ms0 es' ms' vs,
    bound bv ba uv ua u m = Ok (e, m0) /\ play evaluate autodiff ops e m0 = Ok (e', m', vs) /\
    bind_all bs uvs uas 0 (stmts u) m = Ok (es, ms0) /\ play seq_eval seq_diff ops es ms0 = Ok (es', ms', vs) /\
    agree m' ms'.
Proof. exact (fun HF SB => sequence LL bv ba HF bs SB u uv ua uvs uas m ops). Qed.
Print Assumptions C13_sequence.
(** Only the statements and their order matter, not how commas and for_each nest. *)
Theorem C13_associative (N : num) (LL : la_len N) (u1 u2 : expr N unit) (bv1 ba1 bv2 ba2 : nat)
    (uv1 ua1 uv2 ua2 : nat -> N) (m : mem N) ops :
  stmts u1 = stmts u2 -> fresh bv1 ba1 -> fresh bv2 ba2 ->
  wfs u1 = true -> ctor_ok u1 = true -> wfs u2 = true -> ctor_ok u2 = true -> avail u1 m ->
  Forall (op_ok (size (shape_of u1))) ops -> Forall op_shared ops ->
  exists e1 m1 e1' m1' e2 m2 e2' m2' vs,
    bound bv1 ba1 uv1 ua1 u1 m = Ok (e1, m1) /\ play evaluate autodiff ops e1 m1 = Ok (e1', m1', vs) /\
    bound bv2 ba2 uv2 ua2 u2 m = Ok (e2, m2) /\ play evaluate autodiff ops e2 m2 = Ok (e2', m2', vs) /\
    agree m1' m2'.
Proof. exact (same_stmts LL u1 u2 bv1 ba1 bv2 ba2 uv1 ua1 uv2 ua2 m ops). Qed.
Print Assumptions C13_associative.

(** (w = x * y, (v += w, sin(v))) *)
Definition ex_s1 {N : num} : expr N unit := EEq tt scl 2 (EComp (KBin BMul) tt [EVar scl 0; EVar scl 1]).
Definition ex_s2 {N : num} : expr N unit := EOpEq OAdd tt scl 3 (EVar scl 2).
Definition ex_s3 {N : num} : expr N unit := EComp (KBin BMul) tt [EVar scl 3; EVar scl 2].
Definition ex_seq {N : num} : expr N unit := EGlue tt ex_s1 (EGlue tt ex_s2 ex_s3).
Definition ex_blocks : nat -> nat * nat := fun i => (10 + 2 * i, 11 + 2 * i).
Ltac ex_av := split; cbn; intros o Ho; [|tauto]; repeat (destruct Ho as [<-|Ho]; [split; discriminate|]); destruct Ho.
Definition ex_ops : list (op toy) := [OpDiff ([1%Z] : list toy); OpUser (fun m => m); OpEval].
Example C13_nonvacuous : la_len toy /\ fresh 2 3 /\ separate ex_blocks /\ wfs (@ex_seq toy) = true /\ ctor_ok (@ex_seq toy) = true /\
  avail (@ex_seq toy) (mem8 toy (fun o => Z.of_nat (o + 2))) /\
  Forall (op_ok (N := toy) 1) ex_ops /\
  Forall (op_shared (N := toy)) ex_ops /\
  stmts (@ex_seq toy) = [ex_s1; ex_s2; ex_s3] /\
  match bound 2 3 (any toy) (any toy) ex_seq (mem8 toy (fun o => Z.of_nat (o + 2))) with
  | Ok (e, m0) => match play evaluate autodiff ex_ops e m0 with
                  | Ok (_, m', vs) => (vs, m' 1 0, m' 1 1, m' 0 3)
                  | Err _ => ([], None, None, None) end
  | Err _ => ([], None, None, None)
  end = ([[66%Z]; []; [66%Z]], Some 51%Z, Some 34%Z, Some 11%Z).
Proof.
  split; [repeat split; intros; apply repeat_length|]. split; [cbv; repeat split; discriminate|].
  split; [split; [intros i; unfold fresh|intros i j]; cbn [ex_blocks fst snd]; lia|].
  do 2 (split; [reflexivity|]). split; [ex_av|].
  split; [unfold ex_ops; repeat (apply Forall_cons || apply Forall_nil); try exact I; try reflexivity; intros m b o H; exact H|].
  split; [unfold ex_ops; repeat (apply Forall_cons || apply Forall_nil); cbn; auto|].
  split; [reflexivity|]. vm_compute. reflexivity.
Qed.

(** ** C14, partial: for_each is the chain of commas.  Missing: statements where the
    last is not shaped like the first (wfs), refuted as C14_sizes_refuted in
    PropsShape.v. *)
Theorem C14_for_each_partial (N : num) (LL : la_len N) (y : expr N unit) (l : list (expr N unit)) (s : sk)
    (bv1 ba1 bv2 ba2 : nat) (uv1 ua1 uv2 ua2 : nat -> N) (m : mem N) ops :
  let u := EFor tt s (y :: l) in
  fresh bv1 ba1 -> fresh bv2 ba2 ->
  wfs u = true -> ctor_ok u = true -> wfs (chain y l) = true -> avail u m ->
  Forall (op_ok (size (shape_of u))) ops -> Forall op_shared ops ->
  exists e1 m1 e1' m1' e2 m2 e2' m2' vs,
    bound bv1 ba1 uv1 ua1 u m = Ok (e1, m1) /\ play evaluate autodiff ops e1 m1 = Ok (e1', m1', vs) /\
    bound bv2 ba2 uv2 ua2 (chain y l) m = Ok (e2, m2) /\ play evaluate autodiff ops e2 m2 = Ok (e2', m2', vs) /\
    agree m1' m2'.
Proof. exact (for_chain LL y l s bv1 ba1 bv2 ba2 uv1 ua1 uv2 ua2 m ops). Qed.
Print Assumptions C14_for_each_partial.
Example C14_nonvacuous : let l := [ex_s2; ex_s3] in
  chain (ex_s1 (N := toy)) l = EGlue tt (EGlue tt ex_s1 ex_s2) ex_s3 /\
  wfs (EFor tt Scl (@ex_s1 toy :: l)) = true /\ ctor_ok (EFor tt Scl (@ex_s1 toy :: l)) = true /\ wfs (chain (@ex_s1 toy) l) = true /\
  avail (EFor tt Scl (@ex_s1 toy :: l)) (mem8 toy (fun o => Z.of_nat (o + 2))) /\
  match bound 2 3 (any toy) (any toy) (EFor tt Scl (ex_s1 :: l)) (mem8 toy (fun o => Z.of_nat (o + 2))) with
  | Ok (e, m0) => match play evaluate autodiff [OpDiff ([1%Z] : list toy)] e m0 with
                  | Ok (_, m', vs) => (vs, m' 1 0, m' 1 1)
                  | Err _ => ([], None, None) end
  | Err _ => ([], None, None)
  end = ([[66%Z]], Some 51%Z, Some 34%Z).
Proof. do 4 (split; [reflexivity|]). split; [ex_av|]. vm_compute. reflexivity. Qed.

(** ** C15: if_else is the client's own branch: [if_eval] evaluates the condition
    and then only one of the two other objects, [if_diff] gives the seed to that
    one alone.  The guard [cond_ok] in [wfs]: the condition is a computed node or
    a constant. *)
Theorem C15_branch_partial (N : num) (LL : la_len N) (bv ba : nat) (bs : nat -> nat * nat) (uv ua : nat -> N)
    (uvs uas : nat -> nat -> N) (c t f : expr N unit) (m : mem N) ops :
  let u := EIf tt c t f in
  fresh bv ba -> separate bs -> wfs u = true -> ctor_ok u = true -> avail u m ->
  Forall (op_ok (size (shape_of u))) ops -> Forall op_shared ops ->
  exists e m0 e' m' oc ot of ms0 s' ms' vs,
    bound bv ba uv ua u m = Ok (e, m0) /\ play evaluate autodiff ops e m0 = Ok (e', m', vs) /\
    bind_all bs uvs uas 0 [c; t; f] m = Ok ([oc; ot; of], ms0) /\
    play if_eval if_diff ops (oc, ot, of) ms0 = Ok (s', ms', vs) /\
    agree m' ms'.
Proof. exact (fun HF SB => branch LL bv ba HF bs SB c t f uv ua uvs uas m ops). Qed.
Print Assumptions C15_branch_partial.
(** if_else(x < y, (w = x * y), x) *)
Definition ex_if {N : num} : expr N unit :=
  EIf tt (EComp (KBin BLt) tt [EVar scl 0; EVar scl 1]) ex_s1 (EVar scl 0).
Example C15_nonvacuous : wfs (@ex_if toy) = true /\ ctor_ok (@ex_if toy) = true /\
  avail (@ex_if toy) (mem8 toy (fun o => Z.of_nat (o + 2))) /\
  forall flip : mem toy -> mem toy,
    flip = (fun m b o => if (b =? 0) && (o =? 0) then Some 7%Z else m b o) ->
    op_ok (N := toy) 1 (OpUser flip) /\ op_shared (N := toy) (OpUser flip) /\
    match bound 2 3 (any toy) (any toy) ex_if (mem8 toy (fun o => Z.of_nat (o + 2))) with
    | Ok (e, m0) => match play evaluate autodiff [OpDiff ([1%Z] : list toy); OpUser flip; OpDiff ([10%Z] : list toy)] e m0 with
                    | Ok (_, m', vs) => (vs, m' 1 0, m' 1 1, m' 0 2)
                    | Err _ => ([], None, None, None) end
    | Err _ => ([], None, None, None)
    end = ([[6%Z]; []; [7%Z]], Some 13%Z, Some 2%Z, Some 6%Z).
Proof.
  do 2 (split; [reflexivity|]). split; [ex_av|]. intros flip ->. split; [|split; [|vm_compute; reflexivity]].
  - cbn. intros m b o H. destruct ((b =? 0) && (o =? 0)); [discriminate|exact H].
  - cbn. intros m m' H o. destruct (H o) as [H1 [H2 H3]]. destruct o; auto.
Qed.
(** Without the guard the property fails: the backward pass reads the condition
    again, and if the selected branch has assigned it, the other branch (never
    evaluated) is differentiated and the selected one is not.
    if_else(w, (w = x - x), y * y) at w <> 0: value x - x, but the adjoint of y
    receives 2*s*y. *)
Theorem C15_refuted (N : num) (f : nat -> N) (s : N) :
  nz (f 0) = true -> nz (nsub N (f 1) (f 1)) = false -> avail (bad_if N) (mem8 N f) /\
  exists e m v, bind_diff N (bad_if N) (mem8 N f) [s] = Ok (e, m, v) /\ v = [nsub N (f 1) (f 1)] /\
    m 1 0 = Some (n0 N) /\ m 1 1 = Some (n0 N) /\
    m 1 2 = Some (nadd N (nadd N (n0 N) (nmul N s (f 2))) (nmul N s (f 2))).
Proof. exact (fun H1 H2 => conj (bad_if_avail N f) (bad_if_wrong N f s H1 H2)). Qed.
Print Assumptions C15_refuted.
Example C15_refuted_nonvacuous : nz (N := toy) 5%Z = true /\ nz (N := toy) (nsub toy 3%Z 3%Z) = false /\
  (0 + 1 * 4 + 1 * 4 <> 0)%Z.
Proof. repeat split; discriminate. Qed.

(** ** C19: comparisons and logical operators.  [cmp_eval] evaluates both operands
    and compares the values entry by entry; [cmp_diff] does nothing more, so no
    adjoint changes whatever the seed.  The right operand must contain no
    assignment (it could change what the left one refers to). *)
Theorem C19_comparison (N : num) (LL : la_len N) (bv ba : nat) (bs : nat -> nat * nat) (uv ua : nat -> N)
    (uvs uas : nat -> nat -> N) (b : bi) (x y : expr N unit) (m : mem N) ops :
  let u := EComp (KBin b) tt [x; y] in
  is_cmp b = true -> pure y = true ->
  fresh bv ba -> separate bs -> wfs u = true -> ctor_ok u = true -> avail u m ->
  Forall (op_ok (size (shape_of u))) ops -> Forall op_shared ops ->
  exists e m0 e' m' ox oy ms0 s' ms' vs,
    bound bv ba uv ua u m = Ok (e, m0) /\ play evaluate autodiff ops e m0 = Ok (e', m', vs) /\
    bind_all bs uvs uas 0 [x; y] m = Ok ([ox; oy], ms0) /\
    play (cmp_eval b) (cmp_diff b) ops (ox, oy) ms0 = Ok (s', ms', vs) /\
    agree m' ms'.
Proof. exact (fun HB HP HF SB => comparison LL bv ba HF bs SB b x y HB HP uv ua uvs uas m ops). Qed.
Print Assumptions C19_comparison.
(** The compared values are 0 or 1; for && and || of arrays only if the operands are
    (binary.hpp:431, 452: "only well-defined when inputs are of boolean context"). *)
Theorem C19_zero_one (N : num) (b : bi) sx sy (vx vy : list N) :
  is_cmp b = true -> length vx = size sx -> length vy = size sy ->
  (is_scl sx && is_scl sy = true \/ (b <> BAnd /\ b <> BOr) \/ (Forall is01 vx /\ Forall is01 vy)) ->
  Forall is01 (cmp_vals b sx sy vx vy).
Proof. exact (vals01 b sx sy vx vy). Qed.
Print Assumptions C19_zero_one.
Theorem C19_array_logic_refuted (N : num) (f : nat -> N) : (forall o, o < 4 -> ~ is01 (f o)) ->
  exists e m a b e' m' a' b',
  bind_eval N (arr_and N) (mem8 N f) = Ok (e, m, [a; b]) /\ ~ is01 a /\ ~ is01 b /\
  bind_eval N (arr_or N) (mem8 N f) = Ok (e', m', [a'; b']) /\ ~ is01 a' /\ ~ is01 b'.
Proof. exact (arr_logic N f). Qed.
Print Assumptions C19_array_logic_refuted.
Example C19_nonvacuous :
  let u : expr toy unit := EComp (KBin BLe) tt [EVar scl 1; EComp (KUn UNeg) tt [EVar v2 2]] in
  is_cmp BLe = true /\ pure (EComp (KUn UNeg) tt [EVar v2 2] : expr toy unit) = true /\
  wfs u = true /\ ctor_ok u = true /\ avail u (mem8 toy (fun o => (2 - Z.of_nat o)%Z)) /\
  match bound 2 3 (any toy) (any toy) u (mem8 toy (fun o => (2 - Z.of_nat o)%Z)) with
  | Ok (e, m0) => match play evaluate autodiff [OpDiff ([5; 6]%Z : list toy)] e m0 with
                  | Ok (_, m', vs) => (vs, m' 1 1, m' 1 2, m' 1 3)
                  | Err _ => ([], None, None, None) end
  | Err _ => ([], None, None, None)
  end = ([[0; 1]%Z], Some 0%Z, Some 0%Z, Some 0%Z) /\
  (forall o, o < 4 -> ~ is01 (N := toy) (Z.of_nat (o + 2))).
Proof.
  cbn zeta. do 4 (split; [reflexivity|]). split; [ex_av|]. split; [vm_compute; reflexivity|].
  intros o Ho [H|H]; cbn in H; lia.
Qed.
