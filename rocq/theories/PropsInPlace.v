(** Property theorems C63: computing in the node's own storage.
    Sums and products over ranges accumulate in the node's view, and transposition
    writes its view while reading its operand.  [evaluate_ip], [autodiff_ip] and
    [run_ip] (InPlace.v) do just that; [evaluate], [autodiff] and [run] compute a
    node's value before storing it, and all other theorems are about these. *)
From Coq Require Import Reals.
From Coquelicot Require Import Coquelicot.
From Verif Require Import Base Num Expr Node Stat Machine Wf Session Tape LKind LFind InPlace LInPlace XR Spec Grad LReal LInPlaceR.
Local Open Scope R_scope.
Notation X := (expr xr unit).
Notation D0 := (fun _ : nat => 0).

(** ** C63: the two agree, results, memory and errors included, for every arithmetic
    and in every session with an expression in which no target of = occurs in the
    right side assigned to it ([noself]; op= and everything else is unrestricted). *)
Theorem C63_in_place (N : num) (LL : la_len N) (bv ba : nat) (uv ua : nat -> N)
    (u : expr N unit) (m : mem N) e m0 ops :
  fresh bv ba -> wfs u = true -> noself u = true -> avail u m -> bound bv ba uv ua u m = Ok (e, m0) ->
  Forall (op_ok (size (shape_of u))) ops ->
  exists e1 m1, run ops (e, m0) = Ok (e1, m1) /\ run_ip ops (e, m0) = Ok (e1, m1) /\
    (exists r, evaluate e1 m1 = Ok r /\ evaluate_ip e1 m1 = Ok r) /\
    (forall s, length s = size (shape_of u) -> exists r, autodiff e1 s m1 = Ok r /\ autodiff_ip e1 s m1 = Ok r).
Proof. exact (fun HF => ip_session bv ba HF LL u m uv ua e m0 ops). Qed.
Print Assumptions C63_in_place.
(** A transposition, then (w = sum{x, y}, w * prod{w, (w += x)}). *)
Definition ex63 {N : num} : expr N unit :=
  EGlue tt (EEq tt (Sh Mat 2 2) 0 (EComp KTrans tt [EVar (Sh Mat 2 2) 4]))
    (EGlue tt (EEq tt scl 7 (EComp (KSumI Scl) tt [EVar scl 0; EVar scl 1]))
       (EComp (KBin BMul) tt [EVar scl 7; EComp (KProdI Scl) tt [EVar scl 7; EOpEq OAdd tt scl 7 (EVar scl 0)]])).
Example C63_nonvacuous (N : num) : fresh 2 3 /\ wfs (@ex63 N) = true /\ noself (@ex63 N) = true /\
  avail (@ex63 N) (mem8 N (fun _ => n1 N)) /\ disc (@ex63 N) = false /\
  (exists c, bound 2 3 (any N) (any N) (@ex63 N) (mem8 N (fun _ => n1 N)) = Ok c) /\
  Forall (op_ok (N := N) (size (shape_of (@ex63 N)))) [OpEval; OpDiff [n1 N]; OpUser (fun m => m); OpDiff [n1 N]].
Proof.
  split; [cbv; repeat split; discriminate|]. split; [reflexivity|]. split; [reflexivity|]. split.
  - split; cbn; intros o Ho; [|tauto].
    repeat (destruct Ho as [<-|Ho]; [split; discriminate|]). destruct Ho.
  - split; [reflexivity|]. split; [eexists; vm_compute; reflexivity|].
    repeat constructor. intros m b o H. exact H.
Qed.
(** The discipline of the gradient theorems (C01, C11) implies [noself]. *)
Theorem C63_disciplined (N : num) (u : expr N unit) : disc u = true -> noself u = true.
Proof. exact (disc_noself u). Qed.
Print Assumptions C63_disciplined.

(** ** C63, refuted otherwise: `w = sum{w, x}` is x, `w = prod{w, x}` is x, the old
    value of w is lost, and `w = transpose(w)` fails Eigen's aliasing check; the
    first two are well-formed and defined, with values w + x and w x. *)
Theorem C63_refuted (la : linalg xr) (rho : nat -> R) (w := rho 0%nat) (x := rho 1%nat)
    (m := mem8 (XR la) (fun i => Fin (rho i))) :
  (wfs (u63s (XR la)) = true /\ dom D0 true false (u63s (XR la) : X) rho /\ val D0 (u63s (XR la) : X) rho = [w + x] /\
   exists e m1, bind_eval_ip (XR la) (u63s (XR la)) m = Ok (e, m1, [Fin x])) /\
  (wfs (u63p (XR la)) = true /\ dom D0 true false (u63p (XR la) : X) rho /\ val D0 (u63p (XR la) : X) rho = [w * x] /\
   exists e m1, bind_eval_ip (XR la) (u63p (XR la)) m = Ok (e, m1, [Fin x])) /\
  wfs (u63t (XR la)) = true /\ bind_eval_ip (XR la) (u63t (XR la)) m = Err UBshape.
Proof. exact (w63 la rho). Qed.
Print Assumptions C63_refuted.
(** In every arithmetic. *)
Theorem C63_refuted_any (N : num) (f : nat -> N) :
  (exists e m, bind_eval_ip N (u63s N) (mem8 N f) = Ok (e, m, [nadd N (nadd N (n0 N) (n0 N)) (f 1%nat)])) /\
  (exists e m, bind_eval_ip N (u63p N) (mem8 N f) = Ok (e, m, [nmul N (nmul N (n1 N) (n1 N)) (f 1%nat)])) /\
  bind_eval_ip N (u63t N) (mem8 N f) = Err UBshape.
Proof. exact (run63 N f). Qed.
Print Assumptions C63_refuted_any.
Example C63_refuted_nonvacuous : noself (u63s toy) = false /\ noself (u63p toy) = false /\ noself (u63t toy) = false.
Proof. repeat split; reflexivity. Qed.
