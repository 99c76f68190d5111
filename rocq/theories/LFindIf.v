(** if_else below log-densities and below sum. *)
From Verif Require Import Base Num Expr Node Stat Machine Wf LBase LKind Session LUser LFind.
Section FindIf.
Variable N : num.
Notation U := (expr N unit).
(** if_else(c, v, w) over two variables of one shape *)
Definition vif (sh : shape) (c : N) (a b : nat) : U := EIf tt (ECst scl [c]) (EVar sh a) (EVar sh b).
Definition sta3 (d : stat) (x y z : U) : U := EComp (KStat d) tt [x; y; z].
Definition sum_if (c : N) : U := EComp KSumE tt [vif (Sh Vec 1 1) c 0 1].
Ltac br := lazy -[ntrue nleb nltb neqb];
  repeat (match goal with
          | |- context [nleb N ?a ?b] => destruct (nleb N a b)
          | |- context [nltb N ?a ?b] => destruct (nltb N a b)
          | |- context [neqb N ?a ?b] => destruct (neqb N a b)
          end; lazy -[ntrue nleb nltb neqb]).
Lemma scale_if d c f : In d [NormSSS; CauSSS; UniSSS] ->
  bind_eval N (sta3 d (EVar scl 0) (EVar scl 1) (vif scl c 2 3)) (mem8 N f) = Err UBnull.
Proof. intros [<-|[<-|[<-|[]]]]; lazy -[ntrue]; destruct (ntrue N c); reflexivity. Qed.
Lemma uni_if c f : bind_eval N (sta3 UniSSS (vif scl c 2 3) (EVar scl 0) (EVar scl 1)) (mem8 N f) = Err UBnull.
Proof. lazy -[ntrue]; destruct (ntrue N c); reflexivity. Qed.
Lemma ber_if c f : bind_eval N (EComp (KStat BerSS) tt [EVar scl 0; vif scl c 2 3]) (mem8 N f) = Err UBnull.
Proof. lazy -[ntrue]; destruct (ntrue N c); reflexivity. Qed.
Lemma first_if d c f : In d [NormSSS; CauSSS] ->
  exists r, bind_eval N (sta3 d (vif scl c 2 3) (EVar scl 0) (EVar scl 1)) (mem8 N f) = Ok r.
Proof. intros [<-|[<-|[]]]; lazy -[ntrue nleb nltb neqb]; destruct (ntrue N c); br; eexists; reflexivity. Qed.
Lemma sum_if_ok c f s : exists r, bind_diff N (sum_if c) (mem8 N f) [s] = Ok r.
Proof. lazy -[ntrue]; destruct (ntrue N c); lazy -[ntrue]; try destruct (ntrue N c); eexists; reflexivity. Qed.
End FindIf.
