(** Clients that differentiate one bound expression in a loop over data: the
    regression and neural-network programs of README.md:613-756 and
    example/ceres_3layer_neural_net/src.cpp, and the option prices of
    example/black_scholes.cpp. *)
From Coq Require Import Reals.
From Coquelicot Require Import Coquelicot.
From Verif Require Import Base Num Expr Node Stat Machine Wf Session Tape XR Spec RSess Grad.
Open Scope R_scope.

Section Train.
Variable la : linalg xr.
Notation N := (XR la).
Notation E := (expr N (ann N)).
Notation U := (expr N unit).

(** [x_row_buffer = X.row(i); y_row_buffer = y.row(i);] (README.md:652-653,
    src.cpp:49-50): new contents [D] of the buffers that the constant views of
    [u] read. *)
Definition load (u : U) (D : nat -> R) (m : mem N) : mem N := fun b o =>
  if (b =? 4)%nat && existsb (Nat.eqb o) (drefs u)
  then match m b o with None => None | Some _ => Some (Fin (D o)) end
  else m b o.
(** The loop README.md:651-657, src.cpp:48-55: one autodiff per row, the values
    returned collected.  [rst]: the client zeroes the adjoints of the
    placeholders before every autodiff (README.md:369-372; no effect if there are
    no placeholders). *)
Fixpoint epoch (rst : bool) (u : U) (seed : list R) (rows : list (nat -> R)) (e : E) (m : mem N) : res (E * mem N * list (list N)) :=
  match rows with
  | [] => Ok (e, m, [])
  | D :: l =>
      '(e1, m1, v) <- autodiff e (map Fin seed) (if rst then reset la u (load u D m) else load u D m) ;;
      '(e2, m2, vs) <- epoch rst u seed l e1 m1 ;;
      Ok (e2, m2, v :: vs)
  end.
End Train.

(** The summed loss as a function of one variable. *)
Definition total {A} (u : expr xr A) (seed : list R) (rows : list (nat -> R)) (rho : nat -> R) (o : nat) (t : R) : R :=
  sumr (map (fun D => dotp seed (el (val D u (set1 rho o t)))) rows).

(** ** Linear regression, README.md:613-668, for any number [n] of columns *)
Notation P1 := (expr xr unit).
(** [pow<2>(yi - dot(xi, theta))], README.md:639-643; theta is cells 0..n-1, xi the
    buffer cells 0..n-1, yi the buffer cell n. *)
Definition lin_u (n : nat) : P1 :=
  EComp (KPow 2) tt [EComp (KBin BSub) tt [ECvw (Sh Mat 1 1) n;
    EComp KDot tt [ECvw (Sh Mat 1 n) 0; EVar (Sh Mat n 1) 0]]].
(** Buffer contents for one row. *)
Definition row (n : nat) (d : (nat -> R) * R) : nat -> R := fun o => if (o <? n)%nat then fst d o else snd d.
(** Residual of a row. *)
Definition resid (n : nat) (theta : nat -> R) (d : (nat -> R) * R) : R := snd d - sumn n (fun j => fst d j * theta j).

(** ** The neural network of README.md:670-756 and src.cpp; parameters are laid
    out as in the programs (A1 at 0, b1 at 6, A2 at 9, b2 at 18, A3 at 21, b3 at 24). *)
Definition nn_x1 : P1 := EComp (KBin BAdd) tt [EComp KDot tt [EVar (Sh Mat 3 2) 0; ECvw (Sh Mat 2 1) 0]; EVar (Sh Mat 3 1) 6].
Definition nn_y1 (x1 : P1) : P1 := EComp (KUn USigmoid) tt [x1].
Definition nn_y2 (x1 y1 : P1) : P1 :=
  EComp (KBin BAdd) tt [EComp (KUn USigmoid) tt [EComp (KBin BAdd) tt [EComp KDot tt [EVar (Sh Mat 3 3) 9; y1]; EVar (Sh Mat 3 1) 18]]; x1].
Definition nn_y3 (y2 : P1) : P1 := EComp (KBin BAdd) tt [EComp KDot tt [EVar (Sh Mat 1 3) 21; y2]; EVar (Sh Mat 1 1) 24].
Definition nn_res (y3 : P1) : P1 := EComp (KPow 2) tt [EComp (KBin BSub) tt [ECvw (Sh Mat 1 1) 2; y3]].
(** README.md:707-712: one expression, x1 occurring twice. *)
Definition nn_u : P1 := nn_res (nn_y3 (nn_y2 nn_x1 (nn_y1 nn_x1))).
(** src.cpp:29-40: the same with placeholders x1, y1, y2, y3, residual_norm2. *)
Definition nn_ph : P1 :=
  let x1 := EVar (Sh Mat 3 1) 25 in let y1 := EVar (Sh Mat 3 1) 28 in
  let y2 := EVar (Sh Mat 3 1) 31 in let y3 := EVar (Sh Mat 1 1) 34 in
  EGlue tt (EGlue tt (EGlue tt (EGlue tt
    (EEq tt (Sh Mat 3 1) 25 nn_x1)
    (EEq tt (Sh Mat 3 1) 28 (nn_y1 x1)))
    (EEq tt (Sh Mat 3 1) 31 (nn_y2 x1 y1)))
    (EEq tt (Sh Mat 1 1) 34 (nn_y3 y2)))
    (EEq tt (Sh Mat 1 1) 35 (nn_res y3)).
(** Its meaning: y2 = s(A2 s(A1 x + b1) + b2) + (A1 x + b1), output A3 y2 + b3. *)
Definition logistic (x : R) : R := 1 / (1 + exp (- x)).
Definition nn_hid (p x : nat -> R) (i : nat) : R := sumn 2 (fun j => p (j * 3 + i)%nat * x j) + p (6 + i)%nat.
Definition nn_out (p x : nat -> R) : R :=
  sumn 3 (fun k => p (21 + k)%nat *
    (logistic (sumn 3 (fun j => p (9 + (j * 3 + k))%nat * logistic (nn_hid p x j)) + p (18 + k)%nat) + nn_hid p x k)) + p 24%nat.
(** Loss of a row. *)
Definition nn_loss (p : nat -> R) (d : (nat -> R) * R) : R := (snd d - nn_out p (fst d)) ^ 2.

(** ** Option prices, example/black_scholes.cpp *)
Definition cst (x : R) : P1 := ECst scl [Fin x].
(** black_scholes.cpp:9-13 *)
Definition bs_Phi (x : P1) : P1 :=
  EComp (KBin BMul) tt [cst 0.5; EComp (KBin BAdd) tt [EComp (KUn UErf) tt [EComp (KBin BDiv) tt [x; cst (sqrt 2)]]; cst 1]].
(** black_scholes.cpp:15-39; S is cell 0, cache[i] cell 1 + i. *)
Definition bs_common (K sigma tau r : R) : P1 :=
  EGlue tt (EGlue tt
    (EEq tt scl 1 (EComp (KUn ULog) tt [EComp (KBin BDiv) tt [EVar scl 0; cst K]]))
    (EEq tt scl 2 (EComp (KBin BDiv) tt [EComp (KBin BAdd) tt [EVar scl 1; cst ((r + sigma * sigma / 2) * tau)]; cst (sigma * sqrt tau)])))
    (EEq tt scl 3 (EComp (KBin BSub) tt [EVar scl 2; cst (sigma * sqrt tau)])).
Definition bs_call (K sigma tau r : R) : P1 :=
  EGlue tt (bs_common K sigma tau r)
    (EComp (KBin BSub) tt [EComp (KBin BMul) tt [bs_Phi (EVar scl 2); EVar scl 0];
                           EComp (KBin BMul) tt [bs_Phi (EVar scl 3); cst (K * exp (- r * tau))]]).
Definition bs_put (K sigma tau r : R) : P1 :=
  EGlue tt (bs_common K sigma tau r)
    (EComp (KBin BSub) tt [EComp (KBin BMul) tt [bs_Phi (EComp (KUn UNeg) tt [EVar scl 3]); cst (K * exp (- r * tau))];
                           EComp (KBin BMul) tt [bs_Phi (EComp (KUn UNeg) tt [EVar scl 2]); EVar scl 0]]).
(** The textbook formulas; [Phi] is the standard normal distribution function. *)
Definition Phi (x : R) : R := 1 / 2 + RInt (fun t => exp (- (t * t) / 2) / sqrt (2 * PI)) 0 x.
Section BS.
Variables K sigma tau r s : R.
Definition d1 : R := (ln (s / K) + (r + sigma ^ 2 / 2) * tau) / (sigma * sqrt tau).
Definition d2 : R := d1 - sigma * sqrt tau.
Definition call_price : R := s * Phi d1 - K * exp (- r * tau) * Phi d2.
Definition put_price : R := K * exp (- r * tau) * Phi (- d2) - s * Phi (- d1).
End BS.
(** [S.reset_adj(); for (auto& c : cache) c.reset_adj();] black_scholes.cpp:60-61 *)
Definition zero_adj {la : linalg xr} (l : list nat) (m : mem (XR la)) : mem (XR la) := fun b o =>
  if (b =? 1)%nat && existsb (Nat.eqb o) l then match m b o with None => None | Some _ => Some (Fin 0) end else m b o.
