(** * BlakeZissermanLoss (yac/lib/calib_loss.cpp 40-58), in exact real arithmetic *)
From Coq Require Import Reals.
Local Open Scope R_scope.

(** std::numeric_limits<double>::min() *)
Definition dbl_min : R := / 2 ^ 1022.
(** constructor, lines 40-45; [q] is the boost quantile of the chi squared distribution with the
    given degrees of freedom at the given probability (boost is not modelled: any real) *)
Definition bz_eps (q w_q : R) : R := ((1 - w_q) / w_q) * exp (- q).
(** Evaluate, lines 47-58 *)
Definition bz_x (eps s : R) : R := eps * exp s + 1.
Definition bz_evaluate (eps s : R) : R * R * R :=
  let x := bz_x eps s in
  let x2 := x * x in
  let x3 := x2 * x in
  let rho0 := - ln (eps + exp (- s)) in
  let rho1 := 1 / x in
  let rho2 := (x - x2) / x3 in
  (rho0, Rmax dbl_min rho1, Rmax dbl_min rho2).
Definition rho0 (eps s : R) : R := fst (fst (bz_evaluate eps s)).
Definition rho1 (eps s : R) : R := snd (fst (bz_evaluate eps s)).
Definition rho2 (eps s : R) : R := snd (bz_evaluate eps s).
