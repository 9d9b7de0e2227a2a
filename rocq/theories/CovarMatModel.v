(** * Covariance of the estimates: the matrix algebra (yac/lib/solver.cpp 633-683, yac/lib/calib_camera.cpp 2557-2588)
    Exact real numbers. Eigen's eigen-solver is specified by its contract [eig_of] (MargModel.v): the functions take the
    eigenvectors and eigenvalues it returned; Eigen's SVD likewise. *)
From Coq Require Import Reals ZArith.
From Verif Require Import Base SolverLsqModel MargHessModel CovarModel.
From mathcomp Require Import all_ssreflect all_algebra.
From Verif Require Import RealInst MargModel.
Set Implicit Arguments.
Unset Strict Implicit.
Unset Printing Implicit Defensive.
Import GRing.Theory Num.Theory.
Local Open Scope ring_scope.

(** the dense matrix the loops filled *)
Definition mx n (H : Z -> Z -> R) : 'M[R]_n := \matrix_(i, j) H (Z.of_nat i) (Z.of_nat j).

(** solver_t::estimate_covariance, solver.cpp 633-683. [None]: the return value -1. The inverse of a singular matrix
    has entries that are not finite; the function then reports -1 if its determinant is NaN (678-681), and this is
    [None] here too. *)
Definition covariance m r (V : 'M[R]_m) (l : 'rV[R]_m) (H : 'M[R]_(m + r)) : option 'M[R]_r :=
  let inv := pinv (eps8 _) V l in
  let inv_check := sum_all (Hmm true H *m inv - 1%:M) in
  if (10%:R ^+ 4)^-1 < `|inv_check| then None
  else let H_marg := schur_H H inv in if H_marg \in unitmx then Some (invmx H_marg) else None.
(** the whole function on the residuals [rs] that could be evaluated; [eig]: the eigen-solver *)
Definition estimate_covariance (info : Z -> pinfo) (params : list Z) (rs : list resid) (eig : forall n, 'M[R]_n -> 'M[R]_n * 'rV[R]_n) :
    option 'M[R]_(Z.to_nat (cov_r info params)) :=
  let m := Z.to_nat (cov_m info params (blocks_of rs)) in
  let H := mx (m + Z.to_nat (cov_r info params)) (cov_hessian info params rs) in
  let vl := eig m (Hmm true H) in covariance vl.1 vl.2 H.

(** nbv_evaluator_t::estimate_log_det_covar, calib_camera.cpp 2557-2588: the parameters that remain come first. [svd]: the
    singular values; log(0) is -infinity, the result is then infinite ([None]). *)
Definition nbv_marginal m r (V : 'M[R]_m) (l : 'rV[R]_m) (H : 'M[R]_(r + m)) : 'M[R]_r :=
  ulsubmx H - ursubmx H *m pinv (eps8 _) V l *m dlsubmx H.
Definition nbv_Hmm m r (H : 'M[R]_(r + m)) : 'M[R]_m := 2%:R^-1 *: ((drsubmx H)^T + drsubmx H).
Definition log_sum n (s : 'rV[R]_n) : option R :=
  if [forall i, s 0 i != 0] then Some (- (\sum_i ln (s 0 i)) / ln 2) else None.
Definition nbv_info m r (V : 'M[R]_m) (l : 'rV[R]_m) (svd : forall n, 'M[R]_n -> 'rV[R]_n) (H : 'M[R]_(r + m)) : option R :=
  log_sum (svd _ (nbv_marginal V l H)).
(** nbv_evaluator_t::eval, calib_camera.cpp 2590-2703, from the residuals of the simulated view [news] on. [nbv_size] is
    at least the number of remaining columns. *)
Definition nbv_eval (info : Z -> pinfo) (cams exts : list Z) (nviews : Z) (rs news : list resid)
    (eig : forall n, 'M[R]_n -> 'M[R]_n * 'rV[R]_n) (svd : forall n, 'M[R]_n -> 'rV[R]_n) : outcome (option R) :=
  let r := Z.to_nat (nbv_remain info cams exts) in
  let m := Z.to_nat (nviews * 6 + 6) in
  Base.obind (nbv_hessian info rs news) (fun H =>
  let M := mx (r + m) H in
  let vl := eig m (nbv_Hmm M) in Ret (nbv_info vl.1 vl.2 svd M)).
