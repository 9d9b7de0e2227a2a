(** * Schur complement and the marginalisation prior
    (yac/lib/util/core.cpp 466-516, yac/lib/calib_residuals.cpp 1995-2126, 2197-2211)
    Matrices over an arbitrary real closed field [F] (the real numbers are one): exact
    arithmetic.  Eigen's SelfAdjointEigenSolver is not modelled but specified by [eig_of]: the
    functions take the eigenvectors and eigenvalues it returned. *)
From mathcomp Require Import all_ssreflect all_algebra.
Set Implicit Arguments.
Unset Strict Implicit.
Unset Printing Implicit Defensive.
Import GRing.Theory Num.Theory.
Local Open Scope ring_scope.

Section Model.
Variable F : rcfType.

(** Contract of Eigen::SelfAdjointEigenSolver<matx_t> eig(A): orthonormal eigenvectors [V] and
    eigenvalues [l] of the symmetric matrix given by the lower triangle of [A] (Eigen reads no
    other entry). *)
Definition lower_sym n (A : 'M[F]_n) : 'M[F]_n := \matrix_(i, j) (if (j <= i)%N then A i j else A j i).
Definition eig_of n (A V : 'M[F]_n) (l : 'rV[F]_n) : Prop :=
  V^T *m V = 1%:M /\ V *m diag_mx l *m V^T = lower_sym A.

(** core.cpp 493-498, calib_residuals.cpp 2020-2024: (eigvals > eps).select(eigvals.inverse(), 0)
    and V * Lambda_inv * V^T *)
Definition select_inv n (eps : F) (l : 'rV[F]_n) : 'rV[F]_n := \row_i (if eps < l 0 i then (l 0 i)^-1 else 0).
Definition pinv n (eps : F) (V : 'M[F]_n) (l : 'rV[F]_n) : 'M[F]_n := V *m diag_mx (select_inv eps l) *m V^T.
Definition eps8 : F := (10%:R ^+ 8)^-1.

(** Hmm of core.cpp 478-481 / calib_residuals.cpp 2017-2018 *)
Definition Hmm m r (precond : bool) (H : 'M[F]_(m + r)) : 'M[F]_m :=
  let A := ulsubmx H in if precond then 2%:R^-1 *: (A + A^T) else A.
(** core.cpp 505-512, calib_residuals.cpp 2043-2049 *)
Definition schur_H m r (H : 'M[F]_(m + r)) (Hmm_inv : 'M[F]_m) : 'M[F]_r :=
  drsubmx H - dlsubmx H *m Hmm_inv *m ursubmx H.
Definition schur_b m r (H : 'M[F]_(m + r)) (b : 'cV[F]_(m + r)) (Hmm_inv : 'M[F]_m) : 'cV[F]_r :=
  dsubmx b - dlsubmx H *m Hmm_inv *m usubmx b.
(** Eigen's sum() *)
Definition sum_all n (A : 'M[F]_n) : F := \sum_i \sum_j A i j.

(** schurs_complement, core.cpp 466-516: [None] is the return value -1 (H and b unchanged),
    [Some] the new (H, b).  [V], [l] come from the eigen-solver applied to Hmm. *)
Definition schurs_complement m r (precond : bool) (V : 'M[F]_m) (l : 'rV[F]_m)
    (H : 'M[F]_(m + r)) (b : 'cV[F]_(m + r)) : option ('M[F]_r * 'cV[F]_r) :=
  let inv := pinv eps8 V l in
  let inv_check := sum_all (Hmm precond H *m inv - 1%:M) in
  if (10%:R ^+ 4)^-1 < `|inv_check| then None
  else Some (schur_H H inv, schur_b H b inv).

(** marg_residual_t::schurs_complement, calib_residuals.cpp 1995-2050 (symmetrises always and
    returns the result whatever the check says, which only prints when debugging) *)
Definition marg_schur m r (V : 'M[F]_m) (l : 'rV[F]_m) (H : 'M[F]_(m + r)) (b : 'cV[F]_(m + r)) :
    'M[F]_r * 'cV[F]_r :=
  let inv := pinv eps8 V l in (schur_H H inv, schur_b H b inv).

(** eigenvalues().array().maxCoeff() of a non-empty vector *)
Definition max_coeff n (l : 'rV[F]_n.+1) : F := \big[Num.max/l 0 ord0]_i l 0 i.
(** std::numeric_limits<double>::epsilon() *)
Definition dbl_epsilon : F := (2%:R ^+ 52)^-1.
(** marg_residual_t::marginalize, calib_residuals.cpp 2082-2105: J0_ and r0_ from H_marg, b_marg;
    [V], [l] come from the eigen-solver applied to H_marg *)
Definition marg_tol n (l : 'rV[F]_n.+1) : F := dbl_epsilon * n.+1%:R * max_coeff l.
Definition marg_J0 n (V : 'M[F]_n.+1) (l : 'rV[F]_n.+1) : 'M[F]_n.+1 :=
  diag_mx (\row_i Num.sqrt (if marg_tol l < l 0 i then l 0 i else 0)) *m V^T.
Definition marg_r0 n (V : 'M[F]_n.+1) (l : 'rV[F]_n.+1) (b_marg : 'cV[F]_n.+1) : 'cV[F]_n.+1 :=
  - (diag_mx (\row_i Num.sqrt (if marg_tol l < l 0 i then (l 0 i)^-1 else 0)) *m V^T) *m b_marg.
(** the residual of EvaluateWithMinimalJacobians, calib_residuals.cpp 2207-2209, for the stacked
    parameter change Delta_Chi *)
Definition marg_eval n (J0 : 'M[F]_n) (r0 dchi : 'cV[F]_n) : 'cV[F]_n := r0 + J0 *m dchi.

(** form_hessian, calib_residuals.cpp 1935-1993, for one residual vector [e] with Jacobian
    [J] with respect to (marginalised, remaining) variables: H = J^T J, b = - J^T e (the block
    by block accumulation is in MargHessModel.v) *)
Definition gn_H k n (J : 'M[F]_(k, n)) : 'M[F]_n := J^T *m J.
Definition gn_b k n (J : 'M[F]_(k, n)) (e : 'cV[F]_k) : 'cV[F]_n := - (J^T *m e).
End Model.
