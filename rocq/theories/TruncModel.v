(** * The truncated QR / SVD solver (yac/lib/suitesparse.cpp, yac/lib/suitesparse.hpp, yac/lib/solver.cpp 687-720)
    Exact real numbers. A matrix of [j + k] columns is split at column [j]: the left part is eliminated by a QR factorisation, the
    right part is solved by an SVD. SuiteSparseQR and Eigen::JacobiSVD are not modelled but specified by contracts ([qr_of],
    [svd3_of], Prop_Trunc.v): [qr] gives the first [j] columns of Q and R with the column permutation undone, [svd] gives U, the
    singular values and V. CHECK (a failed one aborts) is modelled where it can fail. *)
From Coq Require Import Reals.
From Verif Require Import Base.
From mathcomp Require Import all_ssreflect all_algebra.
From Verif Require Import RealInst.
Set Implicit Arguments.
Unset Strict Implicit.
Unset Printing Implicit Defensive.
Import GRing.Theory Num.Theory Order.Theory.
Local Open Scope ring_scope.

(** trucated_solver_options_t, suitesparse.hpp 74-82: columnScaling, epsNorm, epsSVD, svdTol ([None]: -1.0) *)
Record options := mkOptions { o_scaling : bool; o_eps_norm : R; o_eps_svd : R; o_svd_tol : option R }.

(** colNorm, suitesparse.cpp 42-59 *)
Definition col_norm m n (A : 'M[R]_(m, n)) (c : 'I_n) : R := R_sqrt.sqrt (\sum_r A r c * A r c).
(** columnScalingMatrix, 129-152 *)
Definition scaling m n (eps : R) (A : 'M[R]_(m, n)) : 'rV[R]_n :=
  \row_c (if col_norm A c < R_sqrt.sqrt (m%:R * eps) then 0 else (col_norm A c)^-1).
(** G_l, G_r: no scaling is scaling by one *)
Definition scale_of (o : options) m n (A : 'M[R]_(m, n)) : 'rV[R]_n := if o_scaling o then scaling (o_eps_norm o) A else const_mx 1.
(** estimateNumericalRank, 61-74 *)
Definition num_rank (sv : seq R) (tol : R) : nat := let small := find (fun s => tol < s) (rev sv) in (size sv - small)%N.
(** rankTol, 76-78 *)
Definition rank_tol (sv : seq R) (eps : R) : R := head 0 sv * eps * (size sv)%:R.
Definition sv_list n (s : 'rV[R]_n) : seq R := [seq s 0 i | i <- enum 'I_n].
(** _analyze_svd, 650-671: the rank *)
Definition svd_rank (o : options) n (s : 'rV[R]_n) : nat :=
  num_rank (sv_list s) (match o_svd_tol o with Some t => t | None => rank_tol (sv_list s) (o_eps_svd o) end).
(** solveSVD, 297-312 *)
Definition solve_svd n (U : 'M[R]_n) (s : 'rV[R]_n) (V : 'M[R]_n) (rank : nat) (b : 'cV[R]_n) : 'cV[R]_n :=
  V *m diag_mx (\row_i (if (i < rank)%N then (s 0 i)^-1 else 0)) *m U^T *m b.

(** the stored entries of a sparse matrix (those of [A] that are not zero; scaling does not remove one) *)
Definition pattern m n (A : 'M[R]_(m, n)) : seq (nat * nat) :=
  [seq (nat_of_ord x.1, nat_of_ord x.2) | x <- enum [finType of 'I_m * 'I_n] & A x.1 x.2 != 0].
(** factor_->QRsym: rows, columns and pattern of the matrix it was made for *)
Definition symbolic := option (nat * nat * seq (nat * nat)).

Section Solver.
Context (o : options) (qr : forall m n, 'M[R]_(m, n) -> 'M[R]_(m, n) * 'M[R]_n) (svd : forall n, 'M[R]_n -> 'M[R]_n * 'rV[R]_n * 'M[R]_n).
Variables (m j k : nat).

(** the symbolic factorisation used for [A_l], 528-546: kept if the sizes and the number of entries agree *)
Definition use_symbolic (c : symbolic) (A_l : 'M[R]_(m, j)) : nat * nat * seq (nat * nat) :=
  match c with
  | Some (m', n', p) => if (m' == m) && (n' == j) && (size p == size (pattern A_l)) then (m', n', p) else (m, j, pattern A_l)
  | None => (m, j, pattern A_l)
  end.
(** reduceLeftHandSide, 184-230; [A_l], [A_r] are scaled. Without a left part Omega = A_r^T A_r. *)
Definition reduce_left (Q1 : 'M[R]_(m, j)) (A_r : 'M[R]_(m, k)) : 'M[R]_k :=
  if j == 0%N then A_r^T *m A_r else A_r^T *m A_r - (A_r^T *m Q1) *m (A_r^T *m Q1)^T.
(** reduceRightHandSide, 232-295 *)
Definition reduce_right (Q1 : 'M[R]_(m, j)) (A_r : 'M[R]_(m, k)) (b : 'cV[R]_m) : 'cV[R]_k :=
  if j == 0%N then A_r^T *m b else A_r^T *m b - (A_r^T *m Q1) *m (Q1^T *m b).
(** solveQR, 314-367 *)
Definition solve_qr (Q1 : 'M[R]_(m, j)) (Rr : 'M[R]_j) (A_r : 'M[R]_(m, k)) (x_r : 'cV[R]_k) (b : 'cV[R]_m) : 'cV[R]_j :=
  invmx Rr *m (Q1^T *m (b - A_r *m x_r)).

(** truncated_solver_t::solve, 509-632: the step, the singular values, the rank and the symbolic factorisation kept.
    SuiteSparseQR_numeric needs a matrix with the pattern the symbolic factorisation was made for: [Undef] otherwise. The
    CHECK in columnSubmatrix (107) fails if the left part has more columns than rows and there is a right part. *)
Definition solve (c : symbolic) (A : 'M[R]_(m, j + k)) (b : 'cV[R]_m) : outcome ('cV[R]_(j + k) * 'rV[R]_k * nat * symbolic) :=
  let A_l := lsubmx A in
  let A_r := rsubmx A in
  let G_l := scale_of o A_l in
  let G_r := scale_of o A_r in
  let sym := use_symbolic c A_l in
  if (0 < j)%N && (sym.2 != pattern A_l) then Undef
  else if (0 < k)%N && (m < j)%N then Throw Fatal
  else
    let qr := qr (A_l *m diag_mx G_l) in
    let A_rs := A_r *m diag_mx G_r in
    let '(U, s, V) := svd (reduce_left qr.1 A_rs) in
    let rank := svd_rank o s in
    let x_r := solve_svd U s V rank (reduce_right qr.1 A_rs b) in
    let x_l := solve_qr qr.1 qr.2 A_rs x_r b in
    Ret (col_mx (diag_mx G_l *m x_l) (diag_mx G_r *m x_r), s, rank, if (0 < j)%N then Some sym else None).

(** analyze_marginal, 673-727: no scaling, and the symbolic factorisation is always made anew *)
Definition analyze_marginal (A : 'M[R]_(m, j + k)) : outcome ('rV[R]_k * nat) :=
  if (0 < k)%N && (m < j)%N then Throw Fatal
  else
    let '(_, s, _) := svd (reduce_left (qr (lsubmx A)).1 (rsubmx A)) in
    Ret (s, svd_rank o s).
(** solver_t::estimate_log_det_covar, solver.cpp 687-720, on the Jacobian [J] with the calibration parameters in the columns from
    [j] = marg_idx on; [params] is not used *)
Definition estimate_log_det_covar {P} (params : P) (J : 'M[R]_(m, j + k)) : outcome R :=
  Base.omap (fun sr : 'rV[R]_k * nat => - \sum_(i < k | (i < sr.2)%N) ln (sr.1 0 i)) (analyze_marginal J).
End Solver.

(** ** cholmod_convert, 371-391, 426-468: a dense matrix of [nr] rows and [nc] columns to compressed columns and back
    ([stype] 0). cholmod_l_allocate_sparse sets all column pointers to 0. *)
Record sparse := mkSparse { sp_p : seq nat; sp_i : seq nat; sp_x : seq R }.
Definition column_entries (eps : R) (nr : nat) (A : nat -> nat -> R) (c : nat) : seq (nat * R) :=
  [seq (r, A r c) | r <- iota 0 nr & eps < `|A r c|].
Definition to_sparse (eps : R) (nr nc : nat) (A : nat -> nat -> R) : sparse :=
  let step st c := let es := column_entries eps nr A c in
    let '(p, i, x) := st in (rcons p (size (i ++ map fst es)), i ++ map fst es, x ++ map snd es) in
  let '(p, i, x) := foldl step ([:: 0%N], [::], [::]) (iota 0 nc) in mkSparse p i x.
(** out(row, col) = value *)
Definition put (f : nat -> nat -> R) (r c : nat) (x : R) : nat -> nat -> R := fun r' c' => if (r' == r) && (c' == c) then x else f r' c'.
Definition to_dense (nc : nat) (S : sparse) : nat -> nat -> R :=
  foldl (fun f c => foldl (fun f v => put f (nth 0%N (sp_i S) v) c (nth 0 (sp_x S) v)) f
                      (iota (nth 0%N (sp_p S) c) (nth 0%N (sp_p S) c.+1 - nth 0%N (sp_p S) c))) (fun _ _ => 0) (iota 0 nc).
