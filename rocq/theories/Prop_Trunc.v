(** * C109: the truncated QR / SVD solver and the information of a calibration *)
From Coq Require Import Reals ZArith Lia Lra Permutation ClassicalEpsilon.
From Verif Require Import Base SolverLsqModel SolverLsqProofs MargHessModel CovarModel CovarSpec CovarProofs CovarProofs2.
From mathcomp Require Import all_ssreflect all_algebra.
From Verif Require Import RealInst MargModel Prop_Marg CovarMatModel Prop_Covar Prop_Covar4 TruncModel.
Set Implicit Arguments.
Unset Strict Implicit.
Unset Printing Implicit Defensive.
Import Order.TTheory GRing.Theory Num.Theory.
Local Open Scope ring_scope.
Delimit Scope Z_scope with ZZ.

(** ** Specification *)
(** Contract of SuiteSparseQR (column permutation undone) on matrices with no more columns than rows *)
Definition qr_factors m n (A : 'M[R]_(m, n)) (f : 'M[R]_(m, n) * 'M[R]_n) : Prop := (f.1)^T *m f.1 = 1%:M /\ f.1 *m f.2 = A.
(** Contract of Eigen::JacobiSVD: orthogonal factors, non-negative singular values in decreasing order *)
Definition svd_factors n (A : 'M[R]_n) (f : 'M[R]_n * 'rV[R]_n * 'M[R]_n) : Prop :=
  [/\ (f.1.1)^T *m f.1.1 = 1%:M, (f.2)^T *m f.2 = 1%:M, A = f.1.1 *m diag_mx f.1.2 *m (f.2)^T, forall i, 0 <= f.1.2 0 i
    & forall i i' : 'I_n, (i <= i')%N -> f.1.2 0 i' <= f.1.2 0 i].
Definition contracts m j k (qr : forall m n, 'M[R]_(m, n) -> 'M[R]_(m, n) * 'M[R]_n) (svd : forall n, 'M[R]_n -> 'M[R]_n * 'rV[R]_n * 'M[R]_n) : Prop :=
  ((j <= m)%N -> forall A : 'M[R]_(m, j), qr_factors A (qr m j A)) /\ (forall A : 'M[R]_k, svd_factors A (svd k A)).
(** no column is a combination of the others *)
Definition independent m n (A : 'M[R]_(m, n)) : Prop := forall v : 'cV[R]_n, A *m v = 0 -> v = 0.
Definition sq_len m n (A : 'M[R]_(m, n)) (c : 'I_n) : R := \sum_r A r c ^+ 2.
(** with column scaling, no column is so short that it is dropped, except zero columns *)
Definition scalable (o : options) m n (A : 'M[R]_(m, n)) : Prop :=
  o_scaling o = true -> (0 < m)%N /\ 0 < o_eps_norm o /\ forall c, sq_len A c = 0 \/ m%:R * o_eps_norm o <= sq_len A c.
(** singular values up to [t] are taken for zero: a given tolerance or the largest one times epsSVD times their number *)
Definition cutoff (o : options) n (s : 'rV[R]_n) (t : R) : Prop :=
  match o_svd_tol o with
  | Some t' => t = t'
  | None => exists top, (forall i, s 0 i <= s 0 top) /\ t = s 0 top * o_eps_svd o * n%:R
  end.
Definition tolerances (o : options) : Prop := match o_svd_tol o with Some t => 0 <= t | None => 0 <= o_eps_svd o end.
(** the part of the step solved by SVD is measured in the units of the scaled columns *)
Definition size2 (o : options) m n (A : 'M[R]_(m, n)) (x : 'cV[R]_n) : R :=
  \sum_c (if o_scaling o then sq_len A c else 1) * x c 0 ^+ 2.

(** ** Numerical rank *)
Lemma num_rankP sv tol : sorted (fun a b : R => b <= a) sv -> forall i, (i < size sv)%N -> (i < num_rank sv tol)%N = (tol < nth 0 sv i).
Proof.
move=> so i li; rewrite /num_rank; set f := find _ _.
have tr : transitive (fun a b : R => b <= a) by move=> a b c /= h1 h2; exact: le_trans h2 h1.
have re : reflexive (fun a b : R => b <= a) by move=> a /=.
have mono : forall a b, (a <= b)%N -> (b < size sv)%N -> nth 0 sv b <= nth 0 sv a.
  move=> a b ab bs; apply: (sorted_leq_nth tr re 0 so) => //; exact: leq_ltn_trans bs.
have fs : (f <= size sv)%N by rewrite -(size_rev sv) find_size.
case: (leqP (size sv - f) i) => h.
  symmetry; apply/negbTE.
  have k : (size sv - i.+1 < f)%N.
    by rewrite ltn_subLR // addSn ltnS; move: h; rewrite leq_subLR addnC.
  have := before_find 0 k; rewrite nth_rev; last by rewrite ltn_subLR // addSn ltnS leq_addl.
  by rewrite -subSn // subSS subKn; [move=> ->|exact: ltnW].
have hf : (f < size sv)%N.
  rewrite ltn_neqAle fs andbT; apply/eqP => e; by rewrite e subnn in h.
have hh : has (fun s => tol < s) (rev sv) by rewrite has_find size_rev.
have := nth_find 0 hh; rewrite -/f nth_rev // => p; symmetry; apply: (lt_le_trans p).
by apply: mono; [rewrite subnS -ltnS prednK // subn_gt0|rewrite ltn_subLR // addSn ltnS leq_addl].
Qed.
Lemma size_svl n (s : 'rV[R]_n) : size (sv_list s) = n. Proof. by rewrite size_map size_enum_ord. Qed.
Lemma nth_svl n (s : 'rV[R]_n) (i : 'I_n) : nth 0 (sv_list s) i = s 0 i.
Proof. by rewrite (nth_map i) ?size_enum_ord // nth_ord_enum. Qed.
Section Rank.
Variables (o : options) (n : nat) (s : 'rV[R]_n).
Hypothesis dec : forall i i' : 'I_n, (i <= i')%N -> s 0 i' <= s 0 i.
Lemma svl_sorted : sorted (fun a b : R => b <= a) (sv_list s).
Proof.
have tr : transitive (fun i i' : 'I_n => (i < i')%N) by move=> a b c; exact: ltn_trans.
rewrite /sv_list sorted_map; apply: (@sub_sorted _ (fun i i' : 'I_n => (i < i')%N)).
  move=> i i' /= h; apply: dec; exact: ltnW.
have := iota_ltn_sorted 0 n; by rewrite -val_enum_ord sorted_map.
Qed.
Lemma rankP t : cutoff o s t -> forall i : 'I_n, (i < svd_rank o s)%N = (t < s 0 i).
Proof.
move=> ct i; rewrite /svd_rank num_rankP ?size_svl ?nth_svl //; last exact: svl_sorted.
congr (_ < _); move: ct; rewrite /cutoff; case: (o_svd_tol o) => [t' -> //|[top [mx ->]]].
rewrite /rank_tol size_svl; congr (_ * _ * _).
have p0 : (0 < n)%N by exact: leq_ltn_trans (ltn_ord i).
rewrite -nth0 (nth_svl s (Ordinal p0)); apply/eqP; rewrite eq_le mx /=; exact: dec.
Qed.
Lemma rank_le : (svd_rank o s <= n)%N.
Proof. by rewrite /svd_rank /num_rank size_svl leq_subr. Qed.
Lemma cutoff_ex (i : 'I_n) : exists t, cutoff o s t.
Proof.
rewrite /cutoff; case: (o_svd_tol o) => [t|]; first by exists t.
have p0 : (0 < n)%N by exact: leq_ltn_trans (ltn_ord i).
exists (s 0 (Ordinal p0) * o_eps_svd o * n%:R), (Ordinal p0); split=> // i'; exact: dec.
Qed.
Lemma cutoff_ge0 t : (forall i, 0 <= s 0 i) -> tolerances o -> cutoff o s t -> 0 <= t.
Proof.
rewrite /tolerances /cutoff => h; case: (o_svd_tol o) => [t' + -> //|e [top [_ ->]]].
by rewrite !mulr_ge0 // ler0n.
Qed.
Lemma rank_pos (i : 'I_n) : (forall i, 0 <= s 0 i) -> tolerances o -> (i < svd_rank o s)%N -> 0 < s 0 i.
Proof.
move=> h T; have [t ct] := cutoff_ex i; rewrite (rankP ct); exact: le_lt_trans (cutoff_ge0 h T ct).
Qed.
End Rank.

(** ** Column scaling *)
Lemma sqrt_ge0 (x : R) : 0 <= R_sqrt.sqrt x. Proof. apply/RleP; exact: sqrt_pos. Qed.
Lemma sqrt_lt (x y : R) : 0 <= x -> 0 <= y -> (R_sqrt.sqrt x < R_sqrt.sqrt y) = (x < y).
Proof.
move=> /RleP hx /RleP hy; apply/idP/idP => /RltP h; apply/RltP; first exact: sqrt_lt_0_alt.
by apply: sqrt_lt_1.
Qed.
Lemma sqrt_sq (x : R) : 0 <= x -> R_sqrt.sqrt x ^+ 2 = x.
Proof. by move=> /RleP h; rewrite expr2; exact: sqrt_def. Qed.
Lemma sq_len_ge0 m n (A : 'M[R]_(m, n)) c : 0 <= sq_len A c.
Proof. by apply: sumr_ge0 => r _; exact: sqr_ge0. Qed.
Lemma sq_len0 m n (A : 'M[R]_(m, n)) c : sq_len A c = 0 -> forall r, A r c = 0.
Proof.
move=> /psumr_eq0P K r; have := K (fun i _ => sqr_ge0 _) r isT; by move/eqP; rewrite sqrf_eq0 => /eqP.
Qed.
Lemma col_normE m n (A : 'M[R]_(m, n)) c : TruncModel.col_norm A c = R_sqrt.sqrt (sq_len A c).
Proof. by congr R_sqrt.sqrt; apply: eq_bigr => r _; rewrite expr2. Qed.
Definition weights (o : options) m n (A : 'M[R]_(m, n)) : 'rV[R]_n := if o_scaling o then \row_c TruncModel.col_norm A c else const_mx 1.
Section Scaling.
Variables (o : options) (m n : nat) (A : 'M[R]_(m, n)).
Hypothesis sc : scalable o A.
Lemma scale_weight c : sq_len A c != 0 -> scale_of o A 0 c * weights o A 0 c = 1.
Proof.
rewrite /scale_of /weights; case so: (o_scaling o) => nz; last by rewrite !mxE mulr1.
have [m0 [e0 /(_ c)]] := sc so; case=> [z|ge]; first by rewrite z eqxx in nz.
rewrite !mxE !col_normE sqrt_lt ?sq_len_ge0 ?mulr_ge0 ?ler0n ?(ltW e0) // ltNge ge /= mulVf //.
apply/eqP => z; move: nz; by rewrite -(sqrt_sq (sq_len_ge0 A c)) z expr2 mul0r eqxx.
Qed.
Lemma scaleK : A *m diag_mx (scale_of o A) *m diag_mx (weights o A) = A.
Proof.
apply/matrixP => r c; rewrite -mulmxA mulmx_diag mul_mx_diag !mxE.
case: (altP (sq_len A c =P 0)) => [/sq_len0 -> | nz]; first by rewrite mul0r.
by move/scale_weight: nz => ->; rewrite mulr1.
Qed.
Lemma size2_le z : size2 o A (diag_mx (scale_of o A) *m z) <= sqnorm z.
Proof.
apply: ler_sum => c _; rewrite mul_diag_mx mxE exprMn mulrA.
have -> : (if o_scaling o then sq_len A c else 1) = weights o A 0 c ^+ 2.
  rewrite /weights; case: (o_scaling o); rewrite !mxE ?expr1n // col_normE sqrt_sq //; exact: sq_len_ge0.
rewrite -exprMn (mulrC (weights _ _ _ _)); case: (altP (sq_len A c =P 0)) => [z0|/scale_weight ->]; last by rewrite expr1n mul1r.
case so: (o_scaling o); rewrite /weights so !mxE.
  by rewrite col_normE z0 sqrt_0 mulr0 expr2 mulr0 mul0r sqr_ge0.
by rewrite /scale_of so !mxE mul1r expr1n mul1r.
Qed.
Lemma size2E y : size2 o A y = sqnorm (diag_mx (weights o A) *m y).
Proof.
apply: eq_bigr => c _; rewrite mul_diag_mx mxE exprMn; congr (_ * _).
rewrite /weights; case: (o_scaling o); rewrite !mxE ?expr1n // col_normE sqrt_sq //; exact: sq_len_ge0.
Qed.
Lemma indep_scale : independent A -> independent (A *m diag_mx (scale_of o A)).
Proof.
move=> ind v; rewrite -mulmxA => /ind E; apply/matrixP => c c'; rewrite (ord1 c') mxE.
have := congr1 (fun M : 'cV[R]_n => M c 0) E; rewrite mul_diag_mx !mxE => /eqP; rewrite mulf_eq0 => /orP [] /eqP // g0.
have nz : sq_len A c != 0.
  apply/eqP => /sq_len0 z; have : A *m delta_mx c 0 = 0 :> 'cV[R]_m.
    by rewrite -colE; apply/matrixP => r q; rewrite !mxE z.
  by move/ind/matrixP/(_ c 0); rewrite !mxE !eqxx /= => /eqP; rewrite oner_eq0.
by have := scale_weight nz; rewrite g0 mul0r => /esym /eqP; rewrite oner_eq0.
Qed.
End Scaling.

(** ** Linear algebra *)
Lemma gram0 m n (B : 'M[R]_(m, n)) : B^T *m B = 0 -> B = 0.
Proof.
move=> E; apply/matrixP => r c; rewrite mxE.
have : sqnorm (B *m (delta_mx c 0 : 'cV_n)) = 0 by rewrite -gram_quad E mulmx0 mul0mx mxE.
by move/sqnorm_eq0/matrixP/(_ r 0); rewrite -colE !mxE.
Qed.
Lemma indep_le m n (A : 'M[R]_(m, n)) : independent A -> (n <= m)%N.
Proof.
move=> ind; have /eqP <- : row_free A^T; last by rewrite mxrank_tr; exact: rank_leq_row.
apply: inj_row_free => v E; apply: trmx_inj; rewrite trmx0; apply: ind; by rewrite -[LHS]trmxK trmx_mul trmxK E trmx0.
Qed.
Lemma indep_unit n (A : 'M[R]_n) : independent A -> A \in unitmx.
Proof.
move=> ind; rewrite -unitmx_tr -row_free_unit; apply: inj_row_free => v E; apply: trmx_inj; rewrite trmx0; apply: ind.
by rewrite -[LHS]trmxK trmx_mul trmxK E trmx0.
Qed.
Lemma normal_least m n (A : 'M[R]_(m, n)) (b : 'cV[R]_m) (x y : 'cV[R]_n) : A^T *m (A *m x - b) = 0 ->
  sqnorm (A *m y - b) = sqnorm (A *m x - b) + sqnorm (A *m (y - x)).
Proof.
move=> E; have -> : A *m y - b = (A *m x - b) + A *m (y - x) by rewrite mulmxBr [RHS]addrC addrA subrK.
by rewrite sqnormD dot_mulmx E /dot big1 ?mul0rn ?addr0 // => i _; rewrite mxE mul0r.
Qed.

Section Reduce.
Variables (m j k : nat) (Al : 'M[R]_(m, j)) (Ar : 'M[R]_(m, k)) (b : 'cV[R]_m) (Q1 : 'M[R]_(m, j)) (Rr : 'M[R]_j).
Hypotheses (QQ : Q1^T *m Q1 = 1%:M) (QR : Q1 *m Rr = Al) (ind : independent Al).
Definition proj : 'M[R]_m := 1%:M - Q1 *m Q1^T.
Lemma projT : proj^T = proj. Proof. by rewrite /proj linearB /= trmx1 trmx_mul trmxK. Qed.
Lemma projK : proj *m proj = proj.
Proof.
rewrite {2}/proj mulmxBr mulmx1 /proj mulmxBl mul1mx -!mulmxA (mulmxA Q1^T) QQ mul1mx subrr; by rewrite subr0.
Qed.
Lemma projQ : proj *m Q1 = 0. Proof. by rewrite /proj mulmxBl mul1mx -mulmxA QQ mulmx1 subrr. Qed.
Lemma projA : proj *m Al = 0. Proof. by rewrite -QR mulmxA projQ mul0mx. Qed.
Lemma Rr_unit : Rr \in unitmx.
Proof. by apply: indep_unit => v E; apply: ind; rewrite -QR -mulmxA E mulmx0. Qed.
Lemma reduce_leftE : reduce_left Q1 Ar = (proj *m Ar)^T *m (proj *m Ar).
Proof.
have -> : reduce_left Q1 Ar = Ar^T *m Ar - (Ar^T *m Q1) *m (Ar^T *m Q1)^T.
  rewrite /reduce_left; case: eqP => // j0; clear -j0; subst j; by rewrite (thinmx0 Q1) mulmx0 mul0mx subr0.
rewrite [in RHS]trmx_mul projT -(mulmxA Ar^T proj) (mulmxA proj) projK /proj mulmxBl mul1mx mulmxBr; congr (_ - _).
by rewrite trmx_mul trmxK !mulmxA.
Qed.
Lemma reduce_rightE : reduce_right Q1 Ar b = (proj *m Ar)^T *m b.
Proof.
have -> : reduce_right Q1 Ar b = Ar^T *m b - (Ar^T *m Q1) *m (Q1^T *m b).
  rewrite /reduce_right; case: eqP => // j0; clear -j0; subst j; by rewrite (thinmx0 Q1) mulmx0 mul0mx subr0.
rewrite trmx_mul projT -(mulmxA _ proj) /proj mulmxBl mul1mx mulmxBr; by rewrite !mulmxA.
Qed.
Section Svd.
Variables (o : options) (U V : 'M[R]_k) (s : 'rV[R]_k).
Hypotheses (T : tolerances o) (sv : svd_factors (reduce_left Q1 Ar) (U, s, V)).
Hypothesis small : forall i : 'I_k, (svd_rank o s <= i)%N -> s 0 i = 0.
Let B := proj *m Ar.
Let z := solve_svd U s V (svd_rank o s) (reduce_right Q1 Ar b).
Let Sp : 'rV[R]_k := \row_i (if (i < svd_rank o s)%N then (s 0 i)^-1 else 0).
Lemma Sp_s i : s 0 i * Sp 0 i * s 0 i = s 0 i.
Proof.
case: sv => /= _ _ _ p d; rewrite mxE; case: ltnP => h; last by rewrite (small h) mul0r mul0r.
by rewrite mulfV ?mul1r // gt_eqF // (rank_pos d p T h).
Qed.
Lemma Sp_Sp i : Sp 0 i * s 0 i * Sp 0 i = Sp 0 i.
Proof.
case: sv => /= _ _ _ p d; rewrite mxE; case: ltnP => h; last by rewrite mul0r mul0r.
by rewrite mulVf ?mul1r // gt_eqF // (rank_pos d p T h).
Qed.
Lemma omega_z : B^T *m B *m z = B^T *m b.
Proof.
case: sv => /= UU VV SV _ _; have UU' := orthT UU; rewrite reduce_leftE -/B in SV.
set D := 1%:M - diag_mx s *m diag_mx Sp.
have DS : D^T *m diag_mx s = 0.
  rewrite linearB /= trmx1 trmx_mul !tr_diag_mx mulmxBl mul1mx !mulmx_diag; apply/eqP; rewrite subr_eq0; apply/eqP.
  by congr diag_mx; apply/rowP => i; have := Sp_s i; rewrite !mxE => {1}<-; rewrite (mulrC (s 0 i)).
have K : B *m U *m D = 0.
  apply: gram0; have -> : (B *m U *m D)^T *m (B *m U *m D) = D^T *m U^T *m (B^T *m B) *m U *m D.
    by rewrite (trmx_mul _ D) (trmx_mul _ U) !mulmxA.
  by rewrite SV !mulmxA -(mulmxA _ U^T U) UU mulmx1 DS !mul0mx.
have K2 : U *m diag_mx s *m diag_mx Sp *m U^T *m B^T = B^T.
  have : U *m (B *m U *m D)^T = 0 by rewrite K trmx0 mulmx0.
  rewrite (trmx_mul _ D) (trmx_mul _ U) /D linearB /= trmx1 trmx_mul !tr_diag_mx !mulmxBl mul1mx mulmxBr !mulmxA UU' mul1mx.
  move/eqP; rewrite subr_eq0 => /eqP {2}->; do 2 congr (_ *m _); rewrite -!mulmxA; congr (_ *m _).
  by rewrite !mulmx_diag; congr diag_mx; apply/rowP => i; rewrite !mxE mulrC.
by rewrite /z /solve_svd -/Sp reduce_rightE -/B SV !mulmxA -(mulmxA _ V^T V) VV mulmx1 K2.
Qed.
Lemma z_orth t : B *m t = B *m z -> sqnorm z <= sqnorm t.
Proof.
move=> E; case: (sv) => /= UU VV SV _ _; rewrite reduce_leftE -/B in SV.
have K : diag_mx s *m V^T *m (t - z) = 0.
  have : B^T *m B *m (t - z) = 0 by rewrite -mulmxA mulmxBr E subrr mulmx0.
  rewrite SV => /(congr1 (fun M => U^T *m M)); by rewrite !mulmxA UU mul1mx mulmx0.
have -> : t = z + (t - z) by rewrite addrC subrK.
rewrite sqnormD; have -> : dot z (t - z) = 0; last by rewrite mul0rn addr0 ler_addl sqnorm_ge0.
rewrite dotC {2}/z /solve_svd -/Sp.
have -> : diag_mx Sp = diag_mx s *m (diag_mx Sp *m diag_mx Sp).
  rewrite !mulmx_diag; congr diag_mx; apply/rowP => i; have := Sp_Sp i; rewrite !mxE => {1}<-; by rewrite mulrA [s 0 i * _]mulrC.
rewrite -!(mulmxA V) -!(mulmxA (diag_mx s)) (mulmxA V) dot_mulmx trmx_mul tr_diag_mx K.
by rewrite /dot big1 // => i _; rewrite mxE mul0r.
Qed.
Lemma residual_z : Al *m solve_qr Q1 Rr Ar z b + Ar *m z - b = proj *m (Ar *m z - b).
Proof.
rewrite /solve_qr -{1}QR -!mulmxA (mulmxA Rr) mulmxV ?Rr_unit // mul1mx /proj mulmxBl mul1mx.
by rewrite -addrA addrC -[b - _]opprB !mulmxN !mulmxA.
Qed.
End Svd.
End Reduce.

(** ** C109 *)
Section Results.
Variables (o : options) (qr : forall m n, 'M[R]_(m, n) -> 'M[R]_(m, n) * 'M[R]_n) (svd : forall n, 'M[R]_n -> 'M[R]_n * 'rV[R]_n * 'M[R]_n).
Variables (m j k : nat).
Hypothesis ct : contracts m j k qr svd.
Lemma rank_of (c : symbolic) (A : 'M[R]_(m, j + k)) b x s rank c' t : solve o qr svd c A b = Ret (x, s, rank, c') -> cutoff o s t ->
  (rank <= k)%N /\ forall i : 'I_k, (i < rank)%N = (t < s 0 i).
Proof.
rewrite /solve; case: ifP => // _; case: ifP => // _; case: ct => _.
set Om := reduce_left _ _ => /(_ Om); case: (svd Om) => [[U s'] V] sv [_ <- <- _] C; split; first exact: rank_le.
by case: sv => /= _ _ _ _ d i; exact: rankP.
Qed.
Lemma solve_step (c : symbolic) (A : 'M[R]_(m, j + k)) b x s rank c' : tolerances o -> independent (lsubmx A) ->
  scalable o (lsubmx A) -> scalable o (rsubmx A) -> solve o qr svd c A b = Ret (x, s, rank, c') ->
  (lsubmx A)^T *m (A *m x - b) = 0 /\
  ((forall i t, cutoff o s t -> s 0 i = 0 \/ t < s 0 i) ->
   A^T *m (A *m x - b) = 0 /\ forall y, A *m y = A *m x -> size2 o (rsubmx A) (dsubmx x) <= size2 o (rsubmx A) (dsubmx y)).
Proof.
move=> T ind scl scr E; have jm := indep_le ind; case: (ct) => /(_ jm) qrc _; move: E.
have inds := indep_scale scl ind.
rewrite /solve; case: ifP => // _; case: ifP => // _.
set Als := lsubmx A *m _ in inds *; set Ars := rsubmx A *m _; case: (qrc Als) => QQ QR.
case: (ct) => _; set Om := reduce_left _ _ => /(_ Om); case: (svd Om) => [[U s'] V] sv [<- <- _ _].
set Q1 := (qr Als).1 in QQ QR Om sv *; set Rr := (qr Als).2 in QR *.
set z := solve_svd _ _ _ _ _; set xl := solve_qr _ _ _ _ _.
have AE : forall (u : 'cV[R]_j) (v : 'cV[R]_k), A *m col_mx u v = lsubmx A *m u + rsubmx A *m v by move=> u v; rewrite -{1}(hsubmxK A) mul_row_col.
have AlE : lsubmx A = Als *m diag_mx (weights o (lsubmx A)) by rewrite /Als scaleK.
have ArE : rsubmx A = Ars *m diag_mx (weights o (rsubmx A)) by rewrite /Ars scaleK.
have RES : A *m col_mx (diag_mx (scale_of o (lsubmx A)) *m xl) (diag_mx (scale_of o (rsubmx A)) *m z) - b = proj Q1 *m (Ars *m z - b).
  by rewrite AE (mulmxA (lsubmx A)) (mulmxA (rsubmx A)) -/Als -/Ars; exact: (@residual_z _ _ _ Als Ars b Q1 Rr QR inds o U V s').
have LEFT : Als^T *m proj Q1 = 0 by rewrite -[_ *m _]trmxK trmx_mul trmxK projT (projA QQ QR) trmx0.
have LL : (lsubmx A)^T *m (proj Q1 *m (Ars *m z - b)) = 0.
  by rewrite AlE trmx_mul -!mulmxA (mulmxA Als^T) LEFT mul0mx mulmx0.
rewrite RES; split; first exact: LL.
move=> sm; have small : forall i : 'I_k, (svd_rank o s' <= i)%N -> s' 0 i = 0.
  move=> i h; case: (sv) => /= _ _ _ p d; have [t C] := cutoff_ex o d i; case: (sm i t C) => //.
  by rewrite -(rankP d C) ltnNge h.
split.
  have -> : A^T = col_mx (lsubmx A)^T (rsubmx A)^T by rewrite -{1}(hsubmxK A) tr_row_mx.
  rewrite mul_col_mx LL ArE trmx_mul -mulmxA.
  have -> : Ars^T *m (proj Q1 *m (Ars *m z - b)) = 0; last by rewrite mulmx0 col_mx0.
  have := @omega_z _ _ _ Ars b Q1 QQ o U V s' T sv small; rewrite -/z.
  have PA2 : (proj Q1 *m Ars)^T *m (proj Q1 *m Ars) = (proj Q1 *m Ars)^T *m Ars.
    by rewrite (trmx_mul (proj Q1)) projT -(mulmxA Ars^T (proj Q1)) (mulmxA (proj Q1)) (projK QQ) mulmxA.
  rewrite PA2 -(mulmxA _ Ars) => e; have -> : Ars^T *m (proj Q1 *m (Ars *m z - b)) = (proj Q1 *m Ars)^T *m (Ars *m z - b).
    by rewrite (trmx_mul (proj Q1)) projT -(mulmxA Ars^T).
  by rewrite mulmxBr e subrr.
move=> y; rewrite -{1}(vsubmxK y) !AE => e; rewrite col_mxKd; apply: le_trans (size2_le scr z) _.
rewrite size2E; apply: (@z_orth _ _ _ Ars b Q1 QQ o U V s' T sv).
have PL : proj Q1 *m lsubmx A = 0 by rewrite AlE mulmxA (projA QQ QR) mul0mx.
have := congr1 (mulmx (proj Q1)) e; rewrite 2!mulmxDr 2!(mulmxA (proj Q1) (lsubmx A)) PL 2!mul0mx 2!add0r => e'.
by rewrite -(mulmxA (proj Q1)) -(mulmxA (proj Q1)) (mulmxA Ars) -ArE e' (mulmxA (rsubmx A)).
Qed.
End Results.

(** The numerical rank is the number of singular values above the cutoff (they come first). *)
Theorem C109_rank : forall o qr svd m j k (c : symbolic) (A : 'M[R]_(m, j + k)) b x s rank c' t, contracts m j k qr svd ->
  solve o qr svd c A b = Ret (x, s, rank, c') -> cutoff o s t -> (rank <= k)%N /\ forall i : 'I_k, (i < rank)%N = (t < s 0 i).
Proof. by move=> o qr svd m j k c A b x s rank c' t ct E C; exact: (rank_of ct E C). Qed.

(** C109: the left columns of [A] are independent. The step never leaves a residual the left columns could reduce. If every
    singular value is zero or above the cutoff, the step is a least squares solution of A x = b, among these solutions one whose
    right part is smallest (in the units of the scaled columns), and the only one if all columns are independent. *)
Theorem C109_solve : forall o qr svd m j k (c : symbolic) (A : 'M[R]_(m, j + k)) b x s rank c', contracts m j k qr svd -> tolerances o ->
  independent (lsubmx A) -> scalable o (lsubmx A) -> scalable o (rsubmx A) -> solve o qr svd c A b = Ret (x, s, rank, c') ->
  (forall v : 'cV[R]_j, sqnorm (A *m x - b) <= sqnorm (A *m x - b + lsubmx A *m v)) /\
  ((forall i t, cutoff o s t -> s 0 i = 0 \/ t < s 0 i) ->
   (forall y, sqnorm (A *m x - b) <= sqnorm (A *m y - b)) /\
   (forall y, sqnorm (A *m y - b) <= sqnorm (A *m x - b) -> size2 o (rsubmx A) (dsubmx x) <= size2 o (rsubmx A) (dsubmx y)) /\
   (independent A -> forall y, sqnorm (A *m y - b) <= sqnorm (A *m x - b) -> y = x)).
Proof.
move=> o qr svd m j k c A b x s rank c' ct T ind scl scr E.
have [LL F] := solve_step ct T ind scl scr E; split.
  move=> v; rewrite [sqnorm (_ + lsubmx A *m v)]sqnormD dot_mulmx LL; have -> : dot 0 v = 0 by rewrite /dot big1 // => i _; rewrite mxE mul0r.
  by rewrite mul0rn addr0 ler_addl sqnorm_ge0.
move=> sm; have [N M] := F sm.
have eqA : forall y, sqnorm (A *m y - b) <= sqnorm (A *m x - b) -> A *m (y - x) = 0.
  move=> y; rewrite (normal_least y N) ger_addl => le; apply: sqnorm_eq0; apply/eqP; by rewrite eq_le le sqnorm_ge0.
split; first by move=> y; rewrite (normal_least y N) ler_addl sqnorm_ge0.
split.
  by move=> y /eqA; rewrite mulmxBr => /eqP; rewrite subr_eq0 => /eqP; exact: M.
by move=> ia y /eqA /ia /eqP; rewrite subr_eq0 => /eqP.
Qed.

Definition same_places m n (A B : 'M[R]_(m, n)) : Prop := forall r c, A r c = 0 <-> B r c = 0.
Definition entries m n (A : 'M[R]_(m, n)) : nat := #|[pred x : 'I_m * 'I_n | A x.1 x.2 != 0]|.
Lemma pattern_size m n (A : 'M[R]_(m, n)) : size (pattern A) = entries A.
Proof.
rewrite /pattern /entries size_map cardE; congr (size _).
by rewrite -[LHS]filter_predI /=; apply: eq_filter => x; rewrite /= andbT.
Qed.
Lemma same_pattern m n (A B : 'M[R]_(m, n)) : same_places A B -> pattern A = pattern B.
Proof.
move=> H; rewrite /pattern; congr map; apply: eq_filter => x /=; case: (H x.1 x.2) => h1 h2.
by congr (~~ _); apply/eqP/eqP.
Qed.
(** C109: the first call, and every later one whose left part has non-zero entries in the same places as the one before, or
    another number of them, runs. *)
Theorem C109_runs : forall o qr svd m j k (A : 'M[R]_(m, j + k)) b, (j <= m)%N ->
  (exists r, solve o qr svd None A b = Ret r) /\
  forall c (A' : 'M[R]_(m, j + k)) b' x' s' rank' c', solve o qr svd c A' b' = Ret (x', s', rank', c') ->
    same_places (lsubmx A) (lsubmx A') \/ entries (lsubmx A) <> entries (lsubmx A') -> exists r, solve o qr svd c' A b = Ret r.
Proof.
move=> o qr svd m j k A b jm; split.
  rewrite /solve /= eqxx andbF (ltnNge m) jm andbF; case: (svd k _) => [[U s] V]; by eexists.
move=> c A' b' x' s' rank' c'; rewrite /solve; case: ifP => // e; case: ifP => // _.
case: (svd k _) => [[U s] V] [_ _ _ <-] H.
have -> : (0 < j)%N && ((use_symbolic (if (0 < j)%N then Some (use_symbolic c (lsubmx A')) else None) (lsubmx A)).2 != pattern (lsubmx A)) = false.
  case: (posnP j) => // j0; rewrite j0 /= in e *; apply/negbF.
  move/negbFE/eqP: e; case: (use_symbolic _ _) => [[m' n'] p] /= ->.
  case: H => [sp|ne]; first by rewrite (same_pattern sp); case: ifP.
  rewrite !pattern_size; have -> : (entries (lsubmx A') == entries (lsubmx A)) = false by apply/negP => /eqP /esym.
  by rewrite andbF.
rewrite /=; case: (svd k _) => [[U' s''] V']; by eexists.
Qed.

(** C109: the marginal analysis. All parameters observable and no singular value below the cutoff: the number reported for a view
    is the logarithm of the determinant of the block of the covariance that belongs to the calibration parameters. It does not
    depend on the parameter blocks the caller names. *)
Theorem C109_marginal : forall o qr svd m j k P (params : P) (J : 'M[R]_(m, j + k)) s rank, contracts m j k qr svd -> independent J ->
  analyze_marginal o qr svd J = Ret (s, rank) -> (forall i t, cutoff o s t -> t < s 0 i) ->
  estimate_log_det_covar o qr svd params J = Ret (ln (\det (drsubmx (invmx (J^T *m J))))).
Proof.
move=> o qr svd m j k P params J s rank ct ind E big; rewrite /estimate_log_det_covar E /=; congr Ret.
have indl : independent (lsubmx J).
  move=> v e; have := ind (col_mx v 0); rewrite -{1}(hsubmxK J) mul_row_col e mulmx0 addr0 => /(_ erefl).
  by move/(congr1 usubmx); rewrite col_mxKu linear0.
move: E; rewrite /analyze_marginal; case: ifP => // _; case: (ct) => /(_ (indep_le indl) (lsubmx J)) [QQ QR].
set Q1 := (qr m j (lsubmx J)).1 in QQ QR *; set Rr := (qr m j (lsubmx J)).2 in QR.
move=> /(_ (reduce_left Q1 (rsubmx J))); case: (svd k _) => [[U s'] V] sv [es er]; subst s' rank.
have HU : J^T *m J \in unitmx.
  apply: indep_unit => v e; apply: ind; apply: sqnorm_eq0; by rewrite -gram_quad -mulmxA e mulmx0 mxE.
have HB : J^T *m J = block_mx ((lsubmx J)^T *m lsubmx J) ((lsubmx J)^T *m rsubmx J) ((rsubmx J)^T *m lsubmx J) ((rsubmx J)^T *m rsubmx J).
  by rewrite -{1 2}(hsubmxK J) tr_row_mx mul_col_row.
have RU := Rr_unit QR indl.
have AK : ulsubmx (J^T *m J) *m (invmx Rr *m (invmx Rr)^T) = 1%:M.
  rewrite HB block_mxKul -QR trmx_mul -!mulmxA (mulmxA Q1^T) QQ mul1mx (mulmxA Rr) mulmxV // mul1mx -trmx_mul mulVmx //.
  by rewrite trmx1.
have SE : schur_H (J^T *m J) (invmx Rr *m (invmx Rr)^T) = reduce_left Q1 (rsubmx J).
  rewrite (reduce_leftE (rsubmx J) QQ) /schur_H {1}HB block_mxKdr {1}HB block_mxKdl {1}HB block_mxKur.
  rewrite (trmx_mul (proj Q1)) projT -(mulmxA (rsubmx J)^T (proj Q1)) (mulmxA (proj Q1)) (projK QQ) /proj mulmxBl mul1mx mulmxBr; congr (_ - _).
  have -> : Q1 = lsubmx J *m invmx Rr by rewrite -QR -mulmxA mulmxV // mulmx1.
  by rewrite trmx_mul !mulmxA.
have OU : reduce_left Q1 (rsubmx J) \in unitmx by rewrite -SE (schur_unit AK).
rewrite -(schur_inv AK HU) SE.
have PD : 0 < \det (reduce_left Q1 (rsubmx J)).
  apply: pd_det; move: OU; rewrite (reduce_leftE (rsubmx J) QQ) => OU; split; first by rewrite trmx_mul trmxK.
  move=> x nz; rewrite gram_quad lt_neqAle sqnorm_ge0 andbT; apply: contra_neq nz => /esym /sqnorm_eq0; exact: gram_inj.
case: (sv) => /= UU VV SV p d.
have DE : \det (reduce_left Q1 (rsubmx J)) = \prod_i s 0 i.
  apply: svd_det (ltW PD); split=> //; by exists U, V.
have sp : forall i, 0 < s 0 i.
  move=> i; rewrite lt_neqAle p andbT; apply/eqP => z; move: PD; rewrite DE (bigD1 i) //= -z mul0r; by rewrite ltxx.
rewrite det_inv ln_inv // DE (ln_prod sp); congr (- _); apply: eq_bigl => i.
by have [t C] := cutoff_ex o d i; rewrite (rankP d C) (big i t C).
Qed.

(** C109, refuted for parameters that cannot be observed: a view that says nothing at all is reported with a finite logarithm of
    the determinant of the covariance, that of a unit covariance. *)
Theorem C109_unobservable_refuted : forall o qr svd m j k P (params : P), (j <= m)%N -> contracts m j k qr svd -> tolerances o ->
  estimate_log_det_covar o qr svd params (0 : 'M[R]_(m, j + k)) = Ret 0.
Proof.
move=> o qr svd m j k P params jm [_ ct] T; rewrite /estimate_log_det_covar /analyze_marginal (ltnNge m) jm andbF.
rewrite !linear0; have := ct (reduce_left (qr m j 0).1 (0 : 'M_(m, k))).
have -> : reduce_left (qr m j 0).1 (0 : 'M_(m, k)) = 0.
  by rewrite /reduce_left; case: ifP => _; rewrite trmx0 !mul0mx // subrr.
case: (svd k 0) => [[U s] V] [/= UU VV SV p d].
have s0 : forall i, s 0 i = 0.
  move=> i; have : diag_mx s = 0 by rewrite -[diag_mx s]mulmx1 -VV mulmxA -[diag_mx s]mul1mx -UU -!mulmxA (mulmxA U) (mulmxA (U *m _)) -SV mul0mx mulmx0.
  by move/matrixP/(_ i i); rewrite !mxE eqxx.
congr Ret; rewrite big1 ?oppr0 // => i h; exfalso; move: h; have [t C] := cutoff_ex o d i; rewrite (rankP d C) s0.
by rewrite ltNge (cutoff_ge0 p T C).
Qed.

(** ** Concrete cases *)
Lemma qr1_ex m (A : 'M[R]_(m.+1, 1)) : exists f, qr_factors A f.
Proof.
have g : forall B : 'M[R]_(m.+1, 1), B^T *m B = (sqnorm B)%:M.
  by move=> B; rewrite (s11 (B^T *m B)) dotE sqnormE.
have s0 := sqnorm_ge0 A; set q := R_sqrt.sqrt (sqnorm A).
have qq : q * q = sqnorm A by rewrite -expr2; exact: sqrt_sq.
case: (altP (q =P 0)) => [z|nz].
  exists (delta_mx 0 0, 0); split=> /=; first by rewrite trmx_delta mul_delta_mx; apply/matrixP => a c; rewrite !ord1 !mxE.
  by rewrite mulmx0; symmetry; apply: sqnorm_eq0; rewrite -qq z mul0r.
exists (q^-1 *: A, q%:M); split=> /=; last by rewrite mul_mx_scalar scalerA mulfV // scale1r.
have -> : (q^-1 *: A)^T = q^-1 *: A^T by apply/matrixP => a c; rewrite !mxE.
rewrite -scalemxAl -scalemxAr scalerA g -qq scale_scalar_mx; congr (_%:M).
by rewrite mulrACA mulVf // mul1r.
Qed.
Lemma svd1_ex (A : 'M[R]_1) : exists f, svd_factors A f.
Proof.
pose sg : R := if 0 <= A 0 0 then 1 else -1.
have sg2 : sg * sg = 1 by rewrite /sg; case: ifP => _; rewrite ?mulrNN mulr1.
exists (sg%:M, const_mx `|A 0 0|, 1%:M); split=> /=.
- by rewrite tr11 -scalar_mxM sg2.
- by rewrite trmx1 mulmx1.
- rewrite trmx1 mulmx1 (s11 A) diag11 mxE -scalar_mxM; congr (_%:M); rewrite !mxE eqxx mulr1n /sg.
  by case: (lerP 0 (A 0 0)) => h; rewrite ?mul1r ?mulN1r; [rewrite ger0_norm|rewrite ltr0_norm // opprK].
- by move=> i; rewrite mxE normr_ge0.
- by move=> i i' _; rewrite !mxE.
Qed.
Lemma svd0_ex (A : 'M[R]_0) : exists f, svd_factors A f.
Proof. by exists (0, 0, 0); split=> /=; try exact: flatmx0; try (by rewrite [RHS]flatmx0 [LHS]flatmx0); case. Qed.
Definition qr_x m n (A : 'M[R]_(m, n)) : 'M[R]_(m, n) * 'M[R]_n := epsilon (inhabits (0, 0)) (qr_factors A).
Definition svd_x n (A : 'M[R]_n) : 'M[R]_n * 'rV[R]_n * 'M[R]_n := epsilon (inhabits (0, 0, 0)) (svd_factors A).
Lemma contracts_x m k : (k <= 1)%N -> contracts m.+1 1 k qr_x svd_x.
Proof.
move=> k1; split; first by move=> _ A; apply: epsilon_spec; exact: qr1_ex.
move=> A; apply: epsilon_spec; case: k k1 A => [|[|//]] _ A; [exact: svd0_ex|exact: svd1_ex].
Qed.

Definition ox : options := mkOptions true (2%:R)^-1 0 (Some 0).
Theorem C109_ex : exists (A : 'M[R]_(2, 1 + 1)) b, contracts 2 1 1 qr_x svd_x /\ tolerances ox /\ independent A /\ independent (lsubmx A) /\
  scalable ox (lsubmx A) /\ scalable ox (rsubmx A) /\ b <> 0 /\
  (exists x s rank c, solve ox qr_x svd_x None A b = Ret (x, s, rank, c) /\ (forall i t, cutoff ox s t -> s 0 i = 0 \/ t < s 0 i) /\ A *m x = b) /\
  (exists s rank, analyze_marginal ox qr_x svd_x A = Ret (s, rank)).
Proof.
pose A : 'M[R]_(2, 1 + 1) := 1%:M; pose b : 'cV[R]_2 := const_mx 1.
have ct : contracts 2 1 1 qr_x svd_x by exact: contracts_x.
have iA : independent A by move=> v; rewrite mul1mx.
have AB : A = row_mx (delta_mx 0 0 : 'M[R]_(2, 1)) (delta_mx 1 0 : 'M[R]_(2, 1)).
  apply/matrixP => r c; rewrite -(splitK c); case: (split c) => q /=; rewrite ?row_mxEl ?row_mxEr (ord1 q) !mxE /=.
    by case: r => [[|[|//]] h].
  by case: r => [[|[|//]] h].
have L : lsubmx A = delta_mx 0 0 by rewrite AB row_mxKl.
have Rr : rsubmx A = delta_mx 1 0 by rewrite AB row_mxKr.
have il : independent (lsubmx A).
  move=> v e; have := iA (col_mx v 0); rewrite -{1}(hsubmxK A) mul_row_col e mulmx0 addr0 => /(_ erefl).
  by move/(congr1 usubmx); rewrite col_mxKu linear0.
have sq : forall q, sq_len (delta_mx q 0 : 'M[R]_(2, 1)) 0 = 1.
  by move=> q; rewrite /sq_len (bigD1 q) //= big1 ?addr0 ?mxE ?eqxx ?expr1n // => i ne; rewrite mxE (negbTE ne) /= expr2 mul0r.
have sc : forall q, scalable ox (delta_mx q 0 : 'M[R]_(2, 1)).
  move=> q _; split=> //; split; first by change (0 < (2%:R : R)^-1); rewrite invr_gt0 ltr0n.
  by move=> c; rewrite (ord1 c) sq; right; change (2%:R * (2%:R : R)^-1 <= 1); rewrite mulfV ?pnatr_eq0.
have T : tolerances ox by rewrite /tolerances /=.
exists A, b; do 4 (split=> //); split; first by rewrite L; exact: sc.
split; first by rewrite Rr; exact: sc.
split; first by move/matrixP/(_ 0 0); rewrite !mxE => /eqP; rewrite oner_eq0.
split.
  have [[[[[x s] rank] c] E] _] := C109_runs ox qr_x svd_x A b (isT : (1 <= 2)%N).
  exists x, s, rank, c; split=> //.
  have sm : forall i t, cutoff ox s t -> s 0 i = 0 \/ t < s 0 i.
    move=> i t ->; move: E; rewrite /solve; case: ifP => // _; case: ct => _.
    set Om := reduce_left _ _ => /(_ Om); case: (svd_x Om) => [[U s'] V] sv [_ <- _ _]; case: sv => /= _ _ _ p _.
    by case: (altP (s' 0 i =P 0)) => h; [left|right; rewrite lt_neqAle eq_sym h p].
  have scl : scalable ox (lsubmx A) by rewrite L; exact: sc.
  have scr : scalable ox (rsubmx A) by rewrite Rr; exact: sc.
  split=> //; have [_ /(_ sm) [M _]] := C109_solve ct T il scl scr E.
  have := M b; have -> : A *m b - b = 0 by rewrite /A mul1mx subrr.
  have -> : sqnorm (0 : 'cV[R]_2) = 0 by rewrite sqnormE /dot big1 // => i _; rewrite mxE mul0r.
  move=> le; apply/eqP; rewrite -subr_eq0; apply/eqP; apply: sqnorm_eq0; apply/eqP; by rewrite eq_le le sqnorm_ge0.
rewrite /analyze_marginal; case: (svd_x _) => [[U s] V]; by exists s, (svd_rank ox s).
Qed.

(** C109, refuted without the condition on the non-zero entries: two matrices of the same size with one entry each, in different
    rows. The symbolic factorisation of the first is used for the second. *)
Theorem C109_pattern_refuted : exists (A A' : 'M[R]_(2, 1 + 0)) b x s rank c, contracts 2 1 0 qr_x svd_x /\ independent A /\
  solve ox qr_x svd_x None A' b = Ret (x, s, rank, c) /\ solve ox qr_x svd_x c A b = Undef.
Proof.
pose A : 'M[R]_(2, 1 + 0) := row_mx (delta_mx 1 0) 0; pose A' : 'M[R]_(2, 1 + 0) := row_mx (delta_mx 0 0) 0.
have PE : forall q : 'I_2, pattern (delta_mx q 0 : 'M[R]_(2, 1)) = [:: (nat_of_ord q, 0%N)].
  move=> q; rewrite /pattern; have -> : [seq x <- enum [finType of 'I_2 * 'I_1] | (delta_mx q 0 : 'M[R]_(2, 1)) x.1 x.2 != 0] = [:: (q, 0)].
    rewrite -(@filter_pred1_uniq _ (enum [finType of 'I_2 * 'I_1]) (q, 0)) ?enum_uniq ?mem_enum //.
    apply: eq_filter => -[r c] /=; rewrite mxE (ord1 c) eqxx andbT xpair_eqE eqxx andbT.
    by case: (r == q); rewrite ?oner_eq0 ?eqxx.
  by [].
exists A, A', 0; have E : exists x s rank, solve ox qr_x svd_x None A' 0 = Ret (x, s, rank, Some (2%N, 1%N, pattern (lsubmx A'))).
  by rewrite /solve /= eqxx /=; case: (svd_x _) => [[U s] V]; do 3 eexists.
case: E => x [s [rank E]]; exists x, s, rank, (Some (2%N, 1%N, pattern (lsubmx A'))).
split; first exact: contracts_x.
split.
  move=> v; rewrite -(vsubmxK v) /A mul_row_col mul0mx addr0 => /matrixP /(_ 1 0).
  rewrite mxE big_ord1 !mxE eqxx mul1r => e; have -> : dsubmx v = 0 by apply: flatmx0.
  by have -> : usubmx v = 0; [apply/matrixP => a c; rewrite (ord1 a) (ord1 c) !mxE|exact: col_mx0].
split; first exact: E.
rewrite /solve /A /A' !row_mxKl PE; case: ifP => // /negP []; by rewrite /use_symbolic PE.
Qed.

(** ** The conversion of matrices *)
Definition state n (es : nat -> seq (nat * R)) : seq nat * seq nat * seq R :=
  let L c := flatten [seq es c' | c' <- iota 0 c] in ([seq size (L c) | c <- iota 0 n.+1], map fst (L n), map snd (L n)).
Lemma flat_S es n : flatten [seq es c' | c' <- iota 0 n.+1] = flatten [seq (es c' : seq (nat * R)) | c' <- iota 0 n] ++ es n.
Proof. by rewrite -addn1 iotaD map_cat flatten_cat /= cats0. Qed.
Lemma sparse_state eps nr A n :
  foldl (fun st c => let es := column_entries eps nr A c in let '(p, i, x) := st in
           (rcons p (size (i ++ map fst es)), i ++ map fst es, x ++ map snd es)) ([:: 0%N], [::], [::]) (iota 0 n) =
  state n (column_entries eps nr A).
Proof.
have SI : forall q, iota 0 q.+1 = rcons (iota 0 q) q by move=> q; rewrite -addn1 iotaD cats1.
elim: n => [//|n IH]; rewrite {1}SI -cats1 foldl_cat IH /state (SI n.+1) map_rcons.
set p := [seq _ | _ <- iota 0 n.+1]; cbn [foldl]; rewrite flat_S !map_cat; congr (rcons _ _, _, _).
by rewrite !size_cat !size_map.
Qed.
Lemma put_col (A : nat -> nat -> R) c (l : seq (nat * R)) f : (forall e, e \in l -> e.2 = A e.1 c) -> forall r' c',
  foldl (fun f e => put f e.1 c e.2) f l r' c' = if (c' == c) && (r' \in map fst l) then A r' c else f r' c'.
Proof.
elim: l f => [|e l IH] f H r' c'; first by rewrite /= in_nil andbF.
rewrite /= IH; last by move=> e' m; apply: H; rewrite inE m orbT.
rewrite inE /put; case: (c' == c); rewrite ?andbF ?andbT //=; case: (r' \in map fst l); rewrite ?orbT ?orbF //.
by case: eqP => // ->; rewrite H ?mem_head.
Qed.
Lemma fold_slice n (pre l tl : seq (nat * R)) f0 :
  foldl (fun f v => put f (nth 0%N (map fst (pre ++ l ++ tl)) v) n (nth 0 (map snd (pre ++ l ++ tl)) v)) f0 (iota (size pre) (size l)) =
  foldl (fun f e => put f e.1 n e.2) f0 l.
Proof.
elim: l pre f0 => [//|e l IH] pre f0; cbn [size iota foldl].
have -> : nth 0%N (map fst (pre ++ (e :: l) ++ tl)) (size pre) = e.1 by rewrite map_cat nth_cat size_map ltnn subnn.
have -> : nth 0 (map snd (pre ++ (e :: l) ++ tl)) (size pre) = e.2 by rewrite map_cat nth_cat size_map ltnn subnn.
have -> : pre ++ (e :: l) ++ tl = (pre ++ [:: e]) ++ l ++ tl by rewrite -catA.
by have := IH (pre ++ [:: e]) (put f0 e.1 n e.2); rewrite size_cat addn1 => <-.
Qed.
(** C109: a dense matrix written as a sparse one and read back is the same up to entries of magnitude at most [eps], which
    become zero. *)
Theorem C109_convert : forall eps nr nc (A : nat -> nat -> R) r c, (r < nr)%N -> (c < nc)%N ->
  to_dense nc (to_sparse eps nr nc A) r c = if `|A r c| <= eps then 0 else A r c.
Proof.
move=> eps nr nc A r c hr hc; rewrite /to_sparse sparse_state /state /to_dense; cbn [sp_p sp_i sp_x].
set es := column_entries eps nr A; set L := fun n => flatten [seq es c' | c' <- iota 0 n].
have [P EP] : exists P, P = [seq size (L c) | c <- iota 0 nc.+1] by eexists.
have nL : forall q, (q <= nc)%N -> nth 0%N P q = size (L q).
  by move=> q hq; rewrite EP (nth_map 0%N) ?size_iota // nth_iota.
rewrite -EP; clear EP.
have LS : forall q, L q.+1 = L q ++ es q by move=> q; exact: flat_S.
have K : forall n, (n <= nc)%N -> forall r' c', foldl (fun f c => foldl (fun f v => put f (nth 0%N (map fst (L nc)) v) c (nth 0 (map snd (L nc)) v)) f
     (iota (nth 0%N P c) (nth 0%N P c.+1 - nth 0%N P c)))
     (fun _ _ => 0) (iota 0 n) r' c' = if (c' < n)%N && (r' \in map fst (es c')) then A r' c' else 0.
  elim=> [//|n IH] le r' c'; rewrite -(addn1 n) iotaD foldl_cat add0n; cbn [foldl iota].
  rewrite nL; last exact: ltnW. rewrite nL // LS size_cat addKn.
  set f0 := foldl _ _ _ in IH *.
  have -> : foldl (fun f v => put f (nth 0%N (map fst (L nc)) v) n (nth 0 (map snd (L nc)) v)) f0 (iota (size (L n)) (size (es n))) =
            foldl (fun f e => put f e.1 n e.2) f0 (es n).
    have [tl EL] : exists tl, L nc = L n ++ es n ++ tl.
      exists (flatten [seq es c' | c' <- iota n.+1 (nc - n.+1)]); rewrite {1}/L -{1}(subnKC le) iotaD map_cat flatten_cat add0n.
      by rewrite -/(L n.+1) LS catA.
    by rewrite EL; exact: fold_slice.
  rewrite (@put_col A); last by move=> e /mapP [q _ ->].
  rewrite IH; last exact: ltnW.
  case: (ltngtP c' n) => [lt|gt|->] //=; first by rewrite addn1 (ltn_trans lt (ltnSn n)).
    by rewrite addn1 ltnS leqNgt gt.
  by rewrite addn1 ltnS leqnn; case: ifP.
rewrite K // hc /=; have -> : (r \in map fst (es c)) = (eps < `|A r c|).
  apply/mapP/idP => [[e /mapP [q]]|h]; first by rewrite mem_filter => /andP [h _] -> /= ->.
  by exists (r, A r c) => //; apply/mapP; exists r => //; rewrite mem_filter h mem_iota.
by rewrite ltNge; case: (_ <= eps).
Qed.
Theorem C109_convert_ex : exists (A : nat -> nat -> R), A 0%N 0%N <> 0 /\ A 1%N 0%N <> A 0%N 0%N /\
  to_dense 1 (to_sparse 1 2 1 A) 0%N 0%N = 0 /\ to_dense 1 (to_sparse 1 2 1 A) 1%N 0%N = A 1%N 0%N.
Proof.
exists (fun r _ => (r.+1)%:R); split; first by apply/eqP; rewrite pnatr_eq0.
split; first by move/eqP; rewrite eqr_nat.
by split; rewrite C109_convert // normr_nat lern1.
Qed.
