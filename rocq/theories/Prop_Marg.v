(** * C55, C69: marginalisation *)
From mathcomp Require Import all_ssreflect all_algebra.
From Verif Require Import MargModel.
Set Implicit Arguments.
Unset Strict Implicit.
Unset Printing Implicit Defensive.
Import Order.TTheory GRing.Theory Num.Theory.
Local Open Scope ring_scope.

Section Spec.
Variable F : rcfType.
(** ** Specification *)
Definition dot n (x y : 'cV[F]_n) : F := \sum_i x i 0 * y i 0.
Definition sqnorm n (x : 'cV[F]_n) : F := \sum_i x i 0 ^+ 2.
Definition symmetric n (A : 'M[F]_n) : Prop := forall i j, A i j = A j i.
(** the quadratic form exceeds [c] times the identity: every eigenvalue is larger than [c] *)
Definition exceeds n (c : F) (A : 'M[F]_n) : Prop :=
  forall x : 'cV[F]_n, x != 0 -> c * sqnorm x < dot x (A *m x).
Definition psd n (A : 'M[F]_n) : Prop := forall x : 'cV[F]_n, 0 <= dot x (A *m x).

Lemma dotE n (x y : 'cV[F]_n) : (x^T *m y) 0 0 = dot x y.
Proof. rewrite mxE; apply: eq_bigr => i _; by rewrite mxE. Qed.
Lemma sqnormE n (x : 'cV[F]_n) : sqnorm x = dot x x.
Proof. by apply: eq_bigr => i _; rewrite expr2. Qed.
Lemma sqnorm_ge0 n (x : 'cV[F]_n) : 0 <= sqnorm x.
Proof. by apply: sumr_ge0 => i _; rewrite sqr_ge0. Qed.
Lemma sqnorm_eq0 n (x : 'cV[F]_n) : sqnorm x = 0 -> x = 0.
Proof.
move=> H; apply/matrixP => i j; rewrite ord1 mxE.
have := H => /psumr_eq0P K. have := K (fun i _ => sqr_ge0 _) i isT.
by move/eqP; rewrite sqrf_eq0 => /eqP.
Qed.
Lemma symT n (A : 'M[F]_n) : symmetric A <-> A^T = A.
Proof. split=> [H|H i j]; first by apply/matrixP => i j; rewrite mxE. by rewrite -{1}H mxE. Qed.
Lemma lower_symE n (A : 'M[F]_n) : symmetric A -> lower_sym A = A.
Proof. move=> H; apply/matrixP => i j; rewrite mxE; case: ifP => // _; exact: H. Qed.
Lemma orthT n (V : 'M[F]_n) : V^T *m V = 1%:M -> V *m V^T = 1%:M.
Proof. exact: mulmx1C. Qed.
Lemma eig_l n (A V : 'M[F]_n) l : symmetric A -> eig_of A V l -> V^T *m A *m V = diag_mx l.
Proof.
move=> S [O E]; rewrite -(lower_symE S) -E !mulmxA O mul1mx -mulmxA O mulmx1 //.
Qed.
(** eigenvalue as quadratic form of the eigenvector *)
Lemma eig_quad n (A V : 'M[F]_n) l i : symmetric A -> eig_of A V l ->
  l 0 i = dot (col i V) (A *m col i V).
Proof.
move=> S E; have := eig_l S E => /matrixP /(_ i i); rewrite !mxE eqxx mulr1n => <-.
rewrite -dotE mxE. transitivity (\sum_j (V^T *m A) i j * V j i); first by [].
have -> : \sum_j (col i V)^T 0 j * (A *m col i V) j 0 = ((col i V)^T *m (A *m col i V)) 0 0 by rewrite mxE.
rewrite mulmxA mxE; apply: eq_bigr => j _; rewrite !mxE; congr (_ * _); apply: eq_bigr => k _; by rewrite !mxE.
Qed.
Lemma col_norm n (A V : 'M[F]_n) l i : eig_of A V l -> sqnorm (col i V) = 1.
Proof.
case=> O _; rewrite sqnormE -dotE. have := O => /matrixP /(_ i i); rewrite !mxE eqxx mulr1n => <-.
by apply: eq_bigr => j _; rewrite !mxE.
Qed.
Lemma pinv_sym n eps (V : 'M[F]_n) l : (pinv eps V l)^T = pinv eps V l.
Proof. by rewrite /pinv !trmx_mul trmxK tr_diag_mx mulmxA. Qed.
Lemma Hmm_sym m r p (H : 'M[F]_(m + r)) : symmetric H -> Hmm p H = ulsubmx H.
Proof.
move=> S; rewrite /Hmm; case: p => //.
have -> : (ulsubmx H)^T = ulsubmx H by rewrite trmx_ulsub; congr (ulsubmx _); apply/symT.
by rewrite -mulr2n -scaler_nat scalerA mulVf ?scale1r // pnatr_eq0.
Qed.
Lemma pinv_full n eps (A V : 'M[F]_n) l : symmetric A -> eig_of A V l -> 0 <= eps -> exceeds eps A ->
  A *m pinv eps V l = 1%:M.
Proof.
move=> S E e0 X; have L i : eps < l 0 i.
  rewrite (eig_quad i S E) -[eps]mulr1 -(col_norm i E); apply: X.
  apply/eqP => Z; have := col_norm i E; rewrite Z /sqnorm big1.
    by move/eqP; rewrite eq_sym oner_eq0.
  by move=> j _; rewrite mxE expr0n.
case: (E) => O D; rewrite -{1}(lower_symE S) -D /pinv !mulmxA.
have -> : V *m diag_mx l *m V^T *m V *m diag_mx (select_inv eps l) = V.
  rewrite -(mulmxA _ V^T) O mulmx1 -mulmxA mulmx_diag.
  have -> : diag_mx (\row_j (l 0 j * select_inv eps l 0 j)) = 1%:M; last by rewrite mulmx1.
  apply/matrixP => i j; rewrite !mxE L mulfV // gt_eqF //; exact: le_lt_trans (L _).
exact: orthT.
Qed.
End Spec.

Section Props.
Variable F : rcfType.
Lemma block_sol m r (H : 'M[F]_(m + r)) b (xm : 'cV[F]_m) (xr : 'cV[F]_r) :
  H *m col_mx xm xr = b <->
  ulsubmx H *m xm + ursubmx H *m xr = usubmx b /\ dlsubmx H *m xm + drsubmx H *m xr = dsubmx b.
Proof.
rewrite -{1}(submxK H) mul_block_col -{1}(vsubmxK b); split=> [/eq_col_mx //|[-> ->] //].
Qed.

(** C55: for every symmetric system whose marginal block has its eigenvalues above 1e-8, the
    function succeeds, the reduced system has exactly the remaining parts of the solutions of the
    full system as solutions, it is symmetric, and semidefinite if the full system is; whatever
    orthonormal eigenvectors the eigen-solver chose. *)
Theorem C55_schur_partial : forall m r precond (H : 'M[F]_(m + r)) (b : 'cV[F]_(m + r)) V l,
  symmetric H -> exceeds (10%:R ^+ 8)^-1 (ulsubmx H) -> eig_of (Hmm precond H) V l ->
  exists H' b', schurs_complement precond V l H b = Some (H', b') /\ marg_schur V l H b = (H', b') /\
  symmetric H' /\
  (forall xm xr, H *m col_mx xm xr = b -> H' *m xr = b') /\
  (forall xr, H' *m xr = b' -> exists xm, H *m col_mx xm xr = b) /\
  (psd H -> psd H').
Proof.
move=> m r pc H b V l S X E; have e0 : 0 <= (10%:R ^+ 8)^-1 :> F by rewrite invr_ge0 exprn_ge0 // ler0n.
have ST : H^T = H by apply/symT.
have Sm : symmetric (ulsubmx H) by apply/symT; rewrite trmx_ulsub ST.
rewrite (Hmm_sym _ S) in E; have I : ulsubmx H *m pinv (eps8 F) V l = 1%:M := pinv_full Sm E e0 X.
have I2 : pinv (eps8 F) V l *m ulsubmx H = 1%:M by exact: mulmx1C.
have T : (dlsubmx H)^T = ursubmx H by rewrite trmx_dlsub ST.
have T2 : (ursubmx H)^T = dlsubmx H by rewrite trmx_ursub ST.
have T3 : (drsubmx H)^T = drsubmx H by rewrite trmx_drsub ST.
exists (schur_H H (pinv (eps8 F) V l)), (schur_b H b (pinv (eps8 F) V l)); split; last split=> //.
- rewrite /schurs_complement (Hmm_sym _ S) I subrr /sum_all big1 => [|i _]; last by rewrite big1 // => j _; rewrite mxE.
  by rewrite normr0 ltNge invr_ge0 exprn_ge0 ?ler0n.
move: (pinv_sym (eps8 F) V l) I I2; move: (pinv (eps8 F) V l) => P PS I I2; split.
  apply/symT; rewrite /schur_H linearB /= !trmx_mul PS T T2 T3 mulmxA //.
split; last split.
- move=> xm xr /block_sol [A B]; rewrite /schur_H /schur_b -A -B mulmxBl mulmxDr.
  rewrite -(mulmxA _ _ (ulsubmx H *m xm)) (mulmxA P (ulsubmx H)) I2 mul1mx.
  by rewrite !mulmxA opprD addrACA subrr add0r.
- move=> xr Hx; exists (P *m (usubmx b - ursubmx H *m xr)); apply/block_sol; split.
    by rewrite mulmxA I mul1mx subrK.
  move: Hx; rewrite /schur_H /schur_b mulmxBl => /(canRL (subrK _)) ->.
  by rewrite mulmxA mulmxBr !mulmxA addrC addrA [X in X - _]addrAC subrK addrK.
- move=> Q xr; have := Q (col_mx (- (P *m (ursubmx H *m xr))) xr).
  rewrite -!dotE -[X in X *m col_mx _ _](submxK H) mul_block_col tr_col_mx mul_row_col.
  rewrite /schur_H mulmxBl !mulmxN !mulmxA I mul1mx addNr mulmx0 add0r addrC //.
Qed.

(** ** The prior left behind by marginalisation *)
Lemma psd_eig k n (G : 'M[F]_(k, n)) (A V : 'M[F]_n) l i : A = G^T *m G -> eig_of A V l ->
  l 0 i = sqnorm (G *m col i V).
Proof.
move=> EA E; have S : symmetric A by apply/symT; rewrite EA trmx_mul trmxK.
by rewrite (eig_quad i S E) sqnormE -!dotE EA trmx_mul !mulmxA.
Qed.
Definition keep n (thr : F) (l : 'rV[F]_n) : 'rV[F]_n := \row_i (if thr < l 0 i then 1 else 0).
Lemma proj_keep k n (G : 'M[F]_(k, n)) (A V : 'M[F]_n) l thr : A = G^T *m G -> eig_of A V l ->
  (forall i, l 0 i <= 0 \/ thr < l 0 i) -> G *m (V *m diag_mx (keep thr l) *m V^T) = G.
Proof.
move=> EA E N; have K : G *m V *m diag_mx (keep thr l) = G *m V.
  apply/matrixP => a i; rewrite mul_mx_diag mxE [_ 0 i]mxE; case: ifP => [_|C]; first by rewrite mulr1.
  have Z : l 0 i = 0.
    case: (N i) => [L|]; last by rewrite C. apply/eqP; rewrite eq_le L /= (psd_eig i EA E); exact: sqnorm_ge0.
  rewrite (psd_eig i EA E) in Z; have := sqnorm_eq0 Z => /matrixP /(_ a 0); rewrite mulr0 [RHS]mxE => Y.
  transitivity ((G *m col i V) a 0); first by rewrite Y.
  rewrite !mxE; apply: eq_bigr => j _; by rewrite !mxE.
by rewrite !mulmxA K -mulmxA (orthT (proj1 E)) mulmx1.
Qed.
Lemma eig_pinv n (A V : 'M[F]_n) l thr : 0 <= thr -> symmetric A -> eig_of A V l ->
  pinv thr V l *m A = V *m diag_mx (keep thr l) *m V^T.
Proof.
move=> T S [O D]; rewrite -{1}(lower_symE S) -D /pinv !mulmxA -(mulmxA _ V^T V) O mulmx1.
rewrite -(mulmxA V) mulmx_diag; congr (_ *m diag_mx _ *m _); apply/matrixP => a i; rewrite !mxE.
case: ifP => [L|_]; last by rewrite mul0r. by rewrite mulVf // gt_eqF // (le_lt_trans T L).
Qed.
Lemma dotC n (x y : 'cV[F]_n) : dot x y = dot y x.
Proof. by apply: eq_bigr => i _; rewrite mulrC. Qed.
Lemma dot_mulmx k n (A : 'M[F]_(k, n)) x y : dot x (A *m y) = dot (A^T *m x) y.
Proof. by rewrite -!dotE trmx_mul trmxK mulmxA. Qed.
Lemma sqnormD n (x y : 'cV[F]_n) : sqnorm (x + y) = sqnorm x + dot x y *+ 2 + sqnorm y.
Proof.
rewrite /sqnorm /dot -sumrMnl -!big_split /=; apply: eq_bigr => i _; by rewrite mxE sqrrD.
Qed.
(** Pythagoras for an orthogonal projector *)
Lemma proj_split n (Q : 'M[F]_n) x : Q^T = Q -> Q *m Q = Q -> sqnorm x = sqnorm (Q *m x) + sqnorm (x - Q *m x).
Proof.
move=> S I; have -> : sqnorm x = sqnorm (Q *m x + (x - Q *m x)) by rewrite addrC subrK.
rewrite [LHS]sqnormD.
have -> : dot (Q *m x) (x - Q *m x) = 0; last by rewrite mul0rn addr0.
by rewrite -{1}S -dot_mulmx mulmxBr mulmxA I subrr /dot big1 // => i _; rewrite mxE mulr0.
Qed.

Section Prior.
Variables (k m r : nat) (Jm : 'M[F]_(k, m)) (Jr : 'M[F]_(k, r.+1)) (e : 'cV[F]_k).
Variables (V1 : 'M[F]_m) (l1 : 'rV[F]_m).
Let J := row_mx Jm Jr.
Let H := gn_H J.
Let b := gn_b J e.
Hypothesis E1 : eig_of (Hmm true H) V1 l1.
Hypothesis N1 : forall i, l1 0 i <= 0 \/ (10%:R ^+ 8)^-1 < l1 0 i.
Let P := pinv (eps8 F) V1 l1.
Let Q := 1%:M - Jm *m P *m Jm^T.

Lemma HB : H = block_mx (Jm^T *m Jm) (Jm^T *m Jr) (Jr^T *m Jm) (Jr^T *m Jr).
Proof. by rewrite /H /gn_H /J tr_row_mx mul_col_row. Qed.
Lemma bB : b = col_mx (- (Jm^T *m e)) (- (Jr^T *m e)).
Proof. by rewrite /b /gn_b /J tr_row_mx mul_col_mx opp_col_mx. Qed.
Lemma HS : symmetric H.
Proof. by apply/symT; rewrite /H /gn_H trmx_mul trmxK. Qed.
Lemma HmmE : Hmm true H = Jm^T *m Jm.
Proof. by rewrite (Hmm_sym _ HS) HB block_mxKul. Qed.
Lemma e8 : 0 <= eps8 F.
Proof. by rewrite /eps8 invr_ge0 exprn_ge0 // ler0n. Qed.
Lemma JmP : Jm *m P *m (Jm^T *m Jm) = Jm.
Proof.
have S : symmetric (Jm^T *m Jm) by apply/symT; rewrite trmx_mul trmxK.
rewrite -mulmxA /P eig_pinv //; [|exact: e8|by rewrite -HmmE].
by apply: (@proj_keep _ _ _ (Jm^T *m Jm)) => //; rewrite -HmmE.
Qed.
Lemma QS : Q^T = Q.
Proof.
have S : P^T = P by exact: pinv_sym.
by rewrite /Q linearB /= trmx1 trmx_mul (trmx_mul Jm) trmxK S mulmxA.
Qed.
Lemma QJm : Q *m Jm = 0.
Proof. by rewrite /Q mulmxBl mul1mx -mulmxA JmP subrr. Qed.
Lemma QQ : Q *m Q = Q.
Proof. by rewrite {2}/Q mulmxBr mulmx1 !mulmxA QJm !mul0mx subr0. Qed.
Lemma schurH : schur_H H P = (Q *m Jr)^T *m (Q *m Jr).
Proof.
rewrite trmx_mul QS mulmxA -(mulmxA _ Q Q) QQ /schur_H HB block_mxKdr block_mxKdl block_mxKur.
by rewrite /Q mulmxBr mulmxBl mulmx1 !mulmxA.
Qed.
Lemma schurb : schur_b H b P = - ((Q *m Jr)^T *m e).
Proof.
rewrite trmx_mul QS /schur_b HB block_mxKdl bB col_mxKd col_mxKu /Q mulmxBr mulmxBl mulmx1.
by rewrite mulmxN opprK opprB addrC !mulmxA.
Qed.
End Prior.

Lemma max_coeff_ge n (l : 'rV[F]_n.+1) : l 0 ord0 <= max_coeff l.
Proof. by rewrite /max_coeff; elim/big_rec: _ => // i y _ L; rewrite le_maxr L orbT. Qed.

Section Decomp.
Variables (k n : nat) (G : 'M[F]_(k, n.+1)) (A V : 'M[F]_n.+1) (l : 'rV[F]_n.+1).
Hypothesis EA : A = G^T *m G.
Hypothesis E : eig_of A V l.
Hypothesis N : forall i, l 0 i <= 0 \/ marg_tol l < l 0 i.
Lemma l_ge0 i : 0 <= l 0 i.
Proof. rewrite (psd_eig i EA E); exact: sqnorm_ge0. Qed.
Lemma tol_ge0 : 0 <= marg_tol l.
Proof.
rewrite /marg_tol mulr_ge0 //; first by rewrite mulr_ge0 ?ler0n // /dbl_epsilon invr_ge0 exprn_ge0 // ler0n.
exact: le_trans (l_ge0 ord0) (max_coeff_ge l).
Qed.
Lemma AS : symmetric A.
Proof. by apply/symT; rewrite EA trmx_mul trmxK. Qed.
Lemma J0J0 : (marg_J0 V l)^T *m marg_J0 V l = A.
Proof.
rewrite /marg_J0 trmx_mul trmxK tr_diag_mx !mulmxA -(mulmxA V) mulmx_diag.
rewrite -[RHS](lower_symE AS) -(proj2 E); congr (_ *m diag_mx _ *m _); apply/matrixP => a i; rewrite !mxE ord1.
rewrite -expr2 sqr_sqrtr; last by case: ifP => // _; exact: l_ge0.
case: ifP => // C; case: (N i) => [L|]; last by rewrite C. by apply/eqP; rewrite eq_le L l_ge0.
Qed.
Lemma J0r0 e b : b = - (G^T *m e) -> (marg_J0 V l)^T *m marg_r0 V l b = - b.
Proof.
move=> ->; rewrite /marg_J0 /marg_r0 trmx_mul trmxK tr_diag_mx !(mulmxN, mulNmx) !opprK.
rewrite !mulmxA -(mulmxA V) mulmx_diag.
have -> : \row_j ((\row_i Num.sqrt (if marg_tol l < l 0 i then l 0 i else 0)) 0 j *
    (\row_i Num.sqrt (if marg_tol l < l 0 i then (l 0 i)^-1 else 0)) 0 j) = keep (marg_tol l) l.
  apply/matrixP => a i; rewrite !mxE; case: ifP => [C|_]; last by rewrite sqrtr0 mul0r.
  rewrite -sqrtrM; last exact: l_ge0. by rewrite mulfV ?sqrtr1 // gt_eqF // (le_lt_trans tol_ge0 C).
rewrite -[in RHS](proj_keep EA E N) !trmx_mul !trmxK tr_diag_mx !mulmxA //.
Qed.
End Decomp.

(** C69: marginalising variables out of a least squares problem (residual [e], Jacobians [Jm] and
    [Jr] at the linearisation point) leaves a prior residual on the remaining variables whose
    squared norm is, up to a constant, the minimum of the original cost over the marginalised
    variables, for every change [dr] of the remaining ones.
    Hypotheses: the eigen-solver kept its contract, and no eigenvalue lies strictly between 0
    and the two cut-offs. *)
Theorem C69_prior_partial : forall k m r (Jm : 'M[F]_(k, m)) (Jr : 'M[F]_(k, r.+1)) (e : 'cV[F]_k)
    V1 l1 V2 l2 H' b',
  let H := gn_H (row_mx Jm Jr) in let b := gn_b (row_mx Jm Jr) e in
  eig_of (Hmm true H) V1 l1 -> (forall i, l1 0 i <= 0 \/ (10%:R ^+ 8)^-1 < l1 0 i) ->
  marg_schur V1 l1 H b = (H', b') ->
  eig_of H' V2 l2 -> (forall i, l2 0 i <= 0 \/ marg_tol l2 < l2 0 i) ->
  exists c, forall dr,
    let prior := marg_eval (marg_J0 V2 l2) (marg_r0 V2 l2 b') dr in
    (forall dm, c + sqnorm prior <= sqnorm (e + Jm *m dm + Jr *m dr)) /\
    (exists dm, c + sqnorm prior = sqnorm (e + Jm *m dm + Jr *m dr)).
Proof.
move=> k m r Jm Jr e V1 l1 V2 l2 H' b' H b E1 N1 [EH Eb] E2 N2.
set P := pinv (eps8 F) V1 l1 in EH Eb. pose Q := 1%:M - Jm *m P *m Jm^T.
have QSx : Q^T = Q := QS Jm V1 l1. have QQx : Q *m Q = Q := QQ E1 N1. have QJ : Q *m Jm = 0 := QJm E1 N1.
have HE : H' = (Q *m Jr)^T *m (Q *m Jr) by rewrite -EH; exact: (schurH (Jr := Jr) E1 N1).
have BE : b' = - ((Q *m Jr)^T *m e) by rewrite -Eb; exact: (schurb Jm Jr e V1 l1).
exists (sqnorm (Q *m e) - sqnorm (marg_r0 V2 l2 b')) => dr /=.
have PR : sqnorm (Q *m e) - sqnorm (marg_r0 V2 l2 b') + sqnorm (marg_eval (marg_J0 V2 l2) (marg_r0 V2 l2 b') dr)
    = sqnorm (Q *m (e + Jr *m dr)).
  rewrite /marg_eval sqnormD mulmxDr sqnormD dot_mulmx (J0r0 HE E2 N2 BE).
  rewrite [sqnorm (marg_J0 V2 l2 *m dr)]sqnormE dot_mulmx mulmxA (J0J0 HE E2 N2) addrA addrA subrK.
  congr (_ + _ *+ 2 + _).
    by rewrite mulmxA dot_mulmx BE opprK trmx_mul QSx -[in RHS]mulmxA [in RHS](mulmxA Q) QQx mulmxA.
  by rewrite sqnormE mulmxA dot_mulmx HE !mulmxA.
rewrite PR; split.
  move=> dm; have -> : e + Jm *m dm + Jr *m dr = (e + Jr *m dr) + Jm *m dm by rewrite addrAC.
  rewrite [X in _ <= X](proj_split _ QSx QQx).
  have -> : Q *m (e + Jr *m dr + Jm *m dm) = Q *m (e + Jr *m dr) by rewrite mulmxDr (mulmxA Q Jm) QJ mul0mx addr0.
  rewrite ler_addl; exact: sqnorm_ge0.
exists (- (P *m Jm^T *m (e + Jr *m dr))); congr sqnorm.
rewrite addrAC /Q mulmxBl mul1mx mulmxN !mulmxA //.
Qed.

(** Scalars as 1x1 matrices *)
Lemma s11 (A : 'M[F]_1) : A = (A 0 0)%:M.
Proof. exact: mx11_scalar. Qed.
Lemma diag11 (l : 'rV[F]_1) : diag_mx l = (l 0 0)%:M.
Proof. by rewrite [LHS]s11 mxE eqxx mulr1n. Qed.
Lemma eig11 (a : F) : eig_of (a%:M : 'M_1) 1%:M (const_mx a).
Proof.
split; first by rewrite trmx1 mulmx1.
rewrite diag11 mxE trmx1 mulmx1 mul1mx; apply/matrixP => i j; by rewrite !ord1 !mxE.
Qed.
Lemma sq11 (x : 'cV[F]_1) : sqnorm x = x 0 0 ^+ 2.
Proof. by rewrite /sqnorm big_ord_recl big_ord0 addr0. Qed.
Lemma tr11 (a : F) : (a%:M : 'M_1)^T = a%:M.
Proof. exact: tr_scalar_mx. Qed.

(** Information below the cut-off is not marginalised but lost: with the marginalised variable
    observed only through a Jacobian entry 1e-5, the remaining variable is unconstrained (any
    value can be compensated) but the prior ties it down. *)
Theorem C69_cutoff_refuted : exists (Jm Jr : 'M[F]_1) (e : 'cV[F]_1) V1 l1 V2 l2 H' b',
  let H := gn_H (row_mx Jm Jr) in let b := gn_b (row_mx Jm Jr) e in
  eig_of (Hmm true H) V1 l1 /\ marg_schur V1 l1 H b = (H', b') /\ eig_of H' V2 l2 /\
  Jm != 0 /\
  (forall dr : 'cV[F]_1, exists dm, sqnorm (e + Jm *m dm + Jr *m dr) = 0) /\
  (forall dr, sqnorm (marg_eval (marg_J0 V2 l2) (marg_r0 V2 l2 b') dr) = dr 0 0 ^+ 2).
Proof.
have c0 : (10%:R ^+ 5)^-1 != 0 :> F by rewrite invr_eq0 expf_eq0 pnatr_eq0.
set c := (10%:R ^+ 5)^-1 in c0.
exists c%:M, 1%:M, 0, 1%:M, (const_mx (c * c)), 1%:M, (const_mx 1), 1%:M, 0 => H b.
have HmE : Hmm true H = (c * c)%:M by rewrite /H HmmE tr11 -scalar_mxM.
have P0 : pinv (eps8 F) 1%:M (const_mx (c * c) : 'rV_1) = 0.
  rewrite /pinv diag11 !mxE; case: ifP => [|_]; last by rewrite raddf0 mulmx0 mul0mx.
  have e10 : 0 < 10%:R :> F by rewrite ltr0n.
  rewrite /eps8 /c -invfM -exprD ltf_pinv ?posrE ?exprn_gt0 // ltr_eexpn2l // ltr1n //.
split; first by rewrite HmE; exact: eig11.
split.
  rewrite /marg_schur P0 /schur_H /schur_b !mulmx0 !mul0mx !subr0.
  rewrite /H /b HB block_mxKdr tr11 mul1mx bB !mulmx0 oppr0 col_mxKd //.
split; first exact: eig11.
split; first by rewrite -scalemx1 scaler_eq0 negb_or c0 /= oner_neq0.
split.
  move=> dr; exists (- (c^-1 *: dr)); rewrite add0r mul1mx mulmxN mul_scalar_mx scalerA mulfV // scale1r addNr.
  by rewrite sq11 mxE expr0n.
move=> dr; rewrite /marg_eval /marg_r0 mulmx0 add0r /marg_J0 diag11 trmx1 mulmx1 mul_scalar_mx sq11 !mxE.
have -> : marg_tol (const_mx 1 : 'rV[F]_1) < 1.
  rewrite /marg_tol /max_coeff big_ord_recl big_ord0 !mxE maxxx !mulr1 /dbl_epsilon.
  by rewrite invf_lt1 ?exprn_gt0 ?ltr0n // exprn_egt1 // ltr1n.
by rewrite sqrtr1 mul1r.
Qed.

(** non-vacuity of C69: one residual pair, both variables well observed *)
Theorem C69_ex : exists (Jm Jr : 'M[F]_(2, 1)) (e : 'cV[F]_2) V1 l1 V2 l2 H' b',
  let H := gn_H (row_mx Jm Jr) in let b := gn_b (row_mx Jm Jr) e in
  eig_of (Hmm true H) V1 l1 /\ (forall i, l1 0 i <= 0 \/ (10%:R ^+ 8)^-1 < l1 0 i) /\
  marg_schur V1 l1 H b = (H', b') /\
  eig_of H' V2 l2 /\ (forall i, l2 0 i <= 0 \/ marg_tol l2 < l2 0 i) /\ H' = 1%:M.
Proof.
pose Jm : 'M[F]_(2, 1) := delta_mx 0 0. pose Jr : 'M[F]_(2, 1) := const_mx 1.
pose e : 'cV[F]_2 := const_mx 1.
exists Jm, Jr, e, 1%:M, (const_mx 1), 1%:M, (const_mx 1).
have A : Jm^T *m Jm = 1%:M by rewrite [LHS]s11 !mxE !big_ord_recl big_ord0 !mxE /= !mulr1 !mulr0 !addr0.
have B : Jr^T *m Jm = 1%:M by rewrite [LHS]s11 !mxE !big_ord_recl big_ord0 !mxE /= !mulr1 !mulr0 !addr0.
have B' : Jm^T *m Jr = 1%:M by rewrite [LHS]s11 !mxE !big_ord_recl big_ord0 !mxE /= !mulr1 !addr0.
have C : Jr^T *m Jr = 2%:R%:M by rewrite [LHS]s11 !mxE !big_ord_recl big_ord0 !mxE /= !mulr1 !addr0.
have L8 : (10%:R ^+ 8)^-1 < 1 :> F by rewrite invf_lt1 ?exprn_gt0 ?ltr0n // exprn_egt1 // ltr1n.
have P1 : pinv (eps8 F) 1%:M (const_mx 1 : 'rV[F]_1) = 1%:M.
  by rewrite /pinv diag11 !mxE L8 invr1 mul1mx trmx1 mulmx1.
exists 1%:M, (schur_b (gn_H (row_mx Jm Jr)) (gn_b (row_mx Jm Jr) e) 1%:M) => H b.
rewrite /H HmmE A.
split; first exact: eig11.
split; first by move=> i; right; rewrite mxE.
split.
  rewrite /marg_schur P1 /schur_H; congr (_, _); rewrite HB block_mxKdr block_mxKdl block_mxKur B B' C.
  by rewrite !mulmx1 -raddfB /= mulr2n addrK.
split; first exact: eig11.
split=> // i; right; rewrite /marg_tol /max_coeff big_ord_recl big_ord0 !mxE maxxx !mulr1 /dbl_epsilon.
by rewrite invf_lt1 ?exprn_gt0 ?ltr0n // exprn_egt1 // ltr1n.
Qed.

(** ** C55, systems outside the hypothesis *)
Definition H2 : 'M[F]_2 := \matrix_(i, j) (if i == j then 0 else 1).
Definition V2x (s : F) : 'M[F]_2 := \matrix_(i, j) (if (i == 1) && (j == 1) then - s else s).
Definition l2x : 'rV[F]_2 := \row_i (if i == 0 then 1 else -1).
Definition hx : 'M[F]_(2 + 1) := block_mx H2 (delta_mx 0 0) (delta_mx 0 0) 1%:M.
Definition bx : 'cV[F]_(2 + 1) := col_mx 0 1%:M.
Lemma i2 (i : 'I_2) : i = 0 \/ i = 1.
Proof. by case: i => [[|[|]]] // p; [left|right]; apply/val_inj. Qed.
(** The marginal block [[0,1],[1,0]] is symmetric and invertible, the function reports success,
    but the reduced system is not satisfied by the solution of the full system: the negative
    eigenvalue is dropped and the check, a sum of matrix entries, cancels. *)
Theorem C55_check_refuted : exists (H : 'M[F]_(2 + 1)) (b : 'cV[F]_(2 + 1)) V l xm xr H' b',
  symmetric H /\ ulsubmx H \in unitmx /\ eig_of (Hmm true H) V l /\
  schurs_complement true V l H b = Some (H', b') /\
  H *m col_mx xm xr = b /\ H' *m xr <> b'.
Proof.
pose s := Num.sqrt (2%:R^-1) : F.
have ss : s * s = 2%:R^-1 by rewrite -expr2 sqr_sqrtr // invr_ge0 ler0n.
have hh : 2%:R^-1 + 2%:R^-1 = 1 :> F by rewrite -mulr2n -[_ *+ 2]mulr_natl mulfV // pnatr_eq0.
have hSym : symmetric hx.
  apply/symT; rewrite /hx tr_block_mx !trmx_delta trmx1; congr block_mx.
  by apply/matrixP => i j; rewrite !mxE eq_sym.
have U : ulsubmx hx = H2 by rewrite /hx block_mxKul.
have HH : H2 *m H2 = 1%:M.
  apply/matrixP => i j; rewrite !mxE !big_ord_recl big_ord0 !mxE.
  by case: (i2 i) => ->; case: (i2 j) => -> /=; rewrite ?(mulr0, mulr1, addr0, add0r).
pose P : 'M[F]_2 := const_mx (2%:R^-1).
have L8 : (10%:R ^+ 8)^-1 < 1 :> F by rewrite invf_lt1 ?exprn_gt0 ?ltr0n // exprn_egt1 // ltr1n.
have PE : pinv (eps8 F) (V2x s) l2x = P.
  rewrite /pinv; have -> : select_inv (eps8 F) l2x = delta_mx 0 0.
    apply/matrixP => i j; rewrite !mxE (ord1 i); case: (i2 j) => -> /=; first by rewrite L8 invr1.
    by rewrite ltNge (le_trans _ e8) ?lerN10.
  apply/matrixP => i j; rewrite !mxE !big_ord_recl big_ord0 !mxE !big_ord_recl !big_ord0 !mxE.
  by case: (i2 i) => ->; case: (i2 j) => -> /=; rewrite ?(mulr0, mulr1, mul0r, mulr0n, mulr1n, addr0, add0r, ss).
exists hx, bx, (V2x s), l2x, (\col_i (if i == 0 then 0 else -1)), 1%:M,
  (schur_H hx P), (schur_b hx bx P).
split=> //; split; first by rewrite U; case: (mulmx1_unit HH).
split.
  rewrite (Hmm_sym _ hSym) U; split; apply/matrixP => i j; rewrite !mxE !big_ord_recl !big_ord0 !mxE.
    by case: (i2 i) => ->; case: (i2 j) => -> /=; rewrite ?(mulrN, mulNr, opprK, addr0, add0r, ss, hh, addrN).
  rewrite !big_ord_recl !big_ord0 !mxE.
  by case: (i2 i) => ->; case: (i2 j) => -> /=; rewrite ?(mulrN, mulNr, opprK, mulr0, mulr1, mulr0n, mulr1n, addr0, add0r, ss, hh, addrN, mul0r, subrr).
split.
  rewrite /schurs_complement PE (Hmm_sym _ hSym) U.
  have -> : sum_all (H2 *m P - 1%:M) = 0.
    rewrite /sum_all !big_ord_recl !big_ord0 !mxE !big_ord_recl !big_ord0 !mxE /=.
    rewrite ?(mulr0, mulr1, mul0r, mul1r, mulr0n, mulr1n, addr0, add0r, subr0).
    by rewrite (addrAC _ (-1)) hh (addrA _ _ (-1)) hh subrr addr0.
  by rewrite normr0 ltNge invr_ge0 exprn_ge0 ?ler0n.
split.
  apply/block_sol; rewrite /hx /bx block_mxKul block_mxKur block_mxKdl block_mxKdr col_mxKu col_mxKd !mulmx1.
  split; apply/matrixP => i j; rewrite !mxE !big_ord_recl big_ord0 !mxE (ord1 j).
    by case: (i2 i) => -> /=; rewrite ?(mulr0, mulr1, mul0r, mul1r, addr0, add0r, addNr).
  by rewrite (ord1 i) /= ?(mulr0, mulr1, mul0r, mul1r, addr0, add0r).
rewrite mulmx1 /schur_H /schur_b /hx /bx block_mxKdr block_mxKdl block_mxKur col_mxKu col_mxKd mulmx0 subr0.
move/matrixP => /(_ 0 0); rewrite !mxE !big_ord_recl big_ord0 !mxE !big_ord_recl !big_ord0 !mxE /=.
rewrite ?(mulr0, mulr1, mul0r, mul1r, mulr0n, mulr1n, addr0, add0r, subr0) => /eqP.
by rewrite subr_eq addrC -subr_eq subrr eq_sym invr_eq0 pnatr_eq0.
Qed.
End Props.

(** non-vacuity of C55 *)
Theorem C55_ex (F : rcfType) : exists (H : 'M[F]_(1 + 1)) V l,
  symmetric H /\ exceeds (10%:R ^+ 8)^-1 (ulsubmx H) /\ eig_of (Hmm true H) V l /\ dlsubmx H = 1%:M.
Proof.
pose H : 'M[F]_(1 + 1) := block_mx 2%:R%:M 1%:M 1%:M 2%:R%:M.
have S : symmetric H by apply/symT; rewrite /H tr_block_mx !tr_scalar_mx.
exists H, 1%:M, (const_mx 2%:R); split=> //; split; last split.
- move=> x x0; rewrite /H block_mxKul mul_scalar_mx sqnormE /dot !big_ord_recl !big_ord0 !addr0 !mxE.
  rewrite [X in _ < X]mulrCA; have xx : 0 < x 0 0 * x 0 0.
    rewrite -expr2 exprn_even_gt0 //=; apply: contra x0 => /eqP Z; apply/eqP/matrixP => i j.
    by rewrite !ord1 Z mxE.
  rewrite ltr_pmul2r //; apply: (@lt_trans _ _ 1); last by rewrite ltr1n.
  by rewrite invf_lt1 ?exprn_gt0 ?ltr0n // exprn_egt1 // ltr1n.
- rewrite (Hmm_sym _ S) /H block_mxKul; exact: eig11.
- by rewrite /H block_mxKdl.
Qed.
Print Assumptions C55_schur_partial.
Print Assumptions C55_check_refuted.
Print Assumptions C55_ex.
Print Assumptions C69_prior_partial.
Print Assumptions C69_cutoff_refuted.
Print Assumptions C69_ex.
