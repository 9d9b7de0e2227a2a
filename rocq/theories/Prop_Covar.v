(** * C100: the covariance of the estimates is a block of the inverse of the information matrix *)
From Coq Require Import Reals ZArith Lia Lra.
From Verif Require Import Base SolverLsqModel SolverLsqProofs MargHessModel CovarModel CovarSpec CovarProofs.
From mathcomp Require Import all_ssreflect all_algebra.
From Verif Require Import RealInst MargModel Prop_Marg CovarMatModel.
Set Implicit Arguments.
Unset Strict Implicit.
Unset Printing Implicit Defensive.
Import Order.TTheory GRing.Theory Num.Theory.
Local Open Scope ring_scope.

(** ** Specification *)
(** [J] is the Jacobian of the stacked residuals [rs] with the parameters of [l] side by side. *)
Definition jacobian info (l : list Z) rs N (J : 'M[R]_(total_rows rs, N)) : Prop :=
  Z.of_nat N = sizes info l /\
  forall p a (k : 'I_(total_rows rs)) (j : 'I_N), column info l p a (Z.of_nat j) -> J k j = stacked rs p (Z.of_nat k) a.
Definition posdef n (A : 'M[R]_n) : Prop := symmetric A /\ forall x : 'cV[R]_n, x != 0 -> 0 < (x^T *m A *m x) 0 0.

(** ** Matrix lemmas *)
Section Mat.
Variable F : rcfType.
Lemma schur_mul m r (H : 'M[F]_(m + r)) (Ai : 'M[F]_m) : ulsubmx H *m Ai = 1%:M ->
  H *m block_mx 1%:M (- (Ai *m ursubmx H)) 0 1%:M = block_mx (ulsubmx H) 0 (dlsubmx H) (schur_H H Ai).
Proof.
move=> K; rewrite -{1}(submxK H) mulmx_block !mulmx1 !mulmx0 !addr0 !mulmxN !mulmxA K mul1mx addNr /schur_H.
by congr block_mx; rewrite addrC.
Qed.
Lemma schur_det m r (H : 'M[F]_(m + r)) (Ai : 'M[F]_m) : ulsubmx H *m Ai = 1%:M -> \det H = \det (ulsubmx H) * \det (schur_H H Ai).
Proof.
move=> K; have := congr1 (fun M => \det M) (schur_mul K); rewrite det_mulmx det_ublock det_lblock !det1 !mulr1; exact.
Qed.
Lemma schur_unit m r (H : 'M[F]_(m + r)) (Ai : 'M[F]_m) : ulsubmx H *m Ai = 1%:M -> (schur_H H Ai \in unitmx) = (H \in unitmx).
Proof.
move=> K; rewrite !unitmxE (schur_det K) unitrM; case/mulmx1_unit: K => + _; by rewrite unitmxE => ->.
Qed.
Lemma schur_inv m r (H : 'M[F]_(m + r)) (Ai : 'M[F]_m) : ulsubmx H *m Ai = 1%:M -> H \in unitmx ->
  invmx (schur_H H Ai) = drsubmx (invmx H).
Proof.
move=> K U; have := mulmxV U; rewrite -{1}(submxK H) -{1}(submxK (invmx H)) mulmx_block -[1%:M]submxK.
set X := invmx H; case/eq_block_mx => _ E1 _ E2.
have Z1 : (ursubmx (1%:M : 'M[F]_(m + r))) = 0 by rewrite scalar_mx_block block_mxKur.
have Z2 : (drsubmx (1%:M : 'M[F]_(m + r))) = 1%:M by rewrite scalar_mx_block block_mxKdr.
rewrite Z1 in E1; rewrite Z2 in E2.
have K' : Ai *m ulsubmx H = 1%:M by apply: mulmx1C.
have E3 : ursubmx X = - (Ai *m ursubmx H *m drsubmx X).
  have /eqP : Ai *m (ulsubmx H *m ursubmx X + ursubmx H *m drsubmx X) = 0 by rewrite E1 mulmx0.
  by rewrite mulmxDr !mulmxA K' mul1mx addr_eq0 => /eqP.
have S1 : schur_H H Ai *m drsubmx X = 1%:M.
  by rewrite /schur_H mulmxBl -E2 E3 mulmxN !mulmxA addrC.
have SU : schur_H H Ai \in unitmx by rewrite (schur_unit K).
by rewrite -[invmx _]mulmx1 -S1 mulmxA mulVmx // mul1mx.
Qed.
Lemma gram_sym k n (J : 'M[F]_(k, n)) : symmetric (J^T *m J).
Proof. by apply/symT; rewrite trmx_mul trmxK. Qed.
Lemma gram_quad k n (J : 'M[F]_(k, n)) (x : 'cV[F]_n) : (x^T *m (J^T *m J) *m x) 0 0 = sqnorm (J *m x).
Proof. by rewrite sqnormE -dotE trmx_mul !mulmxA. Qed.
Lemma gram_inj k n (J : 'M[F]_(k, n)) (x : 'cV[F]_n) : J^T *m J \in unitmx -> J *m x = 0 -> x = 0.
Proof. by move=> U E; rewrite -[x]mul1mx -(mulVmx U) -!mulmxA E !mulmx0. Qed.
End Mat.

Lemma sumn_big n f : SolverLsqModel.sumn n f = \sum_(k < n) f (Z.of_nat k).
Proof. by elim: n => [|n IH]; rewrite ?big_ord0 // big_ord_recr /= IH. Qed.

Section C100.
Variables (info : Z -> pinfo) (params : list Z) (rs : list resid).
Hypothesis HS : sensible info rs.
Hypothesis ND : List.NoDup params.
Hypothesis KT : forall q, involves rs q -> pi_fixed (info q) = false -> In q params \/ pi_type (info q) <> TOther.
Let L := app (cov_marg info params (blocks_of rs)) (cov_remain info params).
Let m := Z.to_nat (cov_m info params (blocks_of rs)).
Let r := Z.to_nat (cov_r info params).
Lemma sizes_app l l' : sizes info (app l l') = Z.add (sizes info l) (sizes info l').
Proof. by rewrite !sizes_sum sum_sizes_app. Qed.
Lemma sizes_nn l : Z.le 0 (sizes info l).
Proof. rewrite sizes_sum; apply: sum_sizes_nonneg; by case: HS. Qed.
Lemma mr_size : Z.of_nat (m + r) = sizes info L.
Proof.
rewrite /L sizes_app Nat2Z.inj_add /m /r !Z2Nat.id //; exact: sizes_nn.
Qed.
Lemma cov_gram (J : 'M[R]_(total_rows rs, m + r)) : jacobian info L J -> mx (m + r) (cov_hessian info params rs) = J^T *m J.
Proof.
case=> _ HJ; apply/matrixP => c d; rewrite !mxE.
have NL : List.NoDup L by apply: cov_all_NoDup.
have FR q : In q L -> pi_fixed (info q) = false by apply: cov_free.
have [SZ NB] := HS.
have cv (i : 'I_(m + r)) : exists p a, column info L p a (Z.of_nat i).
  have := ltn_ord i; move/ssrnat.ltP; have := mr_size; rewrite sizes_sum => E lt; apply: column_cover => //; rewrite -E; lia.
case: (cv c) => p [a hp]; case: (cv d) => q [b hq].
rewrite /cov_hessian (@hess_entry info L NL SZ FR rs p q a b _ _ NB _ hp hq); last by move=> y; apply: cov_all.
rewrite sumn_big; apply: eq_bigr => k _; by rewrite !mxE (HJ p a) // (HJ q b).
Qed.
End C100.

Lemma est_cov_eq info params rs (eig : forall n, 'M[R]_n -> 'M[R]_n * 'rV[R]_n) (J : 'M[R]_(total_rows rs, Z.to_nat (cov_m info params (blocks_of rs)) + Z.to_nat (cov_r info params))) :
  sensible info rs -> List.NoDup params ->
  (forall q, involves rs q -> pi_fixed (info q) = false -> In q params \/ pi_type (info q) <> TOther) ->
  jacobian info (app (cov_marg info params (blocks_of rs)) (cov_remain info params)) J ->
  let A := ulsubmx (J^T *m J) in
  eig_of A (eig _ A).1 (eig _ A).2 -> exceeds (10%:R ^+ 8)^-1 A ->
  estimate_covariance info params rs eig = if J^T *m J \in unitmx then Some (drsubmx (invmx (J^T *m J))) else None.
Proof.
move=> HS ND KT HJ A HE HX; have SG := gram_sym J.
rewrite /estimate_covariance (cov_gram HS ND KT HJ) (Hmm_sym _ SG).
have SA : symmetric A.
  apply/symT; rewrite /A trmx_ulsub; congr ulsubmx; exact/symT.
have K : A *m pinv (eps8 _) (eig _ A).1 (eig _ A).2 = 1%:M by apply: pinv_full => //; exact: e8.
rewrite /covariance (Hmm_sym _ SG) K subrr.
have -> : @sum_all [rcfType of R] _ (0 : 'M_(Z.to_nat (cov_m info params (blocks_of rs)))) = 0 by rewrite /sum_all big1 // => i _; rewrite big1 // => j _; rewrite mxE.
rewrite normr0 ltNge invr_ge0 exprn_ge0 ?ler0n //= (schur_unit K).
by case: ifP => // U; rewrite (schur_inv K U).
Qed.

(** C100: [L1] lists the parameters that are marginalised; for the Jacobian [J] of all residuals that could be evaluated, the
    parameters of [L1] first and the ones asked for after them in the order given, ... *)
Theorem C100_covariance_partial : forall info params rs eig, sensible info rs -> List.NoDup params ->
  (forall q, involves rs q -> pi_fixed (info q) = false -> In q params \/ pi_type (info q) <> TOther) ->
  exists L1 m, List.NoDup L1 /\
    (forall p, In p L1 <-> involves rs p /\ pi_fixed (info p) = false /\ ~ In p params) /\
    Z.of_nat m = sum_sizes info L1 /\ Z.of_nat (Z.to_nat (cov_r info params)) = sum_sizes info (List.filter (fun p => negb (pi_fixed (info p))) params) /\
    forall J : 'M[R]_(total_rows rs, m + Z.to_nat (cov_r info params)),
      jacobian info (app L1 (List.filter (fun p => negb (pi_fixed (info p))) params)) J ->
      let A := ulsubmx (J^T *m J) in
      eig_of A (eig m A).1 (eig m A).2 -> exceeds (10%:R ^+ 8)^-1 A ->
      estimate_covariance info params rs eig = (if J^T *m J \in unitmx then Some (drsubmx (invmx (J^T *m J))) else None) /\
      forall C, estimate_covariance info params rs eig = Some C -> posdef C.
Proof.
move=> info params rs eig HS ND KT.
exists (cov_marg info params (blocks_of rs)), (Z.to_nat (cov_m info params (blocks_of rs))).
split; first exact: cov_marg_NoDup.
split.
  move=> p; rewrite cov_marg_In; split; [tauto|]; case=> h1 [h2 h3]; do 3!split => //; by case: (KT p h1 h2).
split; first by rewrite Z2Nat.id; [exact: sizes_sum|exact: (sizes_nn HS)].
split; first by rewrite Z2Nat.id; [exact: sizes_sum|exact: (sizes_nn HS)].
move=> J HJ A HE HX.
have SG := gram_sym J.
have E := est_cov_eq HS ND KT HJ HE HX.
split; first exact: E.
move=> C; rewrite E; case: ifP => // U [<-]; split.
  apply/symT; rewrite trmx_drsub trmx_inv; congr drsubmx; congr invmx; exact/symT.
move=> x nz; set X := invmx _; set y := X *m col_mx 0 x.
have Q : (x^T *m drsubmx X *m x) = y^T *m (J^T *m J) *m y.
  rewrite /y trmx_mul; have -> : X^T = X by rewrite /X trmx_inv; congr invmx; exact/symT.
  rewrite -(mulmxA _ X) (mulVmx U) mulmx1 mulmxA tr_col_mx trmx0 -{2}(submxK X) mul_row_block !mul0mx !add0r mul_row_col mulmx0 add0r.
  by [].
rewrite Q gram_quad lt_def sqnorm_ge0 andbT; apply/eqP => /sqnorm_eq0 /(gram_inj U) Y0.
have Y : J^T *m J *m y = col_mx 0 x by rewrite /y mulmxA mulmxV // mul1mx.
move: Y; rewrite Y0 mulmx0 -col_mx0 => /eq_col_mx [_ xe]; by rewrite -xe eqxx in nz.
Qed.

Lemma block_for_none p bs k a : ~ In p (List.map fst bs) -> block_for p bs k a = 0.
Proof.
elim: bs => [//|[q B] bs IH] /= H; case: Z.eqb_spec => [E|_]; first by case: H; left.
by apply: IH => K; apply: H; right.
Qed.
Lemma stacked_none rs p k a : ~ involves rs p -> stacked rs p k a = 0.
Proof.
elim: rs k => [//|x rs IH] k H /=; case: Z.ltb => //.
  by apply: block_for_none => K; apply: H; exists x; split; [left|].
by apply: IH => -[y [hy hp]]; apply: H; exists y; split; [right|].
Qed.

(** C100: if none of the residuals that could be evaluated depends on a parameter that is asked for, the function reports
    failure, whatever the eigen-solver returns. *)
Theorem C100_unobserved_partial : forall info params rs eig p, sensible info rs -> List.NoDup params ->
  (forall q, involves rs q -> pi_fixed (info q) = false -> In q params \/ pi_type (info q) <> TOther) ->
  In p params -> pi_fixed (info p) = false -> Z.lt 0 (pi_size (info p)) -> ~ involves rs p ->
  estimate_covariance info params rs eig = None.
Proof.
move=> info params rs eig p HS ND KT Hp Hf Hs Hn.
have [SZ NB] := HS.
rewrite /estimate_covariance /covariance; case: ifP => // _.
set m := Z.to_nat (cov_m info params (blocks_of rs)); set H := mx _ _; set P := pinv _ _ _.
set L := app (cov_marg info params (blocks_of rs)) (cov_remain info params).
have Hpr : In p (cov_remain info params) by apply/filter_In; rewrite /CovarModel.free Hf.
have [l1 [l2 E]] : exists l1 l2, cov_remain info params = app l1 (p :: l2) by exact: in_split.
have nn := sizes_nn HS.
set c := sizes info l1.
have cr : Z.le 0 c /\ Z.lt c (cov_r info params).
  split; first exact: nn.
  rewrite /cov_r E sizes_app /=; have := nn l2; rewrite /c /=; lia.
have ci : (Z.to_nat c < Z.to_nat (cov_r info params))%N by apply/ssrnat.ltP; lia.
pose i := Ordinal ci.
have col : column info L p 0 (Z.of_nat (rshift m i)).
  exists (app (cov_marg info params (blocks_of rs)) l1), l2; split; first by rewrite /L E -app_assoc.
  split; first lia.
  have -> : Z.of_nat (rshift m i) = Z.add (cov_m info params (blocks_of rs)) c.
    rewrite /= Nat2Z.inj_add /m !Z2Nat.id //; first lia; exact: nn.
  by rewrite Z.add_0_r -/(sizes info _) sizes_app.
have Z0 j : H (rshift m i) j = 0.
  rewrite mxE.
  have [q [b hq]] : exists q b, column info L q b (Z.of_nat j).
    have := ltn_ord j; move/ssrnat.ltP => lt; apply: column_cover => //; first by move=> q; apply: cov_free.
    rewrite -sizes_sum -(mr_size params HS) -/m; lia.
  rewrite /cov_hessian (@hess_entry info L _ SZ _ rs p q 0 b _ _ NB _ col hq).
  - rewrite sumn_big big1 // => k _; by rewrite stacked_none // /GRing.zero /= Rmult_0_l.
  - exact: cov_all_NoDup.
  - move=> y; exact: cov_free.
  - move=> y; exact: cov_all.
clearbody H P.
have R0 : row i (schur_H H P) = 0.
  apply/matrixP => a j; rewrite !mxE Z0 sub0r big1 ?oppr0 // => k _; rewrite !mxE big1 ?mul0r // => k' _.
  by rewrite !mxE Z0 mul0r.
case: ifP => // U.
have := congr1 (fun M => M *m invmx (schur_H H P)) R0; rewrite /= mul0mx -row_mul mulmxV //.
move/matrixP => /(_ 0 i); rewrite !mxE eqxx => /eqP; by rewrite oner_eq0.
Qed.
