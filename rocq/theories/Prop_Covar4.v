(** * C102: the score of a candidate view is the information after adding it *)
From Coq Require Import Reals ZArith Lia Lra Permutation.
From Verif Require Import Base SolverLsqModel SolverLsqProofs MargHessModel CovarModel CovarSpec CovarProofs CovarProofs2.
From mathcomp Require Import all_ssreflect all_algebra.
From Verif Require Import RealInst MargModel Prop_Marg CovarMatModel Prop_Covar.
Set Implicit Arguments.
Unset Strict Implicit.
Unset Printing Implicit Defensive.
Import Order.TTheory GRing.Theory Num.Theory.
Local Open Scope ring_scope.
Delimit Scope Z_scope with ZZ.

(** ** Specification *)
(** Contract of Eigen::JacobiSVD: [s] are singular values of [A]. *)
Definition svd_of n (A : 'M[R]_n) (s : 'rV[R]_n) : Prop :=
  (forall i, 0 <= s 0 i) /\ exists U W : 'M[R]_n, U^T *m U = 1%:M /\ W^T *m W = 1%:M /\ A = U *m diag_mx s *m W^T.

(** ** Matrix lemmas *)
Section Mat.
Variable F : rcfType.
Implicit Types (m r : nat).
Definition schur_ul m r (H : 'M[F]_(r + m)) (Di : 'M[F]_m) : 'M[F]_r := ulsubmx H - ursubmx H *m Di *m dlsubmx H.
Lemma ul_det m r (H : 'M[F]_(r + m)) (Di : 'M[F]_m) : drsubmx H *m Di = 1%:M -> \det H = \det (schur_ul H Di) * \det (drsubmx H).
Proof.
move=> K; have : H *m block_mx 1%:M 0 (- (Di *m dlsubmx H)) 1%:M = block_mx (schur_ul H Di) (ursubmx H) 0 (drsubmx H).
  rewrite -{1}(submxK H) mulmx_block !mulmx1 !mulmx0 !add0r !mulmxN !mulmxA K mul1mx addrN; by [].
by move/(congr1 (fun M => \det M)); rewrite det_mulmx det_lblock det_ublock !det1 !mulr1.
Qed.
Lemma ul_unit m r (H : 'M[F]_(r + m)) (Di : 'M[F]_m) : drsubmx H *m Di = 1%:M -> (schur_ul H Di \in unitmx) = (H \in unitmx).
Proof.
move=> K; rewrite !unitmxE (ul_det K) unitrM; case/mulmx1_unit: K => + _; by rewrite unitmxE andbC => ->.
Qed.
Lemma ul_inv m r (H : 'M[F]_(r + m)) (Di : 'M[F]_m) : drsubmx H *m Di = 1%:M -> H \in unitmx ->
  schur_ul H Di *m ulsubmx (invmx H) = 1%:M.
Proof.
move=> K U; have := mulmxV U; rewrite -{1}(submxK H) -{1}(submxK (invmx H)) mulmx_block -[1%:M]submxK.
set X := invmx H; case/eq_block_mx => E1 _ E2 _.
have Z1 : (ulsubmx (1%:M : 'M[F]_(r + m))) = 1%:M by rewrite scalar_mx_block block_mxKul.
have Z2 : (dlsubmx (1%:M : 'M[F]_(r + m))) = 0 by rewrite scalar_mx_block block_mxKdl.
rewrite Z1 in E1; rewrite Z2 in E2.
have K' : Di *m drsubmx H = 1%:M by apply: mulmx1C.
have E3 : dlsubmx X = - (Di *m dlsubmx H *m ulsubmx X).
  have /eqP : Di *m (dlsubmx H *m ulsubmx X + drsubmx H *m dlsubmx X) = 0 by rewrite E2 mulmx0.
  by rewrite mulmxDr !mulmxA K' mul1mx addrC addr_eq0 => /eqP.
by rewrite /schur_ul mulmxBl -E1 E3 mulmxN !mulmxA.
Qed.
Lemma ul_quad m r (H : 'M[F]_(r + m)) (Di : 'M[F]_m) (x : 'cV[F]_r) : drsubmx H *m Di = 1%:M ->
  x^T *m schur_ul H Di *m x = (col_mx x (- (Di *m dlsubmx H *m x)))^T *m H *m col_mx x (- (Di *m dlsubmx H *m x)).
Proof.
move=> K; set y := col_mx _ _.
have Y : H *m y = col_mx (schur_ul H Di *m x) 0.
  by rewrite -{1}(submxK H) /y mul_block_col !mulmxN !mulmxA K mul1mx addrN /schur_ul mulmxBl.
by rewrite -[RHS]mulmxA Y /y tr_col_mx mul_row_col mulmx0 addr0 mulmxA.
Qed.
(** determinants of positive definite matrices *)
Definition pd n (A : 'M[F]_n) : Prop := A^T = A /\ forall x : 'cV[F]_n, x != 0 -> 0 < (x^T *m A *m x) 0 0.
Lemma pd_det n (A : 'M[F]_n) : pd A -> 0 < \det A.
Proof.
elim: n A => [|n IH] A; first by move=> _; rewrite det_mx00 ltr01.
move: A; rewrite -[n.+1]/(1 + n)%N => A [S P].
have a0 : 0 < (ulsubmx A) 0 0.
  have <- : (col_mx 1%:M 0)^T *m A *m (col_mx 1%:M 0) = ulsubmx A.
    by rewrite -{1}(submxK A) tr_col_mx trmx0 trmx1 mul_row_block !mul0mx !mul1mx !addr0 mul_row_col mulmx1 mulmx0 addr0.
  apply: P.
  by apply/eqP; rewrite -col_mx0 => /eq_col_mx [/matrixP /(_ 0 0) + _]; rewrite !mxE => /eqP; rewrite oner_eq0.
have UA : ulsubmx A = ((ulsubmx A) 0 0)%:M by exact: s11.
have uA : ulsubmx A \in unitmx by rewrite UA unitmxE det_scalar1 unitfE gt_eqF.
have K : ulsubmx A *m invmx (ulsubmx A) = 1%:M by rewrite mulmxV.
rewrite (schur_det K) mulr_gt0 //; first by rewrite UA det_scalar1.
have Ssub : [/\ (ulsubmx A)^T = ulsubmx A, (ursubmx A)^T = dlsubmx A, (dlsubmx A)^T = ursubmx A & (drsubmx A)^T = drsubmx A].
  by rewrite trmx_ulsub trmx_ursub trmx_dlsub trmx_drsub S.
case: Ssub => S1 S2 S3 S4.
apply: IH; split.
  by rewrite /schur_H raddfB /= !trmx_mul trmx_inv S1 S2 S3 S4 mulmxA.
move=> x nx; pose y := col_mx (- (invmx (ulsubmx A) *m ursubmx A *m x)) x.
have ny : y != 0 by apply: contraNneq nx; rewrite /y -col_mx0 => /eq_col_mx [_ ->].
have := P y ny; have -> : y^T *m A *m y = x^T *m schur_H A (invmx (ulsubmx A)) *m x; last by [].
rewrite -mulmxA -{1}(submxK A) {2}/y mul_block_col mulmxN !mulmxA K mul1mx addNr.
rewrite /y tr_col_mx mul_row_col mulmx0 add0r mulmxN -!mulmxA; congr (_ *m _).
by rewrite /schur_H mulmxBl addrC -!mulmxA.
Qed.
End Mat.

Lemma sizes_permute info l l' : Permutation l l' -> sizes info l = sizes info l'.
Proof. elim=> [//|x l1 l2 _ /= -> //|x y l1 /=|l1 l2 l3 _ -> _ -> //]; lia. Qed.
Lemma nodup_perm (l l' : list Z) : List.NoDup l -> List.NoDup l' -> (forall x, In x l <-> In x l') -> Permutation l l'.
Proof. exact: NoDup_Permutation. Qed.

Lemma nonempty_in (l : list Z) : l <> nil -> exists q, In q l.
Proof. by case: l => [//|q qs] _; exists q; left. Qed.
Lemma orth_det n (U : 'M[R]_n) : U^T *m U = 1%:M -> \det U * \det U = 1.
Proof. by move/(congr1 (fun M => \det M)); rewrite det_mulmx det_tr det1. Qed.
Lemma svd_det n (A : 'M[R]_n) s : svd_of A s -> 0 <= \det A -> \det A = \prod_i s 0 i.
Proof.
case=> s0 [U [W [HU [HW ->]]]]; rewrite !det_mulmx det_tr det_diag => D.
set p := \prod_i s 0 i in D *.
have p0 : 0 <= p by apply: prodr_ge0 => i _.
have q : (\det U * \det W) * (\det U * \det W) = 1 by rewrite mulrACA !orth_det // mulr1.
rewrite mulrAC in D *; set u := \det U * \det W in D q *.
have /orP [/eqP -> | /eqP u1] : (u == 1) || (u == -1) by rewrite -eqf_sqr expr1n expr2 q.
  by rewrite mul1r.
move: D; rewrite u1 mulN1r oppr_ge0 => D; have -> : p = 0 by apply/eqP; rewrite eq_le D.
by rewrite oppr0.
Qed.
Lemma ln_inv (x : R) : 0 < x -> ln x^-1 = - ln x.
Proof.
move=> h; have -> : x^-1 = Rinv x by rewrite /GRing.inv /= /Rinvx gt_eqF.
by rewrite ln_Rinv //; exact/RltP.
Qed.
Lemma ln_prod n (s : 'rV[R]_n) : (forall i, 0 < s 0 i) -> ln (\prod_i s 0 i) = \sum_i ln (s 0 i).
Proof.
elim: n s => [|n IH] s P; first by rewrite !big_ord0; exact: ln_1.
rewrite !big_ord_recr /= ln_mult; last exact/RltP.
  have -> : \prod_(i < n) s 0 (widen_ord (leqnSn n) i) = \prod_i (\row_i s 0 (widen_ord (leqnSn n) i)) 0 i by apply: eq_bigr => i _; rewrite mxE.
  rewrite IH; last by move=> i; rewrite mxE.
  by congr (_ + _); apply: eq_bigr => i _; rewrite mxE.
apply/RltP; by apply: prodr_gt0 => i _.
Qed.

(** C102: [cams], [exts], [poses]: the calibrator's cameras, extrinsics and views; [np]: the pose of the candidate view. All
    cameras are estimated and have been seen; every pose has been seen. The score is the binary logarithm of the
    determinant of the covariance of cameras and extrinsics, for the residuals of the calibrator and of the candidate view
    together; it is infinite if that covariance does not exist. *)
Theorem C102_score_partial : forall info cams exts poses rs news np (eig : forall n, 'M[R]_n -> 'M[R]_n * 'rV[R]_n) (svd : forall n, 'M[R]_n -> 'rV[R]_n),
  sensible info (app rs news) -> List.NoDup cams -> List.NoDup exts -> List.NoDup poses ->
  (forall p, In p cams <-> involves rs p /\ pi_fixed (info p) = false /\ pi_type (info p) = TCamera) ->
  (forall p, In p exts /\ pi_fixed (info p) = false <-> involves rs p /\ pi_fixed (info p) = false /\ pi_type (info p) = TExtrinsics) ->
  (forall p, In p poses <-> involves rs p /\ pi_fixed (info p) = false /\ pi_type (info p) = TPose) ->
  (forall p, involves rs p -> pi_fixed (info p) = false -> pi_type (info p) = TCamera \/ pi_type (info p) = TExtrinsics \/ pi_type (info p) = TPose) ->
  (forall p, pi_type (info p) = TPose -> pi_size (info p) = 6%ZZ) -> poses <> nil ->
  ~ involves rs np -> pi_fixed (info np) = false -> pi_type (info np) = TPose ->
  (forall p, involves news p -> pi_fixed (info p) = false -> p = np \/ involves rs p) ->
  let nviews := Z.of_nat (length poses) in
  let r := Z.to_nat (Z.add (sum_sizes info cams) (sum_sizes info (List.filter (fun p => negb (pi_fixed (info p))) exts))) in let m := Z.to_nat (Z.add (Z.mul nviews 6) 6) in
  exists L1 L2, Permutation L1 (app cams (List.filter (fun p => negb (pi_fixed (info p))) exts)) /\ Permutation L2 poses /\
    forall J : 'M[R]_(total_rows (app rs news), r + m), jacobian info (app L1 (app L2 [:: np])) J ->
      let H := J^T *m J in let D := drsubmx H in let I := ulsubmx H - ursubmx H *m invmx D *m dlsubmx H in
      eig_of D (eig m D).1 (eig m D).2 -> exceeds (10%:R ^+ 8)^-1 D -> svd_of I (svd r I) ->
      (H \in unitmx -> 0 < \det (ulsubmx (invmx H)) /\
         nbv_eval info cams exts nviews rs news eig svd = Ret (Some (ln (\det (ulsubmx (invmx H))) / ln 2))) /\
      (H \notin unitmx -> nbv_eval info cams exts nviews rs news eig svd = Ret None).
Proof.
move=> info cams exts poses rs news np eig svd HS Nc Ne Np Hc He Hp KT PS Pn NP NF NT NN nviews r m.
have [SZ NB] := HS.
have er : Z.to_nat (nbv_remain info cams exts) = r by rewrite /r /nbv_remain -!sizes_sum.
pose C := nbv_seen info TCamera (blocks_of rs); pose E := nbv_seen info TExtrinsics (blocks_of rs); pose P := nbv_seen info TPose (blocks_of rs).
have ht t p : (has_type info t p = true <-> pi_type (info p) = t /\ t <> TOther) by rewrite /has_type; case: (pi_type (info p)); case: t; split=> //; case.
have PC : Permutation C cams.
  apply: NoDup_Permutation => //; first exact: seen_nodup.
  by move=> p; rewrite seen_in Hc ht; intuition.
have PE : Permutation E (List.filter (fun p => negb (pi_fixed (info p))) exts).
  apply: NoDup_Permutation; [exact: seen_nodup|exact: List.NoDup_filter|].
  move=> p; rewrite seen_in ht filter_In; have := He p; case: (pi_fixed (info p)) => /=; intuition congruence.
have PP : Permutation P poses.
  apply: NoDup_Permutation => //; first exact: seen_nodup.
  by move=> p; rewrite seen_in Hp ht; intuition.
exists (app C E), P; split; first exact: Permutation_app.
split=> // J HJ H D I HE HX HV.
have KT' p : involves (app rs news) p -> pi_fixed (info p) = false -> pi_type (info p) = TCamera \/ pi_type (info p) = TExtrinsics \/ pi_type (info p) = TPose.
  move=> /inv_app [hp|hp] hf; first exact: KT.
  by case: (NN p hp hf) => [->|hr]; [right; right|exact: KT].
have PN : exists p, involves rs p /\ pi_fixed (info p) = false /\ pi_type (info p) = TPose.
  have [q hq] : exists q, In q poses by exact: nonempty_in.
  by exists q; apply/Hp.
have [o [Eo Ho]] := @nbv_new info rs news np KT' NP NF NN PS PN.
set L := app (app C E) (app P [:: np]) in HJ.
have EL : app (nbv_list info rs) [:: np] = L by rewrite /L /nbv_list -!app_assoc.
rewrite EL in Ho.
have NL : List.NoDup L.
  rewrite -EL; apply: NoDup_snoc; [exact: list_nodup|]; rewrite list_in; by case.
have FL q : In q L -> pi_fixed (info q) = false.
  by rewrite -EL in_app_iff list_in => -[[_ [? _]]|[<-|[]]].
have cover q : involves (app rs news) q -> pi_fixed (info q) = true \/ In q L.
  move=> hq; case F: (pi_fixed (info q)); [by left|right]; rewrite -EL in_app_iff list_in.
  case/inv_app: (hq) => h; first by left; split => //; split => //; exact: KT'.
  by case: (NN q h F) => [->|h']; [right; left|left; split => //; split => //; exact: KT'].
have szL : Z.of_nat (r + m) = sum_sizes info L by case: HJ => -> _; rewrite sizes_sum.
have HM : mx (r + m) (fun a b => Rplus (fst (form_hessian info (nbv_order info (blocks_of rs)) rs) a b) (fst (form_hessian info o news) a b)) = H.
  case: HJ => _ HJ; apply/matrixP => c d; rewrite !mxE.
  have cv (i : 'I_(r + m)) : exists p a, column info L p a (Z.of_nat i).
    have := ltn_ord i; move/ssrnat.ltP => lt; apply: column_cover => //; rewrite -szL; lia.
  case: (cv c) => p [a hp]; case: (cv d) => q [b hq].
  have e1 : fst (form_hessian info (nbv_order info (blocks_of rs)) rs) (Z.of_nat c) (Z.of_nat d) = fst (form_hessian info (CovarProofs.o info L) rs) (Z.of_nat c) (Z.of_nat d).
    apply: hess_ext => y hy hf; rewrite /CovarProofs.o -EL /order_at assign_app find_app.
    have : In y (nbv_list info rs) by rewrite list_in; split => //; split => //; apply: KT.
    by move/(assign_find_In info (nbv_list info rs) Z0) => [i hi]; have -> : order_find (nbv_order info (blocks_of rs)) y = Some i by [].
  have e2 : fst (form_hessian info o news) (Z.of_nat c) (Z.of_nat d) = fst (form_hessian info (CovarProofs.o info L) news) (Z.of_nat c) (Z.of_nat d).
    apply: hess_ext => y hy hf; apply: Ho => //; apply/inv_app; by right.
  rewrite e1 e2 (@hess_entry info L NL SZ FL rs p q a b _ _ _ _ hp hq); first 1 last.
  - by move=> x hx; apply: NB; apply/in_app_iff; left.
  - by move=> y hy; apply: cover; apply/inv_app; left.
  rewrite (@hess_entry info L NL SZ FL news p q a b _ _ _ _ hp hq); first 1 last.
  - by move=> x hx; apply: NB; apply/in_app_iff; right.
  - by move=> y hy; apply: cover; apply/inv_app; right.
  rewrite -stacked_sum_app sumn_big; apply: eq_bigr => k _; by rewrite !mxE (HJ p a) // (HJ q b).
have SG := gram_sym J; have ST : H^T = H by apply/symT.
have DT : D^T = D by rewrite /D trmx_drsub ST.
have EM : nbv_Hmm H = D by rewrite /nbv_Hmm -/D DT -mulr2n -scaler_nat scalerA mulVf ?scale1r // pnatr_eq0.
have K : D *m pinv (eps8 _) (eig _ D).1 (eig _ D).2 = 1%:M by apply: pinv_full => //; [exact/symT|exact: e8].
have uD : D \in unitmx by case/mulmx1_unit: K.
have EP : pinv (eps8 _) (eig _ D).1 (eig _ D).2 = invmx D by rewrite -[LHS](mulKmx uD) K mulmx1.
have EE : nbv_eval info cams exts nviews rs news eig svd = Ret (log_sum (svd r I)).
  rewrite /nbv_eval /nbv_hessian Eo /= er -/m HM EM /nbv_info /nbv_marginal EP; by [].
have KD : D *m invmx D = 1%:M by rewrite mulmxV.
have DI : schur_ul H (invmx D) = I by [].
have dD := ul_det KD; rewrite DI in dD.
have I0 (x : 'cV[R]_r) : 0 <= (x^T *m I *m x) 0 0.
  have X0 := ul_quad x KD; rewrite DI in X0; rewrite X0.
  by rewrite gram_quad sqnorm_ge0.
have IS : I^T = I.
  by rewrite /I raddfB /= !trmx_mul trmx_inv trmx_ulsub trmx_ursub trmx_dlsub ST DT mulmxA.
have posI : H \in unitmx -> 0 < \det I.
  move=> UU; apply: pd_det; split=> // x nx; rewrite lt_def I0 andbT; apply/eqP => Q0.
  have X0 := ul_quad x KD; rewrite DI in X0.
  move: Q0; rewrite X0 gram_quad => /sqnorm_eq0 /(gram_inj UU); rewrite -col_mx0 => /eq_col_mx [xe _]; by rewrite xe eqxx in nx.
have detI0 : 0 <= \det I.
  have [UU|UU] := boolP (H \in unitmx); first exact: ltW (posI UU).
  have : I \notin unitmx by rewrite -DI (ul_unit KD).
  by rewrite unitmxE unitfE negbK => /eqP ->.
have PD := svd_det HV detI0; case: (HV) => s0 _.
split=> UU.
  have IV : I *m ulsubmx (invmx H) = 1%:M by rewrite -DI; exact: ul_inv.
  have dI := posI UU.
  have dC : \det (ulsubmx (invmx H)) = (\det I)^-1.
    have := congr1 (fun M => \det M) IV; rewrite /= det_mulmx det1 => e.
    by rewrite -[LHS](mulKf (lt0r_neq0 dI)) e mulr1.
  have sp i : 0 < svd r I 0 i.
    rewrite lt_def s0 andbT; apply/eqP => Z; move: dI; rewrite PD (bigD1 i) //= Z mul0r ltxx; by [].
  split; first by rewrite dC invr_gt0.
  rewrite EE /log_sum; case: ifP => [_|/negP []]; last by apply/forallP => i; rewrite gt_eqF.
  rewrite dC; have -> : ln (\det I)^-1 = - ln (\det I) by rewrite ln_inv.
  by rewrite PD ln_prod.
have : I \notin unitmx by rewrite -DI (ul_unit KD).
rewrite unitmxE unitfE negbK PD => /prodf_eq0 [i _ Zi].
rewrite EE /log_sum; case: ifP => // /forallP /(_ i); by rewrite Zi.
Qed.
