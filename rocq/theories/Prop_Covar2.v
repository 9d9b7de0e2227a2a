(** * C100 (continued): what goes wrong, and an example *)
From Coq Require Import Reals ZArith Lia Lra.
From Verif Require Import Base SolverLsqModel SolverLsqProofs MargHessModel CovarModel CovarSpec CovarProofs.
From mathcomp Require Import all_ssreflect all_algebra.
From Verif Require Import RealInst MargModel Prop_Marg CovarMatModel Prop_Covar.
Set Implicit Arguments.
Unset Strict Implicit.
Unset Printing Implicit Defensive.
Import Order.TTheory GRing.Theory Num.Theory.
Local Open Scope ring_scope.
Delimit Scope Z_scope with ZZ.

(** every parameter has one component; 9 is a time delay (a type the function does not know), the others are extrinsics *)
Definition w_info (p : Z) : pinfo := mkPinfo (if Z.eqb p 9 then TOther else TExtrinsics) false 1.
Definition J1 (x : R) : Z -> Z -> R := fun _ _ => x.
Definition J2 (x y : R) : Z -> Z -> R := fun k _ => if Z.eqb k 0 then x else y.
Ltac ords := repeat match goal with |- forall i : 'I_ _, _ => case; case => [|[|[|]]] // ? end.

Lemma col1 l p a c : column w_info l p a c -> a = Z0 /\ List.nth_error l (Z.to_nat c) = Some p.
Proof.
case=> l1 [l2 [-> [h ->]]]; change (pi_size (w_info p)) with 1%ZZ in h.
have -> : fold_right (fun q n => Z.add (pi_size (w_info q)) n) Z0 l1 = Z.of_nat (length l1).
  elim: l1 => [//|q l1 IH]; change (Z.add 1 (fold_right (fun q n => Z.add (pi_size (w_info q)) n) Z0 l1) = Z.of_nat (S (length l1))); rewrite IH; lia.
split; first lia.
have -> : Z.to_nat (Z.add (Z.of_nat (length l1)) a) = length l1 by lia.
by rewrite nth_error_app2 // Nat.sub_diag.
Qed.

(** ** Example *)
Definition r0 : Z -> R := fun _ => 0.
Definition ex_rs : list resid := [:: mkResid 2 r0 [:: (1%ZZ, J2 1 0); (2%ZZ, J2 1 2%:R)]].
Definition c2 (x y : R) : 'cV[R]_2 := \col_i (if i == 0 then x else y).
Definition ex_J : 'M[R]_(2, 1 + 1) := row_mx (c2 1 0) (c2 1 2%:R).
Definition one_eig n (A : 'M[R]_n) : 'M[R]_n * 'rV[R]_n := (1%:M, \row_i A i i).
Lemma c2_mul x y z t : (c2 x y)^T *m c2 z t = (x * z + y * t)%:M.
Proof. by apply/matrixP => i j; rewrite !mxE !big_ord_recl big_ord0 !mxE (ord1 i) (ord1 j) /= addr0. Qed.
Lemma ex_gram : ex_J^T *m ex_J = block_mx 1%:M 1%:M 1%:M 5%:R%:M.
Proof.
rewrite /ex_J tr_row_mx mul_col_row !c2_mul !mul0r !mulr0 !mulr1 ?mul1r !addr0 -natrM -mulrS; by [].
Qed.
Lemma one_eig1 (A : 'M[R]_1) : eig_of A (one_eig A).1 (one_eig A).2.
Proof.
rewrite /one_eig /=; have -> : \row_i A i i = const_mx (A 0 0) by apply/matrixP => i j; rewrite !mxE !(ord1 j).
rewrite {1}[A]s11; exact: eig11.
Qed.
Lemma small_lt1 : (10%:R ^+ 8)^-1 < 1 :> R.
Proof. by rewrite invf_lt1 ?exprn_gt0 ?ltr0n // exprn_egt1 // ltr1n. Qed.
Lemma exceeds11 (a : R) : (10%:R ^+ 8)^-1 < a -> exceeds (10%:R ^+ 8)^-1 (a%:M : 'M[R]_1).
Proof.
move=> h x nz; rewrite mul_scalar_mx; have -> : dot x (a *: x) = a * sqnorm x.
  by rewrite /dot /sqnorm mulr_sumr; apply: eq_bigr => i _; rewrite mxE expr2 mulrCA.
rewrite ltr_pmul2r // lt_def sqnorm_ge0 andbT; apply/eqP => /sqnorm_eq0 z; by rewrite z eqxx in nz.
Qed.
Lemma w_sens rs : (forall x, In x rs -> List.NoDup (List.map fst (rs_blk x))) -> sensible w_info rs.
Proof. by move=> h; split. Qed.
Lemma nd2 (a b : Z) : a <> b -> List.NoDup [:: a; b].
Proof. move=> h; constructor; first by case=> // E; apply: h. by constructor => //; constructor. Qed.
Lemma nd1 (a : Z) : List.NoDup [:: a].
Proof. constructor => //; constructor. Qed.
Lemma ex_jac : jacobian w_info [:: 1%ZZ; 2%ZZ] (ex_J : 'M_(total_rows ex_rs, 1 + 1)).
Proof.
split=> // p a k j /col1 [-> H]; rewrite /ex_J mxE; case: splitP => i; rewrite (ord1 i) => hj; rewrite hj in H; case: H => <-;
  rewrite mxE; by case: (i2 k) => ->.
Qed.
Theorem C100_ex : exists info params rs eig, sensible info rs /\ List.NoDup params /\
  (forall q, involves rs q -> pi_fixed (info q) = false -> In q params \/ pi_type (info q) <> TOther) /\
  (exists J : 'M[R]_(total_rows rs, 1 + Z.to_nat (cov_r info params)), jacobian info (app [:: 1%ZZ] params) J /\
    eig_of (ulsubmx (J^T *m J)) (eig 1%N (ulsubmx (J^T *m J))).1 (eig 1%N (ulsubmx (J^T *m J))).2 /\
    exceeds (10%:R ^+ 8)^-1 (ulsubmx (J^T *m J))) /\
  exists C i, estimate_covariance info params rs eig = Some C /\ C i i = 4%:R^-1.
Proof.
have nd := @nd2 1%ZZ 2%ZZ ltac:(by []).
have HS : sensible w_info ex_rs by apply: w_sens => x [<-|[]].
have KT q : involves ex_rs q -> pi_fixed (w_info q) = false -> In q [:: 2%ZZ] \/ pi_type (w_info q) <> TOther.
  by case=> x [[<-|[]]] [<-|[<-|[]]] _; right.
have HE : eig_of (ulsubmx (ex_J^T *m ex_J)) (one_eig (ulsubmx (ex_J^T *m ex_J))).1 (one_eig (ulsubmx (ex_J^T *m ex_J))).2 by exact: one_eig1.
have HX : exceeds (10%:R ^+ 8)^-1 (ulsubmx (ex_J^T *m ex_J)) by rewrite ex_gram block_mxKul; apply: exceeds11; exact: small_lt1.
exists w_info, [:: 2%ZZ], ex_rs, one_eig; split=> //; split; first exact: nd1; split=> //; split.
  by exists ex_J; split; [exact: ex_jac|].
have n4 : 4%:R != 0 :> R by rewrite pnatr_eq0.
have MI : ex_J^T *m ex_J *m block_mx (5%:R / 4%:R)%:M (- 4%:R^-1)%:M (- 4%:R^-1)%:M (4%:R^-1)%:M = 1%:M.
  rewrite ex_gram mulmx_block !mul1mx !mul_scalar_mx !scale_scalar_mx -!raddfD /= scalar_mx_block.
  have e5 : 5%:R = 4%:R + 1 :> R by rewrite -mulrSr.
  have sz : 0%:M = 0 :> 'M[R]_1 by apply/matrixP => i j; rewrite !mxE mul0rn.
  congr block_mx.
  - by rewrite e5 mulrDl mul1r mulfV // addrK.
  - by rewrite addNr sz.
  - by rewrite mulrN addrN sz.
  - by rewrite e5 mulrDl mul1r mulfV // addrCA addNr addr0.
have [U _] := mulmx1_unit MI.
exists (4%:R^-1)%:M, ord0; split; last by rewrite mxE eqxx.
rewrite (@est_cov_eq w_info [:: 2%ZZ] ex_rs one_eig ex_J HS (nd1 _) KT ex_jac HE HX) U; congr Some.
by rewrite -[invmx _]mulmx1 -MI mulKmx // block_mxKdr.
Qed.

(** ** Refutations *)
(** A parameter whose type the function does not know shares the columns of the first one: the covariance is 1/4 although
    parameter 2 cannot be told from the time delay. *)
Definition al_rs : list resid := [:: mkResid 1 r0 [:: (9%ZZ, J1 1); (2%ZZ, J1 1)]].
Definition al_J : 'M[R]_(1, 1 + 1) := row_mx 1%:M 1%:M.
Lemma al_jac : jacobian w_info [:: 9%ZZ; 2%ZZ] (al_J : 'M_(total_rows al_rs, 1 + 1)).
Proof.
split=> // p a k j /col1 [-> H]; rewrite /al_J mxE; case: splitP => i; rewrite (ord1 i) => hj; rewrite hj in H; case: H => <-;
  rewrite mxE; by rewrite (ord1 k).
Qed.
Theorem C100_unknown_type_refuted : exists info params rs eig, sensible info rs /\ List.NoDup params /\
  (forall n A, symmetric A -> (n <= 1)%N -> eig_of A (eig n A).1 (eig n A).2) /\
  (exists J : 'M[R]_(total_rows rs, 1 + Z.to_nat (cov_r info params)), jacobian info (app [:: 9%ZZ] params) J /\ J^T *m J \notin unitmx) /\
  exists C i, estimate_covariance info params rs eig = Some C /\ C i i = 4%:R^-1.
Proof.
exists w_info, [:: 2%ZZ], al_rs, one_eig; split; first by apply: w_sens => x [<-|[]]; exact: nd2.
split; first exact: nd1.
split.
  move=> [|[|//]] A _ _; last exact: one_eig1.
  split; apply/matrixP; by case.
split.
  exists al_J; split; first exact: al_jac.
  rewrite /al_J tr_row_mx mul_col_row trmx1 mul1mx; apply/negP => U.
  have := mulmxV U; have Z0 : row_mx (1%:M : 'M[R]_1) (- 1%:M) *m block_mx 1%:M 1%:M 1%:M 1%:M = 0.
    by rewrite mul_row_block !mulNmx !mul1mx !addrN row_mx0.
  move/(congr1 (fun M => row_mx (1%:M : 'M[R]_1) (- 1%:M) *m M)); rewrite mulmxA Z0 mul0mx mulmx1 -row_mx0 => /eq_row_mx [/matrixP /(_ 0 0) E _].
  by move/eqP: E; rewrite !mxE eqxx eq_sym oner_eq0.
have H4 : cov_hessian w_info [:: 2%ZZ] al_rs Z0 Z0 = 4%:R.
  cbv -[Rplus Rmult R1 R0]; lra.
set H := mx (0 + 1) (cov_hessian w_info [:: 2%ZZ] al_rs).
have n4 : 4%:R != 0 :> R by rewrite pnatr_eq0.
have SE (P : 'M_0) : schur_H H P = 4%:R%:M.
  by apply/matrixP => i j; rewrite !mxE big_ord0 subr0 (ord1 i) (ord1 j) /= H4.
have U : (4%:R%:M : 'M[R]_1) \in unitmx by rewrite unitmxE det_scalar1 unitfE.
exists ((4%:R^-1)%:M : 'M[R]_1); exists (ord0 : 'I_1); split; last by rewrite mxE eqxx.
have E (V : 'M_0) l : covariance V l H = Some (4%:R^-1)%:M; last exact: E.
rewrite /covariance SE U /sum_all big_ord0 normr0 ltNge invr_ge0 exprn_ge0 ?ler0n //=; congr Some.
by rewrite -[invmx _]mul1mx -[1%:M](_ : (4%:R^-1)%:M *m 4%:R%:M = _) ?mulmxK // -scalar_mxM mulVf.
Qed.

(** Weak information, an eigenvalue of at most 1e-8, makes the function fail although the covariance exists. *)
Definition eps5 : R := (10%:R ^+ 5)^-1.
Definition wk_rs : list resid := [:: mkResid 1 r0 [:: (1%ZZ, J1 eps5)]; mkResid 1 r0 [:: (2%ZZ, J1 1)]].
Definition wk_J : 'M[R]_(2, 1 + 1) := row_mx (c2 eps5 0) (c2 0 1).
Lemma wk_jac : jacobian w_info [:: 1%ZZ; 2%ZZ] (wk_J : 'M_(total_rows wk_rs, 1 + 1)).
Proof.
split=> // p a k j /col1 [-> H]; rewrite /wk_J mxE; case: splitP => i; rewrite (ord1 i) => hj; rewrite hj in H; case: H => <-;
  rewrite mxE; by case: (i2 k) => ->.
Qed.
Lemma eps5_gt0 : 0 < eps5. Proof. by rewrite invr_gt0 exprn_gt0 ?ltr0n. Qed.
Lemma eps5_sq : eps5 * eps5 = (10%:R ^+ 10)^-1.
Proof. by rewrite /eps5 -invfM -exprD. Qed.
Lemma wk_gram : wk_J^T *m wk_J = block_mx (eps5 * eps5)%:M 0 0 1%:M.
Proof.
have sz : 0%:M = 0 :> 'M[R]_1 by apply/matrixP => i j; rewrite !mxE mul0rn.
by rewrite /wk_J tr_row_mx mul_col_row !c2_mul !mul0r !mulr0 !mulr1 !addr0 !add0r sz.
Qed.
Lemma exps (a b : nat) : (a < b)%N -> (10%:R ^+ b)^-1 < (10%:R ^+ a)^-1 :> R.
Proof. by move=> h; rewrite ltf_pinv ?posrE ?exprn_gt0 ?ltr0n // ltr_eexpn2l // ltr1n. Qed.
Theorem C100_weak_refuted : exists info params rs eig, sensible info rs /\ List.NoDup params /\
  (forall q, involves rs q -> pi_fixed (info q) = false -> In q params \/ pi_type (info q) <> TOther) /\
  (exists J : 'M[R]_(total_rows rs, 1 + Z.to_nat (cov_r info params)), jacobian info (app [:: 1%ZZ] params) J /\
    eig_of (ulsubmx (J^T *m J)) (eig 1%N (ulsubmx (J^T *m J))).1 (eig 1%N (ulsubmx (J^T *m J))).2 /\
    J^T *m J \in unitmx) /\
  estimate_covariance info params rs eig = None.
Proof.
have HS : sensible w_info wk_rs by apply: w_sens => x [<-|[<-|[]]]; exact: nd1.
have KT q : involves wk_rs q -> pi_fixed (w_info q) = false -> In q [:: 2%ZZ] \/ pi_type (w_info q) <> TOther.
  by case=> x [[<-|[<-|[]]]] [<-|[]] _; right.
exists w_info, [:: 2%ZZ], wk_rs, one_eig; split=> //; split; first exact: nd1; split=> //; split.
  exists wk_J; split; [exact: wk_jac|]; split; first exact: one_eig1.
  rewrite wk_gram unitmxE det_ublock det_scalar1 det1 mulr1 unitfE mulf_neq0 // gt_eqF //; exact: eps5_gt0.
rewrite /estimate_covariance (@cov_gram w_info [:: 2%ZZ] wk_rs HS (nd1 _) KT wk_J wk_jac) (Hmm_sym _ (gram_sym _)) wk_gram.
rewrite block_mxKul /covariance.
have -> : pinv (eps8 _) (one_eig ((eps5 * eps5)%:M : 'M_1)).1 (one_eig ((eps5 * eps5)%:M : 'M_1)).2 = 0.
  rewrite /pinv; have -> : select_inv (eps8 _) (one_eig ((eps5 * eps5)%:M : 'M_1)).2 = 0.
    apply/matrixP => i j; rewrite !mxE !(ord1 j) eqxx mulr1n eps5_sq /eps8 ltNge ltW //; exact: exps.
  by rewrite raddf0 mulmx0 mul0mx.
rewrite mulmx0 sub0r.
have -> : sum_all (- 1%:M : 'M[R]_1) = - 1 by rewrite /sum_all !big_ord_recl !big_ord0 !mxE eqxx !addr0.
have := exps (isT : (0 < 4)%N); rewrite expr0 invr1 normrN1 => ->; by [].
Qed.


(** The check of the inverse adds up entries that cancel: two parameters 1 and 2 that only their difference, weakly and
    together with 3, and their sum constrain. The covariance of 3 does not exist, the function returns 1. *)
Definition ck_rs : list resid :=
  [:: mkResid 1 r0 [:: (1%ZZ, J1 1); (2%ZZ, J1 1)]; mkResid 1 r0 [:: (1%ZZ, J1 eps5); (2%ZZ, J1 (- eps5)); (3%ZZ, J1 1)]].
Definition ck_Jm : 'M[R]_2 := \matrix_(i, j) (if i == 0 then 1 else if j == 0 then eps5 else - eps5).
Definition ck_J : 'M[R]_(2, 2 + 1) := row_mx ck_Jm (c2 0 1).
Lemma ck_jac : jacobian w_info [:: 1%ZZ; 2%ZZ; 3%ZZ] (ck_J : 'M_(total_rows ck_rs, 2 + 1)).
Proof.
split=> // p a k j /col1 [-> H]; rewrite /ck_J mxE; case: splitP => i hj; rewrite hj in H.
  by case: (i2 i) => E; move: H; rewrite E => -[<-]; rewrite mxE; case: (i2 k) => ->.
by move: H; rewrite (ord1 i) => -[<-]; rewrite mxE; case: (i2 k) => ->.
Qed.
Definition ck_eig n : 'M[R]_n -> 'M[R]_n * 'rV[R]_n :=
  match n with 2%N => fun _ => (V2x (Num.sqrt (2%:R^-1)), \row_i (if i == 0 then 2%:R else 2%:R * (eps5 * eps5))) | _ => fun _ => (0, 0) end.
Theorem C100_check_refuted : exists info params rs eig, sensible info rs /\ List.NoDup params /\
  (forall q, involves rs q -> pi_fixed (info q) = false -> In q params \/ pi_type (info q) <> TOther) /\
  (exists J : 'M[R]_(total_rows rs, 2 + Z.to_nat (cov_r info params)), jacobian info (app [:: 1%ZZ; 2%ZZ] params) J /\
    eig_of (ulsubmx (J^T *m J)) (eig 2%N (ulsubmx (J^T *m J))).1 (eig 2%N (ulsubmx (J^T *m J))).2 /\
    J^T *m J \notin unitmx) /\
  exists C i, estimate_covariance info params rs eig = Some C /\ C i i = 1.
Proof.
have HS : sensible w_info ck_rs.
  apply: w_sens => x [<-|[<-|[]]]; first exact: nd2.
  by constructor; [case=> // -[]// []|exact: nd2].
have KT q : involves ck_rs q -> pi_fixed (w_info q) = false -> In q [:: 3%ZZ] \/ pi_type (w_info q) <> TOther.
  by case=> x [[<-|[<-|[]]]]; [case=> [<-|[<-|[]]]|case=> [<-|[<-|[<-|[]]]]] => _; right.
set s := Num.sqrt (2%:R^-1) : R.
have ss : s * s = 2%:R^-1 by rewrite -expr2 sqr_sqrtr // invr_ge0 ler0n.
have n2 : 2%:R != 0 :> R by rewrite pnatr_eq0.
have hh : 2%:R^-1 + 2%:R^-1 = 1 :> R by rewrite -mulr2n -[_ *+ 2]mulr_natl mulfV.
have HB : ck_J^T *m ck_J = block_mx (ck_Jm^T *m ck_Jm) (ck_Jm^T *m c2 0 1) ((c2 0 1)^T *m ck_Jm) 1%:M.
  by rewrite /ck_J tr_row_mx mul_col_row c2_mul mul0r mulr1 add0r.
pose e2 := eps5 * eps5.
have UE : ck_Jm^T *m ck_Jm = \matrix_(i, j) (if i == j then 1 + e2 else 1 - e2).
  apply/matrixP => i j; rewrite !mxE !big_ord_recl big_ord0 !mxE /= mulr1 addr0.
  by case: (i2 i) => ->; case: (i2 j) => -> /=; rewrite ?mulrN ?mulNr ?opprK.
have EI : eig_of (ulsubmx (ck_J^T *m ck_J)) (ck_eig (ulsubmx (ck_J^T *m ck_J))).1 (ck_eig (ulsubmx (ck_J^T *m ck_J))).2.
  rewrite HB block_mxKul UE /ck_eig -/s /=; split; apply/matrixP => i j; rewrite !mxE !big_ord_recl !big_ord0 !mxE.
    by case: (i2 i) => ->; case: (i2 j) => -> /=; rewrite ?(mulrN, mulNr, opprK, addr0, add0r, ss, hh, addrN).
  rewrite !big_ord_recl !big_ord0 !mxE.
  have g x : s * x * s = x / 2%:R by rewrite mulrAC ss mulrC.
  by case: (i2 i) => ->; case: (i2 j) => -> /=;
    rewrite ?(mulrN, mulNr, opprK, mulr0, mulr1, mulr0n, mulr1n, addr0, add0r, g, mulfV, mul0r) // -/e2 mulrAC mulfV // mul1r.
have NU : ck_J^T *m ck_J \notin unitmx.
  apply/negP => U; have Z0 : ck_J *m col_mx (c2 1 (-1)) (- (eps5 + eps5))%:M = 0.
    rewrite /ck_J mul_row_col; apply/matrixP => i j; rewrite !mxE !big_ord_recl !big_ord0 !mxE (ord1 j) /=.
    by case: (i2 i) => -> /=; rewrite ?(mul1r, mulr1, mul0r, mulrN, mulNr, opprK, addr0, mulr1n, addrN).
  move/(gram_inj U): Z0; rewrite -col_mx0 => /eq_col_mx [/matrixP /(_ 0 0) + _]; rewrite !mxE /= => /eqP; by rewrite oner_eq0.
exists w_info, [:: 3%ZZ], ck_rs, ck_eig; split=> //; split; first exact: nd1; split=> //; split.
  by exists ck_J; split; [exact: ck_jac|].
exists (1%:M : 'M[R]_1); exists (ord0 : 'I_1); split; last by rewrite mxE eqxx.
rewrite /estimate_covariance (@cov_gram w_info [:: 3%ZZ] ck_rs HS (nd1 _) KT ck_J ck_jac) (Hmm_sym _ (gram_sym _)) /covariance (Hmm_sym _ (gram_sym _)).
rewrite HB block_mxKul.
pose P : 'M[R]_2 := const_mx (4%:R^-1).
have -> : pinv (eps8 _) (ck_eig (ck_Jm^T *m ck_Jm)).1 (ck_eig (ck_Jm^T *m ck_Jm)).2 = P.
  rewrite /pinv /ck_eig -/s /=.
  have -> : select_inv (eps8 _) (\row_i (if i == 0 then 2%:R else 2%:R * (eps5 * eps5))) = \row_(i < 2) (if i == 0 then 2%:R^-1 else 0).
    apply/matrixP => i j; rewrite !mxE; case: (i2 j) => -> /=.
      by rewrite (lt_trans small_lt1) // ltr1n.
    rewrite eps5_sq ltNge /eps8 ler_pdivr_mulr ?exprn_gt0 ?ltr0n //.
    have -> : 10%:R ^+ 10 = 10%:R ^+ 8 * 10%:R ^+ 2 :> R by rewrite -exprD.
    rewrite mulKf ?expf_neq0 ?pnatr_eq0 //.
    by rewrite -natrX ler_nat.
  have q4 : 4%:R^-1 = 2%:R^-1 * 2%:R^-1 :> R by rewrite -invfM -natrM.
  apply/matrixP => i j; rewrite !mxE !big_ord_recl big_ord0 !mxE !big_ord_recl !big_ord0 !mxE q4 -ss.
  by case: (i2 i) => ->; case: (i2 j) => -> /=; rewrite ?(mulr0, mulr1, mul0r, mulr0n, mulr1n, addr0, add0r, ss) // mulrAC ss.
have -> : ck_Jm^T *m ck_Jm *m P - 1%:M = \matrix_(i, j) (if i == j then - 2%:R^-1 else 2%:R^-1).
  rewrite UE; have h4 : (1 + e2) / 4%:R + (1 - e2) / 4%:R = 2%:R^-1.
    rewrite -mulrDl addrACA addrN addr0 -[1 + 1]/(2%:R : R); have -> : 4%:R = 2%:R * 2%:R :> R by rewrite -natrM.
    by rewrite invfM mulrA mulfV // mul1r.
  have h1 : 2%:R^-1 - 1 = - 2%:R^-1 :> R by rewrite -[X in _ - X]hh opprD addrA addrN add0r.
  have h4' : (1 - e2) / 4%:R + (1 + e2) / 4%:R = 2%:R^-1 by rewrite addrC.
  apply/matrixP => i j; rewrite !mxE !big_ord_recl !big_ord0 !mxE.
  by case: (i2 i) => ->; case: (i2 j) => -> /=; rewrite ?addr0 ?h4 ?h4' ?h1 ?subr0.
have -> : schur_H (block_mx (ck_Jm^T *m ck_Jm) (ck_Jm^T *m c2 0 1) ((c2 0 1)^T *m ck_Jm) 1%:M) P = 1%:M :> 'M[R]_1.
  rewrite /schur_H block_mxKdr block_mxKdl block_mxKur.
  have -> : (c2 0 1)^T *m ck_Jm *m P = 0.
    apply/matrixP => i j; rewrite !mxE !big_ord_recl !big_ord0 !mxE !big_ord_recl !big_ord0 !mxE /=.
    by rewrite !(mul0r, mul1r, add0r, addr0) mulNr addrN.
  by rewrite mul0mx subr0.
have -> : sum_all (\matrix_(i < 2, j < 2) (if i == j then - 2%:R^-1 else 2%:R^-1 : R)) = 0.
  by rewrite /sum_all !big_ord_recl !big_ord0 !mxE /= !addr0 addNr addrN addr0.
by rewrite normr0 ltNge invr_ge0 exprn_ge0 ?ler0n //= unitmx1 invmx1.
Qed.
