(** * C102 (continued): an example, and when the score is not what it should be *)
From Coq Require Import Reals ZArith Lia Lra Permutation.
From Verif Require Import Base SolverLsqModel SolverLsqProofs MargHessModel CovarModel CovarSpec CovarProofs CovarProofs2 CovarEx.
From mathcomp Require Import all_ssreflect all_algebra.
From Verif Require Import RealInst MargModel Prop_Marg CovarMatModel Prop_Covar Prop_Covar2 Prop_Covar4.
Set Implicit Arguments.
Unset Strict Implicit.
Unset Printing Implicit Defensive.
Import Order.TTheory GRing.Theory Num.Theory.
Local Open Scope ring_scope.
Delimit Scope Z_scope with ZZ.

(** ** Diagonal matrices *)
Definition diag_svd n (A : 'M[R]_n) : 'rV[R]_n := \row_i A i i.
Lemma diag_eig n (d : 'rV[R]_n) : eig_of (diag_mx d) (one_eig (diag_mx d)).1 (one_eig (diag_mx d)).2.
Proof.
rewrite /one_eig /=; have -> : \row_i (diag_mx d) i i = d by apply/rowP => i; rewrite !mxE eqxx mulr1n.
split; rewrite ?trmx1 ?mul1mx ?mulmx1 //.
apply/matrixP => i j; rewrite !mxE; case: leqP => // _; by case: (eqVneq i j) => [->|h]; rewrite ?eqxx // eq_sym (negbTE h).
Qed.
Lemma diag_svd_of n (d : 'rV[R]_n) : (forall i, 0 <= d 0 i) -> svd_of (diag_mx d) (diag_svd (diag_mx d)).
Proof.
move=> h; have -> : diag_svd (diag_mx d) = d by apply/rowP => i; rewrite !mxE eqxx mulr1n.
by split=> //; exists 1%:M, 1%:M; rewrite !trmx1 !mul1mx !mulmx1.
Qed.
Lemma diag_exceeds n (c : R) (d : 'rV[R]_n) : (forall i, c < d 0 i) -> exceeds c (diag_mx d).
Proof.
move=> h x nz; have -> : dot x (diag_mx d *m x) = \sum_i d 0 i * (x i 0) ^+ 2.
  by apply: eq_bigr => i _; rewrite mul_diag_mx !mxE expr2 mulrCA.
have [i xi] : exists i, x i 0 != 0.
  apply/existsP; case: (boolP [exists i, x i 0 != 0]) => // K; case/negP: nz; apply/eqP/colP => i; rewrite mxE.
  apply/eqP; apply: contraNT K => xi; by apply/existsP; exists i.
rewrite /sqnorm mulr_sumr (bigD1 i) //= [X in _ < X](bigD1 i) //=; apply: ltr_le_add.
  by rewrite ltr_pmul2r // exprn_even_gt0.
by apply: ler_sum => j _; rewrite ler_wpmul2r ?sqr_ge0 // ltW.
Qed.
Lemma diag_pinv n (d : 'rV[R]_n) : pinv (eps8 _) (one_eig (diag_mx d)).1 (one_eig (diag_mx d)).2 = diag_mx (select_inv (eps8 _) d).
Proof.
rewrite /one_eig /=; have -> : \row_i (diag_mx d) i i = d by apply/rowP => i; rewrite !mxE eqxx mulr1n.
by rewrite /pinv trmx1 mul1mx mulmx1.
Qed.
Lemma row_split (d : 'rV[R]_13) : diag_mx d = block_mx (diag_mx (lsubmx (d : 'rV_(1 + 12)))) 0 0 (diag_mx (rsubmx (d : 'rV_(1 + 12)))).
Proof. by rewrite -diag_mx_row hsubmxK. Qed.
Definition info1 (s : R) : option R := if s != 0 then Some (- ln s / ln 2) else None.
(** the score of a diagonal information matrix with one column that remains *)
Lemma diag_score (d : 'rV[R]_13) : let M := (diag_mx d : 'M[R]_(1 + 12)) in
  nbv_info (one_eig (nbv_Hmm M)).1 (one_eig (nbv_Hmm M)).2 diag_svd M = info1 (d 0 0).
Proof.
move=> M; have EM : nbv_Hmm M = diag_mx (rsubmx (d : 'rV_(1 + 12))).
  rewrite /nbv_Hmm /M row_split block_mxKdr tr_diag_mx -mulr2n -scaler_nat scalerA mulVf ?scale1r // pnatr_eq0; by [].
rewrite EM /nbv_info /nbv_marginal diag_pinv /M row_split block_mxKul block_mxKur !mul0mx subr0 /log_sum.
have -> : diag_svd (diag_mx (lsubmx (d : 'rV_(1 + 12)))) = const_mx (d 0 0).
  by apply/rowP => i; rewrite !mxE eqxx mulr1n; congr (d _ _); apply: val_inj => /=; case: i => -[].
rewrite big_ord_recl big_ord0 addr0 mxE /info1; congr (if _ then _ else _).
apply/forallP/idP => [/(_ ord0)|h i]; by rewrite mxE.
Qed.
Lemma four_gt0 : 0 < IZR 4.
Proof. by apply/RltP; exact: (IZR_lt 0 4). Qed.
Lemma ln4 : - ln (IZR 4) / ln (IZR 2) = - 2%:R.
Proof.
have n2 : ln (IZR 2) != 0 by rewrite gt_eqF //; apply/RltP; exact: ln2_pos.
rewrite ln4_2; have -> : Rplus (ln (IZR 2)) (ln (IZR 2)) = 2%:R * ln (IZR 2) by rewrite mulr_natl mulr2n.
by rewrite -mulNr mulfK.
Qed.
Lemma mx_diag (H : Z -> Z -> R) (d : nat -> R) :
  (forall a b : nat, (a < 13)%coq_nat -> (b < 13)%coq_nat -> H (Z.of_nat a) (Z.of_nat b) = if Nat.eqb a b then d a else 0) ->
  mx 13 H = diag_mx (\row_(i < 13) d i).
Proof.
move=> h; apply/matrixP => i j; rewrite !mxE h; try by apply/ssrnat.ltP.
by case: Nat.eqb_spec => [E|E]; [have -> : i = j by exact: val_inj|have /negbTE -> : i != j by apply/eqP => K; apply: E; rewrite K]; rewrite ?eqxx ?mulr1n.
Qed.
Definition solves_diag (eig : forall n, 'M[R]_n -> 'M[R]_n * 'rV[R]_n) (svd : forall n, 'M[R]_n -> 'rV[R]_n) : Prop :=
  forall n (d : 'rV[R]_n), (forall i, 0 <= d 0 i) -> eig_of (diag_mx d) (eig n (diag_mx d)).1 (eig n (diag_mx d)).2 /\ svd_of (diag_mx d) (svd n (diag_mx d)).
Lemma one_solves : solves_diag one_eig diag_svd.
Proof. by move=> n d h; split; [exact: diag_eig|exact: diag_svd_of]. Qed.

(** C102: a camera that is not estimated is counted. Nothing remains to be estimated here (its covariance has no entries),
    but the score is that of the first component of the pose. *)
Theorem C102_fixed_camera_refuted : exists info cam rs news eig svd d,
  sensible info (app rs news) /\ pi_fixed (info cam) = true /\
  (exists H, nbv_hessian info rs news = Ret H /\ mx 13 H = diag_mx d /\ forall i, 0 <= d 0 i) /\ solves_diag eig svd /\
  nbv_eval info [:: cam] [::] 1 rs news eig svd = Ret (Some (- 2%:R)).
Proof.
have [H [EH HE]] := hess_f; have MD := mx_diag HE.
exists (n_info true), 1%ZZ, rs_f, news_f, one_eig, diag_svd, (\row_(i < 13) (if Nat.eqb i 0 then IZR 4 else if Nat.eqb i 12 then 0 else 1)).
split; first by split; [move=> p; rewrite /n_info; case: Z.eqb|move=> x [<-|[<-|[]]]; exact: nd2].
split=> //; split.
  exists H; split=> //; split=> // i; rewrite mxE; case: ifP => _; first exact: ltW four_gt0.
  by case: ifP => _; rewrite ?ler01.
split; first exact: one_solves.
rewrite /nbv_eval EH /=.
have := diag_score (\row_(i < 13) (if Nat.eqb i 0 then IZR 4 else if Nat.eqb i 12 then 0 else 1)); rewrite -MD => /= E.
rewrite mxE /= in E; rewrite [LHS](_ : _ = Ret (info1 (IZR 4))); last by congr Ret; exact: E.
rewrite /info1; have -> : IZR 4 != 0 by rewrite gt_eqF // four_gt0.
by rewrite ln4.
Qed.

(** C102: what the candidate view says about a camera that no view of the calibrator has seen has no influence: [v] is the
    derivative of its residual with respect to that camera. *)
Theorem C102_unseen_camera_refuted : exists info cam np rs news eig svd,
  pi_fixed (info cam) = false /\ ~ involves rs cam /\ solves_diag eig svd /\
  forall v, sensible info (app rs (news v)) /\ involves (news v) cam /\ (exists x, In x (news v) /\ block_for cam (rs_blk x) 6 0 = v) /\
    ~ involves rs np /\ involves (news v) np /\
    (exists H d, nbv_hessian info rs (news v) = Ret H /\ mx 13 H = diag_mx d /\ forall i, 0 <= d 0 i) /\
    nbv_eval info [:: cam] [::] 1 rs (news v) eig svd = Ret (Some (- 2%:R)).
Proof.
exists (n_info false), 1%ZZ, 3%ZZ, rs_u, news_u, one_eig, diag_svd.
split=> //; split; first by case=> x [[<-|[]] [|[]]].
split; first exact: one_solves.
move=> v; have [H [EH HE]] := hess_u v; have MD := mx_diag HE.
split; first by split; [move=> p; rewrite /n_info; case: Z.eqb|move=> x [<-|[<-|[]]]; [exact: nd1|exact: nd2]].
split; first by eexists; split; [left; reflexivity|right; left].
split; first by eexists; split; [left; reflexivity|].
split; first by case=> x [[<-|[]] [|[]]].
split; first by eexists; split; [left; reflexivity|left].
split.
  exists H; eexists; split=> //; split; first exact: MD.
  move=> i; rewrite mxE; case: ifP => _; first exact: ltW four_gt0.
  case: ifP => _; first by rewrite lexx.
  case: ifP => _; last by rewrite ler01.
  by apply: addr_ge0; [exact: ler01|exact: (sqr_ge0 (v : R))].
rewrite /nbv_eval EH /=.
have := diag_score (\row_(i < 13) (if Nat.eqb i 0 then IZR 4 else if Nat.eqb i 12 then 0 else if Nat.eqb i 6 then Rplus 1 (Rmult v v) else 1)); rewrite -MD => /= E.
rewrite mxE /= in E; rewrite [LHS](_ : _ = Ret (info1 (IZR 4))); last by congr Ret; exact: E.
rewrite /info1; have -> : IZR 4 != 0 by rewrite gt_eqF // four_gt0.
by rewrite ln4.
Qed.
(** C102: if the calibrator has no view yet whose pose is estimated, evaluating a candidate that sees something is undefined
    behaviour. *)
Theorem C102_no_pose_refuted : forall info cams exts nviews rs news np (eig : forall n, 'M[R]_n -> 'M[R]_n * 'rV[R]_n) (svd : forall n, 'M[R]_n -> 'rV[R]_n),
  (forall q, involves rs q -> pi_fixed (info q) = false -> pi_type (info q) <> TPose) ->
  involves news np -> ~ involves rs np -> pi_fixed (info np) = false ->
  nbv_eval info cams exts nviews rs news eig svd = Undef.
Proof. by move=> info cams exts nviews rs news np eig svd h1 h2 h3 h4; rewrite /nbv_eval (new_undef info rs news np h1 h2 h3 h4). Qed.

(** A problem that meets the hypotheses of C102_score_partial. Without the candidate view the score would be 0. *)
Definition J_e : 'M[R]_(total_rows (app rs_e news_e), 1 + 12) := \matrix_(k, c) jac_e (Z.of_nat k) (Z.of_nat c).
Lemma J_e_gram : J_e^T *m J_e = diag_mx (\row_(i < 13) (if Nat.eqb i 0 then IZR 4 else 1)).
Proof.
apply/matrixP => i j; rewrite !mxE.
have E := @gram_e i j; rewrite sumn_big in E.
transitivity (\sum_(k < 16) jac_e (Z.of_nat k) (Z.of_nat i) * jac_e (Z.of_nat k) (Z.of_nat j)).
  by apply: eq_bigr => k _; rewrite !mxE.
rewrite E; try by apply/ssrnat.ltP.
by case: Nat.eqb_spec => [K|K]; [have -> : i = j by exact: val_inj|have /negbTE -> : i != j by apply/eqP => K'; apply: K; rewrite K']; rewrite ?eqxx ?mulr1n.
Qed.
Example C102_ex : nbv_eval (n_info false) [:: 1%ZZ] [::] 1 rs_e news_e one_eig diag_svd = Ret (Some (- 2%:R)).
Proof.
have inv_e p : involves rs_e p <-> p = 1%ZZ \/ p = 2%ZZ.
  split; [by case=> x [[<-|[]] [<-|[<-|[]]]]; tauto|case=> ->; eexists; (split; [left; reflexivity|]); [by left|by right; left]].
have [] := @C102_score_partial (n_info false) [:: 1%ZZ] [::] [:: 2%ZZ] rs_e news_e 3%ZZ one_eig diag_svd.
- by split; [move=> p; rewrite /n_info; case: Z.eqb|move=> x [<-|[<-|[]]]; exact: nd2].
- exact: nd1.
- constructor.
- exact: nd1.
- move=> p; rewrite inv_e; split; [by case=> // <-; tauto|case=> -[->|->] [] //; by left].
- move=> p; rewrite inv_e; split; [by case|by case=> -[->|->] []].
- move=> p; rewrite inv_e; split; [by case=> // <-; tauto|case=> -[->|->] [] //; by left].
- by move=> p /inv_e [->|->] _; [left|right; right].
- by move=> p; rewrite /n_info; case: Z.eqb.
- by [].
- by rewrite inv_e; case.
- by [].
- by [].
- move=> p [x [[<-|[]] [<-|[<-|[]]]]] _; [by left|by right; rewrite inv_e; left].
move=> L1 [L2 [P1 [P2 T]]].
have E1 : L1 = [:: 1%ZZ] by apply: Permutation_length_1_inv; apply: Permutation_sym.
have E2 : L2 = [:: 2%ZZ] by apply: Permutation_length_1_inv; apply: Permutation_sym.
case: (T J_e); rewrite ?E1 ?E2.
- by split=> // p a k j h; rewrite mxE; exact: (jac_e_col _ _ _ _ h).
- rewrite J_e_gram row_split block_mxKdr; exact: diag_eig.
- rewrite J_e_gram row_split block_mxKdr; apply: diag_exceeds => i; rewrite !mxE /=; exact: small_lt1.
- rewrite J_e_gram row_split block_mxKdr block_mxKul block_mxKur !mul0mx subr0; apply: diag_svd_of => i; rewrite !mxE.
  by case: ifP => _; rewrite ?ler01 // ltW // four_gt0.
have U : J_e^T *m J_e \in unitmx.
  rewrite J_e_gram unitmxE det_diag unitfE; apply/prodf_neq0 => i _; rewrite mxE; case: ifP => _; rewrite ?oner_neq0 //.
  by rewrite gt_eqF // four_gt0.
case/(_ U) => _ -> _; congr (Ret (Some _)).
have IV : invmx (J_e^T *m J_e) = diag_mx (\row_(i < 13) (if Nat.eqb i 0 then (IZR 4)^-1 else 1)).
  rewrite -[RHS](mulKmx U) J_e_gram mulmx_diag -[LHS]mulmx1; congr (_ *m _); rewrite -[1%:M]diag_const_mx; congr diag_mx.
  by apply/rowP => i; rewrite !mxE; case: ifP => _; rewrite ?mulr1 // mulfV // gt_eqF // four_gt0.
rewrite IV row_split block_mxKul det_diag big_ord_recl big_ord0 mulr1 !mxE /=.
by rewrite ln_inv ?four_gt0 // ln4.
Qed.
