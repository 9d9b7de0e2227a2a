(** * C48: pose updates (own solver: pose_t::plus; ceres: PoseLocalParameterization). *)
From Coq Require Import Reals Lra Psatz List Arith Lia.
From Coquelicot Require Import Coquelicot.
From Verif Require Import GeomModel GeomSpec GeomProofs Prop_Geom.
Import ListNotations.
Local Open Scope R_scope.

(** ** the norm of the incremental quaternion *)
Definition small (d : vec3) : Prop := 1 / 2 * vnorm d <= / 10 ^ 6.
Definition taylor7 (h : R) : R := h - h ^ 3 / 6 + h ^ 5 / 120 - h ^ 7 / 5040.

Lemma vnorm_sq d : vnorm d * vnorm d = vdot d d.
Proof. apply sqrt_sqrt. unfold vdot. nra. Qed.
Lemma vnorm_pos d : 0 <= vnorm d. Proof. apply sqrt_pos. Qed.

Lemma quat_delta_norm d :
  let h := 1 / 2 * vnorm d in
  qnorm2 (quat_delta d) = cos h * cos h + (sinc h * h) * (sinc h * h).
Proof.
  intros h. unfold quat_delta, qnorm2. fold h. mcbn.
  replace (cos h * cos h + sinc h * (1 / 2) * vx d * (sinc h * (1 / 2) * vx d) +
    sinc h * (1 / 2) * vy d * (sinc h * (1 / 2) * vy d) +
    sinc h * (1 / 2) * vz d * (sinc h * (1 / 2) * vz d))
   with (cos h * cos h + (sinc h) * (sinc h) * (1/4) * (vdot d d)) by (unfold vdot; field).
  rewrite <- vnorm_sq. unfold h. field.
Qed.

Lemma sinc_h h : 0 <= h ->
  (h = 0 \/ / 10 ^ 6 < h) /\ sinc h * h = sin h \/ (0 < h <= / 10 ^ 6 /\ sinc h * h = taylor7 h).
Proof.
  intros H. unfold sinc. rewrite Rabs_pos_eq; auto.
  destruct (Rlt_dec (/ 10 ^ 6) h).
  - left. split; auto. field. lra.
  - destruct (Req_dec h 0) as [ -> |].
    + left. split; auto. rewrite sin_0. ring.
    + right. split; [lra|]. unfold taylor7. field.
Qed.

Lemma fact_step n : INR (fact (S n)) = (INR n + 1) * INR (fact n).
Proof. rewrite fact_simpl, mult_INR, S_INR. reflexivity. Qed.
Lemma facts : INR (fact 1) = 1 /\ INR (fact 3) = 6 /\ INR (fact 5) = 120 /\ INR (fact 7) = 5040
  /\ INR (fact 9) = 362880 /\ INR (fact 11) = 39916800.
Proof.
  assert (F1 : INR (fact 1) = 1) by reflexivity.
  assert (F2 := fact_step 1). assert (F3 := fact_step 2). assert (F4 := fact_step 3).
  assert (F5 := fact_step 4). assert (F6 := fact_step 5). assert (F7 := fact_step 6).
  assert (F8 := fact_step 7). assert (F9 := fact_step 8). assert (F10 := fact_step 9).
  assert (F11 := fact_step 10).
  assert (I1 : INR 1 = 1) by reflexivity.
  assert (I2 := S_INR 1). assert (I3 := S_INR 2). assert (I4 := S_INR 3). assert (I5 := S_INR 4).
  assert (I6 := S_INR 5). assert (I7 := S_INR 6). assert (I8 := S_INR 7). assert (I9 := S_INR 8).
  assert (I10 := S_INR 9).
  set (x1 := INR (fact 1)) in *. set (x2 := INR (fact 2)) in *. set (x3 := INR (fact 3)) in *.
  set (x4 := INR (fact 4)) in *. set (x5 := INR (fact 5)) in *. set (x6 := INR (fact 6)) in *.
  set (x7 := INR (fact 7)) in *. set (x8 := INR (fact 8)) in *. set (x9 := INR (fact 9)) in *.
  set (x10 := INR (fact 10)) in *. set (x11 := INR (fact 11)) in *.
  clearbody x1 x2 x3 x4 x5 x6 x7 x8 x9 x10 x11.
  set (i1 := INR 1) in *. set (i2 := INR 2) in *. set (i3 := INR 3) in *. set (i4 := INR 4) in *.
  set (i5 := INR 5) in *. set (i6 := INR 6) in *. set (i7 := INR 7) in *. set (i8 := INR 8) in *.
  set (i9 := INR 9) in *. set (i10 := INR 10) in *. clearbody i1 i2 i3 i4 i5 i6 i7 i8 i9 i10.
  assert (x2 = 2) by (rewrite F2, I1, F1; ring).
  assert (x3 = 6) by (rewrite F3, I2, I1, H; ring).
  assert (x4 = 24) by (rewrite F4, I3, I2, I1, H0; ring).
  assert (x5 = 120) by (rewrite F5, I4, I3, I2, I1, H1; ring).
  assert (x6 = 720) by (rewrite F6, I5, I4, I3, I2, I1, H2; ring).
  assert (x7 = 5040) by (rewrite F7, I6, I5, I4, I3, I2, I1, H3; ring).
  assert (x8 = 40320) by (rewrite F8, I7, I6, I5, I4, I3, I2, I1, H4; ring).
  assert (x9 = 362880) by (rewrite F9, I8, I7, I6, I5, I4, I3, I2, I1, H5; ring).
  assert (x10 = 3628800) by (rewrite F10, I9, I8, I7, I6, I5, I4, I3, I2, I1, H6; ring).
  assert (x11 = 39916800) by (rewrite F11, I10, I9, I8, I7, I6, I5, I4, I3, I2, I1, H7; ring).
  repeat split; auto.
Qed.
Lemma taylor_bounds h : 0 < h <= 1 -> taylor7 h < sin h <= taylor7 h + h ^ 9 / 362880.
Proof.
  intros H. destruct facts as (F1 & F3 & F5 & F7 & F9 & F11).
  destruct (pre_sin_bound h 1) as [_ U]; [lra|lra|].
  destruct (pre_sin_bound h 2) as [L _]; [lra|lra|].
  unfold sin_approx, sin_term in U, L.
  change (2 * (1 + 1))%nat with 4%nat in U. change (2 * 2 + 1)%nat with 5%nat in L.
  cbn [sum_f_R0] in U, L.
  change (2 * 0 + 1)%nat with 1%nat in *. change (2 * 1 + 1)%nat with 3%nat in *.
  change (2 * 2 + 1)%nat with 5%nat in *. change (2 * 3 + 1)%nat with 7%nat in *.
  change (2 * 4 + 1)%nat with 9%nat in *. change (2 * 5 + 1)%nat with 11%nat in *.
  rewrite F1, F3, F5, F7, F9 in *. rewrite F11 in L. unfold taylor7. split.
  - eapply Rlt_le_trans; [|exact L]. clear L U F1 F3 F5 F7 F9 F11.
    assert (P : 0 < h ^ 9) by (apply pow_lt; lra).
    assert (h ^ 2 <= 1) by nra.
    assert (E : h ^ 11 = h ^ 9 * h ^ 2) by ring.
    assert (h ^ 11 <= h ^ 9) by nra.
    match goal with |- ?a < ?b => enough (0 < b - a) by lra end.
    match goal with |- 0 < ?a => replace a with (h ^ 9 / 362880 - h ^ 11 / 39916800) by field end.
    lra.
  - eapply Rle_trans; [exact U|]. clear L U F1 F3 F5 F7 F9 F11. apply Req_le. field.
Qed.

(** The incremental quaternion is exactly unit outside the series branch of sinc (and at 0);
    inside it its squared norm is below 1 by at most |dalpha/2|^10 / 181440 (<= 1e-65). *)
Lemma sin_le_h h : 0 <= h -> sin h <= h.
Proof. intros H. destruct (Req_dec h 0) as [ -> |]; [rewrite sin_0; lra|]. left. apply sin_lt_x. lra. Qed.

Theorem C48_quat_delta_norm : forall d,
  let h := 1 / 2 * vnorm d in
  ((h = 0 \/ / 10 ^ 6 < h) -> unitq (quat_delta d)) /\
  (0 < h <= / 10 ^ 6 -> 1 - h ^ 10 / 181440 <= qnorm2 (quat_delta d) < 1).
Proof.
  intros d h. pose proof (vnorm_pos d) as P. assert (Hp : 0 <= h) by (unfold h; lra).
  unfold unitq. rewrite quat_delta_norm. fold h. pose proof (sc h) as S.
  destruct (sinc_h h Hp) as [[C E]|[C E]]; rewrite E.
  - split; intros; [lra|]. destruct C; lra.
  - split; [intros [?|?]; lra|]. intros _.
    destruct (taylor_bounds h) as [L U]; [lra|].
    assert (T0 : 0 < taylor7 h).
    { unfold taylor7. assert (h ^ 3 = h * (h * h)) by ring. assert (h ^ 5 = h * (h * h) * (h * h)) by ring.
      assert (h ^ 7 = h ^ 5 * (h * h)) by ring. assert (0 < h ^ 5) by (apply pow_lt; lra).
      assert (h * h <= 1 / 2) by nra. nra. }
    pose proof (sin_le_h h Hp).
    assert (K : cos h * cos h = 1 - sin h * sin h) by lra. rewrite K. split; [|nra].
    assert (Q9 : 0 < h ^ 9) by (apply pow_lt; lra).
    assert (E10 : h ^ 10 = h ^ 9 * h) by ring.
    set (s := sin h) in *. set (t := taylor7 h) in *.
    assert ((s - t) * (s + t) <= h ^ 9 / 362880 * (2 * h)); [|nra].
    apply Rmult_le_compat; lra.
Qed.

(** ** pose_t::plus *)
Lemma pose_plus_norm x d :
  qnorm2 (p_q (pose_plus x d)) = qnorm2 (quat_delta (d_a d)) * qnorm2 (p_q x).
Proof. unfold pose_plus. cbn [p_q]. apply qnorm2_mul. Qed.

Definition big_or_zero (d : tang) : Prop := vnorm (d_a d) = 0 \/ 2 * / 10 ^ 6 < vnorm (d_a d).

Theorem C48_plus_keeps_unit_norm_partial : forall x d, unitq (p_q x) -> big_or_zero d ->
  unitq (p_q (pose_plus x d)).
Proof.
  intros x d H B. unfold unitq in *. rewrite pose_plus_norm, H, Rmult_1_r.
  apply (C48_quat_delta_norm (d_a d)). unfold big_or_zero in B. lra.
Qed.

(** missing case (series branch): the norm is not kept, it shrinks *)
Theorem C48_plus_keeps_unit_norm_refuted : forall x d, unitq (p_q x) ->
  0 < vnorm (d_a d) <= 2 * / 10 ^ 6 -> ~ unitq (p_q (pose_plus x d)).
Proof.
  intros x d H B U. unfold unitq in *. rewrite pose_plus_norm, H, Rmult_1_r in U.
  pose proof (proj2 (C48_quat_delta_norm (d_a d))) as K. cbv zeta in K. lra.
Qed.

(** ... but over any sequence of updates of any size the drift stays negligible *)
Theorem C48_plus_norm_drift : forall ds x, unitq (p_q x) ->
  1 - INR (length ds) * / 10 ^ 60 <= qnorm2 (p_q (fold_left pose_plus ds x)) <= 1.
Proof.
  assert (G : forall ds x b, 0 <= b -> 1 - b <= qnorm2 (p_q x) <= 1 ->
    1 - (b + INR (length ds) * / 10 ^ 60) <= qnorm2 (p_q (fold_left pose_plus ds x)) <= 1).
  { induction ds as [|d ds IH]; intros x b Hb H.
    - simpl. lra.
    - cbn [fold_left]. change (length (d :: ds)) with (S (length ds)). rewrite S_INR.
      replace (b + (INR (length ds) + 1) * / 10 ^ 60)
        with ((b + / 10 ^ 60) + INR (length ds) * / 10 ^ 60) by ring.
      apply IH; [lra|]. rewrite pose_plus_norm.
      assert (B : 1 - / 10 ^ 60 <= qnorm2 (quat_delta (d_a d)) <= 1).
      { destruct (C48_quat_delta_norm (d_a d)) as [A C]. cbv zeta in *.
        pose proof (vnorm_pos (d_a d)) as P.
        destruct (Rlt_dec (/ 10 ^ 6) (1 / 2 * vnorm (d_a d))) as [L|L].
        - unfold unitq in A. rewrite A; [|auto]. lra.
        - destruct (Req_dec (1 / 2 * vnorm (d_a d)) 0) as [Z|Z].
          + unfold unitq in A. rewrite A; [|auto]. lra.
          + destruct C as [C1 C2]; [lra|]. split; [|lra].
            eapply Rle_trans; [|exact C1].
            assert (P' : 0 <= 1 / 2 * vnorm (d_a d)) by lra.
            set (h := 1 / 2 * vnorm (d_a d)) in *.
            assert (h ^ 10 <= (/ 10 ^ 6) ^ 10) by (apply pow_incr; lra).
            assert ((/ 10 ^ 6) ^ 10 = / 10 ^ 60) by (rewrite pow_inv, <- pow_mult; reflexivity).
            assert (0 <= h ^ 10) by (apply pow_le; lra). lra. }
      set (u := qnorm2 (quat_delta (d_a d))) in *. set (v := qnorm2 (p_q x)) in *.
      assert (0 <= v) by (unfold v, qnorm2; nra). split; nra. }
  intros ds x H. specialize (G ds x 0 ltac:(lra)). unfold unitq in H. rewrite H in G. lra.
Qed.

(** a zero update is the identity, minus undoes plus *)
Lemma vnorm_0 : vnorm vzero = 0.
Proof. unfold vnorm, vdot, vzero; mcbn. replace (0*0+0*0+0*0) with 0 by ring. apply sqrt_0. Qed.
Lemma quat_delta_0 : quat_delta vzero = Q 1 0 0 0.
Proof.
  unfold quat_delta. rewrite vnorm_0, Rmult_0_r, cos_0. mat_eq; unfold vzero; mcbn; ring.
Qed.
Theorem C48_zero_update : forall x, pose_plus x tzero = x.
Proof.
  intros [r q]. unfold pose_plus, tzero. cbn [p_r p_q d_r d_a]. rewrite quat_delta_0, qmul_1.
  f_equal. mat_eq; unfold vzero; mcbn; ring.
Qed.
Lemma vnorm_opp d : vnorm (vopp d) = vnorm d.
Proof. unfold vnorm, vdot; mcbn. f_equal. ring. Qed.
Lemma quat_delta_opp d : quat_delta (vopp d) = qconj (quat_delta d).
Proof. unfold quat_delta. rewrite vnorm_opp. mat_eq; ring. Qed.
Theorem C48_minus_undoes_plus : forall x d, big_or_zero d ->
  pose_minus (pose_plus x d) d = x /\ pose_plus (pose_minus x d) d = x.
Proof.
  intros [r q] d B.
  assert (U : qnorm2 (quat_delta (d_a d)) = 1).
  { apply (C48_quat_delta_norm (d_a d)). unfold big_or_zero in B. lra. }
  unfold pose_minus, pose_plus, topp. cbn [p_r p_q d_r d_a]. rewrite quat_delta_opp.
  split; f_equal; try (mat_eq; ring); rewrite <- qmul_assoc.
  - rewrite qmul_conj, U. apply qmul_1.
  - replace (qmul (quat_delta (d_a d)) (qconj (quat_delta (d_a d))))
      with (qmul (qconj (quat_delta (d_a d))) (quat_delta (d_a d))) by (mat_eq; ring).
    rewrite qmul_conj, U. apply qmul_1.
Qed.

(** an update rotates by exactly |dalpha| about dalpha (in the parent frame) and translates by dr *)
Lemma sinc_half h : 0 <= h -> (h = 0 \/ / 10 ^ 6 < h) -> sinc h * h = sin h.
Proof. intros H C. destruct (sinc_h h H) as [[_ E]|[C' E]]; auto. destruct C; lra. Qed.

Lemma delta_rodrigues d : 2 * / 10 ^ 6 < vnorm d ->
  to_rot (quat_delta d) = rodrigues (vscale (/ vnorm d) d) (vnorm d).
Proof.
  intros B. pose proof (vnorm_pos d). set (n := vnorm d) in *. set (h := 1 / 2 * n).
  assert (U : qnorm2 (quat_delta d) = 1).
  { apply (C48_quat_delta_norm d). unfold h, n in *. lra. }
  rewrite to_rot_quat2rot; auto. unfold quat_delta. fold n. fold h.
  assert (Hs : sinc h = sin h / h).
  { unfold sinc. rewrite Rabs_pos_eq by (unfold h; lra).
    destruct (Rlt_dec _ _); auto. exfalso. unfold h in *. lra. }
  rewrite Hs. unfold rodrigues.
  assert (Nh : n = 2 * h) by (unfold h; field).
  assert (D : vdot d d = n * n) by (symmetry; apply vnorm_sq).
  destruct (half n) as [C1 D1]. replace (n / 2) with h in * by (unfold h; field).
  rewrite C1, D1. pose proof (sc h) as S.
  assert (n <> 0) by lra. assert (h <> 0) by lra.
  replace (vscale (sin h / h * (1 / 2)) d) with (vscale (sin h) (vscale (/ n) d))
    by (rewrite Nh; mat_eq; field; lra).
  set (u := vscale (/ n) d).
  assert (Du : vdot u u = 1).
  { unfold u, vdot; mcbn. transitivity (vdot d d / (n * n)); [unfold vdot; field; auto|].
    rewrite D. field. auto. }
  clearbody u. destruct u as [x y z]. unfold vdot in Du. cbn [vx vy vz] in Du.
  set (s := sin h) in *. set (c := cos h) in *. clearbody s c.
  assert (Z : z * z = 1 - x * x - y * y) by lra.
  mat_eq; ring [S Z].
Qed.

Theorem C48_update_meaning : forall x d, unitq (p_q x) -> 2 * / 10 ^ 6 < vnorm (d_a d) ->
  tf_rot (tf_pose (pose_plus x d)) =
    mmul (rodrigues (vscale (/ vnorm (d_a d)) (d_a d)) (vnorm (d_a d))) (tf_rot (tf_pose x)) /\
  tf_trans (tf_pose (pose_plus x d)) = vadd (tf_trans (tf_pose x)) (d_r d).
Proof.
  intros [r q] d H B. unfold unitq in H. simpl in H. unfold tf_pose, tf_q, pose_plus. cbn [p_r p_q].
  assert (E : forall C v, tf_rot (tf C v) = C) by (intros [] ?; reflexivity).
  assert (E' : forall C v, tf_trans (tf C v) = v) by (intros ? []; reflexivity).
  rewrite !E, !E'. split; auto. rewrite <- delta_rodrigues; auto.
  apply C47_quat2rot_homomorphism; auto.
  apply (C48_quat_delta_norm (d_a d)). lra.
Qed.

(** ** ceres parameterisation *)
Lemma pose_quat x : unitq (p_q x) ->
  tf_quat (tf_pose x) = p_q x \/ tf_quat (tf_pose x) = qopp (p_q x).
Proof.
  intros H. unfold tf_quat, tf_pose, tf_q.
  replace (tf_rot (tf (to_rot (p_q x)) (p_r x))) with (to_rot (p_q x)) by reflexivity.
  apply of_rot_to_rot; auto.
Qed.
Lemma pose_quat_unit x : unitq (p_q x) -> unitq (tf_quat (tf_pose x)).
Proof. intros H. destruct (pose_quat x H) as [ -> | -> ]; auto. unfold unitq. rewrite qnorm2_opp; auto. Qed.

Lemma quat_delta_norm_pos d : 0 < qnorm2 (quat_delta d).
Proof.
  destruct (C48_quat_delta_norm d) as [A C]. cbv zeta in *. pose proof (vnorm_pos d).
  destruct (Rlt_dec (/ 10 ^ 6) (1 / 2 * vnorm d)) as [L|L]; [unfold unitq in A; rewrite A; [lra|auto]|].
  destruct (Req_dec (1 / 2 * vnorm d) 0) as [Z|Z]; [unfold unitq in A; rewrite A; [lra|auto]|].
  destruct C as [C1 _]; [lra|]. assert (P' : 0 <= 1 / 2 * vnorm d) by lra. set (h := 1 / 2 * vnorm d) in *.
  assert (h ^ 10 <= 1 ^ 10) by (apply pow_incr; lra). rewrite pow1 in *. lra.
Qed.

Lemma qnormalize_unit q : 0 < qnorm2 q -> unitq (qnormalize q).
Proof.
  intros H. unfold qnormalize, unitq. destruct (Rlt_dec _ _); [|lra].
  set (n := sqrt (qnorm2 q)). assert (0 < n) by (apply sqrt_lt_R0; auto).
  transitivity (qnorm2 q / (n * n)); [unfold qnorm2; mcbn; field; lra|].
  unfold n. rewrite sqrt_sqrt by lra. field. lra.
Qed.

Theorem C48_ceres_plus_unit : forall x d, unitq (p_q x) -> unitq (p_q (ceres_Plus x d)).
Proof.
  intros x d H. unfold ceres_Plus. cbn [p_q]. apply qnormalize_unit. rewrite qnorm2_mul.
  rewrite (pose_quat_unit x H), Rmult_1_r. apply quat_delta_norm_pos.
Qed.

Lemma qnormalize_1 q : qnorm2 q = 1 -> qnormalize q = q.
Proof.
  intros H. unfold qnormalize. rewrite H. destruct (Rlt_dec 0 1); auto.
  rewrite sqrt_1, Rinv_1. mat_eq; ring.
Qed.

(** a zero update leaves the pose (the transform) unchanged, but the stored quaternion may
    change sign: Plus(x, 0) = x fails in parameter space *)
Theorem C48_ceres_zero_update : forall x, unitq (p_q x) ->
  tf_pose (ceres_Plus x tzero) = tf_pose x /\
  (ceres_Plus x tzero = x \/ ceres_Plus x tzero = P (p_r x) (qopp (p_q x))).
Proof.
  intros x H.
  assert (E : ceres_Plus x tzero = P (p_r x) (tf_quat (tf_pose x))).
  { unfold ceres_Plus, tzero. cbn [d_a d_r]. rewrite quat_delta_0, qmul_1.
    rewrite qnormalize_1 by (apply pose_quat_unit; auto).
    f_equal. destruct x as [[a b c] q]. unfold tf_pose, tf_q. cbn [p_r p_q].
    mat_eq; unfold vzero; mcbn; ring. }
  rewrite E. destruct x as [r q]. cbn [p_r p_q] in *.
  destruct (pose_quat (P r q) H) as [F|F]; rewrite F; cbn [p_r p_q]; split; auto.
  unfold tf_pose, tf_q. cbn [p_r p_q]. rewrite to_rot_opp. reflexivity.
Qed.
Theorem C48_ceres_zero_update_refuted : exists x, unitq (p_q x) /\ ceres_Plus x tzero <> x.
Proof.
  set (x := P vzero (Q (-1) 0 0 0)).
  assert (H : unitq (p_q x)) by (unfold x, unitq, qnorm2; mcbn; ring).
  exists x. split; auto.
  intros E. apply (f_equal p_q) in E. unfold ceres_Plus, tzero in E. cbn [d_a d_r p_q] in E.
  rewrite quat_delta_0, qmul_1 in E.
  rewrite qnormalize_1 in E by (apply pose_quat_unit; auto).
  unfold x, tf_quat, tf_pose, tf_q, of_rot in E. cbn [p_q p_r tf tf_rot to_rot m00 m11 m22 n00 n11 n22 qw qx qy qz] in E.
  destruct (Rlt_dec _ _) as [L|L] in E; [|lra].
  apply (f_equal qw) in E. cbn [qw] in E.
  match type of E with / 2 * sqrt ?u = _ => pose proof (sqrt_pos u) end. lra.
Qed.

(** both solvers perform the same pose update *)
Theorem C48_solvers_agree : forall x d, unitq (p_q x) -> big_or_zero d ->
  tf_pose (ceres_Plus x d) = tf_pose (pose_plus x d).
Proof.
  intros x d H B.
  assert (U : qnorm2 (quat_delta (d_a d)) = 1).
  { apply (C48_quat_delta_norm (d_a d)). unfold big_or_zero in B. lra. }
  unfold ceres_Plus, pose_plus, tf_pose at 1 4, tf_q. cbn [p_r p_q].
  rewrite qnormalize_1 by (rewrite qnorm2_mul, U, (pose_quat_unit x H); ring).
  replace (tf_trans (tf_pose x)) with (p_r x) by (destruct x as [[] ?]; reflexivity).
  f_equal. destruct (pose_quat x H) as [ -> | -> ]; auto.
  replace (qmul (quat_delta (d_a d)) (qopp (p_q x))) with (qopp (qmul (quat_delta (d_a d)) (p_q x)))
    by (mat_eq; ring).
  apply to_rot_opp.
Qed.

(** lift * PlusJacobian = identity (the rotation blocks; the translation blocks are both I3) *)
Theorem C48_lift_plus_jacobian : forall x, unitq (p_q x) ->
  mmul_34_43 (lift_jacobian_rot (tf_pose x)) (plus_jacobian_rot x) = I3.
Proof.
  intros x H. pose proof (pose_quat_unit x H) as U.
  unfold lift_jacobian_rot, plus_jacobian_rot.
  set (q := tf_quat (tf_pose x)) in *. destruct (C47_unit_closed q q U U) as (_ & _ & _ & E & _).
  rewrite E. clearbody q. unfold unitq, qnorm2 in U.
  assert (W : qw q * qw q = 1 - qx q * qx q - qy q * qy q - qz q * qz q) by lra.
  unfold mmul_34_43, vdot4, Qoplus. mat_eq; cbn [r0 r1 r2 c0 c1 c2]; mcbn; field_simplify; 
   replace (qw q ^ 2) with (qw q * qw q) by ring; rewrite ?W; field.
Qed.

(** PlusJacobian is the derivative of Plus(x, delta) in delta at 0 *)
Definition comp (p : pose) (i : nat) : R :=
  nth i [vx (p_r p); vy (p_r p); vz (p_r p); qx (p_q p); qy (p_q p); qz (p_q p); qw (p_q p)] 0.
Definition along (j : nat) (t : R) : tang :=
  let e k := if Nat.eqb j k then t else 0 in
  Tg (V3 (e 0%nat) (e 1%nat) (e 2%nat)) (V3 (e 3%nat) (e 4%nat) (e 5%nat)).

Definition ct (t : R) := cos (t / 2).
Definition st (t : R) := t / 2 * (1 - 1 / 6 * (t / 2 * (t / 2))
   + 1 / 120 * ((t / 2 * (t / 2)) * (t / 2 * (t / 2)))
   - 1 / 5040 * ((t / 2 * (t / 2)) * (t / 2 * (t / 2)) * (t / 2 * (t / 2)))).
Lemma deriv_norm A B :
  is_derive (fun t => / sqrt (ct t * ct t + st t * st t) * (A * ct t + B * st t)) 0 (B / 2).
Proof.
  unfold ct, st. auto_derive.
  - replace (0 * / 2) with 0 by ring. rewrite cos_0. repeat split; try lra.
    apply Rgt_not_eq. apply sqrt_lt_R0. lra.
  - replace (0 * / 2) with 0 by ring. rewrite cos_0, sin_0.
    match goal with |- context [sqrt ?u] => replace u with 1 by ring end.
    rewrite sqrt_1. field.
Qed.

Lemma small_delta (j : nat) t : Rabs t < / 10 ^ 6 -> (3 <= j < 6)%nat ->
  quat_delta (d_a (along j t)) =
  Q (ct t) (if Nat.eqb j 3 then st t else 0) (if Nat.eqb j 4 then st t else 0) (if Nat.eqb j 5 then st t else 0).
Proof.
  intros Ht Hj. unfold quat_delta.
  assert (N : vnorm (d_a (along j t)) = Rabs t).
  { unfold vnorm, vdot, along. cbn [d_a vx vy vz]. rewrite <- sqrt_Rsqr_abs. f_equal. unfold Rsqr.
    assert (j = 3 \/ j = 4 \/ j = 5)%nat as [ -> |[ -> | -> ]] by lia; simpl; ring. }
  rewrite N.
  assert (C : cos (1 / 2 * Rabs t) = ct t).
  { unfold ct. unfold Rabs. destruct (Rcase_abs t); [|f_equal; field].
    rewrite <- (cos_neg (t / 2)). f_equal. field. }
  rewrite C. unfold sinc.
  rewrite (Rabs_pos_eq (1 / 2 * Rabs t)) by (pose proof (Rabs_pos t); lra).
  destruct (Rlt_dec _ _) as [L|L]; [pose proof (Rabs_pos t); lra|].
  assert (K : 1 / 2 * Rabs t * (1 / 2 * Rabs t) = t / 2 * (t / 2)).
  { replace (1 / 2 * Rabs t * (1 / 2 * Rabs t)) with (Rabs t * Rabs t / 4) by field.
    rewrite <- Rabs_mult. rewrite Rabs_pos_eq by nra. field. }
  rewrite K.
  assert (j = 3 \/ j = 4 \/ j = 5)%nat as [ -> |[ -> | -> ]] by lia;
    unfold st, along; mat_eq; cbn [Nat.eqb]; field.
Qed.

Theorem C48_plus_jacobian_is_derivative : forall x i j, unitq (p_q x) -> (i < 7)%nat -> (j < 6)%nat ->
  is_derive (fun t => comp (ceres_Plus x (along j t)) i) 0 (plus_jacobian x i j).
Proof.
  intros x i j H Hi Hj. pose proof (pose_quat_unit x H) as U.
  destruct (le_lt_dec 3 j) as [J|J].
  - destruct (le_lt_dec 3 i) as [I|I].
    + (* rotation block *)
      set (q := tf_quat (tf_pose x)) in *.
      set (A := match i with 3%nat => qx q | 4%nat => qy q | 5%nat => qz q | _ => qw q end).
      set (ej := Q 0 (if Nat.eqb j 3 then 1 else 0) (if Nat.eqb j 4 then 1 else 0) (if Nat.eqb j 5 then 1 else 0)).
      set (pq := qmul ej q).
      set (B := match i with 3%nat => qx pq | 4%nat => qy pq | 5%nat => qz pq | _ => qw pq end).
      assert (V : plus_jacobian x i j = B / 2).
      { unfold plus_jacobian, B, pq, ej, plus_jacobian_rot, Qoplus. fold q.
        assert (i = 3 \/ i = 4 \/ i = 5 \/ i = 6)%nat as [ -> |[ -> |[ -> | -> ]]] by lia;
        assert (j = 3 \/ j = 4 \/ j = 5)%nat as [ -> |[ -> | -> ]] by lia;
        simpl; field. }
      rewrite V. eapply is_derive_ext_loc; [|apply (deriv_norm A B)].
      exists (mkposreal (/ 10 ^ 6) ltac:(lra)). intros t Ht.
      unfold ball in Ht; simpl in Ht; unfold AbsRing_ball, abs, minus, plus, opp in Ht; simpl in Ht.
      rewrite Ropp_0, Rplus_0_r in Ht.
      assert (Ht' : Rabs t < / 10 ^ 6) by (simpl; lra).
      unfold ceres_Plus. fold q. rewrite (small_delta j t Ht') by lia.
      unfold qnormalize. rewrite qnorm2_mul.
      replace (qnorm2 q) with 1 by (symmetry; exact U). rewrite Rmult_1_r.
      match goal with |- context [qnorm2 ?p] => assert (N : qnorm2 p = ct t * ct t + st t * st t) end.
      { unfold qnorm2. mcbn.
        assert (j = 3 \/ j = 4 \/ j = 5)%nat as [ -> |[ -> | -> ]] by lia; simpl; ring. }
      rewrite N.
      assert (CP : 0 < ct t).
      { unfold ct. apply cos_gt_0; pose proof PI2_3_2; unfold PI2 in *; unfold Rabs in Ht'; destruct (Rcase_abs t); lra. }
      destruct (Rlt_dec _ _) as [L|L]; [|nra].
      unfold A, B, pq, ej, comp.
      assert (i = 3 \/ i = 4 \/ i = 5 \/ i = 6)%nat as [ -> |[ -> |[ -> | -> ]]] by lia;
      assert (j = 3 \/ j = 4 \/ j = 5)%nat as [ -> |[ -> | -> ]] by lia;
      simpl; ring.
    + (* rotation update, translation component *)
      assert (V : plus_jacobian x i j = 0).
      { unfold plus_jacobian.
        assert (i = 0 \/ i = 1 \/ i = 2)%nat as [ -> |[ -> | -> ]] by lia;
        assert (j = 3 \/ j = 4 \/ j = 5)%nat as [ -> |[ -> | -> ]] by lia; reflexivity. }
      rewrite V. eapply is_derive_ext; [|apply (is_derive_const (comp x i))].
      intros t. unfold ceres_Plus, comp, along.
      assert (i = 0 \/ i = 1 \/ i = 2)%nat as [ -> |[ -> | -> ]] by lia;
      assert (j = 3 \/ j = 4 \/ j = 5)%nat as [ -> |[ -> | -> ]] by lia; simpl; ring.
  - destruct (le_lt_dec 3 i) as [I|I].
    + assert (V : plus_jacobian x i j = 0).
      { unfold plus_jacobian.
        assert (i = 3 \/ i = 4 \/ i = 5 \/ i = 6)%nat as [ -> |[ -> |[ -> | -> ]]] by lia;
        assert (j = 0 \/ j = 1 \/ j = 2)%nat as [ -> |[ -> | -> ]] by lia; reflexivity. }
      rewrite V.
      assert (E : forall t, ceres_Plus x (along j t) = P (vadd (tf_trans (tf_pose x)) (d_r (along j t))) (p_q (ceres_Plus x tzero))).
      { intros t. unfold ceres_Plus. f_equal. cbn [p_q].
        assert (j = 0 \/ j = 1 \/ j = 2)%nat as [ -> |[ -> | -> ]] by lia; reflexivity. }
      eapply is_derive_ext; [|apply (is_derive_const (comp (ceres_Plus x tzero) i))].
      intros t. rewrite (E t). unfold comp.
      assert (i = 3 \/ i = 4 \/ i = 5 \/ i = 6)%nat as [ -> |[ -> |[ -> | -> ]]] by lia; reflexivity.
    + assert (V : plus_jacobian x i j = if Nat.eqb i j then 1 else 0).
      { unfold plus_jacobian.
        assert (i = 0 \/ i = 1 \/ i = 2)%nat as [ -> |[ -> | -> ]] by lia;
        assert (j = 0 \/ j = 1 \/ j = 2)%nat as [ -> |[ -> | -> ]] by lia; reflexivity. }
      rewrite V.
      assert (E : forall t, comp (ceres_Plus x (along j t)) i = comp x i + (if Nat.eqb i j then t else 0)).
      { intros t. unfold ceres_Plus, comp, along.
        assert (i = 0 \/ i = 1 \/ i = 2)%nat as [ -> |[ -> | -> ]] by lia;
        assert (j = 0 \/ j = 1 \/ j = 2)%nat as [ -> |[ -> | -> ]] by lia; simpl; ring. }
      eapply is_derive_ext; [intros t; symmetry; apply E|].
      destruct (Nat.eqb i j); auto_derive; auto; ring.
Qed.

(** Examples *)
Example C48_ex : let x := P (V3 1 2 3) (Q (3/5) 0 (4/5) 0) in
  unitq (p_q x) /\ big_or_zero (Tg (V3 0 0 1) (V3 0 3 4))
  /\ 0 < vnorm (d_a (Tg vzero (V3 (/ 10 ^ 6) 0 0))) <= 2 * / 10 ^ 6.
Proof.
  cbv zeta. split; [unfold unitq, qnorm2; simpl; lra|]. split.
  - right. unfold vnorm, vdot; simpl. replace (0*0+3*3+4*4) with (5*5) by ring. rewrite sqrt_square; lra.
  - unfold vnorm, vdot; cbn [d_a vx vy vz].
    replace (/ 10 ^ 6 * / 10 ^ 6 + 0 * 0 + 0 * 0) with (/ 10 ^ 6 * / 10 ^ 6) by ring.
    rewrite sqrt_square; lra.
Qed.

(** pose_diff reads the stored (x,y,z,w) quaternion as (w,x,y,z); its rotation difference is
    nevertheless the right one, because the length of the vector part of conj(q0) q1 only
    depends on the dot product of the two quaternions: 2 |sin(angle / 2)|, and it is zero
    exactly for poses with the same rotation. *)
Lemma vec_part p q : unitq p -> unitq q -> let d := qmul (qconj p) q in
  vdot (qv d) (qv d) = 1 - (qw p * qw q + qx p * qx q + qy p * qy q + qz p * qz q) ^ 2.
Proof.
  intros Hp Hq d. unfold unitq in Hp, Hq. transitivity (qnorm2 p * qnorm2 q - (qw d) ^ 2).
  - unfold d, qnorm2, vdot, qv; mcbn; ring.
  - rewrite Hp, Hq. unfold d; mcbn; ring.
Qed.
Theorem C48_pose_diff : forall p0 p1, unitq (p_q p0) -> unitq (p_q p1) ->
  fst (pose_diff p0 p1) = vnorm (vsub (p_r p0) (p_r p1)) /\
  snd (pose_diff p0 p1) = 2 * vnorm (qv (qmul (qconj (p_q p0)) (p_q p1))) /\
  (snd (pose_diff p0 p1) = 0 <-> p_q p0 = p_q p1 \/ p_q p0 = qopp (p_q p1)).
Proof.
  intros [a p] [b q] Hp Hq. cbn [p_r p_q] in *. unfold pose_diff. cbn [fst snd p_r p_q].
  split; auto.
  assert (E : snd (pose_diff (P a p) (P b q)) = 2 * sqrt (1 - (qw p * qw q + qx p * qx q + qy p * qy q + qz p * qz q) ^ 2)).
  { unfold pose_diff. cbn [snd p_q].
    assert (R : forall u, unitq u -> unitq (reread u)) by (intros [] ?; unfold unitq, qnorm2, reread in *; simpl in *; lra).
    pose proof (vec_part (reread p) (reread q) (R p Hp) (R q Hq)) as V. cbv zeta in V.
    replace (quat4_mul (quat4_inv (reread p)) (reread q)) with (qmul (qconj (reread p)) (reread q))
      by (unfold quat4_mul, quat4_inv; mat_eq; ring).
    set (d := qmul (qconj (reread p)) (reread q)) in *.
    unfold vnorm. replace (vdot (V3 (2 * qx d) (2 * qy d) (2 * qz d)) (V3 (2 * qx d) (2 * qy d) (2 * qz d)))
      with (2 * 2 * vdot (qv d) (qv d)) by (unfold vdot, qv; mcbn; ring).
    rewrite sqrt_mult_alt by lra. rewrite sqrt_square by lra. f_equal. rewrite V. f_equal.
    unfold reread; mcbn; ring. }
  unfold pose_diff in E. cbn [snd p_q] in E. rewrite E. split.
  - unfold vnorm. rewrite vec_part by auto. reflexivity.
  - set (k := qw p * qw q + qx p * qx q + qy p * qy q + qz p * qz q).
    assert (D : forall s, s * s = 1 -> qnorm2 (qmul (Q 1 0 0 0) (Q (qw p - s * qw q) (qx p - s * qx q) (qy p - s * qy q) (qz p - s * qz q))) = 2 - 2 * s * k).
    { intros s Hs. unfold unitq in *. rewrite qmul_1. transitivity (qnorm2 p + s * s * qnorm2 q - 2 * s * k).
      - unfold qnorm2, k; mcbn; ring.
      - rewrite Hp, Hq, Hs. ring. }
    assert (K2 : k ^ 2 <= 1).
    { pose proof (vec_part p q Hp Hq) as V. cbv zeta in V. fold k in V.
      unfold vdot in V. nra. }
    assert (N0 : forall u, qnorm2 u = 0 -> qw u = 0 /\ qx u = 0 /\ qy u = 0 /\ qz u = 0)
      by (intros [] ?; unfold qnorm2 in *; simpl in *; repeat split; nra).
    split.
    + intros Z. assert (S : sqrt (1 - k ^ 2) = 0) by lra. apply sqrt_eq_0 in S; [|lra].
      assert (KK : k = 1 \/ k = -1) by (destruct (Rle_lt_dec 0 k); [left|right]; nra).
      destruct KK as [K|K].
      * left. specialize (D 1 ltac:(ring)). rewrite qmul_1 in D.
        destruct (N0 _ ltac:(rewrite D, K; ring)) as (? & ? & ? & ?). cbn [qw qx qy qz] in *.
        apply Q_ext; lra.
      * right. specialize (D (-1) ltac:(ring)). rewrite qmul_1 in D.
        destruct (N0 _ ltac:(rewrite D, K; ring)) as (? & ? & ? & ?). cbn [qw qx qy qz] in *.
        mat_eq; lra.
    + intros C. replace (1 - k ^ 2) with 0; [rewrite sqrt_0; ring|].
      unfold unitq, qnorm2 in Hp, Hq. assert (KK : k = 1 \/ k = -1).
      { clear - C Hq. unfold k. destruct C as [C|C]; rewrite C; [left|right]; mcbn; lra. }
      destruct KK as [ -> | -> ]; ring.
Qed.

Print Assumptions C48_plus_norm_drift.
Print Assumptions C48_plus_jacobian_is_derivative.
Print Assumptions C48_lift_plus_jacobian.
