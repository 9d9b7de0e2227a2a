(** * C73, part 2: priors *)
From Coq Require Import Reals Lra Lia ZArith List Bool Psatz.
From Coquelicot Require Import Coquelicot.
From Verif Require Import Base GeomModel GeomSpec GeomProofs CameraModel Prop_Geom Prop_Geom2 Prop_Camera Prop_Camera2 CalcSpec ResidualModel ResidualProofs Prop_Residual.
Local Open Scope R_scope.

(** ** Priors *)
Lemma sum6_d (f : nat -> R -> R) (df : nat -> R) : (forall k, (k < 6)%nat -> is_derive (f k) 0 (df k)) ->
  is_derive (fun t => sum_to 6 (fun k => f k t)) 0 (sum_to 6 df).
Proof. intros H. cbn [sum_to]. repeat apply d_plus; try apply d_const; apply H; lia. Qed.
Lemma inv_sqrt_d (T : R -> R) (dT s : R) : is_derive T 0 dT -> 0 < s -> T 0 = s * s ->
  is_derive (fun t => / 2 / sqrt (T t)) 0 (- dT / (4 * (s * s * s))).
Proof.
  intros D Hs E. assert (ED : ex_derive T 0) by (now exists dT). apply is_derive_unique in D.
  assert (SS : sqrt (T 0) = s) by (rewrite E; apply sqrt_square; lra).
  auto_derive. { repeat split; auto; rewrite ?SS; nra. }
  change (Derive (fun x => T x) 0) with (Derive T 0). rewrite D, SS. field. lra.
Qed.
(** the angle between measured and estimated orientation is below 120 degrees iff the trace of
    the relative rotation is positive *)
Definition rel_rot (meas : mat4) (x : pose) : mat3 := mmul (tf_rot meas) (mtr (to_rot (p_q x))).
Definition trace (C : mat3) : R := m00 C + m11 C + m22 C.
Lemma prior_rot meas x : Rigid meas -> tf_rot (mmul4 meas (tf_inv (tf_pose x))) = rel_rot meas x.
Proof. intros (C & r & _ & ->). unfold tf_pose, tf_q, rel_rot. rewrite tf_inv_tf, mul_tf, !rot_tf. reflexivity. Qed.
Lemma prior_rot_d meas x d : Rigid meas -> unitq (p_q x) -> 0 < trace (rel_rot meas x) ->
  let q := of_rot (rel_rot meas x) in
  dv (fun t => d_a (prior_error meas (pose_plus x (tscale t d)))) 0 (mapp (mneg (topleft3 (Qplus q))) (d_a d)).
Proof.
  intros HR U HT q. assert (HR' := HR). destruct HR' as (Cm & rm & Om & Em).
  set (M := fun t => rel_rot meas (pose_plus x (tscale t d))).
  set (C := to_rot (p_q x)). assert (OC : IsRot C) by (apply to_rot_orth; auto).
  assert (M0 : M 0 = rel_rot meas x) by (unfold M; rewrite plus_0; reflexivity).
  assert (OM : IsRot (rel_rot meas x)).
  { unfold rel_rot. rewrite Em, rot_tf. fold C. destruct Om as [A B]. destruct OC as [A' B']. split.
    - rewrite mtr_mul, mtr_tr, mmul_assoc, <- (mmul_assoc (mtr Cm)), A, mmul_I_l. apply orth_right; auto.
    - rewrite mdet_mul, mdet_tr, B, B'. ring. }
  assert (DM : dm M 0 (mmul (rel_rot meas x) (skew (vopp (d_a d))))).
  { unfold M, rel_rot. eapply dm_eq. { apply dm_mmul; [apply dm_const|apply dm_mtr, pose_dR; auto]. }
    cbn beta. fold C. mat_eq; ring. }
  assert (RQ : rel_rot meas x = to_rot q) by (symmetry; apply to_rot_of_rot; apply OM).
  assert (UQ : qnorm2 q = 1).
  { destruct OM as [A B]. exact (proj2 (to_rot_of_rot _ A B)). }
  assert (WQ : 0 < qw q /\ trace (rel_rot meas x) + 1 = (2 * qw q) * (2 * qw q)).
  { unfold q, of_rot. fold (trace (rel_rot meas x)). destruct Rlt_dec; [|contradiction]. cbn [qw].
    pose proof (sqrt_lt_R0 (trace (rel_rot meas x) + 1) ltac:(lra)).
    split; [lra|]. replace (2 * (/ 2 * sqrt (trace (rel_rot meas x) + 1))) with (sqrt (trace (rel_rot meas x) + 1)) by field.
    rewrite sqrt_sqrt; lra. }
  destruct WQ as [WP WT].
  assert (DT : is_derive (fun t => trace (M t) + 1) 0 (trace (mmul (rel_rot meas x) (skew (vopp (d_a d)))))).
  { destruct DM as ((?&?&?)&(?&?&?)&(?&?&?)). unfold trace. eapply d_eq; [repeat dstep|]. apply Rplus_0_r. }
  assert (LP : locally 0 (fun t : R => 0 < trace (M t))).
  { apply filter_imp with (fun t : R => 0 < (trace (M t) + 1) + -1).
    - intros t Ht. lra.
    - apply near_pos; [|cbn beta; rewrite M0; lra]. eapply d_cont. apply d_plus; [exact DT|apply d_const]. }
  assert (LE : locally 0 (fun t : R => d_a (prior_error meas (pose_plus x (tscale t d))) =
     let k := / 2 / sqrt (trace (M t) + 1) in
     V3 (2 * ((m21 (M t) - m12 (M t)) * k)) (2 * ((m02 (M t) - m20 (M t)) * k)) (2 * ((m10 (M t) - m01 (M t)) * k)))).
  { apply filter_imp with (2 := LP). intros t Ht. unfold prior_error. cbn [d_a]. rewrite (prior_rot meas _ HR). fold (M t).
    unfold of_rot. fold (trace (M t)). destruct Rlt_dec; [|contradiction]. reflexivity. }
  assert (DK0 : trace (M 0) + 1 = 2 * qw q * (2 * qw q)) by (rewrite M0; exact WT).
  pose proof (inv_sqrt_d (fun t => trace (M t) + 1) _ (2 * qw q) DT ltac:(lra) DK0) as DK.
  rewrite RQ in DM, DK. 
  destruct DM as ((D00&D01&D02)&(D10&D11&D12)&(D20&D21&D22)).
  assert (KV : / 2 / sqrt (trace (M 0) + 1) = / (4 * qw q)).
  { rewrite M0, WT, sqrt_square by lra. field. lra. }
  clearbody q. rewrite RQ in M0.
  destruct q as [w a b c]. cbn [qw] in *. unfold qnorm2 in UQ. cbn [qw qx qy qz] in UQ. destruct (d_a d) as [X Y Z].
  split; [|split];
  (eapply is_derive_ext_loc; [apply filter_imp with (2 := LE); intros t Ht; symmetry; rewrite Ht; reflexivity|]);
  cbv zeta; cbn [vx vy vz];
  (eapply d_eq; [apply d_scal, d_mult; [apply d_minus; eassumption|exact DK]|]);
  cbn beta; rewrite KV, M0; unfold trace, mneg, topleft3, Qplus; mcbn; cbn [qw qx qy qz];
  apply Rminus_diag_uniq.
  - transitivity (X / w * (w * w + a * a + b * b + c * c - 1)); [field; lra|rewrite UQ; field; lra].
  - transitivity (Y / w * (w * w + a * a + b * b + c * c - 1)); [field; lra|rewrite UQ; field; lra].
  - transitivity (Z / w * (w * w + a * a + b * b + c * c - 1)); [field; lra|rewrite UQ; field; lra].
Qed.
Lemma trans_tf C r : tf_trans (tf C r) = r. Proof. destruct r; reflexivity. Qed.
Lemma prior_trans_d meas x d :
  dv (fun t => d_r (prior_error meas (pose_plus x (tscale t d)))) 0 (vopp (d_r d)).
Proof.
  eapply dv_eq.
  - eapply dv_ext; [|apply dv_sub; [apply (dv_const (tf_trans meas))|apply (pose_dr x d)]].
    intros s. cbn [prior_error d_r]. unfold tf_pose, tf_q. rewrite trans_tf. reflexivity.
  - mat_eq; ring.
Qed.

(** ** Specification of the prior: what a prior on a pose means.
    The residual is the weighted error; the error is the difference of positions and twice the
    vector part of the unit quaternion of the relative rotation measured * estimated^T. *)
Definition is_prior_error (meas : mat4) (x : pose) (e : tang) : Prop :=
  d_r e = vsub (tf_trans meas) (p_r x) /\
  exists q, qnorm2 q = 1 /\ to_rot q = mmul (tf_rot meas) (mtr (to_rot (p_q x))) /\ 
            d_a e = vscale 2 (V3 (qx q) (qy q) (qz q)).
(** entry [i] of [J] times the update [d] *)
Definition rowdot6 (J : matf) (i : nat) (d : tang) : R :=
  J i 0%nat * vx (d_r d) + J i 1%nat * vy (d_r d) + J i 2%nat * vz (d_r d) +
  J i 3%nat * vx (d_a d) + J i 4%nat * vy (d_a d) + J i 5%nat * vz (d_a d).

Lemma rel_orth meas x : Rigid meas -> unitq (p_q x) -> IsRot (rel_rot meas x).
Proof.
  intros (Cm & rm & [A B] & Em) U. destruct (to_rot_orth _ U) as [A' B']. unfold rel_rot. rewrite Em, rot_tf. split.
  - rewrite mtr_mul, mtr_tr, mmul_assoc, <- (mmul_assoc (mtr Cm)), A, mmul_I_l. apply orth_right; auto.
  - rewrite mdet_mul, mdet_tr, B, B'. ring.
Qed.
(** the error is the one specified, for every rigid measurement and unit estimate *)
Theorem C73_pose_prior_error : forall meas x, Rigid meas -> unitq (p_q x) ->
  is_prior_error meas x (prior_error meas x).
Proof.
  intros meas x HR U. split.
  - cbn [prior_error d_r]. unfold tf_pose, tf_q. rewrite trans_tf. reflexivity.
  - destruct (rel_orth meas x HR U) as [A B]. exists (of_rot (rel_rot meas x)).
    destruct (to_rot_of_rot _ A B) as [E N]. split; [exact N|]. split; [rewrite E; reflexivity|].
    unfold prior_error. cbn [d_a]. rewrite (prior_rot meas x HR). reflexivity.
Qed.
(** and its Jacobian is the derivative when measured and estimated orientation are less than
    120 degrees apart (positive trace of the relative rotation) *)
Theorem C73_pose_prior_partial : forall W meas x, Rigid meas -> unitq (p_q x) -> 0 < trace (rel_rot meas x) ->
  forall r J Jmin, pose_prior_evaluate W meas x true true = Ret (r, Some J, Some Jmin) ->
  (forall i, r i = sum_to 6 (fun k => W i k * tnth (prior_error meas x) k)) /\
  (forall i d, is_derive (fun t => prior_residual W meas (pose_plus x (tscale t d)) i) 0 (rowdot6 Jmin i d)) /\
  (forall i j, (j < 6)%nat -> mulf 7 J (plus_jacobian x) i j = Jmin i j).
Proof.
  intros W meas x HR U HT r J Jmin H. unfold pose_prior_evaluate in H.
  assert (Hr : prior_residual W meas x = r) by congruence.
  assert (HM : prior_jacobian W meas x = Jmin) by congruence.
  assert (HJ : mulf 6 (prior_jacobian W meas x) (lift_pose_jacobian (tf_pose x)) = J) by congruence.
  clear H. subst r J Jmin. split; [reflexivity|]. split.
  - intros i d. destruct (prior_trans_d meas x d) as (D0 & D1 & D2).
    pose proof (prior_rot_d meas x d HR U HT) as (D3 & D4 & D5).
    unfold prior_residual. eapply d_eq.
    + apply (sum6_d (fun k t => W i k * tnth (prior_error meas (pose_plus x (tscale t d))) k)
               (fun k => W i k * match k with O => - vx (d_r d) | 1%nat => - vy (d_r d) | 2%nat => - vz (d_r d)
                         | 3%nat => vx (mapp (mneg (topleft3 (Qplus (of_rot (rel_rot meas x))))) (d_a d))
                         | 4%nat => vy (mapp (mneg (topleft3 (Qplus (of_rot (rel_rot meas x))))) (d_a d))
                         | _ => vz (mapp (mneg (topleft3 (Qplus (of_rot (rel_rot meas x))))) (d_a d)) end)).
      intros k Hk. do 6 (destruct k as [|k]; [cbn [tnth]; apply d_scal; assumption|]). lia.
    + unfold prior_jacobian. rewrite (prior_rot meas x HR). unfold rowdot6.
      set (B := mneg (topleft3 (Qplus (of_rot (rel_rot meas x))))). clearbody B.
      unfold mulf, mf, rows. cbn. ring.
  - intros i j Hj. apply lift_plus; auto.
Qed.
(** Through ceres the prior's Jacobian can never be computed: a null pointer is dereferenced. *)
Theorem C73_pose_prior_ceres_refuted : forall W meas x, pose_prior_ceres W meas x true = Undef.
Proof. reflexivity. Qed.

(** ** Linear prior *)
Theorem C73_linear_prior : forall n W meas est, 
  exists r J, lin_prior_evaluate n n W meas est true true = Ret (r, Some J) /\
  (forall i, r i = sum_to n (fun k => W i k * (meas k - est k))) /\
  forall i (d : nat -> R), 
    is_derive (fun t => lin_prior_residual n W meas (fun k => est k + t * d k) i) 0 (sum_to n (fun j => J i j * d j)).
Proof.
  intros n W meas est. unfold lin_prior_evaluate. rewrite Nat.leb_refl. eexists; eexists. split; [reflexivity|].
  split; [reflexivity|]. intros i d. unfold lin_prior_residual.
  assert (HJ : forall j, (j < n)%nat -> lin_prior_jacobian n W i j = - W i j).
  { intros j Hj. unfold lin_prior_jacobian, mulf.
    assert (G : forall m, sum_to m (fun k => W i k * (if Nat.eqb k j then 1 * -1 else 0 * -1)) = if (j <? m)%nat then - W i j else 0).
    { induction m as [|m IH]; [reflexivity|]. cbn [sum_to]. rewrite IH.
      destruct (Nat.ltb_spec j m); destruct (Nat.eqb_spec m j); destruct (Nat.ltb_spec j (S m)); try lia; subst; ring. }
    rewrite G. apply Nat.ltb_lt in Hj. now rewrite Hj. }
  assert (G : forall m, (m <= n)%nat -> is_derive (fun t => sum_to m (fun k => W i k * (meas k - (est k + t * d k)))) 0
                 (sum_to m (fun j => lin_prior_jacobian n W i j * d j))).
  { induction m as [|m IH]; intros Hm; cbn [sum_to].
    - apply d_const.
    - apply d_plus; [apply IH; lia|]. rewrite HJ by lia. auto_derive; auto. ring. }
  apply G. lia.
Qed.
(** For a parameter block with fewer degrees of freedom than numbers (a pose: 7 numbers, 6
    degrees), the Jacobian does not fit the buffer ceres-style callers provide; through ceres a
    null pointer is dereferenced. *)
Theorem C73_linear_prior_refuted :
  (forall W meas est, lin_prior_evaluate 7 6 W meas est true true = Undef) /\
  (forall n l W meas est, lin_prior_evaluate n l W meas est true false = Undef).
Proof. split; reflexivity. Qed.

(** ** The hypotheses can be met *)
Example pose_prior_case :
  Rigid (tf I3 (V3 1 2 3)) /\ unitq (p_q pose0) /\ 0 < trace (rel_rot (tf I3 (V3 1 2 3)) pose0).
Proof.
  split; [exists I3, (V3 1 2 3); split; [split; [mat_eq; ring|unfold mdet, I3; mcbn; ring]|reflexivity]|].
  split; [unfold unitq, qnorm2, pose0; cbn; ring|].
  unfold rel_rot. rewrite rot_tf. unfold pose0. cbn [p_q]. rewrite to_rot_1. unfold trace. mcbn. lra.
Qed.
(** A point one metre ahead, in view of both camera models: camera with unit focal length and the
    principal point at (300, 200). *)
Definition cam2 : cam8 := Cam 1 1 300 200 0 0 0 0.
Example reproj_case_radtan : let p := V3 1 0 1 in
  supported radtan4_geometry (reproj_point p pose0 pose0) /\ unitq (p_q pose0) /\
  code (g_project radtan4_geometry (640, 480)%Z cam2 (reproj_point p pose0 pose0)) = 0%Z.
Proof.
  intros p. split; [left; reflexivity|]. split; [exact unit_pose0|].
  rewrite reproj_point_eq. cbn [pose0 p_q p_r]. rewrite to_rot_1.
  replace (mapp (mtr I3) (vsub (vadd (mapp I3 p) vzero) vzero)) with p by (mat_eq; unfold vzero; mcbn; ring).
  apply C52_radtan4. split; [unfold p; cbn; lra|].
  unfold inside, pixel, radtan_spec, p, cam2. cbn. lra.
Qed.
Example fiducial_case : let p := V3 1 0 1 in
  supported radtan4_geometry (fid_point p 0 vzero (V2 0 0) pose0 pose0 pose0) /\
  code (g_project radtan4_geometry (640, 480)%Z cam2 (fid_point p 0 vzero (V2 0 0) pose0 pose0 pose0)) = 0%Z.
Proof.
  intros p. split; [left; reflexivity|]. rewrite fid_point_0.
  apply C52_radtan4. split; [unfold p; cbn; lra|].
  unfold inside, pixel, radtan_spec, p, cam2. cbn. lra.
Qed.
Print Assumptions C73_reproj_partial.
Print Assumptions C73_mocap_partial.
Print Assumptions C73_fiducial_partial.
Print Assumptions C73_pose_prior_partial.
Print Assumptions C73_linear_prior.
