(** * C46, C47: rigid transforms, rotations and quaternion algebra. *)
From Coq Require Import Reals Lra Psatz.
From Verif Require Import GeomModel GeomSpec GeomProofs.
Local Open Scope R_scope.

(** ** C46 *)
Theorem C46_rotation_group :
  IsRot I3 /\
  (forall C, IsRot C -> IsRot (mtr C) /\ mmul C (mtr C) = I3) /\
  (forall C D, IsRot C -> IsRot D -> IsRot (mmul C D)).
Proof.
  split; [|split].
  - split; [mat_eq; ring|unfold mdet; mcbn; ring].
  - intros C [H D]. pose proof (orth_right C H D). split; auto.
    split; [rewrite mtr_tr; auto|rewrite mdet_tr; auto].
  - intros C D [HC DC] [HD DD]. split.
    + rewrite mtr_mul, mmul_assoc, <- (mmul_assoc (mtr C)), HC, mmul_I_l; auto.
    + rewrite mdet_mul, DC, DD. ring.
Qed.

Lemma tf_mul C r D s : mmul4 (tf C r) (tf D s) = tf (mmul C D) (vadd (mapp C s) r).
Proof. mat_eq; ring. Qed.
Lemma tf_inv_tf C r : tf_inv (tf C r) = tf (mtr C) (vopp (mapp (mtr C) r)).
Proof. unfold tf_inv; mat_eq; ring. Qed.
Lemma tf_I : tf I3 vzero = I4.
Proof. reflexivity. Qed.
Lemma tf_inj C r D s : tf C r = tf D s -> C = D /\ r = s.
Proof. intros H. injection H; intros; subst. destruct C, D, r, s; simpl in *; subst; auto. Qed.

(** tf_inv is the two-sided inverse of every rigid transform, and again rigid *)
Theorem C46_tf_inv_two_sided : forall T, Rigid T -> Inverse4 T (tf_inv T) /\ Rigid (tf_inv T).
Proof.
  intros T (C & r & HC & ->).
  destruct (proj1 (proj2 C46_rotation_group) C HC) as [HT HR].
  rewrite tf_inv_tf. split; [split|].
  - rewrite tf_mul, HR, <- tf_I. f_equal.
    replace (mapp C (vopp (mapp (mtr C) r))) with (vopp (mapp (mmul C (mtr C)) r)).
    + rewrite HR, mapp_I. mat_eq; ring.
    + mat_eq; ring.
  - rewrite tf_mul, (proj1 HC), <- tf_I. f_equal. mat_eq; ring.
  - exists (mtr C), (vopp (mapp (mtr C) r)). auto.
Qed.

(** exactly for orthonormal rotation parts: on any other [C] tf_inv is not an inverse *)
Theorem C46_tf_inv_iff_orthonormal : forall C r,
  mmul4 (tf_inv (tf C r)) (tf C r) = I4 <-> mmul (mtr C) C = I3.
Proof.
  intros C r. rewrite tf_inv_tf, tf_mul, <- tf_I. split; intros H.
  - apply tf_inj in H. tauto.
  - rewrite H. f_equal. mat_eq; ring.
Qed.

(** products of rigid transforms are rigid; inversion reverses products and is involutive *)
Theorem C46_rigid_group : forall A B, Rigid A -> Rigid B ->
  Rigid (mmul4 A B) /\ tf_inv (mmul4 A B) = mmul4 (tf_inv B) (tf_inv A)
  /\ tf_inv (tf_inv A) = A /\ tf_inv I4 = I4.
Proof.
  intros A B (C & r & HC & ->) (D & s & HD & ->).
  destruct (proj1 (proj2 C46_rotation_group) C HC) as [HCT HCR].
  rewrite tf_mul. split; [|split; [|split]].
  - exists (mmul C D), (vadd (mapp C s) r). split; auto. apply C46_rotation_group; auto.
  - rewrite !tf_inv_tf, tf_mul, mtr_mul. f_equal.
    replace (mapp (mmul (mtr D) (mtr C)) (vadd (mapp C s) r))
      with (vadd (mapp (mtr D) (mapp (mmul (mtr C) C) s)) (mapp (mtr D) (mapp (mtr C) r)))
      by (mat_eq; ring).
    rewrite (proj1 HC), mapp_I. mat_eq; ring.
  - rewrite !tf_inv_tf, mtr_tr. f_equal.
    replace (vopp (mapp C (vopp (mapp (mtr C) r)))) with (mapp (mmul C (mtr C)) r)
      by (mat_eq; ring).
    rewrite HCR, mapp_I. reflexivity.
  - rewrite <- tf_I, tf_inv_tf. f_equal; mat_eq; ring.
Qed.

(** Transforming a point is [C p + r], composes with the matrix product, is undone by tf_inv
    and preserves distances *)
Theorem C46_tf_point : forall C r D s p q, IsRot C ->
  tf_point (tf C r) p = vadd (mapp C p) r /\
  tf_point (mmul4 (tf D s) (tf C r)) p = tf_point (tf D s) (tf_point (tf C r) p) /\
  tf_point (tf_inv (tf C r)) (tf_point (tf C r) p) = p /\
  vdot (vsub (tf_point (tf C r) p) (tf_point (tf C r) q))
       (vsub (tf_point (tf C r) p) (tf_point (tf C r) q)) = vdot (vsub p q) (vsub p q).
Proof.
  intros C r D s p q HC.
  assert (E : forall C r p, tf_point (tf C r) p = vadd (mapp C p) r)
    by (intros; unfold tf_point; mat_eq; ring).
  split; [apply E|]. split; [rewrite tf_mul, !E; mat_eq; ring|]. split.
  - rewrite tf_inv_tf, !E.
    replace (vadd (mapp (mtr C) (vadd (mapp C p) r)) (vopp (mapp (mtr C) r)))
      with (mapp (mmul (mtr C) C) p) by (mat_eq; ring).
    rewrite (proj1 HC). apply mapp_I.
  - rewrite !E. set (d := vsub p q).
    replace (vsub (vadd (mapp C p) r) (vadd (mapp C q) r)) with (mapp C d)
      by (unfold d; mat_eq; ring).
    transitivity (vdot d (mapp (mmul (mtr C) C) d)).
    + unfold vdot; mcbn; ring.
    + rewrite (proj1 HC), mapp_I. reflexivity.
Qed.

Lemma unit_axis rvec : 0 < vdot rvec rvec ->
  let t := vnorm rvec in
  (vx rvec / t) * (vx rvec / t) + (vy rvec / t) * (vy rvec / t) + (vz rvec / t) * (vz rvec / t) = 1
  /\ 0 < t.
Proof.
  intros H t. assert (0 < t) by (apply sqrt_lt_R0; auto).
  assert (E : t * t = vdot rvec rvec) by (apply sqrt_sqrt; lra).
  split; auto. transitivity (vdot rvec rvec / (t * t)).
  - unfold vdot. field. lra.
  - rewrite E. field. lra.
Qed.

Lemma rodrigues_rot u t : vdot u u = 1 -> IsRot (rodrigues u t).
Proof.
  destruct u as [x y z]; unfold vdot; simpl; intros U.
  pose proof (sc t) as S. set (s := sin t) in *. set (c := cos t) in *.
  assert (Z : z * z = 1 - x * x - y * y) by lra.
  unfold rodrigues. fold s c. split.
  - mat_eq; ring [S Z].
  - unfold mdet; mcbn. ring [S Z].
Qed.

(** rvec2rot is Rodrigues' rotation by |rvec| about rvec / |rvec| whenever |rvec| >= eps > 0 *)
Theorem C46_rvec2rot_rodrigues : forall rvec eps, 0 < eps -> eps <= vnorm rvec ->
  rvec2rot rvec eps = rodrigues (vscale (/ vnorm rvec) rvec) (vnorm rvec)
  /\ IsRot (rvec2rot rvec eps) /\ mapp (rvec2rot rvec eps) rvec = rvec.
Proof.
  intros rvec eps He Ht.
  assert (Hd : 0 < vdot rvec rvec).
  { destruct (Rle_lt_dec (vdot rvec rvec) 0) as [L|]; auto.
    unfold vnorm in Ht. rewrite sqrt_neg_0 in Ht; lra. }
  destruct (unit_axis rvec Hd) as [U T]. cbv zeta in *.
  set (t := vnorm rvec) in *.
  assert (E : rvec2rot rvec eps = rodrigues (vscale (/ t) rvec) t).
  { unfold rvec2rot. fold (vnorm rvec). fold t. destruct (Rlt_dec t eps); [lra|].
    unfold rodrigues. pose proof (sc t) as S.
    set (x := vx rvec / t) in *. set (y := vy rvec / t) in *. set (z := vz rvec / t) in *.
    replace (vscale (/ t) rvec) with (V3 x y z)
      by (unfold x, y, z; mat_eq; field; lra).
    assert (Z : z * z = 1 - x * x - y * y) by lra.
    clearbody x y z. mat_eq; ring [Z]. }
  split; auto. rewrite E.
  assert (U' : vdot (vscale (/ t) rvec) (vscale (/ t) rvec) = 1).
  { unfold vdot. mcbn. rewrite <- U. field. lra. }
  split; [apply rodrigues_rot; auto|].
  unfold rodrigues. mat_eq; field; lra.
Qed.

(** lie::Exp agrees with rvec2rot outside both small-angle branches *)
Theorem C46_Exp_is_rvec2rot : forall phi eps, 0 < eps -> eps <= vnorm phi -> / 10 ^ 3 <= vnorm phi ->
  lie_Exp phi = rvec2rot phi eps.
Proof.
  intros phi eps He Ht Hn. destruct (C46_rvec2rot_rodrigues phi eps He Ht) as [ -> _].
  unfold lie_Exp. destruct (Rlt_dec _ _); [lra|]. unfold rodrigues.
  set (m := vnorm phi) in *. assert (m <> 0) by lra. clearbody m.
  mat_eq; field; auto.
Qed.

(** every matrix the library builds as a rotation is one *)
Theorem C46_rotation_builders :
  (forall t, IsRot (rotx t) /\ IsRot (roty t) /\ IsRot (rotz t)) /\
  (forall e, IsRot (euler123 e) /\ IsRot (euler321 e)) /\
  (forall q, unitq q -> IsRot (quat2rot q) /\ IsRot (to_rot q) /\ to_rot q = quat2rot q) /\
  (forall v eps, 0 < eps -> eps <= vnorm v -> IsRot (rvec2rot v eps)) /\
  (forall v, / 10 ^ 3 <= vnorm v -> IsRot (lie_Exp v)).
Proof.
  split; [|split; [|split; [|split]]].
  - intros t. pose proof (sc t) as S. set (s := sin t) in *. set (c := cos t) in *.
    unfold rotx, roty, rotz; fold s c.
    repeat split; try (mat_eq; ring [S]); unfold mdet; mcbn; ring [S].
  - intros e. unfold euler123, euler321.
    pose proof (sc (vx e)) as S1. pose proof (sc (vy e)) as S2. pose proof (sc (vz e)) as S3.
    set (s1 := sin (vx e)) in *. set (c1 := cos (vx e)) in *.
    set (s2 := sin (vy e)) in *. set (c2 := cos (vy e)) in *.
    set (s3 := sin (vz e)) in *. set (c3 := cos (vz e)) in *. clearbody s1 c1 s2 c2 s3 c3.
    repeat split; try (mat_eq; ring [S1 S2 S3]); unfold mdet; mcbn; ring [S1 S2 S3].
  - intros q H. rewrite (to_rot_quat2rot q H).
    assert (IsRot (quat2rot q)).
    { split; [apply quat2rot_orth; auto|rewrite quat2rot_det, H; ring]. }
    auto.
  - intros v eps H1 H2. apply (C46_rvec2rot_rodrigues v eps H1 H2).
  - intros v H. assert (P : 0 < / 10 ^ 3) by lra.
    rewrite (C46_Exp_is_rvec2rot v (/ 10 ^ 3)); auto.
    apply (C46_rvec2rot_rodrigues v (/ 10 ^ 3) P H).
Qed.

(** how the builders relate: ZYX Euler angles, their transpose, and the quaternion form *)
Lemma half t : cos t = cos (t/2) * cos (t/2) - sin (t/2) * sin (t/2)
  /\ sin t = 2 * sin (t/2) * cos (t/2).
Proof. assert (E : t = 2 * (t/2)) by field. split; rewrite E at 1; [apply cos_2a|apply sin_2a]. Qed.

Theorem C46_euler_conventions : forall e,
  euler321 e = mmul (mtr (rotz (vz e))) (mmul (mtr (roty (vy e))) (mtr (rotx (vx e))))
  /\ euler123 e = mtr (euler321 e)
  /\ unitq (euler2quat e) /\ quat2rot (euler2quat e) = euler321 e.
Proof.
  intros e. split; [|split].
  - unfold euler321, rotx, roty, rotz. mat_eq; ring.
  - unfold euler321, euler123. mat_eq; ring.
  - destruct (half (vx e)) as [C1 D1]. destruct (half (vy e)) as [C2 D2].
    destruct (half (vz e)) as [C3 D3].
    unfold euler321. rewrite C1, C2, C3, D1, D2, D3. clear C1 C2 C3 D1 D2 D3.
    unfold euler2quat.
    pose proof (sc (vx e / 2)) as S1. pose proof (sc (vy e / 2)) as S2. pose proof (sc (vz e / 2)) as S3.
    set (s1 := sin (vx e / 2)) in *. set (c1 := cos (vx e / 2)) in *.
    set (s2 := sin (vy e / 2)) in *. set (c2 := cos (vy e / 2)) in *.
    set (s3 := sin (vz e / 2)) in *. set (c3 := cos (vz e / 2)) in *. clearbody s1 c1 s2 c2 s3 c3.
    cbv zeta.
    match goal with |- context [sqrt ?u] => replace u with 1 by ring [S1 S2 S3] end.
    rewrite sqrt_1. unfold unitq, qnorm2. split.
    + mcbn. field_simplify. replace (s3 ^ 2) with (s3 * s3) by ring.
      ring [S1 S2 S3].
    + mat_eq; field_simplify; ring [S1 S2 S3].
Qed.

(** The small-angle branches are not rotations: rvec2rot of any non-zero vector shorter than
    eps is not orthonormal, its defect is bounded by |rvec|^2 *)
Theorem C46_rvec2rot_small_angle_refuted : forall rvec eps, 0 < vnorm rvec -> vnorm rvec < eps ->
  ~ IsRot (rvec2rot rvec eps).
Proof.
  intros rvec eps H0 H1 [HO HD]. unfold rvec2rot in *. fold (vnorm rvec) in *.
  destruct (Rlt_dec (vnorm rvec) eps); [|lra].
  assert (0 < vdot rvec rvec).
  { destruct (Rle_lt_dec (vdot rvec rvec) 0) as [L|]; auto.
    unfold vnorm in H0. rewrite sqrt_neg_0 in H0; lra. }
  unfold mdet in HD. unfold vdot in H. cbn [m00 m01 m02 m10 m11 m12 m20 m21 m22] in HD. lra.
Qed.
Theorem C46_rvec2rot_small_angle_defect : forall rvec eps, vnorm rvec < eps ->
  let C := rvec2rot rvec eps in
  mmul (mtr C) C = msub I3 (mmul (skew rvec) (skew rvec)) /\ mdet C = 1 + vdot rvec rvec.
Proof.
  intros rvec eps H C. unfold C, rvec2rot. fold (vnorm rvec).
  destruct (Rlt_dec _ _); [|lra]. split; [mat_eq; ring|unfold mdet, vdot; mcbn; ring].
Qed.

(** Matrix -> quaternion -> matrix is the identity on rotations, and quaternion -> matrix ->
    quaternion the identity up to sign *)
Theorem C46_quaternion_conversion :
  (forall C, IsRot C -> to_rot (of_rot C) = C /\ unitq (of_rot C)) /\
  (forall q, unitq q -> of_rot (to_rot q) = q \/ of_rot (to_rot q) = qopp q) /\
  (forall T, Rigid T -> tf_pose (tf_vec T) = T).
Proof.
  split; [|split].
  - intros C [H D]. apply to_rot_of_rot; auto.
  - apply of_rot_to_rot.
  - intros T (C & r & [H D] & ->). unfold tf_pose, tf_vec, tf_q, tf_quat.
    cbn [p_r p_q]. replace (tf_rot (tf C r)) with C by (destruct C; reflexivity).
    replace (tf_trans (tf C r)) with r by (destruct r; reflexivity).
    rewrite (proj1 (to_rot_of_rot C H D)). reflexivity.
Qed.

(** Examples *)
Example C46_ex_rot : IsRot (rotz 1) /\ rotz 1 <> I3.
Proof.
  split; [apply C46_rotation_builders|]. intros H. injection H as H1 H2 H3 H4.
  pose proof (sin_gt_0 1 Rlt_0_1). pose proof (PI2_3_2). unfold PI2 in *. lra.
Qed.
Example C46_ex_rigid : Rigid (tf (rotz 1) (V3 1 2 3)).
Proof. exists (rotz 1), (V3 1 2 3). split; auto. apply C46_rotation_builders. Qed.
Example C46_ex_unit : unitq (Q (3/5) 0 (4/5) 0) /\ unitq (Q (1/2) (1/2) (1/2) (-1/2)).
Proof. unfold unitq, qnorm2; simpl; split; lra. Qed.
Example C46_ex_rvec : / 10 ^ 8 <= vnorm (V3 3 4 0) /\ 0 < vnorm (V3 (1/10^9) 0 0) < / 10 ^ 8.
Proof.
  unfold vnorm, vdot; simpl. split.
  - replace (3*3+4*4+0*0) with (5*5) by ring. rewrite sqrt_square; lra.
  - match goal with |- _ < sqrt ?u < _ => replace u with ((1/10^9) * (1/10^9)) by field end.
    rewrite sqrt_square; lra.
Qed.

(** ** C47 *)
Theorem C47_product_matrices : forall p q,
  qmul p q = hamilton p q /\
  mapp4 (quat_lmul p) (col_wxyz q) = col_wxyz (qmul p q) /\
  mapp4 (quat_rmul q) (col_wxyz p) = col_wxyz (qmul p q) /\
  mapp4 (Qplus p) (col_xyzw q) = col_xyzw (qmul p q) /\
  mapp4 (Qoplus q) (col_xyzw p) = col_xyzw (qmul p q) /\
  quat4_mul p q = qmul p q.
Proof.
  intros p q. unfold hamilton, qv, quat_lmul, quat_rmul, Qplus, Qoplus, col_wxyz, col_xyzw, quat4_mul, vdot.
  repeat split; mat_eq; ring.
Qed.
Theorem C47_unit_closed : forall p q, unitq p -> unitq q ->
  unitq (qmul p q) /\ qmul (qconj p) p = Q 1 0 0 0 /\ qmul p (qconj p) = Q 1 0 0 0
  /\ qinverse p = qconj p /\ quat4_inv p = qconj p.
Proof.
  unfold unitq. intros p q Hp Hq. split; [rewrite qnorm2_mul, Hp, Hq; ring|].
  split; [rewrite qmul_conj, Hp; auto|]. split.
  - rewrite <- Hp. unfold qnorm2. mat_eq; ring.
  - split; auto. unfold qinverse. rewrite Hp. destruct (Rlt_dec 0 1); [|lra]. mat_eq; field.
Qed.
(** quat2rot is multiplicative, and maps the conjugate to the transpose *)
Theorem C47_quat2rot_homomorphism : forall p q,
  quat2rot (qmul p q) = mmul (quat2rot p) (quat2rot q) /\
  quat2rot (qconj p) = mtr (quat2rot p) /\ quat2rot (Q 1 0 0 0) = I3 /\
  (unitq p -> unitq q -> to_rot (qmul p q) = mmul (to_rot p) (to_rot q)).
Proof.
  intros p q. split; [apply quat2rot_mul|]. split; [mat_eq; ring|]. split; [mat_eq; ring|].
  intros Hp Hq. rewrite !to_rot_quat2rot; auto. apply quat2rot_mul.
  unfold unitq in *. rewrite qnorm2_mul, Hp, Hq. ring.
Qed.
(** the rotation by a unit quaternion is v -> q v q* *)
Theorem C47_quat2rot_sandwich : forall q v,
  let r := qmul (qmul q (Q 0 (vx v) (vy v) (vz v))) (qconj q) in
  qw r = 0 /\ qv r = mapp (quat2rot q) v.
Proof. intros q v r. unfold r. split; [mcbn; ring|unfold qv; mat_eq; ring]. Qed.
Example C47_ex : unitq (Q (3/5) 0 (4/5) 0) /\ qmul (Q 0 1 0 0) (Q 0 0 1 0) = Q 0 0 0 1
  /\ qmul (Q 0 0 1 0) (Q 0 1 0 0) = Q 0 0 0 (-1).
Proof. split; [unfold unitq, qnorm2; simpl; lra|]. split; mat_eq; ring. Qed.

Print Assumptions C46_rotation_builders.
Print Assumptions C46_quaternion_conversion.
Print Assumptions C46_rigid_group.
Print Assumptions C47_unit_closed.
