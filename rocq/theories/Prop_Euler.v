(** * C78: Euler angles; C79: gravity alignment; C80: fiducial orientation parameters; pose noise *)
From Verif Require Import Base GeomModel GeomSpec GeomProofs Prop_Geom PlanarModel StatsModel Prop_Stats CtrajProofs EulerModel.
From Coq Require Import Reals Lra Lia.
Local Open Scope R_scope.

(** ** atan2 *)
Lemma atan_sc x : cos (atan x) = / sqrt (1 + x * x) /\ sin (atan x) = x / sqrt (1 + x * x).
Proof. rewrite cos_atan, sin_atan. unfold Rsqr. split; field; apply Rgt_not_eq, sqrt_lt_R0; nra. Qed.
Lemma atan2_sc z y x : 0 < x * x + y * y ->
  sqrt (x * x + y * y) * cos (atan2 z y x) = x /\ sqrt (x * x + y * y) * sin (atan2 z y x) = y /\
  - PI < atan2 z y x <= PI.
Proof.
  intros H. unfold atan2. pose proof PI_RGT_0 as PP. pose proof (atan_bound (y / x)) as AB.
  assert (K : x <> 0 -> sqrt (x * x + y * y) = Rabs x * sqrt (1 + y / x * (y / x))).
  { intros N. rewrite <- sqrt_Rsqr_abs, <- sqrt_mult; [|apply Rle_0_sqr|nra]. f_equal. unfold Rsqr. field. exact N. }
  assert (SP : 0 < sqrt (1 + y / x * (y / x))) by (apply sqrt_lt_R0; nra).
  destruct (atan_sc (y / x)) as [EC ES].
  destruct (Rlt_dec 0 x) as [P|P].
  { rewrite K, EC, ES, Rabs_pos_eq by lra. split; [field; lra|]. split; [field; lra|lra]. }
  destruct (Rlt_dec x 0) as [N|N].
  - assert (NX : x <> 0) by lra.
    destruct (Rlt_dec y 0) as [Y|Y].
    + rewrite K, Rabs_left by lra. unfold Rminus. rewrite cos_plus, sin_plus, cos_neg, sin_neg, cos_PI, sin_PI, EC, ES.
      split; [field; lra|]. split; [field; lra|].
      assert (0 < atan (y / x)); [|lra]. rewrite <- atan_0. apply atan_increasing.
      replace (y / x) with (- y * / - x) by (field; lra). apply Rmult_lt_0_compat; [lra|]. apply Rinv_0_lt_compat; lra.
    + rewrite K, Rabs_left by lra. rewrite cos_plus, sin_plus, cos_PI, sin_PI, EC, ES.
      split; [field; lra|]. split; [field; lra|].
      split; [lra|]. assert (atan (y / x) <= 0); [|lra]. rewrite <- atan_0.
      destruct (Req_dec y 0) as [->|NY]; [right; f_equal; field; lra|]. left. apply atan_increasing.
      replace (y / x) with (- (y * / - x)) by (field; lra). assert (0 < y * / - x); [|lra].
      apply Rmult_lt_0_compat; [lra|]. apply Rinv_0_lt_compat; lra.
  - assert (x = 0) by lra. subst x. replace (0 * 0 + y * y) with (Rsqr y) by (unfold Rsqr; ring). rewrite sqrt_Rsqr_abs.
    destruct (Rlt_dec 0 y) as [Y|Y].
    + rewrite cos_PI2, sin_PI2, Rabs_pos_eq by lra. lra.
    + destruct (Rlt_dec y 0) as [Y'|Y']; [|exfalso; nra].
      rewrite cos_neg, sin_neg, cos_PI2, sin_PI2, Rabs_left by lra. lra.
Qed.
(** an angle in (-pi, pi] is determined by its cosine and sine *)
Lemma angle_unique a b : - PI < a <= PI -> - PI < b <= PI -> cos a = cos b -> sin a = sin b -> a = b.
Proof.
  intros A B C D. pose proof PI_RGT_0.
  assert (H1 : cos (a - b) = 1).
  { rewrite cos_minus, C, D. pose proof (sc b). lra. }
  assert (H2 : sin ((a - b) / 2) = 0).
  { pose proof (cos_2a_sin ((a - b) / 2)) as E. replace (2 * ((a - b) / 2)) with (a - b) in E by field. nra. }
  destruct (Rtotal_order a b) as [L|[E|L]]; [|exact E|].
  - assert (S0 : 0 < sin ((b - a) / 2)) by (apply sin_gt_0; lra).
    replace ((a - b) / 2) with (- ((b - a) / 2)) in H2 by field. rewrite sin_neg in H2. lra.
  - assert (S0 : 0 < sin ((a - b) / 2)) by (apply sin_gt_0; lra). lra.
Qed.
Lemma atan2_polar z k a : 0 < k -> - PI < a <= PI -> atan2 z (k * sin a) (k * cos a) = a.
Proof.
  intros K A. pose proof (sc a) as S1.
  assert (E : k * cos a * (k * cos a) + k * sin a * (k * sin a) = k * k).
  { transitivity (k * k * (cos a * cos a + sin a * sin a)); [ring|rewrite S1; ring]. }
  destruct (atan2_sc z (k * sin a) (k * cos a)) as (C & D & B); [rewrite E; nra|].
  rewrite E, sqrt_square in C, D by lra.
  apply angle_unique; auto; (apply (Rmult_eq_reg_l k); [assumption|lra]).
Qed.

(** ** C78 *)
(** Euler angles in their standard range *)
Definition standard (e : vec3) : Prop :=
  - PI < vx e <= PI /\ - (PI / 2) <= vy e <= PI / 2 /\ - PI < vz e <= PI.
Lemma q2e_entries z1 z3 q : unitq q -> quat2euler z1 z3 q =
  V3 (atan2 z1 (m21 (to_rot q)) (m22 (to_rot q))) (asin (- m20 (to_rot q))) (atan2 z3 (m10 (to_rot q)) (m00 (to_rot q))).
Proof.
  intros U. rewrite (to_rot_quat2rot q U). unfold quat2euler, quat2rot. cbn [m00 m01 m02 m10 m11 m12 m20 m21 m22].
  f_equal; [f_equal; ring|f_equal; ring|f_equal; ring].
Qed.
Lemma q2e_rot z1 z3 C : IsRot C -> quat2euler z1 z3 (of_rot C) = V3 (atan2 z1 (m21 C) (m22 C)) (asin (- m20 C)) (atan2 z3 (m10 C) (m00 C)).
Proof. intros [O D]. destruct (to_rot_of_rot C O D) as [E U]. rewrite (q2e_entries _ _ _ U), E. reflexivity. Qed.
Lemma rot_rows C : IsRot C ->
  m20 C * m20 C + m21 C * m21 C + m22 C * m22 C = 1 /\ m00 C * m00 C + m10 C * m10 C + m20 C * m20 C = 1.
Proof.
  intros [O D]. pose proof (orth_right C O D) as P. split.
  - pose proof (f_equal m22 P) as E. unfold mmul, mtr in E. cbn in E. lra.
  - pose proof (f_equal m00 O) as E. unfold mmul, mtr in E. cbn in E. lra.
Qed.
Lemma euler_of_rot z1 z3 C : IsRot C -> Rabs (m20 C) < 1 -> euler321 (quat2euler z1 z3 (of_rot C)) = C.
Proof.
  intros HC G. rewrite (q2e_rot z1 z3 C HC). destruct (rot_rows C HC) as [R2 C0]. destruct HC as [O D].
  pose proof (orth_adj C O D) as A. apply Rabs_def2 in G.
  assert (B : -1 <= - m20 C <= 1) by lra.
  assert (S0 : sin (asin (- m20 C)) = - m20 C) by (apply sin_asin; lra).
  assert (K0 : cos (asin (- m20 C)) = sqrt (1 - m20 C * m20 C)).
  { rewrite cos_asin by lra. f_equal. unfold Rsqr. ring. }
  assert (KP : 0 < 1 - m20 C * m20 C) by nra.
  set (k := sqrt (1 - m20 C * m20 C)) in *.
  assert (K : 0 < k) by (apply sqrt_lt_R0; exact KP).
  assert (KK : k * k = 1 - m20 C * m20 C) by (apply sqrt_sqrt; lra).
  destruct (atan2_sc z1 (m21 C) (m22 C)) as (X1 & Y1 & _); [lra|].
  destruct (atan2_sc z3 (m10 C) (m00 C)) as (X3 & Y3 & _); [lra|].
  replace (m22 C * m22 C + m21 C * m21 C) with (1 - m20 C * m20 C) in X1, Y1 by lra.
  replace (m00 C * m00 C + m10 C * m10 C) with (1 - m20 C * m20 C) in X3, Y3 by lra.
  fold k in X1, Y1, X3, Y3.
  unfold euler321. cbn [vx vy vz]. rewrite S0, K0.
  set (s1 := sin (atan2 z1 (m21 C) (m22 C))) in *. set (c1 := cos (atan2 z1 (m21 C) (m22 C))) in *.
  set (s3 := sin (atan2 z3 (m10 C) (m00 C))) in *. set (c3 := cos (atan2 z3 (m10 C) (m00 C))) in *.
  pose proof (f_equal m10 A) as A01. pose proof (f_equal m11 A) as A11. pose proof (f_equal m20 A) as A02. pose proof (f_equal m21 A) as A12.
  unfold mtr, adj in A01, A11, A02, A12. cbn [m00 m01 m02 m10 m11 m12 m20 m21 m22] in A01, A11, A02, A12.
  assert (Q : forall e f, k * k * e = k * k * f -> e = f) by (intros e f E; apply (Rmult_eq_reg_l (k * k)); [exact E|nra]).
  apply M3_ext; cbn [m00 m01 m02 m10 m11 m12 m20 m21 m22]; [nra| | |nra| | |lra|lra|lra]; apply Q.
  - transitivity (- (k * c3) * m20 C * (k * s1) - (k * s3) * (k * c1)); [ring|]. rewrite X1, Y1, X3, Y3, KK. 
    transitivity (- m00 C * m20 C * m21 C - m10 C * m22 C); [ring|].
    transitivity (m01 C - m20 C * (m20 C * m01 C)); [|ring].
    assert (E : m20 C * m01 C = m12 C + m00 C * m21 C) by lra. rewrite E. rewrite A01 at 1. lra.
  - transitivity (- (k * c3) * m20 C * (k * c1) + (k * s3) * (k * s1)); [ring|]. rewrite X1, Y1, X3, Y3, KK.
    transitivity (m02 C - m20 C * (m20 C * m02 C)); [|ring].
    assert (E : m20 C * m02 C = m00 C * m22 C - m11 C) by lra. rewrite E. rewrite A02 at 1. lra.
  - transitivity (- (k * s3) * m20 C * (k * s1) + (k * c3) * (k * c1)); [ring|]. rewrite X1, Y1, X3, Y3, KK.
    transitivity (m11 C - m20 C * (m20 C * m11 C)); [|ring].
    assert (E : m20 C * m11 C = m10 C * m21 C - m02 C) by lra. rewrite E. rewrite A11 at 1. lra.
  - transitivity (- (k * s3) * m20 C * (k * c1) - (k * c3) * (k * s1)); [ring|]. rewrite X1, Y1, X3, Y3, KK.
    transitivity (m12 C - m20 C * (m20 C * m12 C)); [|ring].
    assert (E : m20 C * m12 C = m10 C * m22 C + m01 C) by lra. rewrite E. rewrite A12 at 1. lra.
Qed.

(** The rotation described by roll, pitch and yaw: roll about x, then pitch about y, then yaw about z. *)
Definition rpy_matrix (e : vec3) : mat3 :=
  mmul (rodrigues (V3 0 0 1) (vz e)) (mmul (rodrigues (V3 0 1 0) (vy e)) (rodrigues (V3 1 0 0) (vx e))).
Lemma rpy_euler e : rpy_matrix e = euler321 e.
Proof.
  unfold rpy_matrix, rodrigues, euler321.
  pose proof (sc (vx e)) as S1. pose proof (sc (vy e)) as S2. pose proof (sc (vz e)) as S3.
  mat_eq; ring.
Qed.
Lemma euler_standard z1 z3 C : IsRot C -> Rabs (m20 C) < 1 -> standard (quat2euler z1 z3 (of_rot C)).
Proof.
  intros HC G. rewrite (q2e_rot z1 z3 C HC). destruct (rot_rows C HC) as [R2 C0]. apply Rabs_def2 in G.
  destruct (atan2_sc z1 (m21 C) (m22 C)) as (_ & _ & A); [nra|].
  destruct (atan2_sc z3 (m10 C) (m00 C)) as (_ & _ & B); [nra|].
  split; [exact A|]. split; [apply asin_bound|exact B].
Qed.
(** The angles are in the standard range and describe the rotation of the quaternion, unless the
    pitch is exactly +-90 degrees. *)
Theorem C78_angles_partial : forall z1 z3 q, unitq q -> Rabs (2 * (qy q * qw q - qx q * qz q)) <> 1 ->
  standard (quat2euler z1 z3 q) /\ Rabs (vy (quat2euler z1 z3 q)) < PI / 2 /\
  rpy_matrix (quat2euler z1 z3 q) = to_rot q.
Proof.
  intros z1 z3 q U N.
  destruct (proj1 (proj2 (proj2 C46_rotation_builders)) q U) as (_ & HC & EQ).
  assert (E20 : m20 (to_rot q) = - (2 * (qy q * qw q - qx q * qz q))).
  { rewrite EQ. unfold quat2rot. cbn. ring. }
  assert (L : Rabs (m20 (to_rot q)) < 1).
  { assert (LE : Rabs (m20 (to_rot q)) <= 1).
    { destruct (rot_rows _ HC) as [R2 _]. apply Rabs_le. split; nra. }
    rewrite E20, Rabs_Ropp in *. lra. }
  assert (QE : quat2euler z1 z3 q = quat2euler z1 z3 (of_rot (to_rot q))).
  { rewrite (q2e_entries _ _ _ U), (q2e_rot _ _ _ HC). reflexivity. }
  rewrite QE, rpy_euler. split; [apply euler_standard; auto|]. split; [|apply euler_of_rot; auto].
  rewrite (q2e_rot _ _ _ HC). cbn [vy]. apply Rabs_def2 in L. apply Rabs_def1; apply asin_bound_lt; lra.
Qed.
(** The only angles in the standard range with a pitch below 90 degrees that describe the rotation. *)
Theorem C78_unique_partial : forall z1 z3 q e, unitq q -> standard e -> Rabs (vy e) < PI / 2 ->
  rpy_matrix e = to_rot q -> quat2euler z1 z3 q = e.
Proof.
  intros z1 z3 q e U (A & B & C) P E. rewrite rpy_euler in E.
  rewrite (q2e_entries _ _ _ U), <- E. unfold euler321. cbn [m00 m01 m02 m10 m11 m12 m20 m21 m22].
  apply Rabs_def2 in P. assert (K : 0 < cos (vy e)) by (apply cos_gt_0; lra).
  apply V3_ext; cbn [vx vy vz].
  - apply atan2_polar; auto.
  - rewrite Ropp_involutive. apply asin_sin; lra.
  - rewrite (Rmult_comm (sin (vz e))), (Rmult_comm (cos (vz e))). apply atan2_polar; auto.
Qed.
Example C78_example : exists q, unitq q /\ Rabs (2 * (qy q * qw q - qx q * qz q)) <> 1 /\ quat2euler 0 0 q = V3 PI 0 (PI / 2).
Proof.
  pose proof PI_RGT_0 as PP.
  set (e := V3 PI 0 (PI / 2)).
  destruct (C46_rotation_builders) as (_ & RB & _). destruct (RB e) as [_ [O D]].
  destruct (to_rot_of_rot _ O D) as [E U]. exists (of_rot (euler321 e)). split; [exact U|].
  assert (Q : quat2euler 0 0 (of_rot (euler321 e)) = e).
  { apply C78_unique_partial; auto.
    - unfold standard, e. cbn. lra.
    - unfold e. cbn. rewrite Rabs_R0. lra.
    - rewrite rpy_euler. auto. }
  split; [|exact Q].
  assert (E20 : m20 (to_rot (of_rot (euler321 e))) = - (2 * (qy (of_rot (euler321 e)) * qw (of_rot (euler321 e)) - qx (of_rot (euler321 e)) * qz (of_rot (euler321 e))))).
  { rewrite (to_rot_quat2rot _ U). unfold quat2rot. cbn [m20]. ring. }
  assert (Z20 : m20 (euler321 e) = 0) by (unfold euler321, e; cbn [vx vy vz m20]; rewrite sin_0; ring).
  rewrite E, Z20 in E20. rewrite <- Rabs_Ropp, <- E20, Rabs_R0. lra.
Qed.
(** At a pitch of 90 degrees the rotation is lost, whatever atan2(0, 0) returns. *)
Theorem C78_gimbal_lock_refuted : exists q, unitq q /\
  forall z1 z3, In z1 [0; PI; - PI] -> In z3 [0; PI; - PI] -> rpy_matrix (quat2euler z1 z3 q) <> to_rot q.
Proof.
  set (s := / sqrt 2).
  assert (SS : s * s = / 2).
  { unfold s. rewrite <- Rinv_mult. rewrite sqrt_sqrt by lra. reflexivity. }
  exists (Q (3 / 5 * s) (4 / 5 * s) (3 / 5 * s) (- (4 / 5) * s)). 
  assert (U : unitq (Q (3 / 5 * s) (4 / 5 * s) (3 / 5 * s) (- (4 / 5) * s))).
  { unfold unitq, qnorm2. cbn [qw qx qy qz]. transitivity (2 * (s * s)); [field|rewrite SS; field]. }
  split; [exact U|]. intros z1 z3 H1 H3 E.
  assert (S0 : forall z, In z [0; PI; - PI] -> sin z = 0).
  { intros z [<-|[<-|[<-|[]]]]; [apply sin_0|apply sin_PI|rewrite sin_neg, sin_PI; ring]. }
  rewrite rpy_euler in E. apply (f_equal m01) in E. rewrite (to_rot_quat2rot _ U) in E.
  unfold quat2rot in E. cbn [m01 qw qx qy qz] in E.
  replace (2 * (4 / 5 * s * (3 / 5 * s) - 3 / 5 * s * (- (4 / 5) * s))) with (48 / 25 * (s * s)) in E by field.
  rewrite SS in E.
  unfold quat2euler, euler321 in E. cbn [m01 vx vy vz qw qx qy qz] in E.
  assert (AT : forall z y x, y = 0 -> x = 0 -> atan2 z y x = z).
  { intros z y x -> ->. unfold atan2. destruct (Rlt_dec 0 0); [lra|]. reflexivity. }
  assert (X1 : 2 * (4 / 5 * s * (3 / 5 * s) + - (4 / 5) * s * (3 / 5 * s)) = 0) by ring.
  assert (X2 : 3 / 5 * s * (3 / 5 * s) - 4 / 5 * s * (4 / 5 * s) - 3 / 5 * s * (3 / 5 * s) + - (4 / 5) * s * (- (4 / 5) * s) = 0) by ring.
  assert (X3 : 3 / 5 * s * (3 / 5 * s) + 4 / 5 * s * (4 / 5 * s) - 3 / 5 * s * (3 / 5 * s) - - (4 / 5) * s * (- (4 / 5) * s) = 0) by ring.
  assert (X4 : 2 * (4 / 5 * s * (3 / 5 * s) + - (4 / 5) * s * (3 / 5 * s)) = 0) by ring.
  rewrite (AT z1 _ _ X1 X2), (AT z3 _ _ X4 X3), (S0 _ H1), (S0 _ H3) in E. lra.
Qed.

(** ** C79: aligning a measured gravity direction *)
Lemma quat2rot_app a k w u : mapp (quat2rot (Q a (k * vx w) (k * vy w) (k * vz w))) u =
  vadd (vscale (a * a - k * k * vdot w w) u) (vadd (vscale (2 * a * k) (vcross w u)) (vscale (2 * (k * k) * vdot w u) w)).
Proof. unfold vdot. mat_eq; ring. Qed.

Definition opposite (a g : vec3) : Prop := exists k, k < 0 /\ a = vscale k g.
Lemma vnorm_pos a : a <> vzero -> 0 < vnorm a.
Proof. intros N. destruct (vnorm_nonneg a) as [L|L]; [exact L|]. exfalso. apply N, vnorm_0. auto. Qed.
Lemma vecs2rot_facts a g : a <> vzero -> g <> vzero -> ~ opposite a g ->
  IsRot (vecs2rot a g) /\ mapp (vecs2rot a g) (vscale (/ vnorm a) a) = vscale (/ vnorm g) g.
Proof.
  intros NA NG NO. pose proof (vnorm_pos a NA) as PA. pose proof (vnorm_pos g NG) as PG.
  unfold vecs2rot. rewrite !vnormalized_eq.
  pose proof (unit_normalized a ltac:(lra)) as UA. pose proof (unit_normalized g ltac:(lra)) as UG.
  set (u := vscale (/ vnorm a) a) in *. set (v := vscale (/ vnorm g) g) in *.
  set (c := vdot u v).
  assert (EA : a = vscale (vnorm a) u) by (unfold u; mat_eq; field; lra).
  assert (EG : g = vscale (vnorm g) v) by (unfold v; mat_eq; field; lra).
  assert (LAG : vdot (vcross u v) (vcross u v) = 1 - c * c).
  { transitivity (vdot u u * vdot v v - vdot u v * vdot u v); [unfold vdot; mcbn; ring|]. rewrite UA, UG. unfold c. ring. }
  assert (CB : -1 <= c <= 1).
  { assert (0 <= vdot (vcross u v) (vcross u v)) by (unfold vdot; nra). nra. }
  assert (CN : c <> -1).
  { intros CE. apply NO. exists (- (vnorm a / vnorm g)). split.
    - assert (0 < vnorm a / vnorm g) by (apply Rdiv_lt_0_compat; lra). lra.
    - assert (UV : u = vscale (-1) v).
      { assert (Z : vdot (vadd u v) (vadd u v) = 0).
        { transitivity (vdot u u + 2 * vdot u v + vdot v v); [unfold vdot; mcbn; ring|]. fold c. rewrite UA, UG, CE. ring. }
        assert (Z' : vadd u v = vzero) by (apply vnorm_0; unfold vnorm; rewrite Z; apply sqrt_0).
        pose proof (f_equal vx Z') as ZX. pose proof (f_equal vy Z') as ZY. pose proof (f_equal vz Z') as ZZ.
        cbn [vadd vzero vx vy vz] in ZX, ZY, ZZ. apply V3_ext; cbn [vscale vx vy vz]; lra. }
      transitivity (vscale (vnorm a) u); [exact EA|]. rewrite UV. unfold v. mat_eq; field; lra. }
  set (hc := sqrt (1 / 2 * (1 + c))). set (hs := sqrt (1 / 2 * (1 - c))).
  assert (HC : hc * hc = 1 / 2 * (1 + c)) by (apply sqrt_sqrt; lra).
  assert (HS : hs * hs = 1 / 2 * (1 - c)) by (apply sqrt_sqrt; lra).
  assert (HCS : 2 * hc * hs = sqrt (1 - c * c)).
  { unfold hc, hs. rewrite Rmult_assoc, <- sqrt_mult by lra. replace (1 / 2 * (1 + c) * (1 / 2 * (1 - c))) with ((/ 2 * / 2) * (1 - c * c)) by field.
    rewrite sqrt_mult, sqrt_square by nra. field. }
  set (w := vscale (/ vnorm (vcross a g)) (vcross a g)).
  assert (W : hs * vdot w w = hs /\ vscale (2 * hc * hs) w = vcross u v /\ vdot w u = 0).
  { assert (X : vcross a g = vscale (vnorm a * vnorm g) (vcross u v)).
    { rewrite EA, EG at 1. mat_eq; ring. }
    assert (NX : vnorm (vcross a g) = vnorm a * vnorm g * sqrt (1 - c * c)).
    { rewrite X, vnorm_scale, Rabs_pos_eq by nra. f_equal. unfold vnorm. now rewrite LAG. }
    destruct (Req_dec c 1) as [C1|C1].
    - assert (ZC : vcross u v = vzero).
      { apply vnorm_0. unfold vnorm. rewrite LAG, C1. replace (1 - 1 * 1) with 0 by ring. apply sqrt_0. }
      assert (HS0 : hs = 0). { unfold hs. rewrite C1. replace (1 / 2 * (1 - 1)) with 0 by field. apply sqrt_0. }
      assert (ZW : w = vzero). { unfold w. rewrite X, ZC. mat_eq; ring. }
      rewrite HS0, ZW, ZC. split; [ring|]. split; [mat_eq; ring|]. unfold vdot; mcbn; ring.
    - assert (SP : 0 < sqrt (1 - c * c)) by (apply sqrt_lt_R0; nra).
      assert (PX : 0 < vnorm (vcross a g)) by (rewrite NX; apply Rmult_lt_0_compat; [nra|exact SP]).
      assert (EW : w = vscale (/ sqrt (1 - c * c)) (vcross u v)).
      { unfold w. rewrite NX, X. mat_eq; field; lra. }
      assert (UW : vdot w w = 1) by (apply unit_normalized; lra).
      rewrite UW. split; [ring|]. split.
      + rewrite HCS, EW. mat_eq; field; lra.
      + rewrite EW. unfold vdot; mcbn; ring. }
  destruct W as (W1 & W2 & W3).
  assert (W1' : hs * hs * vdot w w = hs * hs) by (rewrite Rmult_assoc, W1; reflexivity).
  split.
  - apply (proj1 (proj2 (proj2 C46_rotation_builders))). unfold unitq, qnorm2. cbn [qw qx qy qz].
    transitivity (hc * hc + hs * hs * vdot w w); [unfold vdot; ring|]. rewrite W1', HC, HS. field.
  - rewrite quat2rot_app, W3, W1'.
    assert (E1 : vscale (2 * hc * hs) (vcross w u) = vcross (vcross u v) u) by (rewrite <- W2; mat_eq; ring).
    rewrite E1, HC, HS.
    assert (E2 : vcross (vcross u v) u = vsub (vscale (vdot u u) v) (vscale c u)) by (unfold c, vdot; mat_eq; ring).
    rewrite E2, UA. unfold c. mat_eq; field.
Qed.
(** vecs2rot(a, g) is a rotation turning the direction of a into the direction of g, for all
    non-zero vectors that are not exactly opposite. *)
Theorem C79_vecs2rot_partial : forall a g, a <> vzero -> g <> vzero -> ~ opposite a g ->
  IsRot (vecs2rot a g) /\ vscale (/ vnorm g) g = mapp (vecs2rot a g) (vscale (/ vnorm a) a).
Proof. intros a g A G O. destruct (vecs2rot_facts a g A G O). auto. Qed.
(** For exactly opposite vectors it is the zero matrix. *)
Theorem C79_opposite_refuted : forall a g, g <> vzero -> opposite a g -> vecs2rot a g = Z3.
Proof.
  intros a g NG (k & K & E). pose proof (vnorm_pos g NG) as PG.
  unfold vecs2rot. rewrite !vnormalized_eq.
  pose proof (unit_normalized g ltac:(lra)) as UG.
  assert (X : vcross a g = vzero) by (rewrite E; mat_eq; ring).
  assert (C : vdot (vscale (/ vnorm a) a) (vscale (/ vnorm g) g) = -1).
  { rewrite E, vnorm_scale, Rabs_left by exact K.
    transitivity (- vdot (vscale (/ vnorm g) g) (vscale (/ vnorm g) g)); [unfold vdot; mcbn; field; lra|rewrite UG; ring]. }
  rewrite C, X. replace (1 / 2 * (1 + -1)) with 0 by field. rewrite sqrt_0. unfold quat2rot. mat_eq; ring.
Qed.
Example C79_vecs2rot_example : ~ opposite (V3 3 0 4) (V3 0 0 2) /\ vnorm (V3 3 0 4) = 5.
Proof.
  split.
  - intros (k & K & E). apply (f_equal vz) in E. cbn in E. lra.
  - unfold vnorm, vdot. cbn [vx vy vz]. replace (3 * 3 + 0 * 0 + 4 * 4) with (5 * 5) by ring. apply sqrt_square. lra.
Qed.

(** *** imu_init_attitude *)
Definition sumv (l : list vec3) : vec3 := fold_right vadd vzero l.
Lemma sum_first_ok n : forall l, (n <= length l)%nat -> sum_first n l = Ret (sumv (firstn n l)).
Proof.
  induction n as [|n IH]; intros [|x l] H; cbn in *; try lia; auto.
  rewrite IH by lia. reflexivity.
Qed.
Lemma sum_first_short n : forall l, (length l < n)%nat -> sum_first n l = Undef.
Proof.
  induction n as [|n IH]; intros [|x l] H; cbn in *; try lia; auto.
  rewrite IH by lia. reflexivity.
Qed.
Lemma third_row C u : IsRot C -> mapp C u = V3 0 0 1 -> u = V3 (m20 C) (m21 C) (m22 C).
Proof.
  intros [O D] E. rewrite <- (mapp_I u), <- O, mapp_mmul, E. mat_eq; ring.
Qed.
Lemma lvl z1 z3 C : IsRot C -> let e := quat2euler z1 z3 (of_rot C) in
  let A := euler321 (V3 (vx e) (vy e) 0) in
  IsRot A /\ mapp A (V3 (m20 C) (m21 C) (m22 C)) = V3 0 0 1 /\ m10 A = 0 /\ 0 <= m00 A.
Proof.
  intros HC e A. assert (RA : IsRot A) by apply C46_rotation_builders. split; [exact RA|].
  destruct (rot_rows C HC) as [R2 _].
  assert (B : -1 <= - m20 C <= 1) by nra.
  assert (ROW : V3 (m20 A) (m21 A) (m22 A) = V3 (m20 C) (m21 C) (m22 C)).
  { unfold A, e. rewrite (q2e_rot z1 z3 C HC). unfold euler321. cbn [vx vy vz m20 m21 m22].
    rewrite sin_asin, cos_asin by lra.
    replace (1 - Rsqr (- m20 C)) with (m22 C * m22 C + m21 C * m21 C) by (unfold Rsqr; lra).
    destruct (Req_dec (m22 C * m22 C + m21 C * m21 C) 0) as [Z|Z].
    - rewrite Z, sqrt_0. assert (m22 C = 0 /\ m21 C = 0) as [-> ->] by nra. f_equal; ring.
    - destruct (atan2_sc z1 (m21 C) (m22 C)) as (X & Y & _); [nra|].
      f_equal; [ring|exact Y|exact X]. }
  destruct RA as [O D]. pose proof (orth_right A O D) as P.
  split; [|split].
  - rewrite <- ROW. pose proof (f_equal m02 P) as P0. pose proof (f_equal m12 P) as P1. pose proof (f_equal m22 P) as P2.
    unfold mmul, mtr, I3 in P0, P1, P2. cbn [m00 m01 m02 m10 m11 m12 m20 m21 m22] in P0, P1, P2.
    unfold mapp. cbn [vx vy vz]. f_equal; assumption.
  - unfold A, euler321. cbn [vx vy vz m10]. rewrite sin_0. ring.
  - unfold A, euler321. cbn [vx vy vz m00]. rewrite cos_0, Rmult_1_l.
    unfold e. rewrite (q2e_rot z1 z3 C HC). cbn [vy]. rewrite cos_asin by lra. apply sqrt_pos.
Qed.
(** Whenever the buffers are long enough and the mean acceleration is not zero, the result is a
    rotation without yaw that turns the mean acceleration into the upward vertical. *)
Theorem C79_init_attitude : forall z1 z3 w_m a_m n,
  (0 < n)%nat -> (n <= length w_m)%nat -> (n <= length a_m)%nat ->
  sumv (firstn n a_m) <> vzero ->
  let mean := vscale (/ INR n) (sumv (firstn n a_m)) in
  exists C, imu_init_attitude z1 z3 w_m a_m n = Ret (Some C) /\ IsRot C /\
    mapp C (vscale (/ vnorm mean) mean) = V3 0 0 1 /\ m10 C = 0 /\ 0 <= m00 C.
Proof.
  intros z1 z3 w_m a_m n N LW LA NZ mean. unfold imu_init_attitude.
  rewrite !sum_first_ok by lia. cbn [obind]. destruct n as [|n]; [lia|]. fold mean.
  eexists. split; [reflexivity|].
  assert (IP : 0 < / INR (S n)) by (apply Rinv_0_lt_compat, lt_0_INR; lia).
  assert (NM : mean <> vzero).
  { intros E. apply NZ. apply (f_equal (vscale (INR (S n)))) in E. unfold mean in E.
    transitivity (vscale (INR (S n)) (vscale (/ INR (S n)) (sumv (firstn (S n) a_m)))); [|rewrite E; mat_eq; ring].
    mat_eq; field; apply not_0_INR; lia. }
  set (g := V3 0 0 (981 / 100)).
  assert (NG : g <> vzero) by (intros E; apply (f_equal vz) in E; cbn in E; lra).
  assert (VG : vscale (/ vnorm g) g = V3 0 0 1).
  { assert (EG : vnorm g = 981 / 100).
    { unfold vnorm, vdot, g. cbn [vx vy vz]. replace (0 * 0 + 0 * 0 + 981 / 100 * (981 / 100)) with ((981 / 100) * (981 / 100)) by ring. apply sqrt_square. lra. }
    rewrite EG. unfold g. mat_eq; field. }
  destruct (Rlt_dec (vz mean) 0) as [NEG|NNEG].
  1: destruct (Req_dec (vx mean) 0) as [X0|X0].
  1: destruct (Req_dec (vy mean) 0) as [Y0|Y0].
  { (* exactly opposite *)
    assert (OP : opposite mean g).
    { exists (vz mean / (981 / 100)). split; [|unfold g; apply V3_ext; mcbn; [rewrite X0; ring|rewrite Y0; ring|field]].
      unfold Rdiv. assert (0 < / (981 / 100)) by lra. nra. }
    rewrite (C79_opposite_refuted mean g NG OP).
    assert (QE : of_rot Z3 = Q 0 (/ 2) 0 0).
    { unfold of_rot, Z3. cbn [m00 m01 m02 m10 m11 m12 m20 m21 m22].
      destruct (Rlt_dec 0 (0 + 0 + 0)); [lra|]. destruct (Rlt_dec 0 0); [lra|].
      replace (0 - 0 - 0 + 1) with 1 by ring. rewrite sqrt_1. f_equal; field. }
    rewrite QE. unfold quat2euler. cbn [qw qx qy qz vx vy vz].
    replace (2 * (0 * 0 - / 2 * 0)) with 0 by ring. rewrite asin_0.
    replace (2 * (/ 2 * 0 + 0 * 0)) with 0 by ring. replace (0 * 0 - / 2 * / 2 - 0 * 0 + 0 * 0) with (- / 4) by field.
    assert (AT : atan2 z1 0 (- / 4) = PI).
    { unfold atan2. destruct (Rlt_dec 0 (- / 4)); [lra|]. destruct (Rlt_dec (- / 4) 0); [|lra]. destruct (Rlt_dec 0 0); [lra|].
      replace (0 / - / 4) with 0 by field. rewrite atan_0. ring. }
    rewrite AT. split; [apply C46_rotation_builders|]. unfold euler321. cbn [vx vy vz].
    rewrite cos_PI, sin_PI, cos_0, sin_0. split; [|cbn; lra].
    assert (VM : vnorm mean = - vz mean).
    { unfold vnorm, vdot. rewrite X0, Y0. replace (0 * 0 + 0 * 0 + vz mean * vz mean) with ((- vz mean) * (- vz mean)) by ring.
      apply sqrt_square. lra. }
    rewrite VM. unfold mapp. cbn [vx vy vz m00 m01 m02 m10 m11 m12 m20 m21 m22]. unfold vscale; cbn [vx vy vz]. rewrite X0, Y0. f_equal; field; lra. }
  all: assert (NO : ~ opposite mean g)
    by (intros (k & K & E); pose proof (f_equal vx E) as EX; pose proof (f_equal vy E) as EY; pose proof (f_equal vz E) as EZ;
        unfold g in EX, EY, EZ; cbn [vscale vx vy vz] in EX, EY, EZ; nra);
    destruct (vecs2rot_facts mean g NM NG NO) as [RC EC]; rewrite VG in EC;
    rewrite (third_row _ _ RC EC); apply (lvl z1 z3 _ RC).
Qed.
(** Buffers shorter than requested are read out of bounds; an empty request gives NaN. *)
Theorem C79_short_buffer_refuted : forall z1 z3 w_m a_m n,
  ((length w_m < n)%nat \/ (length a_m < n)%nat -> imu_init_attitude z1 z3 w_m a_m n = Undef) /\
  imu_init_attitude z1 z3 w_m a_m 0 = Ret None.
Proof.
  intros z1 z3 w_m a_m n. split; [|reflexivity]. intros [H|H]; unfold imu_init_attitude.
  - rewrite sum_first_short by exact H. reflexivity.
  - destruct (Nat.lt_ge_cases (length w_m) n) as [L|L].
    + rewrite sum_first_short by exact L. reflexivity.
    + rewrite (sum_first_ok n w_m) by exact L. cbn [obind]. rewrite sum_first_short by exact H. reflexivity.
Qed.

(** ** C80: orientation parameters of the fiducial *)
(** Operations of a user (or solver): add or subtract an increment, ask for the pose. *)
Inductive fid_op := Plus (dx : R * R) | Minus (dx : R * R) | Estimate.
Definition do_op (z1 z3 : R) (f : fiducial) (o : fid_op) : fiducial :=
  match o with Plus dx => fid_plus z1 z3 f dx | Minus dx => fid_minus z1 z3 f dx | Estimate => fst (fid_estimate z1 z3 f) end.
(** the intended roll and pitch *)
Definition want (rp : R * R) (o : fid_op) : R * R :=
  match o with Plus dx => (fst rp + fst dx, snd rp + snd dx) | Minus dx => (fst rp - fst dx, snd rp - snd dx) | Estimate => rp end.
(** the intended pitch stays below 90 degrees throughout *)
Fixpoint upright (rp : R * R) (ops : list fid_op) : Prop :=
  Rabs (snd rp) < PI / 2 /\ match ops with [] => True | o :: rest => upright (want rp o) rest end.

Lemma yaw_kept z1 z3 r p y t : Rabs p < PI / 2 -> - PI < y <= PI ->
  vz (quat2euler z1 z3 (tf_quat (tf (euler321 (V3 r p y)) t))) = y.
Proof.
  intros P Y. unfold tf_quat.
  assert (E : tf_rot (tf (euler321 (V3 r p y)) t) = euler321 (V3 r p y)) by (mat_eq; reflexivity).
  rewrite E. assert (RC : IsRot (euler321 (V3 r p y))) by apply C46_rotation_builders.
  rewrite (q2e_rot z1 z3 _ RC). unfold euler321. cbn [vx vy vz m00 m10].
  apply Rabs_def2 in P. rewrite (Rmult_comm (sin y)), (Rmult_comm (cos y)). apply atan2_polar; [apply cos_gt_0; lra|exact Y].
Qed.
Lemma trans_tf C t : tf_trans (tf C t) = t. Proof. mat_eq; reflexivity. Qed.
Lemma fid_update_ok z1 z3 r p r' p' y t : Rabs p < PI / 2 -> - PI < y <= PI ->
  fid_update z1 z3 (Fid r' p' (tf (euler321 (V3 r p y)) t)) = Fid r' p' (tf (euler321 (V3 r' p' y)) t).
Proof. intros P Y. unfold fid_update. cbn [f_roll f_pitch f_T_WF]. rewrite yaw_kept, trans_tf by auto. reflexivity. Qed.

(** From every rigid pose whose pitch is not +-90 degrees, the block represents that pose, and as
    long as the pitch stays below 90 degrees any sequence of operations changes roll and pitch by
    exactly the given increments and leaves position and yaw alone. *)
Theorem C80_fiducial_partial : forall z1 z3 C t, IsRot C -> Rabs (m20 C) <> 1 ->
  exists roll pitch yaw, rpy_matrix (V3 roll pitch yaw) = C /\ standard (V3 roll pitch yaw) /\
  forall ops, upright (roll, pitch) ops ->
    let rp := fold_left want ops (roll, pitch) in
    let f := fold_left (do_op z1 z3) ops (fid_new z1 z3 (tf C t)) in
    (f_roll f, f_pitch f) = rp /\
    snd (fid_estimate z1 z3 f) = tf (rpy_matrix (V3 (fst rp) (snd rp) yaw)) t /\
    f_T_WF f = tf (rpy_matrix (V3 (fst rp) (snd rp) yaw)) t.
Proof.
  intros z1 z3 C t HC NG.
  assert (G : Rabs (m20 C) < 1).
  { destruct (rot_rows C HC) as [R2 _]. assert (Rabs (m20 C) <= 1) by (apply Rabs_le; split; nra). lra. }
  set (e := quat2euler z1 z3 (of_rot C)). exists (vx e), (vy e), (vz e).
  assert (EE : V3 (vx e) (vy e) (vz e) = e) by (apply V3_ext; reflexivity). rewrite EE.
  split; [rewrite rpy_euler; now apply euler_of_rot|]. split; [now apply euler_standard|].
  pose proof (euler_standard z1 z3 C HC G) as ST. fold e in ST. destruct ST as (_ & _ & Y).
  assert (RT : tf_rot (tf C t) = C) by (mat_eq; reflexivity).
  assert (F0 : fid_new z1 z3 (tf C t) = Fid (vx e) (vy e) (tf (euler321 (V3 (vx e) (vy e) (vz e))) t)).
  { unfold fid_new, tf_quat. rewrite RT. fold e. rewrite EE. unfold e. rewrite (euler_of_rot z1 z3 C HC G). reflexivity. }
  rewrite F0. generalize (vx e) (vy e). intros r p ops. revert r p. clear - Y.
  induction ops as [|o ops IH]; intros r p H.
  - cbn [fold_left]. cbn [upright snd] in H. destruct H as [P _]. cbn [fst snd f_roll f_pitch f_T_WF].
    unfold fid_estimate. rewrite fid_update_ok by auto. cbn [snd f_roll f_pitch f_T_WF].
    rewrite yaw_kept, trans_tf, rpy_euler by auto. auto.
  - cbn [upright snd] in H. destruct H as [P H]. cbn [fold_left].
    assert (E : do_op z1 z3 (Fid r p (tf (euler321 (V3 r p (vz e))) t)) o =
      Fid (fst (want (r, p) o)) (snd (want (r, p) o)) (tf (euler321 (V3 (fst (want (r, p) o)) (snd (want (r, p) o)) (vz e))) t)).
    { destruct o as [dx|dx|]; cbn [do_op want fst snd].
      - unfold fid_plus. cbn [f_roll f_pitch f_T_WF]. now apply fid_update_ok.
      - unfold fid_minus. cbn [f_roll f_pitch f_T_WF]. now apply fid_update_ok.
      - unfold fid_estimate. cbn [fst]. now apply fid_update_ok. }
    rewrite E. destruct (want (r, p) o) as [r' p'] eqn:W. cbn [fst snd]. apply IH. exact H.
Qed.
Example C80_example : IsRot I3 /\ Rabs (m20 I3) <> 1 /\
  forall z1 z3, let f := fold_left (do_op z1 z3) [Plus (1, 1); Minus (2, 1 / 2); Estimate] (fid_new z1 z3 I4) in
    f_roll f = -1 /\ f_pitch f = 1 / 2.
Proof.
  assert (RI : IsRot I3) by (split; [mat_eq; ring|unfold mdet, I3; cbn; ring]).
  assert (NG : Rabs (m20 I3) <> 1) by (cbn; rewrite Rabs_R0; lra).
  split; [exact RI|]. split; [exact NG|]. intros z1 z3 f. pose proof PI2_3_2 as PP. pose proof PI_RGT_0 as P0.
  destruct (C80_fiducial_partial z1 z3 I3 vzero RI NG) as (r & p & y & E & (A & B & D) & H).
  assert (I : tf I3 vzero = I4) by (mat_eq; reflexivity).
  rewrite rpy_euler in E. rewrite I in H.
  assert (PZ : p = 0).
  { pose proof (f_equal m20 E) as E20. unfold euler321 in E20. cbn [vx vy vz m20 I3] in E20, B.
    assert (S0 : sin p = 0) by lra. rewrite <- (asin_sin p) by lra. rewrite S0. apply asin_0. }
  assert (RZ : r = 0).
  { rewrite PZ in E. pose proof (f_equal m21 E) as E21. pose proof (f_equal m22 E) as E22. unfold euler321 in E21, E22. cbn [vx vy vz m21 m22 I3] in E21, E22, A.
    rewrite cos_0, Rmult_1_l in E21, E22. apply angle_unique; [lra|lra|rewrite cos_0; lra|rewrite sin_0; lra]. }
  destruct (H [Plus (1, 1); Minus (2, 1 / 2); Estimate]) as (HH & _).
  - rewrite PZ. cbn [upright want fst snd]. repeat split; apply Rabs_def1; lra.
  - fold f in HH. pose proof (f_equal fst HH) as H1. pose proof (f_equal snd HH) as H2. clear HH. clearbody f. cbn [fold_left want fst snd] in H1, H2. lra.
Qed.
(** Beyond 90 degrees subtracting the increment that was just added does not restore the pose: the
    target ends up turned by 180 degrees about the vertical. *)
Theorem C80_undo_refuted : forall z1 z3,
  let f := fid_new z1 z3 I4 in let dx := (0, 3) in
  let f' := fid_minus z1 z3 (fid_plus z1 z3 f dx) dx in
  f_roll f' = f_roll f /\ f_pitch f' = f_pitch f /\
  f_T_WF f = I4 /\ f_T_WF f' = tf (rpy_matrix (V3 0 0 PI)) vzero /\
  snd (fid_estimate z1 z3 f) = I4 /\ snd (fid_estimate z1 z3 f') = tf (rpy_matrix (V3 0 0 PI)) vzero /\
  tf (rpy_matrix (V3 0 0 PI)) vzero <> I4.
Proof.
  intros z1 z3. pose proof PI_RGT_0 as PP. pose proof PI2_3_2 as P2.
  assert (I : I4 = tf (euler321 (V3 0 0 0)) vzero).
  { unfold euler321. cbn [vx vy vz]. rewrite cos_0, sin_0. mat_eq; ring. }
  assert (E0 : quat2euler z1 z3 (tf_quat (tf (euler321 (V3 0 0 0)) vzero)) = V3 0 0 0).
  { unfold tf_quat. assert (E : tf_rot (tf (euler321 (V3 0 0 0)) vzero) = euler321 (V3 0 0 0)) by (mat_eq; reflexivity).
    rewrite E. assert (RC : IsRot (euler321 (V3 0 0 0))) by apply C46_rotation_builders. destruct RC as [O D].
    destruct (to_rot_of_rot _ O D) as [E1 U]. apply C78_unique_partial; [exact U| | |].
    - unfold standard; cbn; lra.
    - cbn. rewrite Rabs_R0. lra.
    - rewrite rpy_euler. auto. }
  assert (F0 : fid_new z1 z3 I4 = Fid 0 0 (tf (euler321 (V3 0 0 0)) vzero)).
  { rewrite I. unfold fid_new. rewrite E0. reflexivity. }
  intros f dx f'.
  assert (F1 : fid_plus z1 z3 f dx = Fid 0 3 (tf (euler321 (V3 0 3 0)) vzero)).
  { unfold f. rewrite F0. unfold fid_plus, dx. cbn [fst snd f_roll f_pitch f_T_WF]. rewrite fid_update_ok by (try rewrite Rabs_R0; lra).
    replace (0 + 0) with 0 by ring. replace (0 + 3) with 3 by ring. reflexivity. }
  assert (CN : cos 3 < 0) by (apply cos_lt_0; pose proof PI_4; lra).
  assert (YF : vz (quat2euler z1 z3 (tf_quat (tf (euler321 (V3 0 3 0)) vzero))) = PI).
  { unfold tf_quat. assert (E : tf_rot (tf (euler321 (V3 0 3 0)) vzero) = euler321 (V3 0 3 0)) by (mat_eq; reflexivity).
    rewrite E. assert (RC : IsRot (euler321 (V3 0 3 0))) by apply C46_rotation_builders.
    rewrite (q2e_rot z1 z3 _ RC). unfold euler321. cbn [vx vy vz m00 m10]. rewrite sin_0, cos_0.
    replace (0 * cos 3) with 0 by ring. replace (1 * cos 3) with (cos 3) by ring.
    unfold atan2. destruct (Rlt_dec 0 (cos 3)); [lra|]. destruct (Rlt_dec (cos 3) 0); [|lra]. destruct (Rlt_dec 0 0); [lra|].
    unfold Rdiv. rewrite Rmult_0_l, atan_0. ring. }
  assert (F2 : fid_minus z1 z3 (fid_plus z1 z3 f dx) dx = Fid 0 0 (tf (euler321 (V3 0 0 PI)) vzero)).
  { rewrite F1. unfold fid_minus, fid_update, dx. cbn [fst snd f_roll f_pitch f_T_WF]. rewrite YF, trans_tf.
    replace (0 - 0) with 0 by ring. replace (3 - 3) with 0 by ring. reflexivity. }
  assert (Ef : f = Fid 0 0 (tf (euler321 (V3 0 0 0)) vzero)) by exact F0.
  change (fid_minus z1 z3 (fid_plus z1 z3 f dx) dx) with f' in F2. clear F0 F1. clearbody f'. clearbody f.
  rewrite F2, Ef. cbn [f_roll f_pitch f_T_WF]. unfold fid_estimate.
  rewrite !fid_update_ok by (try rewrite Rabs_R0; lra). cbn [snd f_roll f_pitch f_T_WF].
  rewrite !yaw_kept, !trans_tf, !rpy_euler by (try rewrite Rabs_R0; lra).
  repeat split; auto. intros E. apply (f_equal n00) in E. unfold tf, euler321, I4 in E. cbn [n00 m00 vx vy vz] in E.
  rewrite cos_PI, cos_0 in E. lra.
Qed.

(** ** C81: noise added to a pose stays within the requested bounds *)
Theorem C81_add_noise_partial : forall z1 z3 r1 r2 r3 r4 r5 r6 C p pos_n rot_n,
  (forall r, In r [r1; r2; r3; r4; r5; r6] -> (0 <= r <= RAND_MAX)%Z) -> 0 <= pos_n -> 0 <= rot_n ->
  IsRot C -> Rabs (m20 C) <> 1 ->
  exists C' p', add_noise z1 z3 r1 r2 r3 r4 r5 r6 (tf C p) pos_n rot_n = tf C' p' /\ IsRot C' /\
    Rabs (vx p' - vx p) <= pos_n /\ Rabs (vy p' - vy p) <= pos_n /\ Rabs (vz p' - vz p) <= pos_n /\
    exists e e', rpy_matrix e = C /\ standard e /\ rpy_matrix e' = C' /\
      Rabs (vx e' - vx e) <= rot_n * (PI / 180) /\ Rabs (vy e' - vy e) <= rot_n * (PI / 180) /\ Rabs (vz e' - vz e) <= rot_n * (PI / 180).
Proof.
  intros z1 z3 r1 r2 r3 r4 r5 r6 C p pn rn HR HP HN HC NG. pose proof PI_RGT_0 as PP.
  assert (G : Rabs (m20 C) < 1).
  { destruct (rot_rows C HC) as [R2 _]. assert (Rabs (m20 C) <= 1) by (apply Rabs_le; split; nra). lra. }
  assert (B : forall r n, In r [r1; r2; r3; r4; r5; r6] -> 0 <= n -> - n <= randf r (- n) n <= n).
  { intros r n I N. pose proof (C67_randf r (- n) n (HR r I)) as X. rewrite Rmin_right, Rmax_left in X by lra. exact X. }
  unfold add_noise. eexists _, _. split; [reflexivity|].
  assert (RT : tf_rot (tf C p) = C) by (mat_eq; reflexivity). rewrite RT, trans_tf.
  split; [apply C46_rotation_builders|].
  unfold add_noise_pos. cbn [vadd vx vy vz].
  assert (D : forall x r n, In r [r1; r2; r3; r4; r5; r6] -> 0 <= n -> Rabs (x + randf r (- n) n - x) <= n).
  { intros x r n I N. pose proof (B r n I N). apply Rabs_le. lra. }
  split; [apply D; cbn; auto|]. split; [apply D; cbn; auto|]. split; [apply D; cbn; auto 10|].
  exists (quat2euler z1 z3 (of_rot C)). eexists. split; [rewrite rpy_euler; now apply euler_of_rot|].
  split; [now apply euler_standard|]. split; [rewrite rpy_euler; reflexivity|]. cbn [vx vy vz].
  assert (K : forall x r, In r [r1; r2; r3; r4; r5; r6] -> Rabs (x + deg2rad (randf r (- rn) rn) - x) <= rn * (PI / 180)).
  { intros x r I. pose proof (B r rn I HN). unfold deg2rad. apply Rabs_le.
    assert (0 < PI / 180) by lra. split; nra. }
  split; [apply K; cbn; auto 10|]. split; apply K; cbn; auto 10.
Qed.
Print Assumptions C79_init_attitude.
Print Assumptions C80_fiducial_partial.
