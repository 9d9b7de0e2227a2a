(** * C73: residuals and their Jacobians *)
From Coq Require Import Reals Lra Lia ZArith List Bool Psatz.
From Coquelicot Require Import Coquelicot.
From Verif Require Import Base GeomModel GeomSpec GeomProofs CameraModel Prop_Geom Prop_Geom2 Prop_Camera Prop_Camera2 CalcSpec ResidualModel ResidualProofs.
Local Open Scope R_scope.

(** ** Specification *)
(** [J] is the derivative of [F] at the zero update: along every direction [d] *)
Definition pose_jacobian (F : tang -> option vec2) (J : option matf) : Prop :=
  exists M, J = Some M /\ forall d, velocity (fun t => F (tscale t d)) (times6 M 0 d) (times6 M 1 d).
Definition camera_jacobian (F : cam8 -> option vec2) (c : cam8) (J : option matf) : Prop :=
  exists M, J = Some M /\ forall d, velocity (fun t => F (tune c d t)) (times8 M 0 d) (times8 M 1 d).
(** the Jacobian [J] with respect to the 7 numbers of pose [x] reduces to the minimal one: what
    ceres computes from it with the Jacobian of the pose parameterisation (2x7 times 7x6) *)
Definition reduces_to (J : option matf) (x : pose) (Jmin : option matf) : Prop :=
  exists M M', J = Some M /\ Jmin = Some M' /\ forall i j, (j < 6)%nat -> mulf 7 M (plus_jacobian x) i j = M' i j.
(** cameras and points for which projection is differentiable (C53) *)
Definition supported (G : geometry) (p : vec3) : Prop :=
  G = radtan4_geometry \/ (G = equi4_geometry /\ / 10 ^ 8 < offaxis p).

Lemma supported_diff G res c p : supported G p -> code (g_project G res c p) = 0%Z -> differentiable_at G res c p.
Proof.
  intros [ -> |[ -> Ho]] H; cbn in H.
  - apply radtan4_diff. apply C52_radtan4 in H. lra.
  - apply equi4_diff; auto. destruct (C52_equi4_partial res c p ltac:(left; lra)) as [A _]. apply A in H. tauto.
Qed.
Lemma reduces_intro x J : unitq (p_q x) -> (exists M, J = Some M) -> reduces_to (lifted J (tf_pose x)) x J.
Proof.
  intros U [M ->]. eexists; exists M. split; [reflexivity|]. split; auto. intros i j Hj. apply lift_plus; auto.
Qed.
Lemma tscale_d t d : d_r (tscale t d) = vscale t (d_r d) /\ d_a (tscale t d) = vscale t (d_a d).
Proof. split; reflexivity. Qed.
Lemma plus_0 x d : pose_plus x (tscale 0 d) = x.
Proof.
  replace (tscale 0 d) with tzero; [apply C48_zero_update|].
  unfold tscale, tzero, vzero, vscale. rewrite !Rmult_0_l. reflexivity.
Qed.
Lemma tune_0 c d : tune c d 0 = c.
Proof. destruct c. unfold tune. cbn. rewrite !Rmult_0_l, !Rplus_0_r. reflexivity. Qed.

(** ** Reprojection residual *)
Lemma reproj_point_eq p x0 x1 :
  reproj_point p x0 x1 = mapp (mtr (to_rot (p_q x0))) (vsub (vadd (mapp (to_rot (p_q x1)) p) (p_r x1)) (p_r x0)).
Proof. unfold reproj_point, tf_pose, tf_q. rewrite point_mul, point_inv. reflexivity. Qed.
Theorem C73_reproj_partial : forall G res W z p x0 x1 c,
  supported G (reproj_point p x0 x1) -> unitq (p_q x0) -> unitq (p_q x1) ->
  code (g_project G res c (reproj_point p x0 x1)) = 0%Z ->
  let E := reproj_eval G res W z p in
  (exists zh, zhat (g_project G res c (reproj_point p x0 x1)) = Some zh /\ ev_r (E x0 x1 c) = Some (weigh W z zh)) /\
  tf_point (tf_pose x0) (reproj_point p x0 x1) = tf_point (tf_pose x1) p /\
  pose_jacobian (fun d => ev_r (E (pose_plus x0 d) x1 c)) (ev_min (E x0 x1 c) 0) /\
  pose_jacobian (fun d => ev_r (E x0 (pose_plus x1 d) c)) (ev_min (E x0 x1 c) 1) /\
  camera_jacobian (fun c' => ev_r (E x0 x1 c')) c (ev_min (E x0 x1 c) 2) /\
  reduces_to (ev_jac (E x0 x1 c) 0) x0 (ev_min (E x0 x1 c) 0) /\
  reduces_to (ev_jac (E x0 x1 c) 1) x1 (ev_min (E x0 x1 c) 1) /\
  ev_jac (E x0 x1 c) 2%nat = ev_min (E x0 x1 c) 2%nat.
Proof.
  intros G res W z p x0 x1 c HS U0 U1 HC E.
  pose proof (supported_diff _ res c _ HS HC) as (Jp & Jc & EJp & EJc & VP & VC).
  assert (O0 := to_rot_orth _ U0). assert (O1 := to_rot_orth _ U1).
  set (C0 := to_rot (p_q x0)) in *. set (C1 := to_rot (p_q x1)) in *.
  set (pt := reproj_point p x0 x1) in *.
  assert (EP : pt = mapp (mtr C0) (vsub (vadd (mapp C1 p) (p_r x1)) (p_r x0))) by apply reproj_point_eq.
  assert (VAL : Z.eqb (code (g_project G res c pt)) 0 = true) by (rewrite HC; reflexivity).
  unfold E, reproj_eval. cbn [ev_r ev_jac ev_min].
  fold pt. rewrite VAL, EJp, EJc. cbn [omap if_valid].
  unfold tf_pose, tf_q. fold C0 C1. rewrite tf_inv_tf, !rot_tf, mtr_tr.
  assert (Q0 : exists zh, zhat (g_project G res c pt) = Some zh).
  { destruct (VC (Cam 0 0 0 0 0 0 0 0)) as (f & L & _). apply locally_singleton in L. rewrite tune_0 in L. eexists; exact L. }
  split; [destruct Q0 as [zh ->]; exists zh; split; reflexivity|].
  split.
  { rewrite !point_tf. fold C0 C1. rewrite EP, rot_tr_r by auto. mat_eq; ring. }
  split.
  { eexists. split; [reflexivity|]. intros d.
    set (P := fun t => reproj_point p (pose_plus x0 (tscale t d)) x1).
    assert (DP : dv P 0 (vadd (mapp (mtr (mmul (skew (d_a d)) C0)) (vsub (vadd (mapp C1 p) (p_r x1)) (p_r x0))) (mapp (mtr C0) (vsub vzero (d_r d))))).
    { apply (dv_ext (fun t => mapp (mtr (to_rot (p_q (pose_plus x0 (tscale t d))))) (vsub (vadd (mapp C1 p) (p_r x1)) (p_r (pose_plus x0 (tscale t d)))))).
      - intros t. unfold P. rewrite reproj_point_eq. reflexivity.
      - eapply dv_eq. { apply dv_mapp; [apply dm_mtr, pose_dR; auto|]. apply dv_sub; [apply dv_const|apply pose_dr]. }
        cbn beta. rewrite plus_0. fold C0. reflexivity. }
    assert (P0 : P 0 = pt) by (unfold P; rewrite plus_0; reflexivity).
    eapply vel_eq. { apply vel_weigh. apply (VP P _ P0 DP). }
    all: rewrite times6_hcat, !times3_mf, !times3_scale, !times3_mul2; unfold scalef;
      rewrite EP, (rot_tr_r C0) by auto; set (v := vsub _ (p_r x0)); unfold mneg, times3; mcbn; ring. }
  split.
  { eexists. split; [reflexivity|]. intros d.
    set (P := fun t => reproj_point p x0 (pose_plus x1 (tscale t d))).
    assert (DP : dv P 0 (mapp (mtr C0) (vadd (mapp (mmul (skew (d_a d)) C1) p) (d_r d)))).
    { apply (dv_ext (fun t => mapp (mtr C0) (vsub (vadd (mapp (to_rot (p_q (pose_plus x1 (tscale t d)))) p) (p_r (pose_plus x1 (tscale t d)))) (p_r x0)))).
      - intros t. unfold P. rewrite reproj_point_eq. reflexivity.
      - eapply dv_eq. { apply dv_mapp; [apply dm_const|]. apply dv_sub; [apply dv_add; [apply dv_mapp; [apply pose_dR; auto|apply dv_const]|apply pose_dr]|apply dv_const]. }
        cbn beta. rewrite plus_0. fold C1. mat_eq; ring. }
    assert (P0 : P 0 = pt) by (unfold P; rewrite plus_0; reflexivity).
    eapply vel_eq. { apply vel_weigh. apply (VP P _ P0 DP). }
    all: rewrite times6_hcat, !times3_mf, !times3_mul2; unfold scalef; unfold mneg, times3; mcbn; ring. }
  split.
  { eexists. split; [reflexivity|]. intros d. eapply vel_eq. { apply vel_weigh. apply (VC d). }
    all: rewrite times8_mul2; unfold scalef; ring. }
  split; [|split; [|reflexivity]]; (apply reduces_intro; [auto|eexists; reflexivity]).
Qed.

(** ** Motion capture residual *)
Lemma mocap_point_eq f x0 x1 x2 : mocap_point f x0 x1 x2 =
  mapp (mtr (to_rot (p_q x2))) (vsub (mapp (mtr (to_rot (p_q x1))) (vsub (vadd (mapp (to_rot (p_q x0)) f) (p_r x0)) (p_r x1))) (p_r x2)).
Proof. unfold mocap_point, tf_pose, tf_q. rewrite point_mul, point_mul_inv, point_inv. reflexivity. Qed.
Ltac finish_rows := rewrite times6_hcat, !times3_mf, !times3_scale, !times3_mul2; unfold mneg, times3, mmul, mapp; mcbn; ring.
Theorem C73_mocap_partial : forall G res W z f x0 x1 x2 c,
  supported G (mocap_point f x0 x1 x2) -> unitq (p_q x0) -> unitq (p_q x1) -> unitq (p_q x2) ->
  code (g_project G res c (mocap_point f x0 x1 x2)) = 0%Z ->
  let E := mocap_eval G res W z f in
  (exists zh, zhat (g_project G res c (mocap_point f x0 x1 x2)) = Some zh /\ ev_r (E x0 x1 x2 c) = Some (weigh W z zh)) /\
  tf_point (tf_pose x1) (tf_point (tf_pose x2) (mocap_point f x0 x1 x2)) = tf_point (tf_pose x0) f /\
  pose_jacobian (fun d => ev_r (E (pose_plus x0 d) x1 x2 c)) (ev_min (E x0 x1 x2 c) 0) /\
  pose_jacobian (fun d => ev_r (E x0 (pose_plus x1 d) x2 c)) (ev_min (E x0 x1 x2 c) 1) /\
  pose_jacobian (fun d => ev_r (E x0 x1 (pose_plus x2 d) c)) (ev_min (E x0 x1 x2 c) 2) /\
  camera_jacobian (fun c' => ev_r (E x0 x1 x2 c')) c (ev_min (E x0 x1 x2 c) 3) /\
  reduces_to (ev_jac (E x0 x1 x2 c) 0) x0 (ev_min (E x0 x1 x2 c) 0) /\
  reduces_to (ev_jac (E x0 x1 x2 c) 1) x1 (ev_min (E x0 x1 x2 c) 1) /\
  reduces_to (ev_jac (E x0 x1 x2 c) 2) x2 (ev_min (E x0 x1 x2 c) 2) /\
  ev_jac (E x0 x1 x2 c) 3%nat = ev_min (E x0 x1 x2 c) 3%nat.
Proof.
  intros G res W z f x0 x1 x2 c HS U0 U1 U2 HC E.
  pose proof (supported_diff _ res c _ HS HC) as (Jp & Jc & EJp & EJc & VP & VC).
  assert (O0 := to_rot_orth _ U0). assert (O1 := to_rot_orth _ U1). assert (O2 := to_rot_orth _ U2).
  set (C0 := to_rot (p_q x0)) in *. set (C1 := to_rot (p_q x1)) in *. set (C2 := to_rot (p_q x2)) in *.
  set (pt := mocap_point f x0 x1 x2) in *.
  assert (EP : pt = mapp (mtr C2) (vsub (mapp (mtr C1) (vsub (vadd (mapp C0 f) (p_r x0)) (p_r x1))) (p_r x2))) by apply mocap_point_eq.
  assert (VAL : Z.eqb (code (g_project G res c pt)) 0 = true) by (rewrite HC; reflexivity).
  unfold E, mocap_eval. cbn [ev_r ev_jac ev_min].
  fold pt. rewrite VAL, EJp, EJc. cbn [omap if_valid].
  unfold tf_pose, tf_q. fold C0 C1 C2.
  rewrite point_mul, point_inv, !tf_inv_tf, !rot_mul, !rot_tf.
  assert (Q0 : exists zh, zhat (g_project G res c pt) = Some zh).
  { destruct (VC (Cam 0 0 0 0 0 0 0 0)) as (g & L & _). apply locally_singleton in L. rewrite tune_0 in L. eexists; exact L. }
  split; [destruct Q0 as [zh ->]; exists zh; split; reflexivity|].
  split.
  { rewrite !point_tf. rewrite EP, (rot_tr_r C2) by auto.
    replace (vadd (vsub (mapp (mtr C1) (vsub (vadd (mapp C0 f) (p_r x0)) (p_r x1))) (p_r x2)) (p_r x2))
      with (mapp (mtr C1) (vsub (vadd (mapp C0 f) (p_r x0)) (p_r x1))) by (mat_eq; ring).
    rewrite (rot_tr_r C1) by auto. mat_eq; ring. }
  split.
  { eexists. split; [reflexivity|]. intros d.
    set (P := fun t => mocap_point f (pose_plus x0 (tscale t d)) x1 x2).
    assert (DP : dv P 0 (mapp (mtr C2) (mapp (mtr C1) (vadd (mapp (mmul (skew (d_a d)) C0) f) (d_r d))))).
    { apply (dv_ext (fun t => mapp (mtr C2) (vsub (mapp (mtr C1) (vsub (vadd (mapp (to_rot (p_q (pose_plus x0 (tscale t d)))) f) (p_r (pose_plus x0 (tscale t d)))) (p_r x1))) (p_r x2)))).
      - intros t. unfold P. rewrite mocap_point_eq. reflexivity.
      - eapply dv_eq. { apply dv_mapp; [apply dm_const|]. apply dv_sub; [|apply dv_const]. apply dv_mapp; [apply dm_const|].
          apply dv_sub; [apply dv_add; [apply dv_mapp; [apply pose_dR; auto|apply dv_const]|apply pose_dr]|apply dv_const]. }
        cbn beta. rewrite plus_0. fold C0. mat_eq; ring. }
    assert (P0 : P 0 = pt) by (unfold P; rewrite plus_0; reflexivity).
    eapply vel_eq. { apply vel_weigh. apply (VP P _ P0 DP). }
    all: finish_rows. }
  split.
  { eexists. split; [reflexivity|]. intros d.
    set (P := fun t => mocap_point f x0 (pose_plus x1 (tscale t d)) x2).
    set (v := vsub (vadd (mapp C0 f) (p_r x0)) (p_r x1)) in *.
    assert (DP : dv P 0 (mapp (mtr C2) (vadd (mapp (mtr (mmul (skew (d_a d)) C1)) v) (mapp (mtr C1) (vopp (d_r d)))))).
    { apply (dv_ext (fun t => mapp (mtr C2) (vsub (mapp (mtr (to_rot (p_q (pose_plus x1 (tscale t d))))) (vsub (vadd (mapp C0 f) (p_r x0)) (p_r (pose_plus x1 (tscale t d))))) (p_r x2)))).
      - intros t. unfold P. rewrite mocap_point_eq. reflexivity.
      - eapply dv_eq. { apply dv_mapp; [apply dm_const|]. apply dv_sub; [|apply dv_const]. apply dv_mapp; [apply dm_mtr, pose_dR; auto|].
          apply dv_sub; [apply dv_const|apply pose_dr]. }
        cbn beta. rewrite plus_0. fold C1. fold v. clearbody v. mat_eq; ring. }
    assert (P0 : P 0 = pt) by (unfold P; rewrite plus_0; reflexivity).
    rewrite (rot_tr_r C1) by auto. clearbody v.
    eapply vel_eq. { apply vel_weigh. apply (VP P _ P0 DP). }
    all: finish_rows. }
  split.
  { eexists. split; [reflexivity|]. intros d.
    set (P := fun t => mocap_point f x0 x1 (pose_plus x2 (tscale t d))).
    set (v0 := mapp (mtr C1) (vsub (vadd (mapp C0 f) (p_r x0)) (p_r x1))) in *.
    set (v := vsub v0 (p_r x2)) in *.
    assert (DP : dv P 0 (vadd (mapp (mtr (mmul (skew (d_a d)) C2)) v) (mapp (mtr C2) (vopp (d_r d))))).
    { apply (dv_ext (fun t => mapp (mtr (to_rot (p_q (pose_plus x2 (tscale t d))))) (vsub v0 (p_r (pose_plus x2 (tscale t d)))))).
      - intros t. unfold P. rewrite mocap_point_eq. reflexivity.
      - eapply dv_eq. { apply dv_mapp; [apply dm_mtr, pose_dR; auto|]. apply dv_sub; [apply dv_const|apply pose_dr]. }
        cbn beta. rewrite plus_0. fold C2. fold v. clearbody v. mat_eq; ring. }
    assert (P0 : P 0 = pt) by (unfold P; rewrite plus_0; reflexivity).
    rewrite EP, (rot_tr_r C2) by auto. clearbody v.
    eapply vel_eq. { apply vel_weigh. apply (VP P _ P0 DP). }
    all: finish_rows. }
  split.
  { eexists. split; [reflexivity|]. intros d. eapply vel_eq. { apply vel_weigh. apply (VC d). }
    all: rewrite times8_mul2; unfold scalef; ring. }
  split; [|split; [|split; [|reflexivity]]]; (apply reduces_intro; [auto|eexists; reflexivity]).
Qed.

(** ** Fiducial residual: (roll, pitch), pose, IMU extrinsics, camera extrinsics, camera *)
Definition angles_jacobian (F : vec2 -> option vec2) (a : vec2) (J : option matf) : Prop :=
  exists M, J = Some M /\ forall d, velocity (fun t => F (V2 (v2x a + t * v2x d) (v2y a + t * v2y d)))
    (M 0%nat 0%nat * v2x d + M 0%nat 1%nat * v2y d) (M 1%nat 0%nat * v2x d + M 1%nat 1%nat * v2y d).
Lemma fid_point_eq f yaw r a x1 x2 x3 : fid_point f yaw r a x1 x2 x3 =
  mapp (mtr (to_rot (p_q x3))) (vsub (vadd (mapp (to_rot (p_q x2)) (mapp (mtr (to_rot (p_q x1)))
    (vsub (vadd (mapp (euler321 (V3 (v2x a) (v2y a) yaw)) f) r) (p_r x1)))) (p_r x2)) (p_r x3)).
Proof. unfold fid_point, fid_T_WF, tf_pose, tf_q. rewrite point_mul, point_mul_inv, point_mul, point_inv. reflexivity. Qed.
(** the columns J_x, J_y of calib_residuals.cpp 671-690 as functions of the angles *)
Definition fid_Jx (f : vec3) (yaw : R) (a : vec2) : vec3 :=
  let sphi := sin (v2x a) in let cphi := cos (v2x a) in let stheta := sin (v2y a) in let ctheta := cos (v2y a) in
  let cpsi := cos yaw in let spsi := sin yaw in let x := vx f in let y := vy f in let z := vz f in
  V3 (y * (sphi * spsi + stheta * cphi * cpsi) + z * (- sphi * stheta * cpsi + spsi * cphi))
     (y * (- sphi * cpsi + spsi * stheta * cphi) + z * (- sphi * spsi * stheta - cphi * cpsi))
     (y * cphi * ctheta - z * sphi * ctheta).
Definition fid_Jy (f : vec3) (yaw : R) (a : vec2) : vec3 :=
  let sphi := sin (v2x a) in let cphi := cos (v2x a) in let stheta := sin (v2y a) in let ctheta := cos (v2y a) in
  let cpsi := cos yaw in let spsi := sin yaw in let x := vx f in let y := vy f in let z := vz f in
  V3 (- x * stheta * cpsi + y * sphi * cpsi * ctheta + z * cphi * cpsi * ctheta)
     (- x * spsi * stheta + y * sphi * spsi * ctheta + z * spsi * cphi * ctheta)
     (- x * ctheta - y * sphi * stheta - z * stheta * cphi).
Lemma euler_d f yaw a d : dv (fun t => mapp (euler321 (V3 (v2x a + t * v2x d) (v2y a + t * v2y d) yaw)) f) 0
  (vadd (vscale (v2x d) (fid_Jx f yaw a)) (vscale (v2y d) (fid_Jy f yaw a))).
Proof.
  unfold fid_Jx, fid_Jy, euler321, mapp. cbv zeta. split; [|split]; cbn [m00 m01 m02 m10 m11 m12 m20 m21 m22 vx vy vz vadd vscale];
  auto_derive; auto; rewrite !Rmult_0_l, !Rplus_0_r; ring.
Qed.
Lemma times3_col A v i : mulf 3 A (vec_col v) i O = times3 A i v.
Proof. unfold mulf, times3, vec_col. cbn. ring. Qed.
Theorem C73_fiducial_partial : forall G res W z f yaw r a x1 x2 x3 c,
  supported G (fid_point f yaw r a x1 x2 x3) -> unitq (p_q x1) -> unitq (p_q x2) -> unitq (p_q x3) ->
  code (g_project G res c (fid_point f yaw r a x1 x2 x3)) = 0%Z ->
  let E := fid_eval G res W z f yaw r in let E0 := E a x1 x2 x3 c in
  (exists zh, zhat (g_project G res c (fid_point f yaw r a x1 x2 x3)) = Some zh /\ ev_r E0 = Some (weigh W z zh)) /\
  tf_point (tf_pose x1) (tf_point (tf_inv (tf_pose x2)) (tf_point (tf_pose x3) (fid_point f yaw r a x1 x2 x3))) =
    tf_point (tf (euler321 (V3 (v2x a) (v2y a) yaw)) r) f /\
  angles_jacobian (fun a' => ev_r (E a' x1 x2 x3 c)) a (ev_min E0 0) /\
  pose_jacobian (fun d => ev_r (E a (pose_plus x1 d) x2 x3 c)) (ev_min E0 1) /\
  pose_jacobian (fun d => ev_r (E a x1 (pose_plus x2 d) x3 c)) (ev_min E0 2) /\
  pose_jacobian (fun d => ev_r (E a x1 x2 (pose_plus x3 d) c)) (ev_min E0 3) /\
  camera_jacobian (fun c' => ev_r (E a x1 x2 x3 c')) c (ev_min E0 4) /\
  ev_jac E0 0%nat = ev_min E0 0%nat /\ reduces_to (ev_jac E0 1) x1 (ev_min E0 1) /\
  reduces_to (ev_jac E0 2) x2 (ev_min E0 2) /\ reduces_to (ev_jac E0 3) x3 (ev_min E0 3) /\
  ev_jac E0 4%nat = ev_min E0 4%nat.
Proof.
  intros G res W z f yaw r a x1 x2 x3 c HS U1 U2 U3 HC E E0.
  pose proof (supported_diff _ res c _ HS HC) as (Jp & Jc & EJp & EJc & VP & VC).
  assert (O1 := to_rot_orth _ U1). assert (O2 := to_rot_orth _ U2). assert (O3 := to_rot_orth _ U3).
  set (C1 := to_rot (p_q x1)) in *. set (C2 := to_rot (p_q x2)) in *. set (C3 := to_rot (p_q x3)) in *.
  set (pt := fid_point f yaw r a x1 x2 x3) in *.
  set (Ca := euler321 (V3 (v2x a) (v2y a) yaw)) in *.
  set (u := vadd (mapp Ca f) r).
  set (v1 := vsub u (p_r x1)). set (w := mapp (mtr C1) v1).
  assert (EP : pt = mapp (mtr C3) (vsub (vadd (mapp C2 w) (p_r x2)) (p_r x3))) by apply fid_point_eq.
  assert (VAL : Z.eqb (code (g_project G res c pt)) 0 = true) by (rewrite HC; reflexivity).
  unfold E0, E, fid_eval. cbn [ev_r ev_jac ev_min].
  fold pt. rewrite VAL, EJp, EJc. cbn [omap if_valid].
  unfold fid_T_WF, tf_pose, tf_q. fold Ca. fold C1 C2 C3. change (fid_point f yaw r a x1 x2 x3) with pt.
  rewrite point_mul, (point_inv C1). fold u. fold v1. fold w. rewrite !(tf_inv_tf C1), !(tf_inv_tf C3), !mul_tf, !rot_tf, mtr_tr.
  assert (Q0 : exists zh, zhat (g_project G res c pt) = Some zh).
  { destruct (VC (Cam 0 0 0 0 0 0 0 0)) as (g & L & _). apply locally_singleton in L. rewrite tune_0 in L. eexists; exact L. }
  split; [destruct Q0 as [zh ->]; exists zh; split; reflexivity|].
  split.
  { rewrite point_inv, !point_tf. rewrite EP, (rot_tr_r C3) by auto.
    replace (vsub (vadd (vsub (vadd (mapp C2 w) (p_r x2)) (p_r x3)) (p_r x3)) (p_r x2)) with (mapp C2 w) by (mat_eq; ring).
    rewrite (rot_tr_l C2) by auto. unfold w. rewrite (rot_tr_r C1) by auto. unfold v1. fold u. mat_eq; ring. }
  split.
  { eexists. split; [reflexivity|]. intros d.
    set (P := fun t => fid_point f yaw r (V2 (v2x a + t * v2x d) (v2y a + t * v2y d)) x1 x2 x3).
    assert (DP : dv P 0 (mapp (mtr C3) (mapp C2 (mapp (mtr C1) (vadd (vscale (v2x d) (fid_Jx f yaw a)) (vscale (v2y d) (fid_Jy f yaw a))))))).
    { apply (dv_ext (fun t => mapp (mtr C3) (vsub (vadd (mapp C2 (mapp (mtr C1) (vsub (vadd (mapp (euler321 (V3 (v2x a + t * v2x d) (v2y a + t * v2y d) yaw)) f) r) (p_r x1)))) (p_r x2)) (p_r x3)))).
      - intros t. unfold P. rewrite fid_point_eq. reflexivity.
      - eapply dv_eq. { apply dv_mapp; [apply dm_const|]. apply dv_sub; [|apply dv_const]. apply dv_add; [|apply dv_const].
          apply dv_mapp; [apply dm_const|]. apply dv_mapp; [apply dm_const|].
          apply dv_sub; [apply dv_add; [apply euler_d|apply dv_const]|apply dv_const]. }
        set (g1 := fid_Jx f yaw a). set (g2 := fid_Jy f yaw a). mat_eq; ring. }
    assert (P0 : P 0 = pt).
    { unfold P. rewrite !Rmult_0_l, !Rplus_0_r. destruct a; reflexivity. }
    eapply vel_eq. { apply vel_weigh. apply (VP P _ P0 DP). }
    all: rewrite !times3_col;
      change (V3 (vy f * _ + _) _ _) with (fid_Jx f yaw a); change (V3 (- vx f * _ * _ + _ + _) _ _) with (fid_Jy f yaw a);
      set (g1 := fid_Jx f yaw a); set (g2 := fid_Jy f yaw a); rewrite !times3_mf, !times3_scale, !times3_mul2;
      unfold times3, mmul, mapp; mcbn; ring. }
  split.
  { eexists. split; [reflexivity|]. intros d.
    set (P := fun t => fid_point f yaw r a (pose_plus x1 (tscale t d)) x2 x3).
    assert (DP : dv P 0 (mapp (mtr C3) (mapp C2 (vadd (mapp (mtr (mmul (skew (d_a d)) C1)) v1) (mapp (mtr C1) (vopp (d_r d))))))).
    { apply (dv_ext (fun t => mapp (mtr C3) (vsub (vadd (mapp C2 (mapp (mtr (to_rot (p_q (pose_plus x1 (tscale t d))))) (vsub u (p_r (pose_plus x1 (tscale t d)))))) (p_r x2)) (p_r x3)))).
      - intros t. unfold P. rewrite fid_point_eq. reflexivity.
      - eapply dv_eq. { apply dv_mapp; [apply dm_const|]. apply dv_sub; [|apply dv_const]. apply dv_add; [|apply dv_const].
          apply dv_mapp; [apply dm_const|]. apply dv_mapp; [apply dm_mtr, pose_dR; auto|].
          apply dv_sub; [apply dv_const|apply pose_dr]. }
        cbn beta. rewrite plus_0. fold C1. fold v1. clearbody v1. mat_eq; ring. }
    assert (P0 : P 0 = pt) by (unfold P; rewrite plus_0; reflexivity).
    unfold w. rewrite (rot_tr_r C1) by auto. clear EP w. clearbody v1.
    eapply vel_eq. { apply vel_weigh. apply (VP P _ P0 DP). }
    all: finish_rows. }
  split.
  { eexists. split; [reflexivity|]. intros d.
    set (P := fun t => fid_point f yaw r a x1 (pose_plus x2 (tscale t d)) x3).
    assert (DP : dv P 0 (mapp (mtr C3) (vadd (mapp (mmul (skew (d_a d)) C2) w) (d_r d)))).
    { apply (dv_ext (fun t => mapp (mtr C3) (vsub (vadd (mapp (to_rot (p_q (pose_plus x2 (tscale t d)))) w) (p_r (pose_plus x2 (tscale t d)))) (p_r x3)))).
      - intros t. unfold P. rewrite fid_point_eq. reflexivity.
      - eapply dv_eq. { apply dv_mapp; [apply dm_const|]. apply dv_sub; [|apply dv_const]. apply dv_add; [|apply pose_dr].
          apply dv_mapp; [apply pose_dR; auto|apply dv_const]. }
        cbn beta. rewrite plus_0. fold C2. clearbody w. mat_eq; ring. }
    assert (P0 : P 0 = pt) by (unfold P; rewrite plus_0; reflexivity).
    clearbody w.
    eapply vel_eq. { apply vel_weigh. apply (VP P _ P0 DP). }
    all: finish_rows. }
  split.
  { eexists. split; [reflexivity|]. intros d.
    set (P := fun t => fid_point f yaw r a x1 x2 (pose_plus x3 (tscale t d))).
    set (v := vsub (vadd (mapp C2 w) (p_r x2)) (p_r x3)) in *.
    assert (DP : dv P 0 (vadd (mapp (mtr (mmul (skew (d_a d)) C3)) v) (mapp (mtr C3) (vopp (d_r d))))).
    { apply (dv_ext (fun t => mapp (mtr (to_rot (p_q (pose_plus x3 (tscale t d))))) (vsub (vadd (mapp C2 w) (p_r x2)) (p_r (pose_plus x3 (tscale t d)))))).
      - intros t. unfold P. rewrite fid_point_eq. reflexivity.
      - eapply dv_eq. { apply dv_mapp; [apply dm_mtr, pose_dR; auto|]. apply dv_sub; [apply dv_const|apply pose_dr]. }
        cbn beta. rewrite plus_0. fold C3. fold v. clearbody v. mat_eq; ring. }
    assert (P0 : P 0 = pt) by (unfold P; rewrite plus_0; reflexivity).
    rewrite EP, (rot_tr_r C3) by auto. clearbody v.
    eapply vel_eq. { apply vel_weigh. apply (VP P _ P0 DP). }
    all: finish_rows. }
  split.
  { eexists. split; [reflexivity|]. intros d. eapply vel_eq. { apply vel_weigh. apply (VC d). }
    all: rewrite times8_mul2; unfold scalef; ring. }
  split; [reflexivity|]. split; [|split; [|split; [|reflexivity]]]; (apply reduces_intro; [auto|eexists; reflexivity]).
Qed.

(** ** Points that do not project into the image *)
Theorem C73_invalid_view : forall G res W z,
  (forall p x0 x1 c i, code (g_project G res c (reproj_point p x0 x1)) <> 0%Z ->
     ev_min (reproj_eval G res W z p x0 x1 c) i = Some zerof /\ ev_jac (reproj_eval G res W z p x0 x1 c) i = Some zerof) /\
  (forall f x0 x1 x2 c i, code (g_project G res c (mocap_point f x0 x1 x2)) <> 0%Z ->
     ev_min (mocap_eval G res W z f x0 x1 x2 c) i = Some zerof /\ ev_jac (mocap_eval G res W z f x0 x1 x2 c) i = Some zerof) /\
  (forall f yaw r a x1 x2 x3 c i, code (g_project G res c (fid_point f yaw r a x1 x2 x3)) <> 0%Z ->
     ev_min (fid_eval G res W z f yaw r a x1 x2 x3 c) i = Some zerof /\
     ((i < 3)%nat -> ev_jac (fid_eval G res W z f yaw r a x1 x2 x3 c) i = Some zerof)).
Proof.
  intros G res W z. split; [|split].
  - intros p x0 x1 c i H. apply Z.eqb_neq in H. unfold reproj_eval. cbn [ev_min ev_jac]. rewrite H.
    destruct i as [|[|i]]; split; reflexivity.
  - intros f x0 x1 x2 c i H. apply Z.eqb_neq in H. unfold mocap_eval. cbn [ev_min ev_jac]. rewrite H.
    destruct i as [|[|[|i]]]; split; reflexivity.
  - intros f yaw r a x1 x2 x3 c i H. apply Z.eqb_neq in H. unfold fid_eval. cbn [ev_min ev_jac]. rewrite H.
    destruct i as [|[|[|[|i]]]]; split; try reflexivity; lia.
Qed.
Definition pose0 : pose := P vzero (Q 1 0 0 0).
Lemma unit_pose0 : unitq (p_q pose0). Proof. unfold unitq, qnorm2. cbn. ring. Qed.
Lemma to_rot_1 : to_rot (Q 1 0 0 0) = I3. Proof. mat_eq; ring. Qed.
Lemma euler_0 : euler321 (V3 0 0 0) = I3.
Proof. unfold euler321. cbn [vx vy vz]. rewrite sin_0, cos_0. mat_eq; ring. Qed.
Lemma fid_point_0 f : fid_point f 0 vzero (V2 0 0) pose0 pose0 pose0 = f.
Proof. rewrite fid_point_eq. cbn [pose0 p_q p_r v2x v2y]. rewrite to_rot_1, euler_0. mat_eq; unfold vzero; mcbn; ring. Qed.
(** The full Jacobians of the fiducial residual with respect to camera extrinsics and camera
    parameters are not reset: ceres receives non-zero derivatives for a point outside the image. *)
Definition cam1 : cam8 := Cam 1 1 0 0 0 0 0 0.
Theorem C73_fiducial_invalid_refuted :
  let f := V3 (-1) 0 1 in let W := mf I3 in
  let E := fid_eval radtan4_geometry (640, 480)%Z W (V2 0 0) f 0 vzero (V2 0 0) pose0 pose0 pose0 cam1 in
  code (pinhole_radtan4_project (640, 480)%Z cam1 (fid_point f 0 vzero (V2 0 0) pose0 pose0 pose0)) = (-1)%Z /\
  ev_min E 4%nat = Some zerof /\ exists J, ev_jac E 4%nat = Some J /\ J 0%nat 0%nat = 1.
Proof.
  intros f W E.
  assert (HC : code (pinhole_radtan4_project (640, 480)%Z cam1 (fid_point f 0 vzero (V2 0 0) pose0 pose0 pose0)) = (-1)%Z).
  { rewrite fid_point_0. destruct (C52_radtan4 (640, 480)%Z cam1 f) as (A & _ & [B|B]); auto.
    apply A in B. destruct B as [_ B]. unfold inside, pixel, radtan_spec, f, cam1 in B. cbn in B. lra. }
  split; auto. split.
  - apply (C73_invalid_view radtan4_geometry). cbn [radtan4_geometry g_project]. rewrite HC. discriminate.
  - unfold E, fid_eval. cbn [ev_jac]. rewrite fid_point_0.
    cbn [radtan4_geometry g_params_jacobian]. unfold pinhole_radtan4_params_jacobian, project_point, f.
    cbn [vx vy vz]. destruct (Req_EM_T 1 0); [lra|]. cbn [omap]. eexists. split; [reflexivity|].
    unfold mulf, scalef, hcat4, pinhole_params_jacobian, radtan4_distort, cam1, W, mf, rows, I3. simpl. field.
Qed.
(** Behind a fish-eye camera the predicted pixel is never written, yet the evaluation reports
    success and uses it. *)
Theorem C73_behind_camera_refuted : forall res W z c,
  let f := V3 0 0 (-1) in
  ev_r (reproj_eval equi4_geometry res W z f pose0 pose0 c) = None.
Proof.
  intros res W z c f. unfold reproj_eval. cbn [ev_r]. rewrite reproj_point_eq. cbn [pose0 p_q p_r]. rewrite to_rot_1.
  replace (mapp (mtr I3) (vsub (vadd (mapp I3 f) vzero) vzero)) with f by (mat_eq; unfold vzero; mcbn; ring).
  cbn [equi4_geometry g_project]. unfold pinhole_equi4_project, f. cbn [vz]. destruct Rlt_dec; [reflexivity|lra].
Qed.

