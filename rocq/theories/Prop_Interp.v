(** C74: interpolation of orientations and poses (slerp, interp_pose, lerp_pose). *)
From Coq Require Import Reals ZArith Lra Psatz.
From Coquelicot Require Import Coquelicot.
From Verif Require Import GeomModel GeomSpec GeomProofs LerpModel InterpModel Prop_Geom.
Local Open Scope R_scope.

(** ** the quaternion of an angle and an axis *)
Definition axq (u : vec3) (h : R) : quat := Q (cos h) (sin h * vx u) (sin h * vy u) (sin h * vz u).
Definition axab (u : vec3) (a b : R) : quat := Q a (b * vx u) (b * vy u) (b * vz u).

Lemma to_rot_axq u h : vdot u u = 1 -> to_rot (axq u h) = rodrigues u (2 * h).
Proof.
  intros U. unfold axq, rodrigues. rewrite sin_2a, cos_2a.
  pose proof (sc h) as S. set (s := sin h) in *. set (c := cos h) in *.
  destruct u as [x y z]. unfold vdot in U. cbn [vx vy vz] in U.
  mat_eq; apply Rminus_diag_uniq.
  - transitivity (2 * (s * s - (1 - c * c)) * (-(y*y) - z*z) / 1 * 0 + ((c*c + s*s) - 1) * (-(y*y) - z*z)); [ring|].
    replace (c * c + s * s - 1) with 0 by lra. ring.
  - transitivity (((c*c + s*s) - 1) * (x * y)); [ring|]. replace (c * c + s * s - 1) with 0 by lra. ring.
  - transitivity (((c*c + s*s) - 1) * (x * z)); [ring|]. replace (c * c + s * s - 1) with 0 by lra. ring.
  - transitivity (((c*c + s*s) - 1) * (x * y)); [ring|]. replace (c * c + s * s - 1) with 0 by lra. ring.
  - transitivity (((c*c + s*s) - 1) * (-(x*x) - z*z)); [ring|]. replace (c * c + s * s - 1) with 0 by lra. ring.
  - transitivity (((c*c + s*s) - 1) * (y * z)); [ring|]. replace (c * c + s * s - 1) with 0 by lra. ring.
  - transitivity (((c*c + s*s) - 1) * (x * z)); [ring|]. replace (c * c + s * s - 1) with 0 by lra. ring.
  - transitivity (((c*c + s*s) - 1) * (y * z)); [ring|]. replace (c * c + s * s - 1) with 0 by lra. ring.
  - transitivity (((c*c + s*s) - 1) * (-(x*x) - y*y)); [ring|]. replace (c * c + s * s - 1) with 0 by lra. ring.
Qed.
Lemma axq_unit u h : vdot u u = 1 -> qnorm2 (axq u h) = 1.
Proof.
  intros U. pose proof (sc h) as S. unfold axq, qnorm2; cbn [qw qx qy qz].
  unfold vdot in U. transitivity (cos h * cos h + sin h * sin h * (vx u * vx u + vy u * vy u + vz u * vz u)); [ring|].
  rewrite U, S. ring.
Qed.
Lemma to_rot_mul p q : qnorm2 p = 1 -> qnorm2 q = 1 -> to_rot (qmul p q) = mmul (to_rot p) (to_rot q).
Proof.
  intros P Q. rewrite !to_rot_quat2rot; auto; [apply quat2rot_mul|]. rewrite qnorm2_mul, P, Q. ring.
Qed.

(** ** two unit quaternions with non-negative dot product *)
Lemma relative q0 q1 : qnorm2 q0 = 1 -> qnorm2 q1 = 1 -> 0 <= qdot q0 q1 ->
  exists u, vdot u u = 1 /\ q1 = qmul q0 (axq u (acos (qdot q0 q1))) /\ qdot q0 q1 <= 1.
Proof.
  intros N0 N1 D. set (r := qmul (qconj q0) q1).
  assert (RW : qw r = qdot q0 q1) by (unfold r, qdot, qmul, qconj; cbn [qw qx qy qz]; ring).
  assert (RN : qnorm2 r = 1).
  { unfold r. rewrite qnorm2_mul, N1. replace (qnorm2 (qconj q0)) with (qnorm2 q0) by (unfold qnorm2, qconj; cbn [qw qx qy qz]; ring). rewrite N0; ring. }
  assert (E : q1 = qmul q0 r).
  { unfold r. rewrite <- qmul_assoc.
    replace (qmul q0 (qconj q0)) with (Q (qnorm2 q0) 0 0 0) by (unfold qnorm2; mat_eq; ring).
    rewrite N0, qmul_1. reflexivity. }
  set (c := qdot q0 q1) in *.
  pose proof (qnorm2_le r RN) as (B & _). rewrite RW in B.
  assert (C1 : c <= 1) by nra.
  set (h := acos c).
  assert (CH : cos h = c) by (apply cos_acos; lra).
  assert (SH : sin h = sqrt (1 - c²)) by (apply sin_acos; lra).
  assert (VV : qx r * qx r + qy r * qy r + qz r * qz r = 1 - c²).
  { unfold qnorm2 in RN. rewrite RW in RN. unfold Rsqr. lra. }
  destruct (Req_dec (sin h) 0) as [Z|NZ].
  - exists (V3 1 0 0). split; [unfold vdot; cbn; ring|]. split; [|lra].
    rewrite E. f_equal. unfold axq. rewrite Z, CH.
    assert (Z2 : 1 - c² = 0).
    { rewrite SH in Z. apply sqrt_eq_0 in Z; [auto|]. rewrite <- VV. nra. }
    rewrite Z2 in VV.
    assert (qx r = 0 /\ qy r = 0 /\ qz r = 0) as (X & Y & Zz) by (repeat split; nra).
    mat_eq; [rewrite RW|rewrite X|rewrite Y|rewrite Zz]; ring.
  - exists (vscale (/ sin h) (V3 (qx r) (qy r) (qz r))). split; [|split; [|lra]].
    + unfold vdot, vscale; cbn [vx vy vz].
      assert (SS : sin h * sin h = 1 - c²).
      { rewrite SH. rewrite sqrt_sqrt; [auto|]. rewrite <- VV. nra. }
      transitivity ((qx r * qx r + qy r * qy r + qz r * qz r) / (sin h * sin h)); [field; auto|].
      rewrite VV, SS. field. rewrite <- SS. nra.
    + rewrite E. f_equal. unfold axq, vscale. cbn [vx vy vz]. rewrite CH. fold h.
      mat_eq; [lra|field; auto|field; auto|field; auto].
Qed.

Lemma combine q0 u h a b :
  qadd (qscale a q0) (qscale b (qmul q0 (axq u h))) = qmul q0 (axab u (a + b * cos h) (b * sin h)).
Proof. unfold axq, axab, qadd. mat_eq; ring. Qed.

Lemma qnormalize_unit q : qnorm2 q <> 0 -> qnorm2 (qnormalize q) = 1.
Proof.
  intros N. unfold qnormalize. assert (P : 0 < qnorm2 q).
  { assert (0 <= qnorm2 q) by (unfold qnorm2; nra). lra. }
  destruct (Rlt_dec _ _) as [_|]; [|lra].
  pose proof (sqrt_lt_R0 _ P) as S0. pose proof (sqrt_sqrt (qnorm2 q) (Rlt_le _ _ P)) as SS.
  unfold qnorm2 at 1, qscale. cbn [qw qx qy qz]. set (s := sqrt (qnorm2 q)) in *.
  transitivity (qnorm2 q / (s * s)); [unfold qnorm2; field; lra|]. rewrite SS. field. lra.
Qed.

(** ** C74: slerp *)
(** The angle an interpolation at parameter [alpha] should have is [alpha * theta], where [theta]
    in [0, pi] is the angle of the rotation from the first orientation to the second. *)
Lemma acos_half c : 0 <= c <= 1 -> 0 <= acos c <= PI / 2.
Proof.
  intros C. pose proof (acos_bound c). split; [lra|].
  destruct (Rle_dec (acos c) (PI / 2)) as [|N]; auto. apply Rnot_le_lt in N.
  assert (cos (acos c) < 0) by (apply cos_lt_0; lra). rewrite cos_acos in H0; lra.
Qed.

Lemma nlerp_angle h al : 0 <= h -> 9995 / 10000 < cos h -> h < PI / 2 -> 0 <= al <= 1 ->
  let a := 1 - al + al * cos h in let b := al * sin h in
  let f := atan (b / a) in
  0 < a /\ cos f = a / sqrt (a * a + b * b) /\ sin f = b / sqrt (a * a + b * b) /\
  Rabs (f - al * h) <= 3 / 10000 * (al * h).
Proof.
  intros H0 C H1 AL a b f. pose proof (COS_bound h) as CB. pose proof (sc h) as SC.
  assert (S0 : 0 <= sin h) by (apply sin_ge_0; lra).
  assert (A : 0 < a) by (unfold a; nra).
  assert (Q : 1 + (b / a)² = (a * a + b * b) / (a * a)) by (unfold Rsqr; field; lra).
  assert (SQ : sqrt (1 + (b / a)²) = sqrt (a * a + b * b) / a).
  { rewrite Q. rewrite sqrt_div; [|nra|nra]. f_equal. apply sqrt_square. lra. }
  assert (N0 : 0 < sqrt (a * a + b * b)) by (apply sqrt_lt_R0; nra).
  split; auto. split; [unfold f; rewrite cos_atan, SQ; field; lra|].
  split; [unfold f; rewrite sin_atan, SQ; field; lra|].
  set (F := fun t => atan ((t * sin h) / (1 - t + t * cos h))).
  set (dF := fun t => sin h / (1 - 2 * t * (1 - t) * (1 - cos h))).
  assert (DF : forall t, 0 <= t <= 1 -> is_derive F t (dF t)).
  { intros t T. unfold F, dF. assert (P : 0 < 1 - t + t * cos h) by nra.
    auto_derive; [lra|].
    assert (D : 0 < 1 - 2 * t * (1 - t) * (1 - cos h)) by nra.
    assert (D2 : (1 - t + t * cos h) * (1 - t + t * cos h) + (t * sin h) * (t * sin h)
      = 1 - 2 * t * (1 - t) * (1 - cos h)).
    { transitivity ((1 - t + t * cos h) * (1 - t + t * cos h) + t * t * (sin h * sin h)); [ring|].
      rewrite SC. ring. }
    rewrite <- D2. field. split; [|lra]. nra. }
  assert (B : forall t, 0 <= t <= 1 -> sin h <= dF t <= sin h * (2 / (1 + cos h))).
  { intros t T. unfold dF.
    assert (TT : 0 <= t * (1 - t) <= / 4) by (pose proof (Rle_0_sqr (t - / 2)); unfold Rsqr in *; nra).
    assert (D : (1 + cos h) / 2 <= 1 - 2 * t * (1 - t) * (1 - cos h) <= 1).
    { replace (2 * t * (1 - t) * (1 - cos h)) with (2 * ((t * (1 - t)) * (1 - cos h))) by ring. nra. }
    unfold Rdiv. split.
    - rewrite <- (Rmult_1_r (sin h)) at 1. apply Rmult_le_compat_l; auto.
      rewrite <- Rinv_1 at 1. apply Rinv_le_contravar; lra.
    - apply Rmult_le_compat_l; auto. replace (2 * / (1 + cos h)) with (/ ((1 + cos h) / 2)) by (field; lra).
      apply Rinv_le_contravar; lra. }
  assert (MV : forall t, 0 <= t <= 1 -> t * sin h <= F t <= t * (sin h * (2 / (1 + cos h)))).
  { intros t T. destruct (MVT_gen F 0 t dF) as (x & X & E).
    - intros x X. rewrite Rmin_left, Rmax_right in X by lra. apply DF; lra.
    - intros x X. rewrite Rmin_left, Rmax_right in X by lra.
      apply derivable_continuous_pt. exists (dF x). apply is_derive_Reals, DF; lra.
    - rewrite Rmin_left, Rmax_right in X by lra.
      assert (F0 : F 0 = 0) by (unfold F; rewrite Rmult_0_l; unfold Rdiv; rewrite Rmult_0_l; apply atan_0).
      rewrite F0 in E. pose proof (B x ltac:(lra)) as [B1 B2]. nra. }
  assert (F1 : F 1 = h).
  { unfold F. replace (1 * sin h / (1 - 1 + 1 * cos h)) with (tan h) by (unfold tan; field; lra).
    apply atan_tan; lra. }
  assert (Ff : f = F al) by (unfold f, F, a, b; reflexivity).
  pose proof (MV al AL) as M. pose proof (MV 1 ltac:(lra)) as M1. rewrite F1 in M1. rewrite <- Ff in M.
  assert (K : 2 / (1 + cos h) <= 10003 / 10000).
  { apply (Rmult_le_reg_r (1 + cos h)); [lra|]. unfold Rdiv at 1. rewrite Rmult_assoc, Rinv_l by lra. lra. }
  assert (sin h * (2 / (1 + cos h)) <= sin h * (10003 / 10000)) by (apply Rmult_le_compat_l; auto).
  apply Rabs_le. split; nra.
Qed.

Theorem C74_slerp : forall q_start q_end alpha, qnorm2 q_start <> 0 -> qnorm2 q_end <> 0 ->
  let C0 := to_rot (qnormalize q_start) in let C1 := to_rot (qnormalize q_end) in
  let q := slerp q_start q_end alpha in
  exists u theta, vdot u u = 1 /\ 0 <= theta <= PI /\
    (* the two orientations differ by the rotation of angle theta about u *)
    C1 = mmul C0 (rodrigues u theta) /\
    (* far orientations: constant angular rate, for every parameter *)
    (cos (theta / 2) <= 9995 / 10000 ->
       unitq q /\ to_rot q = mmul C0 (rodrigues u (alpha * theta))) /\
    (* close orientations: the angle is right to 0.03 per cent *)
    (9995 / 10000 < cos (theta / 2) -> 0 <= alpha <= 1 ->
       unitq q /\ exists phi, to_rot q = mmul C0 (rodrigues u phi) /\
         Rabs (phi - alpha * theta) <= 3 / 10000 * (alpha * theta)).
Proof.
  intros qs qe al NS NE C0 C1 q.
  pose proof (qnormalize_unit qs NS) as U0. pose proof (qnormalize_unit qe NE) as U1.
  unfold q, slerp. subst C0 C1. cbv zeta. set (q0 := qnormalize qs) in *. set (q1 := qnormalize qe) in *.
  set (fl := if Rlt_dec (qdot q0 q1) 0 then true else false).
  set (q1' := if fl then qopp q1 else q1). set (d := if fl then - qdot q0 q1 else qdot q0 q1).
  assert (U1' : qnorm2 q1' = 1) by (unfold q1'; destruct fl; auto; rewrite qnorm2_opp; auto).
  assert (D : qdot q0 q1' = d).
  { unfold d, q1'. destruct fl; auto. unfold qdot, qopp, qscale; cbn [qw qx qy qz]; ring. }
  assert (D0 : 0 <= d) by (unfold d, fl; destruct (Rlt_dec _ _); lra).
  assert (T1 : to_rot q1 = to_rot q1') by (unfold q1'; destruct fl; auto; rewrite to_rot_opp; auto).
  destruct (relative q0 q1' U0 U1') as (u & UU & E & D1); [lra|]. rewrite D in *.
  set (h := acos d) in *.
  assert (CH : cos h = d) by (apply cos_acos; lra).
  pose proof (acos_half d ltac:(lra)) as HB. fold h in HB.
  exists u, (2 * h). split; auto. split; [lra|].
  split. { rewrite T1, E, to_rot_mul, to_rot_axq; auto. apply axq_unit; auto. }
  replace (2 * h / 2) with h by field. rewrite CH.
  assert (FIN : forall f, unitq (qmul q0 (axq u f)) /\ to_rot (qmul q0 (axq u f)) = mmul (to_rot q0) (rodrigues u (2 * f))).
  { intros f. split; [unfold unitq; rewrite qnorm2_mul, U0, axq_unit; auto; ring|].
    rewrite to_rot_mul, to_rot_axq; auto. apply axq_unit; auto. }
  split.
  - intros L. destruct (Rlt_dec (9995 / 10000) _); [lra|].
    assert (SH : 0 < sin h).
    { apply sin_gt_0; [|pose proof PI_RGT_0; lra].
      destruct (Req_dec h 0) as [Z|]; [|lra]. rewrite Z, cos_0 in CH. lra. }
    rewrite E, combine.
    replace (axab u _ _) with (axq u (al * h)).
    + replace (al * (2 * h)) with (2 * (al * h)) by ring. apply FIN.
    + unfold axab, axq. rewrite (Rmult_comm h al), <- CH. f_equal; field; lra.
  - intros L AL. destruct (Rlt_dec (9995 / 10000) _) as [_|]; [|lra].
    assert (HP : h < PI / 2).
    { destruct (Req_dec h (PI / 2)) as [Z|]; [|lra]. rewrite Z, cos_PI2 in CH. lra. }
    destruct (nlerp_angle h al) as (A & EC & ES & EB); auto; try lra.
    set (f := atan _) in *. set (a := 1 - al + al * cos h) in *. set (b := al * sin h) in *.
    assert (EQ : qadd q0 (qscale al (qsub q1' q0)) = qmul q0 (axab u a b)).
    { rewrite E. unfold a, b, qsub, qadd, axab, axq. mat_eq; ring. }
    rewrite EQ.
    assert (NN : qnorm2 (qmul q0 (axab u a b)) = a * a + b * b).
    { rewrite qnorm2_mul, U0. unfold qnorm2, axab; cbn [qw qx qy qz]. unfold vdot in UU.
      transitivity (a * a + b * b * (vx u * vx u + vy u * vy u + vz u * vz u)); [ring|]. rewrite UU. ring. }
    assert (NP : 0 < a * a + b * b) by nra.
    assert (QN : qnormalize (qmul q0 (axab u a b)) = qmul q0 (axq u f)).
    { unfold qnormalize. rewrite NN. destruct (Rlt_dec 0 _); [|lra].
      unfold axq. rewrite EC, ES. unfold axab. pose proof (sqrt_lt_R0 _ NP).
      set (n := sqrt _) in *. mat_eq; field; lra. }
    rewrite QN. destruct (FIN f) as [F1 F2]. split; [exact F1|].
    exists (2 * f). split; [exact F2|].
    replace (2 * f - al * (2 * h)) with (2 * (f - al * h)) by ring.
    rewrite Rabs_mult, (Rabs_right 2) by lra. nra.
Qed.

(** end points and a non-trivial case of the hypotheses *)
Theorem C74_slerp_ends : forall q0 q1, qnorm2 q0 <> 0 -> qnorm2 q1 <> 0 ->
  to_rot (slerp q0 q1 0) = to_rot (qnormalize q0) /\
  to_rot (slerp q0 q1 1) = to_rot (qnormalize q1).
Proof.
  intros q0 q1 N0 N1.
  destruct (C74_slerp q0 q1 0 N0 N1) as (u & th & UU & TH & E & F & N).
  destruct (C74_slerp q0 q1 1 N0 N1) as (u' & th' & UU' & TH' & E' & F' & N').
  assert (R0 : forall w, rodrigues w 0 = I3).
  { intros w. unfold rodrigues. rewrite sin_0, cos_0. mat_eq; ring. }
  split.
  - destruct (Rle_dec (cos (th / 2)) (9995 / 10000)) as [L|L].
    + destruct (F L) as [_ ->]. rewrite Rmult_0_l, R0, mmul_I_r. reflexivity.
    + destruct N as (_ & phi & -> & B); [lra|lra|].
      rewrite Rmult_0_l, Rmult_0_r, Rminus_0_r in B.
      assert (phi = 0) as ->.
      { pose proof (Rabs_pos phi). apply Rabs_eq_0. lra. }
      rewrite R0, mmul_I_r. reflexivity.
  - pose proof (qnormalize_unit q0 N0) as U0. pose proof (qnormalize_unit q1 N1) as U1.
    clear - U0 U1. unfold slerp. cbv zeta. set (a := qnormalize q0) in *. set (b := qnormalize q1) in *.
    set (fl := if Rlt_dec (qdot a b) 0 then true else false).
    set (b' := if fl then qopp b else b). set (d := if fl then - qdot a b else qdot a b).
    assert (UB : qnorm2 b' = 1) by (unfold b'; destruct fl; auto; rewrite qnorm2_opp; auto).
    assert (TB : to_rot b = to_rot b') by (unfold b'; destruct fl; auto; rewrite to_rot_opp; auto).
    rewrite TB. destruct (Rlt_dec (9995 / 10000) _) as [L|L].
    + replace (qadd a (qscale 1 (qsub b' a))) with b' by (unfold qsub, qadd; mat_eq; ring).
      unfold qnormalize. rewrite UB. destruct (Rlt_dec 0 1); auto.
      rewrite sqrt_1, Rinv_1. f_equal. mat_eq; ring.
    + assert (D0 : 0 <= d) by (unfold d, fl; destruct (Rlt_dec _ _); lra).
      assert (CH : cos (acos d) = d) by (apply cos_acos; lra).
      assert (SH : sin (acos d) <> 0).
      { rewrite sin_acos by lra. apply Rgt_not_eq, sqrt_lt_R0. unfold Rsqr. nra. }
      rewrite Rmult_1_r. f_equal. rewrite CH. set (s := sin (acos d)) in *.
      unfold qadd. mat_eq; field; auto.
Qed.
Example C74_slerp_case :
  qnorm2 (Q 2 0 0 0) <> 0 /\ qnorm2 (Q 0 1 2 0) <> 0 /\
  to_rot (qnormalize (Q 2 0 0 0)) <> to_rot (qnormalize (Q 0 1 2 0)).
Proof.
  split; [|split]; [unfold qnorm2; cbn; lra..|].
  unfold qnormalize, qnorm2. cbn [qw qx qy qz].
  destruct (Rlt_dec _ _) as [_|N]; [|lra]. destruct (Rlt_dec _ _) as [_|N]; [|lra].
  intros H. apply (f_equal m22) in H. revert H. cbn -[sqrt Rinv Rmult Rplus Rminus].
  replace (0 * 0 + 1 * 1 + 2 * 2 + 0 * 0) with 5 by ring.
  assert (S5 : / sqrt 5 * / sqrt 5 = / 5).
  { rewrite <- Rinv_mult_distr by (apply Rgt_not_eq, sqrt_lt_R0; lra). rewrite sqrt_sqrt; lra. }
  set (k := / sqrt 5) in *. intros H.
  assert (1 = 1 - 10 * (k * k)) by nra. rewrite S5 in H0. lra.
Qed.

(** ** C74: interp_pose and lerp_pose *)
Lemma rodrigues_add u a b : vdot u u = 1 -> mmul (rodrigues u a) (rodrigues u b) = rodrigues u (a + b).
Proof.
  intros U. replace a with (2 * (a / 2)) at 1 by field. replace b with (2 * (b / 2)) at 1 by field.
  rewrite <- !to_rot_axq by auto. rewrite <- to_rot_mul by (apply axq_unit; auto).
  replace (a + b) with (2 * (a / 2 + b / 2)) by field. rewrite <- to_rot_axq by auto. f_equal.
  unfold axq. rewrite cos_plus, sin_plus. unfold vdot in U. mat_eq; [|ring|ring|ring].
  apply Rminus_diag_uniq.
  transitivity (sin (a/2) * sin (b/2) * (1 - (vx u * vx u + vy u * vy u + vz u * vz u))); [ring|].
  rewrite U; ring.
Qed.
Lemma rodrigues_opp u a : rodrigues (vopp u) a = rodrigues u (- a).
Proof. unfold rodrigues. rewrite sin_neg, cos_neg. mat_eq; ring. Qed.
Lemma rodrigues_0 u : rodrigues u 0 = I3.
Proof. unfold rodrigues. rewrite sin_0, cos_0. mat_eq; ring. Qed.

Lemma eigen_slerp_far q other : qnorm2 q = 1 -> qnorm2 other = 1 ->
  exists u theta, vdot u u = 1 /\ 0 <= theta <= PI /\ cos (theta / 2) = Rabs (qdot q other) /\
    to_rot other = mmul (to_rot q) (rodrigues u theta) /\
    (Rabs (qdot q other) < eigen_one -> forall t,
       to_rot (eigen_slerp q t other) = mmul (to_rot q) (rodrigues u (t * theta))).
Proof.
  intros U0 U1. set (d := qdot q other).
  set (o' := if Rlt_dec d 0 then qopp other else other).
  assert (UO : qnorm2 o' = 1) by (unfold o'; destruct (Rlt_dec _ _); auto; rewrite qnorm2_opp; auto).
  assert (TO : to_rot other = to_rot o') by (unfold o'; destruct (Rlt_dec _ _); auto; rewrite to_rot_opp; auto).
  assert (D : qdot q o' = Rabs d).
  { unfold o'. destruct (Rlt_dec _ _) as [L|L].
    - rewrite Rabs_left by auto. unfold d, qdot, qopp, qscale; cbn [qw qx qy qz]; ring.
    - rewrite Rabs_right by lra. reflexivity. }
  destruct (relative q o' U0 UO) as (u & UU & E & D1); [rewrite D; apply Rabs_pos|]. rewrite D in *.
  set (h := acos (Rabs d)) in *. pose proof (Rabs_pos d) as AD.
  assert (CH : cos h = Rabs d) by (apply cos_acos; lra).
  pose proof (acos_half (Rabs d) ltac:(lra)) as HB. fold h in HB.
  exists u, (2 * h). split; auto. split; [lra|].
  split; [replace (2 * h / 2) with h by field; auto|].
  split. { rewrite TO, E, to_rot_mul, to_rot_axq; auto. apply axq_unit; auto. }
  intros FAR t.
  assert (SH : 0 < sin h).
  { apply sin_gt_0; [|pose proof PI_RGT_0; lra]. destruct (Req_dec h 0) as [Z|]; [|lra].
    rewrite Z, cos_0 in CH. unfold eigen_one in FAR. pose proof (Rinv_0_lt_compat (2 ^ 52)). lra. }
  replace (eigen_slerp q t other) with (qmul q (axq u (t * h))).
  { rewrite to_rot_mul, to_rot_axq; auto; [|apply axq_unit; auto]. f_equal. f_equal. ring. }
  unfold eigen_slerp. fold d. fold h. destruct (Rle_dec _ _) as [|_]; [lra|].
  assert (EE : forall s, qscale (if Rlt_dec d 0 then - s else s) other = qscale s o').
  { intros s. unfold o'. destruct (Rlt_dec d 0); auto. mat_eq; ring. }
  rewrite EE, E, combine. f_equal. unfold axq, axab.
  replace ((1 - t) * h) with (h - t * h) by ring. rewrite sin_minus.
  pose proof (sc h) as S2. f_equal; [|field; lra..]. field. lra.
Qed.
Lemma eigen_slerp_0 q other : eigen_slerp q 0 other = q.
Proof.
  unfold eigen_slerp. set (th := acos _). destruct (Rle_dec _ _) as [L|L].
  - destruct (Rlt_dec _ _); unfold qadd; mat_eq; ring.
  - rewrite Rmult_0_l, sin_0, Rminus_0_r, Rmult_1_l. unfold Rdiv. rewrite Rmult_0_l.
    assert (S0 : sin th <> 0).
    { unfold th. set (a := Rabs (qdot q other)) in *. assert (0 <= a) by apply Rabs_pos.
      assert (a < 1). { unfold eigen_one in L. pose proof (Rinv_0_lt_compat (2 ^ 52)). lra. }
      rewrite sin_acos by lra. apply Rgt_not_eq, sqrt_lt_R0. unfold Rsqr; nra. }
    destruct (Rlt_dec _ _); unfold qadd; mat_eq; field; auto.
Qed.
Lemma eigen_slerp_1 q other : to_rot (eigen_slerp q 1 other) = to_rot other.
Proof.
  unfold eigen_slerp. set (th := acos _).
  assert (K : forall k, k = 1 -> to_rot (qadd (qscale 0 q) (qscale (if Rlt_dec (qdot q other) 0 then - k else k) other)) = to_rot other).
  { intros k ->. destruct (Rlt_dec _ _).
    - rewrite <- (to_rot_opp other). f_equal. unfold qadd; mat_eq; ring.
    - f_equal. unfold qadd; mat_eq; ring. }
  destruct (Rle_dec _ _) as [L|L].
  - rewrite Rminus_diag_eq by auto. apply K; auto.
  - rewrite Rminus_diag_eq, Rmult_0_l, sin_0 by auto. unfold Rdiv. rewrite Rmult_0_l. apply K.
    rewrite Rmult_1_l. apply Rinv_r.
    unfold th. set (a := Rabs (qdot q other)) in *. assert (0 <= a) by apply Rabs_pos.
    assert (a < 1). { unfold eigen_one in L. pose proof (Rinv_0_lt_compat (2 ^ 52)). lra. }
    rewrite sin_acos by lra. apply Rgt_not_eq, sqrt_lt_R0. unfold Rsqr; nra.
Qed.

(** What holds: the translation runs from [p0] to [p1] while the rotation runs BACKWARDS, from
    [p1] (at [alpha = 0]) to [p0] (at [alpha = 1]). *)
Theorem C74_interp_pose_partial : forall p0 p1, Rigid p0 -> Rigid p1 ->
  exists u theta, vdot u u = 1 /\ 0 <= theta <= PI /\
    tf_rot p1 = mmul (tf_rot p0) (rodrigues u theta) /\
    forall alpha,
      let T := interp_pose p0 p1 alpha in
      tf_trans T = vadd (vscale (1 - alpha) (tf_trans p0)) (vscale alpha (tf_trans p1)) /\
      (cos (theta / 2) < eigen_one ->
         Rigid T /\ tf_rot T = mmul (tf_rot p0) (rodrigues u ((1 - alpha) * theta))) /\
      (alpha = 0 -> tf_rot T = tf_rot p1) /\ (alpha = 1 -> tf_rot T = tf_rot p0).
Proof.
  intros p0 p1 (A & ra & [OA DA] & EA) (B & rb & [OB DB] & EB).
  assert (RA : tf_rot p0 = A) by (rewrite EA; destruct A; reflexivity).
  assert (RB : tf_rot p1 = B) by (rewrite EB; destruct B; reflexivity).
  destruct (to_rot_of_rot A OA DA) as [TA UA]. destruct (to_rot_of_rot B OB DB) as [TB UB].
  destruct (eigen_slerp_far (of_rot B) (of_rot A) UB UA) as (u & th & UU & TH & CT & E & F).
  rewrite TA, TB in E.
  assert (UU' : vdot (vopp u) (vopp u) = 1) by (rewrite <- UU; unfold vdot, vopp; cbn [vx vy vz]; ring).
  assert (E' : B = mmul A (rodrigues (vopp u) th)).
  { rewrite E, mmul_assoc, rodrigues_opp, rodrigues_add by auto.
    rewrite Rplus_opp_r, rodrigues_0, mmul_I_r. reflexivity. }
  exists (vopp u), th. split; auto. split; auto. split; [rewrite RA, RB; auto|].
  intros al T.
  assert (TR : tf_rot T = to_rot (eigen_slerp (of_rot B) al (of_rot A))).
  { unfold T, interp_pose. rewrite RA, RB. unfold tf_q. destruct (to_rot _); reflexivity. }
  split. { unfold T, interp_pose, tf_q, lerp. destruct (tf_trans p0), (tf_trans p1); reflexivity. }
  split.
  - intros L. rewrite CT in L.
    assert (TE : tf_rot T = mmul (tf_rot p0) (rodrigues (vopp u) ((1 - al) * th))).
    { rewrite TR, F, TB, RA, E' by auto. rewrite mmul_assoc, !rodrigues_opp, rodrigues_add by auto.
      do 2 f_equal. ring. }
    split; auto. exists (tf_rot T), (tf_trans T). split.
    + rewrite TE, RA. destruct (rodrigues_rot (vopp u) ((1 - al) * th) UU') as [O D]. split.
      * rewrite mtr_mul, mmul_assoc, <- (mmul_assoc (mtr A)), OA, mmul_I_l. exact O.
      * rewrite mdet_mul, DA, D. ring.
    + unfold T, interp_pose, tf_q. set (X := to_rot _). set (v := lerp _ _ _).
      unfold tf, tf_rot, tf_trans. destruct X, v; reflexivity.
  - split; intros ->; rewrite TR.
    + rewrite eigen_slerp_0, TB, RB. reflexivity.
    + rewrite eigen_slerp_1, TA, RA. reflexivity.
Qed.

(** Refuted: "interp_pose at 0 is the first pose and at 1 the second". It fails for EVERY pair of
    rigid poses with different rotations. *)
Theorem C74_interp_pose_refuted : forall p0 p1, Rigid p0 -> Rigid p1 -> tf_rot p0 <> tf_rot p1 ->
  interp_pose p0 p1 0 <> p0 /\ interp_pose p0 p1 1 <> p1.
Proof.
  intros p0 p1 R0 R1 N. destruct (C74_interp_pose_partial p0 p1 R0 R1) as (u & th & _ & _ & _ & H).
  split; intros E.
  - destruct (H 0) as (_ & _ & H0 & _). rewrite E in H0. specialize (H0 eq_refl). auto.
  - destruct (H 1) as (_ & _ & _ & H1). rewrite E in H1. specialize (H1 eq_refl). auto.
Qed.
Theorem C74_lerp_pose_partial : forall t0 p0 t1 p1 t, Rigid p0 -> Rigid p1 -> t0 <> t1 ->
  lerp_pose t0 p0 t1 p1 t = Some (interp_pose p0 p1 (IZR (t - t0) / IZR (t1 - t0))) /\
  (exists T, lerp_pose t0 p0 t1 p1 t0 = Some T /\ tf_trans T = tf_trans p0 /\ tf_rot T = tf_rot p1) /\
  (exists T, lerp_pose t0 p0 t1 p1 t1 = Some T /\ tf_trans T = tf_trans p1 /\ tf_rot T = tf_rot p0).
Proof.
  intros t0 p0 t1 p1 t R0 R1 N.
  assert (Z1 : IZR (t1 - t0) <> 0) by (apply not_0_IZR; lia).
  assert (G : forall s, lerp_pose t0 p0 t1 p1 s = Some (interp_pose p0 p1 (IZR (s - t0) / IZR (t1 - t0)))).
  { intros s. unfold lerp_pose. destruct (Z.eqb_spec t1 t0); [lia|]. do 2 f_equal. unfold secs. field. auto. }
  destruct (C74_interp_pose_partial p0 p1 R0 R1) as (u & th & _ & _ & _ & H).
  split; auto. split.
  - eexists. split; [apply G|]. replace (IZR (t0 - t0) / IZR (t1 - t0)) with 0.
    2:{ rewrite Z.sub_diag. unfold Rdiv. ring. }
    destruct (H 0) as (HT & _ & H0 & _). split; auto. rewrite HT. mat_eq; ring.
  - eexists. split; [apply G|]. replace (IZR (t1 - t0) / IZR (t1 - t0)) with 1 by (field; auto).
    destruct (H 1) as (HT & _ & _ & H1). split; auto. rewrite HT. mat_eq; ring.
Qed.
Example C74_interp_pose_case :
  let p0 := I4 in let p1 := tf (M3 0 (-1) 0 1 0 0 0 0 1) (V3 1 2 3) in
  Rigid p0 /\ Rigid p1 /\ tf_rot p0 <> tf_rot p1.
Proof.
  intros p0 p1. split; [|split].
  - exists I3, vzero. split; [split; [mat_eq; ring|unfold mdet; cbn; ring]|reflexivity].
  - eexists _, _. split; [|reflexivity]. split; [mat_eq; ring|unfold mdet; cbn; ring].
  - intros H. apply (f_equal m00) in H. cbn in H. lra.
Qed.

Print Assumptions C74_slerp.
Print Assumptions C74_slerp_ends.
Print Assumptions C74_interp_pose_partial.
Print Assumptions C74_interp_pose_refuted.
Print Assumptions C74_lerp_pose_partial.
