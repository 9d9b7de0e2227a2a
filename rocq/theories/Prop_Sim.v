(** * C76: simulated IMU; C77: circular camera and IMU simulation *)
From Verif Require Import Base GeomModel GeomSpec GeomProofs CalcSpec PlanarModel StatsModel CameraModel Prop_Planar Prop_Stats SimModel.
From Coq Require Import Reals Lra Lia Permutation Sorted.
From Coquelicot Require Import Coquelicot.
From Flocq Require Import Core.Raux.
Local Open Scope R_scope.

Definition ex : vec3 := V3 1 0 0.
Definition vlen (v : vec3) : R := sqrt (vx v ^ 2 + vy v ^ 2 + vz v ^ 2).

(** ** The measurement itself *)
(** Once started, a measurement always succeeds; the gyroscope reads the angular velocity and the
    accelerometer the acceleration plus the upward gravity reaction (0,0,g), both expressed in the
    sensor frame. *)
Theorem C76_measurement : forall imu d ts C r w a,
  IsRot C -> si_started imu = true ->
  exists imu' acc gyr, sim_imu_measurement imu d ts (tf C r) w a = Ret (imu', acc, gyr) /\
    mapp C gyr = w /\ mapp C acc = vadd a (V3 0 0 (si_g imu)) /\
    si_started imu' = true /\ si_ts_prev imu' = ts.
Proof.
  intros imu d ts C r w a [O D] St. unfold sim_imu_measurement. rewrite St.
  do 3 eexists. split; [reflexivity|].
  assert (E : tf_rot (tf C r) = C) by (mat_eq; reflexivity). rewrite E.
  rewrite <- !mapp_mmul, (orth_right C O D), !mapp_I. auto.
Qed.

(** The first measurement fails exactly when the first interval agrees with the configured rate to
    within half a period: the check is inverted. *)
Theorem C76_first_interval_refuted : forall imu d ts T w a,
  si_started imu = false ->
  ((exists e, sim_imu_measurement imu d ts T w a = Throw e) <->
   Rabs (IZR (ts - si_ts_prev imu) / 1000000000 - 1 / si_rate imu) < (1 / si_rate imu) / 2).
Proof.
  intros imu d ts T w a St. unfold sim_imu_measurement. rewrite St.
  destruct (Rlt_dec (Rabs (IZR (ts - si_ts_prev imu) / 1000000000 - 1 / si_rate imu)) (1 / si_rate imu / 2)) as [L|L].
  - split; eauto.
  - split; [intros [e E]; discriminate|contradiction].
Qed.
(** e.g. a 400 Hz IMU whose first sample comes exactly one period after its start *)
Example C76_first_interval_example : exists imu d w a,
  si_started imu = false /\ si_rate imu = 400 /\ si_ts_prev imu = 0%Z /\
  sim_imu_measurement imu d 2500000 I4 w a = Throw Fatal.
Proof.
  exists sim_imu0, (Draws vzero vzero vzero vzero), vzero, vzero.
  split; [reflexivity|]. split; [reflexivity|]. split; [reflexivity|].
  destruct (proj2 (C76_first_interval_refuted sim_imu0 (Draws vzero vzero vzero vzero) 2500000 I4 vzero vzero eq_refl)) as [e E].
  - cbn. replace (2500000 / 1000000000 - 1 / 400) with 0 by lra. rewrite Rabs_R0. lra.
  - revert E. unfold sim_imu_measurement. cbn [si_started sim_imu0]. destruct (Rlt_dec _ _); [reflexivity|discriminate].
Qed.

(** The reported values do not depend on the noise densities, the random numbers or the biases:
    the noise parameters have no effect on the measurements. *)
Theorem C76_noise_refuted : forall imu imu2 d d2 ts T w a i' acc gyr i2 acc2 gyr2,
  si_g imu = si_g imu2 ->
  sim_imu_measurement imu d ts T w a = Ret (i', acc, gyr) ->
  sim_imu_measurement imu2 d2 ts T w a = Ret (i2, acc2, gyr2) ->
  acc = acc2 /\ gyr = gyr2.
Proof.
  intros imu imu2 d d2 ts T w a i' acc gyr i2 acc2 gyr2 G.
  unfold sim_imu_measurement.
  match goal with |- (if ?b then _ else _) = _ -> _ => destruct b; [discriminate|] end. intros E1.
  match goal with |- (if ?b then _ else _) = _ -> _ => destruct b; [discriminate|] end. intros E2.
  pose proof (f_equal (fun o => match o with Ret (_, x, _) => x | _ => vzero end) E1) as A1.
  pose proof (f_equal (fun o => match o with Ret (_, _, x) => x | _ => vzero end) E1) as W1.
  pose proof (f_equal (fun o => match o with Ret (_, x, _) => x | _ => vzero end) E2) as A2.
  pose proof (f_equal (fun o => match o with Ret (_, _, x) => x | _ => vzero end) E2) as W2.
  cbn beta iota in *. rewrite <- A1, <- A2, <- W1, <- W2, G. auto.
Qed.

(** The biases the simulated IMU carries along: over any run of measurements the gyroscope bias is what is left of the
    initial one (it decays by the factor 1 - dt/tau_g per sample) plus the decayed sum of the gyroscope's own random
    increments, and likewise for the accelerometer; neither depends on the motion. *)
Fixpoint sim_run (i : sim_imu) (ms : list (draws * Z * mat4 * vec3 * vec3)) : outcome sim_imu :=
  match ms with
  | [] => Ret i
  | (d, ts, T, w, a) :: ms' => obind (sim_imu_measurement i d ts T w a) (fun r => sim_run (fst (fst r)) ms')
  end.
(** x0 decayed over all steps, and each increment decayed over the steps after it *)
Fixpoint decayed (q x0 : R) (xs : list R) : R :=
  match xs with [] => x0 | x :: xs' => q ^ length xs' * x + decayed q (q * x0) xs' end.
Theorem C76_bias : forall ms i, si_started i = true -> exists i', sim_run i ms = Ret i' /\ si_started i' = true /\
  let dt := 1 / si_rate i in
  forall c, In c [vx; vy; vz] ->
  c (si_b_g i') = decayed (1 - dt / si_tau_g i) (c (si_b_g i)) (map (fun m => si_sigma_gw_c i * sqrt dt * c (dw1 (fst (fst (fst (fst m)))))) ms) /\
  c (si_b_a i') = decayed (1 - dt / si_tau_a i) (c (si_b_a i)) (map (fun m => si_sigma_aw_c i * sqrt dt * c (dw2 (fst (fst (fst (fst m)))))) ms).
Proof.
  assert (D : forall q xs x, decayed q x xs = q ^ length xs * x + decayed q 0 xs).
  { intros q. induction xs as [|y xs IH]; intros x; cbn [decayed length]; [cbn; ring|]. rewrite (IH (q * x)), (IH (q * 0)). rewrite <- tech_pow_Rmult. ring. }
  induction ms as [|[[[[d ts] T] w] a] ms IH]; intros i St.
  - exists i. split; [reflexivity|]. split; [exact St|]. cbv zeta. intros c _. split; reflexivity.
  - cbn [sim_run]. unfold sim_imu_measurement. rewrite St. cbn [obind fst].
    match goal with |- exists i', sim_run ?j ms = _ /\ _ => destruct (IH j eq_refl) as (i' & E & S' & H) end.
    exists i'. split; [exact E|]. split; [exact S'|]. set (dt := 1 / si_rate i) in *. intros c Hc. destruct (H c Hc) as (H1 & H2). clear H IH E.
    cbn [si_rate si_tau_g si_tau_a si_sigma_gw_c si_sigma_aw_c si_b_g si_b_a] in H1, H2. fold dt in H1, H2.
    rewrite H1, H2. cbn [map decayed fst]. rewrite !map_length.
    split; rewrite D; [rewrite (D _ _ (_ * c (si_b_g i)))|rewrite (D _ _ (_ * c (si_b_a i)))]; rewrite !map_length;
      destruct Hc as [ <- |[ <- |[ <- |[]]]]; cbn [vadd vscale vx vy vz]; unfold Rdiv; ring.
Qed.
(** The first measurement starts the biases afresh, at sigma_w sqrt(tau/2) times its draws, the standard deviation at
    which the decay and the increments balance (up to terms of second order in dt/tau). *)
Theorem C76_bias_start : forall imu d ts T w a i' acc gyr, si_started imu = false -> 0 < si_tau_g imu -> 0 < si_tau_a imu ->
  sim_imu_measurement imu d ts T w a = Ret (i', acc, gyr) ->
  let dt := 1 / si_rate imu in
  exists sg sa, (si_b_g i' = vscale sg (dw1 d) /\ si_b_a i' = vscale sa (dw2 d)) /\
  (1 - 2 * (dt / si_tau_g imu)) * sg ^ 2 + si_sigma_gw_c imu ^ 2 * dt = sg ^ 2 /\
  (1 - 2 * (dt / si_tau_a imu)) * sa ^ 2 + si_sigma_aw_c imu ^ 2 * dt = sa ^ 2.
Proof.
  intros imu d ts T w a i' acc gyr St Hg Ha. unfold sim_imu_measurement. rewrite St.
  destruct (Rlt_dec _ _); [intros X; discriminate X|]. intros E. set (dt := 1 / si_rate imu) in *.
  exists (si_sigma_gw_c imu * sqrt (si_tau_g imu / 2)), (si_sigma_aw_c imu * sqrt (si_tau_a imu / 2)).
  pose proof (f_equal (fun o => match o with Ret (x, _, _) => si_b_g x | _ => vzero end) E) as E1.
  pose proof (f_equal (fun o => match o with Ret (x, _, _) => si_b_a x | _ => vzero end) E) as E2. cbn beta iota in E1, E2. cbn [si_b_g si_b_a] in E1, E2.
  split; [split; symmetry; assumption|].
  assert (Sq : forall s t, 0 < t -> (s * sqrt (t / 2)) ^ 2 = s ^ 2 * (t / 2)) by (intros s t Ht; rewrite Rpow_mult_distr; f_equal; apply pow2_sqrt; lra).
  rewrite !Sq by assumption. split; field; lra.
Qed.
(** ** Features: n/4 on each of the four walls of the box, none elsewhere *)
Definition between (lo hi x : R) : Prop := lo <= x <= hi.
Definition on_wall (origin dim : vec3) (side : nat) (p : vec3) : Prop :=
  between (vz origin - vz dim) (vz origin + vz dim) (vz p) /\
  match side with
  | 0%nat => vy p = vy origin + vy dim /\ between (vx origin - vx dim) (vx origin + vx dim) (vx p)
  | 1%nat => vx p = vx origin + vx dim /\ between (vy origin - vy dim) (vy origin + vy dim) (vy p)
  | 2%nat => vy p = vy origin - vy dim /\ between (vx origin - vx dim) (vx origin + vx dim) (vx p)
  | _ => vx p = vx origin - vx dim /\ between (vy origin - vy dim) (vy origin + vy dim) (vy p)
  end.
Lemma randf_between rnd a b : (0 <= rnd <= RAND_MAX)%Z -> a <= b -> between a b (randf rnd a b).
Proof.
  intros H L. pose proof (C67_randf rnd a b H) as B. rewrite Rmin_right, Rmax_left in B by lra. exact B.
Qed.
Lemma features_box n : forall rnd xb yb zb, (forall k, (0 <= rnd k <= RAND_MAX)%Z) ->
  fst xb <= snd xb -> fst yb <= snd yb -> fst zb <= snd zb ->
  length (create_3d_features rnd xb yb zb n) = n /\
  List.Forall (fun p => between (fst xb) (snd xb) (vx p) /\ between (fst yb) (snd yb) (vy p) /\ between (fst zb) (snd zb) (vz p))
    (create_3d_features rnd xb yb zb n).
Proof.
  induction n as [|n IH]; intros rnd xb yb zb H X Y Z; cbn [create_3d_features length]; [split; [auto|constructor]|].
  destruct (IH (fun k => rnd (k + 3)%nat) xb yb zb) as [L F]; auto.
  split; [auto|]. constructor; [|exact F]. cbn [vx vy vz]. split; [|split]; apply randf_between; auto.
Qed.
Theorem C77_features : forall rnd origin dim n,
  (forall k, (0 <= rnd k <= RAND_MAX)%Z) -> 0 <= vx dim -> 0 <= vy dim -> 0 <= vz dim ->
  exists f0 f1 f2 f3, create_3d_features_perimeter rnd origin dim n = f0 ++ f1 ++ f2 ++ f3 /\
    length f0 = (n / 4)%nat /\ length f1 = (n / 4)%nat /\ length f2 = (n / 4)%nat /\ length f3 = (n / 4)%nat /\
    List.Forall (on_wall origin dim 0) f0 /\ List.Forall (on_wall origin dim 1) f1 /\
    List.Forall (on_wall origin dim 2) f2 /\ List.Forall (on_wall origin dim 3) f3.
Proof.
  intros rnd origin dim n H X Y Z. unfold create_3d_features_perimeter.
  do 4 eexists. split; [reflexivity|].
  repeat match goal with |- context [create_3d_features ?r ?x ?y ?z ?n] =>
    let L := fresh "L" in let F := fresh "F" in
    destruct (features_box n r x y z) as [L F]; [intros; apply H|cbn [fst snd]; lra|cbn [fst snd]; lra|cbn [fst snd]; lra|];
    revert L F; generalize (create_3d_features r x y z n); intros ? L F
  end.
  repeat match goal with |- _ /\ _ => split end; auto;
  (eapply Forall_impl; [|eassumption]); cbn [fst snd]; unfold on_wall, between; intros p (A & B & C);
  (split; [exact C|split; lra]).
Qed.

(** ** The circle *)
(** The ideal motion: [p], [v], [a] position, velocity and acceleration, [C] the orientation of
    the body, all in the world frame, of a vehicle driving at 0.3 m/s clockwise once around a
    circle of radius [r] about the origin, starting at (-r, 0, 0) and looking forward. *)
Record circular_motion (r : R) (p v a : R -> vec3) (C : R -> mat3) (w : vec3) : Prop := {
  cm_start : p 0 = V3 (- r) 0 0;
  cm_radius : forall t, vz (p t) = 0 /\ vlen (p t) = r;
  cm_round : p (2 * PI * r / (3 / 10)) = p 0;
  cm_once : forall t, 0 < t < 2 * PI * r / (3 / 10) -> p t <> p 0;
  cm_velocity : forall t, dv p t (v t);
  cm_speed : forall t, vlen (v t) = 3 / 10;
  cm_clockwise : forall t, vx (p t) * vy (v t) - vy (p t) * vx (v t) < 0;
  cm_acceleration : forall t, dv v t (a t);
  cm_rotation : forall t, IsRot (C t);
  cm_level : forall t, mapp (C t) (V3 0 0 1) = V3 0 0 1;
  cm_forward : forall t, mapp (C t) ex = vscale (10 / 3) (v t);
  cm_rate : forall t, dm C t (mmul (skew w) (C t)) }.

Definition om (r : R) := ang_vel r.
Definition th (r t : R) := PI + om r * t.
Definition mp r t := V3 (r * cos (th r t)) (r * sin (th r t)) 0.
Definition mv r t := V3 (- r * om r * sin (th r t)) (r * om r * cos (th r t)) 0.
Definition ma r t := V3 (- r * (om r * om r) * cos (th r t)) (- r * (om r * om r) * sin (th r t)) 0.
Definition mC r t := euler321 (V3 0 0 (PI / 2 + om r * t)).

Lemma om_r r : 0 < r -> om r * r = - (3 / 10).
Proof.
  intros H. unfold om, ang_vel, time_taken, sensor_velocity. pose proof PI_RGT_0. field. lra.
Qed.
Lemma om_T r : 0 < r -> om r * time_taken r = - (2 * PI).
Proof.
  intros H. unfold om, ang_vel, time_taken, sensor_velocity. pose proof PI_RGT_0. field. lra.
Qed.
Lemma om_neg r : 0 < r -> om r < 0.
Proof. intros H. pose proof (om_r r H). nra. Qed.

Lemma motion r : 0 < r -> circular_motion r (mp r) (mv r) (ma r) (mC r) (V3 0 0 (om r)).
Proof.
  intros H. pose proof (om_r r H) as OR. pose proof (om_neg r H) as ON. pose proof PI_RGT_0 as PP.
  pose proof (om_T r H) as OT. unfold time_taken, sensor_velocity in OT.
  split.
  - unfold mp, th. rewrite Rmult_0_r, Rplus_0_r, cos_PI, sin_PI. f_equal; ring.
  - intros t. split; [reflexivity|]. unfold vlen, mp; cbn [vx vy vz].
    replace (_ + _ + _) with (r * r); [apply sqrt_square; lra|].
    pose proof (sc (th r t)). nra.
  - unfold mp, th. rewrite Rmult_0_r, Rplus_0_r.
    rewrite OT.
    replace (PI + - (2 * PI)) with (- PI) by ring.
    rewrite cos_neg, sin_neg, sin_PI. f_equal; ring.
  - intros t [T0 T1] E. assert (E1 : r * cos (th r t) = - r).
    { pose proof (f_equal vx E) as X. unfold mp at 2, th in X. rewrite Rmult_0_r, Rplus_0_r, cos_PI in X. unfold mp in X; cbn [vx] in X. lra. }
    assert (CE : cos (th r t) = -1) by (apply (Rmult_eq_reg_l r); lra).
    assert (E2 : cos (om r * t) = 1).
    { unfold th in CE. rewrite cos_plus, cos_PI, sin_PI in CE. lra. }
    assert (B : - (2 * PI) < om r * t < 0).
    { rewrite <- OT. split; nra. }
    set (x := - (om r * t)) in *. assert (X : 0 < x < 2 * PI) by (unfold x; lra).
    assert (CX : cos x = 1) by (unfold x; rewrite cos_neg; exact E2).
    assert (S0 : 0 < sin (x / 2)) by (apply sin_gt_0; lra).
    pose proof (cos_2a_sin (x / 2)) as D. replace (2 * (x / 2)) with x in D by field. nra.
  - intros t. split; [|split]; unfold mp, mv, th; cbn [vx vy vz].
    + auto_derive; [auto|]. ring.
    + auto_derive; [auto|]. ring.
    + apply d_const.
  - intros t. unfold vlen, mv; cbn [vx vy vz].
    replace (_ + _ + _) with (3 / 10 * (3 / 10)); [apply sqrt_square; lra|].
    pose proof (sc (th r t)) as SC.
    replace ((- r * om r * sin (th r t)) ^ 2) with ((om r * r) * (om r * r) * (sin (th r t) * sin (th r t))) by ring.
    rewrite SC, OR. replace ((r * om r * cos (th r t)) ^ 2) with ((om r * r) * (om r * r) * (cos (th r t) * cos (th r t))) by ring.
    rewrite OR. ring.
  - intros t. unfold mp, mv; cbn [vx vy].
    replace (_ - _) with ((om r * r) * r * (sin (th r t) * sin (th r t) + cos (th r t) * cos (th r t))) by ring.
    rewrite sc, OR. nra.
  - intros t. split; [|split]; unfold mv, ma, th; cbn [vx vy vz].
    + auto_derive; [auto|]. ring.
    + auto_derive; [auto|]. ring.
    + apply d_const.
  - intros t. unfold mC, euler321. cbn [vx vy vz]. rewrite !cos_0, !sin_0. generalize (PI / 2 + om r * t). intros x.
    split.
    + pose proof (sc x). unfold mmul, mtr, I3. apply M3_ext; cbn; nra.
    + pose proof (sc x). unfold mdet; cbn. nra.
  - intros t. unfold mC, euler321. cbn [vx vy vz]. rewrite !cos_0, !sin_0. unfold mapp; cbn. f_equal; ring.
  - intros t. unfold mC, euler321, ex, mv, vscale, mapp, th. cbn [vx vy vz m00 m01 m02 m10 m11 m12 m20 m21 m22].
    assert (C1 : cos (PI / 2 + om r * t) = - sin (om r * t)) by (rewrite cos_plus, cos_PI2, sin_PI2; ring).
    assert (C2 : sin (PI / 2 + om r * t) = cos (om r * t)) by (rewrite sin_plus, cos_PI2, sin_PI2; ring).
    rewrite !cos_0, !sin_0, C1, C2, (Rplus_comm PI), neg_cos, neg_sin.
    f_equal.
    + replace (10 / 3 * (- r * om r * - sin (om r * t))) with (10 / 3 * (om r * r) * sin (om r * t)) by ring. rewrite OR. field.
    + replace (10 / 3 * (r * om r * - cos (om r * t))) with (- (10 / 3) * (om r * r) * cos (om r * t)) by ring. rewrite OR. field.
    + ring.
  - intros t. unfold mC, euler321, skew, mmul. cbn [vx vy vz m00 m01 m02 m10 m11 m12 m20 m21 m22].
    rewrite !cos_0, !sin_0.
    split; [|split]; (split; [|split]); cbn [m00 m01 m02 m10 m11 m12 m20 m21 m22];
    (auto_derive; [auto|ring]).
Qed.

(** *** The loops *)
Lemma cam_loop_ex r f m : forall t theta yaw, time_taken r < t + INR m / 30 -> exists l, cam_loop r f t theta yaw l.
Proof.
  induction m as [|m IH]; intros t theta yaw H.
  - exists nil. apply cam_done. cbn in H. lra.
  - destruct (Rle_lt_dec t (time_taken r)) as [L|L]; [|eexists; now apply cam_done].
    destruct (IH (t + 1 / 30) (theta + ang_vel r * (1 / 30)) (yaw + ang_vel r * (1 / 30))) as [l Hl].
    { rewrite S_INR in H. lra. }
    eexists. apply cam_next; eassumption.
Qed.
Lemma cam_loop_det r f t theta yaw l : cam_loop r f t theta yaw l -> forall l', cam_loop r f t theta yaw l' -> l' = l.
Proof.
  induction 1 as [t theta yaw H|t theta yaw l H HL IH]; intros l' H'; inversion H'; subst; auto; try lra.
  f_equal. now apply IH.
Qed.
Lemma cam_loop_spec r f t theta yaw l : cam_loop r f t theta yaw l ->
  (forall k, (k < length l)%nat <-> t + INR k / 30 <= time_taken r) /\
  (forall k s, nth_error l k = Some s ->
     s = cam_step r f (t + INR k / 30) (theta + ang_vel r * (INR k / 30)) (yaw + ang_vel r * (INR k / 30))).
Proof.
  induction 1 as [t theta yaw H|t theta yaw l H HL IH].
  - split.
    + intros k. cbn. split; [lia|]. pose proof (pos_INR k). intros. lra.
    + intros [|k] s E; discriminate.
  - destruct IH as [IH1 IH2]. split.
    + intros [|k].
      * cbn [length INR]. split; [intros _; lra|lia].
      * cbn [length]. rewrite S_INR. replace (t + (INR k + 1) / 30) with (t + 1 / 30 + INR k / 30) by field.
        rewrite <- IH1. lia.
    + intros [|k] s E; cbn [nth_error] in E.
      * injection E as <-. cbn [INR]. f_equal; lra.
      * apply IH2 in E. rewrite E, S_INR. f_equal; lra.
Qed.

Lemma measure_ok i d ts T w a : si_started i = true \/ (1 / si_rate i / 2 <= Rabs (IZR (ts - si_ts_prev i) / 1000000000 - 1 / si_rate i)) ->
  exists i', sim_imu_measurement i d ts T w a =
    Ret (i', mapp (mtr (tf_rot T)) (vadd a (V3 0 0 (si_g i))), mapp (mtr (tf_rot T)) w) /\ si_started i' = true /\ si_g i' = si_g i.
Proof.
  intros H. unfold sim_imu_measurement. destruct (si_started i) eqn:St.
  - eexists. split; [reflexivity|auto].
  - destruct H as [H|H]; [discriminate|].
    destruct (Rlt_dec (Rabs (IZR (ts - si_ts_prev i) / 1000000000 - 1 / si_rate i)) (1 / si_rate i / 2)); [lra|].
    eexists. split; [reflexivity|auto].
Qed.
Definition imu_step (r g t theta yaw : R) : imu_sample :=
  let w := ang_vel r in
  let T_WS := tf (euler321 (V3 0 0 (wrapPi yaw))) (V3 (r * cos theta) (r * sin theta) 0) in
  ImuSample (stamp t) T_WS (V3 (- r * w * sin theta) (r * w * cos theta) 0)
    (mapp (mtr (tf_rot T_WS)) (vadd (V3 (- r * (w * w) * cos theta) (- r * (w * w) * sin theta) 0) (V3 0 0 g)))
    (mapp (mtr (tf_rot T_WS)) (V3 0 0 w)).
Definition ready (i : sim_imu) (t : R) : Prop :=
  si_started i = true \/ (1 / si_rate i / 2 <= Rabs (IZR (stamp t - si_ts_prev i) / 1000000000 - 1 / si_rate i)).
Lemma imu_loop_ex r m : forall dr i t theta yaw, ready i t -> time_taken r < t + INR m / 400 ->
  exists l, imu_loop r dr i t theta yaw l (Ret tt).
Proof.
  induction m as [|m IH]; intros dr i t theta yaw R H.
  - exists nil. apply imu_done. cbn in H. lra.
  - destruct (Rle_lt_dec t (time_taken r)) as [L|L]; [|eexists; now apply imu_done].
    destruct (measure_ok i (dr 0%nat) (stamp t) (tf (euler321 (V3 0 0 (wrapPi yaw))) (V3 (r * cos theta) (r * sin theta) 0))
       (V3 0 0 (ang_vel r)) (V3 (- r * (ang_vel r * ang_vel r) * cos theta) (- r * (ang_vel r * ang_vel r) * sin theta) 0) R) as (i' & E & St & _).
    destruct (IH (fun k => dr (S k)) i' (t + 1 / 400) (theta + ang_vel r * (1 / 400)) (yaw + ang_vel r * (1 / 400))) as [l Hl].
    { now left. }
    { rewrite S_INR in H. lra. }
    eexists. eapply imu_next; eassumption.
Qed.
Lemma imu_loop_spec r dr i t theta yaw l o : imu_loop r dr i t theta yaw l o -> ready i t ->
  o = Ret tt /\
  (forall k, (k < length l)%nat <-> t + INR k / 400 <= time_taken r) /\
  (forall k s, nth_error l k = Some s ->
     s = imu_step r (si_g i) (t + INR k / 400) (theta + ang_vel r * (INR k / 400)) (yaw + ang_vel r * (INR k / 400))).
Proof.
  induction 1 as [dr i t theta yaw H|dr i t theta yaw i' acc gyr l o H w T E HL IH|dr i t theta yaw e H w T E]; intros R.
  - split; [auto|split].
    + intros k. cbn. split; [lia|]. pose proof (pos_INR k). intros. lra.
    + intros [|k] s E; discriminate.
  - destruct (measure_ok i (dr 0%nat) (stamp t) T
       (V3 0 0 (ang_vel r)) (V3 (- r * (ang_vel r * ang_vel r) * cos theta) (- r * (ang_vel r * ang_vel r) * sin theta) 0) R) as (i2 & E2 & St & G).
    unfold w in E. rewrite E in E2. 
    pose proof (f_equal (fun o => match o with Ret (x, _, _) => x | _ => i end) E2) as Ei.
    pose proof (f_equal (fun o => match o with Ret (_, x, _) => x | _ => vzero end) E2) as Ea.
    pose proof (f_equal (fun o => match o with Ret (_, _, x) => x | _ => vzero end) E2) as Eg.
    cbn beta iota in Ei, Ea, Eg. clear E E2. subst i2.
    destruct (IH (or_introl St)) as (O & IH1 & IH2). split; [exact O|]. split.
    + intros [|k].
      * cbn [length INR]. split; [intros _; lra|lia].
      * cbn [length]. rewrite S_INR. replace (t + (INR k + 1) / 400) with (t + 1 / 400 + INR k / 400) by field.
        rewrite <- IH1. lia.
    + intros [|k] s Es; cbn [nth_error] in Es.
      * injection Es as <-. rewrite Ea, Eg. cbn [INR]. unfold imu_step, T, w.
        replace (t + 0 / 400) with t by field. replace (theta + ang_vel r * (0 / 400)) with theta by field.
        replace (yaw + ang_vel r * (0 / 400)) with yaw by field. reflexivity.
      * apply IH2 in Es. rewrite Es, S_INR, G. unfold w. f_equal; lra.
  - exfalso. destruct (measure_ok i (dr 0%nat) (stamp t) T
       (V3 0 0 (ang_vel r)) (V3 (- r * (ang_vel r * ang_vel r) * cos theta) (- r * (ang_vel r * ang_vel r) * sin theta) 0) R) as (i2 & E2 & _).
    unfold w in E. rewrite E in E2. discriminate.
Qed.

Lemma stamp400 k : stamp (INR k / 400) = (Z.of_nat k * 2500000)%Z.
Proof.
  unfold stamp. rewrite INR_IZR_INZ. replace (IZR (Z.of_nat k) / 400 * 1000000000) with (IZR (Z.of_nat k * 2500000)) by (rewrite mult_IZR; field).
  apply Ztrunc_IZR.
Qed.
Lemma stamp30 k : stamp (INR k / 30) = (Z.of_nat k * 100000000 / 3)%Z.
Proof.
  unfold stamp. rewrite INR_IZR_INZ. set (n := (Z.of_nat k * 100000000)%Z).
  replace (IZR (Z.of_nat k) / 30 * 1000000000) with (IZR n / 3) by (unfold n; rewrite mult_IZR; field).
  rewrite Ztrunc_floor.
  - apply Zfloor_imp. pose proof (Z.div_mod n 3 ltac:(lia)) as D. pose proof (Z.mod_pos_bound n 3 ltac:(lia)) as B.
    assert (E : IZR n = 3 * IZR (n / 3) + IZR (n mod 3)) by (rewrite <- mult_IZR, <- plus_IZR; f_equal; exact D).
    rewrite plus_IZR. destruct B as [B0 B1]. apply IZR_le in B0. apply IZR_lt in B1. lra.
  - apply Rmult_le_pos; [|lra]. apply IZR_le. unfold n. lia.
Qed.
Lemma sincos_congruent x y : congruent (2 * PI) x y -> cos x = cos y /\ sin x = sin y.
Proof.
  intros [k E].
  assert (P : forall n z, cos (z + 2 * INR n * PI) = cos z /\ sin (z + 2 * INR n * PI) = sin z).
  { intros n z. split; [apply cos_period|apply sin_period]. }
  destruct (Z_le_gt_dec 0 k) as [K|K].
  - destruct (P (Z.to_nat k) y) as [A B]. rewrite INR_IZR_INZ, Z2Nat.id in A, B by lia.
    replace x with (y + 2 * IZR k * PI) by lra. auto.
  - destruct (P (Z.to_nat (- k)) x) as [A B]. rewrite INR_IZR_INZ, Z2Nat.id, opp_IZR in A, B by lia.
    replace y with (x + 2 * - IZR k * PI) by lra. auto.
Qed.
Lemma euler_wrap y : euler321 (V3 0 0 (wrapPi y)) = euler321 (V3 0 0 y).
Proof.
  destruct (C49_congruent y) as (_ & _ & W & _). apply sincos_congruent in W. destruct W as [A B].
  unfold euler321; cbn [vx vy vz]. now rewrite A, B.
Qed.
Lemma deg180 : deg2rad 180 = PI. Proof. unfold deg2rad. field. Qed.
Lemma deg90 : deg2rad 90 = PI / 2. Proof. unfold deg2rad. field. Qed.
Lemma degm90 : deg2rad (-90) = - (PI / 2). Proof. unfold deg2rad. field. Qed.

Lemma INR_unbounded x : exists n, x < INR n.
Proof.
  destruct (archimed x) as [A _]. exists (Z.to_nat (up x)). rewrite INR_IZR_INZ.
  destruct (Z_le_gt_dec 0 (up x)) as [L|L]; [rewrite Z2Nat.id by lia; exact A|].
  replace (Z.of_nat (Z.to_nat (up x))) with 0%Z by lia.
  apply (Rlt_trans _ _ _ A). apply IZR_lt. lia.
Qed.
Lemma nth_error_ext {A} (l : list A) : forall l', (forall k, nth_error l k = nth_error l' k) -> l = l'.
Proof.
  induction l as [|x l IH]; intros [|y l'] H; auto.
  - specialize (H 0%nat). discriminate.
  - specialize (H 0%nat). discriminate.
  - pose proof (H 0%nat) as H0. injection H0 as ->. f_equal. apply IH. intros k. exact (H (S k)).
Qed.
(** The camera axes in the body frame: its optical axis points forward, its image rows downward
    and its image columns to the right (columns of the matrix: camera x, y, z axis). *)
Definition C_SC : mat3 := M3 0 0 1
                             (-1) 0 0
                             0 (-1) 0.

(** Camera and IMU simulation follow one and the same rigid motion. For every radius, feature set
    and random sequence the simulation ends, without an exception, with a unique list of samples
    at the times k/30 s and k/400 s of one round; their poses, velocities and measurements are
    those of the ideal motion: the gyroscope reads the angular velocity, the accelerometer the
    second derivative of the position plus (0,0,9.81), in the body frame. *)
Theorem C77_circle : forall r features dr, 0 < r ->
  exists p v a C w, circular_motion r p v a C w /\
  (exists cams, (forall l, cam_run r features l <-> l = cams) /\
     (forall k, (k < length cams)%nat <-> INR k / 30 <= 2 * PI * r / (3 / 10)) /\
     forall k s, nth_error cams k = Some s -> let t := INR k / 30 in
       c_ts s = (Z.of_nat k * 100000000 / 3)%Z /\ c_pose s = tf (mmul (C t) C_SC) (p t)) /\
  (exists imus, (forall l o, imu_run r dr l o <-> l = imus /\ o = Ret tt) /\
     (forall k, (k < length imus)%nat <-> INR k / 400 <= 2 * PI * r / (3 / 10)) /\
     forall k s, nth_error imus k = Some s -> let t := INR k / 400 in
       i_ts s = (Z.of_nat k * 2500000)%Z /\ i_pose s = tf (C t) (p t) /\ i_vel s = v t /\
       mapp (C t) (i_gyr s) = w /\ mapp (C t) (i_acc s) = vadd (a t) (V3 0 0 (981 / 100)) /\
       i_gyr s = V3 0 0 (- (3 / 10) / r) /\ i_acc s = V3 0 (- (3 / 10) ^ 2 / r) (981 / 100)).
Proof.
  intros r f dr H. exists (mp r), (mv r), (ma r), (mC r), (V3 0 0 (om r)). split; [now apply motion|].
  pose proof (motion r H) as MM. pose proof (om_r r H) as OR.
  split.
  - destruct (INR_unbounded (time_taken r * 30)) as [m Hm].
    destruct (cam_loop_ex r f m 0 (deg2rad 180) 0) as [l Hl]; [lra|].
    exists l. split; [|split].
    + intros l'. split; [intros H'; eapply cam_loop_det; eassumption|intros ->; exact Hl].
    + intros k. destruct (cam_loop_spec _ _ _ _ _ _ Hl) as [L _]. rewrite L, Rplus_0_l. reflexivity.
    + intros k s E t. destruct (cam_loop_spec _ _ _ _ _ _ Hl) as [_ L]. rewrite (L k s E), !Rplus_0_l.
      unfold cam_step. cbn [c_ts c_pose]. split; [apply stamp30|].
      rewrite deg180, degm90. fold t. fold (om r). unfold mp, th. f_equal.
      unfold mC, euler321, C_SC, mmul. cbn [vx vy vz m00 m01 m02 m10 m11 m12 m20 m21 m22].
      rewrite !cos_0, !sin_0, !cos_neg, !sin_neg, !cos_PI2, !sin_PI2.
      assert (C1 : cos (PI / 2 + om r * t) = - sin (om r * t)) by (rewrite cos_plus, cos_PI2, sin_PI2; ring).
      assert (C2 : sin (PI / 2 + om r * t) = cos (om r * t)) by (rewrite sin_plus, cos_PI2, sin_PI2; ring).
      rewrite C1, C2. f_equal; ring.
  - destruct (INR_unbounded (time_taken r * 400)) as [m Hm].
    assert (R0 : ready sim_imu0 0).
    { right. cbn. replace (0 * 1000000000) with 0 by ring. unfold stamp. rewrite Rmult_0_l.
      change 0 with (IZR 0) at 1. rewrite Ztrunc_IZR. cbn. replace (0 / 1000000000 - 1 / 400) with (- (1 / 400)) by field.
      rewrite Rabs_Ropp, Rabs_pos_eq; lra. }
    destruct (imu_loop_ex r m dr sim_imu0 0 (deg2rad 180) (deg2rad 90) R0) as [l Hl]; [lra|].
    destruct (imu_loop_spec _ _ _ _ _ _ _ _ Hl R0) as (_ & L & N).
    exists l. split; [|split].
    + intros l' o. split.
      * intros H'. destruct (imu_loop_spec _ _ _ _ _ _ _ _ H' R0) as (O & L' & N'). split; [|exact O].
        apply nth_error_ext. intros k.
        destruct (nth_error l' k) as [s'|] eqn:E'.
        -- assert (K : (k < length l)%nat) by (apply L, L', nth_error_Some; congruence).
           apply nth_error_Some in K. destruct (nth_error l k) as [s|] eqn:E; [|congruence].
           rewrite (N' k s' E'), (N k s E). reflexivity.
        -- destruct (nth_error l k) as [s|] eqn:E; [|reflexivity]. exfalso.
           apply nth_error_None in E'. assert (K : (k < length l')%nat) by (apply L', L, nth_error_Some; congruence). lia.
      * intros [-> ->]. exact Hl.
    + intros k. rewrite L, Rplus_0_l. reflexivity.
    + intros k s E t. rewrite (N k s E), !Rplus_0_l. unfold imu_step. cbn [i_ts i_pose i_vel i_acc i_gyr].
      rewrite euler_wrap, deg180, deg90. fold t. fold (om r). fold (mC r t).
      assert (ET : tf_rot (tf (mC r t) (V3 (r * cos (PI + om r * t)) (r * sin (PI + om r * t)) 0)) = mC r t) by (mat_eq; reflexivity).
      rewrite ET. destruct (cm_rotation _ _ _ _ _ _ MM t) as [O D].
      split; [apply stamp400|]. split; [reflexivity|]. split; [reflexivity|].
      rewrite <- !mapp_mmul, (orth_right _ O D), !mapp_I. split; [reflexivity|]. split; [reflexivity|].
      assert (OE : om r = - (3 / 10) / r) by (apply (Rmult_eq_reg_r r); [rewrite OR; field; lra|lra]).
      unfold mC, euler321, mtr, mapp, vadd. cbn [vx vy vz m00 m01 m02 m10 m11 m12 m20 m21 m22 si_g sim_imu0].
      assert (C1 : cos (PI / 2 + om r * t) = - sin (om r * t)) by (rewrite cos_plus, cos_PI2, sin_PI2; ring).
      assert (C2 : sin (PI / 2 + om r * t) = cos (om r * t)) by (rewrite sin_plus, cos_PI2, sin_PI2; ring).
      rewrite !cos_0, !sin_0, C1, C2, (Rplus_comm PI), neg_cos, neg_sin.
      split.
      * rewrite <- OE. f_equal; ring.
      * assert (EQ : - (3 / 10) ^ 2 / r = - (r * (om r * om r))).
        { rewrite OE. field. lra. }
        rewrite EQ. pose proof (sc (om r * t)) as SC.
        set (co := cos (om r * t)) in *. set (si := sin (om r * t)) in *.
        f_equal; [ring| |ring].
        transitivity (- (r * (om r * om r)) * (si * si + co * co)); [ring|rewrite SC; ring].
Qed.
(** non-trivial: the default radius gives more than 3000 camera frames *)
Example C77_circle_example : exists cams, cam_run 5 nil cams /\ (3000 < length cams)%nat.
Proof.
  destruct (C77_circle 5 nil (fun _ => Draws vzero vzero vzero vzero)) as (p & v & a & C & w & _ & (cams & U & L & _) & _); [lra|].
  exists cams. split; [now apply U|]. apply L. pose proof PI_RGT_0. pose proof PI2_3_2. 
  replace (INR 3000) with 3000 by (rewrite INR_IZR_INZ; reflexivity). lra.
Qed.

(** ** What a frame contains *)
(** 640 x 480 pinhole camera with a 90 degree field of view and the given distortion; the pixel is
    defined by the standard radial-tangential model. [p_C] is the feature in the camera frame. *)
Definition sees (p_C : vec3) (z : vec2) : Prop :=
  0 < vz p_C /\
  let x := vx p_C / vz p_C in let y := vy p_C / vz p_C in
  let r2 := x * x + y * y in
  let radial := 1 + 1 / 100 * r2 + 1 / 1000 * (r2 * r2) in
  v2x z = 320 * (x * radial + 2 * (1 / 10000) * x * y + 1 / 10000 * (r2 + 2 * x * x)) + 320 /\
  v2y z = 240 * (y * radial + 1 / 10000 * (r2 + 2 * y * y) + 2 * (1 / 10000) * x * y) + 240 /\
  0 <= v2x z < 640 /\ 0 <= v2y z < 480.

Lemma focal90 n : pinhole_focal n 90 = IZR n / 2.
Proof.
  unfold pinhole_focal. replace (90 * (PI / 180) / 2) with (PI / 4) by field. rewrite tan_PI4. field.
Qed.
Lemma project_sees p z : pinhole_radtan4_project sim_res sim_cam p = Proj 0%Z (Some z) <-> sees p z.
Proof.
  unfold pinhole_radtan4_project, project_point, sees.
  destruct (Req_EM_T (vz p) 0) as [E|E].
  { split; [discriminate|intros [A _]; lra]. }
  unfold radtan4_distort, sim_cam, sim_res, rleb, rltb. cbn [fx fy cx cy d0 CameraModel.d1 CameraModel.d2 d3 fst snd v2x v2y].
  rewrite !focal90.
  set (x := vx p / vz p). set (y := vy p / vz p).
  match goal with |- context [Some (V2 ?a ?b)] => set (zx := a); set (zy := b) end.
  split.
  - intros H. pose proof (f_equal code H) as Hc. pose proof (f_equal zhat H) as Hz. cbn [code zhat] in Hc, Hz.
    injection Hz as <-. cbn [v2x v2y].
    destruct (Rle_dec 0 zx), (Rlt_dec zx 640), (Rle_dec 0 zy), (Rlt_dec zy 480), (Rlt_dec 0 (vz p)); cbn in Hc; try discriminate.
    split; [auto|]. split; [unfold zx; field|]. split; [unfold zy; field|]. lra.
  - intros (Z & X & Y & BX & BY).
    assert (EX : v2x z = zx) by (rewrite X; unfold zx; field).
    assert (EY : v2y z = zy) by (rewrite Y; unfold zy; field).
    destruct (Rle_dec 0 zx), (Rlt_dec zx 640), (Rle_dec 0 zy), (Rlt_dec zy 480), (Rlt_dec 0 (vz p)); cbn; try lra.
    rewrite <- EX, <- EY. destruct z; reflexivity.
Qed.
Lemma project_code p : code (pinhole_radtan4_project sim_res sim_cam p) = 0%Z ->
  exists z, pinhole_radtan4_project sim_res sim_cam p = Proj 0%Z (Some z).
Proof.
  unfold pinhole_radtan4_project. destruct (project_point p); cbn [code]; [|discriminate].
  intros ->. eauto.
Qed.
Lemma observe_cons T i p ps : observe T i (p :: ps) =
  match pinhole_radtan4_project sim_res sim_cam (tf_point T p) with
  | Proj 0%Z (Some z) => (i, z) :: observe T (S i) ps | _ => observe T (S i) ps end.
Proof. reflexivity. Qed.
Lemma observe_spec T fs : forall i0 i z, In (i, z) (observe T i0 fs) <->
  (i0 <= i)%nat /\ exists p, nth_error fs (i - i0) = Some p /\ sees (tf_point T p) z.
Proof.
  induction fs as [|p fs IH]; intros i0 i z.
  - cbn. split; [tauto|]. intros [_ (q & E & _)]. destruct (i - i0)%nat; discriminate.
  - rewrite observe_cons.
    assert (TL : (i0 <= i)%nat /\ (exists q, nth_error (p :: fs) (i - i0) = Some q /\ sees (tf_point T q) z) <->
      (i = i0 /\ sees (tf_point T p) z) \/ In (i, z) (observe T (S i0) fs)).
    { rewrite IH. split.
      - intros [L (q & E & Q)]. destruct (Nat.eq_dec i i0) as [->|N].
        + left. rewrite Nat.sub_diag in E. injection E as <-. auto.
        + right. replace (i - i0)%nat with (S (i - S i0)) in E by lia. cbn in E. split; [lia|eauto].
      - intros [[-> Q]|[L (q & E & Q)]].
        + split; [lia|]. rewrite Nat.sub_diag. exists p. auto.
        + split; [lia|]. exists q. replace (i - i0)%nat with (S (i - S i0)) by lia. auto. }
    rewrite TL. clear TL.
    destruct (pinhole_radtan4_project sim_res sim_cam (tf_point T p)) as [c o] eqn:E.
    assert (SE : forall z, sees (tf_point T p) z <-> c = 0%Z /\ o = Some z).
    { intros z'. rewrite <- project_sees, E. split; [intros X; injection X; auto|intros [-> ->]; reflexivity]. }
    destruct c as [|c|c]; [destruct o as [z0|]| |].
    + cbn [In]. rewrite SE. split; intros [A|B]; auto.
      * left. injection A as <- <-. auto.
      * left. destruct A as [-> [_ A]]. injection A as ->. reflexivity.
    + rewrite SE. split; [auto|]. intros [[_ [_ A]]|B]; [discriminate|auto].
    + rewrite SE. split; [auto|]. intros [[_ [A _]]|B]; [discriminate|auto].
    + rewrite SE. split; [auto|]. intros [[_ [A _]]|B]; [discriminate|auto].
Qed.
Lemma observe_lt T fs : forall i0, StronglySorted lt (map fst (observe T i0 fs)).
Proof.
  induction fs as [|p fs IH]; intros i0; [constructor|]. rewrite observe_cons.
  destruct (pinhole_radtan4_project sim_res sim_cam (tf_point T p)) as [[|c|c] [z|]]; try apply IH.
  cbn [map fst]. constructor; [apply IH|]. apply Forall_forall. intros j J. apply in_map_iff in J. destruct J as [[j' z'] [<- J]].
  apply observe_spec in J. cbn. lia.
Qed.
(** Every frame lists, in increasing order, exactly the indices of the features the camera sees
    at that pose, each with its own pixel position. *)
Theorem C77_observations : forall r features cams k s, 0 < r ->
  cam_run r features cams -> nth_error cams k = Some s ->
  length (c_obs s) = length (c_kps s) /\ StronglySorted lt (c_obs s) /\
  (forall i z, (exists j, nth_error (c_obs s) j = Some i /\ nth_error (c_kps s) j = Some z) <->
     exists p_W p_C, nth_error features i = Some p_W /\ tf_point (c_pose s) p_C = p_W /\ sees p_C z).
Proof.
  intros r fs cams k s H HR E.
  destruct (C77_circle r fs (fun _ => Draws vzero vzero vzero vzero) H) as (p & v & a & C & w & MM & (cams0 & U & _ & P) & _).
  apply U in HR as EQ. subst cams0. destruct (P k s E) as [_ EP]. clear P U.
  destruct (cam_loop_spec _ _ _ _ _ _ HR) as [_ L].
  pose proof (L k s E) as ES. clear L.
  assert (OB : exists o, o = observe (tf_inv (c_pose s)) 0 fs /\ c_obs s = map fst o /\ c_kps s = map snd o).
  { eexists. split; [reflexivity|]. rewrite ES. unfold cam_step. cbn [c_obs c_kps c_pose]. auto. }
  destruct OB as (o & EO & E1 & E2). rewrite E1, E2.
  split; [now rewrite !map_length|]. split; [rewrite EO; apply observe_lt|].
  assert (RG : Rigid (c_pose s)).
  { rewrite EP. eexists _, _. split; [|reflexivity].
    destruct (cm_rotation _ _ _ _ _ _ MM (INR k / 30)) as [O D]. split.
    - rewrite mtr_mul, mmul_assoc, <- (mmul_assoc _ _ C_SC), O, mmul_I_l. unfold C_SC, mtr, mmul, I3. apply M3_ext; cbn; ring.
    - rewrite mdet_mul, D. unfold C_SC, mdet. cbn. ring. }
  destruct RG as (Cc & rc & RC & ET).
  assert (INV : forall q p_W, tf_point (c_pose s) q = p_W <-> q = tf_point (tf_inv (c_pose s)) p_W).
  { intros q pW. rewrite ET. destruct RC as [O D].
    assert (TP : forall A b x, tf_point (tf A b) x = vadd (mapp A x) b) by (intros; unfold tf_point; mat_eq; ring).
    assert (TI : tf_inv (tf Cc rc) = tf (mtr Cc) (vscale (-1) (mapp (mtr Cc) rc))) by (unfold tf_inv; mat_eq; ring).
    rewrite TI, !TP. split.
    - intros <-.
      assert (X : mapp (mtr Cc) (vadd (mapp Cc q) rc) = vadd (mapp (mmul (mtr Cc) Cc) q) (mapp (mtr Cc) rc)) by (mat_eq; ring).
      rewrite X, O, mapp_I. mat_eq; ring.
    - intros ->.
      assert (X : mapp Cc (vadd (mapp (mtr Cc) pW) (vscale (-1) (mapp (mtr Cc) rc))) =
        vadd (mapp (mmul Cc (mtr Cc)) pW) (vscale (-1) (mapp (mmul Cc (mtr Cc)) rc))) by (mat_eq; ring).
      rewrite X, (orth_right _ O D), !mapp_I. mat_eq; ring. }
  intros i z. transitivity (In (i, z) o).
  - split.
    + intros (j & A & B). rewrite nth_error_map in A, B. destruct (nth_error o j) as [[i' z']|] eqn:N; [|discriminate].
      cbn in A, B. injection A as ->. injection B as ->. eapply nth_error_In; eassumption.
    + intros I. apply In_nth_error in I. destruct I as [j N]. exists j. rewrite !nth_error_map, N. auto.
  - rewrite EO, observe_spec. rewrite Nat.sub_0_r. split.
    + intros [_ (q & N & Q)]. exists q, (tf_point (tf_inv (c_pose s)) q). split; [exact N|]. split; [|exact Q].
      now apply INV.
    + intros (q & pc & N & I & Q). split; [lia|]. exists q. split; [exact N|]. apply INV in I. now rewrite <- I.
Qed.
(** e.g. the point of the east wall straight ahead of the first pose is seen at the image centre *)
Example C77_observations_example : exists cams s, cam_run 5 (V3 0 (-5) 0 :: V3 (-5) 5 0 :: nil) cams /\ nth_error cams 0 = Some s /\
  exists j, nth_error (c_obs s) j = Some 1%nat /\ nth_error (c_kps s) j = Some (V2 320 240).
Proof.
  set (fs := V3 0 (-5) 0 :: V3 (-5) 5 0 :: nil).
  destruct (C77_circle 5 fs (fun _ => Draws vzero vzero vzero vzero)) as (p & v & a & C & w & MM & (cams & U & L & P) & _); [lra|].
  pose proof PI_RGT_0 as PP.
  assert (K : (0 < length cams)%nat) by (apply L; cbn; lra).
  apply nth_error_Some in K. destruct (nth_error cams 0) as [s|] eqn:E; [|congruence].
  exists cams, s. split; [now apply U|]. split; [exact E|].
  assert (HR : cam_run 5 fs cams) by now apply U.
  destruct (C77_observations 5 fs cams 0 s ltac:(lra) HR E) as (_ & _ & O).
  apply O. exists (V3 (-5) 5 0), (V3 0 0 5). split; [reflexivity|]. split.
  - destruct (cam_loop_spec _ _ _ _ _ _ HR) as [_ Q]. rewrite (Q 0%nat s E). unfold cam_step. cbn [c_pose INR].
    rewrite deg180, degm90. replace (0 + ang_vel 5 * (0 / 30)) with 0 by field. replace (PI + ang_vel 5 * (0 / 30)) with PI by field.
    unfold euler321, tf_point. cbn [vx vy vz]. rewrite cos_PI, sin_PI, cos_neg, sin_neg, cos_PI2, sin_PI2, cos_0, sin_0.
    apply V3_ext; mcbn; ring.
  - unfold sees. cbn [vx vy vz v2x v2y]. repeat split; lra.
Qed.

(** ** Timeline *)
Lemma tl_insert_perm e tl : Permutation (tl_insert e tl) (e :: tl).
Proof.
  induction tl as [|x tl IH]; cbn; [auto|]. destruct (ev_ts e <? ev_ts x)%Z; [auto|].
  rewrite IH. apply perm_swap.
Qed.
Definition ts_le (a b : sim_event) : Prop := (ev_ts a <= ev_ts b)%Z.
Lemma tl_insert_sorted e tl : StronglySorted ts_le tl -> StronglySorted ts_le (tl_insert e tl).
Proof.
  induction 1 as [|x tl HS IH F]; cbn; [repeat constructor|].
  destruct (Z.ltb_spec (ev_ts e) (ev_ts x)) as [L|L].
  - constructor; [constructor; auto|]. constructor; [unfold ts_le; lia|].
    eapply Forall_impl; [|exact F]. unfold ts_le. intros; lia.
  - constructor; [exact IH|]. rewrite tl_insert_perm. constructor; [unfold ts_le; lia|exact F].
Qed.
(** equal-time events keep their insertion order *)
Lemma tl_insert_filter e tl ts : StronglySorted ts_le tl ->
  filter (fun x => (ev_ts x =? ts)%Z) (tl_insert e tl) =
  filter (fun x => (ev_ts x =? ts)%Z) tl ++ filter (fun x => (ev_ts x =? ts)%Z) (e :: nil).
Proof.
  induction 1 as [|x tl HS IH F]; [reflexivity|]. cbn [tl_insert].
  destruct (Z.ltb_spec (ev_ts e) (ev_ts x)) as [L|L].
  - cbn [filter]. destruct (Z.eqb_spec (ev_ts e) ts) as [E|E]; [|now rewrite app_nil_r].
    assert (N : forall l, List.Forall (fun y => (ts < ev_ts y)%Z) l -> filter (fun x => (ev_ts x =? ts)%Z) l = nil).
    { induction 1 as [|y l Hy _ IHl]; [reflexivity|]. cbn. rewrite IHl. destruct (Z.eqb_spec (ev_ts y) ts); [lia|reflexivity]. }
    destruct (Z.eqb_spec (ev_ts x) ts); [lia|].
    rewrite N; [reflexivity|]. eapply Forall_impl; [|exact F]. unfold ts_le. intros; lia.
  - cbn [filter]. rewrite IH. cbn [filter]. destruct (ev_ts x =? ts)%Z; reflexivity.
Qed.
(** The timeline holds every camera frame and every IMU sample exactly once, in order of time;
    events with equal time stamps come in recording order, camera frames first. *)
Theorem C77_timeline : forall cams imus,
  let tl := sim_timeline cams imus in
  Permutation tl (map CamEvent cams ++ map ImuEvent imus) /\ StronglySorted ts_le tl /\
  forall ts, filter (fun x => (ev_ts x =? ts)%Z) tl =
    filter (fun x => (ev_ts x =? ts)%Z) (map CamEvent cams) ++ filter (fun x => (ev_ts x =? ts)%Z) (map ImuEvent imus).
Proof.
  intros cams imus tl. unfold tl, sim_timeline. clear tl.
  assert (G : forall es tl, StronglySorted ts_le tl ->
    let r := fold_left (fun tl e => tl_insert e tl) es tl in
    Permutation r (tl ++ es) /\ StronglySorted ts_le r /\
    forall ts, filter (fun x => (ev_ts x =? ts)%Z) r = filter (fun x => (ev_ts x =? ts)%Z) tl ++ filter (fun x => (ev_ts x =? ts)%Z) es).
  { induction es as [|e es IH]; intros tl HS; cbn [fold_left].
    - cbn. split; [now rewrite app_nil_r|]. split; [exact HS|]. intros; now rewrite app_nil_r.
    - destruct (IH (tl_insert e tl) (tl_insert_sorted e tl HS)) as (P & S1 & F). split; [|split; [exact S1|]].
      + rewrite P, tl_insert_perm. cbn. apply Permutation_middle.
      + intros ts. rewrite F, tl_insert_filter, <- app_assoc by exact HS. f_equal.
        cbn [filter]. destruct (ev_ts e =? ts)%Z; reflexivity. }
  destruct (G (map CamEvent cams ++ map ImuEvent imus) nil) as (P & S1 & F); [constructor|].
  split; [exact P|]. split; [exact S1|]. intros ts. rewrite F. cbn [filter app]. apply filter_app.
Qed.
Print Assumptions C77_circle.
Print Assumptions C77_observations.
