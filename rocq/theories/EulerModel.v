(** * Euler angles, initial attitude, pose noise and the fiducial parameter block
    (yac/lib/util/core.cpp 1375-1391, 1471-1513; yac/lib/calib_params.cpp 153-224 with
    FIDUCIAL_PARAMS_SIZE = 2, calib_params.hpp 74). Exact real arithmetic (see GeomModel.v). *)
From Verif Require Import Base GeomModel PlanarModel StatsModel.
From Coq Require Import Reals.
Local Open Scope R_scope.

(** C's atan2. IEEE arithmetic makes atan2(0, 0) one of 0, pi and -pi, depending on the signs of the
    zeros, which exact arithmetic does not have: the value is the argument [z]. *)
Definition atan2 (z y x : R) : R :=
  if Rlt_dec 0 x then atan (y / x)
  else if Rlt_dec x 0 then (if Rlt_dec y 0 then atan (y / x) - PI else atan (y / x) + PI)
  else if Rlt_dec 0 y then PI / 2
  else if Rlt_dec y 0 then - (PI / 2)
  else z.
(** quat2euler, core.cpp 1375-1391. [z1], [z3]: values of the two atan2 calls at (0, 0). C's asin is
    NaN outside [-1, 1], which does not occur for unit quaternions. *)
Definition quat2euler (z1 z3 : R) (q : quat) : vec3 :=
  let qw2 := qw q * qw q in let qx2 := qx q * qx q in
  let qy2 := qy q * qy q in let qz2 := qz q * qz q in
  V3 (atan2 z1 (2 * (qx q * qw q + qz q * qy q)) (qw2 - qx2 - qy2 + qz2))
     (asin (2 * (qy q * qw q - qx q * qz q)))
     (atan2 z3 (2 * (qx q * qy q + qz q * qw q)) (qw2 + qx2 - qy2 - qz2)).

(** imu_init_attitude, core.cpp 1488-1513. The angular velocities are summed but not used; reading
    beyond either vector is undefined behaviour. [None]: NaN (empty buffer). *)
Fixpoint sum_first (n : nat) (v : list vec3) : outcome vec3 :=
  match n, v with
  | O, _ => Ret vzero
  | S m, x :: rest => omap (vadd x) (sum_first m rest)
  | S _, [] => Undef
  end.
Definition imu_init_attitude (z1 z3 : R) (w_m a_m : list vec3) (buffer_size : nat) : outcome (option mat3) :=
  obind (sum_first buffer_size w_m) (fun _ =>
  obind (sum_first buffer_size a_m) (fun sum_a =>
  match buffer_size with
  | O => Ret None
  | _ =>
    let mean_accel := vscale (/ INR buffer_size) sum_a in
    let C_WS := vecs2rot mean_accel (V3 0 0 (981 / 100)) in
    let rpy := quat2euler z1 z3 (of_rot C_WS) in
    Ret (Some (euler321 (V3 (vx rpy) (vy rpy) 0)))
  end)).

(** add_noise, core.cpp 1471-1486; [r1 .. r6] are the values of rand() in the order of the calls.
    (The order in which the initialisers of one vec3_t are evaluated is left to right.) *)
Definition add_noise_rot (z1 z3 : R) (r1 r2 r3 : Z) (C : mat3) (n : R) : mat3 :=
  let rpy := quat2euler z1 z3 (of_rot C) in
  euler321 (V3 (vx rpy + deg2rad (randf r1 (- n) n)) (vy rpy + deg2rad (randf r2 (- n) n)) (vz rpy + deg2rad (randf r3 (- n) n))).
Definition add_noise_pos (r1 r2 r3 : Z) (p : vec3) (n : R) : vec3 :=
  vadd p (V3 (randf r1 (- n) n) (randf r2 (- n) n) (randf r3 (- n) n)).
Definition add_noise (z1 z3 : R) (r1 r2 r3 r4 r5 r6 : Z) (T : mat4) (pos_n rot_n : R) : mat4 :=
  let pos := add_noise_pos r1 r2 r3 (tf_trans T) pos_n in
  let rot := add_noise_rot z1 z3 r4 r5 r6 (tf_rot T) rot_n in
  tf rot pos.

(** ** fiducial_t *)
Record fiducial := Fid { f_roll : R; f_pitch : R; f_T_WF : mat4 }.
(** calib_params.cpp 156-161 *)
Definition fid_new (z1 z3 : R) (T : mat4) : fiducial :=
  let rpy := quat2euler z1 z3 (tf_quat T) in Fid (vx rpy) (vy rpy) T.
(** update, calib_params.cpp 191-197 *)
Definition fid_update (z1 z3 : R) (f : fiducial) : fiducial :=
  let yaw := vz (quat2euler z1 z3 (tf_quat (f_T_WF f))) in
  Fid (f_roll f) (f_pitch f) (tf (euler321 (V3 (f_roll f) (f_pitch f) yaw)) (tf_trans (f_T_WF f))).
(** plus / minus / perturb, calib_params.cpp 176-189 *)
Definition fid_plus (z1 z3 : R) (f : fiducial) (dx : R * R) : fiducial :=
  fid_update z1 z3 (Fid (f_roll f + fst dx) (f_pitch f + snd dx) (f_T_WF f)).
Definition fid_minus (z1 z3 : R) (f : fiducial) (dx : R * R) : fiducial :=
  fid_update z1 z3 (Fid (f_roll f - fst dx) (f_pitch f - snd dx) (f_T_WF f)).
(** estimate, calib_params.cpp 207-214: it updates the object and returns the pose *)
Definition fid_estimate (z1 z3 : R) (f : fiducial) : fiducial * mat4 :=
  let f' := fid_update z1 z3 f in
  let yaw := vz (quat2euler z1 z3 (tf_quat (f_T_WF f'))) in
  (f', tf (euler321 (V3 (f_roll f') (f_pitch f') yaw)) (tf_trans (f_T_WF f'))).
