(** * Simulated IMU (yac/lib/util/core.cpp 2071-2127) and the circular camera/IMU simulation
    (yac/lib/calib_sim.cpp 9-256; the constructor of calib_sim_data_t, lines 372-546, is textually
    identical). Exact real arithmetic (see GeomModel.v): in particular the accumulated times
    t, theta and yaw are exact sums. *)
From Verif Require Import Base GeomModel PlanarModel StatsModel CameraModel.
From Coq Require Import Reals.
From Flocq Require Import Core.Raux.
Local Open Scope R_scope.

(** sim_imu_t, core.hpp 1505-1521 *)
Record sim_imu := SimImu {
  si_rate : R; si_tau_a : R; si_tau_g : R;
  si_sigma_g_c : R; si_sigma_a_c : R; si_sigma_gw_c : R; si_sigma_aw_c : R; si_g : R;
  si_started : bool; si_b_g : vec3; si_b_a : vec3; si_ts_prev : Z }.
(** sim_imu_reset, core.cpp 2071-2076 *)
Definition sim_imu_reset (i : sim_imu) : sim_imu :=
  SimImu (si_rate i) (si_tau_a i) (si_tau_g i) (si_sigma_g_c i) (si_sigma_a_c i) (si_sigma_gw_c i) (si_sigma_aw_c i) (si_g i)
    false vzero vzero 0.
(** The values the four calls of mvn (core.cpp 983-990) return during one measurement. *)
Record draws := Draws { dw1 : vec3; dw2 : vec3; dw3 : vec3; dw4 : vec3 }.
(** sim_imu_measurement, core.cpp 2078-2127. Result: updated IMU, accelerometer, gyroscope.
    [ts2sec] is the exact quotient by 1e9. The third and fourth draw are made but unused
    (UNUSED, lines 2117 and 2124). *)
Definition sim_imu_measurement (i : sim_imu) (d : draws) (ts : Z) (T_WS : mat4) (w_W a_W : vec3)
    : outcome (sim_imu * vec3 * vec3) :=
  let dt := 1 / si_rate i in
  if (if si_started i then false
      else if Rlt_dec (Rabs (IZR (ts - si_ts_prev i) / 1000000000 - dt)) (dt / 2) then true else false)
  then Throw Fatal
  else
    let b_g := if si_started i
      then vadd (si_b_g i) (vadd (vscale (- / si_tau_g i * dt) (si_b_g i)) (vscale (si_sigma_gw_c i * sqrt dt) (dw1 d)))
      else vscale (si_sigma_gw_c i * sqrt (si_tau_g i / 2)) (dw1 d) in
    let b_a := if si_started i
      then vadd (si_b_a i) (vadd (vscale (- / si_tau_a i * dt) (si_b_a i)) (vscale (si_sigma_aw_c i * sqrt dt) (dw2 d)))
      else vscale (si_sigma_aw_c i * sqrt (si_tau_a i / 2)) (dw2 d) in
    let C_SW := mtr (tf_rot T_WS) in
    let w_S := mapp C_SW w_W in
    let a_S := mapp C_SW (vadd a_W (V3 0 0 (si_g i))) in
    Ret (SimImu (si_rate i) (si_tau_a i) (si_tau_g i) (si_sigma_g_c i) (si_sigma_a_c i) (si_sigma_gw_c i) (si_sigma_aw_c i) (si_g i)
           true b_g b_a ts, a_S, w_S).

(** ** Features. [rnd] lists the values of rand() still to come. *)
(** create_3d_features, calib_sim.cpp 9-21 *)
Fixpoint create_3d_features (rnd : nat -> Z) (xb yb zb : R * R) (n : nat) : list vec3 :=
  match n with
  | O => []
  | S m =>
    V3 (randf (rnd 0%nat) (fst xb) (snd xb)) (randf (rnd 1%nat) (fst yb) (snd yb)) (randf (rnd 2%nat) (fst zb) (snd zb))
    :: create_3d_features (fun k => rnd (k + 3)%nat) xb yb zb m
  end.
(** create_3d_features_perimeter, calib_sim.cpp 23-76 *)
Definition create_3d_features_perimeter (rnd : nat -> Z) (origin dim : vec3) (nb_features : nat) : list vec3 :=
  let w := vx dim in let l := vy dim in let h := vz dim in
  let fps := (nb_features / 4)%nat in
  let zb := (vz origin - h, vz origin + h) in
  let xb := (vx origin - w, vx origin + w) in
  let yb := (vy origin - l, vy origin + l) in
  let later n := fun k => rnd (k + n * (3 * fps))%nat in
  create_3d_features (later 0%nat) xb (vy origin + l, vy origin + l) zb fps ++
  create_3d_features (later 1%nat) (vx origin + w, vx origin + w) yb zb fps ++
  create_3d_features (later 2%nat) xb (vy origin - l, vy origin - l) zb fps ++
  create_3d_features (later 3%nat) (vx origin - w, vx origin - w) yb zb fps.

(** ** The circle, calib_sim.cpp 78-83 *)
Definition sensor_velocity : R := 3 / 10.
Definition time_taken (r : R) : R := 2 * PI * r / sensor_velocity.
Definition ang_vel (r : R) : R := -2 * PI * (1 / time_taken r).
(** conversion of [t * 1e9] to timestamp_t *)
Definition stamp (t : R) : Z := Ztrunc (t * 1000000000).

(** the camera of lines 92-113 *)
Definition sim_res : Z * Z := (640%Z, 480%Z).
Definition sim_cam : cam8 :=
  Cam (pinhole_focal 640 90) (pinhole_focal 480 90) (640 / 2) (480 / 2) (1 / 100) (1 / 1000) (1 / 10000) (1 / 10000).
(** lines 143-162: which features are seen, with their pixel positions. [T_WC.inverse()] of a rigid
    transform is [tf_inv] (C46). *)
Fixpoint observe (T_CW : mat4) (idx : nat) (features : list vec3) : list (nat * vec2) :=
  match features with
  | [] => []
  | p_W :: rest =>
    match pinhole_radtan4_project sim_res sim_cam (tf_point T_CW p_W) with
    | Proj 0%Z (Some z) => (idx, z) :: observe T_CW (S idx) rest
    | _ => observe T_CW (S idx) rest
    end
  end.
Record cam_sample := CamSample { c_ts : Z; c_pose : mat4; c_obs : list nat; c_kps : list vec2 }.
(** lines 124-142, 163-165 (the noisy copies cam_pos, cam_rot, cam_poses of lines 137-140 are not modelled) *)
Definition cam_step (r : R) (features : list vec3) (t theta yaw : R) : cam_sample :=
  let r_WC := V3 (r * cos theta) (r * sin theta) 0 in
  let C_WC := euler321 (V3 (deg2rad (-90)) 0 yaw) in
  let T_WC := tf C_WC r_WC in
  let o := observe (tf_inv T_WC) 0 features in
  CamSample (stamp t) T_WC (map fst o) (map snd o).
(** lines 116-171: the loop [while (t <= t_end)] *)
Inductive cam_loop (r : R) (features : list vec3) : R -> R -> R -> list cam_sample -> Prop :=
| cam_done t theta yaw : time_taken r < t -> cam_loop r features t theta yaw []
| cam_next t theta yaw l : t <= time_taken r ->
    cam_loop r features (t + 1 / 30) (theta + ang_vel r * (1 / 30)) (yaw + ang_vel r * (1 / 30)) l ->
    cam_loop r features t theta yaw (cam_step r features t theta yaw :: l).
Definition cam_run (r : R) (features : list vec3) (l : list cam_sample) : Prop :=
  cam_loop r features 0 (deg2rad 180) 0 l.

Record imu_sample := ImuSample { i_ts : Z; i_pose : mat4; i_vel : vec3; i_acc : vec3; i_gyr : vec3 }.
(** lines 194-247; [dr] supplies the random values of the successive measurements *)
Inductive imu_loop (r : R) : (nat -> draws) -> sim_imu -> R -> R -> R -> list imu_sample -> outcome unit -> Prop :=
| imu_done dr i t theta yaw : time_taken r < t -> imu_loop r dr i t theta yaw [] (Ret tt)
| imu_next dr i t theta yaw i' acc gyr l o :
    t <= time_taken r ->
    let w := ang_vel r in
    let T_WS := tf (euler321 (V3 0 0 (wrapPi yaw))) (V3 (r * cos theta) (r * sin theta) 0) in
    sim_imu_measurement i (dr 0%nat) (stamp t) T_WS (V3 0 0 w) (V3 (- r * (w * w) * cos theta) (- r * (w * w) * sin theta) 0)
      = Ret (i', acc, gyr) ->
    imu_loop r (fun k => dr (S k)) i' (t + 1 / 400) (theta + w * (1 / 400)) (yaw + w * (1 / 400)) l o ->
    imu_loop r dr i t theta yaw
      (ImuSample (stamp t) T_WS (V3 (- r * w * sin theta) (r * w * cos theta) 0) acc gyr :: l) o
| imu_fatal dr i t theta yaw e :
    t <= time_taken r ->
    let w := ang_vel r in
    let T_WS := tf (euler321 (V3 0 0 (wrapPi yaw))) (V3 (r * cos theta) (r * sin theta) 0) in
    sim_imu_measurement i (dr 0%nat) (stamp t) T_WS (V3 0 0 w) (V3 (- r * (w * w) * cos theta) (- r * (w * w) * sin theta) 0)
      = Throw e ->
    imu_loop r dr i t theta yaw [] (Throw e).
(** the IMU of lines 180-192 *)
Definition sim_imu0 : sim_imu :=
  SimImu 400 3600 3600 (5 / 1000) (25 / 1000) (1 / 100000) (1 / 1000) (981 / 100) false vzero vzero 0.
Definition imu_run (r : R) (dr : nat -> draws) (l : list imu_sample) (o : outcome unit) : Prop :=
  imu_loop r dr sim_imu0 0 (deg2rad 180) (deg2rad 90) l o.

(** ** Timeline: std::multimap::insert places a new element behind the elements with an equal key
    (calib_sim.cpp 258-274) *)
Inductive sim_event := CamEvent (f : cam_sample) | ImuEvent (m : imu_sample).
Definition ev_ts (e : sim_event) : Z := match e with CamEvent f => c_ts f | ImuEvent m => i_ts m end.
Fixpoint tl_insert (e : sim_event) (tl : list sim_event) : list sim_event :=
  match tl with
  | [] => [e]
  | x :: rest => if (ev_ts e <? ev_ts x)%Z then e :: tl else x :: tl_insert e rest
  end.
(** the camera loop runs before the IMU loop *)
Definition sim_timeline (cams : list cam_sample) (imus : list imu_sample) : list sim_event :=
  fold_left (fun tl e => tl_insert e tl) (map CamEvent cams ++ map ImuEvent imus) [].
