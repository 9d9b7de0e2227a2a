(** * Lissajous trajectories (yac/lib/calib_nbt.cpp 7-380, 385-414)
    Times are exact real seconds since the start ([t] is ts2sec(ts_k) - ts2sec(ts_start)); the
    rounding of the time conversions is treated separately (NbtTimeModel). The decimal constants
    1.5707963267948966 and 6.2831853071795862 are the doubles nearest to pi/2 and 2 pi and are, like
    M_PI, modelled by PI / 2 and 2 * PI. *)
From Verif Require Import Base GeomModel.
From Coq Require Import String.
Local Open Scope R_scope.

Record liss := Liss {
  l_T_WF : mat4; l_T_FO : mat4; l_width : R; l_height : R; l_R : R;
  l_A : R; l_B : R; l_a : R; l_b : R; l_delta : R; l_T : R; l_f : R; l_w : R;
  l_yaw_scale : R; l_pitch_scale : R; l_yaw_bound : R; l_pitch_bound : R }.

(** atan2(y, x) for x > 0 (only used with x = R, the distance from the target) *)
Definition atan2p (y x : R) : R := atan (y / x).

(** lissajous_traj_t::lissajous_traj_t, calib_nbt.cpp 7-109 *)
Definition lissajous (type : string) (T_WF T_FO : mat4) (R0 width height T : R) : outcome liss :=
  let f := 1 / T in
  let w := 2 * PI * f in
  let mk a b delta A B ys ps yb pb := Ret (Liss T_WF T_FO width height R0 A B a b delta T f w ys ps yb pb) in
  if String.eqb type "fig8-horiz" then
    let A := width * (3 / 10) in let B := height * (3 / 10) in
    mk (2 * PI * 1) (2 * PI * 2) PI A B 1 2 (- atan2p A R0) (- atan2p B R0)
  else if String.eqb type "fig8-vert" then
    let A := width * (3 / 10) in let B := height * (3 / 10) in
    mk (2 * PI * 2) (2 * PI * 1) PI A B 2 1 (- atan2p A R0) (- atan2p B R0)
  else if String.eqb type "s-horiz" then
    let A := width * (5 / 10) in let B := height * (5 / 10) in
    mk (2 * PI * 1) (2 * PI * 3) PI A B 1 0 (- atan2p A R0) (- atan2p B R0)
  else if String.eqb type "s-vert" then
    let A := width * (55 / 100) in let B := height * (55 / 100) in
    mk (2 * PI * 3) (2 * PI * 1) PI A B 0 1 (- atan2p A R0) (- atan2p B R0)
  else if String.eqb type "pan-vert" then
    let A := width * (95 / 100) in let B := height * (95 / 100) in
    mk (2 * PI * 0) (2 * PI * 1) 0 A B 1 1 0 (- atan2p B R0)
  else if String.eqb type "pan-horiz" then
    let A := width * (95 / 100) in let B := height * (95 / 100) in
    mk (2 * PI * 1) (2 * PI * 0) 0 A B 1 1 (atan2p A R0) 0
  else if String.eqb type "diag0" then
    let A := width * (6 / 10) in let B := height * (6 / 10) in
    mk (2 * PI * 1) (2 * PI * 1) 0 A B 1 1 (atan2p A R0) (- atan2p B R0)
  else if String.eqb type "diag1" then
    let A := width * (6 / 10) in let B := height * (6 / 10) in
    mk (2 * PI * 1) (2 * PI * 1) PI A B 1 1 (- atan2p A R0) (- atan2p B R0)
  else Throw StdExn.

(** The check at the start of every getter, e.g. calib_nbt.cpp 113-116 *)
Definition in_range {A} (l : liss) (t : R) (v : A) : outcome A :=
  if Rlt_dec t 0 then Throw Fatal else if Rlt_dec (l_T l) t then Throw Fatal else Ret v.

(** get_q_OS, calib_nbt.cpp 111-144 *)
Definition q_OS_at (l : liss) (t : R) : quat :=
  let w := 2 * PI * l_f l in
  let k := sin (/ 4 * w * t) ^ 2 in
  let phi := PI + l_pitch_bound l * sin (2 * PI * l_pitch_scale l * k) in
  let theta := l_yaw_bound l * sin (2 * PI * l_yaw_scale l * k) in
  let psi := 0 in
  let c_phi := cos (phi / 2) in let c_theta := cos (theta / 2) in let c_psi := cos (psi / 2) in
  let s_phi := sin (phi / 2) in let s_theta := sin (theta / 2) in let s_psi := sin (psi / 2) in
  let qw := c_psi * c_theta * c_phi + s_psi * s_theta * s_phi in
  let qx := c_psi * c_theta * s_phi - s_psi * s_theta * c_phi in
  let qy := c_psi * s_theta * c_phi + s_psi * c_theta * s_phi in
  let qz := s_psi * c_theta * c_phi - c_psi * s_theta * s_phi in
  let mag := sqrt (qw * qw + qx * qx + qy * qy + qz * qz) in
  Q (qw / mag) (qx / mag) (qy / mag) (qz / mag).
Definition get_q_OS (l : liss) (t : R) : outcome quat := in_range l t (q_OS_at l t).

(** get_q_OS_dot, calib_nbt.cpp 146-161. Repeated subexpressions are named; the terms, their order
    and signs are those of the code. *)
Definition q_OS_dot_at (l : liss) (t : R) : quat :=
  let w := 2 * PI * l_f l in
  let pb := l_pitch_bound l in let ps := l_pitch_scale l in
  let yb := l_yaw_bound l in let ys := l_yaw_scale l in
  let s := sin (/ 4 * t * w) in let c := cos (/ 4 * t * w) in
  let s_p := sin (/ 2 * pb * sin (2 * PI * ps * s ^ 2) + PI / 2) in
  let c_p := cos (/ 2 * pb * sin (2 * PI * ps * s ^ 2) + PI / 2) in
  let s_y := sin (/ 2 * yb * sin (2 * PI * ys * s ^ 2)) in
  let c_y := cos (/ 2 * yb * sin (2 * PI * ys * s ^ 2)) in
  let k_p := cos (2 * PI * ps * s ^ 2) in
  let k_y := cos (2 * PI * ys * s ^ 2) in
  let n := sqrt (s_y ^ 2 * s_p ^ 2 + s_y ^ 2 * c_p ^ 2 + s_p ^ 2 * c_y ^ 2 + c_y ^ 2 * c_p ^ 2) in
  Q (- (PI / 2) * pb * ps * w * s * s_p * k_p * c * c_y / n - PI / 2 * w * yb * ys * s * s_y * c * k_y * c_p / n)
    (PI / 2 * pb * ps * w * s * k_p * c * c_y * c_p / n - PI / 2 * w * yb * ys * s * s_y * s_p * c * k_y / n)
    (- (PI / 2) * pb * ps * w * s * s_y * s_p * k_p * c / n + PI / 2 * w * yb * ys * s * c * c_y * k_y * c_p / n)
    (- (PI / 2) * pb * ps * w * s * s_y * k_p * c * c_p / n - PI / 2 * w * yb * ys * s * s_p * c * c_y * k_y / n).
Definition get_q_OS_dot (l : liss) (t : R) : outcome quat := in_range l t (q_OS_dot_at l t).

(** get_pose, calib_nbt.cpp 163-190 *)
Definition pose_at (l : liss) (t : R) : mat4 :=
  let w := 2 * PI * l_f l in
  let theta := sin (/ 4 * w * t) ^ 2 in
  let pitch := l_pitch_bound l * sin (w * l_T l * l_pitch_scale l * theta) in
  let yaw := l_yaw_bound l * sin (w * l_T l * l_yaw_scale l * theta) in
  let C_OS := euler321 (V3 (PI + pitch) yaw 0) in
  let x := l_A l * sin (l_a l * theta + l_delta l) in
  let y := l_B l * sin (l_b l * theta) in
  let z := sqrt (l_R l * l_R l - x * x - y * y) in
  mmul4 (mmul4 (l_T_WF l) (l_T_FO l)) (tf C_OS (V3 x y z)).
Definition get_pose (l : liss) (t : R) : outcome mat4 := in_range l t (pose_at l t).

(** get_velocity, calib_nbt.cpp 192-220 *)
Definition velocity_at (l : liss) (t : R) : vec3 :=
  let A := l_A l in let B := l_B l in let a := l_a l in let b := l_b l in
  let d := l_delta l in let w := l_w l in
  let s := sin (/ 4 * t * w) in let c := cos (/ 4 * t * w) in
  let vx := / 2 * A * a * w * s * c * cos (a * s ^ 2 + d) in
  let vy := / 2 * B * b * w * s * cos (b * s ^ 2) * c in
  let vz := (- / 2 * A ^ 2 * a * w * s * sin (a * s ^ 2 + d) * c * cos (a * s ^ 2 + d)
             - / 2 * B ^ 2 * b * w * sin (b * s ^ 2) * s * cos (b * s ^ 2) * c)
            / sqrt (- A ^ 2 * sin (a * s ^ 2 + d) ^ 2 - B ^ 2 * sin (b * s ^ 2) ^ 2 + l_R l ^ 2) in
  mapp (tf_rot (mmul4 (l_T_WF l) (l_T_FO l))) (V3 vx vy vz).
Definition get_velocity (l : liss) (t : R) : outcome vec3 := in_range l t (velocity_at l t).

(** get_acceleration, calib_nbt.cpp 222-299. pow(x, 3.0 / 2.0) is Rpower (x > 0). *)
Definition acceleration_at (l : liss) (t : R) : vec3 :=
  let A := l_A l in let B := l_B l in let a := l_a l in let b := l_b l in
  let d := l_delta l in let w := l_w l in
  let s := sin (/ 4 * t * w) in let c := cos (/ 4 * t * w) in
  let sa := sin (a * s ^ 2 + d) in let ca := cos (a * s ^ 2 + d) in
  let sb := sin (b * s ^ 2) in let cb := cos (b * s ^ 2) in
  let n := - A ^ 2 * sa ^ 2 - B ^ 2 * sb ^ 2 + l_R l ^ 2 in
  let ax := A * a * w ^ 2 *
     (- (1 / 32) * a * (1 - cos (1 * t * w)) * sin (- (1 / 2) * a * cos (/ 2 * t * w) + 1 / 2 * a + d)
      - / 8 * s ^ 2 * ca + / 8 * c ^ 2 * ca) in
  let ay := - / 4 * B * b ^ 2 * w ^ 2 * sb * s ^ 2 * c ^ 2 - / 8 * B * b * w ^ 2 * s ^ 2 * cb + / 8 * B * b * w ^ 2 * cb * c ^ 2 in
  let az :=
    (- / 2 * A ^ 2 * a * w * s * sa * c * ca - / 2 * B ^ 2 * b * w * sb * s * cb * c) *
    (/ 2 * A ^ 2 * a * w * s * sa * c * ca + / 2 * B ^ 2 * b * w * sb * s * cb * c) / Rpower n (3 / 2) +
    (/ 4 * A ^ 2 * a ^ 2 * w ^ 2 * s ^ 2 * sa ^ 2 * c ^ 2 - / 4 * A ^ 2 * a ^ 2 * w ^ 2 * s ^ 2 * c ^ 2 * ca ^ 2
     + / 8 * A ^ 2 * a * w ^ 2 * s ^ 2 * sa * ca - / 8 * A ^ 2 * a * w ^ 2 * sa * c ^ 2 * ca
     + / 4 * B ^ 2 * b ^ 2 * w ^ 2 * sb ^ 2 * s ^ 2 * c ^ 2 - / 4 * B ^ 2 * b ^ 2 * w ^ 2 * s ^ 2 * cb ^ 2 * c ^ 2
     + / 8 * B ^ 2 * b * w ^ 2 * sb * s ^ 2 * cb - / 8 * B ^ 2 * b * w ^ 2 * sb * cb * c ^ 2) / sqrt n in
  mapp (tf_rot (mmul4 (l_T_WF l) (l_T_FO l))) (V3 ax ay az).
Definition get_acceleration (l : liss) (t : R) : outcome vec3 := in_range l t (acceleration_at l t).

(** get_angular_velocity, calib_nbt.cpp 301-318 *)
Definition angular_velocity_at (l : liss) (t : R) : vec3 :=
  let q := qmul (q_OS_dot_at l t) (qinverse (q_OS_at l t)) in
  mapp (tf_rot (mmul4 (l_T_WF l) (l_T_FO l))) (V3 (2 * qx q) (2 * qy q) (2 * qz q)).
Definition get_angular_velocity (l : liss) (t : R) : outcome vec3 := in_range l t (angular_velocity_at l t).

(** The accelerometer and gyroscope values written by save, calib_nbt.cpp 341-358 *)
Definition save_imu (l : liss) (t : R) : vec3 * vec3 :=
  let g_W := V3 0 0 10 in
  let C_SW := mtr (tf_rot (pose_at l t)) in
  (mapp C_SW (vadd (acceleration_at l t) g_W), mapp C_SW (angular_velocity_at l t)).

(** nbt_lissajous_trajs, calib_nbt.cpp 385-414; [T] is the duration in seconds *)
Record target := Target { tag_rows : Z; tag_cols : Z; tag_size : R; tag_spacing : R }.
Definition calib_width (tg : target) : R :=
  IZR (tag_cols tg) * tag_size tg + (IZR (tag_cols tg) - 1) * tag_spacing tg * tag_size tg.
Definition calib_height (tg : target) : R :=
  IZR (tag_rows tg) * tag_size tg + (IZR (tag_rows tg) - 1) * tag_spacing tg * tag_size tg.
Definition traj_types : list string :=
  ["fig8-horiz"; "fig8-vert"; "s-horiz"; "s-vert"; "pan-vert"; "pan-horiz"; "diag0"; "diag1"]%string.
Definition nbt_trajs (tg : target) (T_WF : mat4) (T : R) (trajs : list liss) : outcome (list liss) :=
  let w := calib_width tg in let h := calib_height tg in
  let T_FO := tf I3 (V3 (w / 2) (h / 2) 0) in
  let R0 := Rmax w h * (12 / 10) in
  fold_left (fun acc ty => obind acc (fun l => obind (lissajous ty T_WF T_FO R0 w h T) (fun x => Ret (l ++ [x]))))
    traj_types (Ret trajs).
