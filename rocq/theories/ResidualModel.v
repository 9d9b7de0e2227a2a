(** * Visual residuals and their Jacobians (yac/lib/calib_residuals.cpp 235-1030)
    Exact real arithmetic (see GeomModel.v); a quantity that is not a finite number, or that is
    never written, is [None]. [sqrt_info] (the upper Cholesky factor of the inverse covariance,
    computed once in the constructor) is an arbitrary 2x2 matrix here. *)
From Coq Require Import Reals ZArith List Bool.
Import ListNotations.
From Verif Require Import Base GeomModel CameraModel.
Local Open Scope R_scope.

(** camera_geometry_t: the three virtual functions used by residuals (cv.hpp 418-515) *)
Record geometry := Geom {
  g_project : Z * Z -> cam8 -> vec3 -> proj;
  g_project_jacobian : cam8 -> vec3 -> option matf;
  g_params_jacobian : cam8 -> vec3 -> option matf }.
(** pinhole_radtan4_t, pinhole_equi4_t *)
Definition radtan4_geometry := Geom pinhole_radtan4_project pinhole_radtan4_project_jacobian pinhole_radtan4_params_jacobian.
Definition equi4_geometry := Geom pinhole_equi4_project pinhole_equi4_project_jacobian pinhole_equi4_params_jacobian.

(** Eigen helpers on small matrices *)
Definition mf (a : mat3) : matf :=
  rows [[m00 a; m01 a; m02 a]; [m10 a; m11 a; m12 a]; [m20 a; m21 a; m22 a]].
Definition scalef (s : R) (A : matf) : matf := fun i j => s * A i j.
Definition zerof : matf := fun _ _ => 0.
Definition mneg (a : mat3) : mat3 := mscale (-1) a.
(** [J_min.block(0, 0, 2, 3) = A; J_min.block(0, 3, 2, 3) = B] *)
Definition hcat3 (A B : matf) : matf := fun i j => if (j <? 3)%nat then A i j else B i (j - 3)%nat.
Definition vec_col (v : vec3) : matf := fun k _ => match k with O => vx v | 1%nat => vy v | _ => vz v end.
(** lift_pose_jacobian (ceres_utils.cpp 64-79) as a 6x7 matrix *)
Definition row34 (A : mat34) (i : nat) : vec4 := match i with O => r0 A | 1%nat => r1 A | _ => r2 A end.
Definition lift_pose_jacobian (T : mat4) : matf := fun i j =>
  if ((i <? 3) && (j <? 3))%nat then (if Nat.eqb i j then 1 else 0)
  else if ((3 <=? i) && (3 <=? j))%nat then nth4 (row34 (lift_jacobian_rot T) (i - 3)) (j - 3)
  else 0.
(** sqrt_info * (z - z_hat) *)
Definition weigh (W : matf) (z zh : vec2) : vec2 :=
  V2 (W 0%nat 0%nat * (v2x z - v2x zh) + W 0%nat 1%nat * (v2y z - v2y zh))
     (W 1%nat 0%nat * (v2x z - v2x zh) + W 1%nat 1%nat * (v2y z - v2y zh)).
Definition omap {A B} (f : A -> B) (o : option A) : option B := match o with Some a => Some (f a) | None => None end.

(** What EvaluateWithMinimalJacobians leaves behind: residuals, jacs[i] and min_jacs[i] (all
    pointers given). The return value is always [true]. *)
Record evaluation := Eval { ev_r : option vec2; ev_jac : nat -> option matf; ev_min : nat -> option matf }.
(** [(valid) ? J : zeros(...)] *)
Definition if_valid (valid : bool) (J : option matf) : option matf := if valid then J else Some zerof.
(** [J_min * lift_pose_jacobian(T)], 2x6 times 6x7 *)
Definition lifted (J : option matf) (T : mat4) : option matf := omap (fun J => mulf 6 J (lift_pose_jacobian T)) J.

(** ** reproj_residual_t::EvaluateWithMinimalJacobians, calib_residuals.cpp 432-520 *)
Section Reproj.
Variables (G : geometry) (res : Z * Z) (W : matf) (z : vec2) (p_FFi : vec3).
Definition reproj_point (x0 x1 : pose) : vec3 :=
  let T_C0Ci := tf_pose x0 in let T_C0F := tf_pose x1 in
  let T_CiC0 := tf_inv T_C0Ci in
  tf_point (mmul4 T_CiC0 T_C0F) p_FFi.
Definition reproj_eval (x0 x1 : pose) (c : cam8) : evaluation :=
  let T_C0Ci := tf_pose x0 in let T_C0F := tf_pose x1 in
  let T_CiC0 := tf_inv T_C0Ci in
  let p_CiFi := reproj_point x0 x1 in
  let pr := g_project G res c p_CiFi in
  let valid := Z.eqb (code pr) 0 in
  let r := omap (weigh W z) (zhat pr) in
  let Jhw := omap (fun Jh => mulf 2 (scalef (-1) W) Jh) (g_project_jacobian G c p_CiFi) in
  let C_CiC0 := tf_rot T_CiC0 in
  let C_C0Ci := mtr C_CiC0 in
  let C_C0F := tf_rot T_C0F in
  let J0 := omap (fun Jhw => hcat3 (mulf 3 (scalef (-1) Jhw) (mf C_CiC0))
                   (mulf 3 (mulf 3 (scalef (-1) Jhw) (mf C_CiC0)) (mf (mneg (skew (mapp C_C0Ci p_CiFi)))))) Jhw in
  let J1 := omap (fun Jhw => hcat3 (mulf 3 Jhw (mf C_CiC0))
                   (mulf 3 (mulf 3 Jhw (mf C_CiC0)) (mf (mneg (skew (mapp C_C0F p_FFi)))))) Jhw in
  let J2 := omap (fun J_cam => mulf 2 (scalef (-1) W) J_cam) (g_params_jacobian G c p_CiFi) in
  Eval r
    (fun i => match i with O => if_valid valid (lifted J0 T_C0Ci) | 1%nat => if_valid valid (lifted J1 T_C0F)
              | _ => if_valid valid J2 end)
    (fun i => match i with O => if_valid valid J0 | 1%nat => if_valid valid J1 | _ => if_valid valid J2 end).
(** reproj_residual_t::get_residual, calib_residuals.cpp 383-407 (None: returns -1) *)
Definition reproj_get_residual (x0 x1 : pose) (c : cam8) : option (option vec2) :=
  let pr := g_project G res c (reproj_point x0 x1) in
  if Z.eqb (code pr) 0 then Some (omap (fun zh => V2 (v2x z - v2x zh) (v2y z - v2y zh)) (zhat pr)) else None.
End Reproj.

(** ** mocap_residual_t::EvaluateWithMinimalJacobians, calib_residuals.cpp 892-1003.
    [T.inverse()] of a rigid transform is [tf_inv T] (C46). *)
Section Mocap.
Variables (G : geometry) (res : Z * Z) (W : matf) (z : vec2) (r_FFi : vec3).
Definition mocap_point (x0 x1 x2 : pose) : vec3 :=
  let T_WF := tf_pose x0 in let T_WM := tf_pose x1 in let T_MC0 := tf_pose x2 in
  tf_point (mmul4 (mmul4 (tf_inv T_MC0) (tf_inv T_WM)) T_WF) r_FFi.
Definition mocap_eval (x0 x1 x2 : pose) (c : cam8) : evaluation :=
  let T_WF := tf_pose x0 in let T_WM := tf_pose x1 in let T_MC0 := tf_pose x2 in
  let T_MW := tf_inv T_WM in let T_C0M := tf_inv T_MC0 in
  let r_MFi := tf_point (mmul4 T_MW T_WF) r_FFi in
  let r_C0Fi := mocap_point x0 x1 x2 in
  let pr := g_project G res c r_C0Fi in
  let valid := Z.eqb (code pr) 0 in
  let r := omap (weigh W z) (zhat pr) in
  let Jhw := omap (fun Jh => mulf 2 W Jh) (g_project_jacobian G c r_C0Fi) in
  let C_C0W := tf_rot (mmul4 T_C0M T_MW) in
  let C_MC0 := tf_rot T_MC0 in
  let C_C0M := mtr C_MC0 in
  let C_WF := tf_rot T_WF in
  let C_WM := tf_rot T_WM in
  let blocks (A B : mat3) := omap (fun Jhw => hcat3 (mulf 3 (mulf 3 (scalef (-1) Jhw) (mf A)) (mf I3))
                               (mulf 3 (mulf 3 (scalef (-1) Jhw) (mf A)) (mf B))) Jhw in
  let J0 := blocks C_C0W (mneg (skew (mapp C_WF r_FFi))) in
  let J1 := blocks (mneg C_C0W) (mneg (skew (mapp C_WM r_MFi))) in
  let J2 := blocks (mneg C_C0M) (mneg (skew (mapp C_MC0 r_C0Fi))) in
  let J3 := omap (fun J_cam => mulf 2 (scalef (-1) W) J_cam) (g_params_jacobian G c r_C0Fi) in
  Eval r
    (fun i => match i with O => if_valid valid (lifted J0 T_WF) | 1%nat => if_valid valid (lifted J1 T_WM)
              | 2%nat => if_valid valid (lifted J2 T_MC0) | _ => if_valid valid J3 end)
    (fun i => match i with O => if_valid valid J0 | 1%nat => if_valid valid J1
              | 2%nat => if_valid valid J2 | _ => if_valid valid J3 end).
End Mocap.

(** ** fiducial_residual_t::EvaluateWithMinimalJacobians, calib_residuals.cpp 604-817, with
    FIDUCIAL_PARAMS_SIZE = 2 (calib_params.hpp 74): the first block is (roll, pitch); [yaw] and
    [r_WF] are those of [T_WF_], stored by the constructor. *)
Section Fiducial.
Variables (G : geometry) (res : Z * Z) (W : matf) (z : vec2) (r_FFi : vec3) (yaw : R) (r_WF : vec3).
Definition fid_T_WF (rp : vec2) : mat4 := tf (euler321 (V3 (v2x rp) (v2y rp) yaw)) r_WF.
Definition fid_point (rp : vec2) (x1 x2 x3 : pose) : vec3 :=
  let T_WS := tf_pose x1 in let T_BS := tf_pose x2 in let T_BCi := tf_pose x3 in
  tf_point (mmul4 (mmul4 (mmul4 (tf_inv T_BCi) T_BS) (tf_inv T_WS)) (fid_T_WF rp)) r_FFi.
Definition fid_eval (rp : vec2) (x1 x2 x3 : pose) (c : cam8) : evaluation :=
  let roll := v2x rp in let pitch := v2y rp in
  let T_WF := fid_T_WF rp in
  let T_WS := tf_pose x1 in let T_BS := tf_pose x2 in let T_BCi := tf_pose x3 in
  let T_CiB := tf_inv T_BCi in let T_SW := tf_inv T_WS in
  let r_CiFi := fid_point rp x1 x2 x3 in
  let pr := g_project G res c r_CiFi in
  let valid := Z.eqb (code pr) 0 in
  let r := omap (weigh W z) (zhat pr) in
  let Jhw := omap (fun Jh => mulf 2 W Jh) (g_project_jacobian G c r_CiFi) in
  let cphi := cos roll in let sphi := sin roll in
  let ctheta := cos pitch in let stheta := sin pitch in
  let cpsi := cos yaw in let spsi := sin yaw in
  let x := vx r_FFi in let y := vy r_FFi in let z := vz r_FFi in
  let J_x := V3 (y * (sphi * spsi + stheta * cphi * cpsi) + z * (- sphi * stheta * cpsi + spsi * cphi))
                (y * (- sphi * cpsi + spsi * stheta * cphi) + z * (- sphi * spsi * stheta - cphi * cpsi))
                (y * cphi * ctheta - z * sphi * ctheta) in
  let J_y := V3 (- x * stheta * cpsi + y * sphi * cpsi * ctheta + z * cphi * cpsi * ctheta)
                (- x * spsi * stheta + y * sphi * spsi * ctheta + z * spsi * cphi * ctheta)
                (- x * ctheta - y * sphi * stheta - z * stheta * cphi) in
  let C_CiW := tf_rot (mmul4 (mmul4 T_CiB T_BS) T_SW) in
  let J0 := omap (fun Jhw => let A := mulf 3 (scalef (-1) Jhw) (mf C_CiW) in
                   fun i j => mulf 3 A (vec_col (match j with O => J_x | _ => J_y end)) i O) Jhw in
  let blocks (A B : mat3) := omap (fun Jhw => hcat3 (mulf 3 (mulf 3 (scalef (-1) Jhw) (mf A)) (mf I3))
                               (mulf 3 (mulf 3 (scalef (-1) Jhw) (mf A)) (mf B))) Jhw in
  let C_WS := tf_rot T_WS in
  let r_SFi := tf_point (mmul4 T_SW T_WF) r_FFi in
  let J1 := blocks (mneg (mmul (tf_rot (mmul4 T_CiB T_BS)) (mtr C_WS))) (mneg (skew (mapp C_WS r_SFi))) in
  let J2 := blocks (tf_rot T_CiB) (mneg (skew (mapp (tf_rot T_BS) r_SFi))) in
  let J3 := blocks (mneg (tf_rot T_CiB)) (mneg (skew (mapp (mtr (tf_rot T_CiB)) r_CiFi))) in
  let J4 := omap (fun J_cam => mulf 2 (scalef (-1) W) J_cam) (g_params_jacobian G c r_CiFi) in
  Eval r
    (fun i => match i with O => if_valid valid J0 | 1%nat => if_valid valid (lifted J1 T_WS)
              | 2%nat => if_valid valid (lifted J2 T_BS)
              | 3%nat => lifted J3 T_BCi (* lines 788-789: not reset *)
              | _ => J4 (* lines 800-803: not reset *) end)
    (fun i => match i with O => if_valid valid J0 | 1%nat => if_valid valid J1
              | 2%nat => if_valid valid J2 | 3%nat => if_valid valid J3 | _ => if_valid valid J4 end).
End Fiducial.

(** ** pose_prior_t::EvaluateWithMinimalJacobians, calib_residuals.cpp 299-340, given both kinds
    of Jacobian pointers. The error, 6 numbers (dr, dtheta); [sqrt_info] is the 6x6 matrix [W]. *)
Definition prior_error (meas : mat4) (x : pose) : tang :=
  let est := tf_pose x in
  let dpose := mmul4 meas (tf_inv est) in
  let dr := vsub (tf_trans meas) (tf_trans est) in
  let dq := of_rot (tf_rot dpose) in
  Tg dr (vscale 2 (V3 (qx dq) (qy dq) (qz dq))).
Definition tnth (d : tang) (i : nat) : R :=
  match i with O => vx (d_r d) | 1%nat => vy (d_r d) | 2%nat => vz (d_r d)
  | 3%nat => vx (d_a d) | 4%nat => vy (d_a d) | _ => vz (d_a d) end.
Definition prior_residual (W : matf) (meas : mat4) (x : pose) (i : nat) : R :=
  sum_to 6 (fun k => W i k * tnth (prior_error meas x) k).
Definition topleft3 (T : mat4) : mat3 := tf_rot T.
Definition prior_jacobian (W : matf) (meas : mat4) (x : pose) : matf :=
  let dq := of_rot (tf_rot (mmul4 meas (tf_inv (tf_pose x)))) in
  let B := mf (mneg (topleft3 (Qplus dq))) in
  mulf 6 W (fun i j => if ((i <? 3) && (j <? 3))%nat then (if Nat.eqb i j then -1 else 0)
                       else if ((3 <=? i) && (3 <=? j))%nat then B (i - 3)%nat (j - 3)%nat else 0).

(** ** Which pointers the priors dereference.
    calib_residual_t::Evaluate (calib_residuals.cpp 22-26, the entry point ceres uses) always
    passes [min_jacs = nullptr]; pose_prior_t line 334 and prior_t line 264 read [min_jacs[0]]
    whenever Jacobians are requested. *)
Definition pose_prior_evaluate (W : matf) (meas : mat4) (x : pose) (jacs min_jacs : bool)
  : outcome ((nat -> R) * option matf * option matf) :=
  if jacs then
    if min_jacs then
      Ret (prior_residual W meas x, Some (mulf 6 (prior_jacobian W meas x) (lift_pose_jacobian (tf_pose x))), Some (prior_jacobian W meas x))
    else Undef
  else Ret (prior_residual W meas x, None, None).
Definition pose_prior_ceres (W : matf) (meas : mat4) (x : pose) (jacs : bool) := pose_prior_evaluate W meas x jacs false.

(** ** prior_t, calib_residuals.cpp 226-273: [n = global_size] numbers, minimal Jacobian buffer
    of local_size x local_size doubles into which an n x n matrix is written (line 265) *)
Definition lin_prior_residual (n : nat) (W : matf) (meas est : nat -> R) (i : nat) : R :=
  sum_to n (fun k => W i k * (meas k - est k)).
Definition lin_prior_jacobian (n : nat) (W : matf) : matf :=
  mulf n W (fun i j => if Nat.eqb i j then 1 * -1 else 0 * -1).
Definition lin_prior_evaluate (n local : nat) (W : matf) (meas est : nat -> R) (jacs min_jacs : bool)
  : outcome ((nat -> R) * option matf) :=
  if jacs then
    if min_jacs then
      if (n * n <=? local * local)%nat then Ret (lin_prior_residual n W meas est, Some (lin_prior_jacobian n W)) else Undef
    else Undef
  else Ret (lin_prior_residual n W meas est, None).
