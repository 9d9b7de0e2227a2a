(** * Simulated camera frames for the next best trajectory (yac/lib/calib_nbt.cpp 418-491, called at 640-651)
    Exact real arithmetic; [.inverse()] of a rigid transform is [tf_inv] (C46). Overflow of ts_k + dt is not modelled (C72 is about
    the times). *)
From Verif Require Import Base AprilGridModel GeomModel NbvModel.
From Verif Require ContainersModel.
From Coq Require Import Reals.
Local Open Scope Z_scope.

(** simulate_aprilgrid, 418-453: the point goes through T_C0F, then through T_CiC0; [add_corners] are the loops of 439-450 (the same
    as those of nbv_target_grid), with the second transform in the function given as the projection *)
Definition simulate_aprilgrid (ts : Z) (tg : target) (T_FC0 : mat4) (project : vec3 -> option vec2) (ext : mat4) : status * grid :=
  let T_CiC0 := tf_inv ext in
  let T_C0F := tf_inv T_FC0 in
  add_corners (fun r => project (tf_point T_CiC0 r)) (new_grid ts (tg_rows tg) (tg_cols tg) (tg_size tg) (tg_spacing tg)) T_C0F
              (corner_loop (tg_rows tg * tg_cols tg)).

Section Cameras.
(** cam_geoms->project with cam_params ([None]: one of the two maps has no such camera), cam_exts *)
Context (project : Z -> option (vec3 -> option vec2)) (ext : Z -> option mat4).
Context (tg : target) (T_WF : mat4).
(** the body of simulate_cameras' loop, 470-487; [cams]: the keys of cam_geoms *)
Fixpoint simulate_frame (cams : list Z) (ts : Z) (T_FC0 : mat4) : outcome (list (Z * grid)) :=
  match cams with
  | [] => Ret []
  | c :: rest =>
      match project c, ext c with
      | Some pr, Some E =>
          match simulate_aprilgrid ts tg T_FC0 pr E with
          | (Done, g) => Base.omap (cons (c, g)) (simulate_frame rest ts T_FC0)
          | (Thrown, _) => Throw Fatal
          | (UB, _) => Undef
          end
      | _, _ => Throw OutOfRange
      end
  end.
(** traj.get_pose: [None]: FATAL, the time is out of range *)
Context (pose : Z -> option mat4).
(** simulate_cameras, 455-491: cam_grids and T_WC0_sim in the order of the times, and how the loop ends *)
Inductive simulate_cameras (cams : list Z) (dt ts_end : Z) : Z -> list (Z * mat4 * list (Z * grid)) -> outcome unit -> Prop :=
| sc_done ts : ts_end < ts -> simulate_cameras cams dt ts_end ts [] (Ret tt)
| sc_range ts : ts <= ts_end -> pose ts = None -> simulate_cameras cams dt ts_end ts [] (Throw Fatal)
| sc_fail ts T e : ts <= ts_end -> pose ts = Some T ->
    simulate_frame cams ts (tf_inv (mmul4 (tf_inv T) T_WF)) = Throw e -> simulate_cameras cams dt ts_end ts [] (Throw e)
| sc_step ts T gs l r : ts <= ts_end -> pose ts = Some T ->
    simulate_frame cams ts (tf_inv (mmul4 (tf_inv T) T_WF)) = Ret gs ->
    simulate_cameras cams dt ts_end (ts + dt) l r -> simulate_cameras cams dt ts_end ts ((ts, T, gs) :: l) r.
End Cameras.

(** nbt_create_timeline, 580-600: the IMU samples (imu_ts[i], imu_acc[i], imu_gyr[i], read unchecked), then the detected grids frame
    by frame, camera by camera; timeline_t is ContainersModel's *)
Inductive nbt_event := EvImu (ts : Z) (a w : vec3) | EvGrid (ts cam : Z) (g : grid).
Fixpoint imu_events (ts : list Z) (acc gyr : list vec3) : outcome (list (Z * nbt_event)) :=
  match ts, acc, gyr with
  | [], _, _ => Ret []
  | t :: ts', a :: acc', w :: gyr' => Base.omap (cons (t, EvImu t a w)) (imu_events ts' acc' gyr')
  | _, _, _ => Undef
  end.
Definition grid_events (frames : list (Z * list (Z * grid))) : list (Z * nbt_event) :=
  flat_map (fun f => flat_map (fun cg => if g_detected (snd cg) then [(fst f, EvGrid (fst f) (fst cg) (snd cg))] else []) (snd f)) frames.
Definition nbt_create_timeline (frames : list (Z * list (Z * grid))) (ts : list Z) (acc gyr : list vec3) :
  outcome (ContainersModel.timeline nbt_event) :=
  Base.omap (fun imu => ContainersModel.tl_run (imu ++ grid_events frames)) (imu_events ts acc gyr).
