(** * Replay of a recorded data set by the visual-inertial calibrator (yac/lib/calib_vi.cpp 1245-1307) *)
From Verif Require Import Base GeomModel ImuModel ContainersModel ViModel.
Local Open Scope Z_scope.

(** load_data: what is added to the timeline, in this order (1262-1276): the grids of each camera as they were loaded, then
    the IMU samples. Reading the files (calib_data_preprocess, load_imu_data) is not part of this model. *)
Definition recorded (cams : list (Z * list vgrid)) (imu : list (Z * (vec3 * vec3))) : list (Z * event) :=
  flat_map (fun cg => map (fun g => (g_ts g, EGrid (fst cg) g)) (snd cg)) cams ++
  map (fun s => (fst s, EImu (fst s) (fst (snd s)) (snd (snd s)))) imu.
(** 1278-1306: for each stamp of the timeline, its events in the order of the multimap *)
Definition replay (cams : list (Z * list vgrid)) (imu : list (Z * (vec3 * vec3))) : list event :=
  let t := tl_run (recorded cams imu) in flat_map (get_events t) (tl_ts t).
