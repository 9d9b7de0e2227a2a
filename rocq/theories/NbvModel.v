(** * Next best view (yac/lib/calib_nbv.cpp), exact real arithmetic *)
From Verif Require Import Base AprilGridModel GeomModel PlanarModel StatsModel.
From Coq Require Import Reals.
Local Open Scope R_scope.

(** (z_desired - z_measured).norm() *)
Definition kp_dist (a b : kp2) : R :=
  sqrt ((fst a - fst b) * (fst a - fst b) + (snd a - snd b) * (snd a - snd b)).

(** calib_nbv.cpp 57-69: the loop over the measurements of [grid] (index i of the three vectors,
    read unchecked) *)
Fixpoint nbv_errors (nbv : grid) (tags corners : list Z) (kps : list kp2) : outcome (list R) :=
  match tags with
  | [] => Ret []
  | t :: tags' =>
      match corners, kps with
      | c :: corners', z :: kps' =>
          obind (has nbv t c) (fun h =>
          if negb h then nbv_errors nbv tags' corners' kps'
          else obind (keypoint nbv t c) (fun zd =>
               omap (cons (kp_dist zd z)) (nbv_errors nbv tags' corners' kps')))
      | _, _ => Undef
      end
  end.
(** nbv_reached, calib_nbv.cpp 41-78; the second component is the vector reproj_errors on return.
    Comparing a NaN mean with the threshold is false. *)
Definition nbv_reached (nbv g : grid) (threshold : R) (errs : list R) : outcome (bool * list R) :=
  if negb (g_detected g) then Ret (false, errs)
  else obind (get_measurements g meas_nil) (fun m =>
       obind (nbv_errors nbv (m_tags m) (m_corners m) (m_kps m)) (fun e =>
       match mean e with
       | None => Ret (true, e)
       | Some a => Ret (if Rlt_dec threshold a then false else true, e)
       end)).

(** struct calib_target_t, calib_data.hpp 28-33 *)
Record target := mkTarget { tg_rows : Z; tg_cols : Z; tg_size : R; tg_spacing : R }.
Definition pt_of (p : pt3) : vec3 := V3 (fst (fst p)) (snd (fst p)) (snd p).
Definition kp_of (z : vec2) : kp2 := (v2x z, v2y z).

Section Camera.
(** cam_geom->project with the resolution and parameters of the camera: [Some z] when it returns 0
    with pixel [z], [None] when it returns anything else *)
Context (project : vec3 -> option vec2).

(** the corner loops of lines 26-36 and 295-305, tag major *)
Definition corner_loop (n : Z) : list (Z * Z) :=
  flat_map (fun t => [(t, 0%Z); (t, 1%Z); (t, 2%Z); (t, 3%Z)]) (zrange n).

(** check_fully_observable, lines 11-39; [T_CF] is T_FCi.inverse() (line 23) *)
Fixpoint check_corners (g : grid) (T_CF : mat4) (l : list (Z * Z)) : outcome bool :=
  match l with
  | [] => Ret true
  | (t, c) :: rest =>
      obind (object_point g t c) (fun p =>
      match project (tf_point T_CF (pt_of p)) with
      | None => Ret false
      | Some _ => check_corners g T_CF rest
      end)
  end.
Definition check_fully_observable (tg : target) (T_CF : mat4) : outcome bool :=
  let g := new_grid 0 (tg_rows tg) (tg_cols tg) (tg_size tg) (tg_spacing tg) in
  check_corners g T_CF (corner_loop (tg_rows tg * tg_cols tg)).

(** nbv_target_grid, lines 279-308; [T_CF] is T_FCi.inverse() (line 292) *)
Fixpoint add_corners (g : grid) (T_CF : mat4) (l : list (Z * Z)) : status * grid :=
  match l with
  | [] => (Done, g)
  | (t, c) :: rest =>
      match object_point g t c with
      | Ret p =>
          match project (tf_point T_CF (pt_of p)) with
          | None => add_corners g T_CF rest
          | Some z => match add g t c (kp_of z) with
                      | (Done, g') => add_corners g' T_CF rest
                      | other => other
                      end
          end
      | Throw _ => (Thrown, g)
      | Undef => (UB, g)
      end
  end.
Definition nbv_target_grid (tg : target) (ts : Z) (T_CF : mat4) : status * grid :=
  add_corners (new_grid ts (tg_rows tg) (tg_cols tg) (tg_size tg) (tg_spacing tg)) T_CF
              (corner_loop (tg_rows tg * tg_cols tg)).

(** lines 86-96: size of the target *)
Definition target_width (tg : target) : R :=
  IZR (tg_cols tg) * tg_size tg + (IZR (tg_cols tg) - 1) * tg_spacing tg * tg_size tg.
Definition target_height (tg : target) : R :=
  IZR (tg_rows tg) * tg_size tg + (IZR (tg_rows tg) - 1) * tg_spacing tg * tg_size tg.
(** lines 100-117 for one value of scale: the position r_FO. The image width and the scale are taken
    to be non-zero (the callers pass 0.5 and 0.8). *)
Definition origin_at (tg : target) (image_width fx scale : R) : vec3 :=
  let target_half_width := target_width tg / 2 in
  let target_half_resolution_x := image_width / 2 in
  let z_FO := fx * target_half_width / (target_half_resolution_x * scale) in
  V3 (target_width tg / 2) (target_height tg / 2) z_FO.
Definition C_FC : mat3 := euler321 (V3 (deg2rad (-180)) (deg2rad 0) (deg2rad 0)).
(** the loop of lines 98-128: [retry] counts down from 5; the inverse of the rigid T_FC taken by
    check_fully_observable is [tf_inv T_FC] *)
Fixpoint origin_loop (tg : target) (image_width fx scale : R) (retry : nat) : outcome (option mat4) :=
  let r_FO := origin_at tg image_width fx scale in
  let T_FO := tf I3 r_FO in
  let T_FC := tf C_FC r_FO in
  match retry with
  | O => Ret None
  | S retry' =>
      obind (check_fully_observable tg (tf_inv T_FC)) (fun ok =>
      if ok then Ret (Some T_FO)
      else match retry' with
           | O => Ret None
           | _ => origin_loop tg image_width fx (scale - 1 / 10) retry'
           end)
  end.
(** calib_target_origin, lines 81-129: [Some T_FO] for return code 0 *)
Definition calib_target_origin (tg : target) (image_width fx scale : R) : outcome (option mat4) :=
  origin_loop tg image_width fx scale 5.

Definition up_axis : vec3 := V3 0 (-1) 0.        (* default argument, core.hpp 790 *)

(** one look-at pose per position, lines 170-174 and 221-224 (lookat is a relation, see
    PlanarModel.v) *)
Definition lookats (positions : list vec3) (center : vec3) (poses : list mat4) : Prop :=
  Forall2 (fun p T => lookat p center up_axis T) positions poses.

(** calib_init_poses, lines 131-177 *)
Definition target_center (r_FO : vec3) : vec3 := V3 (vx r_FO * 2 / 2) (vy r_FO * 2 / 2) 0.
Definition init_positions (r_FO : vec3) : list vec3 :=
  let h_width := vx r_FO * 2 / 2 in
  let h_height := vy r_FO * 2 / 2 in
  let xy_scale := 12 / 10 in
  let w0 := - h_width * xy_scale in let w1 := h_width * xy_scale in
  let h0 := - h_height * xy_scale in let h1 := h_height * xy_scale in
  let z := vz r_FO in
  let c := target_center r_FO in
  [vadd (V3 w0 h1 z) c; vadd (V3 w0 h0 z) c; vadd (V3 w1 h0 z) c; vadd (V3 w1 h1 z) c].
Definition calib_init_poses (tg : target) (image_width fx : R) (poses0 : list mat4)
    (code : Z) (poses : list mat4) : Prop :=
  match calib_target_origin tg image_width fx (5 / 10) with
  | Ret (Some T_FO) =>
      code = 0%Z /\ lookats (init_positions (tf_trans T_FO)) (target_center (tf_trans T_FO)) poses
  | Ret None => code = (-1)%Z /\ poses = poses0
  | _ => False
  end.

(** calib_nbv_poses, lines 179-239 *)
Definition nbv_positions (r_FO : vec3) (nx ny nz : Z) : list vec3 :=
  let xy_scale := 16 / 10 in
  let d_start := vz r_FO in
  let d_end := d_start * (15 / 10) in
  let h_width := vx r_FO * 2 / 2 in
  let h_height := vy r_FO * 2 / 2 in
  let x_range := linspace (- h_width * xy_scale) (h_width * xy_scale) nx in
  let y_range := linspace (- h_height * xy_scale) (h_height * xy_scale) ny in
  let z_range := linspace d_start d_end nz in
  flat_map (fun x => flat_map (fun y => map (fun z => vadd (V3 x y z) (target_center r_FO)) z_range) y_range) x_range.
Definition calib_nbv_poses (tg : target) (image_width fx : R) (nx ny nz : Z) (poses0 : list mat4)
    (code : Z) (poses : list mat4) : Prop :=
  match calib_target_origin tg image_width fx (8 / 10) with
  | Ret (Some T_FO) =>
      code = 0%Z /\ lookats (nbv_positions (tf_trans T_FO) nx ny nz) (target_center (tf_trans T_FO)) poses
  | Ret None => code = (-1)%Z /\ poses = poses0
  | _ => False
  end.
End Camera.

(** One camera of the overload for several cameras: its projection, image width, focal length and
    T_CiC0 = ext->tf().inverse() *)
Record camera := mkCamera { cm_project : vec3 -> option vec2; cm_width : R; cm_fx : R; cm_T_CiC0 : mat4 }.
(** calib_nbv_poses for a map of cameras, lines 241-277, cameras in ascending order of index:
    return code and the resulting map (a camera without poses gets no entry). *)
Inductive nbv_poses_all (tg : target) (nx ny nz : Z) : list (Z * camera) -> Z -> list (Z * list mat4) -> Prop :=
| nbv_all_nil : nbv_poses_all tg nx ny nz [] 0 []
| nbv_all_fail i c rest code poses :
    calib_nbv_poses (cm_project c) tg (cm_width c) (cm_fx c) nx ny nz [] code poses -> code <> 0%Z ->
    nbv_poses_all tg nx ny nz ((i, c) :: rest) (-1) []
| nbv_all_ok i c rest poses code m :
    calib_nbv_poses (cm_project c) tg (cm_width c) (cm_fx c) nx ny nz [] 0 poses ->
    nbv_poses_all tg nx ny nz rest code m ->
    nbv_poses_all tg nx ny nz ((i, c) :: rest) code
      (match poses with [] => m | _ => (i, map (fun T => mmul4 T (cm_T_CiC0 c)) poses) :: m end).
