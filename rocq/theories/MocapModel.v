(** * The motion-capture to camera calibrator (yac/lib/calib_mocap.cpp, calib_mocap.hpp)

    calib_mocap_t estimates the pose of a camera relative to the motion-capture marker body it is mounted on, from
    AprilGrid detections, the synchronised body poses (C93) and the pose of the target.

    Simplifications, valid for the whole file: residual blocks are named by the view that created them and their number
    in it (addresses are not used again); ceres::Problem holds the body poses and the residuals (camera, target pose and
    extrinsics are always in it), removing a parameter block removes the residuals that use it; ceres::Solve is an
    arbitrary function [slv] of the residuals and the estimates that changes neither fixed blocks nor blocks without
    residuals, solvepnp is an arbitrary function [pnp], the covariance estimate is an arbitrary function [info];
    std::shuffle is an arbitrary function [shuffle]; exact real arithmetic, [.inverse()] of a rigid transform is
    [tf_inv]. The configuration file, the preprocessing of images (aprilgrid detection), the intrinsic calibration when
    no parameters are given (calib_camera_t, C29-C31), the entropy and the loss function are not modelled. *)
From Verif Require Import Base GeomModel StatsModel.
From Verif Require CalibModel.
From Coq Require Import Reals.
Local Open Scope Z_scope.

(** A measured corner: tag, corner index, key point, object point (get_measurements, C03). *)
Record corner := Corner { k_tag : Z; k_idx : Z; k_z : vec2; k_pt : vec3 }.
(** What the calibrator uses of an aprilgrid_t: stamp, flag, measured corners; [nb_detections] is their number (C02). *)
Record mgrid := MGrid { g_ts : Z; g_det : bool; g_pts : list corner }.
Definition same_corner (t i : Z) (k : corner) : bool := (k_tag k =? t) && (k_idx k =? i).
(** Residual blocks: number of the view created, number of the corner in it. *)
Definition rid : Type := nat * nat.
Definition rid_eqb (a b : rid) : bool := Nat.eqb (fst a) (fst b) && Nat.eqb (snd a) (snd b).
(** mocap_view_t, calib_mocap.hpp 14-46: number, stamp, its copy of the grid (the corners left), residuals *)
Record mview := MView { v_id : nat; v_pts : list corner; v_res : list (rid * corner) }.
(** Estimates: camera parameters, target pose, marker-to-camera extrinsics, body poses by stamp (ascending). *)
Record est := Est { e_cam : list R; e_fid : pose; e_ext : pose; e_poses : list (Z * pose) }.
(** ceres::Problem: body poses, residuals with the stamp of their body pose. *)
Record problem := Problem { q_poses : list Z; q_res : list (rid * Z * corner) }.

(** std::map<timestamp_t, T>: ascending keys *)
Section Map.
Context {A : Type}.
Fixpoint mset (k : Z) (a : A) (m : list (Z * A)) : list (Z * A) :=
  match m with
  | [] => [(k, a)]
  | (j, b) :: r => if k <? j then (k, a) :: m else if k =? j then (k, a) :: r else (j, b) :: mset k a r
  end.
Fixpoint mget (k : Z) (m : list (Z * A)) : option A :=
  match m with [] => None | (j, a) :: r => if j =? k then Some a else mget k r end.
Definition mdel (k : Z) (m : list (Z * A)) : list (Z * A) := filter (fun x => negb (fst x =? k)) m.
End Map.

(** Settings used: fix_intrinsics, fix_mocap_poses, fix_fiducial_pose, outlier_threshold, info_gain_threshold, max_iter *)
Record settings := Settings { c_fix_cam : bool; c_fix_poses : bool; c_fix_fid : bool; c_outlier : R; c_gain : R; c_iter : Z }.
(** calib_mocap_t *)
Record mocap := Mocap {
  m_info : CalibModel.xreal; m_grids : list (Z * mgrid); m_order : list Z; m_views : list (Z * mview);
  m_next : nat; m_prob : problem; m_est : est }.
Definition with_est (e : est) (s : mocap) : mocap :=
  Mocap (m_info s) (m_grids s) (m_order s) (m_views s) (m_next s) (m_prob s) e.
Definition with_views (vs : list (Z * mview)) (q : problem) (s : mocap) : mocap :=
  Mocap (m_info s) (m_grids s) (m_order s) vs (m_next s) q (m_est s).
Definition with_info (i : CalibModel.xreal) (s : mocap) : mocap :=
  Mocap i (m_grids s) (m_order s) (m_views s) (m_next s) (m_prob s) (m_est s).

(** What ceres::Solve proposes for each block (camera parameter by index) *)
Record values := Values { n_cam : nat -> R; n_fid : pose; n_ext : pose; n_pose : Z -> pose }.

Section Mocap.
(** solvepnp on camera parameters and corners; projection (camera_geometry_t::project, [None]: not valid); ceres::Solve
    for a number of iterations; _calc_info's log-determinant of the covariance over log 2 ([None]: the estimation fails or
    the result is not a number); std::shuffle (identity when enable_shuffle_views is off). *)
Context (pnp : list R -> list corner -> option mat4) (proj : list R -> vec3 -> option vec2)
        (slv : Z -> list (Z * corner) -> est -> values) (info : problem -> est -> option CalibModel.xreal)
        (shuffle : list Z -> list Z).
Context (cfg : settings).

(** ** Constructor, calib_mocap.cpp 236-285: camera parameters, target pose, then the grids and body poses that
    lerp_body_poses delivers (C93). T_WM[k] beyond the end is undefined. *)
Fixpoint add_mocap_poses (gs : list mgrid) (Ts : list mat4) (m : list (Z * pose)) : outcome (list (Z * pose)) :=
  match gs, Ts with
  | [], _ => Ret m
  | _ :: _, [] => Undef
  | g :: gs', T :: Ts' => add_mocap_poses gs' Ts' (mset (g_ts g) (tf_vec T) m)
  end.
(** aprilgrid_t::estimate, aprilgrid.cpp 255-277 *)
Definition estimate (cam : list R) (g : mgrid) : option mat4 := match g_pts g with [] => None | l => pnp cam l end.
(** 266-283: the extrinsics from each grid in turn; [ext = None]: T_MC0 has not been written yet. A stamp without body
    pose cannot occur here (a default constructed pose would be read). *)
Fixpoint init_ext (cam : list R) (T_WF : mat4) (poses : list (Z * pose)) (gs : list mgrid)
    (ext : option mat4) (kept : list (Z * mgrid)) : outcome (option mat4 * list (Z * mgrid)) :=
  match gs with
  | [] => Ret (ext, kept)
  | g :: gs' =>
      match mget (g_ts g) poses with
      | None => Undef
      | Some p =>
          match estimate cam g with
          | None => init_ext cam T_WF poses gs' ext kept
          | Some T_C0F =>
              init_ext cam T_WF poses gs' (Some (mmul4 (mmul4 (tf_inv (tf_pose p)) T_WF) (tf_inv T_C0F))) (mset (g_ts g) g kept)
          end
      end
  end.
Definition construct (cam : list R) (T_WF : mat4) (gs : list mgrid) (Ts : list mat4) : outcome mocap :=
  obind (add_mocap_poses gs Ts []) (fun poses =>
  obind (init_ext cam T_WF poses gs None []) (fun x =>
  match fst x with
  | None => Undef
  | Some T_MC0 =>
      Ret (Mocap (CalibModel.XF 0) (snd x) [] [] 0 (Problem (map fst poses) []) (Est cam (tf_vec T_WF) (tf_vec T_MC0) poses))
  end)).

(** ** Residuals: mocap_residual_t::get_residual, calib_residuals.cpp 867-887 *)
Definition residual (e : est) (ts : Z) (k : corner) : option vec2 :=
  match mget ts (e_poses e) with
  | None => None
  | Some p =>
      match proj (e_cam e) (tf_point (mmul4 (mmul4 (tf_inv (tf_pose (e_ext e))) (tf_inv (tf_pose p))) (tf_pose (e_fid e))) (k_pt k)) with
      | None => None
      | Some z_hat => Some (V2 (v2x (k_z k) - v2x z_hat) (v2y (k_z k) - v2y z_hat))
      end
  end.
(** mocap_view_t::get_residuals, calib_mocap.cpp 57-68, and calib_mocap_t::get_residuals, 300-310 *)
Definition view_residuals (e : est) (tv : Z * mview) : list vec2 :=
  flat_map (fun rc => match residual e (fst tv) (snd rc) with Some r => [r] | None => [] end) (v_res (snd tv)).
Definition get_residuals (s : mocap) : list vec2 := flat_map (view_residuals (m_est s)) (m_views s).
(** get_reproj_errors, 70-81 and 290-298 *)
Definition get_reproj_errors (s : mocap) : list R :=
  map (fun r => sqrt (v2x r * v2x r + v2y r * v2y r)%R) (get_residuals s).

(** ** Views *)
(** mocap_view_t::mocap_view_t, calib_mocap.cpp 7-53 *)
Fixpoint number (n i : nat) (l : list corner) : list (rid * corner) :=
  match l with [] => [] | k :: r => ((n, i), k) :: number n (S i) r end.
(** _add_view, calib_mocap.cpp 411-422: the view is built, and its residuals are added, before an old view of the same
    stamp is destroyed; the destructor does not touch the solver. A body pose that is not in mocap_poses is created
    empty, its null data pointer makes ceres abort. *)
Definition add_view (g : mgrid) (s : mocap) : outcome mocap :=
  let rs := if g_det g then number (m_next s) 0 (g_pts g) else [] in
  match mget (g_ts g) (e_poses (m_est s)) with
  | None => Throw StdExn
  | Some _ =>
      Ret (Mocap (m_info s) (m_grids s) (m_order s ++ [g_ts g])
             (mset (g_ts g) (MView (m_next s) (g_pts g) rs) (m_views s)) (S (m_next s))
             (Problem (q_poses (m_prob s)) (q_res (m_prob s) ++ map (fun rc => (fst rc, g_ts g, snd rc)) rs)) (m_est s))
  end.
(** the residual objects that exist *)
Definition live (s : mocap) (r : rid) : bool :=
  existsb (fun tv => existsb (fun rc => rid_eqb r (fst rc)) (v_res (snd tv))) (m_views s).
(** calib_view_timestamps.erase(std::find(...)), 437-440 *)
Fixpoint erase_first (ts : Z) (l : list Z) : outcome (list Z) :=
  match l with [] => Undef | x :: r => if x =? ts then Ret r else obind (erase_first ts r) (fun r' => Ret (x :: r')) end.
(** _remove_view, calib_mocap.cpp 424-442, with ceres_solver_t::remove_param (solver.cpp 1038-1059), which reads the
    residual objects that use the pose *)
Definition remove_view (ts : Z) (s : mocap) : outcome mocap :=
  obind (match mget ts (e_poses (m_est s)) with
         | None => Ret s
         | Some _ =>
             let e' := Est (e_cam (m_est s)) (e_fid (m_est s)) (e_ext (m_est s)) (mdel ts (e_poses (m_est s))) in
             if existsb (Z.eqb ts) (q_poses (m_prob s)) then
               let (out, rest) := partition (fun x => snd (fst x) =? ts) (q_res (m_prob s)) in
               if forallb (fun x => live s (fst (fst x))) out
               then Ret (with_est e' (with_views (m_views s) (Problem (filter (fun t => negb (t =? ts)) (q_poses (m_prob s))) rest) s))
               else Undef
             else Ret (with_est e' s)
         end) (fun s1 =>
  match mget ts (m_views s1) with
  | None => Ret s1
  | Some _ => obind (erase_first ts (m_order s1)) (fun o =>
      Ret (Mocap (m_info s1) (m_grids s1) o (mdel ts (m_views s1)) (m_next s1) (m_prob s1) (m_est s1)))
  end).

(** ** Outliers *)
(** ceres_solver_t::remove_residual, solver.cpp 1061-1085 *)
Definition q_remove_res (r : rid) (q : problem) : outcome problem :=
  if existsb (fun x => rid_eqb r (fst (fst x))) (q_res q)
  then Ret (Problem (q_poses q) (filter (fun x => negb (rid_eqb r (fst (fst x)))) (q_res q)))
  else Throw Fatal.
(** [x > th] where a threshold that is not a number compares false *)
Definition above (x : R) (th : option R) : bool := match th with None => false | Some t => if Rlt_dec t x then true else false end.
Definition is_outlier (e : est) (th : option R * option R) (ts : Z) (k : corner) : bool :=
  match residual e ts k with None => false | Some r => above (v2x r) (fst th) || above (v2y r) (snd th) end.
(** mocap_view_t::filter_view, calib_mocap.cpp 83-122. Removing a corner from the grid clears the corners with this tag
    and index (aprilgrid_t::remove, C02). *)
Fixpoint filter_view (out : corner -> bool) (l : list (rid * corner)) (pts : list corner) (q : problem)
    : outcome (list (rid * corner) * list corner * problem * Z) :=
  match l with
  | [] => Ret ([], pts, q, 0)
  | (r, k) :: rest =>
      if out k then
        let pts' := filter (fun k' => negb (same_corner (k_tag k) (k_idx k) k')) pts in
        if existsb (same_corner (k_tag k) (k_idx k)) pts' then Throw Fatal
        else if Nat.eqb (length pts) (length pts') then Throw Fatal
        else obind (q_remove_res r q) (fun q' =>
             obind (filter_view out rest pts' q') (fun x =>
             let '(l', pts'', q'', n) := x in Ret (l', pts'', q'', n + 1)))
      else obind (filter_view out rest pts q) (fun x =>
           let '(l', pts'', q'', n) := x in Ret ((r, k) :: l', pts'', q'', n))
  end.
Fixpoint filter_views (e : est) (th : option R * option R) (vs : list (Z * mview)) (q : problem)
    : outcome (list (Z * mview) * problem * Z) :=
  match vs with
  | [] => Ret ([], q, 0)
  | (ts, v) :: rest =>
      obind (filter_view (is_outlier e th ts) (v_res v) (v_pts v) q) (fun x =>
      let '(l, pts, q1, n) := x in
      obind (filter_views e th rest q1) (fun y =>
      let '(vs', q2, n') := y in Ret ((ts, MView (v_id v) pts l) :: vs', q2, n + n')))
  end.
(** _filter_all_views, calib_mocap.cpp 503-512 *)
Definition thresholds (s : mocap) : option R * option R :=
  let sd := stddev2 (get_residuals s) in
  (option_map (Rmult (c_outlier cfg)) (fst sd), option_map (Rmult (c_outlier cfg)) (snd sd)).
Definition filter_all (s : mocap) : outcome (mocap * Z) :=
  obind (filter_views (m_est s) (thresholds s) (m_views s) (m_prob s)) (fun x =>
  let '(vs, q, n) := x in Ret (with_views vs q s, n)).

(** ** Solving *)
(** solver->solve(iter): every residual in the problem is evaluated, one that no longer exists is undefined behaviour *)
Definition solved (v : values) (rs : list (rid * Z * corner)) (e : est) : est :=
  match rs with
  | [] => e
  | _ => Est (if c_fix_cam cfg then e_cam e else map (n_cam v) (seq 0 (length (e_cam e))))
             (if c_fix_fid cfg then e_fid e else n_fid v) (n_ext v)
             (map (fun tp => (fst tp, if c_fix_poses cfg then snd tp
                                      else if existsb (fun x => snd (fst x) =? fst tp) rs then n_pose v (fst tp) else snd tp)) (e_poses e))
  end.
Definition run_solver (iter : Z) (s : mocap) : outcome mocap :=
  let rs := q_res (m_prob s) in
  if forallb (fun x => live s (fst (fst x))) rs
  then Ret (with_est (solved (slv iter (map (fun x => (snd (fst x), snd x)) rs) (m_est s)) rs (m_est s)) s)
  else Undef.
(** show_results, 696-705, of which only the median (print_metrics, 623) can fail *)
Definition show_results (s : mocap) : outcome mocap := obind (median (get_reproj_errors s)) (fun _ => Ret s).
Fixpoint add_views (gs : list (Z * mgrid)) (s : mocap) : outcome mocap :=
  match gs with [] => Ret s | (_, g) :: r => obind (add_view g s) (add_views r) end.
(** solve, calib_mocap.cpp 514-542 *)
Definition solve (s : mocap) : outcome mocap :=
  obind (add_views (m_grids s) s) (fun s1 =>
  obind (run_solver (c_iter cfg) s1) (fun s2 =>
  obind (filter_all s2) (fun s3 =>
  obind (run_solver (c_iter cfg) (fst s3)) show_results))).

(** ** Next best view *)
(** calib_mocap_cache_t::restore, calib_mocap.cpp 144-165: seven of the camera's parameters *)
Definition restore_poses (cached : list (Z * pose)) (cur : list (Z * pose)) : list (Z * pose) :=
  fold_left (fun m tp => mset (fst tp) (snd tp) m) cached cur.
Definition restore (c : est) (s : mocap) : mocap :=
  with_est (Est (firstn 7 (e_cam c) ++ skipn 7 (e_cam (m_est s))) (e_fid c) (e_ext c) (restore_poses (e_poses c) (e_poses (m_est s)))) s.
(** one turn of the loop of solve_nbv, 566-603. calib_grids[ts] always exists here. *)
Definition nbv_step (ts : Z) (s : mocap) : outcome mocap :=
  match mget ts (m_grids s) with
  | None => Undef
  | Some g =>
      obind (add_view g s) (fun s1 =>
      obind (filter_all s1) (fun s2 =>
      let c := m_est (fst s2) in
      obind (run_solver 30 (fst s2)) (fun s3 =>
      if Nat.ltb (length (m_views s3)) 5 then Ret s3 else
      match info (m_prob s3) (m_est s3) with
      | None => Ret (restore c s3)
      | Some i =>
          if CalibModel.gain_below (m_info s3) i (c_gain cfg) then remove_view ts (restore c s3)
          else Ret (with_info i s3)
      end)))
  end.
Fixpoint nbv_loop (l : list Z) (s : mocap) : outcome mocap :=
  match l with [] => Ret s | ts :: r => obind (nbv_step ts s) (nbv_loop r) end.
(** solve_nbv, calib_mocap.cpp 544-611 *)
Definition nbv_timestamps (s : mocap) : list Z := map fst (filter (fun x => g_det (snd x)) (m_grids s)).
Definition solve_nbv (s : mocap) : outcome mocap :=
  match nbv_timestamps s with
  | [] => Throw Fatal
  | l => obind (nbv_loop (shuffle l) s) (fun s1 => obind (run_solver (c_iter cfg) s1) show_results)
  end.

(** ** Results: print_mocap_poses, calib_mocap.cpp 661-694: the number of rows announced, and the rows *)
Definition print_mocap_poses (s : mocap) : Z * list (Z * pose) :=
  (Z.of_nat (length (m_views s)), map (fun tp => (fst tp, tf_vec (tf_pose (snd tp)))) (e_poses (m_est s))).
End Mocap.
