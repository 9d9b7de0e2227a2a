(** * The visual-inertial calibrator (yac/lib/calib_vi.cpp, calib_vi.hpp)

    calib_vi_t collects AprilGrid detections and IMU samples, turns them into views (a sensor pose, speed and biases,
    a residual per corner, an IMU residual to the next view) and, with [enable_marginalization], keeps a window of
    views by marginalising the oldest one.

    Simplifications, valid for the whole file: parameter and residual blocks are identified by names instead of
    addresses (no address is used again); ceres::Problem is the graph it documents: adding a residual adds its
    parameter blocks, removing a parameter block removes the residuals that use it, removing a residual that is not
    in the problem is undefined; ceres::Solve is an arbitrary function [slv] of the problem and the parameter values;
    solvepnp is an arbitrary function [pnp]; random sampling of corners is an arbitrary function [pick]; exact real
    arithmetic; [.inverse()] of a rigid transform is [tf_inv]. The image based entry point, the profiler, the mutex
    and printing are not modelled. The numbers in the prior are those of C69 (MargHessModel.v); here it is the list
    of blocks it constrains. *)
From Verif Require Import Base GeomModel PlanarModel StatsModel EulerModel ImuModel.
From Coq Require Import Reals.
Local Open Scope Z_scope.

(** Parameter blocks: time delay, IMU extrinsics, camera extrinsics and parameters, fiducial, pose and
    speed-and-biases of the [n]-th view created. *)
Inductive pid := PDelay | PImuExt | PCamExt (c : Z) | PCam (c : Z) | PFid | PPose (n : nat) | PSb (n : nat).
(** Residual blocks: the [i]-th corner of camera [c] in view [n], the IMU residual starting at view [n], the [k]-th
    prior. *)
Inductive rid := RCorner (n : nat) (c : Z) (i : nat) | RImu (n : nat) | RPrior (k : nat).
Definition pid_eq (a b : pid) : {a = b} + {a <> b}.
Proof. decide equality; first [apply Z.eq_dec|apply Nat.eq_dec]. Defined.
Definition rid_eq (a b : rid) : {a = b} + {a <> b}.
Proof. decide equality; first [apply Z.eq_dec|apply Nat.eq_dec]. Defined.
Definition pid_in (p : pid) (l : list pid) : bool := if in_dec pid_eq p l then true else false.

(** ** ceres::Problem *)
Record problem := Problem { q_params : list pid; q_const : list pid; q_res : list (rid * list pid) }.
Definition q_new : problem := Problem [] [] [].
(** AddParameterBlock *)
Definition q_add (p : pid) (q : problem) : problem :=
  if pid_in p (q_params q) then q else Problem (q_params q ++ [p]) (q_const q) (q_res q).
(** SetParameterBlockConstant / SetParameterBlockVariable *)
Definition q_fix (p : pid) (q : problem) : problem :=
  if pid_in p (q_const q) then q else Problem (q_params q) (q_const q ++ [p]) (q_res q).
Definition q_free (p : pid) (q : problem) : problem :=
  Problem (q_params q) (remove pid_eq p (q_const q)) (q_res q).
(** AddResidualBlock *)
Definition q_add_res (r : rid) (ps : list pid) (q : problem) : problem :=
  let q' := fold_left (fun q p => q_add p q) ps q in
  Problem (q_params q') (q_const q') (q_res q' ++ [(r, ps)]).
(** RemoveResidualBlock *)
Definition q_remove_res (r : rid) (q : problem) : outcome problem :=
  if in_dec rid_eq r (map fst (q_res q))
  then Ret (Problem (q_params q) (q_const q) (filter (fun x => if rid_eq r (fst x) then false else true) (q_res q)))
  else Undef.
(** HasParameterBlock + RemoveParameterBlock *)
Definition q_drop (p : pid) (q : problem) : problem :=
  if pid_in p (q_params q)
  then Problem (remove pid_eq p (q_params q)) (remove pid_eq p (q_const q)) (filter (fun x => negb (pid_in p (snd x))) (q_res q))
  else q.

(** ** Data *)
(** A corner: tag, corner index, key point. *)
Definition corner : Type := Z * Z * (R * R).
(** What the calibrator uses of an aprilgrid_t: stamp, flag, and the corners that get_measurements lists
    (C03); [nb_detections] is their number. *)
Record vgrid := VGrid { g_ts : Z; g_det : bool; g_pts : list corner }.
(** std::map<int, aprilgrid_t>, keys ascending *)
Definition gmap := list (Z * vgrid).
Fixpoint gm_set (c : Z) (g : vgrid) (m : gmap) : gmap :=
  match m with
  | [] => [(c, g)]
  | (d, h) :: r => if c <? d then (c, g) :: m else if c =? d then (c, g) :: r else (d, h) :: gm_set c g r
  end.
Fixpoint gm_get (c : Z) (m : gmap) : option vgrid :=
  match m with [] => None | (d, g) :: r => if d =? c then Some g else gm_get c r end.

(** The IMU residual of a view: its buffer, the two views and their stamps. *)
Record link := Link { l_buf : imu_data; l_i : nat; l_j : nat; l_ti : Z; l_tj : Z }.
(** calib_vi_view_t (calib_vi.hpp 14-75): number, stamp, residuals per camera, IMU residual. *)
Record view := View { v_id : nat; v_ts : Z; v_fid : list (Z * list (rid * corner)); v_imu : option link }.

(** Settings and what the constructor is given (calib_vi.hpp 94-112, calib_vi.cpp 274-397). Cameras:
    index, fix_params, fix_extrinsics. *)
Record settings := Settings { c_marg : bool; c_window : Z; c_reject : bool; c_thresh : R }.

(** calib_vi_t. [s_fixed]: the blocks whose [fixed] flag is set. [s_x]: the value of each parameter block.
    [s_fid]: the fiducial's member T_WF. [s_prior]: number and blocks of marg_residual. *)
Record vi := Vi {
  s_started : bool; s_init : bool; s_running : bool;
  s_cams : list Z; s_fixed : list pid;
  s_gbuf : gmap; s_imu : imu_data;
  s_next : nat; s_views : list view;
  s_prior : option (nat * list pid); s_nprior : nat;
  s_prob : problem; s_x : pid -> list R; s_fid : option mat4 }.

Section Vi.
(** Values of atan2(0,0) (EulerModel.v), gravity is fixed in the code. *)
Context (z1 z3 : R).
(** solvepnp on a camera's parameters and corners; random sampling (view, camera); ceres::Solve; the residual of a
    corner at given parameter values ([None]: the projection fails and the value is not written). *)
Context (pnp : list R -> list corner -> option mat4) (pick : nat -> Z -> list corner -> list corner)
        (slv : problem -> (pid -> list R) -> pid -> list R) (reproj : rid -> corner -> (pid -> list R) -> option (R * R)).
Context (cfg : settings).

Definition set_x (p : pid) (v : list R) (x : pid -> list R) : pid -> list R := fun p' => if pid_eq p p' then v else x p'.
(** Parameter vectors of poses: x, y, z, qx, qy, qz, qw. *)
Definition of_pose (p : pose) : list R :=
  [vx (p_r p); vy (p_r p); vz (p_r p); qx (p_q p); qy (p_q p); qz (p_q p); qw (p_q p)].
Definition to_pose (l : list R) : pose :=
  match l with [a; b; c; x; y; z; w] => P (V3 a b c) (Q w x y z) | _ => P vzero (Q 1 0 0 0) end.
(** pose_t::tf of the value of a block *)
Definition tf_at (x : pid -> list R) (p : pid) : mat4 := tf_pose (to_pose (x p)).
Definition of_mat (T : mat4) : list R := of_pose (tf_vec T).
Definition seg3 (k : nat) (l : list R) : vec3 := V3 (nth k l 0%R) (nth (k + 1) l 0%R) (nth (k + 2) l 0%R).
Definition of_vec (v : vec3) : list R := [vx v; vy v; vz v].

(** calib_vi_t::calib_vi_t, calib_vi.cpp 274-300 (before add_imu / add_camera) *)
Definition vi_empty : vi := Vi false false false [] [] [] imu_empty 0 [] None 0 q_new (fun _ => []) None.
(** add_imu, calib_vi.cpp 399-431 *)
Definition add_imu (T_BS : mat4) (td : R) (fix_ext fix_td : bool) (s : vi) : vi :=
  let q1 := q_add PImuExt (s_prob s) in
  let q2 := if fix_ext then q_fix PImuExt q1 else q1 in
  let q3 := q_add PDelay q2 in
  let q4 := if fix_td then q_fix PDelay q3 else q3 in
  Vi (s_started s) (s_init s) (s_running s) (s_cams s)
     (s_fixed s ++ (if fix_ext then [PImuExt] else []) ++ (if fix_td then [PDelay] else []))
     (s_gbuf s) (s_imu s) (s_next s) (s_views s) (s_prior s) (s_nprior s) q4
     (set_x PDelay [td] (set_x PImuExt (of_mat T_BS) (s_x s))) (s_fid s).
(** add_camera, calib_vi.cpp 433-478, for a camera model the code knows and a camera not added before *)
Definition add_camera (c : Z) (params : list R) (T_BC : mat4) (fix_params fix_ext : bool) (s : vi) : vi :=
  let q1 := if fix_params then q_fix (PCam c) (q_add (PCam c) (s_prob s)) else s_prob s in
  let q2 := q_add (PCamExt c) q1 in
  let q3 := if fix_ext then q_fix (PCamExt c) q2 else q2 in
  Vi (s_started s) (s_init s) (s_running s) (if existsb (Z.eqb c) (s_cams s) then s_cams s else s_cams s ++ [c])
     (s_fixed s ++ (if fix_params then [PCam c] else []) ++ (if fix_ext then [PCamExt c] else []))
     (s_gbuf s) (s_imu s) (s_next s) (s_views s) (s_prior s) (s_nprior s) q3
     (set_x (PCamExt c) (of_mat T_BC) (set_x (PCam c) params (s_x s))) (s_fid s).
(** the configuration file's T_WF, calib_vi.cpp 373-382 *)
Definition set_fiducial (T_WF : mat4) (s : vi) : vi :=
  let f := fid_new z1 z3 T_WF in
  Vi (s_started s) (s_init s) (s_running s) (s_cams s) (s_fixed s)
     (s_gbuf s) (s_imu s) (s_next s) (s_views s) (s_prior s) (s_nprior s) (q_add PFid (s_prob s))
     (set_x PFid [f_roll f; f_pitch f] (s_x s)) (Some T_WF).

Definition known (s : vi) (c : Z) : bool := existsb (Z.eqb c) (s_cams s).

(** calib_vi_view_t::calib_vi_view_t, calib_vi.cpp 7-82: the residuals of one grid (48-80) *)
Definition view_pts (n : nat) (c : Z) (g : vgrid) : list corner :=
  if c_marg cfg then pick n c (g_pts g) else g_pts g.
Definition corner_params (n : nat) (c : Z) : list pid := [PFid; PPose n; PImuExt; PCamExt c; PCam c].
Fixpoint add_corners (n : nat) (c : Z) (i : nat) (l : list corner) (q : problem) : list (rid * corner) * problem :=
  match l with
  | [] => ([], q)
  | p :: r => let (rs, q') := add_corners n c (S i) r (q_add_res (RCorner n c i) (corner_params n c) q) in
              ((RCorner n c i, p) :: rs, q')
  end.
(** 38-81: a camera without a residual gets no entry; a camera that was never added is a null pointer *)
Fixpoint add_grids (s : vi) (n : nat) (gs : gmap) (q : problem) : outcome (list (Z * list (rid * corner)) * problem) :=
  match gs with
  | [] => Ret ([], q)
  | (c, g) :: r =>
      match view_pts n c g with
      | [] => add_grids s n r q
      | pts => if known s c then
                 let (rs, q1) := add_corners n c 0 pts q in
                 obind (add_grids s n r q1) (fun x => Ret ((c, rs) :: fst x, snd x))
               else Undef
      end
  end.
Definition new_view (n : nat) (ts : Z) (gs : gmap) (T_WS : mat4) (sb : list R) (s : vi) : outcome vi :=
  let q0 := q_add (PSb n) (q_add (PPose n) (s_prob s)) in
  obind (add_grids s n gs q0) (fun x =>
  Ret (Vi (s_started s) (s_init s) (s_running s) (s_cams s) (s_fixed s) (s_gbuf s) (s_imu s)
     (S n) (s_views s ++ [View n ts (fst x) None]) (s_prior s) (s_nprior s) (snd x)
     (set_x (PSb n) sb (set_x (PPose n) (of_mat T_WS) (s_x s))) (s_fid s))).

(** aprilgrid_t::estimate, aprilgrid.cpp 255-277 *)
Definition estimate (s : vi) (c : Z) (g : vgrid) : option mat4 :=
  match g_pts g with [] => None | l => pnp (s_x s (PCam c)) l end.

(** get_fiducial_pose -> fiducial_t::estimate (calib_params.cpp 207-214): pose and new member T_WF; null pointer
    when there is no fiducial *)
Definition fid_of (s : vi) (T : mat4) : fiducial := Fid (nth 0 (s_x s PFid) 0%R) (nth 1 (s_x s PFid) 0%R) T.
Definition fiducial_pose (s : vi) : outcome (mat4 * mat4) :=
  match s_fid s with
  | None => Undef
  | Some T => let e := fid_estimate z1 z3 (fid_of s T) in Ret (snd e, f_T_WF (fst e))
  end.
Definition set_fid (T : mat4) (s : vi) : vi :=
  Vi (s_started s) (s_init s) (s_running s) (s_cams s) (s_fixed s) (s_gbuf s) (s_imu s)
     (s_next s) (s_views s) (s_prior s) (s_nprior s) (s_prob s) (s_x s) (Some T).

(** estimate_sensor_pose, calib_vi.cpp 607-650: the first detected grid decides *)
Definition first_detected (gs : gmap) : option (Z * vgrid) := find (fun x => g_det (snd x)) gs.
Definition sensor_pose (T_WF T_CF T_BC T_BS : mat4) : mat4 :=
  mmul4 (mmul4 T_WF (tf_inv T_CF)) (mmul4 (tf_inv T_BC) T_BS).
Definition estimate_sensor_pose (gs : gmap) (s : vi) : outcome (mat4 * mat4) :=
  match first_detected gs with
  | None => Throw Fatal
  | Some (c, g) =>
      if known s c then
        match estimate s c g with
        | None => Throw Fatal
        | Some T_CF => obind (fiducial_pose s) (fun f =>
            Ret (sensor_pose (fst f) T_CF (tf_at (s_x s) (PCamExt c)) (tf_at (s_x s) PImuExt), snd f))
        end
      else Throw OutOfRange
  end.

(** initial_attitude, core.hpp 1812-1837, for a buffer with at least one sample *)
Definition initial_attitude (b : imu_data) : mat3 :=
  vecs2rot (vscale (/ IZR (imu_size b)) (fold_right vadd vzero (i_acc b))) (V3 0 0 (981 / 100)).

(** initialize, calib_vi.cpp 652-741 *)
Definition initialize (gs : gmap) (s : vi) : outcome vi :=
  match gm_get 0 gs with
  | None => Throw OutOfRange
  | Some g =>
      if known s 0 then
        match estimate s 0 g with
        | None => Throw Fatal
        | Some T_C0F =>
            obind (match s_fid s with
                   | None =>
                       let C_WS := initial_attitude (s_imu s) in
                       let T_SC0 := mmul4 (tf_inv (tf_at (s_x s) PImuExt)) (tf_at (s_x s) (PCamExt 0)) in
                       let T_WF := mmul4 (mmul4 (tf C_WS vzero) T_SC0) T_C0F in
                       let T_WS := tf C_WS (vscale (-1) (tf_trans T_WF)) in
                       Ret (T_WS, set_fiducial (tf (tf_rot T_WF) vzero) s)
                   | Some _ => obind (fiducial_pose s) (fun f =>
                       Ret (mmul4 (mmul4 (fst f) (tf_inv T_C0F)) (tf_at (s_x s) PImuExt), set_fid (snd f) s))
                   end) (fun x =>
            obind (new_view (s_next s) (g_ts g) gs (fst x) (repeat 0%R 9) (snd x)) (fun s' =>
            Ret (Vi (s_started s') true (s_running s') (s_cams s') (s_fixed s') (s_gbuf s') (s_imu s')
               (s_next s') (s_views s') (s_prior s') (s_nprior s') (s_prob s') (s_x s') (s_fid s'))))
        end
      else Throw OutOfRange
  end.

(** form_imu_residual, calib_vi.cpp 192-234, on the last but one view *)
Definition imu_params_of (i j : nat) : list pid := [PPose i; PSb i; PPose j; PSb j; PDelay].
Fixpoint set_link (n : nat) (l : link) (vs : list view) : list view :=
  match vs with
  | [] => []
  | v :: r => if Nat.eqb (v_id v) n then View (v_id v) (v_ts v) (v_fid v) (Some l) :: r else v :: set_link n l r
  end.
Definition with_views (vs : list view) (q : problem) (s : vi) : vi :=
  Vi (s_started s) (s_init s) (s_running s) (s_cams s) (s_fixed s) (s_gbuf s) (s_imu s)
     (s_next s) vs (s_prior s) (s_nprior s) q (s_x s) (s_fid s).
Definition with_imu (b : imu_data) (s : vi) : vi :=
  Vi (s_started s) (s_init s) (s_running s) (s_cams s) (s_fixed s) (s_gbuf s) b
     (s_next s) (s_views s) (s_prior s) (s_nprior s) (s_prob s) (s_x s) (s_fid s).
Definition last_view (s : vi) : option view := match rev (s_views s) with [] => None | v :: _ => Some v end.

(** add_view, calib_vi.cpp 743-823. For two views with one stamp the velocity is a division by zero (not finite
    in C++, 0 here). *)
Definition add_view (gs : gmap) (s : vi) : outcome vi :=
  if negb (s_init s) then Ret s else
  match first_detected gs with
  | None => Ret s
  | Some (_, g) =>
      obind (estimate_sensor_pose gs s) (fun e =>
      let s0 := set_fid (snd e) s in
      match last_view s0 with
      | None => Undef
      | Some v =>
          let T_k := fst e in
          let dt := (IZR (g_ts g - v_ts v) * / 10 ^ 9)%R in
          let vel := vscale (/ dt) (vsub (tf_trans T_k) (tf_trans (tf_at (s_x s0) (PPose (v_id v))))) in
          let sb := s_x s0 (PSb (v_id v)) in
          let sb_k := of_vec vel ++ of_vec (seg3 3 sb) ++ of_vec (seg3 6 sb) in
          let n := s_next s0 in
          obind (new_view n (g_ts g) gs T_k sb_k s0) (fun s1 =>
          if imu_size (s_imu s1) <? 5 then Throw Fatal else
          let l := Link (s_imu s1) (v_id v) n (v_ts v) (g_ts g) in
          let s2 := with_views (set_link (v_id v) l (s_views s1))
                      (q_add_res (RImu (v_id v)) (imu_params_of (v_id v) n) (s_prob s1)) s1 in
          if c_marg cfg then obind (imu_trim (s_imu s2) (g_ts g)) (fun b => Ret (with_imu b s2)) else Ret s2)
      end)
  end.

(** ** Marginalisation *)
(** The blocks that marg_residual_t::form_hessian (calib_residuals.cpp 1837-1892) keeps: seen in the residuals handed
    over, not marked, of a known type, not fixed; grouped by type in the order pose, speed, fiducial, extrinsics,
    camera. A time delay is of no known type. *)
Definition kind (p : pid) : option nat :=
  match p with PPose _ => Some 0%nat | PSb _ => Some 1%nat | PFid => Some 2%nat
  | PImuExt => Some 3%nat | PCamExt _ => Some 3%nat | PCam _ => Some 4%nat | PDelay => None end.
Definition is_kind (k : nat) (p : pid) : bool := match kind p with Some j => Nat.eqb j k | None => false end.
Fixpoint dedup (seen : list pid) (l : list pid) : list pid :=
  match l with
  | [] => []
  | p :: r => if pid_in p seen then dedup seen r else p :: dedup (p :: seen) r
  end.
Definition remaining (fixed marked ps : list pid) : list pid :=
  let l := filter (fun p => negb (pid_in p marked) && negb (pid_in p fixed)) (dedup [] ps) in
  flat_map (fun k => filter (is_kind k) l) [0; 1; 2; 3; 4]%nat.
(** all the parameter blocks of the residuals a view hands over (calib_vi.cpp 243-248) *)
Definition handed_over (v : view) (l : link) : list pid :=
  imu_params_of (l_i l) (l_j l) ++ flat_map (fun x => flat_map (fun _ => corner_params (v_id v) (fst x)) (snd x)) (v_fid v).
(** calib_vi_t::marginalize, calib_vi.cpp 1065-1096, with calib_vi_view_t::marginalize (236-257) and
    marg_residual_t::marginalize(problem) (calib_residuals.cpp 2133-2158). A view without IMU residual: FATAL in
    marg_residual_t::add (1822-1828). *)
Definition marginalize (s : vi) : outcome vi :=
  match s_views s with
  | [] => Undef
  | v :: rest =>
      obind (match s_prior s with
             | None => Ret ([], s_prob s)
             | Some (k, ps) => obind (q_remove_res (RPrior k) (s_prob s)) (fun q => Ret (ps, q))
             end) (fun x =>
      match v_imu v with
      | None => Throw Fatal
      | Some l =>
          let ps := remaining (s_fixed s) [PPose (v_id v); PSb (v_id v)] (fst x ++ handed_over v l) in
          let q1 := q_drop (PSb (v_id v)) (q_drop (PPose (v_id v)) (snd x)) in
          let q2 := q_add_res (RPrior (s_nprior s)) ps q1 in
          Ret (Vi (s_started s) (s_init s) (s_running s) (s_cams s) (s_fixed s) (s_gbuf s) (s_imu s)
                 (s_next s) rest (Some (s_nprior s, ps)) (S (s_nprior s)) q2 (s_x s) (s_fid s))
      end)
  end.

(** ** Measurements *)
(** add_measurement(cam_idx, grid), calib_vi.cpp 875-885 *)
Definition add_grid (c : Z) (g : vgrid) (s : vi) : vi :=
  if s_started s then
    Vi (s_started s) (s_init s) (s_running s) (s_cams s) (s_fixed s) (gm_set c g (s_gbuf s)) (s_imu s)
      (s_next s) (s_views s) (s_prior s) (s_nprior s) (s_prob s) (s_x s) (s_fid s)
  else s.
Definition with_x (x : pid -> list R) (s : vi) : vi :=
  Vi (s_started s) (s_init s) (s_running s) (s_cams s) (s_fixed s) (s_gbuf s) (s_imu s)
     (s_next s) (s_views s) (s_prior s) (s_nprior s) (s_prob s) x (s_fid s).
Definition set_running (s : vi) : vi :=
  Vi (s_started s) (s_init s) true (s_cams s) (s_fixed s) (s_gbuf s) (s_imu s)
     (s_next s) (s_views s) (s_prior s) (s_nprior s) (s_prob s) (s_x s) (s_fid s).
(** [calib_views.size() > (size_t)window_size]: a negative window_size becomes huge *)
Definition over_window (s : vi) : bool :=
  (Z.of_nat (length (s_views s)) >? c_window cfg) && (0 <=? c_window cfg).
(** add_measurement(imu_ts, a_m, w_m), calib_vi.cpp 887-970 *)
Definition add_imu_sample (ts : Z) (a w : vec3) (s : vi) : outcome vi :=
  let s1 := Vi true (s_init s) (s_running s) (s_cams s) (s_fixed s) (s_gbuf s) (imu_add (s_imu s) ts a w)
     (s_next s) (s_views s) (s_prior s) (s_nprior s) (s_prob s) (s_x s) (s_fid s) in
  if negb (Nat.eqb (length (s_gbuf s1)) (length (s_cams s1))) then Ret s1 else
  let gs := s_gbuf s1 in
  let s2 := Vi (s_started s1) (s_init s1) (s_running s1) (s_cams s1) (s_fixed s1) [] (s_imu s1)
     (s_next s1) (s_views s1) (s_prior s1) (s_nprior s1) (s_prob s1) (s_x s1) (s_fid s1) in
  match negb (s_init s2) && (imu_size (s_imu s2) >? 2), first_detected gs with
  | true, Some _ => initialize gs s2
  | _, _ =>
      obind (add_view gs s2) (fun s3 =>
      if c_marg cfg && over_window s3
      then obind (marginalize (with_x (slv (s_prob s3) (s_x s3)) s3)) (fun s4 => Ret (set_running s4))
      else Ret s3)
  end.

(** ** solve *)
(** calib_vi_view_t::get_reproj_errors and filter_view, calib_vi.cpp 124-190. A projection that fails leaves the
    variables uninitialised (undefined behaviour). The norm of the residual is the reprojection error
    (fiducial_residual_t::get_reproj_error). *)
Definition all_errors (x : pid -> list R) (v : view) : option (list R) :=
  fold_right (fun rc acc => match acc, reproj (fst rc) (snd rc) x with
                            | Some l, Some e => Some (sqrt (fst e * fst e + snd e * snd e)%R :: l)
                            | _, _ => None end) (Some []) (flat_map snd (v_fid v)).
Definition is_outlier (x : pid -> list R) (th : R) (rc : rid * corner) : bool :=
  match reproj (fst rc) (snd rc) x with
  | Some e => if Rlt_dec th (fst e) then true else if Rlt_dec th (snd e) then true else false
  | None => false
  end.
Fixpoint q_remove_all (rs : list rid) (q : problem) : outcome problem :=
  match rs with [] => Ret q | r :: t => obind (q_remove_res r q) (q_remove_all t) end.
(** one view; [None] for the standard deviation: NaN, every comparison is false *)
Definition filter_view (x : pid -> list R) (v : view) (q : problem) : outcome (view * problem) :=
  match all_errors x v with
  | None => Undef
  | Some es =>
      match stddev es with
      | None => Ret (v, q)
      | Some sd =>
          let out := is_outlier x (c_thresh cfg * sd)%R in
          let bad := flat_map (fun cl => map fst (filter out (snd cl))) (v_fid v) in
          obind (q_remove_all bad q) (fun q' =>
          Ret (View (v_id v) (v_ts v) (map (fun cl => (fst cl, filter (fun rc => negb (out rc)) (snd cl))) (v_fid v)) (v_imu v), q'))
      end
  end.
Fixpoint filter_views (x : pid -> list R) (vs : list view) (q : problem) : outcome (list view * problem) :=
  match vs with
  | [] => Ret ([], q)
  | v :: r => obind (filter_view x v q) (fun a => obind (filter_views x r (snd a)) (fun b => Ret (fst a :: fst b, snd b)))
  end.
(** solve, calib_vi.cpp 1424-1478 *)
Definition solve (s : vi) : outcome vi :=
  let q1 := q_fix PDelay (s_prob s) in
  let x1 := slv q1 (s_x s) in
  let q2 := q_free PDelay q1 in
  let x2 := slv q2 x1 in
  if c_reject cfg
  then obind (filter_views x2 (s_views s) q2) (fun r => Ret (with_x (slv (snd r) x2) (with_views (fst r) (snd r) s)))
  else Ret (with_x x2 (with_views (s_views s) q2 s)).

(** reset, calib_vi.cpp 1098-1111, with the destructors of the views (84-92) *)
Definition reset (s : vi) : vi :=
  Vi false false (s_running s) (s_cams s) (s_fixed s) [] imu_empty (s_next s) []
     (s_prior s) (s_nprior s)
     (fold_left (fun q v => q_drop (PSb (v_id v)) (q_drop (PPose (v_id v)) q)) (s_views s) (s_prob s)) (s_x s) (s_fid s).

(** ** Configuration *)
(** what a caller (or the constructor that reads a file, calib_vi.cpp 302-397) may do before the measurements *)
Inductive setup := SImu (T_BS : mat4) (td : R) (fix_ext fix_td : bool)
                 | SCam (c : Z) (params : list R) (T_BC : mat4) (fix_params fix_ext : bool)
                 | SFid (T_WF : mat4).
Definition sstep (s : vi) (o : setup) : vi :=
  match o with
  | SImu T td fe ft => add_imu T td fe ft s
  | SCam c ps T fp fe => add_camera c ps T fp fe s
  | SFid T => set_fiducial T s
  end.
Definition configure (os : list setup) : vi := fold_left sstep os vi_empty.

(** ** Histories *)
Inductive event := EGrid (c : Z) (g : vgrid) | EImu (ts : Z) (a w : vec3) | ESolve | EReset.
Definition vstep (e : event) (s : vi) : outcome vi :=
  match e with
  | EGrid c g => Ret (add_grid c g s)
  | EImu ts a w => add_imu_sample ts a w s
  | ESolve => solve s
  | EReset => Ret (reset s)
  end.
Fixpoint vrun (h : list event) (s : vi) : outcome vi :=
  match h with [] => Ret s | e :: r => obind (vstep e s) (vrun r) end.
End Vi.
