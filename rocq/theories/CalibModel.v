(** * Camera calibrator: calibration views and their bookkeeping
    (yac/lib/calib_camera.cpp 159-206, 217-223, 292-345, 968-1132, 1509-1580).

    Objects (residuals, poses, parameter blocks) have an identity in Z that is never reused
    (an address freed and allocated again counts as a new object; the solver forgets every
    mention of a removed object, C20).  Values of parameter blocks are of an arbitrary type
    [V].  std::map<int, T> members accessed with operator[] only are total functions
    (missing = default value). *)
From Coq Require Import Reals.
From Verif Require Import Base.
From stdpp Require Import gmap sets list.
From Verif Require Import AprilGridModel AprilGridIOModel SolverModel.
Local Open Scope Z_scope.

(** reproj_residual_t: the object, and the tag_id / corner_idx of its p_FFi *)
Record vres := mkVres { vr_id : Z; vr_tag : Z; vr_corner : Z }.
(** calib_view_t, calib_camera.hpp 47-61: ts, grids, res_fns, T_C0F *)
Record cview := mkCview { v_ts : Z; v_grids : Z -> grid; v_res : Z -> list vres; v_pose : Z }.

Section View.
(** param_blocks of a residual object (see SolverModel) *)
Context (blocks : Z -> list Z).
(** cameras that have parameters / extrinsics: keys of cam_params, cam_exts (ascending) *)
Context (cams exts : list Z).
(** fiducial_corners_t of the calibration target *)
Context (corners : list (Z * list (Z * pt3))).

(** grids_[cam_idx] *)
Definition grid_of (gs : list (Z * grid)) (cam : Z) : grid := default default_grid (assoc cam gs).

(** the residuals for one grid, calib_camera.cpp 179-204: get_corner throws for a corner the
    target does not have; [cam_exts_->at] throws for a camera without extrinsics.  [alloc]
    chooses the identities of the new objects. *)
Fixpoint mk_residuals (alloc : Z -> Z -> Z -> Z) (cam : Z) (tcs : list (Z * Z)) (s : csolver)
  : outcome (list vres * csolver) :=
  match tcs with
  | [] => Ret ([], s)
  | (t, c) :: rest =>
      obind (get_corner corners t c) (fun _ =>
      if existsb (Z.eqb cam) exts then
        let id := alloc cam t c in
        obind (c_add_residual blocks s id) (fun s' =>
        obind (mk_residuals alloc cam rest s') (fun x =>
        Ret (mkVres id t c :: fst x, snd x)))
      else Throw OutOfRange)
  end.
(** the loop over grids_, calib_camera.cpp 171-205 *)
Fixpoint view_residuals (alloc : Z -> Z -> Z -> Z) (gs : list (Z * grid)) (f : Z -> list vres) (s : csolver)
  : outcome ((Z -> list vres) * csolver) :=
  match gs with
  | [] => Ret (f, s)
  | (cam, g) :: rest =>
      if negb (existsb (Z.eqb cam) cams) then view_residuals alloc rest f s
      else if negb (g_detected g) then view_residuals alloc rest f s
      else obind (get_measurements g meas_nil) (fun m =>
           obind (mk_residuals alloc cam (combine (m_tags m) (m_corners m)) s) (fun x =>
           view_residuals alloc rest
             (fun c => if c =? cam then f c ++ fst x else f c) (snd x)))
  end.
(** constructor, calib_camera.cpp 159-206 *)
Definition view_ctor (alloc : Z -> Z -> Z -> Z) (ts : Z) (gs : list (Z * grid)) (pose : Z) (s : csolver)
  : outcome (cview * csolver) :=
  obind (view_residuals alloc gs (fun _ => []) s) (fun x =>
  Ret (mkCview ts (grid_of gs) (fst x) pose, snd x)).

(** ** filter_view(threshold), calib_camera.cpp 292-335.
    [err id]: what get_residual of that residual object returns with the current parameter
    values ([None]: a non-zero return code).  (Finite reals; a NaN residual compares false
    and is kept like an unprojectable one.) *)
Section Filter.
Context (err : Z -> option (R * R)).
Definition rgt (a b : R) : bool := if Rlt_dec b a then true else false.
Definition outlier (thx thy : R) (r : vres) : bool :=
  match err (vr_id r) with
  | None => false
  | Some (x, y) => rgt x thx || rgt y thy
  end.
Fixpoint filter_loop (thx thy : R) (l : list vres) (g : grid) (s : csolver)
  : outcome (list vres * grid * csolver * Z) :=
  match l with
  | [] => Ret ([], g, s, 0)
  | r :: rest =>
      if outlier thx thy r then
        match remove g (vr_tag r) (vr_corner r) with
        | (Done, g') =>
            obind (has g' (vr_tag r) (vr_corner r)) (fun h =>
            if h then Throw Fatal
            else if g_nb g =? g_nb g' then Throw Fatal
            else obind (c_remove_residual blocks s (vr_id r)) (fun s' =>
                 obind (filter_loop thx thy rest g' s') (fun x =>
                 let '(l', g'', s'', n) := x in Ret (l', g'', s'', n + 1))))
        | (Thrown, _) => Throw Fatal
        | (UB, _) => Undef
        end
      else
        obind (filter_loop thx thy rest g s) (fun x =>
        let '(l', g'', s'', n) := x in Ret (r :: l', g'', s'', n))
  end.
Definition fset {A} (f : Z -> A) (k : Z) (a : A) : Z -> A := fun x => if x =? k then a else f x.
Fixpoint filter_cams (thx thy : R) (cs : list Z) (v : cview) (s : csolver) : outcome (cview * csolver * Z) :=
  match cs with
  | [] => Ret (v, s, 0)
  | c :: rest =>
      obind (filter_loop thx thy (v_res v c) (v_grids v c) s) (fun x =>
      let '(l', g', s', n) := x in
      obind (filter_cams thx thy rest
               (mkCview (v_ts v) (fset (v_grids v) c g') (fset (v_res v) c l') (v_pose v)) s') (fun y =>
      let '(v'', s'', n') := y in Ret (v'', s'', n + n')))
  end.
Definition filter_view (th : R * R) (v : cview) (s : csolver) : outcome (cview * csolver * Z) :=
  filter_cams (fst th) (snd th) cams v s.
(** filter_view(thresholds), calib_camera.cpp 337-345 *)
Fixpoint filter_view_map (ths : list (Z * (R * R))) (v : cview) (s : csolver) : outcome (cview * csolver * Z) :=
  match ths with
  | [] => Ret (v, s, 0)
  | (_, th) :: rest =>
      obind (filter_view th v s) (fun x =>
      let '(v', s', n) := x in
      obind (filter_view_map rest v' s') (fun y =>
      let '(v'', s'', n') := y in Ret (v'', s'', n + n')))
  end.
End Filter.
End View.

(** ** calib_camera_t *)
(** a double that is not NaN *)
Inductive xreal := XF (r : R) | XPinf | XMinf.
Section Calib.
Context (blocks : Z -> list Z) (corners : list (Z * list (Z * pt3))).
Context {V : Type}.
(** calib_camera.hpp 125-200 (the members used by the functions below); poses map a timestamp
    to a pose object and its value.  Timestamps are Z. *)
Record calib := mkCalib {
  k_cams : gmap Z V;                 (* cam_params: camera index -> value *)
  k_exts : gmap Z V;                 (* cam_exts *)
  k_data : gset Z;                   (* keys of calib_data *)
  k_poses : gmap Z (Z * V);          (* poses *)
  k_views : gmap Z cview;            (* calib_views *)
  k_vts : list Z;                    (* calib_view_timestamps *)
  k_solver : csolver;
  k_info : xreal }.                  (* info_k *)
Definition keys (m : gmap Z V) : list Z := (map_to_list m).*1.

(** what one add_view call obtains from its environment: the identity of a new pose object, of
    new residual objects, and the result of the pose estimation in add_pose (PnP, external; an
    exception when it fails) *)
Record env := mkEnv { e_pose : Z; e_alloc : Z -> Z -> Z -> Z; e_estimate : calib -> list (Z * grid) -> outcome V }.

Definition set_solver (k : calib) (s : csolver) : calib :=
  mkCalib (k_cams k) (k_exts k) (k_data k) (k_poses k) (k_views k) (k_vts k) s (k_info k).
(** add_pose, calib_camera.cpp 968-1005 *)
Definition add_pose (e : env) (k : calib) (ts : Z) (gs : list (Z * grid)) : outcome calib :=
  match k_poses k !! ts with
  | Some _ => Throw Fatal
  | None =>
      obind (e_estimate e k gs) (fun T =>
      Ret (mkCalib (k_cams k) (k_exts k) (k_data k) (<[ts := (e_pose e, T)]> (k_poses k))
                   (k_views k) (k_vts k) (c_add_param (k_solver k) (e_pose e)) (k_info k)))
  end.
(** the first detected grid, calib_camera.cpp 1008-1020 *)
Fixpoint first_detected (gs : list (Z * grid)) : option Z :=
  match gs with
  | [] => None
  | (_, g) :: t => if g_detected g then Some (g_ts g) else first_detected t
  end.
(** solver_t::has_param, solver.cpp 78-80 *)
Definition has_param (s : csolver) (p : Z) : bool := bool_decide (p ∈ s_params (c_base s)).
(** add_view, calib_camera.cpp 1007-1052 *)
Definition add_view (e : env) (k : calib) (gs : list (Z * grid)) : outcome (bool * calib) :=
  match first_detected gs with
  | None => Ret (false, k)
  | Some ts =>
      let k1 := mkCalib (k_cams k) (k_exts k) ({[ts]} ∪ k_data k) (k_poses k)
                        (k_views k) (k_vts k) (k_solver k) (k_info k) in
      obind (match k_poses k1 !! ts with Some _ => Ret k1 | None => add_pose e k1 ts gs end) (fun k2 =>
      match k_poses k2 !! ts with
      | None => Undef
      | Some (p, _) =>
          let s := if has_param (k_solver k2) p then k_solver k2 else c_add_param (k_solver k2) p in
          obind (view_ctor blocks (keys (k_cams k2)) (keys (k_exts k2)) corners (e_alloc e) ts gs p s) (fun x =>
          Ret (true, mkCalib (k_cams k2) (k_exts k2) (k_data k2) (k_poses k2)
                             (<[ts := fst x]> (k_views k2)) (k_vts k2 ++ [ts]) (snd x) (k_info k2)))
      end)
  end.
(** calib_view_timestamps.erase(std::find(...)): erase(end()) is UB *)
Fixpoint erase_first (ts : Z) (l : list Z) : outcome (list Z) :=
  match l with
  | [] => Undef
  | x :: t => if x =? ts then Ret t else Base.omap (cons x) (erase_first ts t)
  end.
(** remove_view, calib_camera.cpp 1091-1112 *)
Definition remove_view (k : calib) (ts : Z) : outcome calib :=
  obind (match k_poses k !! ts with
         | None => Ret k
         | Some (p, _) =>
             obind (if has_param (k_solver k) p then c_remove_param blocks (k_solver k) p else Ret (k_solver k)) (fun s =>
             Ret (mkCalib (k_cams k) (k_exts k) (k_data k) (delete ts (k_poses k))
                          (k_views k) (k_vts k) s (k_info k)))
         end) (fun k1 =>
  match k_views k1 !! ts with
  | None => Ret k1
  | Some _ =>
      obind (erase_first ts (k_vts k1)) (fun l =>
      Ret (mkCalib (k_cams k1) (k_exts k1) (k_data k1) (k_poses k1)
                   (delete ts (k_views k1)) l (k_solver k1) (k_info k1)))
  end).
Fixpoint remove_views (l : list Z) (k : calib) : outcome calib :=
  match l with
  | [] => Ret k
  | ts :: t => obind (remove_view k ts) (remove_views t)
  end.
(** remove_all_views, calib_camera.cpp 1114-1132 *)
Definition remove_all_views (k : calib) : outcome calib :=
  obind (remove_views ((map_to_list (k_views k)).*1) k) (fun k' =>
  if decide (k_views k' = ∅) then
    if decide (s_res (c_base (k_solver k')) = ∅) then Ret k' else Throw Fatal
  else Throw Fatal).

(** ** add_nbv_view *)
(** new values of all parameters after solver->solve(30): arbitrary *)
Record values := mkValues { n_cam : Z -> V; n_ext : Z -> V; n_pose : Z -> V }.
Definition solved (n : values) (k : calib) : calib :=
  mkCalib (map_imap (fun i _ => Some (n_cam n i)) (k_cams k))
          (map_imap (fun i _ => Some (n_ext n i)) (k_exts k)) (k_data k)
          (map_imap (fun ts av => Some (fst av, n_pose n ts)) (k_poses k))
          (k_views k) (k_vts k) (k_solver k) (k_info k).
(** _cache_estimates, calib_camera.cpp 1509-1521: poses_tmp, cam_params_tmp, cam_exts_tmp;
    cam_exts[cam_idx] of a camera without extrinsics is a null pointer (UB) *)
Record cache := mkCache { ch_pose : gmap Z V; ch_cam : gmap Z V; ch_ext : gmap Z V }.
Definition cache_estimates (k : calib) : outcome cache :=
  if forallb (fun c => bool_decide (is_Some (k_exts k !! c))) (keys (k_cams k)) then
    Ret (mkCache (snd <$> k_poses k) (k_cams k) (filter (fun ce => ce.1 ∈ keys (k_cams k)) (k_exts k)))
  else Undef.
(** _restore_estimates, calib_camera.cpp 1523-1547 *)
Definition restore_estimates (h : cache) (k : calib) : calib :=
  mkCalib (map_imap (fun c v => Some (default v (ch_cam h !! c))) (k_cams k))
          (map_imap (fun c v => Some (if bool_decide (c ∈ keys (k_cams k)) then default v (ch_ext h !! c) else v)) (k_exts k))
          (k_data k)
          (map_imap (fun ts av => Some (fst av, default (snd av) (ch_pose h !! ts))) (k_poses k))
          (k_views k) (k_vts k) (k_solver k) (k_info k).
(** [0.5 * (a - b) < t] on doubles that are not NaN: inf - inf is NaN and compares false *)
Definition gain_below (a b : xreal) (t : R) : bool :=
  match a, b with
  | XF x, XF y => if Rlt_dec (1 / 2 * (x - y)) t then true else false
  | XF _, XPinf => true
  | XMinf, XF _ | XMinf, XPinf => true
  | _, _ => false
  end.
(** add_nbv_view, calib_camera.cpp 1054-1089: [n] the values after solve, [info] what
    _calc_info delivers ([None]: it fails, which includes a NaN result, 1571) *)
Definition add_nbv_view (e : env) (thr : R) (n : values) (info : option xreal) (k : calib)
           (gs : list (Z * grid)) : outcome (bool * calib) :=
  obind (add_view e k gs) (fun r =>
  if fst r then
    let k1 := snd r in
    obind (cache_estimates k1) (fun h =>
    let k2 := solved n k1 in
    match last (k_vts k2) with
    | None => Undef
    | Some ts =>
        match info with
        | None => obind (remove_view (restore_estimates h k2) ts) (fun k3 => Ret (false, k3))
        | Some i =>
            if gain_below (k_info k2) i thr
            then obind (remove_view (restore_estimates h k2) ts) (fun k3 => Ret (false, k3))
            else Ret (true, mkCalib (k_cams k2) (k_exts k2) (k_data k2) (k_poses k2)
                                    (k_views k2) (k_vts k2) (k_solver k2) i)
        end
    end)
  else Ret (false, snd r)).
End Calib.
Arguments calib V : clear implicits.
Arguments env V : clear implicits.
Arguments values V : clear implicits.
