(** * Which frames the next-best-view calibration looks at, and in which order
    (calib_camera_t::_calculate_motion, yac/lib/calib_camera.cpp 1434-1487, and the first part of _solve_nbv, 1766-1797) *)
From Coq Require Import List ZArith Reals.
From Verif Require Import Base GeomModel.
Import ListNotations.
Local Open Scope Z_scope.

(** a grid of calib_data[ts]: camera, nb_detections, detected, and what grid.estimate gives for it with the camera's parameters
    ([None]: it fails) *)
Record seen := mkSeen { sn_cam : Z; sn_nb : Z; sn_detected : bool; sn_T : option mat4 }.
(** calib_data: the frames in increasing order of time *)
Notation frame := (Z * list seen)%type.
Section Motion.
(** cam_params / cam_geoms and cam_exts *)
Context (camera : Z -> bool) (ext : Z -> option mat4).

(** lines 1441-1457: the first camera whose grid can be estimated; a camera without parameters is a null pointer *)
Fixpoint frame_pose (l : list seen) : outcome (option mat4) :=
  match l with
  | [] => Ret None
  | s :: t =>
      if camera (sn_cam s) then
        match sn_T s with
        | None => frame_pose t
        | Some T => match ext (sn_cam s) with None => Throw StdExn | Some E => Ret (Some (mmul4 E T)) end
        end
      else Undef
  end.
(** lines 1459-1464 *)
Definition frame_tags (l : list seen) : Z := fold_left (fun n s => n + sn_nb s) l 0.
(** lines 1440-1465: timestamps (with poses[ts], calib_data has one frame per time) and tags_detected *)
Fixpoint collect (fs : list frame) : outcome (list (Z * mat4) * list Z) :=
  match fs with
  | [] => Ret ([], [])
  | (ts, l) :: t =>
      obind (frame_pose l) (fun p =>
      obind (collect t) (fun r =>
      Ret (match p with Some T => (ts, T) :: fst r | None => fst r end, frame_tags l :: snd r)))
  end.
(** lines 1473-1482 *)
Definition motion_v (T0 T1 : mat4) : R :=
  let d := vsub (tf_trans T1) (tf_trans T0) in sqrt (vx d * vx d + vy d * vy d + vz d * vz d)%R.
Definition motion_w (T0 T1 : mat4) : R :=
  let dC := mmul (tf_rot T1) (mtr (tf_rot T0)) in acos ((m00 dC + m11 dC + m22 dC - 1) / 2)%R.
(** std::tuple<int, double, double> and its order *)
Definition key : Type := Z * R * R.
Inductive cmp3 := CLt | CEq | CGt.
Definition cmp_z (a b : Z) : cmp3 := match a ?= b with Lt => CLt | Eq => CEq | Gt => CGt end.
Definition cmp_r (a b : R) : cmp3 := if Rlt_dec a b then CLt else if Rlt_dec b a then CGt else CEq.
Definition cmp_then (c d : cmp3) : cmp3 := match c with CEq => d | _ => c end.
Definition key_cmp (a b : key) : cmp3 :=
  let '(n, w, v) := a in let '(n', w', v') := b in cmp_then (cmp_z n n') (cmp_then (cmp_r w w') (cmp_r v v')).
(** data[key] = ts: a std::map *)
Fixpoint put (k : key) (ts : Z) (m : list (key * Z)) : list (key * Z) :=
  match m with
  | [] => [(k, ts)]
  | (k', t') :: r =>
      match key_cmp k k' with
      | CLt => (k, ts) :: m
      | CEq => (k', ts) :: r
      | CGt => (k', t') :: put k ts r
      end
  end.
(** one turn of the loop 1469-1484: vectors are indexed unchecked *)
Definition motion_step (sts : list (Z * mat4)) (tags : list Z) (k : nat) (m : list (key * Z)) : outcome (list (key * Z)) :=
  match nth_error tags k, nth_error sts (k - 1), nth_error sts k with
  | Some n, Some (_, T0), Some (ts, T1) => Ret (put (- n, motion_w T0 T1, motion_v T0 T1) ts m)
  | _, _, _ => Undef
  end.
Fixpoint motion_loop (sts : list (Z * mat4)) (tags : list Z) (ks : list nat) (m : list (key * Z)) : outcome (list (key * Z)) :=
  match ks with
  | [] => Ret m
  | k :: t => obind (motion_step sts tags k m) (motion_loop sts tags t)
  end.
(** _calculate_motion: size() - 1 is unsigned, without any timestamp the loop runs off the vectors *)
Definition calculate_motion (fs : list frame) : outcome (list (key * Z)) :=
  obind (collect fs) (fun r =>
  let '(sts, tags) := r in
  match sts with
  | [] => Undef
  | _ => motion_loop sts tags (seq 1 (length sts - 2)) []
  end).
(** _solve_nbv, lines 1781-1792 *)
Fixpoint detected_at (fs : list frame) (ts : Z) : bool :=
  match fs with
  | [] => false
  | (t, l) :: r => if t =? ts then existsb sn_detected l else detected_at r ts
  end.
Definition nbv_stamps (fs : list frame) : outcome (list Z) :=
  obind (calculate_motion fs) (fun m =>
  match filter (detected_at fs) (map snd m) with
  | [] => Throw Fatal
  | l => Ret l
  end).
End Motion.
