(** * Initialisation phase of the camera calibrator
    (yac/lib/calib_camera.cpp 444-543, 1321-1432). *)
From Verif Require Import Base.
From stdpp Require Import gmap.
Local Open Scope Z_scope.

Section Init.
Context {V : Type}.
(** param_t (calib_params.hpp): the fixed flag and the value *)
Record param := mkParam { p_fixed : bool; p_val : V }.
(** cam_params and cam_exts (std::map keyed by camera index; a missing extrinsics entry read
    through operator[] is a null pointer) *)
Record rig := mkRig { r_cams : gmap Z param; r_exts : gmap Z param }.

(** new values proposed by the optimiser for cameras / extrinsics *)
Record proposal := mkProp { q_cam : Z -> V; q_ext : Z -> V }.
(** calib_initialize 444-543: registers all camera parameters and extrinsics, builds views and
    calls solver->solve: values of the parameters that are not fixed change arbitrarily, fixed
    ones are held constant (ceres_solver_t::add_param / yac_solver, see C22-C25).  [None]: FATAL
    while estimating a pose (510). *)
Definition free (q : V) (p : param) : param := if p_fixed p then p else mkParam false q.
Definition calib_initialize (q : option proposal) (r : rig) : outcome rig :=
  match q with
  | None => Throw Fatal
  | Some q => Ret (mkRig (map_imap (fun i p => Some (free (q_cam q i) p)) (r_cams r))
                         (map_imap (fun i p => Some (free (q_ext q i) p)) (r_exts r)))
  end.
Definition set_fixed (b : bool) (i : Z) (r : rig) : outcome rig :=
  match r_exts r !! i with
  | None => Undef
  | Some p => Ret (mkRig (r_cams r) (<[i := mkParam b (p_val p)]> (r_exts r)))
  end.
(** the loop body of _initialize_intrinsics, 1336-1370 *)
Definition init_camera (qs : Z -> option proposal) (i : Z) (r : rig) : outcome rig :=
  obind (set_fixed true i r) (fun r =>
  obind (calib_initialize (qs i) r) (fun r =>
  if i =? 0 then Ret r else set_fixed false i r)).
Fixpoint fold_o (f : Z -> rig -> outcome rig) (l : list Z) (r : rig) : outcome rig :=
  match l with
  | [] => Ret r
  | i :: t => obind (f i r) (fold_o f t)
  end.
(** get_camera_indices: the keys of cam_params *)
Definition cam_indices (r : rig) : list Z := (map_to_list (r_cams r)).*1.
Definition initialize_intrinsics (qs : Z -> option proposal) (r : rig) : outcome rig :=
  fold_o (init_camera qs) (cam_indices r) r.
(** set_tf on cam_exts[i]; [tf i]: the value camchain.find(0, i) leads to, [None]: no data or
    not found (FATAL, 1386, 1391) *)
Definition set_ext (tf : Z -> option V) (i : Z) (r : rig) : outcome rig :=
  match tf i with
  | None => Throw Fatal
  | Some v => match r_exts r !! i with
              | None => Undef
              | Some p => Ret (mkRig (r_cams r) (<[i := mkParam (p_fixed p) v]> (r_exts r)))
              end
  end.
(** _initialize_extrinsics, 1373-1432 *)
Definition initialize_extrinsics (tf : Z -> option V) (q : option proposal) (r : rig) : outcome rig :=
  if Nat.eqb (size (r_cams r)) 1 then Ret r
  else obind (fold_o (set_ext tf) (cam_indices r) r) (calib_initialize q).
Definition initialize (qs : Z -> option proposal) (tf : Z -> option V) (q : option proposal) (r : rig) : outcome rig :=
  obind (initialize_intrinsics qs r) (initialize_extrinsics tf q).
End Init.
Arguments param V : clear implicits.
Arguments rig V : clear implicits.
Arguments proposal V : clear implicits.
