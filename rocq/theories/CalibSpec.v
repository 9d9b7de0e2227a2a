(** * Specification vocabulary for the camera calibrator (histories of calls). *)
From Coq Require Import Reals.
From Verif Require Import Base.
From stdpp Require Import gmap sets list.
From Verif Require Import AprilGridModel AprilGridSpec AprilGridIOModel SolverModel CalibModel.
Local Open Scope Z_scope.

Section Spec.
Context (blocks : Z -> list Z) (rows cols : Z) (size sp : R) {V : Type}.
(** the parameter objects of a camera: extrinsics and intrinsics *)
Context (ext_addr cam_addr : Z -> Z).
Notation corners := (fiducial_corners rows cols size sp).

(** the environment hands out new objects; a new residual's parameter blocks are the
    extrinsics, the pose and the camera parameters (calib_residuals.cpp 368-370) *)
Record fresh_env (e : env V) (k : calib V) : Prop := mkFresh {
  fr_pose : e_pose e ∉ c_pparams (k_solver k);
  fr_inj : forall c t i c' t' i', e_alloc e c t i = e_alloc e c' t' i' -> c = c' /\ t = t' /\ i = i';
  fr_new : forall c t i, e_alloc e c t i ∉ s_res (c_base (k_solver k));
  fr_blocks : forall c t i, blocks (e_alloc e c t i) = [ext_addr c; e_pose e; cam_addr c] /\
                            base.NoDup (blocks (e_alloc e c t i)) }.
(** the grids passed to one call: at most one per camera, each the outcome of some history of
    calls on a grid of the target's dimensions *)
Definition recorded (hs : list (Z * (Z * list op))) (gs : list (Z * grid)) : Prop :=
  base.NoDup (map fst hs) /\
  Forall2 (fun h cg => fst cg = fst h /\ Forall (op_in rows cols) (snd (snd h)) /\
     run (new_grid (fst (snd h)) rows cols size sp) (snd (snd h)) = (Done, snd cg)) hs gs.
(** what the grid of a camera contains *)
Definition content_of (hs : list (Z * (Z * list op))) (cam : Z) : content :=
  match assoc cam hs with Some (_, ops) => spec_run ops nothing | None => nothing end.
(** a calibrator before its first view: the cameras' parameters [base] are registered *)
Definition initial (base : gset Z) (k : calib V) : Prop :=
  k_poses k = ∅ /\ k_views k = ∅ /\ k_vts k = [] /\
  (exists ps, crun blocks (map AddParam ps) = Ret (k_solver k) /\ base = list_to_set ps) /\
  forall c, is_Some (k_cams k !! c) -> is_Some (k_exts k !! c) /\ ext_addr c ∈ base /\ cam_addr c ∈ base.
(** the timestamp of the first detected grid has no view yet *)
Definition new_ts (k : calib V) (gs : list (Z * grid)) : Prop :=
  forall ts, first_detected gs = Some ts -> k_views k !! ts = None.

(** calls, in any order; [solved] stands for any number of solver->solve() calls *)
Inductive reach (base : gset Z) : calib V -> Prop :=
| R_init k : initial base k -> reach base k
| R_add k e hs gs b k' : reach base k -> fresh_env e k -> recorded hs gs -> new_ts k gs ->
    add_view blocks corners e k gs = Ret (b, k') -> reach base k'
| R_nbv k e thr n info hs gs b k' : reach base k -> fresh_env e k -> recorded hs gs -> new_ts k gs ->
    add_nbv_view blocks corners e thr n info k gs = Ret (b, k') -> reach base k'
| R_remove k ts k' : reach base k -> remove_view blocks k ts = Ret k' -> reach base k'
| R_remove_all k k' : reach base k -> remove_all_views blocks k = Ret k' -> reach base k'
| R_filter k err th ts v v' s' n : reach base k -> k_views k !! ts = Some v ->
    filter_view blocks (keys (k_cams k)) err th v (k_solver k) = Ret (v', s', n) ->
    reach base (mkCalib (k_cams k) (k_exts k) (k_data k) (k_poses k) (<[ts := v']> (k_views k)) (k_vts k) s' (k_info k))
| R_solve k n : reach base k -> reach base (solved n k).

(** the residual objects a view holds *)
Definition holds (v : cview) (r : Z) : Prop := exists cam x, In x (v_res v cam) /\ vr_id x = r.
End Spec.
