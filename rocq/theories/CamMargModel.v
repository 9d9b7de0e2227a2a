(** * Marginalisation in the camera calibrator (yac/lib/calib_camera.cpp 347-376, 1134-1160) *)
From Coq Require Import Reals.
From Verif Require Import Base.
From stdpp Require Import gmap sets list sorting.
From Verif Require Import AprilGridModel AprilGridIOModel SolverModel CalibModel SolverLsqModel MargHessModel.
Local Open Scope Z_scope.

Section CamMarg.
Context (blocks : Z -> list Z) (info : Z -> pinfo).
Context {V : Type}.
(** the calibrator and its marg_residual (the object, if there is one) *)
Record mcalib := mkM { m_k : calib V; m_prior : option Z }.

(** calib_views.begin()->first, calib_camera.cpp 1136: begin() of an empty map is end() *)
Definition oldest (k : calib V) : option Z := head (merge_sort Z.le (map_to_list (k_views k)).*1).
(** the residuals the new marg_residual_t gets: the previous one first (1148), then those of the view (351-356; the order of
    the cameras does not matter for what follows) *)
Definition handed (prior : option Z) (cams : list Z) (v : cview) : list Z :=
  match prior with Some m => [m] | None => [] end ++ map vr_id (flat_map (v_res v) cams).
Fixpoint c_remove_params (l : list Z) (s : csolver) : outcome csolver :=
  match l with
  | [] => Ret s
  | p :: t => obind (c_remove_param blocks s p) (c_remove_params t)
  end.
(** calib_view_t::marginalize, calib_camera.cpp 347-376; the pose is the only parameter with the marginalize flag. Nothing to
    marginalise or nothing that remains: eigenvalues of an empty matrix (calib_residuals.cpp 2004, 2019, 2082; assert is
    compiled out), undefined. [new]: the new marg_residual_t; its param_blocks are the remaining parameters
    (calib_residuals.cpp 1886-1903), see [prior_env]. *)
Definition view_marginalize (new : Z) (rs : list Z) (v : cview) (s : csolver) : outcome csolver :=
  let blks := map blocks rs in
  let marg := Z.eqb (v_pose v) in
  if (0 <? marg_m info marg blks) && (0 <? marg_r info marg blks) then
    obind (c_remove_params (marg_params marg blks) s) (fun s1 => c_add_residual blocks s1 new)
  else Undef.
(** marginalize, calib_camera.cpp 1134-1160. The view's residuals are handed over, so that its destructor removes none. *)
Definition marginalize (new : Z) (x : mcalib) : outcome mcalib :=
  let k := m_k x in
  match oldest k with
  | None => Undef
  | Some ts =>
      match k_views k !! ts, k_poses k !! ts with
      | Some v, Some _ =>
          obind (match m_prior x with None => Ret (k_solver k) | Some m => c_remove_residual blocks (k_solver k) m end) (fun s =>
          obind (view_marginalize new (handed (m_prior x) (keys (k_cams k)) v) v s) (fun s' =>
          obind (remove_view blocks (set_solver k s') ts) (fun k' => Ret (mkM k' (Some new)))))
      | _, _ => Undef
      end
  end.
End CamMarg.
Arguments mcalib V : clear implicits.
