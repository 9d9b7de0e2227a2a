(** * Covariance of the estimates: which columns the parameters get, and the information matrix
    (yac/lib/solver.cpp 505-630, 1089-1168; yac/lib/calib_camera.cpp 2419-2555, 2621-2693)
    Real numbers are exact. The matrix algebra that follows is in CovarMatModel.v. *)
From Coq Require Import Reals.
From Verif Require Import Base SolverLsqModel MargHessModel.
Local Open Scope Z_scope.

(** ** solver_t::estimate_covariance *)
Section Covar.
Context (info : Z -> pinfo).
Definition has_type (t : ptype) (p : Z) : bool :=
  match pi_type (info p), t with
  | TPose, TPose | TSb, TSb | TCamera, TCamera | TExtrinsics, TExtrinsics | TFiducial, TFiducial => true
  | _, _ => false
  end.
Definition free (p : Z) : bool := negb (pi_fixed (info p)).
(** solver.cpp 522-561 and 572-587: the parameters seen in a residual that are neither fixed nor asked for, by type;
    an unknown type goes nowhere *)
Definition cov_marg (params : list Z) (blks : list (list Z)) : list Z :=
  let s := filter (fun p => free p && negb (existsb (Z.eqb p) params)) (first_seen blks) in
  filter (has_type TPose) s ++ filter (has_type TSb) s ++ filter (has_type TCamera) s ++
  filter (has_type TExtrinsics) s ++ filter (has_type TFiducial) s.
(** solver.cpp 588-596: the parameters asked for, without the fixed ones *)
Definition cov_remain (params : list Z) : list Z := filter free params.
(** param_order, solver.cpp 563-596: insert() keeps the first index of a parameter *)
Definition cov_order (params : list Z) (blks : list (list Z)) : list (Z * Z) :=
  assign info 0 (cov_marg params blks ++ cov_remain params).
Definition cov_m (params : list Z) (blks : list (list Z)) : Z := sizes info (cov_marg params blks).
Definition cov_r (params : list Z) : Z := sizes info (cov_remain params).
Definition blocks_of (rs : list resid) : list (list Z) := map (fun x => map fst (rs_blk x)) rs.
(** H, solver.cpp 598-631: the loops of _form_hessian; [rs]: the residuals whose evaluation succeeded (512-519) *)
Definition cov_hessian (params : list Z) (rs : list resid) : Z -> Z -> R :=
  fst (form_hessian info (cov_order params (blocks_of rs)) rs).

(** ** nbv_evaluator_t *)
(** form_param_order, calib_camera.cpp 2474-2510: cameras, extrinsics, poses; other types go nowhere *)
Definition nbv_seen (t : ptype) (blks : list (list Z)) : list Z := filter (has_type t) (filter free (first_seen blks)).
Definition nbv_order (blks : list (list Z)) : list (Z * Z) :=
  assign info 0 (nbv_seen TCamera blks ++ nbv_seen TExtrinsics blks ++ nbv_seen TPose blks).
(** remain_size, calib_camera.cpp 2424-2436: every camera, but only the extrinsics that are not fixed *)
Definition nbv_remain (cams exts : list Z) : Z := sizes info cams + sizes info (filter free exts).
(** H_k.rows(), 2450-2457; [nviews]: the calibrator's views *)
Definition nbv_size (cams exts : list Z) (nviews : Z) : Z := nbv_remain cams exts + nviews * 6 + 6.
(** 2646-2652, 2664-2669: a parameter without a column is taken to be the new pose and gets the columns after the last
    pose; pose_ptrs.back() of an empty vector is undefined. *)
Definition nbv_order_new (blks : list (list Z)) (ps : list Z) : outcome (list (Z * Z)) :=
  let o := nbv_order blks in
  let new := filter (fun p => match order_find o p with Some _ => false | None => free p end) ps in
  match new, rev (nbv_seen TPose blks) with
  | [], _ => Ret o
  | _, [] => Undef
  | _, p :: _ => Ret (o ++ map (fun q => (q, order_at o p + 6)) new)
  end.
(** H_k + H_kp1, 2513-2555 and 2632-2699; [rs]: the residuals of the calibrator, [news]: those of the simulated view *)
Definition nbv_hessian (rs news : list resid) : outcome (Z -> Z -> R) :=
  obind (nbv_order_new (blocks_of rs) (concat (blocks_of news))) (fun o =>
  Ret (fun a b => (fst (form_hessian info (nbv_order (blocks_of rs)) rs) a b + fst (form_hessian info o news) a b)%R)).

(** ** ceres_solver_t::estimate_covariance, solver.cpp 1089-1168 *)
(** [cov p q]: the covariance block ceres computed for the two parameters (in the tangent space); [None]: it has none.
    ceres::Covariance::Compute is [ok]. *)
Context (cov : Z -> Z -> option (Z -> Z -> R)) (ok : bool).
(** param_indices and covar_size, 1092-1103. operator[] assigns, so that the last index of a parameter counts. *)
Fixpoint cc_indices (i : Z) (ps : list Z) : list (Z * Z) :=
  match ps with
  | [] => []
  | p :: t => if pi_fixed (info p) then cc_indices i t else cc_indices (i + pi_size (info p)) t ++ [(p, i)]
  end.
Definition cc_size (ps : list Z) : Z := sizes info (filter free ps).
(** covar.block(i0, j0, ni, nj) = M: undefined if it does not fit *)
Definition block_set (n : Z) (C : Z -> Z -> R) (i0 j0 ni nj : Z) (M : Z -> Z -> R) : outcome (Z -> Z -> R) :=
  if (i0 + ni <=? n) && (j0 + nj <=? n)
  then Ret (fun a c => if in_blk i0 ni a && in_blk j0 nj c then M (a - i0) (c - j0) else C a c)
  else Undef.
(** the loop over j, 1127-1157, from [q :: qs] on; [same]: i = j *)
Fixpoint cc_row (o : list (Z * Z)) (n : Z) (p : Z) (same : bool) (qs : list Z) (C : Z -> Z -> R) : outcome (option (Z -> Z -> R)) :=
  match qs with
  | [] => Ret (Some C)
  | q :: t =>
      match cov p q with
      | None => Ret None
      | Some B =>
          obind (block_set n C (order_at o p) (order_at o q) (pi_size (info p)) (pi_size (info q)) B) (fun C1 =>
          obind (if same then Ret C1 else block_set n C1 (order_at o q) (order_at o p) (pi_size (info q)) (pi_size (info p)) (fun a b => B b a)) (fun C2 =>
          cc_row o n p false t C2))
      end
  end.
Fixpoint cc_rows (o : list (Z * Z)) (n : Z) (ps : list Z) (C : Z -> Z -> R) : outcome (option (Z -> Z -> R)) :=
  match ps with
  | [] => Ret (Some C)
  | p :: t => obind (cc_row o n p true ps C) (fun C' => match C' with None => Ret None | Some C1 => cc_rows o n t C1 end)
  end.
(** [None]: the return value -1. The parameters are different objects (ceres aborts otherwise). *)
Definition ceres_covariance (ps : list Z) : outcome (option (Z -> Z -> R)) :=
  if ok then cc_rows (cc_indices 0 ps) (cc_size ps) ps (fun _ _ => 0%R) else Ret None.
End Covar.
