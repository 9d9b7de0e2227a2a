(** * Cost and Hessian of the visual-inertial calibrator (yac/lib/calib_vi.cpp 1113-1243, 1384-1422) *)
From Coq Require Import Reals.
From Verif Require Import Base GeomModel ImuModel ViModel SolverLsqModel.
Local Open Scope Z_scope.

(** The residual functions put into res_fns, calib_vi.cpp 1118-1139 and 1386-1407, with their param_blocks: views
    without IMU residual are skipped. res_fns is an unordered_set of pointers, iterated in any order: the functions
    below get the list in the order of that iteration. *)
Definition view_functions (v : view) : list (rid * list pid) :=
  match v_imu v with
  | None => []
  | Some l => flat_map (fun x => map (fun rc => (fst rc, corner_params (v_id v) (fst x))) (snd x)) (v_fid v)
              ++ [(RImu (v_id v), imu_params_of (l_i l) (l_j l))]
  end.
Definition functions (s : vi) : list (rid * list pid) :=
  flat_map view_functions (s_views s) ++ match s_prior s with Some (k, ps) => [(RPrior k, ps)] | None => [] end.

(** A residual evaluated at the current estimates (eval / eval_residuals of calib_residual_t): rows, values, and the
    minimal Jacobian with respect to each of its blocks. [None]: the evaluation returned false. Real numbers. *)
Record evaluated := Evaluated { e_n : nat; e_val : Z -> R; e_jac : pid -> Z -> Z -> R }.

Section Hess.
Context (ev : rid -> option evaluated).
(** calib_vi_t::cost, calib_vi.cpp 1409-1421 *)
Fixpoint vi_cost (l : list (rid * list pid)) : outcome R :=
  match l with
  | [] => Ret 0%R
  | (r, _) :: t =>
      match ev r with
      | None => Throw Fatal
      | Some e => obind (vi_cost t) (fun c => Ret (5 / 10 * sumn (e_n e) (fun k => e_val e k * e_val e k) + c)%R)
      end
  end.

(** Types, fixed flags and local sizes (calib_params.hpp): 6 for poses and extrinsics, 9 for speed and biases, 2 for the
    fiducial, 1 for the delay, the camera's number of parameters. *)
Context (cam_size : Z -> Z).
Definition vi_info (fixed : list pid) (p : pid) : pinfo :=
  let f := pid_in p fixed in
  match p with
  | PDelay => mkPinfo TOther f 1
  | PImuExt | PCamExt _ => mkPinfo TExtrinsics f 6
  | PCam c => mkPinfo TCamera f (cam_size c)
  | PFid => mkPinfo TFiducial f 2
  | PPose _ => mkPinfo TPose f 6
  | PSb _ => mkPinfo TSb f 9
  end.
(** [addr]: the address of each parameter object; [info]: the object at an address. *)
Context (addr : pid -> Z) (info : Z -> pinfo).

(** eval_residuals, calib_vi.cpp 1141-1200: the same loop as in solver.cpp (SolverLsqModel.v, [track_block]) and then
    columns in the order extrinsics, poses, speeds, cameras, fiducial. *)
Definition evaluate1 (x : rid * list pid) : option resid :=
  option_map (fun e => mkResid (e_n e) (e_val e) (map (fun p => (addr p, e_jac e p)) (snd x))) (ev (fst x)).
Fixpoint evaluate_all (l : list (rid * list pid)) : outcome (list resid) :=
  match l with
  | [] => Ret []
  | x :: t => match evaluate1 x with
              | None => Throw Fatal
              | Some y => obind (evaluate_all t) (fun ys => Ret (y :: ys))
              end
  end.
Definition vi_track (l : list (rid * list pid)) : track :=
  fold_left (track_block info) (map addr (flat_map snd l)) track0.
Definition vi_order (l : list (rid * list pid)) : list (Z * Z) :=
  let t := vi_track l in assign info 0 (t_ext t ++ t_pose t ++ t_sb t ++ t_cam t ++ t_fid t).
Definition vi_length (l : list (rid * list pid)) : Z := t_len (vi_track l).
(** calib_vi_t::form_hessian, calib_vi.cpp 1202-1243: the loops are those of solver.cpp (SolverLsqModel.v,
    [form_hessian], without its right-hand side). H is the square matrix of size [vi_length]. *)
Definition vi_hessian (l : list (rid * list pid)) : outcome (Z -> Z -> R) :=
  obind (evaluate_all l) (fun rs => Ret (fst (form_hessian info (vi_order l) rs))).
End Hess.
