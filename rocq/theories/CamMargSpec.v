(** * Specification vocabulary: histories of the camera calibrator that include marginalisation *)
From Coq Require Import Reals.
From Verif Require Import Base.
From stdpp Require Import gmap sets list.
From Verif Require Import AprilGridModel AprilGridSpec AprilGridIOModel SolverModel CalibModel CalibSpec SolverLsqModel MargHessModel CamMargModel.
Local Open Scope Z_scope.

Section Spec.
Context (blocks : Z -> list Z) (info : Z -> pinfo) (rows cols : Z) (size sp : R) {V : Type}.
Context (ext_addr cam_addr : Z -> Z).
Notation corners := (fiducial_corners rows cols size sp).

(** [ts] is the smallest timestamp of a view *)
Definition is_oldest (k : calib V) (ts : Z) : Prop := is_Some (k_views k !! ts) /\ forall t, is_Some (k_views k !! t) -> ts <= t.
(** a parameter the new prior is about: of a camera the view sees, or of the previous prior; and it is estimated *)
Definition remains (x : mcalib V) (v : cview) (p : Z) : Prop :=
  pi_fixed (info p) = false /\
  ((exists c r, In r (v_res v c) /\ (p = ext_addr c \/ p = cam_addr c)) \/ exists m, m_prior x = Some m /\ In p (blocks m)).
(** the new marg_residual_t is a new object; its parameter blocks are what form_hessian puts there *)
Definition prior_env (new : Z) (x : mcalib V) : Prop :=
  new ∉ s_res (c_base (k_solver (m_k x))) /\
  forall ts v, is_oldest (m_k x) ts -> k_views (m_k x) !! ts = Some v ->
    blocks new = remain_params info (Z.eqb (v_pose v)) (map blocks (handed (m_prior x) (keys (k_cams (m_k x))) v)).
(** the kinds and sizes of the parameter objects *)
Definition typed (k : calib V) : Prop :=
  (forall c, pi_type (info (ext_addr c)) = TExtrinsics /\ 0 < pi_size (info (ext_addr c))) /\
  (forall c, pi_type (info (cam_addr c)) = TCamera /\ 0 < pi_size (info (cam_addr c))) /\
  forall ts p w, k_poses k !! ts = Some (p, w) -> 0 < pi_size (info p).

Definition with_k (x : mcalib V) (k : calib V) : mcalib V := mkM k (m_prior x).
(** calls, in any order *)
Inductive mreach (base : gset Z) : mcalib V -> Prop :=
| M_init k : initial blocks ext_addr cam_addr base k -> mreach base (mkM k None)
| M_add x e hs gs b k' : mreach base x -> fresh_env blocks ext_addr cam_addr e (m_k x) -> recorded rows cols size sp hs gs -> new_ts (m_k x) gs ->
    add_view blocks corners e (m_k x) gs = Ret (b, k') -> mreach base (with_k x k')
| M_nbv x e thr n i hs gs b k' : mreach base x -> fresh_env blocks ext_addr cam_addr e (m_k x) -> recorded rows cols size sp hs gs -> new_ts (m_k x) gs ->
    add_nbv_view blocks corners e thr n i (m_k x) gs = Ret (b, k') -> mreach base (with_k x k')
| M_remove x ts k' : mreach base x -> remove_view blocks (m_k x) ts = Ret k' -> mreach base (with_k x k')
| M_remove_all x k' : mreach base x -> remove_all_views blocks (m_k x) = Ret k' -> mreach base (with_k x k')
| M_filter x err th ts v v' s' n : mreach base x -> k_views (m_k x) !! ts = Some v ->
    filter_view blocks (keys (k_cams (m_k x))) err th v (k_solver (m_k x)) = Ret (v', s', n) ->
    mreach base (with_k x (mkCalib (k_cams (m_k x)) (k_exts (m_k x)) (k_data (m_k x)) (k_poses (m_k x)) (<[ts := v']> (k_views (m_k x))) (k_vts (m_k x)) s' (k_info (m_k x))))
| M_solve x n : mreach base x -> mreach base (with_k x (solved n (m_k x)))
| M_marg x new x' : mreach base x -> prior_env new x -> typed (m_k x) -> marginalize blocks info new x = Ret x' -> mreach base x'.
End Spec.
