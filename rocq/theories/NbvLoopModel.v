(** * The loop of the next-best-view calibration (calib_camera_t::_solve_nbv, yac/lib/calib_camera.cpp 1799-1851) *)
From Coq Require Import Reals.
From Verif Require Import Base.
From stdpp Require Import gmap sets list sorting.
From Verif Require Import AprilGridModel AprilGridIOModel SolverModel CalibModel SolverLsqModel MargHessModel CamMargModel OutlierModel.
Local Open Scope Z_scope.

Section Loop.
Context (blocks : Z -> list Z) (corners : list (Z * list (Z * pt3))) (info : Z -> pinfo).
Context {V : Type}.
(** enable_nbv_filter, min_nbv_views, enable_marginalization, sliding_window_size, enable_early_stopping, early_stop_threshold *)
Record settings := mkSettings { st_filter : bool; st_min : Z; st_marg : bool; st_window : Z; st_stop : bool; st_stale : Z }.
Context (st : settings) (gain_thr out_thr : R).
(** calib_data[ts] *)
Context (data : Z -> list (Z * grid)).
(** what the environment does in a turn of the loop, a function of the state: new objects, PnP and solver results, information,
    residual values, the cameras of the views' grids, the new prior object *)
Record turn_env := mkTurn {
  te_env : env V; te_values : values V; te_info : option xreal;
  te_err : calib V -> Z -> option (R * R); te_solve : calib V -> values V; te_calc : calib V -> option xreal;
  te_keys : Z -> list Z; te_envs : Z -> env V; te_prior : Z }.
Record lstate := mkL { l_x : mcalib V; l_all : bool; l_filtered : gset Z; l_stale : Z }.
Context (te : lstate -> Z -> turn_env).

Definition nb_views (k : calib V) : Z := Z.of_nat (base.size (k_views k)).
(** one turn, lines 1803-1822: was the view accepted, and the state afterwards *)
Definition turn (s : lstate) (ts : Z) : outcome (bool * lstate) :=
  let e := te s ts in
  obind (add_nbv_view blocks corners (te_env e) gain_thr (te_values e) (te_info e) (m_k (l_x s)) (data ts)) (fun r =>
  let '(acc, k1) := r in
  if acc : bool then
    obind (if st_filter st && (st_min st <=? nb_views k1) then
             obind (remove_outliers blocks corners (te_err e) (te_solve e) (te_calc e) out_thr gain_thr (te_keys e) (te_envs e) (l_all s) (l_filtered s) k1) (fun y =>
             Ret (snd y, false, snd (fst y)))
           else Ret (k1, l_all s, l_filtered s)) (fun q =>
    let '(k2, all, f) := q in
    obind (if st_marg st && (st_window st <? nb_views k2) then marginalize blocks info (te_prior e) (mkM k2 (m_prior (l_x s)))
           else Ret (mkM k2 (m_prior (l_x s)))) (fun x3 =>
    Ret (true, mkL x3 all f 0)))
  else Ret (false, mkL (mkM k1 (m_prior (l_x s))) (l_all s) (l_filtered s) (l_stale s + 1))).
(** the loop, lines 1802-1836; what _track_estimates records (calib_timestamps, nbv_accepted) is the list returned *)
Fixpoint nbv_loop (l : list Z) (s : lstate) : outcome (list (Z * bool) * lstate) :=
  match l with
  | [] => Ret ([], s)
  | ts :: t =>
      obind (turn s ts) (fun r =>
      let '(acc, s1) := r in
      if st_stop st && (st_stale st <? l_stale s1) then Ret ([(ts, acc)], s1)
      else obind (nbv_loop t s1) (fun q => Ret ((ts, acc) :: fst q, snd q)))
  end.
(** lines 1799-1851 from the state _solve_nbv starts with: filter_all is set (calib_camera.hpp), stale_counter is 0 *)
Definition nbv_run (l : list Z) (x : mcalib V) (all : bool) (filtered : gset Z) := nbv_loop l (mkL x all filtered 0).
End Loop.
Arguments turn_env V : clear implicits.
Arguments lstate V : clear implicits.
