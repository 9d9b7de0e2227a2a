(** * Outlier removal of the camera calibrator (yac/lib/calib_camera.cpp 225-255, 774-786, 1489-1507, 1583-1677) *)
From Coq Require Import Reals.
From Verif Require Import Base.
From stdpp Require Import gmap sets list sorting.
From Verif Require Import AprilGridModel AprilGridIOModel SolverModel CalibModel.
From Verif Require StatsModel.
Local Open Scope Z_scope.

Section Outliers.
Context (blocks : Z -> list Z) (corners : list (Z * list (Z * pt3))).
Context {V : Type}.
(** What the residual objects evaluate to ([None]: get_residual fails), what solver->solve() turns the estimates into, and what
    _calc_info computes ([None]: it fails), each a function of the calibrator's state. *)
Context (err : calib V -> Z -> option (R * R)) (solve : calib V -> values V) (info : calib V -> option xreal).
(** outlier_threshold, info_gain_threshold *)
Context (out_thr gain_thr : R).
(** the cameras of calib_views[ts]->grids, which is what was passed to add_view; what an add_view for this time obtains *)
Context (gkeys : Z -> list Z) (envs : Z -> env V).

(** get_residuals, calib_camera.cpp 238-255, 774-786 (the order of the views does not matter over the reals) *)
Definition some_of {A} (o : option A) : list A := match o with Some a => [a] | None => [] end.
Definition cam_residuals (k : calib V) (cam : Z) : list (R * R) :=
  flat_map (fun tv => flat_map (fun r => some_of (err k (vr_id r))) (v_res (snd tv) cam)) (map_to_list (k_views k)).
(** the thresholds, 1492-1499, 1609-1617: a camera with fewer than two residuals has the threshold NaN, which no residual exceeds *)
Definition cam_threshold (rs : list (R * R)) : option (R * R) :=
  match StatsModel.stddev (map fst rs), StatsModel.stddev (map snd rs) with
  | Some a, Some b => Some (out_thr * a, out_thr * b)%R
  | _, _ => None
  end.
Definition cam_thresholds (k : calib V) : list (Z * (R * R)) :=
  flat_map (fun c => match cam_threshold (cam_residuals k c) with Some th => [(c, th)] | None => [] end) (keys (k_cams k)).

Definition put_view (k : calib V) (ts : Z) (v : cview) (s : csolver) : calib V :=
  mkCalib (k_cams k) (k_exts k) (k_data k) (k_poses k) (<[ts := v]> (k_views k)) (k_vts k) s (k_info k).
Definition put_info (k : calib V) (i : option xreal) : calib V :=
  match i with
  | None => k
  | Some i => mkCalib (k_cams k) (k_exts k) (k_data k) (k_poses k) (k_views k) (k_vts k) (k_solver k) i
  end.
(** view->grids *)
Definition grids_of (ks : list Z) (v : cview) : list (Z * grid) := map (fun c => (c, v_grids v c)) ks.
(** _filter_all_views, 1489-1507 *)
Fixpoint filter_each (ths : list (Z * (R * R))) (e : Z -> option (R * R)) (l : list Z) (k : calib V) : outcome (calib V * Z) :=
  match l with
  | [] => Ret (k, 0)
  | ts :: t =>
      match k_views k !! ts with
      | None => Undef
      | Some v =>
          obind (filter_view_map blocks (keys (k_cams k)) e ths v (k_solver k)) (fun x =>
          let '(v', s', n) := x in
          obind (filter_each ths e t (put_view k ts v' s')) (fun y => Ret (fst y, n + snd y)))
      end
  end.
Definition filter_all_views (k : calib V) : outcome (calib V * Z) :=
  filter_each (cam_thresholds k) (err k) (map_to_list (k_views k)).*1 k.

(** [0.5 * (a - b) > t] on doubles that are not NaN: inf - inf is NaN and compares false *)
Definition gain_above (a b : xreal) (t : R) : bool :=
  match a, b with
  | XF x, XF y => if Rlt_dec t (1 / 2 * (x - y)) then true else false
  | XPinf, XF _ | XPinf, XMinf | XF _, XMinf => true
  | _, _ => false
  end.
(** one view, 1608-1664: the calibrator afterwards and what is added to nb_outliers (and to removed_outliers) *)
Definition outlier_view (ts : Z) (k : calib V) : outcome (calib V * Z) :=
  match k_views k !! ts with
  | None => Undef
  | Some v =>
      obind (cache_estimates k) (fun h =>
      obind (filter_view_map blocks (keys (k_cams k)) (err k) (cam_thresholds k) v (k_solver k)) (fun x =>
      let '(v', s', n) := x in
      let k1 := put_view k ts v' s' in
      let k2 := solved (solve k1) k1 in
      match info k2 with
      | None => Ret (k2, 0)
      | Some before =>
          obind (remove_view blocks k2 ts) (fun k3 =>
          let k4 := solved (solve k3) k3 in
          match info k4 with
          | None =>
              obind (add_view blocks corners (envs ts) k4 (grids_of (gkeys ts) v)) (fun r => Ret (restore_estimates h (snd r), 0))
          | Some after =>
              if gain_above after before gain_thr
              then obind (add_view blocks corners (envs ts) k4 (grids_of (gkeys ts) v')) (fun r => Ret (restore_estimates h (snd r), n))
              else Ret (restore_estimates h k4, 0)
          end)
      end))
  end.
Fixpoint outlier_loop (l : list Z) (k : calib V) : outcome (calib V * Z) :=
  match l with
  | [] => Ret (k, 0)
  | ts :: t => obind (outlier_view ts k) (fun x => obind (outlier_loop t (fst x)) (fun y => Ret (fst y, snd x + snd y)))
  end.
(** the timestamps of the views, largest first (rbegin .. rend) *)
Definition stamps_desc (k : calib V) : list Z := reverse (merge_sort Z.le (map_to_list (k_views k)).*1).
(** _remove_outliers, 1583-1677, and filtered_timestamps *)
Definition remove_outliers (filter_all : bool) (filtered : gset Z) (k : calib V) : outcome (Z * gset Z * calib V) :=
  let go l f := obind (outlier_loop l k) (fun x =>
                Ret (snd x, f, match l with [] => fst x | _ => put_info (fst x) (info (fst x)) end)) in
  if filter_all then go (stamps_desc k) filtered
  else match stamps_desc k with
       | [] => Undef
       | last :: _ => if decide (last ∈ filtered) then go [] filtered else go [last] ({[last]} ∪ filtered)
       end.
End Outliers.
