(** * Specification vocabulary for the motion-capture calibrator *)
From Verif Require Import Base GeomModel StatsModel MocapModel.
From Coq Require Import Reals Sorted Permutation.
Local Open Scope Z_scope.

(** the measurements in use: view, stamp, corner *)
Definition in_use (s : mocap) : list (rid * Z * corner) :=
  flat_map (fun tv => map (fun rc => (fst rc, fst tv, snd rc)) (v_res (snd tv))) (m_views s).
(** The problem and the views agree: one residual per corner that is left in a view, none other; every view holds the
    corners left in its grid, none of them twice; the list of stamps is that of the views; every view has a body pose, and the body poses are
    those of the problem. *)
Record consistent (s : mocap) : Prop := Consistent {
  c_res : Permutation (q_res (m_prob s)) (in_use s);
  c_ids : NoDup (map (fun x => fst (fst x)) (q_res (m_prob s)));
  c_asc : StronglySorted Z.lt (map fst (m_views s));
  c_order : Permutation (m_order s) (map fst (m_views s));
  c_pts : forall ts v, In (ts, v) (m_views s) -> map snd (v_res v) = v_pts v /\ NoDup (map (fun k => (k_tag k, k_idx k)) (v_pts v));
  c_pose : forall ts, In ts (map fst (m_views s)) -> In ts (map fst (e_poses (m_est s)));
  c_poses : q_poses (m_prob s) = map fst (e_poses (m_est s)) }.
(** A detected grid: no corner twice, the flag says whether there are corners (C02). *)
Definition proper (g : mgrid) : Prop := NoDup (map (fun k => (k_tag k, k_idx k)) (g_pts g)) /\ (g_det g = true <-> g_pts g <> []).
(** The recording handed to the calibrator: proper grids, distinct ascending stamps, a body pose for each. *)
Definition recording (gs : list mgrid) (Ts : list mat4) : Prop :=
  Forall proper gs /\ StronglySorted Z.lt (map g_ts gs) /\ length Ts = length gs.
