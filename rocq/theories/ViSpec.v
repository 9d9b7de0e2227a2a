(** * Specification vocabulary for the visual-inertial calibrator (C85-C89) *)
From Verif Require Import Base GeomModel ImuModel ViModel.
From Coq Require Import Reals Sorted.
Local Open Scope Z_scope.

(** The residual blocks a view should have in the problem: one per corner it keeps, over the fiducial, its pose, the
    IMU extrinsics and the camera; and its IMU residual, over the poses and speeds of the two views and the delay. *)
Definition of_view (v : view) : list (rid * list pid) :=
  flat_map (fun cam => map (fun rc => (fst rc, [PFid; PPose (v_id v); PImuExt; PCamExt (fst cam); PCam (fst cam)])) (snd cam)) (v_fid v)
  ++ match v_imu v with Some l => [(RImu (v_id v), [PPose (l_i l); PSb (l_i l); PPose (l_j l); PSb (l_j l); PDelay])] | None => [] end.
(** ... and those of the whole calibrator *)
Definition expected (s : vi) : list (rid * list pid) :=
  flat_map of_view (s_views s) ++ match s_prior s with Some (k, ps) => [(RPrior k, ps)] | None => [] end.
(** every view is tied to the next one by an IMU residual between their stamps, the newest to none *)
Fixpoint chained (vs : list view) : Prop :=
  match vs with
  | [] => True
  | v :: r => match r with
              | [] => v_imu v = None
              | w :: _ => exists b, v_imu v = Some (Link b (v_id v) (v_id w) (v_ts v) (v_ts w))
              end /\ chained r
  end.
(** blocks that belong to a view *)
Definition per_view (p : pid) : Prop := match p with PPose _ | PSb _ => True | _ => False end.
Definition block_of (v : view) (p : pid) : Prop := p = PPose (v_id v) \/ p = PSb (v_id v).
(** a residual block over a block of the view ([pid_in] is list membership) *)
Definition involves (v : view) (x : rid * list pid) : bool :=
  pid_in (PPose (v_id v)) (snd x) || pid_in (PSb (v_id v)) (snd x).

Definition is_reset (e : event) : bool := match e with EReset => true | _ => false end.
Definition is_solve (e : event) : bool := match e with ESolve => true | _ => false end.
Definition never (f : event -> bool) (h : list event) : Prop := forall e, In e h -> f e = false.

(** Measurements handed over in the order of their stamps: IMU stamps rise; a grid is not older than an IMU sample
    handed over before it, and not newer than one handed over after it; the grids of a later frame (an IMU sample in
    between) are newer. *)
Definition chronological (h : list event) : Prop :=
  forall pre x mid y post, h = pre ++ x :: mid ++ y :: post ->
  match x, y with
  | EImu t _ _, EImu u _ _ => t < u
  | EImu t _ _, EGrid _ g => t <= g_ts g
  | EGrid _ g, EImu u _ _ => g_ts g <= u
  | EGrid _ g, EGrid _ g' => (exists t a w, In (EImu t a w) mid) -> g_ts g < g_ts g'
  | _, _ => True
  end.
