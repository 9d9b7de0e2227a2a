(** * Searching the next best view (yac/lib/calib_camera.cpp 1162-1316) *)
From Coq Require Import Reals.
From Verif Require Import Base.
From stdpp Require Import gmap sets list.
From Verif Require Import AprilGridModel AprilGridIOModel SolverModel CalibModel.
Local Open Scope Z_scope.

(** [a < b] on doubles that are not NaN *)
Definition xlt (a b : xreal) : bool :=
  match a, b with
  | XF x, XF y => if Rlt_dec x y then true else false
  | XMinf, XF _ | XMinf, XPinf | XF _, XPinf => true
  | _, _ => false
  end.
(** best_cam, best_idx, best_info, calib_camera.cpp 1188-1190, 1294-1296 *)
Notation best := (Z * nat * xreal)%type.
Definition best_start : best := (0, 0%nat, XF 0).
(** 1228-1233, 1299-1303; [None]: _calc_info failed, or the score is NaN *)
Definition better (b : best) (c : Z) (i : nat) (s : option xreal) : best :=
  match s with
  | Some v => if xlt v (snd b) then (c, i, v) else b
  | None => b
  end.
(** the two nested loops over the cameras (a std::map, in increasing order) and the poses of a camera, 1200-1201, 1297-1298 *)
Fixpoint numbered {X} (c : Z) (i : nat) (xs : list X) : list (Z * nat * X) :=
  match xs with [] => [] | x :: t => (c, i, x) :: numbered c (S i) t end.
Definition candidates {X} (poses : list (Z * list X)) : list (Z * nat * X) :=
  concat (map (fun cx => numbered (fst cx) 0 (snd cx)) poses).

Section Find.
Context (blocks : Z -> list Z) (corners : list (Z * list (Z * pt3))).
Context {V : Type}.
(** A candidate: its pose; what the calls made for it obtain from the environment; the simulated detections
    (nbv_target_grid, C58); and what _calc_info computes from the poses and the blocks of the problem while it is in the problem. *)
Record fcand := mkFcand { f_pose : V; f_env : env V; f_grids : list (Z * grid);
  f_calc : gmap Z (Z * V) -> gset Z -> gset Z -> option xreal }.
(** 1203-1208 *)
Definition put_pose (e : env V) (ts : Z) (T : V) (k : calib V) : calib V :=
  match k_poses k !! ts with
  | Some _ => k
  | None => mkCalib (k_cams k) (k_exts k) (k_data k) (<[ts := (e_pose e, T)]> (k_poses k))
                    (k_views k) (k_vts k) (c_add_param (k_solver k) (e_pose e)) (k_info k)
  end.
(** one candidate, 1202-1237: the information with it in the problem, and the calibrator afterwards *)
Definition try_cand (ts : Z) (x : fcand) (k : calib V) : outcome (option xreal * calib V) :=
  obind (add_view blocks corners (f_env x) (put_pose (f_env x) ts (f_pose x) k) (f_grids x)) (fun r =>
  let k1 := snd r in
  obind (remove_view blocks k1 ts) (fun k2 =>
  Ret (f_calc x (k_poses k1) (c_pparams (k_solver k1)) (c_pres (k_solver k1)), k2))).
Fixpoint find_loop (ts : Z) (cs : list (Z * nat * fcand)) (b : best) (k : calib V) : outcome (best * calib V) :=
  match cs with
  | [] => Ret (b, k)
  | (c, i, x) :: t => obind (try_cand ts x k) (fun r => find_loop ts t (better b c i (fst r)) (snd r))
  end.
(** find_nbv, calib_camera.cpp 1162-1252. [stamps]: the set timestamps in increasing order; [info]: what _calc_info computes
    first. Returned: the code, cam_idx / nbv_idx / nbv_info if they are assigned, and the calibrator. *)
Definition find_nbv (thr : R) (stamps : list Z) (info : option xreal) (poses : list (Z * list fcand)) (k : calib V) :
    outcome (Z * option best * calib V) :=
  match poses with
  | [] => Throw Fatal
  | _ =>
      if decide (k_views k = ∅) then Throw Fatal else
      match info with
      | None => Ret (-1, None, k)
      | Some i0 =>
          match last stamps with
          | None => Undef
          | Some t =>
              obind (find_loop (t + 1) (candidates poses) best_start k) (fun r =>
              Ret (if gain_below i0 (snd (fst r)) thr then -2 else 0, Some (fst r), snd r))
          end
      end
  end.
End Find.

(** find_nbv_fast, calib_camera.cpp 1254-1316. [score]: nbv_evaluator_t::eval (C102), [Ret None]: NaN. [thread idx]: the
    thread that runs iteration idx of the parallel loop (1281-1291). Two threads that both assign to the map nbv_scores race.
    An exception of nbv_poses.at(idx) leaves a parallel region: the program is terminated ([Undef] here). *)
Section Fast.
Context {X : Type} (score : X -> outcome (option xreal)) (thread : nat -> nat).
Definition racing (poses : list (Z * list X)) : bool :=
  let used := filter (fun cx => negb (match snd (snd cx) with [] => true | _ => false end)) (imap (fun i cx => (i, cx)) poses) in
  existsb (fun a => existsb (fun b => negb (Nat.eqb (thread (fst a)) (thread (fst b)))) used) used.
Definition keys_ok (poses : list (Z * list X)) : bool :=
  bool_decide (map fst poses = map Z.of_nat (seq 0 (length poses))).
Fixpoint fast_loop (cs : list (Z * nat * X)) (b : best) : outcome best :=
  match cs with
  | [] => Ret b
  | (c, i, x) :: t => obind (score x) (fun s => fast_loop t (better b c i s))
  end.
Definition find_nbv_fast (nviews : nat) (thr : R) (info : option xreal) (poses : list (Z * list X)) : outcome (Z * option best) :=
  match poses, nviews with
  | [], _ => Throw Fatal
  | _, O => Throw Fatal
  | _, _ =>
      match info with
      | None => Ret (-1, None)
      | Some i0 =>
          if keys_ok poses && negb (racing poses) then
            obind (fast_loop (candidates poses) best_start) (fun b => Ret (if gain_below i0 (snd b) thr then -2 else 0, Some b))
          else Undef
      end
  end.
End Fast.
