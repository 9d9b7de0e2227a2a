(** * The speed and bias block: constructor, accessors, results file, IMU residual *)
From Coq Require Import Reals.
From Verif Require Import Base GeomModel ImuModel ViModel PreintModel TimeModel.
Local Open Scope Z_scope.

(** sb_params_t::sb_params_t(ts, v, ba, bg), calib_params.cpp 468-475: param << v, ba, bg *)
Definition sb_new (v ba bg : vec3) : list R := of_vec v ++ of_vec ba ++ of_vec bg.
(** vel, ba, bg: calib_params.cpp 484-488 *)
Definition sb_vel (l : list R) : vec3 := seg3 0 l.
Definition sb_acc_bias (l : list R) : vec3 := seg3 3 l.
Definition sb_gyr_bias (l : list R) : vec3 := seg3 6 l.
(** What imu_residual_t reads from the nine numbers, calib_residuals.cpp 1538-1543 with 1180 / 1418 (gyroscope minus
    segment 3), 1190 / 1428 (accelerometer minus segment 6), 1606-1607, 1640: the record of PreintModel.v. *)
Definition sb_residual (l : list R) : sb := Sb (seg3 0 l) (seg3 3 l) (seg3 6 l).

(** One row of speed_biases in the results file, print_speed_biases, calib_vi.cpp 1664-1688: sec, nsec and nine numbers
    printed with %f; [fmt]: the number that %f prints. *)
Definition sb_row (fmt : R -> R) (ts : Z) (l : list R) : outcome (Z * Z * list R) :=
  obind (tsdecomp ts) (fun d =>
  Ret (fst d, snd d, map fmt (of_vec (sb_vel l) ++ of_vec (sb_acc_bias l) ++ of_vec (sb_gyr_bias l)))).
Fixpoint sb_rows (fmt : R -> R) (vs : list (Z * list R)) : outcome (list (Z * Z * list R)) :=
  match vs with
  | [] => Ret []
  | (ts, l) :: r => obind (sb_row fmt ts l) (fun x => obind (sb_rows fmt r) (fun xs => Ret (x :: xs)))
  end.
(** load_data, calib_vi.cpp 1348-1371: rows into a map by stamp, the last one with a stamp wins (the list is searched
    from its end); the columns are vx,vy,vz,ba_x,ba_y,ba_z,bg_x,bg_y,bg_z. *)
Fixpoint sb_table (rows : list (Z * Z * list R)) : outcome (list (Z * list R)) :=
  match rows with
  | [] => Ret []
  | (sec, nsec, c) :: r =>
      obind (tsform sec nsec) (fun ts => obind (sb_table r) (fun t =>
      Ret ((ts, of_vec (seg3 0 c) ++ of_vec (seg3 3 c) ++ of_vec (seg3 6 c)) :: t)))
  end.
Fixpoint sb_lookup (t : list (Z * list R)) (ts : Z) : option (list R) :=
  match t with
  | [] => None
  | (u, x) :: r => match sb_lookup r ts with Some y => Some y | None => if u =? ts then Some x else None end
  end.
(** calib_vi.cpp 1373-1380: views with a row get its values, the others keep theirs *)
Definition sb_load (t : list (Z * list R)) (vs : list (Z * list R)) : list (Z * list R) :=
  map (fun v => (fst v, match sb_lookup t (fst v) with Some x => x | None => snd v end)) vs.
