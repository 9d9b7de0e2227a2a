(** * Next-best-trajectory: time ranges, simulation loops and selection
    (yac/lib/calib_nbt.cpp 111-116, 400-414, 455-540, 617-632, 700-792) *)
From Verif Require Import Base FloatModel TimeModel.
From Coq Require Import Reals.
From Flocq Require Import Core.Core IEEE754.BinarySingleNaN.
Open Scope Z_scope.

(** ** Double arithmetic of the range check *)
Definition dsub (x y : dbl) : dbl := Bminus mode_NE x y.
Definition dzero : dbl := dbl_of_Z 0.
(** calib_nbt.cpp 112, 147, 164 ...: [t = ts2sec(ts_k) - ts2sec(ts_start)];
    calib_nbt.cpp 403: [T = ts2sec(ts_end) - ts2sec(ts_start)] *)
Definition secs_between (ts_start ts : Z) : dbl := dsub (ts2sec ts) (ts2sec ts_start).
(** calib_nbt.cpp 113: [if (t < 0.0 || t > T) FATAL]: does a query at [ts] of the trajectory
    (ts_start, T) succeed? *)
Definition query_ok (ts_start : Z) (T : dbl) (ts : Z) : bool :=
  negb (Bltb (secs_between ts_start ts) dzero || Bltb T (secs_between ts_start ts)).

(** The loops of simulate_cameras (calib_nbt.cpp 470-491) and simulate_imu (515-543):
    [while (ts_k <= ts_end) { ... query ts_k ...; ts_k += dt; }]. The result lists the time stamps
    handled and how the loop ended (int64 overflow of ts_k + dt is not modelled). *)
Inductive sim_loop (ok : Z -> bool) (dt ts_end : Z) : Z -> list Z -> outcome unit -> Prop :=
| sim_done ts : ts_end < ts -> sim_loop ok dt ts_end ts [] (Ret tt)
| sim_fatal ts : ts <= ts_end -> ok ts = false -> sim_loop ok dt ts_end ts [] (Throw Fatal)
| sim_step ts l r : ts <= ts_end -> ok ts = true -> sim_loop ok dt ts_end (ts + dt) l r -> sim_loop ok dt ts_end ts (ts :: l) r.
Definition simulate (ts_start : Z) (T : dbl) (dt ts_end : Z) (l : list Z) (r : outcome unit) : Prop :=
  sim_loop (query_ok ts_start T) dt ts_end ts_start l r.
(** nbt_eval, calib_nbt.cpp 621-622: [ts_end = ts_start + sec2ts(traj.T)] *)
Definition eval_end (ts_start : Z) (T : dbl) : outcome Z := obind (sec2ts T) (fun d => i64 (ts_start + d)).
Definition eval_simulate (ts_start : Z) (T : dbl) (dt : Z) (l : list Z) (r : outcome unit) : Prop :=
  exists e, eval_end ts_start T = Ret e /\ simulate ts_start T dt e l r.

(** ** nbt_find, calib_nbt.cpp 711-790. [eval i] is the determinant of the covariance after adding
    trajectory [i] (calib_nbt.cpp 738-739), [None] when nbt_eval failed (line 732 then stores 0.0).
    Determinants are exact reals; std::log of a determinant that is not positive is not modelled
    (the theorems assume positive determinants). *)
Local Open Scope R_scope.
Definition log2 (d : R) : R := ln d / ln 2.
Definition info_of (e : option R) : R := match e with Some det => log2 det | None => 0 end.
(** the loop of lines 744-750 *)
Fixpoint best_from (info_k : R) (evals : list (option R)) (idx : Z) (best : Z * R) : Z * R :=
  match evals with
  | [] => best
  | e :: rest =>
    let gain := / 2 * (info_k - info_of e) in
    best_from info_k rest (idx + 1)%Z (if Rlt_dec (snd best) gain then (idx, gain) else best)
  end.
(** result, *calib_info_k, *calib_info_kp1 (line 788: operator[] of the map gives 0.0 for index -1) *)
Definition nbt_find (det_k : R) (evals : list (option R)) : Z * R * R :=
  let info_k := log2 det_k in
  let best_idx := fst (best_from info_k evals 0 ((-1)%Z, 0)) in
  (best_idx, info_k,
   if (best_idx <? 0)%Z then 0 else match nth_error evals (Z.to_nat best_idx) with Some e => info_of e | None => 0 end).
