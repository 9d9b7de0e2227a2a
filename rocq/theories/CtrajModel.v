(** * Continuous trajectories through way points (yac/lib/util/core.cpp 1900-2030)
    Exact real arithmetic. Time is in seconds; [ts2sec] of a stamp is the exact quotient. The
    interpolating splines are Eigen's (SplineFitting::Interpolate): they are represented by the
    three functions the code reads (value, first and second derivative) and what is assumed of them
    is written as a hypothesis of the theorems ([Interpolates], [Differentiates] in CtrajSpec.v). *)
From Coq Require Import Reals ZArith List.
From Flocq Require Import Core.Core.
From Verif Require Import GeomModel StatsModel LerpModel.
Local Open Scope R_scope.

(** pos_spline(u) / derivatives(u, 1).col(1) / derivatives(u, 2).col(2) *)
Record spline := Spl { s_0 : R -> vec3; s_1 : R -> vec3; s_2 : R -> vec3 }.
(** core.hpp ctraj_t; ts_s_start, ts_s_end and ts_s_gap are recomputed from the stamps *)
Record ctraj := CT { ct_start : Z; ct_end : Z; ct_pos : list vec3; ct_quat : list quat;
                     ct_ps : spline; ct_rs : spline }.
Definition ct_gap (c : ctraj) : R := secs (ct_end c) - secs (ct_start c).

(** core.cpp 1911-1916 ts_normalize, of a time in seconds *)
Definition ts_normalize (c : ctraj) (t : R) : R := (t - secs (ct_start c)) / (secs (ct_end c) - secs (ct_start c)).

(** core.hpp 279-298 linspace with T = int64_t: [start + delta * i] is converted back to an integer
    (truncation). The double arithmetic is taken as exact. *)
Definition linspace_ts (start stop : Z) (n : nat) : list Z :=
  match n with
  | O => nil
  | 1%nat => start :: nil
  | S m => map (fun i => Ztrunc (IZR start + IZR (stop - start) / INR m * INR i)) (seq 0 m) ++ stop :: nil
  end.

(** Eigen's AngleAxis(Quaternion): [2 atan2(|v|, |w|)] and [v / |v|], the axis turned round when w < 0;
    angle 0 about x when v = 0 *)
Definition atan2q (y x : R) : R := if Req_EM_T x 0 then PI / 2 else atan (y / x).
Definition angle_axis (q : quat) : R * vec3 :=
  let v := V3 (qx q) (qy q) (qz q) in
  let n := vnorm v in
  if Req_EM_T n 0 then (0, V3 1 0 0)
  else (2 * atan2q n (Rabs (qw q)), vscale (/ (if Rlt_dec (qw q) 0 then - n else n)) v).
(** [aa.angle() * aa.axis()] *)
Definition rvec_of (q : quat) : vec3 := let aa := angle_axis q in vscale (fst aa) (snd aa).

(** core.cpp 1949-1951: the while loop on delta. The loop ends: see [unwrap_ok] in Prop_Ctraj.v; [fuel]
    bounds its iterations. *)
Fixpoint unwrap_loop (fuel : nat) (delta : vec3) : vec3 :=
  match fuel with
  | O => delta
  | S f => if Rlt_dec (PI * PI) (vdot delta delta)
           then unwrap_loop f (vsub delta (vscale (2 * PI) (vnormalized delta)))
           else delta
  end.
Definition unwrap (delta : vec3) : vec3 := unwrap_loop (S (Z.to_nat (up (vnorm delta)))) delta.
(** core.cpp 1939-1955: rotation vectors handed to the spline *)
Fixpoint rvecs_from (prev : vec3) (qs : list quat) : list vec3 :=
  match qs with
  | nil => nil
  | q :: qs' => let r := vadd prev (unwrap (vsub (rvec_of q) prev)) in r :: rvecs_from r qs'
  end.
Definition rvecs (qs : list quat) : list vec3 :=
  match qs with nil => nil | q :: qs' => rvec_of q :: rvecs_from (rvec_of q) qs' end.
(** core.cpp 1924-1930 knots: one per position *)
Definition ct_stamps (c : ctraj) : list Z := linspace_ts (ct_start c) (ct_end c) (length (ct_pos c)).
Definition knots (c : ctraj) : list R := map (fun ts => ts_normalize c (secs ts)) (ct_stamps c).

(** core.cpp 1963-1990 ctraj_get_pose. [orientations.front()] etc. of empty vectors are undefined:
    [None]. The quaternion of an angle and an axis is (cos(a/2), sin(a/2) axis). *)
Definition quat_of_aa (a : R) (n : vec3) : quat :=
  Q (cos (a / 2)) (sin (a / 2) * vx n) (sin (a / 2) * vy n) (sin (a / 2) * vz n).
Definition ctraj_get_pose (c : ctraj) (t : R) : option mat4 :=
  let u := ts_normalize c t in
  if Z.eqb (fltcmp u 0) 0 then
    match ct_quat c, ct_pos c with q :: _, r :: _ => Some (tf_q q r) | _, _ => None end
  else if Z.eqb (fltcmp u 1) 0 then
    match rev (ct_quat c), rev (ct_pos c) with q :: _, r :: _ => Some (tf_q q r) | _, _ => None end
  else
    let r := s_0 (ct_ps c) u in
    let rv := s_0 (ct_rs c) u in
    if Rlt_dec (vnorm rv) (/ 10 ^ 12) then Some (tf I3 r)
    else Some (tf_q (quat_of_aa (vnorm rv) (vnormalized rv)) r).
(** core.cpp 1992-2000 *)
Definition ctraj_get_velocity (c : ctraj) (t : R) : vec3 :=
  vscale (1 / ct_gap c) (s_1 (ct_ps c) (ts_normalize c t)).
(** core.cpp 2002-2010 *)
Definition ctraj_get_acceleration (c : ctraj) (t : R) : vec3 :=
  vscale ((1 / ct_gap c) ^ 2) (s_2 (ct_ps c) (ts_normalize c t)).
(** core.cpp 2012-2036 *)
Definition ctraj_get_angular_velocity (c : ctraj) (t : R) : vec3 :=
  let u := ts_normalize c t in
  let scale := 1 / ct_gap c in
  let rvec := s_0 (ct_rs c) u in
  let rvec_deriv := vscale scale (s_1 (ct_rs c) u) in
  let n := vnorm rvec in
  if Rlt_dec n (/ 10 ^ 12) then rvec_deriv
  else
    let K := skew (vnormalized rvec) in
    mapp (madd (madd I3 (mscale ((1 - cos n) / n) K)) (mscale ((n - sin n) / n) (mmul K K))) rvec_deriv.
