(** * Angles and planar geometry (yac/lib/util/core.cpp 518-771)
    Exact real arithmetic (see GeomModel.v). A value that IEEE arithmetic would make NaN
    by a 0/0 division is modelled by [None]. *)
From Coq Require Import Reals List.
From Flocq Require Import Core.Raux.
From Verif Require Import GeomModel.
Import ListNotations.
Local Open Scope R_scope.

(** C's fmod: the remainder of the division whose quotient is truncated towards zero. *)
Definition fmod (x y : R) : R := x - y * IZR (Ztrunc (x / y)).

(** core.cpp 536 deg2rad(real_t) *)
Definition deg2rad (d : R) : R := d * (PI / 180).
(** core.cpp 540 rad2deg(real_t) *)
Definition rad2deg (r : R) : R := r * (180 / PI).
(** core.cpp 544-546 wrap180 *)
Definition wrap180 (x : R) : R := fmod (x + 180) 360 - 180.
(** core.cpp 548-554 wrap360 *)
Definition wrap360 (x : R) : R :=
  if Rlt_dec 0 x then fmod x 360 else fmod (x + 360) 360.
(** core.cpp 556 wrapPi *)
Definition wrapPi (r : R) : R := deg2rad (wrap180 (rad2deg r)).
(** core.cpp 558 wrap2Pi *)
Definition wrap2Pi (r : R) : R := deg2rad (wrap360 (rad2deg r)).

(** core.cpp 522-534 sinc *)
Definition sinc (x : R) : R :=
  if Rlt_dec (/ 1000000) (Rabs x) then sin x / x
  else
    let x_2 := x * x in
    let x_4 := x_2 * x_2 in
    let x_6 := x_2 * x_2 * x_2 in
    1 - (1 / 6) * x_2 + (1 / 120) * x_4 - (1 / 5040) * x_6.

(** core.cpp 560-562 circle *)
Definition circle (r theta : R) : vec2 := V2 (r * cos theta) (r * sin theta).
(** core.cpp 564-569 sphere *)
Definition sphere (rho theta phi : R) : vec3 :=
  V3 (rho * sin theta * cos phi) (rho * sin theta * sin phi) (rho * cos theta).

(** core.cpp 571-600 lookat: the two matrices [A] and [B]; the result is the 4x4 inverse of
    their product. Eigen's [.inverse()] is the matrix inverse; it has no meaningful result
    (infinities or NaN) for a singular argument, so the result is a relation here. *)
Definition lookat_dir (cam_pos target : vec3) : vec3 := vnormalized (vsub target cam_pos).
Definition lookat_right (cam_pos target up_axis : vec3) : vec3 :=
  vnormalized (vcross up_axis (lookat_dir cam_pos target)).
Definition lookat_up (cam_pos target up_axis : vec3) : vec3 :=
  vcross (lookat_dir cam_pos target) (lookat_right cam_pos target up_axis).
Definition lookat_A (cam_pos target up_axis : vec3) : mat4 :=
  let r := lookat_right cam_pos target up_axis in
  let u := lookat_up cam_pos target up_axis in
  let d := lookat_dir cam_pos target in
  M4 (vx r) (vy r) (vz r) 0
     (vx u) (vy u) (vz u) 0
     (vx d) (vy d) (vz d) 0
     0 0 0 1.
Definition lookat_B (cam_pos : vec3) : mat4 :=
  M4 1 0 0 (- vx cam_pos)
     0 1 0 (- vy cam_pos)
     0 0 1 (- vz cam_pos)
     0 0 0 1.
Definition lookat (cam_pos target up_axis : vec3) (result : mat4) : Prop :=
  let T_camera_target := mmul4 (lookat_A cam_pos target up_axis) (lookat_B cam_pos) in
  mmul4 T_camera_target result = I4 /\ mmul4 result T_camera_target = I4.

(** core.cpp 602-619 cross_track_error. Lines 608-612 set [y1 = p1(0)] and [y2 = p2(0)].
    [None] is the NaN of 0/0 (the numerator vanishes too when [d = 0]). *)
Definition cross_track_error (p1 p2 pos : vec2) : option R :=
  let x0 := v2x pos in
  let y0 := v2y pos in
  let x1 := v2x p1 in
  let y1 := v2x p1 in
  let x2 := v2x p2 in
  let y2 := v2x p2 in
  let n := (y2 - y1) * x0 - (x2 - x1) * y0 + x2 * y1 - y2 * x1 in
  let d := sqrt ((y2 - y1) ^ 2 + (x2 - x1) ^ 2) in
  if Req_EM_T d 0 then None else Some (Rabs n / d).

(** core.cpp 621-639 point_left_right *)
Definition point_left_right (a b c : vec2) : nat :=
  let x := (v2x b - v2x a) * (v2y c - v2y a) - (v2y b - v2y a) * (v2x c - v2x a) in
  if Rlt_dec 0 x then 1%nat else if Rlt_dec x 0 then 2%nat else 0%nat.

(** core.cpp 641-658 closest_point: the pair (returned [t], [closest]) *)
Definition closest_point (a b p : vec2) : R * vec2 :=
  if Req_EM_T (sqrt ((v2x a - v2x b) ^ 2 + (v2y a - v2y b) ^ 2)) 0 then (-1, a)
  else
    let v1 := V2 (v2x p - v2x a) (v2y p - v2y a) in
    let v2 := V2 (v2x b - v2x a) (v2y b - v2y a) in
    let t := (v2x v1 * v2x v2 + v2y v1 * v2y v2) / (v2x v2 ^ 2 + v2y v2 ^ 2) in
    (t, V2 (v2x a + t * v2x v2) (v2y a + t * v2y v2)).

(** core.cpp 660-702 fit_circle: the rows of [A x = b] for a point, ... *)
Definition fit_residual (p : vec2) (x : vec3) : R :=
  (-2 * v2x p) * vx x + (-2 * v2y p) * vy x + 1 * vz x
  - (- (v2x p * v2x p + v2y p * v2y p)).
Definition fit_cost (pts : list vec2) (x : vec3) : R :=
  fold_right (fun p acc => fit_residual p x ^ 2 + acc) 0 pts.
(** ... and the function. Eigen's JacobiSVD::solve returns a least-squares solution of
    [A x = b]; it is modelled by "any minimiser of the sum of squared residuals". *)
Definition fit_circle (pts : list vec2) (cx cy radius : R) : Prop :=
  exists x, (forall x', fit_cost pts x <= fit_cost pts x') /\
            cx = vx x /\ cy = vy x /\ radius = sqrt (cx * cx + cy * cy - vz x).

(** core.cpp 704-737 intersect_circles. [None] is a point with NaN coordinates: with
    coinciding centres line 724 computes 0/0 and no comparison with the NaN [h] succeeds. *)
Definition intersect_circles (cx0 cy0 r0 cx1 cy1 r1 : R) : list (option vec2) :=
  let d := sqrt ((cx0 - cx1) ^ 2 + (cy0 - cy1) ^ 2) in
  if Rlt_dec (r0 + r1) d then []
  else if Rlt_dec d (Rabs (r0 - r1)) then []
  else if Req_EM_T d 0 then [None; None]
  else
    let a := (r0 ^ 2 - r1 ^ 2 + d ^ 2) / (2 * d) in
    let h := sqrt (r0 ^ 2 - a ^ 2) in
    let x3 := cx0 + a * (cx1 - cx0) / d in
    let y3 := cy0 + a * (cy1 - cy0) / d in
    if Rlt_dec h (/ 10 ^ 10) then [Some (V2 x3 y3)]
    else [Some (V2 (x3 + h * (cy1 - cy0) / d) (y3 - h * (cx1 - cx0) / d));
          Some (V2 (x3 - h * (cy1 - cy0) / d) (y3 + h * (cx1 - cx0) / d))].

(** core.hpp 849 *)
Definition EARTH_RADIUS_M : R := 6378137.
(** core.cpp 739-747 latlon_offset: (lat_new, lon_new) *)
Definition latlon_offset (lat_ref lon_ref offset_N offset_E : R) : R * R :=
  (lat_ref + offset_E / EARTH_RADIUS_M,
   lon_ref + offset_N / EARTH_RADIUS_M / cos (deg2rad lat_ref)).
(** core.cpp 749-760 latlon_diff: (dist_N, dist_E) *)
Definition latlon_diff (lat_ref lon_ref lat lon : R) : R * R :=
  (deg2rad (lat - lat_ref) * EARTH_RADIUS_M,
   deg2rad (lon - lon_ref) * EARTH_RADIUS_M * cos (deg2rad lat)).
(** core.cpp 762-771 latlon_dist *)
Definition latlon_dist (lat_ref lon_ref lat lon : R) : R :=
  let d := latlon_diff lat_ref lon_ref lat lon in sqrt (fst d ^ 2 + snd d ^ 2).
