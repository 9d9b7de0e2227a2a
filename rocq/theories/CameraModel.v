(** * Camera projection, distortion and their Jacobians (yac/lib/util/cv.cpp 592-1102)
    Exact real arithmetic (see GeomModel.v). A quantity that is not a finite number (0/0 or
    x/0 in the code) is [None]. *)
From Coq Require Import Reals ZArith List Bool.
Import ListNotations.
From Verif Require Import GeomModel.
Local Open Scope R_scope.

(** [params] of a camera (vecx_t of size 8): proj_params = head(4), dist_params = tail(4) *)
Record cam8 := Cam { fx : R; fy : R; cx : R; cy : R; d0 : R; d1 : R; d2 : R; d3 : R }.

(** small matrices as functions of (row, column); [mulf n] is Eigen's product with inner
    dimension [n] *)
Definition matf := nat -> nat -> R.
Definition rows (l : list (list R)) : matf := fun i j => nth j (nth i l []) 0.
Fixpoint sum_to (n : nat) (f : nat -> R) : R :=
  match n with O => 0 | S k => sum_to k f + f k end.
Definition mulf (n : nat) (A B : matf) : matf := fun i j => sum_to n (fun k => A i k * B k j).

(** cv.cpp 594-618 radtan4_distort *)
Definition radtan4_distort (c : cam8) (p : vec2) : vec2 :=
  let x := v2x p in let y := v2y p in
  let k1 := d0 c in let k2 := d1 c in let p1 := d2 c in let p2 := d3 c in
  let x2 := x * x in let y2 := y * y in
  let r2 := x2 + y2 in let r4 := r2 * r2 in
  let radial_factor := 1 + k1 * r2 + k2 * r4 in
  let x_dash := x * radial_factor in
  let y_dash := y * radial_factor in
  let xy := x * y in
  V2 (x_dash + (2 * p1 * xy + p2 * (r2 + 2 * x2)))
     (y_dash + (2 * p2 * xy + p1 * (r2 + 2 * y2))).

(** cv.cpp 642-681 radtan4_point_jacobian *)
Definition radtan4_point_jacobian (c : cam8) (p : vec2) : matf :=
  let x := v2x p in let y := v2y p in
  let k1 := d0 c in let k2 := d1 c in let p1 := d2 c in let p2 := d3 c in
  let x2 := x * x in let y2 := y * y in
  let r2 := x2 + y2 in let r4 := r2 * r2 in
  let J00 := 1 + k1 * r2 + k2 * r4 + (2 * p1 * y + 6 * p2 * x)
             + x * (2 * k1 * x + 4 * k2 * x * r2) in
  let J10 := 2 * p1 * x + 2 * p2 * y + y * (2 * k1 * x + 4 * k2 * x * r2) in
  let J01 := J10 in
  let J11 := 1 + k1 * r2 + k2 * r4 + (6 * p1 * y + 2 * p2 * x)
             + y * (2 * k1 * y + 4 * k2 * y * r2) in
  rows [[J00; J01]; [J10; J11]].

(** cv.cpp 683-707 radtan4_params_jacobian *)
Definition radtan4_params_jacobian (c : cam8) (p : vec2) : matf :=
  let x := v2x p in let y := v2y p in
  let xy := x * y in let x2 := x * x in let y2 := y * y in
  let r2 := x2 + y2 in let r4 := r2 * r2 in
  rows [[x * r2; x * r4; 2 * xy; r2 + 2 * x2];
        [y * r2; y * r4; r2 + 2 * y2; 2 * xy]].

(** Eigen's norm() of a 2-vector *)
Definition norm2 (p : vec2) : R := sqrt (v2x p * v2x p + v2y p * v2y p).

(** the odd polynomial th * (1 + k1 th^2 + ... + k4 th^8) of cv.cpp 724-729 and 768-773 *)
Definition equi4_thd (c : cam8) (th : R) : R :=
  let th2 := th * th in let th4 := th2 * th2 in let th6 := th4 * th2 in let th8 := th4 * th4 in
  th * (1 + d0 c * th2 + d1 c * th4 + d2 c * th6 + d3 c * th8).

(** cv.cpp 711-733 equi4_distort *)
Definition equi4_distort (c : cam8) (p : vec2) : vec2 :=
  let r := norm2 p in
  if Rlt_dec r (/ 10 ^ 8) then p
  else
    let th := atan r in
    let thd := equi4_thd c th in
    V2 (thd / r * v2x p) (thd / r * v2y p).

(** cv.cpp 755-789 equi4_point_jacobian; line 774 divides by [r] *)
Definition equi4_point_jacobian (c : cam8) (p : vec2) : option matf :=
  let x := v2x p in let y := v2y p in
  let k1 := d0 c in let k2 := d1 c in let k3 := d2 c in let k4 := d3 c in
  let r := norm2 p in
  let th := atan r in
  let th2 := th * th in let th4 := th2 * th2 in let th6 := th4 * th2 in let th8 := th4 * th4 in
  let thd := equi4_thd c th in
  if Req_EM_T r 0 then None else
  let s := thd / r in
  let th_r := 1 / (r * r + 1) in
  let thd_th := 1 + 3 * k1 * th2 + 5 * k2 * th4 + 7 * k3 * th6 + 9 * k4 * th8 in
  let s_r := thd_th * th_r / r - thd / (r * r) in
  let r_x := 1 / r * x in
  let r_y := 1 / r * y in
  Some (rows [[s + x * s_r * r_x; x * s_r * r_y];
              [y * s_r * r_x; s + y * s_r * r_y]]).

(** cv.cpp 791-816 equi4_params_jacobian *)
Definition equi4_params_jacobian (c : cam8) (p : vec2) : option matf :=
  let x := v2x p in let y := v2y p in
  let r := norm2 p in
  let th := atan r in
  let th3 := th * th * th in let th5 := th3 * th * th in
  let th7 := th5 * th * th in let th9 := th7 * th * th in
  if Req_EM_T r 0 then None else
  Some (rows [[x * th3 / r; x * th5 / r; x * th7 / r; x * th9 / r];
              [y * th3 / r; y * th5 / r; y * th7 / r; y * th9 / r]]).

(** cv.cpp 820-822 project_point: both coordinates are infinite or NaN for depth zero *)
Definition project_point (p : vec3) : option vec2 :=
  if Req_EM_T (vz p) 0 then None else Some (V2 (vx p / vz p) (vy p / vz p)).
(** cv.cpp 824-840 project_jacobian *)
Definition project_jacobian (p : vec3) : option matf :=
  let x := vx p in let y := vy p in let z := vz p in
  if Req_EM_T z 0 then None else
  Some (rows [[1 / z; 0; - x / (z * z)];
              [0; 1 / z; - y / (z * z)]]).

(** cv.cpp 844-846 pinhole_focal (deg2rad: core.cpp 536) *)
Definition pinhole_focal (image_size : Z) (fov : R) : R :=
  (IZR image_size / 2) / tan (fov * (PI / 180) / 2).

(** What a projection function leaves behind: the return code and [z_hat] ([None]: not
    written, or not finite). *)
Record proj := Proj { code : Z; zhat : option vec2 }.
Definition rleb (a b : R) : bool := if Rle_dec a b then true else false.
Definition rltb (a b : R) : bool := if Rlt_dec a b then true else false.

(** cv.cpp 859-880 pinhole_project. For depth zero [z_ok] is false. *)
Definition pinhole_project (res : Z * Z) (c : cam8) (p_C : vec3) : proj :=
  match project_point p_C with
  | None => Proj (-1) None
  | Some x =>
      let z := V2 (fx c * v2x x + cx c) (fy c * v2y x + cy c) in
      let x_ok := rleb 0 (v2x z) && rleb (v2x z) (IZR (fst res)) in
      let y_ok := rleb 0 (v2y z) && rleb (v2y z) (IZR (snd res)) in
      let z_ok := rltb 0 (vz p_C) in
      Proj (if (x_ok && y_ok && z_ok)%bool then 0 else -1)%Z (Some z)
  end%bool.
(** cv.cpp 882-888 pinhole_point_jacobian *)
Definition pinhole_point_jacobian (c : cam8) : matf :=
  rows [[fx c; 0]; [0; fy c]].
(** cv.cpp 890-899 pinhole_params_jacobian *)
Definition pinhole_params_jacobian (x : vec2) : matf :=
  rows [[v2x x; 0; 1; 0]; [0; v2y x; 0; 1]].

(** cv.cpp 903-928 pinhole_radtan4_project *)
Definition pinhole_radtan4_project (res : Z * Z) (c : cam8) (p_C : vec3) : proj :=
  match project_point p_C with
  | None => Proj (-1) None
  | Some p =>
      let p_d := radtan4_distort c p in
      let z := V2 (fx c * v2x p_d + cx c) (fy c * v2y p_d + cy c) in
      let x_ok := rleb 0 (v2x z) && rltb (v2x z) (IZR (fst res)) in
      let y_ok := rleb 0 (v2y z) && rltb (v2y z) (IZR (snd res)) in
      let z_ok := rltb 0 (vz p_C) in
      Proj (if (x_ok && y_ok && z_ok)%bool then 0 else -1)%Z (Some z)
  end%bool.
(** cv.cpp 930-942 pinhole_radtan4_project_jacobian *)
Definition pinhole_radtan4_project_jacobian (c : cam8) (p_C : vec3) : option matf :=
  match project_point p_C, project_jacobian p_C with
  | Some p, Some J_p =>
      let J_k := pinhole_point_jacobian c in
      let J_d := radtan4_point_jacobian c p in
      Some (mulf 2 (mulf 2 J_k J_d) J_p)
  | _, _ => None
  end.
(** [J_params.block(0, 0, 2, 4) = A; J_params.block(0, 4, 2, 4) = B] *)
Definition hcat4 (A B : matf) : matf := fun i j => if (j <? 4)%nat then A i j else B i (j - 4)%nat.
(** cv.cpp 944-962 pinhole_radtan4_params_jacobian *)
Definition pinhole_radtan4_params_jacobian (c : cam8) (p_C : vec3) : option matf :=
  match project_point p_C with
  | Some p =>
      let p_d := radtan4_distort c p in
      let J_proj_params := pinhole_params_jacobian p_d in
      let J_proj_point := pinhole_point_jacobian c in
      let J_dist_params := radtan4_params_jacobian c p in
      Some (hcat4 J_proj_params (mulf 2 J_proj_point J_dist_params))
  | None => None
  end.

(** cv.cpp 1004-1033 pinhole_equi4_project. For depth zero the test on line 1013 passes, the
    projected point has no finite coordinate, the pixel is NaN (0 * inf, or NaN already) and
    every comparison on lines 1027-1028 fails: the result is -2. *)
Definition pinhole_equi4_project (res : Z * Z) (c : cam8) (p_C : vec3) : proj :=
  if Rlt_dec (vz p_C) 0 then Proj (-1) None
  else
  match project_point p_C with
  | None => Proj (-2) None
  | Some p =>
      let p_d := equi4_distort c p in
      let z := V2 (fx c * v2x p_d + cx c) (fy c * v2y p_d + cy c) in
      let x_ok := rleb 0 (v2x z) && rleb (v2x z) (IZR (fst res)) in
      let y_ok := rleb 0 (v2y z) && rleb (v2y z) (IZR (snd res)) in
      Proj (if (x_ok && y_ok)%bool then 0 else -2)%Z (Some z)
  end%bool.
(** cv.cpp 1035-1046 pinhole_equi4_project_jacobian *)
Definition pinhole_equi4_project_jacobian (c : cam8) (p_C : vec3) : option matf :=
  match project_point p_C, project_jacobian p_C with
  | Some p, Some J_p =>
      match equi4_point_jacobian c p with
      | Some J_d => Some (mulf 2 (mulf 2 (pinhole_point_jacobian c) J_d) J_p)
      | None => None
      end
  | _, _ => None
  end.
(** cv.cpp 1048-1065 pinhole_equi4_params_jacobian *)
Definition pinhole_equi4_params_jacobian (c : cam8) (p_C : vec3) : option matf :=
  match project_point p_C with
  | Some p =>
      match equi4_params_jacobian c p with
      | Some J_dist_params =>
          Some (hcat4 (pinhole_params_jacobian (equi4_distort c p))
                      (mulf 2 (pinhole_point_jacobian c) J_dist_params))
      | None => None
      end
  | None => None
  end.

(** cv.cpp 735-753 equi4_undistort: twenty fixed point iterations; a vanishing denominator
    (of an iteration, or [thd] itself on line 751) gives no number. *)
Definition equi4_den (c : cam8) (th : R) : R :=
  let th2 := th * th in let th4 := th2 * th2 in let th6 := th4 * th2 in let th8 := th4 * th4 in
  1 + d0 c * th2 + d1 c * th4 + d2 c * th6 + d3 c * th8.
Fixpoint equi4_iter (n : nat) (c : cam8) (thd th : R) : option R :=
  match n with
  | O => Some th
  | S k =>
      let den := equi4_den c th in
      if Req_EM_T den 0 then None else equi4_iter k c thd (thd / den)
  end.
Definition equi4_undistort (c : cam8) (p : vec2) : option vec2 :=
  let thd := sqrt (v2x p * v2x p + v2y p * v2y p) in
  match equi4_iter 20 c thd thd with
  | None => None
  | Some th =>
      if Req_EM_T thd 0 then None
      else let scaling := tan th / thd in Some (V2 (v2x p * scaling) (v2y p * scaling))
  end.

(** cv.cpp 620-640 radtan4_undistort: at most five Gauss-Newton steps
    dp = (J^T J)^-1 J^T err; the inverse of a singular 2x2 matrix is not finite. *)
Definition gn_step (J : matf) (err : vec2) : option vec2 :=
  let JtJ := mulf 2 (fun i j => J j i) J in
  let a := JtJ 0%nat 0%nat in let b := JtJ 0%nat 1%nat in
  let c := JtJ 1%nat 0%nat in let d := JtJ 1%nat 1%nat in
  let det := a * d - b * c in
  if Req_EM_T det 0 then None
  else
    let inv := rows [[d / det; - b / det]; [- c / det; a / det]] in
    let G := mulf 2 inv (fun i j => J j i) in
    Some (V2 (G 0%nat 0%nat * v2x err + G 0%nat 1%nat * v2y err)
             (G 1%nat 0%nat * v2x err + G 1%nat 1%nat * v2y err)).
Fixpoint radtan4_iter (n : nat) (c : cam8) (p0 p : vec2) : option vec2 :=
  match n with
  | O => Some p
  | S k =>
      let q := radtan4_distort c p in
      let err := V2 (v2x p0 - v2x q) (v2y p0 - v2y q) in
      match gn_step (radtan4_point_jacobian c p) err with
      | None => None
      | Some dp =>
          let p' := V2 (v2x p + v2x dp) (v2y p + v2y dp) in
          if Rlt_dec (v2x err * v2x err + v2y err * v2y err) (/ 10 ^ 15) then Some p'
          else radtan4_iter k c p0 p'
      end
  end.
Definition radtan4_undistort (c : cam8) (p0 : vec2) : option vec2 := radtan4_iter 5 c p0 p0.

(** cv.cpp 964-981 and 1067-1084 back_project (the ray; the return code is always 0), and
    983-1000 / 1086-1102 undistort, for either distortion model [und]. [None]: not finite. *)
Definition normalized_coords (c : cam8) (x : vec2) : option vec2 :=
  if Req_EM_T (fx c) 0 then None else if Req_EM_T (fy c) 0 then None
  else Some (V2 ((v2x x - cx c) / fx c) ((v2y x - cy c) / fy c)).
Definition back_project (und : cam8 -> vec2 -> option vec2) (c : cam8) (x : vec2) : option vec3 :=
  match normalized_coords c x with
  | None => None
  | Some p => match und c p with None => None | Some k => Some (V3 (v2x k) (v2y k) 1) end
  end.
Definition undistort_pixel (und : cam8 -> vec2 -> option vec2) (c : cam8) (z : vec2) : option vec2 :=
  match normalized_coords c z with
  | None => None
  | Some p =>
      match und c p with
      | None => None
      | Some k => Some (V2 (v2x k * fx c + cx c) (v2y k * fy c + cy c))
      end
  end.
Definition pinhole_radtan4_back_project := back_project radtan4_undistort.
Definition pinhole_equi4_back_project := back_project equi4_undistort.
Definition pinhole_radtan4_undistort := undistort_pixel radtan4_undistort.
Definition pinhole_equi4_undistort := undistort_pixel equi4_undistort.
