(** * Interpolation of orientations and poses (yac/lib/util/core.cpp 1574-1633, 1826-1849)
    Exact real arithmetic (see GeomModel.v). *)
From Coq Require Import Reals ZArith.
From Verif Require Import GeomModel LerpModel.
Local Open Scope R_scope.

(** Eigen's operations on the four coefficients *)
Definition qadd (p q : quat) : quat := Q (qw p + qw q) (qx p + qx q) (qy p + qy q) (qz p + qz q).
Definition qdot (p q : quat) : R := qx p * qx q + qy p * qy q + qz p * qz q + qw p * qw q.
Definition qsub (p q : quat) : quat := qadd p (qopp q).

(** core.cpp 1574-1616 slerp. Division by [sin_theta_0] is safe: the dot product is at most
    0.9995 there. *)
Definition slerp (q_start q_end : quat) (alpha : R) : quat :=
  let q0 := qnormalize q_start in
  let q1 := qnormalize q_end in
  let dot := qdot q0 q1 in
  let flip := if Rlt_dec dot 0 then true else false in
  let q1 := if flip then qopp q1 else q1 in
  let dot := if flip then - dot else dot in
  if Rlt_dec (9995 / 10000) dot then
    qnormalize (qadd q0 (qscale alpha (qsub q1 q0)))
  else
    let theta_0 := acos dot in
    let theta := theta_0 * alpha in
    let sin_theta := sin theta in
    let sin_theta_0 := sin theta_0 in
    let s0 := cos theta - dot * sin_theta / sin_theta_0 in
    let s1 := sin_theta / sin_theta_0 in
    qadd (qscale s0 q0) (qscale s1 q1).

(** Eigen's QuaternionBase::slerp: [q.slerp(t, other)] *)
Definition eigen_one : R := 1 - / 2 ^ 52.
Definition eigen_slerp (q : quat) (t : R) (other : quat) : quat :=
  let d := qdot q other in
  let absD := Rabs d in
  let theta := acos absD in
  let sin_theta := sin theta in
  let scale0 := if Rle_dec eigen_one absD then 1 - t else sin ((1 - t) * theta) / sin_theta in
  let scale1 := if Rle_dec eigen_one absD then t else sin (t * theta) / sin_theta in
  let scale1 := if Rlt_dec d 0 then - scale1 else scale1 in
  qadd (qscale scale0 q) (qscale scale1 other).

(** core.cpp 1618-1633 interp_pose (line 1629: [quat1.slerp(alpha, quat0)]) *)
Definition interp_pose (p0 p1 : mat4) (alpha : R) : mat4 :=
  let trans0 := tf_trans p0 in let quat0 := of_rot (tf_rot p0) in
  let trans1 := tf_trans p1 in let quat1 := of_rot (tf_rot p1) in
  let trans_interp := lerp trans0 trans1 alpha in
  let quat_interp := eigen_slerp quat1 alpha quat0 in
  tf_q quat_interp trans_interp.
(** core.cpp 1826-1849 lerp_pose; equal time stamps divide by zero (not a number): [None] *)
Definition lerp_pose (t0 : Z) (pose0 : mat4) (t1 : Z) (pose1 : mat4) (t_lerp : Z) : option mat4 :=
  if Z.eqb t1 t0 then None
  else Some (interp_pose pose0 pose1 (secs (t_lerp - t0) / secs (t1 - t0))).
