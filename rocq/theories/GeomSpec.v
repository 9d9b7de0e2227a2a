(** Specification vocabulary for rotations and rigid transforms (C26, C46-C48). *)
From Coq Require Import Reals.
From Verif Require Import GeomModel.
Local Open Scope R_scope.

(** proper rotation: orthonormal columns and determinant one *)
Definition IsRot (C : mat3) : Prop := mmul (mtr C) C = I3 /\ mdet C = 1.
(** rigid transform: [C r; 0 1] with [C] a rotation *)
Definition Rigid (T : mat4) : Prop := exists C r, IsRot C /\ T = tf C r.
(** [B] is the two-sided inverse of [A] *)
Definition Inverse4 (A B : mat4) : Prop := mmul4 A B = I4 /\ mmul4 B A = I4.
Definition unitq (q : quat) : Prop := qnorm2 q = 1.
(** Rodrigues' formula: the rotation by [theta] about the unit axis [u] *)
Definition rodrigues (u : vec3) (theta : R) : mat3 :=
  madd (madd I3 (mscale (sin theta) (skew u)))
       (mscale (1 - cos theta) (mmul (skew u) (skew u))).
(** Hamilton product written on (scalar, vector) parts:
    (a,u)(b,v) = (ab - u.v, a v + b u + u x v) *)
Definition qv (q : quat) : vec3 := V3 (qx q) (qy q) (qz q).
Definition hamilton (p q : quat) : quat :=
  let v := vadd (vadd (vscale (qw p) (qv q)) (vscale (qw q) (qv p))) (vcross (qv p) (qv q)) in
  Q (qw p * qw q - vdot (qv p) (qv q)) (vx v) (vy v) (vz v).
(** the quaternion as a column (w,x,y,z) and as a column (x,y,z,w) *)
Definition col_wxyz (q : quat) : vec4 := V4 (qw q) (qx q) (qy q) (qz q).
Definition col_xyzw (q : quat) : vec4 := V4 (qx q) (qy q) (qz q) (qw q).
