(** * Geometry: small vectors and matrices over R, rigid transforms, rotations,
      quaternions (yac/lib/util/core.cpp 345-362, 522-534, 778-815, 1020-1470;
      yac/lib/util/ceres_utils.cpp; yac/lib/calib_params.cpp 108-127).

    Simplification used in every file over [R]: [real_t] (double) is modelled by exact real
    arithmetic (rounding, overflow and NaN are not modelled), [M_PI] by [PI].
    Eigen's fixed-size vectors and matrices are records of their coefficients; Eigen's
    product, transpose, norm ... are the textbook operations. *)
From Coq Require Export Reals Lra.
From Coq Require Import Bool Arith.
Local Open Scope R_scope.

Record vec2 := V2 { v2x : R; v2y : R }.
Record vec3 := V3 { vx : R; vy : R; vz : R }.
Record vec4 := V4 { wx : R; wy : R; wz : R; ww : R }.
(** mat3_t, row by row *)
Record mat3 := M3 { m00 : R; m01 : R; m02 : R;
                    m10 : R; m11 : R; m12 : R;
                    m20 : R; m21 : R; m22 : R }.
(** mat4_t, row by row *)
Record mat4 := M4 { n00 : R; n01 : R; n02 : R; n03 : R;
                    n10 : R; n11 : R; n12 : R; n13 : R;
                    n20 : R; n21 : R; n22 : R; n23 : R;
                    n30 : R; n31 : R; n32 : R; n33 : R }.
(** quat_t{w, x, y, z} (Eigen constructor order) *)
Record quat := Q { qw : R; qx : R; qy : R; qz : R }.

(** ** Eigen primitives *)
Definition vadd (a b : vec3) : vec3 := V3 (vx a + vx b) (vy a + vy b) (vz a + vz b).
Definition vsub (a b : vec3) : vec3 := V3 (vx a - vx b) (vy a - vy b) (vz a - vz b).
Definition vopp (a : vec3) : vec3 := V3 (- vx a) (- vy a) (- vz a).
Definition vscale (s : R) (a : vec3) : vec3 := V3 (s * vx a) (s * vy a) (s * vz a).
Definition vdot (a b : vec3) : R := vx a * vx b + vy a * vy b + vz a * vz b.
Definition vcross (a b : vec3) : vec3 :=
  V3 (vy a * vz b - vz a * vy b) (vz a * vx b - vx a * vz b) (vx a * vy b - vy a * vx b).
Definition vnorm (a : vec3) : R := sqrt (vdot a a).
(** Eigen's normalized(): divides by the norm when the squared norm is positive, otherwise
    returns the vector itself *)
Definition vnormalized (a : vec3) : vec3 :=
  if Rlt_dec 0 (vdot a a) then vscale (/ vnorm a) a else a.
Definition vzero : vec3 := V3 0 0 0.

Definition I3 : mat3 := M3 1 0 0 0 1 0 0 0 1.
Definition Z3 : mat3 := M3 0 0 0 0 0 0 0 0 0.
Definition I4 : mat4 := M4 1 0 0 0 0 1 0 0 0 0 1 0 0 0 0 1.
Definition madd (a b : mat3) : mat3 :=
  M3 (m00 a + m00 b) (m01 a + m01 b) (m02 a + m02 b)
     (m10 a + m10 b) (m11 a + m11 b) (m12 a + m12 b)
     (m20 a + m20 b) (m21 a + m21 b) (m22 a + m22 b).
Definition mscale (s : R) (a : mat3) : mat3 :=
  M3 (s * m00 a) (s * m01 a) (s * m02 a)
     (s * m10 a) (s * m11 a) (s * m12 a)
     (s * m20 a) (s * m21 a) (s * m22 a).
Definition msub (a b : mat3) : mat3 := madd a (mscale (-1) b).
Definition mmul (a b : mat3) : mat3 :=
  M3 (m00 a * m00 b + m01 a * m10 b + m02 a * m20 b)
     (m00 a * m01 b + m01 a * m11 b + m02 a * m21 b)
     (m00 a * m02 b + m01 a * m12 b + m02 a * m22 b)
     (m10 a * m00 b + m11 a * m10 b + m12 a * m20 b)
     (m10 a * m01 b + m11 a * m11 b + m12 a * m21 b)
     (m10 a * m02 b + m11 a * m12 b + m12 a * m22 b)
     (m20 a * m00 b + m21 a * m10 b + m22 a * m20 b)
     (m20 a * m01 b + m21 a * m11 b + m22 a * m21 b)
     (m20 a * m02 b + m21 a * m12 b + m22 a * m22 b).
Definition mtr (a : mat3) : mat3 :=
  M3 (m00 a) (m10 a) (m20 a) (m01 a) (m11 a) (m21 a) (m02 a) (m12 a) (m22 a).
Definition mapp (a : mat3) (v : vec3) : vec3 :=
  V3 (m00 a * vx v + m01 a * vy v + m02 a * vz v)
     (m10 a * vx v + m11 a * vy v + m12 a * vz v)
     (m20 a * vx v + m21 a * vy v + m22 a * vz v).
Definition mdet (a : mat3) : R :=
  m00 a * (m11 a * m22 a - m12 a * m21 a)
  - m01 a * (m10 a * m22 a - m12 a * m20 a)
  + m02 a * (m10 a * m21 a - m11 a * m20 a).

Definition mmul4 (a b : mat4) : mat4 :=
  M4 (n00 a * n00 b + n01 a * n10 b + n02 a * n20 b + n03 a * n30 b)
     (n00 a * n01 b + n01 a * n11 b + n02 a * n21 b + n03 a * n31 b)
     (n00 a * n02 b + n01 a * n12 b + n02 a * n22 b + n03 a * n32 b)
     (n00 a * n03 b + n01 a * n13 b + n02 a * n23 b + n03 a * n33 b)
     (n10 a * n00 b + n11 a * n10 b + n12 a * n20 b + n13 a * n30 b)
     (n10 a * n01 b + n11 a * n11 b + n12 a * n21 b + n13 a * n31 b)
     (n10 a * n02 b + n11 a * n12 b + n12 a * n22 b + n13 a * n32 b)
     (n10 a * n03 b + n11 a * n13 b + n12 a * n23 b + n13 a * n33 b)
     (n20 a * n00 b + n21 a * n10 b + n22 a * n20 b + n23 a * n30 b)
     (n20 a * n01 b + n21 a * n11 b + n22 a * n21 b + n23 a * n31 b)
     (n20 a * n02 b + n21 a * n12 b + n22 a * n22 b + n23 a * n32 b)
     (n20 a * n03 b + n21 a * n13 b + n22 a * n23 b + n23 a * n33 b)
     (n30 a * n00 b + n31 a * n10 b + n32 a * n20 b + n33 a * n30 b)
     (n30 a * n01 b + n31 a * n11 b + n32 a * n21 b + n33 a * n31 b)
     (n30 a * n02 b + n31 a * n12 b + n32 a * n22 b + n33 a * n32 b)
     (n30 a * n03 b + n31 a * n13 b + n32 a * n23 b + n33 a * n33 b).
Definition mapp4 (a : mat4) (v : vec4) : vec4 :=
  V4 (n00 a * wx v + n01 a * wy v + n02 a * wz v + n03 a * ww v)
     (n10 a * wx v + n11 a * wy v + n12 a * wz v + n13 a * ww v)
     (n20 a * wx v + n21 a * wy v + n22 a * wz v + n23 a * ww v)
     (n30 a * wx v + n31 a * wy v + n32 a * wz v + n33 a * ww v).

(** Eigen's quaternion product [p * q] *)
Definition qmul (p q : quat) : quat :=
  Q (qw p * qw q - qx p * qx q - qy p * qy q - qz p * qz q)
    (qw p * qx q + qx p * qw q + qy p * qz q - qz p * qy q)
    (qw p * qy q + qy p * qw q + qz p * qx q - qx p * qz q)
    (qw p * qz q + qz p * qw q + qx p * qy q - qy p * qx q).
Definition qnorm2 (q : quat) : R := qw q * qw q + qx q * qx q + qy q * qy q + qz q * qz q.
Definition qconj (q : quat) : quat := Q (qw q) (- qx q) (- qy q) (- qz q).
Definition qscale (s : R) (q : quat) : quat := Q (s * qw q) (s * qx q) (s * qy q) (s * qz q).
Definition qopp (q : quat) : quat := qscale (-1) q.
(** Eigen's normalize() *)
Definition qnormalize (q : quat) : quat :=
  if Rlt_dec 0 (qnorm2 q) then qscale (/ sqrt (qnorm2 q)) q else q.
(** Eigen's inverse(): conjugate / squared norm, the zero quaternion when the norm is 0 *)
Definition qinverse (q : quat) : quat :=
  if Rlt_dec 0 (qnorm2 q) then qscale (/ qnorm2 q) (qconj q) else Q 0 0 0 0.
(** Eigen's coeffs(): (x, y, z, w) *)
Definition coeffs (q : quat) : vec4 := V4 (qx q) (qy q) (qz q) (qw q).
(** Eigen's toRotationMatrix() *)
Definition to_rot (q : quat) : mat3 :=
  let tx := 2 * qx q in let ty := 2 * qy q in let tz := 2 * qz q in
  let twx := tx * qw q in let twy := ty * qw q in let twz := tz * qw q in
  let txx := tx * qx q in let txy := ty * qx q in let txz := tz * qx q in
  let tyy := ty * qy q in let tyz := tz * qy q in let tzz := tz * qz q in
  M3 (1 - (tyy + tzz)) (txy - twz) (txz + twy)
     (txy + twz) (1 - (txx + tzz)) (tyz - twx)
     (txz - twy) (tyz + twx) (1 - (txx + tyy)).
(** Eigen's Quaternion(Matrix3): quaternionbase_assign_impl, Shoemake's method *)
Definition of_rot (m : mat3) : quat :=
  let t := m00 m + m11 m + m22 m in
  if Rlt_dec 0 t then
    let s := sqrt (t + 1) in
    let k := / 2 / s in
    Q (/ 2 * s) ((m21 m - m12 m) * k) ((m02 m - m20 m) * k) ((m10 m - m01 m) * k)
  else if (if Rlt_dec (m00 m) (m11 m) then true else false) then
    if Rlt_dec (m11 m) (m22 m) then (* i = 2 *)
      let s := sqrt (m22 m - m00 m - m11 m + 1) in
      let k := / 2 / s in
      Q ((m10 m - m01 m) * k) ((m02 m + m20 m) * k) ((m12 m + m21 m) * k) (/ 2 * s)
    else (* i = 1 *)
      let s := sqrt (m11 m - m22 m - m00 m + 1) in
      let k := / 2 / s in
      Q ((m02 m - m20 m) * k) ((m01 m + m10 m) * k) (/ 2 * s) ((m21 m + m12 m) * k)
  else
    if Rlt_dec (m00 m) (m22 m) then (* i = 2 *)
      let s := sqrt (m22 m - m00 m - m11 m + 1) in
      let k := / 2 / s in
      Q ((m10 m - m01 m) * k) ((m02 m + m20 m) * k) ((m12 m + m21 m) * k) (/ 2 * s)
    else (* i = 0 *)
      let s := sqrt (m00 m - m11 m - m22 m + 1) in
      let k := / 2 / s in
      Q ((m21 m - m12 m) * k) (/ 2 * s) ((m10 m + m01 m) * k) ((m20 m + m02 m) * k).

(** ** core.cpp *)
(** core.cpp 349-357 *)
Definition skew (w : vec3) : mat3 :=
  M3 0 (- vz w) (vy w)
     (vz w) 0 (- vx w)
     (- vy w) (vx w) 0.
(** w * w.transpose() *)
Definition outer (w : vec3) : mat3 :=
  M3 (vx w * vx w) (vx w * vy w) (vx w * vz w)
     (vy w * vx w) (vy w * vy w) (vy w * vz w)
     (vz w * vx w) (vz w * vy w) (vz w * vz w).
(** core.cpp 359-362 *)
Definition skewsq (w : vec3) : mat3 := msub (outer w) (mscale (vnorm w ^ 2) I3).

(** core.cpp 522-534 *)
Definition sinc (x : R) : R :=
  if Rlt_dec (/ 10 ^ 6) (Rabs x) then sin x / x
  else
    let c_2 := 1 / 6 in let c_4 := 1 / 120 in let c_6 := 1 / 5040 in
    let x_2 := x * x in let x_4 := x_2 * x_2 in let x_6 := x_2 * x_2 * x_2 in
    1 - c_2 * x_2 + c_4 * x_4 - c_6 * x_6.

(** lie::Exp, core.cpp 778-793 *)
Definition lie_Exp (phi : vec3) : mat3 :=
  let norm := vnorm phi in
  if Rlt_dec norm (/ 10 ^ 3) then madd I3 (skew phi)
  else
    let S := skew phi in
    madd (madd I3 (mscale (sin norm / norm) S))
         (mscale ((1 - cos norm) / (norm * norm)) (mmul S S)).
(** lie::Jr, core.cpp 800-811 *)
Definition lie_Jr (psi : vec3) : mat3 :=
  let n := vnorm psi in
  let n2 := n * n in let n3 := n2 * n in
  let S := skew psi in let S2 := mmul S S in
  madd (msub I3 (mscale ((1 - cos n) / n2) S)) (mscale ((n - sin n) / n3) S2).
(** rightJacobian, ceres_utils.cpp 40-54 *)
Definition right_jacobian (phi : vec3) : mat3 :=
  let n := vnorm phi in
  let S := skew phi in let S2 := mmul S S in
  if Rlt_dec n (/ 10 ^ 4) then
    madd I3 (madd (mscale (- (1 / 2)) S) (mscale (1 / 6) S2))
  else
    let n2 := n * n in let n3 := n2 * n in
    madd I3 (madd (mscale (- (1 - cos n) / n2) S) (mscale ((n - sin n) / n3) S2)).

(** tf(C, r), core.cpp 1033-1038 *)
Definition tf (C : mat3) (r : vec3) : mat4 :=
  M4 (m00 C) (m01 C) (m02 C) (vx r)
     (m10 C) (m11 C) (m12 C) (vy r)
     (m20 C) (m21 C) (m22 C) (vz r)
     0 0 0 1.
(** tf(q, r), core.cpp 1040-1042 *)
Definition tf_q (q : quat) (r : vec3) : mat4 := tf (to_rot q) r.
(** core.hpp 1058, 1063, 1068 *)
Definition tf_rot (T : mat4) : mat3 :=
  M3 (n00 T) (n01 T) (n02 T) (n10 T) (n11 T) (n12 T) (n20 T) (n21 T) (n22 T).
Definition tf_quat (T : mat4) : quat := of_rot (tf_rot T).
Definition tf_trans (T : mat4) : vec3 := V3 (n03 T) (n13 T) (n23 T).
(** core.cpp 1044-1048 *)
Definition tf_inv (T : mat4) : mat4 :=
  let r := tf_trans T in
  let C := tf_rot T in
  tf (mtr C) (mapp (mscale (-1) (mtr C)) r).
(** tf_point, core.cpp 1106-1108: (T * p.homogeneous()).head(3) *)
Definition tf_point (T : mat4) (p : vec3) : vec3 :=
  let h := mapp4 T (V4 (vx p) (vy p) (vz p) 1) in V3 (wx h) (wy h) (wz h).

(** A pose_t parameter block: 7 doubles (rx, ry, rz, qx, qy, qz, qw) *)
Record pose := P { p_r : vec3; p_q : quat }.
(** tf(const double *params), core.cpp 1020-1024; pose_t::tf, calib_params.cpp 70 *)
Definition tf_pose (p : pose) : mat4 := tf_q (p_q p) (p_r p).
(** tf_vec, core.cpp 1050-1057 *)
Definition tf_vec (T : mat4) : pose := P (tf_trans T) (tf_quat T).

(** core.cpp 1180-1214 *)
Definition rotx (t : R) : mat3 := M3 1 0 0 0 (cos t) (sin t) 0 (- sin t) (cos t).
Definition roty (t : R) : mat3 := M3 (cos t) 0 (- sin t) 0 1 0 (sin t) 0 (cos t).
Definition rotz (t : R) : mat3 := M3 (cos t) (sin t) 0 (- sin t) (cos t) 0 0 0 1.
(** core.cpp 1216-1242 *)
Definition euler123 (e : vec3) : mat3 :=
  let phi := vx e in let theta := vy e in let psi := vz e in
  let R11 := cos psi * cos theta in
  let R21 := cos psi * sin theta * sin phi - sin psi * cos phi in
  let R31 := cos psi * sin theta * cos phi + sin psi * sin phi in
  let R12 := sin psi * cos theta in
  let R22 := sin psi * sin theta * sin phi + cos psi * cos phi in
  let R32 := sin psi * sin theta * cos phi - cos psi * sin phi in
  let R13 := - sin theta in
  let R23 := cos theta * sin phi in
  let R33 := cos theta * cos phi in
  M3 R11 R12 R13 R21 R22 R23 R31 R32 R33.
(** core.cpp 1244-1270 *)
Definition euler321 (e : vec3) : mat3 :=
  let phi := vx e in let theta := vy e in let psi := vz e in
  let R11 := cos psi * cos theta in
  let R21 := sin psi * cos theta in
  let R31 := - sin theta in
  let R12 := cos psi * sin theta * sin phi - sin psi * cos phi in
  let R22 := sin psi * sin theta * sin phi + cos psi * cos phi in
  let R32 := cos theta * sin phi in
  let R13 := cos psi * sin theta * cos phi + sin psi * sin phi in
  let R23 := sin psi * sin theta * cos phi - cos psi * sin phi in
  let R33 := cos theta * cos phi in
  M3 R11 R12 R13 R21 R22 R23 R31 R32 R33.
(** core.cpp 1272-1291 *)
Definition euler2quat (e : vec3) : quat :=
  let c_phi := cos (vx e / 2) in let c_theta := cos (vy e / 2) in let c_psi := cos (vz e / 2) in
  let s_phi := sin (vx e / 2) in let s_theta := sin (vy e / 2) in let s_psi := sin (vz e / 2) in
  let x := s_phi * c_theta * c_psi - c_phi * s_theta * s_psi in
  let y := c_phi * s_theta * c_psi + s_phi * c_theta * s_psi in
  let z := c_phi * c_theta * s_psi - s_phi * s_theta * c_psi in
  let w := c_phi * c_theta * c_psi + s_phi * s_theta * s_psi in
  let mag := sqrt (w * w + x * x + y * y + z * z) in
  Q (w / mag) (x / mag) (y / mag) (z / mag).
(** core.cpp 1393-1420 *)
Definition quat2rot (q : quat) : mat3 :=
  let qx2 := qx q * qx q in let qy2 := qy q * qy q in
  let qz2 := qz q * qz q in let qw2 := qw q * qw q in
  M3 (qw2 + qx2 - qy2 - qz2) (2 * (qx q * qy q - qw q * qz q)) (2 * (qx q * qz q + qw q * qy q))
     (2 * (qx q * qy q + qw q * qz q)) (qw2 - qx2 + qy2 - qz2) (2 * (qy q * qz q - qw q * qx q))
     (2 * (qx q * qz q - qw q * qy q)) (2 * (qy q * qz q + qw q * qx q)) (qw2 - qx2 - qy2 + qz2).
(** core.cpp 1293-1326 (the matrix it builds from qw..qz is the one of quat2rot) *)
Definition vecs2rot (a g : vec3) : mat3 :=
  let cos_theta := vdot (vnormalized a) (vnormalized g) in
  let half_cos := sqrt (1 / 2 * (1 + cos_theta)) in
  let half_sin := sqrt (1 / 2 * (1 - cos_theta)) in
  let w := vnormalized (vcross a g) in
  quat2rot (Q half_cos (half_sin * vx w) (half_sin * vy w) (half_sin * vz w)).
(** core.cpp 1328-1373 *)
Definition rvec2rot (rvec : vec3) (eps : R) : mat3 :=
  let theta := sqrt (vdot rvec rvec) in
  if Rlt_dec theta eps then
    M3 1 (- vz rvec) (vy rvec)
       (vz rvec) 1 (- vx rvec)
       (- vy rvec) (vx rvec) 1
  else
    let x := vx rvec / theta in let y := vy rvec / theta in let z := vz rvec / theta in
    let c := cos theta in let s := sin theta in let C := 1 - c in
    let xs := x * s in let ys := y * s in let zs := z * s in
    let xC := x * C in let yC := y * C in let zC := z * C in
    let xyC := x * yC in let yzC := y * zC in let zxC := z * xC in
    M3 (x * xC + c) (xyC - zs) (zxC + ys)
       (xyC + zs) (y * yC + c) (yzC - xs)
       (zxC - ys) (yzC + xs) (z * zC + c).
(** core.cpp 1422-1427; deltaQ (ceres_utils.cpp 56-62) is the same formula *)
Definition quat_delta (d : vec3) : quat :=
  let half_norm := 1 / 2 * vnorm d in
  let v := vscale (sinc half_norm * (1 / 2)) d in
  Q (cos half_norm) (vx v) (vy v) (vz v).
(** core.cpp 1429-1442 *)
Definition quat_lmul (q : quat) : mat4 :=
  M4 (qw q) (- qx q) (- qy q) (- qz q)
     (qx q) (qw q) (- qz q) (qy q)
     (qy q) (qz q) (qw q) (- qx q)
     (qz q) (- qy q) (qx q) (qw q).
(** core.cpp 1449-1462 *)
Definition quat_rmul (q : quat) : mat4 :=
  M4 (qw q) (- qx q) (- qy q) (- qz q)
     (qx q) (qw q) (qz q) (- qy q)
     (qy q) (- qz q) (qw q) (qx q)
     (qz q) (qy q) (- qx q) (qw q).
(** bottomRightCorner<3,3>, core.cpp 1444-1447, 1464-1469 *)
Definition quat_mat_xyz (T : mat4) : mat3 :=
  M3 (n11 T) (n12 T) (n13 T) (n21 T) (n22 T) (n23 T) (n31 T) (n32 T) (n33 T).
(** static quat_inv / quat_mul on double[4] = (w,x,y,z), core.cpp 1113-1147 *)
Definition quat4_inv (q : quat) : quat := Q (qw q) (- qx q) (- qy q) (- qz q).
Definition quat4_mul (p q : quat) : quat :=
  let pw := qw p in let px := qx p in let py := qy p in let pz := qz p in
  Q (pw * qw q - px * qx q - py * qy q - pz * qz q)
    (px * qw q + pw * qx q - pz * qy q + py * qz q)
    (py * qw q + pz * qx q + pw * qy q - px * qz q)
    (pz * qw q - py * qx q + px * qy q + pw * qz q).
(** pose_diff, core.cpp 1149-1178.  A pose is stored (rx,ry,rz,qx,qy,qz,qw) but its last
    four numbers are read as (w,x,y,z) *)
Definition reread (q : quat) : quat := Q (qx q) (qy q) (qz q) (qw q).
Definition pose_diff (p0 p1 : pose) : R * R :=
  let dq := quat4_mul (quat4_inv (reread (p_q p0))) (reread (p_q p1)) in
  (vnorm (vsub (p_r p0) (p_r p1)), vnorm (V3 (2 * qx dq) (2 * qy dq) (2 * qz dq))).

(** ** ceres_utils.cpp *)
(** plus, ceres_utils.cpp 5-25 ([q] = (x,y,z,w)) *)
Definition Qplus (q : quat) : mat4 :=
  let x := qx q in let y := qy q in let z := qz q in let w := qw q in
  M4 w (- z) y x
     z w (- x) y
     (- y) x w z
     (- x) (- y) (- z) w.
(** oplus, ceres_utils.cpp 27-37 *)
Definition Qoplus (q : quat) : mat4 :=
  let x := qx q in let y := qy q in let z := qz q in let w := qw q in
  M4 w z (- y) x
     (- z) w x y
     y (- x) w z
     (- x) (- y) (- z) w.

(** A tangent vector: 6 doubles (dr, dalpha) *)
Record tang := Tg { d_r : vec3; d_a : vec3 }.
Definition tzero : tang := Tg vzero vzero.
Definition topp (d : tang) : tang := Tg (vopp (d_r d)) (vopp (d_a d)).
(** PoseLocalParameterization::Plus, ceres_utils.cpp 98-128 *)
Definition ceres_Plus (x : pose) (delta : tang) : pose :=
  let T := tf_pose x in
  let q := tf_quat T in
  let dq := quat_delta (d_a delta) in
  P (vadd (tf_trans T) (d_r delta)) (qnormalize (qmul dq q)).
(** pose_t::plus, calib_params.cpp 108-123 *)
Definition pose_plus (x : pose) (dx : tang) : pose :=
  P (vadd (p_r x) (d_r dx)) (qmul (quat_delta (d_a dx)) (p_q x)).
(** pose_t::minus, calib_params.cpp 125-127 *)
Definition pose_minus (x : pose) (dx : tang) : pose := pose_plus x (topp dx).

(** The 7x6 matrix of PlusJacobian (ceres_utils.cpp 130-153) has the block structure
    diag(I3, oplus(q) * S) with S = [0.5 I3; 0]: the 4x3 block *)
Record mat43 := M43 { c0 : vec4; c1 : vec4; c2 : vec4 }.
Definition plus_jacobian_rot (x : pose) : mat43 :=
  let O := Qoplus (tf_quat (tf_pose x)) in
  let h := 1 / 2 in
  M43 (V4 (h * n00 O) (h * n10 O) (h * n20 O) (h * n30 O))
      (V4 (h * n01 O) (h * n11 O) (h * n21 O) (h * n31 O))
      (V4 (h * n02 O) (h * n12 O) (h * n22 O) (h * n32 O)).
(** lift_pose_jacobian (ceres_utils.cpp 64-79) has the block structure
    diag(I3, [2 I3, 0] * oplus(q^-1)): the rows of the 3x4 block *)
Record mat34 := M34 { r0 : vec4; r1 : vec4; r2 : vec4 }.
Definition lift_jacobian_rot (T : mat4) : mat34 :=
  let O := Qoplus (qinverse (tf_quat T)) in
  M34 (V4 (2 * n00 O) (2 * n01 O) (2 * n02 O) (2 * n03 O))
      (V4 (2 * n10 O) (2 * n11 O) (2 * n12 O) (2 * n13 O))
      (V4 (2 * n20 O) (2 * n21 O) (2 * n22 O) (2 * n23 O)).
Definition vdot4 (a b : vec4) : R := wx a * wx b + wy a * wy b + wz a * wz b + ww a * ww b.
Definition mmul_34_43 (a : mat34) (b : mat43) : mat3 :=
  M3 (vdot4 (r0 a) (c0 b)) (vdot4 (r0 a) (c1 b)) (vdot4 (r0 a) (c2 b))
     (vdot4 (r1 a) (c0 b)) (vdot4 (r1 a) (c1 b)) (vdot4 (r1 a) (c2 b))
     (vdot4 (r2 a) (c0 b)) (vdot4 (r2 a) (c1 b)) (vdot4 (r2 a) (c2 b)).

(** Entries of the 7x6 matrix written by PlusJacobian (row-major; 0 outside the two blocks) *)
Definition nth4 (v : vec4) (i : nat) : R :=
  match i with O => wx v | 1%nat => wy v | 2%nat => wz v | 3%nat => ww v | _ => 0 end.
Definition plus_jacobian (x : pose) (i j : nat) : R :=
  let B := plus_jacobian_rot x in
  if (Nat.ltb i 3 && Nat.ltb j 3)%bool then (if Nat.eqb i j then 1 else 0)
  else if (Nat.leb 3 i && Nat.ltb i 7 && Nat.leb 3 j && Nat.ltb j 6)%bool then
    nth4 (match j with 3%nat => c0 B | 4%nat => c1 B | _ => c2 B end) (i - 3)
  else 0.

(** lookat, core.cpp 571-600, up to the final general 4x4 inverse (Eigen's inverse() is not
    modelled): the matrix [T_camera_target] *)
Definition lookat_camera_target (cam_pos target up_axis : vec3) : mat4 :=
  let cam_dir := vnormalized (vsub target cam_pos) in
  let cam_right := vnormalized (vcross up_axis cam_dir) in
  let cam_up := vcross cam_dir cam_right in
  mmul4
    (M4 (vx cam_right) (vy cam_right) (vz cam_right) 0
        (vx cam_up) (vy cam_up) (vz cam_up) 0
        (vx cam_dir) (vy cam_dir) (vz cam_dir) 0
        0 0 0 1)
    (M4 1 0 0 (- vx cam_pos)
        0 1 0 (- vy cam_pos)
        0 0 1 (- vz cam_pos)
        0 0 0 1).
