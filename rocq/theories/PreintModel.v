(** * IMU propagation and preintegration (yac/lib/calib_residuals.cpp 1002-1700, imu_residual_t)
    Real numbers are exact; stamp arithmetic does not overflow. [g_W = g * (0,0,6371009).normalized()]
    is [(0,0,g)] over exact reals. *)
From Coq Require Import Reals.
From Verif Require Import Base GeomModel ImuModel.
Open Scope R_scope.

(** imu_params_t, calib_params.hpp: the fields the residual reads *)
Record imu_params := ImuParams { ip_sigma_a : R; ip_sigma_g : R; ip_sigma_aw : R; ip_sigma_gw : R; ip_g : R }.
(** ns2sec, core.cpp 1543 *)
Definition secs (ns : Z) : R := IZR ns / 10 ^ 9.

(** 15 x 15 matrices as index functions *)
Notation mat15 := (nat -> nat -> R).
Fixpoint sum15 (n : nat) (f : nat -> R) : R := match n with O => 0 | S k => sum15 k f + f k end.
Definition mul15 (A B : mat15) : mat15 := fun i j => sum15 15 (fun k => A i k * B k j).
Definition tr15 (A : mat15) : mat15 := fun i j => A j i.
Definition zero15 : mat15 := fun _ _ => 0.
(** entry (i,j) of a 3 x 3 block *)
Definition ent3 (m : mat3) (i j : nat) : R :=
  match i, j with
  | 0%nat, 0%nat => m00 m | 0%nat, 1%nat => m01 m | 0%nat, _ => m02 m
  | 1%nat, 0%nat => m10 m | 1%nat, 1%nat => m11 m | 1%nat, _ => m12 m
  | _, 0%nat => m20 m | _, 1%nat => m21 m | _, _ => m22 m
  end.
(** identity with the 3 x 3 blocks of [f] written over it *)
Definition blocks15 (f : nat -> nat -> option mat3) : mat15 := fun i j =>
  match f (i / 3)%nat (j / 3)%nat with
  | Some m => ent3 m (i mod 3)%nat (j mod 3)%nat
  | None => if Nat.eqb i j then 1 else 0
  end.

(** the local variables of the loop (calib_residuals.cpp 1084-1109) / the mutable members (1331-1351) *)
Record pint := Pint {
  e_q : quat; e_C : mat3; e_CC : mat3; e_a : vec3; e_aa : vec3; e_cross : mat3;
  e_dalpha : mat3; e_dv : mat3; e_dp : mat3; e_P : mat15;
  e_Dt : R; e_started : bool; e_n : Z; e_ts : Z }.
Definition pint0 (t_start : Z) : pint :=
  Pint (Q 1 0 0 0) Z3 Z3 vzero vzero Z3 Z3 Z3 Z3 zero15 0 false 0 t_start.

(** the orientation increment, calib_residuals.cpp 1179-1185 and 1417-1423 *)
Definition imu_dq (w : vec3) (dt : R) : quat :=
  let h := vnorm w * (1 / 2) * dt in
  let v := vscale (sinc h * (1 / 2) * dt) w in
  Q (cos h) (vx v) (vy v) (vz v).
(** F_delta, calib_residuals.cpp 1208-1217 and 1447-1456 *)
Definition f_delta (dt : R) (s : pint) (C C1 ax cross1 : mat3) (a : vec3) : mat15 :=
  let S := madd C C1 in
  let X := madd (mmul (mmul C ax) (e_cross s)) (mmul (mmul C1 ax) cross1) in
  blocks15 (fun i j => match i, j with
  | 0%nat, 1%nat => Some (mscale (-1) (skew (vadd (vscale dt (e_a s)) (vscale (1 / 4 * dt * dt) (mapp S a)))))
  | 0%nat, 2%nat => Some (mscale dt I3)
  | 0%nat, 3%nat => Some (madd (mscale dt (e_dv s)) (mscale (1 / 4 * dt * dt) X))
  | 0%nat, 4%nat => Some (madd (mscale (- dt) (e_C s)) (mscale (1 / 4 * dt * dt) S))
  | 1%nat, 3%nat => Some (mscale (- dt) C1)
  | 2%nat, 1%nat => Some (mscale (-1) (skew (vscale (1 / 2 * dt) (mapp S a))))
  | 2%nat, 3%nat => Some (mscale (1 / 2 * dt) X)
  | 2%nat, 4%nat => Some (mscale (- (1 / 2) * dt) S)
  | _, _ => None
  end).
(** the noise added on the diagonal, calib_residuals.cpp 1222-1241 and 1461-1481: per block of three *)
Definition noise (ip : imu_params) (dt : R) (b : nat) : R :=
  match b with
  | 0%nat => 1 / 2 * dt * dt * (dt * ip_sigma_a ip * ip_sigma_a ip)
  | 1%nat => dt * ip_sigma_g ip * ip_sigma_g ip
  | 2%nat => dt * ip_sigma_a ip * ip_sigma_a ip
  | 3%nat => dt * ip_sigma_gw ip * ip_sigma_gw ip
  | _ => dt * ip_sigma_aw ip * ip_sigma_aw ip
  end.
(** one pass through the body after the two interpolations, calib_residuals.cpp 1177-1253 (propagation:
    [redo = false]; the covariance is always computed here) and 1415-1494 (redoPreintegration: [redo = true]).
    The only difference is the update of dalpha_db_g. *)
Definition imu_step (redo : bool) (ip : imu_params) (bg ba : vec3) (dt : R) (w0 w1 a0 a1 : vec3) (t1 : Z) (s : pint) : pint :=
  let w := vsub (vscale (1 / 2) (vadd w0 w1)) bg in
  let dq := imu_dq w dt in
  let q1 := qmul (e_q s) dq in
  let C := to_rot (e_q s) in
  let C1 := to_rot q1 in
  let a := vsub (vscale (1 / 2) (vadd a0 a1)) ba in
  let S := madd C C1 in
  let Jr := right_jacobian (vscale dt w) in
  let cross1 := madd (mmul (to_rot (qinverse dq)) (e_cross s)) (mscale dt Jr) in
  let ax := skew a in
  let X := madd (mmul (mmul C ax) (e_cross s)) (mmul (mmul C1 ax) cross1) in
  let F := f_delta dt s C C1 ax cross1 a in
  let P := mul15 (mul15 F (e_P s)) (tr15 F) in
  Pint q1
    (madd (e_C s) (mscale (1 / 2 * dt) S))
    (madd (e_CC s) (madd (mscale dt (e_C s)) (mscale (1 / 4 * dt * dt) S)))
    (vadd (e_a s) (vscale (1 / 2 * dt) (mapp S a)))
    (vadd (e_aa s) (vadd (vscale dt (e_a s)) (vscale (1 / 4 * dt * dt) (mapp S a))))
    cross1
    (madd (e_dalpha s) (if redo then mscale dt (mmul C1 Jr) else mscale dt C1))
    (madd (e_dv s) (mscale (1 / 2 * dt) X))
    (madd (e_dp s) (madd (mscale dt (e_dv s)) (mscale (1 / 4 * dt * dt) X)))
    (fun i j => P i j + (if Nat.eqb i j then noise ip dt (i / 3)%nat else 0))
    (e_Dt s + dt) true (e_n s + 1)%Z t1.

(** [r * x + (1 - r) * y] *)
Definition mix (r : R) (x y : vec3) : vec3 := vadd (vscale r x) (vscale (1 - r) y).
(** the two interpolations and the step, calib_residuals.cpp 1124-1259 and 1370-1500, once the samples
    [k] (stamp [tk]) and [k+1] (stamp [t1]) have been read. [true] in the result: break.
    The tests [ts_kp1 - ts_k < 0] and [dt <= 0] are made on the integer stamps. *)
Definition imu_body (redo : bool) (ip : imu_params) (bg ba : vec3) (t_end : Z)
    (tk : Z) (w0 a0 : vec3) (t1 : Z) (w1 a1 : vec3) (s : pint) : pint * bool :=
  if (t1 - e_ts s <? 0)%Z then (s, false) else
  let late := (t_end <? t1)%Z in
  let t1' := if late then t_end else t1 in
  let dt := secs (t1' - e_ts s) in
  let re := dt / secs (t1 - tk) in
  let w1' := if late then mix (1 - re) w0 w1 else w1 in
  let a1' := if late then mix (1 - re) a0 a1 else a1 in
  if (t1' - e_ts s <=? 0)%Z then (s, false) else
  let rs := dt / secs (t1' - (if redo then tk else e_ts s)) in
  let w0' := if e_started s then w0 else mix rs w0 w1' in
  let a0' := if e_started s then a0 else mix rs a0 a1' in
  (imu_step redo ip bg ba dt w0' w1' a0' a1' t1' s, (t1' =? t_end)%Z).
(** the loop, over the indices [ks] still to visit; deque accesses outside the container are undefined *)
Fixpoint imu_loop (redo : bool) (ip : imu_params) (bg ba : vec3) (b : imu_data) (t_end : Z) (ks : list Z) (s : pint)
    : outcome pint :=
  match ks with
  | [] => Ret s
  | k :: ks' =>
      obind (rd (i_gyr b) k) (fun w0 => obind (rd (i_acc b) k) (fun a0 =>
      obind (rd (i_gyr b) (k + 1)) (fun w1 => obind (rd (i_acc b) (k + 1)) (fun a1 =>
      obind (if (k + 1 =? imu_size b)%Z then Ret t_end else rd (i_ts b) (k + 1)) (fun t1 =>
      obind (rd (i_ts b) k) (fun tk =>
      let (s', stop) := imu_body redo ip bg ba t_end tk w0 a0 t1 w1 a1 s in
      if stop then Ret s' else imu_loop redo ip bg ba b t_end ks' s'))))))
  end.

(** speed and biases *)
Record sb := Sb { sb_v : vec3; sb_bg : vec3; sb_ba : vec3 }.

(** the outputs of propagation, calib_residuals.cpp 1264-1298 *)
Definition g_W (ip : imu_params) : vec3 := V3 0 0 (ip_g ip).
Definition propagated (ip : imu_params) (T : mat4) (x : sb) (s : pint) : mat4 * sb :=
  let C0 := tf_rot T in
  (tf_q (qmul (tf_quat T) (e_q s))
     (vsub (vadd (vadd (tf_trans T) (vscale (e_Dt s) (sb_v x))) (mapp C0 (e_aa s)))
           (vscale (1 / 2 * e_Dt s * e_Dt s) (g_W ip))),
   Sb (vadd (sb_v x) (vsub (mapp C0 (e_a s)) (vscale (e_Dt s) (g_W ip)))) (sb_bg x) (sb_ba x)).
Definition out_jacobian (T : mat4) (s : pint) : mat15 :=
  let C0 := tf_rot T in
  blocks15 (fun i j => match i, j with
  | 0%nat, 1%nat => Some (mscale (-1) (skew (mapp C0 (e_aa s))))
  | 0%nat, 2%nat => Some (mscale (e_Dt s) I3)
  | 0%nat, 3%nat => Some (mmul C0 (e_dp s))
  | 0%nat, 4%nat => Some (mscale (-1) (mmul C0 (e_CC s)))
  | 1%nat, 3%nat => Some (mscale (-1) (mmul C0 (e_dalpha s)))
  | 2%nat, 1%nat => Some (mscale (-1) (skew (mapp C0 (e_a s))))
  | 2%nat, 3%nat => Some (mmul C0 (e_dv s))
  | 2%nat, 4%nat => Some (mscale (-1) (mmul C0 (e_C s)))
  | _, _ => None
  end).
Definition out_covariance (T : mat4) (s : pint) : mat15 :=
  let C0 := tf_rot T in
  let M := blocks15 (fun i j => match i, j with 0%nat, 0%nat => Some C0 | 1%nat, 1%nat => Some C0 | 2%nat, 2%nat => Some C0 | _, _ => None end) in
  mul15 (mul15 M (e_P s)) (tr15 M).
Record prop_out := PropOut { po_n : Z; po_T : mat4; po_sb : sb; po_cov : mat15; po_jac : mat15 }.
(** imu_residual_t::propagation, calib_residuals.cpp 1049-1299 *)
Definition propagation (b : imu_data) (ip : imu_params) (T : mat4) (x : sb) (t_start t_end : Z) : outcome prop_out :=
  match i_ts b, rev (i_ts b) with
  | t_front :: _, t_back :: _ =>
      if (t_start <? t_front)%Z then Throw Fatal else
      if (t_back <? t_end)%Z then Throw Fatal else
      obind (imu_loop false ip (sb_bg x) (sb_ba x) b t_end (zrange (imu_size b - 1)) (pint0 t_start)) (fun s =>
      let (T', x') := propagated ip T x s in
      Ret (PropOut (e_n s) T' x' (out_covariance T s) (out_jacobian T s)))
  | _, _ => Undef
  end.

(** imu_residual_t::redoPreintegration, calib_residuals.cpp 1301-1514: the members it leaves behind. The
    information matrix is the inverse of [e_P] symmetrised; its square root (Eigen LLT) is not modelled. *)
Definition redo_preintegration (b : imu_data) (ip : imu_params) (x : sb) (time end_ : Z) : outcome pint :=
  imu_loop true ip (sb_bg x) (sb_ba x) b end_ (zrange (imu_size b)) (pint0 time).

(** imu_residual_t::EvaluateWithMinimalJacobians, calib_residuals.cpp 1522-1640: the error [r_] before
    weighting, and the blocks F0, F1. [td_ns] is sec2ts(time_delay). [Delta_b] is zero (line 1592) when it is
    used, so its terms vanish and [deltaQ(0)] is the identity quaternion. *)
Record imu_error := ImuError { er_p : vec3; er_a : vec3; er_v : vec3; er_bg : vec3; er_ba : vec3 }.
Definition qvec (q : quat) : vec3 := V3 (qx q) (qy q) (qz q).
Definition delta_p (ip : imu_params) (Dt : R) (x0 x1 : pose) (s0 : sb) : vec3 :=
  vsub (vadd (vsub (p_r x0) (p_r x1)) (vscale Dt (sb_v s0))) (vscale (1 / 2 * Dt * Dt) (g_W ip)).
Definition delta_v (ip : imu_params) (Dt : R) (s0 s1 : sb) : vec3 :=
  vsub (vsub (sb_v s0) (sb_v s1)) (vscale Dt (g_W ip)).
Definition imu_err (ip : imu_params) (Dt : R) (x0 x1 : pose) (s0 s1 : sb) (s : pint) : imu_error :=
  let CT := mtr (tf_rot (tf_pose x0)) in
  let q0 := tf_quat (tf_pose x0) in let q1 := tf_quat (tf_pose x1) in
  ImuError
    (vadd (mapp CT (delta_p ip Dt x0 x1 s0)) (e_aa s))
    (vscale 2 (qvec (qmul (e_q s) (qmul (qinverse q1) q0))))
    (vadd (mapp CT (delta_v ip Dt s0 s1)) (e_a s))
    (vsub (sb_bg s0) (sb_bg s1)) (vsub (sb_ba s0) (sb_ba s1)).
Definition imu_evaluate (b : imu_data) (ip : imu_params) (t0 t1 td_ns : Z) (x0 x1 : pose) (s0 s1 : sb)
    : outcome imu_error :=
  obind (redo_preintegration b ip s0 (t0 + td_ns) (t1 + td_ns)) (fun s =>
  Ret (imu_err ip (secs (t1 - t0)) x0 x1 s0 s1 s)).
(** F0 and F1, calib_residuals.cpp 1605-1628: the 3 x 3 block (i,j) *)
Definition imu_F0 (ip : imu_params) (Dt : R) (x0 x1 : pose) (s0 s1 : sb) (s : pint) (i j : nat) : mat3 :=
  let CT := mtr (tf_rot (tf_pose x0)) in
  let q0 := tf_quat (tf_pose x0) in let q1 := tf_quat (tf_pose x1) in
  match i, j with
  | 0%nat, 0%nat => CT
  | 0%nat, 1%nat => mmul CT (skew (delta_p ip Dt x0 x1 s0))
  | 0%nat, 2%nat => mscale Dt CT
  | 0%nat, 3%nat => e_dp s
  | 0%nat, 4%nat => mscale (-1) (e_CC s)
  | 1%nat, 1%nat => tf_rot (mmul4 (Qplus (qmul (e_q s) (qinverse q1))) (Qoplus q0))
  | 1%nat, 3%nat => mmul (tf_rot (mmul4 (Qoplus (qmul (qinverse q1) q0)) (Qoplus (e_q s)))) (mscale (-1) (e_dalpha s))
  | 2%nat, 1%nat => mmul CT (skew (delta_v ip Dt s0 s1))
  | 2%nat, 2%nat => CT
  | 2%nat, 3%nat => e_dv s
  | 2%nat, 4%nat => mscale (-1) (e_C s)
  | 3%nat, 3%nat => I3 | 4%nat, 4%nat => I3
  | _, _ => Z3
  end.
Definition imu_F1 (x0 x1 : pose) (s : pint) (i j : nat) : mat3 :=
  let CT := mtr (tf_rot (tf_pose x0)) in
  let q0 := tf_quat (tf_pose x0) in let q1 := tf_quat (tf_pose x1) in
  match i, j with
  | 0%nat, 0%nat => mscale (-1) CT
  | 1%nat, 1%nat => mscale (-1) (tf_rot (mmul4 (mmul4 (Qplus (e_q s)) (Qoplus q0)) (Qplus (qinverse q1))))
  | 2%nat, 2%nat => mscale (-1) CT
  | 3%nat, 3%nat => mscale (-1) I3 | 4%nat, 4%nat => mscale (-1) I3
  | _, _ => Z3
  end.
