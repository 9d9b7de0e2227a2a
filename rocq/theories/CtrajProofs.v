(** Lemmas for C75. *)
From Coq Require Import Reals ZArith List Lra Lia Psatz.
From Coquelicot Require Import Coquelicot.
From Flocq Require Import Core.Core.
From Verif Require Import GeomModel GeomSpec GeomProofs StatsModel LerpModel CalcSpec CtrajModel CtrajSpec Prop_Interp.
Local Open Scope R_scope.

Lemma vnormalized_eq a : vnormalized a = vscale (/ vnorm a) a.
Proof.
  unfold vnormalized. destruct (Rlt_dec _ _) as [|N]; auto.
  assert (Z : vdot a a = 0) by (unfold vdot in *; nra).
  assert (vx a = 0 /\ vy a = 0 /\ vz a = 0) as (X & Y & Zz) by (unfold vdot in Z; repeat split; nra).
  mat_eq; [rewrite X|rewrite Y|rewrite Zz]; ring.
Qed.
Lemma vnorm_sq a : vnorm a * vnorm a = vdot a a.
Proof. unfold vnorm. apply sqrt_sqrt. unfold vdot; nra. Qed.
Lemma vnorm_nonneg a : 0 <= vnorm a. Proof. apply sqrt_pos. Qed.
Lemma vnorm_scale k a : vnorm (vscale k a) = Rabs k * vnorm a.
Proof.
  unfold vnorm. replace (vdot (vscale k a) (vscale k a)) with (Rsqr k * vdot a a) by (unfold vdot, vscale, Rsqr; cbn [vx vy vz]; ring).
  rewrite sqrt_mult; [|apply Rle_0_sqr|unfold vdot; nra]. rewrite sqrt_Rsqr_abs. reflexivity.
Qed.
Lemma vnorm_0 a : vnorm a = 0 -> a = vzero.
Proof.
  intros Z. pose proof (vnorm_sq a) as H. rewrite Z in H. unfold vdot in H.
  mat_eq; nra.
Qed.
Lemma unit_normalized a : vnorm a <> 0 -> vdot (vscale (/ vnorm a) a) (vscale (/ vnorm a) a) = 1.
Proof.
  intros N. unfold vdot, vscale; cbn [vx vy vz].
  transitivity (vdot a a / (vnorm a * vnorm a)); [unfold vdot; field; auto|]. rewrite vnorm_sq. field.
  rewrite <- vnorm_sq. nra.
Qed.

(** ** local equality and derivatives *)
Lemma dv_ext_loc f g t d : locally t (fun s => f s = g s) -> dv f t d -> dv g t d.
Proof.
  intros L (A & B & C). split; [|split].
  - apply (is_derive_ext_loc (fun s => vx (f s))); auto. revert L. apply filter_imp. intros s ->; auto.
  - apply (is_derive_ext_loc (fun s => vy (f s))); auto. revert L. apply filter_imp. intros s ->; auto.
  - apply (is_derive_ext_loc (fun s => vz (f s))); auto. revert L. apply filter_imp. intros s ->; auto.
Qed.
Lemma dv_comp f (u : R -> R) t d k : dv f (u t) d -> is_derive u t k -> dv (fun s => f (u s)) t (vscale k d).
Proof.
  intros (A & B & C) U. split; [|split]; cbn [vscale vx vy vz].
  - apply (is_derive_comp (fun s => vx (f s)) u); auto.
  - apply (is_derive_comp (fun s => vy (f s)) u); auto.
  - apply (is_derive_comp (fun s => vz (f s)) u); auto.
Qed.
Lemma dv_scale f t d k : dv f t d -> dv (fun s => vscale k (f s)) t (vscale k d).
Proof. intros (A & B & C). split; [|split]; cbn [vscale vx vy vz]; apply d_scal; auto. Qed.

(** ** the rotation of a rotation vector and its rate *)
Definition left_jac (r : vec3) : mat3 :=
  let n := vnorm r in let K := skew (vnormalized r) in
  madd (madd I3 (mscale ((1 - cos n) / n) K)) (mscale ((n - sin n) / n) (mmul K K)).
Definition rq (r : vec3) : quat := quat_of_aa (vnorm r) (vnormalized r).
Definition half_qmul (w : vec3) (q : quat) : quat := qscale (/ 2) (qmul (Q 0 (vx w) (vy w) (vz w)) q).

Lemma rq_axq r : rq r = axq (vscale (/ vnorm r) r) (vnorm r / 2).
Proof. unfold rq, quat_of_aa, axq. rewrite vnormalized_eq. reflexivity. Qed.
Lemma rq_unit r : qnorm2 (rq r) = 1.
Proof.
  rewrite rq_axq. destruct (Req_dec (vnorm r) 0) as [Z|N].
  - rewrite Z. unfold axq. replace (0 / 2) with 0 by field. rewrite sin_0, cos_0. unfold qnorm2; cbn [qw qx qy qz]. ring.
  - apply axq_unit, unit_normalized, N.
Qed.
Lemma rq_rot r : to_rot (rq r) = rodrigues (vscale (/ vnorm r) r) (vnorm r).
Proof.
  destruct (Req_dec (vnorm r) 0) as [Z|N].
  - rewrite rq_axq, Z, rodrigues_0. unfold axq. replace (0 / 2) with 0 by field. rewrite sin_0, cos_0. mat_eq; ring.
  - rewrite rq_axq, to_rot_axq; [f_equal; field|]. apply unit_normalized, N.
Qed.

Lemma d_norm f t d : vnorm (f t) <> 0 -> dv f t d ->
  is_derive (fun s : R => vnorm (f s)) t (vdot (f t) d / vnorm (f t)).
Proof.
  intros N (A & B & C). unfold vnorm.
  assert (P : 0 < vdot (f t) (f t)) by (rewrite <- vnorm_sq; pose proof (vnorm_nonneg (f t)); nra).
  eapply d_eq; [apply (is_derive_sqrt (fun s => vdot (f s) (f s)) t (2 * vdot (f t) d)); [|exact P]|].
  - unfold vdot. eapply d_eq; [repeat dstep|cbn beta; ring].
  - field. apply Rgt_not_eq, sqrt_lt_R0, P.
Qed.
Lemma d_inv (f : R -> R) (t a : R) : f t <> 0 -> is_derive f t a -> is_derive (fun s => / f s) t (- a / (f t) ^ 2).
Proof. intros N D. apply (is_derive_inv f t a); auto. Qed.
Lemma d_sin (f : R -> R) (t a : R) : is_derive f t a -> is_derive (fun s => sin (f s)) t (a * cos (f t)).
Proof. intros D. apply (is_derive_comp sin f t (cos (f t)) a); auto. apply is_derive_sin. Qed.
Lemma d_cos (f : R -> R) (t a : R) : is_derive f t a -> is_derive (fun s => cos (f s)) t (a * (- sin (f t))).
Proof. intros D. apply (is_derive_comp cos f t (- sin (f t)) a); auto. apply is_derive_cos. Qed.

Lemma rq_derive f t d : vnorm (f t) <> 0 -> dv f t d ->
  dq (fun s => rq (f s)) t (half_qmul (mapp (left_jac (f t)) d) (rq (f t))).
Proof.
  intros N D. pose proof (d_norm f t d N D) as DN. destruct D as (A & B & C).
  assert (DH : is_derive (fun s : R => vnorm (f s) / 2) t (vdot (f t) d / vnorm (f t) / 2)).
  { unfold Rdiv at 1. eapply d_eq; [apply d_mult; [exact DN|apply d_const]|cbn beta; field; auto]. }
  pose proof (d_sin (fun s : R => vnorm (f s) / 2) t _ DH) as DS. pose proof (d_cos (fun s : R => vnorm (f s) / 2) t _ DH) as DC.
  pose proof (d_inv (fun s : R => vnorm (f s)) t _ N DN) as DI.
  assert (DX : is_derive (fun s : R => sin (vnorm (f s) / 2) * (/ vnorm (f s) * vx (f s))) t
    (vdot (f t) d / vnorm (f t) / 2 * cos (vnorm (f t) / 2) * (/ vnorm (f t) * vx (f t))
     + sin (vnorm (f t) / 2) * (- (vdot (f t) d / vnorm (f t)) / (vnorm (f t)) ^ 2 * vx (f t) + / vnorm (f t) * vx d))).
  { apply (d_mult (fun s : R => sin (vnorm (f s) / 2)) (fun s : R => / vnorm (f s) * vx (f s))); [exact DS|].
    apply (d_mult (fun s : R => / vnorm (f s)) (fun s : R => vx (f s))); [exact DI|assumption]. }
  assert (DY : is_derive (fun s : R => sin (vnorm (f s) / 2) * (/ vnorm (f s) * vy (f s))) t
    (vdot (f t) d / vnorm (f t) / 2 * cos (vnorm (f t) / 2) * (/ vnorm (f t) * vy (f t))
     + sin (vnorm (f t) / 2) * (- (vdot (f t) d / vnorm (f t)) / (vnorm (f t)) ^ 2 * vy (f t) + / vnorm (f t) * vy d))).
  { apply (d_mult (fun s : R => sin (vnorm (f s) / 2)) (fun s : R => / vnorm (f s) * vy (f s))); [exact DS|].
    apply (d_mult (fun s : R => / vnorm (f s)) (fun s : R => vy (f s))); [exact DI|assumption]. }
  assert (DZ : is_derive (fun s : R => sin (vnorm (f s) / 2) * (/ vnorm (f s) * vz (f s))) t
    (vdot (f t) d / vnorm (f t) / 2 * cos (vnorm (f t) / 2) * (/ vnorm (f t) * vz (f t))
     + sin (vnorm (f t) / 2) * (- (vdot (f t) d / vnorm (f t)) / (vnorm (f t)) ^ 2 * vz (f t) + / vnorm (f t) * vz d))).
  { apply (d_mult (fun s : R => sin (vnorm (f s) / 2)) (fun s : R => / vnorm (f s) * vz (f s))); [exact DS|].
    apply (d_mult (fun s : R => / vnorm (f s)) (fun s : R => vz (f s))); [exact DI|assumption]. }
  assert (EX : forall s, rq (f s) = Q (cos (vnorm (f s) / 2)) (sin (vnorm (f s) / 2) * (/ vnorm (f s) * vx (f s)))
     (sin (vnorm (f s) / 2) * (/ vnorm (f s) * vy (f s))) (sin (vnorm (f s) / 2) * (/ vnorm (f s) * vz (f s)))).
  { intros s. rewrite rq_axq. reflexivity. }
  pose proof (vnorm_sq (f t)) as NS.
  pose proof (sc (vnorm (f t) / 2)) as SC.
  assert (S2 : sin (vnorm (f t)) = 2 * sin (vnorm (f t) / 2) * cos (vnorm (f t) / 2)).
  { rewrite <- sin_2a. f_equal. field. }
  assert (C2 : cos (vnorm (f t)) = 1 - 2 * sin (vnorm (f t) / 2) * sin (vnorm (f t) / 2)).
  { rewrite <- cos_2a_sin. f_equal. field. }
  unfold half_qmul, left_jac. rewrite !vnormalized_eq, (EX t), S2, C2.
  clear DN DH DS DI S2 C2.
  set (n := vnorm (f t)) in *. set (s := sin (n / 2)) in *. set (c := cos (n / 2)) in *.
  destruct (f t) as [x y z] eqn:Ef. destruct d as [dx dy dz]. unfold vdot in *. cbn [vx vy vz] in *.
  set (p := x * dx + y * dy + z * dz) in *.
  set (w := mapp _ _).
  assert (WX : vx w = 2 * s * c / n * dx + 2 * s * s / (n * n) * (y * dz - z * dy) + (n - 2 * s * c) / (n * n * n) * p * x).
  { unfold w, p. cbn [mapp madd mscale mmul skew I3 vscale vx vy vz m00 m01 m02 m10 m11 m12 m20 m21 m22].
    apply Rminus_diag_uniq. transitivity (- (n - 2 * s * c) / (n * n * n) * dx * (x * x + y * y + z * z - n * n)); [field; auto|].
    rewrite NS. ring. }
  assert (WY : vy w = 2 * s * c / n * dy + 2 * s * s / (n * n) * (z * dx - x * dz) + (n - 2 * s * c) / (n * n * n) * p * y).
  { unfold w, p. cbn [mapp madd mscale mmul skew I3 vscale vx vy vz m00 m01 m02 m10 m11 m12 m20 m21 m22].
    apply Rminus_diag_uniq. transitivity (- (n - 2 * s * c) / (n * n * n) * dy * (x * x + y * y + z * z - n * n)); [field; auto|].
    rewrite NS. ring. }
  assert (WZ : vz w = 2 * s * c / n * dz + 2 * s * s / (n * n) * (x * dy - y * dx) + (n - 2 * s * c) / (n * n * n) * p * z).
  { unfold w, p. cbn [mapp madd mscale mmul skew I3 vscale vx vy vz m00 m01 m02 m10 m11 m12 m20 m21 m22].
    apply Rminus_diag_uniq. transitivity (- (n - 2 * s * c) / (n * n * n) * dz * (x * x + y * y + z * z - n * n)); [field; auto|].
    rewrite NS. ring. }
  clearbody w.
  assert (QX : / 2 * (vx w * c + (vy w * (s * (/ n * z)) - vz w * (s * (/ n * y)))) =
     p / n / 2 * c * (/ n * x) + s * (- (p / n) / n ^ 2 * x + / n * dx)).
  { rewrite WX, WY, WZ. apply Rminus_diag_uniq.
    transitivity (s * s * s / (n * n * n) * dx * (x * x + y * y + z * z - n * n)
       + (s / n * dx - s * p * x / (n * n * n)) * (s * s - (1 - c * c))); [unfold p; field; auto|].
    rewrite NS, SC. ring. }
  assert (QY : / 2 * (vy w * c + (vz w * (s * (/ n * x)) - vx w * (s * (/ n * z)))) =
     p / n / 2 * c * (/ n * y) + s * (- (p / n) / n ^ 2 * y + / n * dy)).
  { rewrite WX, WY, WZ. apply Rminus_diag_uniq.
    transitivity (s * s * s / (n * n * n) * dy * (x * x + y * y + z * z - n * n)
       + (s / n * dy - s * p * y / (n * n * n)) * (s * s - (1 - c * c))); [unfold p; field; auto|].
    rewrite NS, SC. ring. }
  assert (QZ : / 2 * (vz w * c + (vx w * (s * (/ n * y)) - vy w * (s * (/ n * x)))) =
     p / n / 2 * c * (/ n * z) + s * (- (p / n) / n ^ 2 * z + / n * dz)).
  { rewrite WX, WY, WZ. apply Rminus_diag_uniq.
    transitivity (s * s * s / (n * n * n) * dz * (x * x + y * y + z * z - n * n)
       + (s / n * dz - s * p * z / (n * n * n)) * (s * s - (1 - c * c))); [unfold p; field; auto|].
    rewrite NS, SC. ring. }
  assert (QW : - (/ 2) * (s / n) * (vx w * x + vy w * y + vz w * z) = p / n / 2 * - s).
  { rewrite WX, WY, WZ. apply Rminus_diag_uniq.
    transitivity (- (/ 2) * (s / n) * ((n - 2 * s * c) / (n * n * n) * p) * (x * x + y * y + z * z - n * n));
      [unfold p; field; auto|]. rewrite NS. ring. }
  split; split; cbn [qscale qmul qw qx qy qz].
  - eapply is_derive_ext; [intros r; rewrite EX; reflexivity|]. eapply d_eq; [exact DC|]. cbn beta.
    rewrite Ef in *. fold n. fold s. rewrite <- QW. field. auto.
  - eapply is_derive_ext; [intros r; rewrite EX; reflexivity|]. eapply d_eq; [exact DX|].
    rewrite <- QX. field. auto.
  - eapply is_derive_ext; [intros r; rewrite EX; reflexivity|]. eapply d_eq; [exact DY|].
    rewrite <- QY. field. auto.
  - eapply is_derive_ext; [intros r; rewrite EX; reflexivity|]. eapply d_eq; [exact DZ|].
    rewrite <- QZ. field. auto.
Qed.

Lemma dto_rot_half w q : qnorm2 q = 1 -> dto_rot q (half_qmul w q) = mmul (skew w) (to_rot q).
Proof.
  destruct q as [a b c d], w as [x y z]. unfold qnorm2; cbn [qw qx qy qz]. intros U.
  unfold dto_rot, half_qmul. mat_eq; apply Rminus_diag_uniq.
  - field.
  - transitivity (z * (1 - (a * a + b * b + c * c + d * d))); [field|rewrite U; ring].
  - transitivity (- y * (1 - (a * a + b * b + c * c + d * d))); [field|rewrite U; ring].
  - transitivity (- z * (1 - (a * a + b * b + c * c + d * d))); [field|rewrite U; ring].
  - field.
  - transitivity (x * (1 - (a * a + b * b + c * c + d * d))); [field|rewrite U; ring].
  - transitivity (y * (1 - (a * a + b * b + c * c + d * d))); [field|rewrite U; ring].
  - transitivity (- x * (1 - (a * a + b * b + c * c + d * d))); [field|rewrite U; ring].
  - field.
Qed.
Lemma rot_rate f t d : vnorm (f t) <> 0 -> dv f t d ->
  dm (fun s => to_rot (rq (f s))) t (mmul (skew (mapp (left_jac (f t)) d)) (to_rot (rq (f t)))).
Proof.
  intros N D. eapply dm_eq; [apply (dm_to_rot (fun s => rq (f s))), rq_derive; eauto|].
  cbn beta. apply dto_rot_half, rq_unit.
Qed.
