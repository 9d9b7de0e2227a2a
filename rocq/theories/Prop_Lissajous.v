(** * C70: Lissajous trajectories *)
From Verif Require Import Base GeomModel GeomSpec GeomProofs LissajousModel.
From Coq Require Import Reals Lra String.
From Coquelicot Require Import Coquelicot.
Local Open Scope R_scope.

(** Derivatives of vectors and matrices, entry by entry *)
Definition derives_v (f : R -> vec3) (t : R) (d : vec3) : Prop :=
  is_derive (fun s : R => vx (f s)) t (vx d) /\ is_derive (fun s : R => vy (f s)) t (vy d) /\
  is_derive (fun s : R => vz (f s)) t (vz d).
Definition derives_m (f : R -> mat3) (t : R) (d : mat3) : Prop :=
  (is_derive (fun s : R => m00 (f s)) t (m00 d) /\ is_derive (fun s : R => m01 (f s)) t (m01 d) /\ is_derive (fun s : R => m02 (f s)) t (m02 d)) /\
  (is_derive (fun s : R => m10 (f s)) t (m10 d) /\ is_derive (fun s : R => m11 (f s)) t (m11 d) /\ is_derive (fun s : R => m12 (f s)) t (m12 d)) /\
  (is_derive (fun s : R => m20 (f s)) t (m20 d) /\ is_derive (fun s : R => m21 (f s)) t (m21 d) /\ is_derive (fun s : R => m22 (f s)) t (m22 d)).

Definition radicand (l : liss) (th : R) : R :=
  l_R l * l_R l - l_A l * sin (l_a l * th + l_delta l) * (l_A l * sin (l_a l * th + l_delta l))
  - l_B l * sin (l_b l * th) * (l_B l * sin (l_b l * th)).

(** Position, velocity and acceleration in the frame of the target centre *)
Definition pos_O (l : liss) (t : R) : vec3 :=
  let th := sin (/ 4 * l_w l * t) ^ 2 in
  V3 (l_A l * sin (l_a l * th + l_delta l)) (l_B l * sin (l_b l * th)) (sqrt (radicand l th)).
Definition vel_O (l : liss) (t : R) : vec3 :=
  let A := l_A l in let B := l_B l in let a := l_a l in let b := l_b l in
  let d := l_delta l in let w := l_w l in
  let s := sin (/ 4 * t * w) in let c := cos (/ 4 * t * w) in
  V3 (/ 2 * A * a * w * s * c * cos (a * s ^ 2 + d))
     (/ 2 * B * b * w * s * cos (b * s ^ 2) * c)
     ((- / 2 * A ^ 2 * a * w * s * sin (a * s ^ 2 + d) * c * cos (a * s ^ 2 + d)
             - / 2 * B ^ 2 * b * w * sin (b * s ^ 2) * s * cos (b * s ^ 2) * c)
            / sqrt (- A ^ 2 * sin (a * s ^ 2 + d) ^ 2 - B ^ 2 * sin (b * s ^ 2) ^ 2 + l_R l ^ 2)).

Lemma pos_vel l t : 0 < radicand l (sin (/ 4 * l_w l * t) ^ 2) -> derives_v (pos_O l) t (vel_O l t).
Proof.
  unfold radicand. intros H. unfold derives_v, pos_O, vel_O, radicand. cbn [vx vy vz].
  assert (E : / 4 * t * l_w l = / 4 * l_w l * t) by ring. rewrite E.
  split; [|split].
  - auto_derive; auto. simpl. set (s := sin _). set (c := cos (/ 4 * l_w l * t)). field.
  - auto_derive; auto. simpl. set (s := sin (/ 4 * l_w l * t)). set (c := cos (/ 4 * l_w l * t)). field.
  - auto_derive.
    + simpl in H |- *. lra.
    + simpl in H |- *. set (s := sin (/ 4 * l_w l * t)) in *. set (c := cos (/ 4 * l_w l * t)) in *.
      set (n := l_R l * l_R l + _ + _).
      match goal with |- context [sqrt ?x] => match x with n => fail 1 | _ => replace x with n by (unfold n; ring) end end.
      field. apply Rgt_not_eq, sqrt_lt_R0. unfold n. lra.
Qed.
Definition acc_O (l : liss) (t : R) : vec3 :=
  let A := l_A l in let B := l_B l in let a := l_a l in let b := l_b l in
  let d := l_delta l in let w := l_w l in
  let s := sin (/ 4 * t * w) in let c := cos (/ 4 * t * w) in
  let sa := sin (a * s ^ 2 + d) in let ca := cos (a * s ^ 2 + d) in
  let sb := sin (b * s ^ 2) in let cb := cos (b * s ^ 2) in
  let n := - A ^ 2 * sa ^ 2 - B ^ 2 * sb ^ 2 + l_R l ^ 2 in
  V3 (A * a * w ^ 2 *
     (- (1 / 32) * a * (1 - cos (1 * t * w)) * sin (- (1 / 2) * a * cos (/ 2 * t * w) + 1 / 2 * a + d)
      - / 8 * s ^ 2 * ca + / 8 * c ^ 2 * ca))
   (- / 4 * B * b ^ 2 * w ^ 2 * sb * s ^ 2 * c ^ 2 - / 8 * B * b * w ^ 2 * s ^ 2 * cb + / 8 * B * b * w ^ 2 * cb * c ^ 2)
   ((- / 2 * A ^ 2 * a * w * s * sa * c * ca - / 2 * B ^ 2 * b * w * sb * s * cb * c) *
    (/ 2 * A ^ 2 * a * w * s * sa * c * ca + / 2 * B ^ 2 * b * w * sb * s * cb * c) / Rpower n (3 / 2) +
    (/ 4 * A ^ 2 * a ^ 2 * w ^ 2 * s ^ 2 * sa ^ 2 * c ^ 2 - / 4 * A ^ 2 * a ^ 2 * w ^ 2 * s ^ 2 * c ^ 2 * ca ^ 2
     + / 8 * A ^ 2 * a * w ^ 2 * s ^ 2 * sa * ca - / 8 * A ^ 2 * a * w ^ 2 * sa * c ^ 2 * ca
     + / 4 * B ^ 2 * b ^ 2 * w ^ 2 * sb ^ 2 * s ^ 2 * c ^ 2 - / 4 * B ^ 2 * b ^ 2 * w ^ 2 * s ^ 2 * cb ^ 2 * c ^ 2
     + / 8 * B ^ 2 * b * w ^ 2 * sb * s ^ 2 * cb - / 8 * B ^ 2 * b * w ^ 2 * sb * cb * c ^ 2) / sqrt n).
Lemma Rpower_32 x : 0 < x -> Rpower x (3 / 2) = x * sqrt x.
Proof.
  intros H. replace (3 / 2) with (1 + / 2) by field. rewrite Rpower_plus, Rpower_1, Rpower_sqrt by auto. ring.
Qed.
Lemma quarter x : 1 - cos (1 * x) = 8 * sin (/ 4 * x) ^ 2 * cos (/ 4 * x) ^ 2 /\ cos (/ 2 * x) = 1 - 2 * sin (/ 4 * x) ^ 2.
Proof.
  assert (H2 : cos (/ 2 * x) = 1 - 2 * sin (/ 4 * x) ^ 2).
  { replace (/ 2 * x) with (2 * (/ 4 * x)) by field. rewrite cos_2a_sin. ring. }
  split; auto. replace (1 * x) with (2 * (2 * (/ 4 * x))) by field. rewrite cos_2a_sin, sin_2a. ring.
Qed.
Lemma vel_acc l t : 0 < radicand l (sin (/ 4 * l_w l * t) ^ 2) -> derives_v (vel_O l) t (acc_O l t).
Proof.
  unfold radicand. intros H. unfold derives_v, vel_O, acc_O. cbn [vx vy vz].
  replace (/ 4 * l_w l * t) with (/ 4 * t * l_w l) in H by ring.
  split; [|split].
  - auto_derive; auto. destruct (quarter (t * l_w l)) as [Q1 Q2].
    replace (1 * t * l_w l) with (1 * (t * l_w l)) by ring. rewrite Q1.
    replace (/ 2 * t * l_w l) with (/ 2 * (t * l_w l)) by ring. rewrite Q2.
    replace (/ 4 * (t * l_w l)) with (/ 4 * t * l_w l) by ring.
    simpl. set (s := sin (/ 4 * t * l_w l)). set (c := cos (/ 4 * t * l_w l)).
    replace (- (1 / 2) * l_a l * (1 - 2 * (s * (s * 1))) + 1 / 2 * l_a l + l_delta l) with (l_a l * (s * (s * 1)) + l_delta l) by field.
    field.
  - auto_derive; auto. simpl. set (s := sin (/ 4 * t * l_w l)). set (c := cos (/ 4 * t * l_w l)). field.
  - set (n := - l_A l ^ 2 * sin (l_a l * sin (/ 4 * t * l_w l) ^ 2 + l_delta l) ^ 2 -
      l_B l ^ 2 * sin (l_b l * sin (/ 4 * t * l_w l) ^ 2) ^ 2 + l_R l ^ 2).
    assert (Hn : 0 < n) by (unfold n; simpl in H |- *; lra).
    rewrite Rpower_32 by auto. pose proof (sqrt_lt_R0 n Hn) as Hs.
    assert (Hss : sqrt n * sqrt n = n) by (apply sqrt_sqrt; lra).
    auto_derive.
    + pose proof (Rgt_not_eq _ _ Hs) as Hs'. unfold n in Hn, Hs'. simpl in Hn, Hs'. split; [exact Hn|]. split; auto.
    + match goal with |- context [sqrt ?x] => match x with n => fail 1 | _ => replace x with n by (unfold n; simpl; ring) end end.
      clearbody n. set (q := sqrt n) in *. clearbody q. subst n. clear Hn H.
      simpl. set (s := sin (/ 4 * t * l_w l)). set (c := cos (/ 4 * t * l_w l)).
      set (sa := sin (l_a l * (s * (s * 1)) + l_delta l)). set (ca := cos (l_a l * (s * (s * 1)) + l_delta l)).
      set (sb := sin (l_b l * (s * (s * 1)))). set (cb := cos (l_b l * (s * (s * 1)))).
      field. lra.
Qed.

(** ** Attitude *)
Definition att_p (l : liss) (t : R) : R := (PI + l_pitch_bound l * sin (2 * PI * l_pitch_scale l * sin (/ 4 * l_w l * t) ^ 2)) / 2.
Definition att_y (l : liss) (t : R) : R := (l_yaw_bound l * sin (2 * PI * l_yaw_scale l * sin (/ 4 * l_w l * t) ^ 2)) / 2.
Lemma sc2 x : sin x * sin x + cos x * cos x = 1. Proof. exact (sin2_cos2 x). Qed.
Lemma q_OS_simple l t : l_w l = 2 * PI * l_f l ->
  q_OS_at l t = Q (cos (att_y l t) * cos (att_p l t)) (cos (att_y l t) * sin (att_p l t))
                  (sin (att_y l t) * cos (att_p l t)) (- (sin (att_y l t) * sin (att_p l t))).
Proof.
  intros W. unfold q_OS_at. rewrite <- W. fold (att_p l t). fold (att_y l t).
  cbv zeta. replace (0 / 2) with 0 by field. rewrite sin_0, cos_0.
  set (sy := sin (att_y l t)). set (cy := cos (att_y l t)). set (sp := sin (att_p l t)). set (cp := cos (att_p l t)).
  assert (Hy : sy * sy + cy * cy = 1) by apply sc2. assert (Hp : sp * sp + cp * cp = 1) by apply sc2.
  match goal with |- context [sqrt ?x] => replace x with 1 end.
  - rewrite sqrt_1. apply Q_ext; cbn [qw qx qy qz]; field.
  - replace 1 with ((sy * sy + cy * cy) * (sp * sp + cp * cp)) at 1 by (rewrite Hy, Hp; ring). ring.
Qed.
Lemma q_unit l t : l_w l = 2 * PI * l_f l -> qnorm2 (q_OS_at l t) = 1.
Proof.
  intros W. rewrite q_OS_simple by auto. unfold qnorm2. cbn [qw qx qy qz].
  pose proof (sc2 (att_y l t)) as Hy. pose proof (sc2 (att_p l t)) as Hp.
  set (sy := sin (att_y l t)) in *. set (cy := cos (att_y l t)) in *. set (sp := sin (att_p l t)) in *. set (cp := cos (att_p l t)) in *.
  replace 1 with ((sy * sy + cy * cy) * (sp * sp + cp * cp)) by (rewrite Hy, Hp; ring). ring.
Qed.
Definition rate_p (l : liss) (t : R) : R :=
  PI / 2 * l_pitch_bound l * l_pitch_scale l * l_w l * sin (/ 4 * l_w l * t) * cos (/ 4 * l_w l * t)
  * cos (2 * PI * l_pitch_scale l * sin (/ 4 * l_w l * t) ^ 2).
Definition rate_y (l : liss) (t : R) : R :=
  PI / 2 * l_yaw_bound l * l_yaw_scale l * l_w l * sin (/ 4 * l_w l * t) * cos (/ 4 * l_w l * t)
  * cos (2 * PI * l_yaw_scale l * sin (/ 4 * l_w l * t) ^ 2).
Lemma att_p_derive l t : is_derive (att_p l) t (rate_p l t).
Proof.
  unfold att_p, rate_p. auto_derive; auto. simpl. set (s := sin (/ 4 * l_w l * t)). set (c := cos (/ 4 * l_w l * t)). field.
Qed.
Lemma att_y_derive l t : is_derive (att_y l) t (rate_y l t).
Proof.
  unfold att_y, rate_y. auto_derive; auto. simpl. set (s := sin (/ 4 * l_w l * t)). set (c := cos (/ 4 * l_w l * t)). field.
Qed.
Lemma q_dot_simple l t : l_w l = 2 * PI * l_f l ->
  q_OS_dot_at l t =
  let sy := sin (att_y l t) in let cy := cos (att_y l t) in let sp := sin (att_p l t) in let cp := cos (att_p l t) in
  let p := rate_p l t in let y := rate_y l t in
  Q (- (cy * sp * p) - sy * cp * y) (cy * cp * p - sy * sp * y) (- (sy * sp * p) + cy * cp * y) (- (sy * cp * p) - cy * sp * y).
Proof.
  intros W. unfold q_OS_dot_at. rewrite <- W. cbv zeta.
  replace (/ 4 * t * l_w l) with (/ 4 * l_w l * t) by ring.
  replace (/ 2 * l_pitch_bound l * sin (2 * PI * l_pitch_scale l * sin (/ 4 * l_w l * t) ^ 2) + PI / 2) with (att_p l t) by (unfold att_p; field).
  replace (/ 2 * l_yaw_bound l * sin (2 * PI * l_yaw_scale l * sin (/ 4 * l_w l * t) ^ 2)) with (att_y l t) by (unfold att_y; field).
  pose proof (sc2 (att_y l t)) as Hy. pose proof (sc2 (att_p l t)) as Hp. unfold rate_p, rate_y.
  set (sy := sin (att_y l t)) in *. set (cy := cos (att_y l t)) in *. set (sp := sin (att_p l t)) in *. set (cp := cos (att_p l t)) in *.
  match goal with |- context [sqrt ?x] => replace x with 1 end.
  - rewrite sqrt_1. apply Q_ext; cbn [qw qx qy qz]; field.
  - replace 1 with ((sy * sy + cy * cy) * (sp * sp + cp * cp)) at 1 by (rewrite Hy, Hp; ring). ring.
Qed.

Definition derives_q (f : R -> quat) (t : R) (d : quat) : Prop :=
  (is_derive (fun s : R => qw (f s)) t (qw d) /\ is_derive (fun s : R => qx (f s)) t (qx d)) /\
  (is_derive (fun s : R => qy (f s)) t (qy d) /\ is_derive (fun s : R => qz (f s)) t (qz d)).
Lemma q_derive l t : l_w l = 2 * PI * l_f l -> derives_q (q_OS_at l) t (q_OS_dot_at l t).
Proof.
  intros W. pose proof (att_p_derive l t) as Dp. pose proof (att_y_derive l t) as Dy.
  pose proof (is_derive_unique _ _ _ Dp) as Ep. pose proof (is_derive_unique _ _ _ Dy) as Ey.
  assert (Xp : ex_derive (att_p l) t) by (eexists; exact Dp). assert (Xy : ex_derive (att_y l) t) by (eexists; exact Dy).
  rewrite q_dot_simple by auto. cbv zeta. unfold derives_q. cbn [qw qx qy qz].
  change (Derive (fun x => att_p l x) t = rate_p l t) in Ep. change (Derive (fun x => att_y l x) t = rate_y l t) in Ey.
  split; split.
  - apply (is_derive_ext (fun s : R => cos (att_y l s) * cos (att_p l s))); [intros s; now rewrite q_OS_simple by auto|].
    auto_derive; [auto|]. rewrite Ep, Ey. ring.
  - apply (is_derive_ext (fun s : R => cos (att_y l s) * sin (att_p l s))); [intros s; now rewrite q_OS_simple by auto|].
    auto_derive; [auto|]. rewrite Ep, Ey. ring.
  - apply (is_derive_ext (fun s : R => sin (att_y l s) * cos (att_p l s))); [intros s; now rewrite q_OS_simple by auto|].
    auto_derive; [auto|]. rewrite Ep, Ey. ring.
  - apply (is_derive_ext (fun s : R => - (sin (att_y l s) * sin (att_p l s)))); [intros s; now rewrite q_OS_simple by auto|].
    auto_derive; [auto|]. rewrite Ep, Ey. ring.
Qed.
Lemma q_dot_orth l t : l_w l = 2 * PI * l_f l ->
  qw (q_OS_at l t) * qw (q_OS_dot_at l t) + qx (q_OS_at l t) * qx (q_OS_dot_at l t) +
  qy (q_OS_at l t) * qy (q_OS_dot_at l t) + qz (q_OS_at l t) * qz (q_OS_dot_at l t) = 0.
Proof. intros W. rewrite q_OS_simple, q_dot_simple by auto. cbn [qw qx qy qz]. ring. Qed.

(** Derivative of a rotation given by a moving quaternion *)
Lemma rot_derive4 (w x y z : R -> R) (t dw dx dy dz : R) :
  is_derive w t dw -> is_derive x t dx -> is_derive y t dy -> is_derive z t dz ->
  derives_m (fun s => quat2rot (Q (w s) (x s) (y s) (z s))) t
   (M3 (2 * (w t * dw + x t * dx - y t * dy - z t * dz))
       (2 * (dx * y t + x t * dy - dw * z t - w t * dz))
       (2 * (dx * z t + x t * dz + dw * y t + w t * dy))
       (2 * (dx * y t + x t * dy + dw * z t + w t * dz))
       (2 * (w t * dw - x t * dx + y t * dy - z t * dz))
       (2 * (dy * z t + y t * dz - dw * x t - w t * dx))
       (2 * (dx * z t + x t * dz - dw * y t - w t * dy))
       (2 * (dy * z t + y t * dz + dw * x t + w t * dx))
       (2 * (w t * dw - x t * dx - y t * dy + z t * dz))).
Proof.
  intros Dw Dx Dy Dz.
  assert (Xw : ex_derive w t) by (eexists; exact Dw). assert (Xx : ex_derive x t) by (eexists; exact Dx).
  assert (Xy : ex_derive y t) by (eexists; exact Dy). assert (Xz : ex_derive z t) by (eexists; exact Dz).
  apply is_derive_unique in Dw, Dx, Dy, Dz.
  change (Derive (fun u => w u) t = dw) in Dw. change (Derive (fun u => x u) t = dx) in Dx.
  change (Derive (fun u => y u) t = dy) in Dy. change (Derive (fun u => z u) t = dz) in Dz.
  unfold derives_m, quat2rot. cbv zeta. cbn [m00 m01 m02 m10 m11 m12 m20 m21 m22 qw qx qy qz].
  split; [split; [|split]|split; split; [|split| |split]]; (auto_derive; [auto 10|rewrite ?Dw, ?Dx, ?Dy, ?Dz; ring]).
Qed.
Lemma rot_derive (f : R -> quat) (t : R) (d : quat) :
  derives_q f t d -> (forall s, qnorm2 (f s) = 1) ->
  qw (f t) * qw d + qx (f t) * qx d + qy (f t) * qy d + qz (f t) * qz d = 0 ->
  let o := qmul d (qconj (f t)) in
  derives_m (fun s => quat2rot (f s)) t (mmul (skew (V3 (2 * qx o) (2 * qy o) (2 * qz o))) (quat2rot (f t))).
Proof.
  intros [[Dw Dx] [Dy Dz]] U O o. specialize (U t).
  pose proof (rot_derive4 _ _ _ _ _ _ _ _ _ Dw Dx Dy Dz) as H.
  set (D := M3 _ _ _ _ _ _ _ _ _) in H.
  assert (E : mmul (skew (V3 (2 * qx o) (2 * qy o) (2 * qz o))) (quat2rot (f t)) = D).
  { transitivity (msub (mscale (qnorm2 (f t)) D) (mscale (2 * (qw (f t) * qw d + qx (f t) * qx d + qy (f t) * qy d + qz (f t) * qz d)) (quat2rot (f t)))).
    - unfold o, D, qnorm2, quat2rot, qmul, qconj, mmul, msub, madd, mscale, skew. cbn [qw qx qy qz vx vy vz m00 m01 m02 m10 m11 m12 m20 m21 m22].
      f_equal; ring.
    - rewrite O, U. unfold msub, madd, mscale, D. cbn [m00 m01 m02 m10 m11 m12 m20 m21 m22]. f_equal; ring. }
  rewrite E. exact H.
Qed.

(** ** From the target frame to the world frame *)
Lemma tf_trans_mul M C r : tf_trans (mmul4 M (tf C r)) = vadd (mapp (tf_rot M) r) (tf_trans M).
Proof. unfold tf_trans, mmul4, tf, vadd, mapp, tf_rot. cbn. f_equal; ring. Qed.
Lemma tf_rot_mul M C r : tf_rot (mmul4 M (tf C r)) = mmul (tf_rot M) C.
Proof. unfold tf_rot, mmul4, tf, mmul. cbn. f_equal; ring. Qed.
Lemma lin3 (a b c k : R) (f g h : R -> R) (t df dg dh : R) : is_derive f t df -> is_derive g t dg -> is_derive h t dh ->
  is_derive (fun s : R => a * f s + b * g s + c * h s + k) t (a * df + b * dg + c * dh).
Proof.
  intros Df Dg Dh. assert (Xf : ex_derive f t) by (eexists; exact Df). assert (Xg : ex_derive g t) by (eexists; exact Dg).
  assert (Xh : ex_derive h t) by (eexists; exact Dh). apply is_derive_unique in Df, Dg, Dh.
  change (Derive (fun u => f u) t = df) in Df. change (Derive (fun u => g u) t = dg) in Dg. change (Derive (fun u => h u) t = dh) in Dh.
  auto_derive; [auto|]. rewrite Df, Dg, Dh. ring.
Qed.
Lemma derives_v_lin M c f t d : derives_v f t d -> derives_v (fun s => vadd (mapp M (f s)) c) t (mapp M d).
Proof. intros (A & B & C). unfold derives_v, vadd, mapp. cbn [vx vy vz]. split; [|split]; apply lin3; auto. Qed.
Lemma derives_v_lin0 M f t d : derives_v f t d -> derives_v (fun s => mapp M (f s)) t (mapp M d).
Proof.
  intros H. destruct (derives_v_lin M vzero f t d H) as (A & B & C). unfold derives_v.
  split; [|split]; [eapply is_derive_ext; [|exact A]|eapply is_derive_ext; [|exact B]|eapply is_derive_ext; [|exact C]];
    intros s; unfold vadd, vzero; cbn [vx vy vz]; apply Rplus_0_r.
Qed.
Lemma derives_m_lin M f t d : derives_m f t d -> derives_m (fun s => mmul M (f s)) t (mmul M d).
Proof.
  intros ((A0 & A1 & A2) & (B0 & B1 & B2) & (C0 & C1 & C2)). unfold derives_m, mmul. cbn [m00 m01 m02 m10 m11 m12 m20 m21 m22].
  assert (L : forall a b c f g h t df dg dh, is_derive f t df -> is_derive g t dg -> is_derive h t dh ->
     is_derive (fun s : R => a * f s + b * g s + c * h s) t (a * df + b * dg + c * dh)).
  { intros. eapply is_derive_ext; [|apply (lin3 a b c 0 f0 g h t0 df dg dh); auto]. intros s. apply Rplus_0_r. }
  split; [split; [|split]|split; split; [|split| |split]]; apply L; auto.
Qed.
Lemma skew_rot C w : IsRot C -> mmul (skew (mapp C w)) C = mmul C (skew w).
Proof.
  intros [O D].
  assert (E : mmul (mtr C) (mmul (skew (mapp C w)) C) = mscale (mdet C) (skew w)).
  { unfold mmul, mtr, skew, mapp, mscale, mdet. cbn [m00 m01 m02 m10 m11 m12 m20 m21 m22 vx vy vz]. f_equal; ring. }
  rewrite D in E.
  rewrite <- (mmul_I_l (mmul (skew (mapp C w)) C)), <- (orth_right C O D), mmul_assoc, E. f_equal. mat_eq; ring.
Qed.

Record good (l : liss) : Prop := {
  g_w : l_w l = 2 * PI * l_f l; g_f : l_f l = 1 / l_T l; g_T : 0 < l_T l; g_R : 0 < l_R l;
  g_pos : forall th, 0 < radicand l th;
  g_x0 : sin (l_delta l) = 0; g_x1 : sin (l_a l + l_delta l) = 0; g_y1 : sin (l_b l) = 0;
  g_p1 : sin (2 * PI * l_pitch_scale l) = 0; g_yw1 : sin (2 * PI * l_yaw_scale l) = 0;
  g_pb : - (PI / 2) < l_pitch_bound l < PI / 2; g_yb : - (PI / 2) < l_yaw_bound l < PI / 2 }.

Lemma euler_q p y : euler321 (V3 (2 * p) (2 * y) 0) = quat2rot (Q (cos y * cos p) (cos y * sin p) (sin y * cos p) (- (sin y * sin p))).
Proof.
  pose proof (sc2 y) as Hy. pose proof (sc2 p) as Hp.
  unfold euler321, quat2rot. cbn [vx vy vz qw qx qy qz]. rewrite sin_0, cos_0, !sin_2a, !cos_2a.
  set (sy := sin y) in *. set (cy := cos y) in *. set (sp := sin p) in *. set (cp := cos p) in *.
  assert (Cy : cy * cy = 1 - sy * sy) by lra. assert (Cp : cp * cp = 1 - sp * sp) by lra.
  apply M3_ext; cbn [m00 m01 m02 m10 m11 m12 m20 m21 m22].
  - replace (cy * cp * (cy * cp)) with (cy * cy * (cp * cp)) by ring. replace (cy * sp * (cy * sp)) with (cy * cy * (sp * sp)) by ring.
    replace (sy * cp * (sy * cp)) with (sy * sy * (cp * cp)) by ring. rewrite Cy, Cp. ring.
  - transitivity (4 * (cy * sy * (cp * sp))); [ring|]. ring.
  - transitivity (2 * (sy * cy * (cp * cp)) - 2 * (sy * cy * (sp * sp))); ring.
  - ring.
  - replace (cy * cp * (cy * cp)) with (cy * cy * (cp * cp)) by ring. replace (cy * sp * (cy * sp)) with (cy * cy * (sp * sp)) by ring.
    replace (sy * cp * (sy * cp)) with (sy * sy * (cp * cp)) by ring. replace (- (sy * sp) * - (sy * sp)) with (sy * sy * (sp * sp)) by ring.
    rewrite Cy, Cp. ring.
  - transitivity (- (2 * (cp * sp) * (sy * sy + cy * cy))); [rewrite Hy; ring|ring].
  - transitivity (- (2 * (cy * sy) * (sp * sp + cp * cp))); [rewrite Hp; ring|ring].
  - ring.
  - ring.
Qed.
Lemma pose_rot l t : good l -> tf_rot (pose_at l t) = mmul (tf_rot (mmul4 (l_T_WF l) (l_T_FO l))) (quat2rot (q_OS_at l t)).
Proof.
  intros G. unfold pose_at. rewrite tf_rot_mul. f_equal. rewrite q_OS_simple by apply G. rewrite <- euler_q.
  assert (E : 2 * PI * l_f l * l_T l = 2 * PI) by (rewrite (g_f l G); field; apply Rgt_not_eq, G).
  rewrite E. rewrite <- (g_w l G). f_equal. unfold att_p, att_y. f_equal; field.
Qed.
Lemma pose_trans l t : good l ->
  tf_trans (pose_at l t) = vadd (mapp (tf_rot (mmul4 (l_T_WF l) (l_T_FO l))) (pos_O l t)) (tf_trans (mmul4 (l_T_WF l) (l_T_FO l))).
Proof. intros G. unfold pose_at. rewrite tf_trans_mul. unfold pos_O, radicand. rewrite <- (g_w l G). reflexivity. Qed.

(** ** The eight trajectories are well formed *)
Lemma sin_sq_le x : 0 <= sin x * sin x <= 1.
Proof. pose proof (sc2 x). nra. Qed.
Lemma sq_mult A x : 0 <= A * sin x * (A * sin x) <= A * A.
Proof. replace (A * sin x * (A * sin x)) with (A * A * (sin x * sin x)) by ring. pose proof (sin_sq_le x). nra. Qed.
Lemma atan2p_bound y x : - (PI / 2) < atan2p y x < PI / 2.
Proof. unfold atan2p. destruct (atan_bound (y / x)). lra. Qed.
Lemma sin_kpi (k : Z) : sin (IZR k * PI) = 0.
Proof. apply sin_eq_0_1. exists k. ring. Qed.
Ltac kpi k := match goal with |- sin ?x = 0 => replace x with (IZR k * PI) by (simpl; ring); apply sin_kpi end.

Definition Built (T_WF T_FO : mat4) (R0 width height T : R) (l : liss) : Prop :=
  l_T_WF l = T_WF /\ l_T_FO l = T_FO /\ l_R l = R0 /\ l_T l = T /\ l_width l = width /\ l_height l = height.
Lemma lissajous_good ty T_WF T_FO w h T l : 0 < w -> 0 < h -> 0 < T ->
  lissajous ty T_WF T_FO (Rmax w h * (12 / 10)) w h T = Ret l ->
  good l /\ Built T_WF T_FO (Rmax w h * (12 / 10)) w h T l.
Proof.
  intros Hw Hh HT. pose proof (Rmax_l w h) as M1. pose proof (Rmax_r w h) as M2. set (m := Rmax w h) in *.
  assert (Hm : 0 < m) by lra. clearbody m.
  assert (Qw : w * w <= m * m) by nra. assert (Qh : h * h <= m * m) by nra. assert (Qm : 0 < m * m) by nra.
  assert (B0 : - (PI / 2) < 0 < PI / 2) by (pose proof PI_RGT_0; lra).
  assert (RG : forall k, 0 < k <= 6 / 10 -> forall x y, 0 < m * (12 / 10) * (m * (12 / 10)) - w * k * sin x * (w * k * sin x) - h * k * sin y * (h * k * sin y)).
  { intros k Hk x y. pose proof (sq_mult (w * k) x) as A. pose proof (sq_mult (h * k) y) as B.
    assert (k * k <= 36 / 100) by nra.
    assert (w * k * (w * k) <= 36 / 100 * (m * m)) by (replace (w * k * (w * k)) with (k * k * (w * w)) by ring; nra).
    assert (h * k * (h * k) <= 36 / 100 * (m * m)) by (replace (h * k * (h * k)) with (k * k * (h * h)) by ring; nra).
    nra. }
  unfold lissajous.
  repeat match goal with |- context [String.eqb ?a ?b] => destruct (String.eqb a b) end; intros E; try discriminate E;
    injection E as <-;
    (split; [|unfold Built; cbn [l_T_WF l_T_FO l_R l_T l_width l_height]; auto 10]);
    constructor; unfold radicand;
    cbn [l_w l_f l_T l_R l_A l_B l_a l_b l_delta l_pitch_scale l_yaw_scale l_pitch_bound l_yaw_bound];
    try reflexivity; auto; try lra;
    try (pose proof (atan2p_bound (w * (3 / 10)) (m * (12 / 10))); lra);
    try (pose proof (atan2p_bound (h * (3 / 10)) (m * (12 / 10))); lra);
    try (pose proof (atan2p_bound (w * (5 / 10)) (m * (12 / 10))); lra);
    try (pose proof (atan2p_bound (h * (5 / 10)) (m * (12 / 10))); lra);
    try (pose proof (atan2p_bound (w * (55 / 100)) (m * (12 / 10))); lra);
    try (pose proof (atan2p_bound (h * (55 / 100)) (m * (12 / 10))); lra);
    try (pose proof (atan2p_bound (w * (95 / 100)) (m * (12 / 10))); lra);
    try (pose proof (atan2p_bound (h * (95 / 100)) (m * (12 / 10))); lra);
    try (pose proof (atan2p_bound (w * (6 / 10)) (m * (12 / 10))); lra);
    try (pose proof (atan2p_bound (h * (6 / 10)) (m * (12 / 10))); lra);
    try (intros th; apply RG; lra);
    try solve [kpi 0%Z | kpi 1%Z | kpi 2%Z | kpi 3%Z | kpi 4%Z | kpi 5%Z | kpi 6%Z | kpi 7%Z].
  - intros th. replace (2 * PI * 0 * th + 0) with 0 by ring. rewrite sin_0.
    pose proof (sq_mult (h * (95 / 100)) (2 * PI * 1 * th)). nra.
  all: try apply sin_0.
  - intros th. replace (2 * PI * 0 * th) with 0 by ring. rewrite sin_0.
    pose proof (sq_mult (w * (95 / 100)) (2 * PI * 1 * th + 0)). nra.
Qed.
Lemma nbt_trajs_good tg T_WF T trajs : 0 < calib_width tg -> 0 < calib_height tg -> 0 < T ->
  let w := calib_width tg in let h := calib_height tg in
  exists new, nbt_trajs tg T_WF T trajs = Ret (trajs ++ new) /\ List.length new = 8%nat /\
    List.Forall (fun l => good l /\ Built T_WF (tf I3 (V3 (w / 2) (h / 2) 0)) (Rmax w h * (12 / 10)) w h T l) new.
Proof.
  intros Hw Hh HT w h. unfold nbt_trajs. fold w h.
  set (T_FO := tf I3 _). set (R0 := Rmax w h * (12 / 10)).
  set (step := fun acc ty => _).
  assert (G : forall tys, incl tys traj_types -> forall acc, exists new,
    fold_left step tys (Ret acc) = Ret (acc ++ new) /\
    List.length new = List.length tys /\ List.Forall (fun l => good l /\ Built T_WF T_FO R0 w h T l) new).
  { induction tys as [|ty tys IH]; intros Hi acc.
    - exists nil. rewrite app_nil_r. auto.
    - assert (L : exists l, lissajous ty T_WF T_FO R0 w h T = Ret l).
      { specialize (Hi ty (or_introl eq_refl)). repeat destruct Hi as [ <- |Hi]; try (eexists; reflexivity). destruct Hi. }
      destruct L as (l & L). cbn [fold_left]. assert (ST : step (Ret acc) ty = Ret (acc ++ l :: nil)) by (unfold step; cbn [obind]; now rewrite L). rewrite ST.
      destruct (IH ltac:(intros x Hx; apply Hi; now right) (acc ++ l :: nil)) as (new & E & N & F).
      exists (l :: new). rewrite E, <- app_assoc. split; auto. split; [cbn; now rewrite N|]. constructor; auto.
      exact (lissajous_good ty T_WF T_FO w h T l Hw Hh HT L). }
  destruct (G traj_types ltac:(intros x Hx; exact Hx) trajs) as (new & E & N & F). exists new. auto.
Qed.

(** ** The theorems *)
(** A calibration target with at least one tag *)
Definition ValidTarget (tg : target) : Prop :=
  (1 <= tag_rows tg)%Z /\ (1 <= tag_cols tg)%Z /\ 0 < tag_size tg /\ 0 <= tag_spacing tg.
Lemma size_pos tg : ValidTarget tg -> 0 < calib_width tg /\ 0 < calib_height tg.
Proof.
  intros (A & B & C & D). unfold calib_width, calib_height. apply IZR_le in A, B.
  assert (X : forall n, 1 <= n -> 0 < n * tag_size tg + (n - 1) * tag_spacing tg * tag_size tg).
  { intros n Hn. assert (0 < n * tag_size tg) by nra. assert (0 <= (n - 1) * tag_spacing tg) by (apply Rmult_le_pos; lra). nra. }
  split; apply X; auto.
Qed.
Lemma in_range_ret {A} l t (v : A) : 0 <= t <= l_T l -> in_range l t v = Ret v.
Proof. intros H. unfold in_range. destruct (Rlt_dec t 0); [lra|]. destruct (Rlt_dec (l_T l) t); [lra|]. reflexivity. Qed.
Lemma T_WO_rot C r c : tf_rot (mmul4 (tf C r) (tf I3 c)) = C.
Proof. rewrite tf_rot_mul. unfold tf, tf_rot. cbn. destruct C; cbn. rewrite mmul_I_r. reflexivity. Qed.

(** nbt_lissajous_trajs appends eight trajectories. In each of them, at every time of [0, T]: the
    velocity is the derivative of the position, the acceleration the derivative of the velocity,
    the angular velocity W satisfies d/dt C_WS = [W]x C_WS, and q_OS is a unit quaternion whose
    derivative is q_OS_dot and which is the attitude of the pose (relative to the target). *)
Theorem C70_kinematics : forall tg C r T trajs, ValidTarget tg -> IsRot C -> 0 < T ->
  exists new, nbt_trajs tg (tf C r) T trajs = Ret (trajs ++ new) /\ List.length new = 8%nat /\
  forall l, In l new -> exists (P : R -> mat4) (V A W : R -> vec3) (q qd : R -> quat),
    (forall t, 0 <= t <= T -> get_pose l t = Ret (P t) /\ get_velocity l t = Ret (V t) /\ get_acceleration l t = Ret (A t) /\
       get_angular_velocity l t = Ret (W t) /\ get_q_OS l t = Ret (q t) /\ get_q_OS_dot l t = Ret (qd t)) /\
    (forall t, 0 <= t <= T ->
       derives_v (fun s => tf_trans (P s)) t (V t) /\ derives_v V t (A t) /\
       derives_m (fun s => tf_rot (P s)) t (mmul (skew (W t)) (tf_rot (P t))) /\
       derives_q q t (qd t) /\ qnorm2 (q t) = 1 /\ tf_rot (P t) = mmul C (to_rot (q t))).
Proof.
  intros tg C r T trajs HV HC HT. destruct (size_pos tg HV) as [Hw Hh].
  destruct (nbt_trajs_good tg (tf C r) T trajs Hw Hh HT) as (new & E & N & F). exists new. split; auto. split; auto.
  intros l Hl. rewrite List.Forall_forall in F. destruct (F l Hl) as (G & B1 & B2 & B3 & B4 & _).
  exists (pose_at l), (velocity_at l), (acceleration_at l), (angular_velocity_at l), (q_OS_at l), (q_OS_dot_at l).
  split.
  { intros t Ht. rewrite <- B4 in Ht. repeat split; apply in_range_ret; auto. }
  intros t _. set (M := mmul4 (l_T_WF l) (l_T_FO l)).
  assert (EM : tf_rot M = C) by (unfold M; rewrite B1, B2; apply T_WO_rot).
  split; [|split; [|split; [|split; [|split]]]].
  - pose proof (derives_v_lin (tf_rot M) (tf_trans M) _ _ _ (pos_vel l t (g_pos l G _))) as D.
    destruct D as (D0 & D1 & D2). unfold derives_v.
    split; [|split]; [eapply is_derive_ext; [|exact D0]|eapply is_derive_ext; [|exact D1]|eapply is_derive_ext; [|exact D2]];
      intros s; cbn beta; rewrite pose_trans by auto; reflexivity.
  - exact (derives_v_lin0 (tf_rot M) _ _ _ (vel_acc l t (g_pos l G _))).
  - pose proof (rot_derive (q_OS_at l) t (q_OS_dot_at l t) (q_derive l t (g_w l G)) (fun s => q_unit l s (g_w l G)) (q_dot_orth l t (g_w l G))) as D.
    cbv zeta in D. apply (derives_m_lin (tf_rot M)) in D.
    assert (QI : qinverse (q_OS_at l t) = qconj (q_OS_at l t)).
    { unfold qinverse. rewrite (q_unit l t (g_w l G)). destruct Rlt_dec; [|lra]. rewrite Rinv_1. generalize (q_OS_at l t). intros [e0 e1 e2 e3]. unfold qscale, qconj. cbn [qw qx qy qz]. f_equal; ring. }
    rewrite pose_rot by auto. fold M.
    assert (RHS : mmul (skew (angular_velocity_at l t)) (mmul (tf_rot M) (quat2rot (q_OS_at l t))) =
      mmul (tf_rot M) (mmul (skew (let o := qmul (q_OS_dot_at l t) (qconj (q_OS_at l t)) in V3 (2 * qx o) (2 * qy o) (2 * qz o))) (quat2rot (q_OS_at l t)))).
    { unfold angular_velocity_at. fold M. rewrite QI. cbv zeta. rewrite <- mmul_assoc, skew_rot by (rewrite EM; auto). apply mmul_assoc. }
    rewrite RHS. cbv zeta. destruct D as ((A0 & A1 & A2) & (K0 & K1 & K2) & (C0 & C1 & C2)).
    unfold derives_m.
    assert (X : forall s, tf_rot (pose_at l s) = mmul (tf_rot M) (quat2rot (q_OS_at l s))) by (intros; now apply pose_rot).
    split; [split; [|split]|split; split; [|split| |split]];
      (eapply is_derive_ext; [intros s; cbn beta; rewrite X; reflexivity|assumption]).
  - apply q_derive, G.
  - apply q_unit, G.
  - rewrite pose_rot by auto. fold M. rewrite EM, to_rot_quat2rot by apply q_unit, G. reflexivity.
Qed.

(** Every pose lies on the sphere of radius 1.2 max(width, height) about the centre of the target,
    strictly in front of it, and the camera's optical axis points towards the target's plane. *)
Theorem C70_sphere : forall tg C r T trajs, ValidTarget tg -> IsRot C -> 0 < T ->
  exists new, nbt_trajs tg (tf C r) T trajs = Ret (trajs ++ new) /\
  forall l t M, In l new -> get_pose l t = Ret M ->
    let centre := V3 (calib_width tg / 2) (calib_height tg / 2) 0 in
    exists d u, tf_trans M = tf_point (tf C r) (vadd centre d) /\ 0 < vz d /\
      vnorm d = 12 / 10 * Rmax (calib_width tg) (calib_height tg) /\
      mapp (tf_rot M) (V3 0 0 1) = mapp C u /\ vz u < 0 /\ IsRot (tf_rot M).
Proof.
  intros tg C r T trajs HV HC HT. destruct (size_pos tg HV) as [Hw Hh].
  destruct (nbt_trajs_good tg (tf C r) T trajs Hw Hh HT) as (new & E & N & F). exists new. split; auto.
  intros l t M Hl HM centre. rewrite List.Forall_forall in F. destruct (F l Hl) as (G & B1 & B2 & B3 & B4 & _).
  assert (EM : M = pose_at l t).
  { unfold get_pose, in_range in HM. destruct Rlt_dec; [discriminate|]. destruct Rlt_dec; [discriminate|]. congruence. }
  subst M. clear HM.
  exists (pos_O l t), (mapp (quat2rot (q_OS_at l t)) (V3 0 0 1)).
  assert (RM : tf_rot (mmul4 (l_T_WF l) (l_T_FO l)) = C) by (rewrite B1, B2; apply T_WO_rot).
  split; [|split; [|split; [|split; [|split]]]].
  - rewrite pose_trans, RM, B1, B2 by auto. fold centre.
    assert (X : tf_trans (mmul4 (tf C r) (tf I3 centre)) = vadd (mapp C centre) r).
    { rewrite tf_trans_mul. unfold tf_rot, tf_trans, tf. cbn. destruct C, r. reflexivity. }
    rewrite X. unfold tf_point, mapp4, tf. cbn [n00 n01 n02 n03 n10 n11 n12 n13 n20 n21 n22 n23 n30 n31 n32 n33 wx wy wz ww].
    generalize (pos_O l t). intros [dx dy dz]. clear. unfold vadd, mapp. cbn [vx vy vz]. f_equal; ring.
  - cbn. apply sqrt_lt_R0, G.
  - unfold vnorm, vdot, pos_O. cbn [vx vy vz]. rewrite sqrt_sqrt by (left; apply G). unfold radicand.
    match goal with |- sqrt ?x = _ => replace x with (l_R l * l_R l) by ring end.
    rewrite sqrt_square by (left; apply G). rewrite B3. ring.
  - rewrite pose_rot, RM by auto. apply mapp_mmul.
  - rewrite q_OS_simple by apply G. rewrite <- euler_q. unfold euler321, mapp. cbn [vx vy vz m20 m21 m22].
    assert (Bd : forall b x, - (PI / 2) < b < PI / 2 -> 0 < cos (b * sin x)).
    { intros b x Hb. pose proof (SIN_bound x). apply cos_gt_0; destruct (Rle_dec 0 b); nra. }
    replace (2 * att_p l t) with (l_pitch_bound l * sin (2 * PI * l_pitch_scale l * sin (/ 4 * l_w l * t) ^ 2) + PI) by (unfold att_p; field).
    replace (2 * att_y l t) with (l_yaw_bound l * sin (2 * PI * l_yaw_scale l * sin (/ 4 * l_w l * t) ^ 2)) by (unfold att_y; field).
    rewrite neg_cos.
    pose proof (Bd _ (2 * PI * l_pitch_scale l * sin (/ 4 * l_w l * t) ^ 2) (g_pb l G)) as P1.
    pose proof (Bd _ (2 * PI * l_yaw_scale l * sin (/ 4 * l_w l * t) ^ 2) (g_yb l G)) as P2.
    pose proof (Rmult_lt_0_compat _ _ P2 P1). lra.
  - rewrite pose_rot, RM by auto. pose proof (q_unit l t (g_w l G)) as U. destruct HC as [O D]. split.
    + rewrite mtr_mul, mmul_assoc, <- (mmul_assoc (mtr C)), O, mmul_I_l. now apply quat2rot_orth.
    + rewrite mdet_mul, D, quat2rot_det, U. ring.
Qed.

(** Every trajectory starts and ends at the same pose, at rest. *)
Theorem C70_closed : forall tg C r T trajs, ValidTarget tg -> IsRot C -> 0 < T ->
  exists new, nbt_trajs tg (tf C r) T trajs = Ret (trajs ++ new) /\
  forall l, In l new -> get_pose l T = get_pose l 0 /\ (exists M, get_pose l 0 = Ret M) /\
    get_velocity l 0 = Ret vzero /\ get_velocity l T = Ret vzero.
Proof.
  intros tg C r T trajs HV HC HT. destruct (size_pos tg HV) as [Hw Hh].
  destruct (nbt_trajs_good tg (tf C r) T trajs Hw Hh HT) as (new & E & N & F). exists new. split; auto.
  intros l Hl. rewrite List.Forall_forall in F. destruct (F l Hl) as (G & B1 & B2 & B3 & B4 & _).
  unfold get_pose, get_velocity. rewrite !in_range_ret by lra.
  assert (WT : l_w l * l_T l = 2 * PI) by (rewrite (g_w l G), (g_f l G); field; apply Rgt_not_eq, G).
  assert (W4 : / 4 * l_w l * T = PI / 2) by (rewrite <- B4; replace (/ 4 * l_w l * l_T l) with (/ 4 * (l_w l * l_T l)) by ring; rewrite WT; field).
  split; [|split; [eauto|split]].
  - f_equal. unfold pose_at. rewrite <- (g_w l G), W4, WT, Rmult_0_r, sin_0, sin_PI2. cbv zeta.
    replace (0 ^ 2) with 0 by ring. replace (1 ^ 2) with 1 by ring. rewrite !Rmult_0_r, !Rmult_1_r, !Rplus_0_l, sin_0.
    rewrite (g_x0 l G), (g_x1 l G), (g_y1 l G), (g_p1 l G), (g_yw1 l G). reflexivity.
  - f_equal. unfold velocity_at. cbv zeta. replace (/ 4 * 0 * l_w l) with 0 by ring. rewrite sin_0. unfold mapp, vzero. cbn [vx vy vz].
    unfold Rdiv. f_equal; ring.
  - f_equal. unfold velocity_at. cbv zeta. replace (/ 4 * T * l_w l) with (PI / 2) by lra. rewrite cos_PI2. unfold mapp, vzero. cbn [vx vy vz].
    unfold Rdiv. f_equal; ring.
Qed.

(** Outside [0, T] every query throws; an unknown trajectory name throws. *)
Theorem C70_errors :
  (forall l t, t < 0 \/ l_T l < t -> get_pose l t = Throw Fatal /\ get_velocity l t = Throw Fatal /\ get_acceleration l t = Throw Fatal /\
     get_angular_velocity l t = Throw Fatal /\ get_q_OS l t = Throw Fatal /\ get_q_OS_dot l t = Throw Fatal) /\
  (forall ty a b R0 w h T, ~ In ty traj_types -> lissajous ty a b R0 w h T = Throw StdExn) /\
  (forall ty a b R0 w h T, In ty traj_types -> exists l, lissajous ty a b R0 w h T = Ret l).
Proof.
  split; [|split].
  - intros l t H. assert (X : forall A (v : A), in_range l t v = Throw Fatal).
    { intros A v. unfold in_range. destruct (Rlt_dec t 0); auto. destruct (Rlt_dec (l_T l) t); auto. lra. }
    repeat split; apply X.
  - intros ty a b R0 w h T H. unfold lissajous.
    repeat match goal with |- context [String.eqb ?x ?y] => destruct (String.eqb_spec x y) as [ -> |_]; [exfalso; apply H; cbn; tauto|] end.
    reflexivity.
  - intros ty a b R0 w h T H. repeat destruct H as [ <- |H]; try (eexists; reflexivity). destruct H.
Qed.

(** The accelerometer and gyroscope columns written by save are the acceleration plus gravity
    (0, 0, 10) and the angular velocity, expressed in the sensor frame. *)
Theorem C70_saved_imu : forall tg C r T trajs, ValidTarget tg -> IsRot C -> 0 < T ->
  exists new, nbt_trajs tg (tf C r) T trajs = Ret (trajs ++ new) /\
  forall l t M A W, In l new -> get_pose l t = Ret M -> get_acceleration l t = Ret A -> get_angular_velocity l t = Ret W ->
    mapp (tf_rot M) (fst (save_imu l t)) = vadd A (V3 0 0 10) /\ mapp (tf_rot M) (snd (save_imu l t)) = W.
Proof.
  intros tg C r T trajs HV HC HT. destruct (C70_sphere tg C r T trajs HV HC HT) as (new & E & S1).
  exists new. split; auto. intros l t M A W Hl HM HA HW.
  destruct (S1 l t M Hl HM) as (_ & _ & _ & _ & _ & _ & _ & [O D]).
  assert (X : M = pose_at l t /\ A = acceleration_at l t /\ W = angular_velocity_at l t).
  { unfold get_pose, get_acceleration, get_angular_velocity, in_range in *.
    destruct Rlt_dec; [discriminate|]. destruct Rlt_dec; [discriminate|]. repeat split; congruence. }
  destruct X as (-> & -> & ->). unfold save_imu. cbn [fst snd]. rewrite <- !mapp_mmul, (orth_right _ O D), !mapp_I. auto.
Qed.

(** The hypotheses hold for a 6 x 6 grid of 8.8 cm tags at the world origin. *)
Example C70_example : ValidTarget (Target 6 6 (88 / 1000) (3 / 10)) /\ IsRot I3.
Proof. split; [unfold ValidTarget; cbn; repeat split; try lia; lra|]. split; [mat_eq; ring|unfold mdet; cbn; ring]. Qed.
Print Assumptions C70_kinematics.
Print Assumptions C70_sphere.
Print Assumptions C70_closed.
Print Assumptions C70_errors.
Print Assumptions C70_saved_imu.
