(** Chain rules behind the Jacobians of the visual residuals (used by Prop_Residual.v) *)
From Coq Require Import Reals Lra Lia ZArith List Bool Psatz Nsatz.
From Coquelicot Require Import Coquelicot.
From Verif Require Import GeomModel GeomSpec GeomProofs CameraModel Prop_Geom Prop_Geom2 Prop_Camera Prop_Camera2 CalcSpec ResidualModel.
Local Open Scope R_scope.

(** ** Specification vocabulary *)
(** the tangent vector [t * d] *)
Definition tscale (t : R) (d : tang) : tang := Tg (vscale t (d_r d)) (vscale t (d_a d)).
(** row [i] of a 2x6 matrix times a tangent vector *)
Definition times6 (J : matf) (i : nat) (d : tang) : R :=
  J i 0%nat * vx (d_r d) + J i 1%nat * vy (d_r d) + J i 2%nat * vz (d_r d) +
  (J i 3%nat * vx (d_a d) + J i 4%nat * vy (d_a d) + J i 5%nat * vz (d_a d)).
(** the image of a point moving along any curve has the velocity the Jacobian says, and so has
    the image under changing parameters *)
Definition differentiable_at (G : geometry) (res : Z * Z) (c : cam8) (p : vec3) : Prop :=
  exists Jp Jc, g_project_jacobian G c p = Some Jp /\ g_params_jacobian G c p = Some Jc /\
  (forall P d, P 0 = p -> dv P 0 d -> velocity (fun t => zhat (g_project G res c (P t))) (times3 Jp 0 d) (times3 Jp 1 d)) /\
  (forall d, velocity (fun t => zhat (g_project G res (tune c d t) p)) (times8 Jc 0 d) (times8 Jc 1 d)).

Lemma d_cont (f : R -> R) (t a : R) : is_derive f t a -> continuous f t.
Proof. intros H. apply (ex_derive_continuous (V := R_NormedModule)). exists a. exact H. Qed.
Lemma derive_quot (f g : R -> R) (a b x z : R) : is_derive f 0 a -> is_derive g 0 b -> f 0 = x -> g 0 = z -> z <> 0 ->
  is_derive (fun t => f t / g t) 0 (a / z - x * b / (z * z)).
Proof.
  intros Hf Hg <- <- H. eapply d_eq; [apply (is_derive_div f g); eauto|]. unfold Rdiv. field. auto.
Qed.
Lemma radtan4_diff res c p : vz p <> 0 -> differentiable_at radtan4_geometry res c p.
Proof.
  intros Hz. destruct (C53_radtan4_params res c p Hz) as (Jc & Ec & Hc).
  cbn [differentiable_at]. unfold differentiable_at. cbn [radtan4_geometry g_project g_project_jacobian g_params_jacobian].
  unfold pinhole_radtan4_project_jacobian, project_point, project_jacobian.
  destruct (Req_EM_T (vz p) 0); [contradiction|]. eexists; exists Jc. split; [reflexivity|]. split; [exact Ec|].
  split; [|exact Hc]. intros P d P0 (Dx & Dy & Dz).
  set (u := fun t => vx (P t) / vz (P t)). set (v := fun t => vy (P t) / vz (P t)).
  assert (U0 : u 0 = vx p / vz p) by (unfold u; rewrite P0; reflexivity).
  assert (V0 : v 0 = vy p / vz p) by (unfold v; rewrite P0; reflexivity).
  assert (Du := derive_quot _ _ _ _ (vx p) (vz p) Dx Dz (f_equal vx P0) (f_equal vz P0) Hz). fold u in Du.
  assert (Dv := derive_quot _ _ _ _ (vy p) (vz p) Dy Dz (f_equal vy P0) (f_equal vz P0) Hz). fold v in Dv.
  destruct (radtan_chain c u v _ _ Du Dv) as [X Y]. rewrite U0, V0 in X, Y.
  exists (fun t => V2 (fx c * v2x (radtan4_distort c (V2 (u t) (v t))) + cx c)
                      (fy c * v2y (radtan4_distort c (V2 (u t) (v t))) + cy c)). split; [|split].
  - assert (N0 : vz (P 0) <> 0) by (rewrite P0; auto).
    apply filter_imp with (2 := near_neq _ (d_cont _ _ _ Dz) N0).
    intros t Ht. unfold pinhole_radtan4_project, project_point. destruct Req_EM_T; [contradiction|]. reflexivity.
  - cbn [v2x]. eapply d_eq; [apply d_plus; [apply d_scal; exact X|apply d_const]|].
    unfold times3, mulf, sum_to, pinhole_point_jacobian, rows; simpl. field. auto.
  - cbn [v2y]. eapply d_eq; [apply d_plus; [apply d_scal; exact Y|apply d_const]|].
    unfold times3, mulf, sum_to, pinhole_point_jacobian, rows; simpl. field. auto.
Qed.
Lemma equi4_diff res c p : 0 < vz p -> / 10 ^ 8 < offaxis p -> differentiable_at equi4_geometry res c p.
Proof.
  intros Hz Ho. destruct (C53_equi4_params_partial res c p Hz ltac:(lra)) as (Jc & Ec & Hc).
  unfold differentiable_at. cbn [equi4_geometry g_project g_project_jacobian g_params_jacobian].
  unfold pinhole_equi4_project_jacobian, project_point, project_jacobian.
  destruct (Req_EM_T (vz p) 0); [lra|].
  assert (NZ : vz p <> 0) by lra.
  assert (NN : / 10 ^ 8 < norm2 (V2 (vx p / vz p) (vy p / vz p))) by (rewrite norm2_spec; exact Ho).
  assert (E8 : 0 < / 10 ^ 8) by (apply Rinv_0_lt_compat, pow_lt; lra).
  destruct (equi4_point_jacobian c (V2 (vx p / vz p) (vy p / vz p))) as [J|] eqn:EJ.
  2: { exfalso. revert EJ. unfold equi4_point_jacobian. destruct Req_EM_T; [lra|discriminate]. }
  eexists; exists Jc. split; [reflexivity|]. split; [exact Ec|].
  split; [|exact Hc]. intros P d P0 (Dx & Dy & Dz).
  set (u := fun t => vx (P t) / vz (P t)). set (v := fun t => vy (P t) / vz (P t)).
  assert (U0 : u 0 = vx p / vz p) by (unfold u; rewrite P0; reflexivity).
  assert (V0 : v 0 = vy p / vz p) by (unfold v; rewrite P0; reflexivity).
  assert (Du := derive_quot _ _ _ _ (vx p) (vz p) Dx Dz (f_equal vx P0) (f_equal vz P0) NZ). fold u in Du.
  assert (Dv := derive_quot _ _ _ _ (vy p) (vz p) Dy Dz (f_equal vy P0) (f_equal vz P0) NZ). fold v in Dv.
  assert (NN' : / 10 ^ 8 < norm2 (V2 (u 0) (v 0))) by (rewrite U0, V0; exact NN).
  destruct (equi_chain c u v _ _ Du Dv NN') as (J' & EJ' & X & Y). rewrite U0, V0 in EJ'.
  rewrite EJ in EJ'. injection EJ' as <-.
  exists (fun t => V2 (fx c * v2x (equi4_distort c (V2 (u t) (v t))) + cx c)
                      (fy c * v2y (equi4_distort c (V2 (u t) (v t))) + cy c)). split; [|split].
  - assert (N0 : 0 < vz (P 0)) by (rewrite P0; auto).
    apply filter_imp with (2 := near_pos _ (d_cont _ _ _ Dz) N0).
    intros t Ht. unfold pinhole_equi4_project, project_point. destruct Rlt_dec; [lra|]. destruct Req_EM_T; [lra|]. reflexivity.
  - cbn [v2x]. eapply d_eq; [apply d_plus; [apply d_scal; exact X|apply d_const]|].
    unfold times3, mulf, sum_to, pinhole_point_jacobian, rows; simpl. field. auto.
  - cbn [v2y]. eapply d_eq; [apply d_plus; [apply d_scal; exact Y|apply d_const]|].
    unfold times3, mulf, sum_to, pinhole_point_jacobian, rows; simpl. field. auto.
Qed.

(** ** pose updates *)
Lemma vnorm_scale t d : vnorm (vscale t d) = Rabs t * vnorm d.
Proof.
  unfold vnorm. replace (vdot (vscale t d) (vscale t d)) with (t * t * vdot d d) by (unfold vdot, vscale; cbn; ring).
  rewrite sqrt_mult_alt by nra. f_equal. apply sqrt_Rsqr_abs.
Qed.
Lemma quat_delta_d d : dq (fun t => quat_delta (vscale t d)) 0 (Q 0 (vx d / 2) (vy d / 2) (vz d / 2)).
Proof.
  set (n := vnorm d).
  assert (L : locally 0 (fun t : R => quat_delta (vscale t d) =
     let h := 1 / 2 * n * t in let s := 1 - 1 / 6 * (h * h) + 1 / 120 * (h * h * (h * h)) - 1 / 5040 * (h * h * (h * h) * (h * h)) in
     Q (cos h) (s * (1 / 2) * (t * vx d)) (s * (1 / 2) * (t * vy d)) (s * (1 / 2) * (t * vz d)))).
  { assert (C : continuous (fun t : R => 1 / 2 * n * t) 0).
    { eapply d_cont. apply d_scal. apply is_derive_id. }
    assert (E6 : 0 < / 10 ^ 6) by (apply Rinv_0_lt_compat, pow_lt; lra).
    assert (B : locally 0 (fun t : R => - / 10 ^ 6 < 1 / 2 * n * t < / 10 ^ 6)).
    { apply filter_and.
      - apply (C (fun y => - / 10 ^ 6 < y)). apply (open_gt (- / 10 ^ 6)). cbn. lra.
      - apply (C (fun y => y < / 10 ^ 6)). apply (open_lt (/ 10 ^ 6)). cbn. lra. }
    apply filter_imp with (2 := B). intros t Ht. cbv zeta. unfold quat_delta. rewrite vnorm_scale. fold n.
    set (h := 1 / 2 * n * t) in *.
    assert (HH : 1 / 2 * (Rabs t * n) = Rabs h).
    { unfold h. rewrite !Rabs_mult. rewrite (Rabs_pos_eq (1 / 2)) by lra. rewrite (Rabs_pos_eq n) by apply vnorm_pos. ring. }
    rewrite HH. cbv zeta.
    assert (S2 : Rabs h * Rabs h = h * h) by (rewrite <- Rabs_mult; apply Rabs_pos_eq; nra).
    assert (CC : cos (Rabs h) = cos h) by (unfold Rabs; destruct Rcase_abs; [apply cos_neg|reflexivity]).
    assert (SS : sinc (Rabs h) = 1 - 1 / 6 * (h * h) + 1 / 120 * (h * h * (h * h)) - 1 / 5040 * (h * h * (h * h) * (h * h))).
    { unfold sinc. rewrite Rabs_Rabsolu. destruct Rlt_dec as [Hl|_].
      - exfalso. assert (Rabs h < / 10 ^ 6) by (apply Rabs_def1; lra). lra.
      - cbv zeta. rewrite S2. ring. }
    rewrite CC, SS. unfold vscale. cbn [vx vy vz]. reflexivity. }
  split; split;
  (eapply is_derive_ext_loc; [apply filter_imp with (2 := L); intros t Ht; symmetry; rewrite Ht; reflexivity|]);
  cbv zeta; cbn [qw qx qy qz]; auto_derive; auto; rewrite ?Rmult_0_r, ?sin_0; field.
Qed.
Lemma pose_dr x d : dv (fun t => p_r (pose_plus x (tscale t d))) 0 (d_r d).
Proof. split; [|split]; cbn; auto_derive; auto; ring. Qed.
Lemma pose_dR x d : unitq (p_q x) ->
  dm (fun t => to_rot (p_q (pose_plus x (tscale t d)))) 0 (mmul (skew (d_a d)) (to_rot (p_q x))).
Proof.
  intros U. cbn [pose_plus p_q tscale d_a].
  pose proof (dm_to_rot _ _ _ (dq_mul_r _ _ _ (p_q x) (quat_delta_d (d_a d)))) as D. cbn beta in D.
  eapply dm_eq; [exact D|]. clear D.
  replace (quat_delta (vscale 0 (d_a d))) with (Q 1 0 0 0).
  2: { unfold quat_delta. rewrite vnorm_scale, Rabs_R0, Rmult_0_l, Rmult_0_r, cos_0. unfold vscale. cbn [vx vy vz]. f_equal; ring. }
  rewrite qmul_1. unfold unitq, qnorm2 in U. destruct (p_q x) as [w a b c]. destruct (d_a d) as [X Y Z]. cbn [qw qx qy qz] in U.
  unfold dto_rot.
  assert (K : forall L R k, L - R = k * (w * w + a * a + b * b + c * c - 1) -> L = R).
  { intros L R k H. rewrite U in H. lra. }
  mat_eq; first [field | apply (K _ _ X); field | apply (K _ _ Y); field | apply (K _ _ Z); field
               | apply (K _ _ (- X)); field | apply (K _ _ (- Y)); field | apply (K _ _ (- Z)); field].
Qed.
Lemma to_rot_orth q : unitq q -> IsRot (to_rot q).
Proof.
  intros U. rewrite to_rot_quat2rot by exact U. split; [apply quat2rot_orth; exact U|]. rewrite quat2rot_det, U. ring.
Qed.
Lemma rot_tr_l C v : IsRot C -> mapp (mtr C) (mapp C v) = v.
Proof. intros [O _]. rewrite <- mapp_mmul, O. apply mapp_I. Qed.
Lemma rot_tr_r C v : IsRot C -> mapp C (mapp (mtr C) v) = v.
Proof. intros [O D]. rewrite <- mapp_mmul, (orth_right C O D). apply mapp_I. Qed.

(** ** points through chains of transforms *)
Lemma point_mul A C r p : tf_point (mmul4 A (tf C r)) p = tf_point A (vadd (mapp C p) r).
Proof. unfold tf_point. mat_eq; ring. Qed.
Lemma point_tf C r p : tf_point (tf C r) p = vadd (mapp C p) r.
Proof. unfold tf_point. mat_eq; ring. Qed.
Lemma point_inv C r p : tf_point (tf_inv (tf C r)) p = mapp (mtr C) (vsub p r).
Proof. rewrite tf_inv_tf, point_tf. mat_eq; ring. Qed.
Lemma point_mul_inv A C r p : tf_point (mmul4 A (tf_inv (tf C r))) p = tf_point A (mapp (mtr C) (vsub p r)).
Proof. rewrite tf_inv_tf, point_mul. f_equal. mat_eq; ring. Qed.
Lemma rot_tf C r : tf_rot (tf C r) = C. Proof. destruct C; reflexivity. Qed.
Lemma rot_mul C r D s : tf_rot (mmul4 (tf C r) (tf D s)) = mmul C D.
Proof. mat_eq; ring. Qed.
Lemma mul_tf C r D s : mmul4 (tf C r) (tf D s) = tf (mmul C D) (vadd (mapp C s) r).
Proof. mat_eq; ring. Qed.

(** ** matrix rows *)
Lemma times3_mf A B i d : times3 (mulf 3 A (mf B)) i d = times3 A i (mapp B d).
Proof. unfold times3, mulf, mf, rows. cbn. ring. Qed.
Lemma times3_mul2 W J i d : times3 (mulf 2 W J) i d = W i 0%nat * times3 J 0 d + W i 1%nat * times3 J 1 d.
Proof. unfold times3, mulf. cbn. ring. Qed.
Lemma times8_mul2 W J i d : times8 (mulf 2 W J) i d = W i 0%nat * times8 J 0 d + W i 1%nat * times8 J 1 d.
Proof. unfold times8, mulf. cbn. ring. Qed.
Lemma times3_scale s A i d : times3 (scalef s A) i d = s * times3 A i d.
Proof. unfold times3, scalef. ring. Qed.
Lemma times3_add A i u v : times3 A i (vadd u v) = times3 A i u + times3 A i v.
Proof. unfold times3, vadd. cbn. ring. Qed.
Lemma times6_hcat A B i d : times6 (hcat3 A B) i d = times3 A i (d_r d) + times3 B i (d_a d).
Proof. reflexivity. Qed.
Lemma vel_weigh W z F a b : velocity F a b ->
  velocity (fun t => omap (weigh W z) (F t)) (- (W 0%nat 0%nat * a + W 0%nat 1%nat * b)) (- (W 1%nat 0%nat * a + W 1%nat 1%nat * b)).
Proof.
  intros (f & L & Dx & Dy). exists (fun t => weigh W z (f t)). split; [|split].
  - apply filter_imp with (2 := L). intros t ->. reflexivity.
  - unfold weigh. cbn [v2x]. dring.
  - unfold weigh. cbn [v2y]. dring.
Qed.
Lemma vel_eq F a b a' b' : velocity F a b -> a = a' -> b = b' -> velocity F a' b'.
Proof. intros H <- <-. exact H. Qed.
Lemma vel_ext F F' a b : (forall t, F t = F' t) -> velocity F a b -> velocity F' a b.
Proof. intros E (f & L & D). exists f. split; auto. apply filter_imp with (2 := L). intros t <-. symmetry. apply E. Qed.
(** lifting to the 7 numbers of a pose and reducing back *)
Lemma lift_plus x J i j : unitq (p_q x) -> (j < 6)%nat ->
  mulf 7 (mulf 6 J (lift_pose_jacobian (tf_pose x))) (plus_jacobian x) i j = J i j.
Proof.
  intros U Hj. pose proof (C48_lift_plus_jacobian x U) as L.
  set (A := lift_jacobian_rot (tf_pose x)) in *. set (B := plus_jacobian_rot x) in *.
  assert (L00 : vdot4 (r0 A) (c0 B) = 1) by exact (f_equal m00 L).
  assert (L01 : vdot4 (r0 A) (c1 B) = 0) by exact (f_equal m01 L).
  assert (L02 : vdot4 (r0 A) (c2 B) = 0) by exact (f_equal m02 L).
  assert (L10 : vdot4 (r1 A) (c0 B) = 0) by exact (f_equal m10 L).
  assert (L11 : vdot4 (r1 A) (c1 B) = 1) by exact (f_equal m11 L).
  assert (L12 : vdot4 (r1 A) (c2 B) = 0) by exact (f_equal m12 L).
  assert (L20 : vdot4 (r2 A) (c0 B) = 0) by exact (f_equal m20 L).
  assert (L21 : vdot4 (r2 A) (c1 B) = 0) by exact (f_equal m21 L).
  assert (L22 : vdot4 (r2 A) (c2 B) = 1) by exact (f_equal m22 L).
  unfold mulf, lift_pose_jacobian, plus_jacobian. fold A. fold B. clearbody A B. clear L.
  destruct j as [|[|[|[|[|[|j]]]]]]; try lia; cbn [sum_to Nat.ltb Nat.leb Nat.eqb andb nth4 row34 Nat.sub].
  1-3: ring.
  all: match goal with |- ?L = ?R => apply Rminus_diag_uniq end.
  - transitivity (J i 3%nat * (vdot4 (r0 A) (c0 B) - 1)
      + J i 4%nat * vdot4 (r1 A) (c0 B)
      + J i 5%nat * vdot4 (r2 A) (c0 B)); [unfold vdot4; ring|rewrite L00, L10, L20; ring].
  - transitivity (J i 3%nat * vdot4 (r0 A) (c1 B)
      + J i 4%nat * (vdot4 (r1 A) (c1 B) - 1)
      + J i 5%nat * vdot4 (r2 A) (c1 B)); [unfold vdot4; ring|rewrite L01, L11, L21; ring].
  - transitivity (J i 3%nat * vdot4 (r0 A) (c2 B)
      + J i 4%nat * vdot4 (r1 A) (c2 B)
      + J i 5%nat * (vdot4 (r2 A) (c2 B) - 1)); [unfold vdot4; ring|rewrite L02, L12, L22; ring].
Qed.
