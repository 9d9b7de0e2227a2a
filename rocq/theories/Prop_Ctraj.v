(** C75: continuous trajectories through way points. *)
From Coq Require Import Reals ZArith List Lra Lia Psatz.
From Coquelicot Require Import Coquelicot.
From Flocq Require Import Core.Core.
From Verif Require Import GeomModel GeomSpec GeomProofs StatsModel LerpModel CalcSpec CtrajModel CtrajSpec Prop_Interp CtrajProofs.
Local Open Scope R_scope.

(** ** kinematics *)
Lemma fltcmp_far u v : Rabs (u - v) > 1 / 10000 -> Z.eqb (fltcmp u v) 0 = false.
Proof.
  intros H. unfold fltcmp. destruct (Rle_dec _ _); [lra|]. destruct (Rlt_dec _ _); reflexivity.
Qed.
Lemma fltcmp_near u v : Rabs (u - v) <= 1 / 10000 -> Z.eqb (fltcmp u v) 0 = true.
Proof. intros H. unfold fltcmp. destruct (Rle_dec _ _); [reflexivity|lra]. Qed.
Lemma d_normalize c t : is_derive (fun s : R => ts_normalize c s) t (1 / ct_gap c).
Proof.
  unfold ts_normalize, ct_gap. unfold Rdiv. set (k := / _).
  eapply d_eq; [apply (d_mult (fun s => s - secs (ct_start c)) (fun _ => k)); [|apply d_const]|].
  - eapply d_eq; [apply (d_minus (fun s => s) (fun _ => secs (ct_start c))); [apply (is_derive_id t)|apply d_const]|reflexivity].
  - unfold one; cbn. ring.
Qed.
Lemma cont_normalize c t : continuous (fun s : R => ts_normalize c s) t.
Proof. apply (ex_derive_continuous (fun s : R => ts_normalize c s)). eexists. apply d_normalize. Qed.

Theorem C75_kinematics_partial : forall c t,
  Differentiates (ct_ps c) -> Differentiates (ct_rs c) ->
  1 / 10000 < ts_normalize c t < 1 - 1 / 10000 ->
  / 10 ^ 12 < vnorm (s_0 (ct_rs c) (ts_normalize c t)) ->
  exists (P : R -> mat4) eps, 0 < eps /\
    (forall s, Rabs (s - t) < eps -> ctraj_get_pose c s = Some (P s)) /\
    dv (fun s => tf_trans (P s)) t (ctraj_get_velocity c t) /\
    dv (fun s => ctraj_get_velocity c s) t (ctraj_get_acceleration c t) /\
    dm (fun s => tf_rot (P s)) t (mmul (skew (ctraj_get_angular_velocity c t)) (tf_rot (P t))).
Proof.
  intros c t DP DR U N. set (u := ts_normalize c t) in *.
  destruct (DP u ltac:(lra)) as [P1 P2]. destruct (DR u ltac:(lra)) as [R1 _].
  set (P := fun s => tf_q (rq (s_0 (ct_rs c) (ts_normalize c s))) (s_0 (ct_ps c) (ts_normalize c s))).
  assert (CN : continuous (fun s : R => vnorm (s_0 (ct_rs c) (ts_normalize c s))) t).
  { apply (ex_derive_continuous (fun s : R => vnorm (s_0 (ct_rs c) (ts_normalize c s)))).
    eexists. apply (d_norm (fun s => s_0 (ct_rs c) (ts_normalize c s))).
    - fold u. pose proof (Rinv_0_lt_compat (10 ^ 12)). lra.
    - apply (dv_comp (s_0 (ct_rs c)) (fun s => ts_normalize c s)); [exact R1|apply d_normalize]. }
  assert (L : locally t (fun s : R => ctraj_get_pose c s = Some (P s))).
  { pose proof (cont_normalize c t (fun v => 1 / 10000 < v < 1 - 1 / 10000)) as L1.
    assert (O1 : locally (ts_normalize c t) (fun v : R => 1 / 10000 < v < 1 - 1 / 10000)).
    { apply (open_and (fun v : R => 1 / 10000 < v) (fun v => v < 1 - 1 / 10000)); [apply open_gt|apply open_lt|exact U]. }
    specialize (L1 O1).
    pose proof (CN (fun v : R => / 10 ^ 12 < v) (open_gt _ _ N)) as L2.
    unfold filtermap in L1, L2. generalize (filter_and _ _ L1 L2). apply filter_imp.
    intros s [[A1 A2] B]. unfold ctraj_get_pose. rewrite !fltcmp_far.
    - destruct (Rlt_dec _ _); [lra|]. reflexivity.
    - rewrite Rabs_left; lra.
    - rewrite Rminus_0_r, Rabs_right; lra. }
  destruct L as [eps L]. exists P, eps. split; [apply cond_pos|]. split; [intros s Hs; apply L; exact Hs|].
  assert (TT : forall s, tf_trans (P s) = s_0 (ct_ps c) (ts_normalize c s)).
  { intros s. unfold P, tf_q. mat_eq; reflexivity. }
  assert (TR : forall s, tf_rot (P s) = to_rot (rq (s_0 (ct_rs c) (ts_normalize c s)))).
  { intros s. unfold P, tf_q. apply M3_ext; reflexivity. }
  split; [|split].
  - eapply dv_ext; [intros s; symmetry; apply TT|].
    apply (dv_comp (s_0 (ct_ps c)) (fun s => ts_normalize c s)); [exact P1|apply d_normalize].
  - unfold ctraj_get_velocity, ctraj_get_acceleration. eapply dv_eq.
    + apply dv_scale. apply (dv_comp (s_1 (ct_ps c)) (fun s => ts_normalize c s)); [exact P2|apply d_normalize].
    + fold u. mat_eq; ring.
  - rewrite TR. unfold ctraj_get_angular_velocity. fold u.
    destruct (Rlt_dec _ _) as [|_]; [lra|].
    pose proof (rot_rate (fun s => s_0 (ct_rs c) (ts_normalize c s)) t (vscale (1 / ct_gap c) (s_1 (ct_rs c) u))) as RR.
    cbn beta in RR. fold u in RR. unfold left_jac in RR. cbv zeta in RR.
    assert (RG : dm (fun s => to_rot (rq (s_0 (ct_rs c) (ts_normalize c s)))) t
        (mmul (skew (ctraj_get_angular_velocity c t)) (to_rot (rq (s_0 (ct_rs c) u))))).
    { unfold ctraj_get_angular_velocity. fold u. destruct (Rlt_dec _ _) as [|_]; [lra|].
      apply RR; [pose proof (Rinv_0_lt_compat (10 ^ 12)); lra|].
      apply (dv_comp (s_0 (ct_rs c)) (fun s => ts_normalize c s)); [exact R1|apply d_normalize]. }
    unfold ctraj_get_angular_velocity in RG. fold u in RG. destruct (Rlt_dec _ _) as [|_] in RG; [lra|].
    destruct RG as ((G1 & G2 & G3) & (G4 & G5 & G6) & G7 & G8 & G9).
    split; [|split]; (split; [|split]); (eapply is_derive_ext; [intros s; rewrite TR; reflexivity|]); assumption.
Qed.

(** Refuted at the ends: within 1e-4 of either end (as a fraction of the duration) the pose is frozen
    at the first/last way point, so its rate is zero whatever velocity is reported. *)
Theorem C75_ends_refuted : forall c t q r, hd_error (ct_quat c) = Some q -> hd_error (ct_pos c) = Some r ->
  0 < ts_normalize c t < 1 / 10000 ->
  exists (P : R -> mat4) eps, 0 < eps /\
    (forall s, Rabs (s - t) < eps -> ctraj_get_pose c s = Some (P s)) /\
    dv (fun s => tf_trans (P s)) t vzero /\ P t = tf_q q r /\
    (Differentiates (ct_ps c) -> s_1 (ct_ps c) (ts_normalize c t) <> vzero -> ct_gap c <> 0 ->
       ctraj_get_velocity c t <> vzero).
Proof.
  intros c t q r HQ HR U. exists (fun _ => tf_q q r).
  assert (L : locally t (fun s : R => ctraj_get_pose c s = Some (tf_q q r))).
  { assert (O1 : locally (ts_normalize c t) (fun v : R => 0 < v < 1 / 10000)).
    { apply (open_and (fun v : R => 0 < v) (fun v => v < 1 / 10000)); [apply open_gt|apply open_lt|exact U]. }
    pose proof (cont_normalize c t _ O1) as L1. unfold filtermap in L1. revert L1. apply filter_imp.
    intros s [A1 A2]. unfold ctraj_get_pose. rewrite fltcmp_near.
    - destruct (ct_quat c), (ct_pos c); cbn in HQ, HR; try discriminate. congruence.
    - rewrite Rminus_0_r, Rabs_right; lra. }
  destruct L as [eps L]. exists eps. split; [apply cond_pos|]. split; [intros s Hs; apply L; exact Hs|].
  split; [apply dv_const|]. split; auto.
  intros _ N G E. apply N. unfold ctraj_get_velocity in E. set (v := s_1 _ _) in *.
  assert (K : 1 / ct_gap c <> 0) by (unfold Rdiv; rewrite Rmult_1_l; apply Rinv_neq_0_compat; auto).
  pose proof (f_equal vx E) as EX. pose proof (f_equal vy E) as EY. pose proof (f_equal vz E) as EZ.
  cbn [vscale vzero vx vy vz] in EX, EY, EZ.
  mat_eq; [apply Rmult_integral in EX|apply Rmult_integral in EY|apply Rmult_integral in EZ]; tauto.
Qed.

(** ** rotation vectors *)
Lemma unwrap_norm d k : vnorm d <> 0 -> vnorm (vsub d (vscale k (vnormalized d))) = Rabs (vnorm d - k).
Proof.
  intros N. rewrite vnormalized_eq.
  replace (vsub d (vscale k (vscale (/ vnorm d) d))) with (vscale ((vnorm d - k) / vnorm d) d) by (mat_eq; field; auto).
  rewrite vnorm_scale. unfold Rdiv. rewrite Rabs_mult, Rmult_assoc.
  rewrite (Rabs_right (/ vnorm d)). 2:{ pose proof (vnorm_nonneg d). left. apply Rinv_0_lt_compat. lra. }
  rewrite Rinv_l by auto. ring.
Qed.
Lemma pi_lt d : PI * PI < vdot d d -> PI < vnorm d.
Proof. rewrite <- vnorm_sq. intros H. pose proof (vnorm_nonneg d). pose proof PI_RGT_0. nra. Qed.
Lemma pi_ge d : ~ PI * PI < vdot d d -> vnorm d <= PI.
Proof. rewrite <- vnorm_sq. intros H. pose proof (vnorm_nonneg d). pose proof PI_RGT_0. nra. Qed.
Lemma unwrap_loop_ok n : forall d, vnorm d <= PI + 2 * PI * INR n -> vnorm (unwrap_loop n d) <= PI.
Proof.
  induction n as [|n IH]; intros d H; cbn [unwrap_loop].
  - cbn in H. lra.
  - rewrite S_INR in H. pose proof PI_RGT_0 as P0. pose proof (pos_INR n) as PN.
    destruct (Rlt_dec _ _) as [L|L]; [|apply pi_ge; auto].
    apply pi_lt in L. apply IH. rewrite unwrap_norm by lra.
    assert (0 <= 2 * PI * INR n) by (apply Rmult_le_pos; lra).
    apply Rabs_le. split; lra.
Qed.
(** the loop ends with a step of at most pi *)
Lemma unwrap_ok d : vnorm (unwrap d) <= PI.
Proof.
  unfold unwrap. apply unwrap_loop_ok. rewrite S_INR.
  pose proof (archimed (vnorm d)) as [A _]. pose proof (vnorm_nonneg d) as N. pose proof PI_RGT_0.
  assert (0 < up (vnorm d))%Z by (apply lt_IZR; lra).
  rewrite INR_IZR_INZ, Z2Nat.id by lia. pose proof (PI2_3_2). unfold PI2 in *. nra.
Qed.
Lemma unwrap_id d : vnorm d <= PI -> unwrap d = d.
Proof.
  intros H. unfold unwrap. cbn [unwrap_loop]. destruct (Rlt_dec _ _) as [L|]; auto.
  apply pi_lt in L. lra.
Qed.

(** ** angle-axis of a quaternion *)
Lemma atan2q_spec n w : 0 < n -> 0 <= w -> n * n + w * w = 1 ->
  cos (atan2q n w) = w /\ sin (atan2q n w) = n /\ 0 <= 2 * atan2q n w <= PI.
Proof.
  intros N W E. unfold atan2q. destruct (Req_EM_T w 0) as [ -> |W0].
  - rewrite cos_PI2, sin_PI2. pose proof PI_RGT_0. split; [auto|split; nra].
  - assert (W' : 0 < w) by lra. clear W W0.
    assert (Q : 1 + (n / w)² = (/ w) * (/ w)).
    { unfold Rsqr. transitivity ((n * n + w * w) / (w * w)); [field; lra|]. rewrite E. field. lra. }
    assert (SQ : sqrt (1 + (n / w)²) = / w).
    { rewrite Q. apply sqrt_square. left. apply Rinv_0_lt_compat; auto. }
    rewrite cos_atan, sin_atan, SQ. split; [field; lra|split; [field; lra|]].
    pose proof (atan_bound (n / w)).
    assert (0 < atan (n / w)). { rewrite <- atan_0. apply atan_increasing. apply Rdiv_lt_0_compat; auto. }
    lra.
Qed.
Lemma rvec_of_spec q : qnorm2 q = 1 ->
  0 <= vnorm (rvec_of q) <= PI /\ to_rot q = rodrigues (vscale (/ vnorm (rvec_of q)) (rvec_of q)) (vnorm (rvec_of q)).
Proof.
  intros U. unfold rvec_of, angle_axis. set (v := V3 (qx q) (qy q) (qz q)).
  destruct (Req_EM_T (vnorm v) 0) as [Z|N]; cbn [fst snd].
  - pose proof PI_RGT_0. replace (vscale 0 (V3 1 0 0)) with vzero by (mat_eq; ring).
    assert (VZ : vnorm vzero = 0) by (unfold vnorm, vdot, vzero; cbn [vx vy vz]; replace (0 * 0 + 0 * 0 + 0 * 0) with 0 by ring; apply sqrt_0).
    rewrite VZ, rodrigues_0. split; [lra|].
    apply vnorm_0 in Z. pose proof (f_equal vx Z) as X. pose proof (f_equal vy Z) as Y. pose proof (f_equal vz Z) as Zz.
    cbn [v vx vy vz vzero] in X, Y, Zz. mat_eq; rewrite ?X, ?Y, ?Zz; ring.
  - pose proof (vnorm_nonneg v) as NN. assert (NP : 0 < vnorm v) by lra. clear NN.
    assert (E : vnorm v * vnorm v + Rabs (qw q) * Rabs (qw q) = 1).
    { rewrite vnorm_sq. rewrite <- Rabs_mult, Rabs_right by nra. unfold qnorm2 in U. unfold v, vdot; cbn [vx vy vz]. lra. }
    destruct (atan2q_spec (vnorm v) (Rabs (qw q)) NP (Rabs_pos _) E) as (CA & SA & BA).
    set (h := atan2q _ _) in *. set (n := vnorm v) in *.
    set (k := if Rlt_dec (qw q) 0 then - n else n).
    assert (KN : k <> 0) by (unfold k; destruct (Rlt_dec _ _); lra).
    assert (VN : vnorm (vscale (/ k) v) = 1).
    { rewrite vnorm_scale. fold n. unfold k. destruct (Rlt_dec _ _).
      - rewrite Rabs_left; [field; lra|]. apply Rinv_lt_0_compat. lra.
      - rewrite Rabs_right; [field; lra|]. left. apply Rinv_0_lt_compat. lra. }
    assert (HP : 0 < h).
    { destruct (Req_dec h 0) as [Z|]; [|lra]. rewrite Z, sin_0 in SA. lra. }
    assert (RN : vnorm (vscale (2 * h) (vscale (/ k) v)) = 2 * h).
    { rewrite vnorm_scale, VN, Rabs_right; lra. }
    rewrite RN. split; [lra|].
    replace (vscale (/ (2 * h)) (vscale (2 * h) (vscale (/ k) v))) with (vscale (/ k) v) by (mat_eq; field; lra).
    rewrite <- to_rot_axq.
    2:{ rewrite <- vnorm_sq, VN. ring. }
    unfold axq. rewrite CA, SA. unfold k. destruct (Rlt_dec (qw q) 0).
    + rewrite <- to_rot_opp. f_equal. rewrite Rabs_left by lra. unfold v. mat_eq; field; lra.
    + f_equal. rewrite Rabs_right by lra. unfold v. mat_eq; field; lra.
Qed.

(** [r] is a rotation vector of the orientation [q] *)
Definition represents (r : vec3) (q : quat) : Prop := to_rot (rq r) = to_rot q.
Lemma rvec_of_represents q : qnorm2 q = 1 -> represents (rvec_of q) q.
Proof. intros U. unfold represents. rewrite rq_rot. symmetry. apply rvec_of_spec, U. Qed.

Lemma rot_axis a u : vdot u u = 1 -> to_rot (rq (vscale a u)) = rodrigues u a.
Proof.
  intros U. rewrite rq_rot, vnorm_scale.
  assert (VU : vnorm u = 1) by (unfold vnorm; rewrite U; apply sqrt_1).
  rewrite VU, Rmult_1_r. destruct (Req_dec a 0) as [ -> |N].
  - rewrite Rabs_R0, !rodrigues_0. reflexivity.
  - destruct (Rle_dec 0 a).
    + rewrite Rabs_right by lra. f_equal. mat_eq; field; auto.
    + rewrite Rabs_left by lra. replace (vscale (/ - a) (vscale a u)) with (vopp u) by (mat_eq; field; lra).
      rewrite rodrigues_opp. f_equal. ring.
Qed.
Lemma rodrigues_2pi u a (k : Z) : rodrigues u (a + 2 * IZR k * PI) = rodrigues u a.
Proof.
  unfold rodrigues.
  assert (S : sin (a + 2 * IZR k * PI) = sin a).
  { destruct (Z_le_gt_dec 0 k).
    - rewrite <- (Z2Nat.id k) by lia. rewrite <- INR_IZR_INZ. apply sin_period.
    - replace k with (- Z.of_nat (Z.to_nat (- k)))%Z by lia. rewrite opp_IZR, <- INR_IZR_INZ.
      rewrite <- (sin_period (a + 2 * - INR (Z.to_nat (- k)) * PI) (Z.to_nat (- k))). f_equal. ring. }
  assert (C : cos (a + 2 * IZR k * PI) = cos a).
  { destruct (Z_le_gt_dec 0 k).
    - rewrite <- (Z2Nat.id k) by lia. rewrite <- INR_IZR_INZ. apply cos_period.
    - replace k with (- Z.of_nat (Z.to_nat (- k)))%Z by lia. rewrite opp_IZR, <- INR_IZR_INZ.
      rewrite <- (cos_period (a + 2 * - INR (Z.to_nat (- k)) * PI) (Z.to_nat (- k))). f_equal. ring. }
  rewrite S, C. reflexivity.
Qed.
Lemma unwrap_axis u n : vdot u u = 1 -> forall a, exists k : Z, unwrap_loop n (vscale a u) = vscale (a + 2 * IZR k * PI) u.
Proof.
  intros U. assert (VU : vnorm u = 1) by (unfold vnorm; rewrite U; apply sqrt_1).
  induction n as [|n IH]; intros a; cbn [unwrap_loop].
  - exists 0%Z. f_equal. ring.
  - destruct (Rlt_dec _ _) as [L|L]; [|exists 0%Z; f_equal; ring].
    apply pi_lt in L. rewrite vnorm_scale, VU, Rmult_1_r in L. pose proof PI_RGT_0.
    rewrite vnormalized_eq, vnorm_scale, VU, Rmult_1_r.
    destruct (Rle_dec 0 a) as [A|A].
    + rewrite Rabs_right in * by lra.
      replace (vsub (vscale a u) (vscale (2 * PI) (vscale (/ a) (vscale a u)))) with (vscale (a - 2 * PI) u) by (mat_eq; field; lra).
      destruct (IH (a - 2 * PI)) as [k ->]. exists (k - 1)%Z. f_equal. rewrite minus_IZR. ring.
    + rewrite Rabs_left in * by lra.
      replace (vsub (vscale a u) (vscale (2 * PI) (vscale (/ - a) (vscale a u)))) with (vscale (a + 2 * PI) u) by (mat_eq; field; lra).
      destruct (IH (a + 2 * PI)) as [k ->]. exists (k + 1)%Z. f_equal. rewrite plus_IZR. ring.
Qed.

(** Orientations a spline can follow: consecutive rotation vectors at most pi apart, or all turning
    about one axis. *)
Fixpoint small_steps (prev : quat) (qs : list quat) : Prop :=
  match qs with nil => True | q :: qs' => vnorm (vsub (rvec_of q) (rvec_of prev)) <= PI /\ small_steps q qs' end.
Definition Trackable (qs : list quat) : Prop :=
  (match qs with nil => True | q :: qs' => small_steps q qs' end) \/
  (exists u, vdot u u = 1 /\ forall q, In q qs -> exists a, rvec_of q = vscale a u).

Lemma rvecs_small qs : forall q0, small_steps q0 qs -> rvecs_from (rvec_of q0) qs = map rvec_of qs.
Proof.
  induction qs as [|q qs IH]; intros q0 H; auto. destruct H as [H1 H2]. cbn [rvecs_from map].
  rewrite (unwrap_id _ H1).
  replace (vadd (rvec_of q0) (vsub (rvec_of q) (rvec_of q0))) with (rvec_of q) by (mat_eq; ring).
  f_equal. apply IH, H2.
Qed.
Lemma rvecs_axis u : vdot u u = 1 -> forall qs prev,
  (forall q, In q qs -> qnorm2 q = 1 /\ exists a, rvec_of q = vscale a u) -> (exists b, prev = vscale b u) ->
  Forall2 represents (rvecs_from prev qs) qs.
Proof.
  intros U. induction qs as [|q qs IH]; intros prev H [b ->]; [constructor|]. cbn [rvecs_from].
  destruct (H q (or_introl eq_refl)) as (UQ & a & Ea).
  replace (vsub (rvec_of q) (vscale b u)) with (vscale (a - b) u) by (rewrite Ea; mat_eq; ring).
  destruct (unwrap_axis u (S (Z.to_nat (up (vnorm (vscale (a - b) u))))) U (a - b)) as [k Ek].
  fold (unwrap (vscale (a - b) u)) in Ek. rewrite Ek.
  replace (vadd (vscale b u) (vscale (a - b + 2 * IZR k * PI) u)) with (vscale (a + 2 * IZR k * PI) u) by (mat_eq; ring).
  constructor.
  - unfold represents. rewrite rot_axis by auto. rewrite rodrigues_2pi, <- rot_axis, <- Ea by auto. apply rvec_of_represents, UQ.
  - apply IH; [intros q' I; apply H; right; exact I|eauto].
Qed.
Lemma rvecs_represent qs : (forall q, In q qs -> qnorm2 q = 1) -> Trackable qs -> Forall2 represents (rvecs qs) qs.
Proof.
  intros UQ [S|(u & U & A)]; destruct qs as [|q qs]; try constructor.
  - apply rvec_of_represents, UQ. left; auto.
  - rewrite (rvecs_small qs q S). assert (UQ' : forall q0, In q0 qs -> qnorm2 q0 = 1) by (intros; apply UQ; right; auto).
    clear S UQ. induction qs; constructor; [apply rvec_of_represents, UQ'; left; auto|apply IHqs; intros; apply UQ'; right; auto].
  - apply rvec_of_represents, UQ. left; auto.
  - apply (rvecs_axis u U); [|apply A; left; auto]. intros q' I. split; [apply UQ|apply A]; right; auto.
Qed.

(** ** way points *)
Lemma trace_angle q : qnorm2 q = 1 -> m00 (to_rot q) + m11 (to_rot q) + m22 (to_rot q) = 1 + 2 * cos (vnorm (rvec_of q)).
Proof.
  intros U. destruct (rvec_of_spec q U) as [_ E]. rewrite E.
  destruct (Req_dec (vnorm (rvec_of q)) 0) as [Z|N].
  - rewrite Z, rodrigues_0, cos_0. cbn. ring.
  - pose proof (unit_normalized _ N) as UN. set (u := vscale _ _) in *. unfold vdot in UN. unfold rodrigues.
    cbn [madd mscale mmul skew I3 m00 m01 m02 m10 m11 m12 m20 m21 m22].
    set (c := cos _). transitivity (3 - 2 * (1 - c) * (vx u * vx u + vy u * vy u + vz u * vz u)); [ring|]. rewrite UN. ring.
Qed.
Lemma trace_rq r : m00 (to_rot (rq r)) + m11 (to_rot (rq r)) + m22 (to_rot (rq r)) = 1 + 2 * cos (vnorm r).
Proof.
  rewrite rq_rot. destruct (Req_dec (vnorm r) 0) as [Z|N].
  - rewrite Z, rodrigues_0, cos_0. cbn. ring.
  - pose proof (unit_normalized _ N) as UN. set (u := vscale _ _) in *. unfold vdot in UN. unfold rodrigues.
    cbn [madd mscale mmul skew I3 m00 m01 m02 m10 m11 m12 m20 m21 m22].
    set (c := cos _). transitivity (3 - 2 * (1 - c) * (vx u * vx u + vy u * vy u + vz u * vz u)); [ring|]. rewrite UN. ring.
Qed.

Lemma Forall2_nth {A B} (P : A -> B -> Prop) l1 : forall l2 i b, Forall2 P l1 l2 -> nth_error l2 i = Some b ->
  exists a, nth_error l1 i = Some a /\ P a b.
Proof.
  induction l1; intros l2 i b F N; inversion F; subst; [destruct i; discriminate|].
  destruct i; cbn in *; [injection N as <-; eauto|eauto].
Qed.
Lemma tf_q_rot q q' r : to_rot q = to_rot q' -> tf_q q r = tf_q q' r.
Proof. unfold tf_q. intros ->. reflexivity. Qed.

Theorem C75_waypoints_partial : forall c,
  (ct_start c < ct_end c)%Z -> length (ct_pos c) = length (ct_quat c) ->
  (forall q, In q (ct_quat c) -> qnorm2 q = 1) ->
  Interpolates (ct_ps c) (knots c) (ct_pos c) ->
  Interpolates (ct_rs c) (knots c) (rvecs (ct_quat c)) ->
  Trackable (ct_quat c) ->
  forall i ts q p, nth_error (ct_stamps c) i = Some ts ->
    nth_error (ct_quat c) i = Some q -> nth_error (ct_pos c) i = Some p ->
    (* way points in the first and last 1e-4 of the duration are the end points *)
    (1 / 10000 < ts_normalize c (secs ts) < 1 - 1 / 10000 \/ i = O \/ S i = length (ct_pos c)) ->
    (* orientations closer than 1e-12 rad to the identity are the identity *)
    (to_rot q = I3 \/ / 10 ^ 12 <= vnorm (rvec_of q)) ->
    ctraj_get_pose c (secs ts) = Some (tf_q q p).
Proof.
  intros c SE LE UQ IP IR TR i ts q p NT NQ NP WHERE ANG.
  assert (GP : 0 < secs (ct_end c) - secs (ct_start c)).
  { unfold secs. apply IZR_lt in SE. lra. }
  assert (U0 : ts_normalize c (secs (ct_start c)) = 0) by (unfold ts_normalize; field; lra).
  destruct WHERE as [MID|[I0|IL]].
  - set (u := ts_normalize c (secs ts)) in *.
    assert (NK : nth_error (knots c) i = Some u) by (unfold knots; rewrite nth_error_map, NT; reflexivity).
    destruct (Forall2_nth _ _ _ _ _ (rvecs_represent _ UQ TR) NQ) as (r & NR & RP).
    unfold ctraj_get_pose. fold u. rewrite !fltcmp_far.
    2:{ rewrite Rabs_left; lra. } 2:{ rewrite Rminus_0_r, Rabs_right; lra. }
    rewrite (IP _ _ _ NK NP), (IR _ _ _ NK NR). fold (rq r).
    destruct (Rlt_dec _ _) as [SM|SM]; [|f_equal; apply tf_q_rot; exact RP].
    assert (UQ1 : qnorm2 q = 1) by (apply UQ; eapply nth_error_In; eauto).
    assert (R1 : to_rot q = I3).
    { destruct ANG as [|ANG]; auto. exfalso.
      pose proof (trace_angle q UQ1) as T1. pose proof (trace_rq r) as T2. rewrite RP in T2.
      destruct (rvec_of_spec q UQ1) as [B _]. pose proof (vnorm_nonneg r) as NR0.
      assert (10 ^ 12 > 1) by (apply Rlt_pow_R1; [lra|lia]).
      assert (/ 10 ^ 12 < 1) by (rewrite <- Rinv_1; apply Rinv_lt_contravar; lra).
      pose proof PI2_3_2. unfold PI2 in *.
      assert (cos (vnorm (rvec_of q)) < cos (vnorm r)) by (apply cos_decreasing_1; lra). lra. }
    unfold tf_q. rewrite R1. reflexivity.
  - subst i. assert (TS : ts = ct_start c).
    { destruct c as [cs ce [|p0 [|p1 ps]] cq psp rsp]; cbn [ct_pos ct_start ct_end] in *.
      - discriminate.
      - cbn in NT. congruence.
      - unfold ct_stamps in NT. cbn [ct_pos ct_start ct_end length linspace_ts] in NT.
        cbn [seq map app nth_error] in NT. injection NT as <-.
        rewrite Rmult_0_r, Rplus_0_r. apply Ztrunc_IZR. }
    subst ts. unfold ctraj_get_pose. rewrite fltcmp_near.
    + destruct (ct_quat c), (ct_pos c); cbn in NQ, NP; congruence.
    + rewrite U0, Rminus_0_r, Rabs_R0. lra.
  - destruct (ct_pos c) as [|p0 ps] eqn:EP; [destruct i; discriminate|]. cbn [length] in IL. injection IL as IL.
    destruct ps as [|p1 ps'] eqn:EPS.
    + cbn in IL. subst i.
      assert (TS : ts = ct_start c) by (unfold ct_stamps in NT; rewrite EP in NT; cbn in NT; congruence).
      subst ts. unfold ctraj_get_pose. rewrite fltcmp_near.
      * rewrite EP. destruct (ct_quat c); cbn in NQ, NP; congruence.
      * rewrite U0, Rminus_0_r, Rabs_R0. lra.
    + assert (TS : ts = ct_end c).
      { unfold ct_stamps in NT. rewrite EP in NT. cbn [length linspace_ts] in NT.
        rewrite nth_error_app2 in NT by (rewrite map_length, seq_length; cbn [length] in IL; lia).
        rewrite map_length, seq_length in NT. cbn [length] in IL. replace (i - S (length ps'))%nat with O in NT by lia.
        cbn in NT. congruence. }
      subst ts. unfold ctraj_get_pose.
      assert (U1 : ts_normalize c (secs (ct_end c)) = 1) by (unfold ts_normalize; field; lra).
      rewrite U1, fltcmp_far by (rewrite Rminus_0_r, Rabs_right; lra).
      rewrite fltcmp_near by (rewrite Rminus_diag_eq, Rabs_R0 by auto; lra).
      rewrite EP.
      assert (LAST : forall A (l : list A) x, nth_error l i = Some x -> S i = length l -> exists t, rev l = x :: t).
      { intros A l x Hx Hl. destruct (exists_last (l := l)) as (l' & y & ->); [intros ->; destruct i; discriminate|].
        rewrite rev_unit. rewrite app_length in Hl. cbn in Hl. rewrite nth_error_app2 in Hx by lia.
        replace (i - length l')%nat with O in Hx by lia. cbn in Hx. injection Hx as <-. eauto. }
      destruct (LAST _ _ _ NQ) as [t1 ->]; [rewrite <- LE; cbn [length] in *; lia|].
      destruct (LAST _ _ _ NP) as [t2 ->]; [cbn [length] in *; lia|]. reflexivity.
Qed.

(** ** a concrete trajectory: quarter turns of 45 degrees about z while moving along a line *)
Lemma rvec_of_axq u h : vdot u u = 1 -> 0 < h <= PI / 2 -> rvec_of (axq u h) = vscale (2 * h) u.
Proof.
  intros U H. pose proof PI_RGT_0.
  assert (SH : 0 < sin h) by (apply sin_gt_0; lra). assert (CH : 0 <= cos h) by (apply cos_ge_0; lra).
  unfold rvec_of, angle_axis, axq. cbn [qw qx qy qz].
  change (V3 (sin h * vx u) (sin h * vy u) (sin h * vz u)) with (vscale (sin h) u).
  assert (VU : vnorm u = 1) by (unfold vnorm; rewrite U; apply sqrt_1).
  rewrite vnorm_scale, VU, Rmult_1_r, (Rabs_right (sin h)) by lra.
  destruct (Req_EM_T _ _); [lra|]. cbn [fst snd]. destruct (Rlt_dec _ _); [lra|].
  rewrite (Rabs_right (cos h)) by lra.
  replace (vscale (/ sin h) (vscale (sin h) u)) with u by (mat_eq; field; lra). f_equal. f_equal.
  unfold atan2q. destruct (Req_EM_T (cos h) 0) as [Z|N].
  - destruct (Req_dec h (PI / 2)); auto. assert (0 < cos h) by (apply cos_gt_0; lra). lra.
  - apply atan_tan. split; [lra|]. destruct (Req_dec h (PI / 2)) as [E|]; [|lra]. rewrite E, cos_PI2 in N. lra.
Qed.
Definition stamps5 : list Z := (0 :: 1000000000 :: 2000000000 :: 3000000000 :: 4000000000 :: nil)%Z.
Lemma stamps5_eq : linspace_ts 0 4000000000 5 = stamps5.
Proof.
  cbn [linspace_ts seq map app]. unfold stamps5.
  assert (E : forall (i : nat), IZR 0 + IZR (4000000000 - 0) / INR 4 * INR i = IZR (1000000000 * Z.of_nat i)).
  { intros i. rewrite mult_IZR, <- INR_IZR_INZ. replace (INR 4) with 4 by (cbn; ring). replace (IZR (4000000000 - 0)) with 4000000000 by reflexivity. field. }
  rewrite !E, !Ztrunc_IZR. reflexivity.
Qed.
Definition ex_rate : R := PI.
Definition ex_c : ctraj :=
  let z := V3 0 0 1 in
  CT 0 4000000000
    (map (fun i => V3 (INR i) (2 * INR i) 1) (seq 0 5))
    (map (fun i => axq z (INR i * (PI / 8))) (seq 0 5))
    (Spl (fun u => V3 (4 * u) (8 * u) 1) (fun _ => V3 4 8 0) (fun _ => vzero))
    (Spl (fun u => vscale (PI * u) z) (fun _ => vscale PI z) (fun _ => vzero)).
Lemma ex_stamps : ct_stamps ex_c = stamps5.
Proof. unfold ct_stamps. change (length (ct_pos ex_c)) with 5%nat. apply stamps5_eq. Qed.
Lemma norm5 c k : ct_start c = 0%Z -> ct_end c = 4000000000%Z -> ts_normalize c (secs (1000000000 * k)) = IZR k / 4.
Proof. intros A B. unfold ts_normalize. rewrite A, B. unfold secs. rewrite mult_IZR. field. Qed.
Lemma knots5 c : ct_start c = 0%Z -> ct_end c = 4000000000%Z -> length (ct_pos c) = 5%nat ->
  knots c = 0 / 4 :: 1 / 4 :: 2 / 4 :: 3 / 4 :: 4 / 4 :: nil.
Proof.
  intros A B C. unfold knots, ct_stamps. rewrite A, B, C, stamps5_eq. unfold stamps5. cbn [map].
  exact (f_equal2 cons (norm5 c 0 A B) (f_equal2 cons (norm5 c 1 A B) (f_equal2 cons (norm5 c 2 A B)
    (f_equal2 cons (norm5 c 3 A B) (f_equal2 cons (norm5 c 4 A B) eq_refl))))).
Qed.
Lemma interp5 s k0 k1 k2 k3 k4 v0 v1 v2 v3 v4 :
  s_0 s k0 = v0 -> s_0 s k1 = v1 -> s_0 s k2 = v2 -> s_0 s k3 = v3 -> s_0 s k4 = v4 ->
  Interpolates s (k0 :: k1 :: k2 :: k3 :: k4 :: nil) (v0 :: v1 :: v2 :: v3 :: v4 :: nil).
Proof.
  intros E0 E1 E2 E3 E4 i k v A B.
  do 5 (destruct i as [|i]; [cbn in A, B; congruence|]). destruct i; discriminate.
Qed.
Lemma rvec_id : rvec_of (axq (V3 0 0 1) 0) = vzero.
Proof.
  unfold rvec_of, angle_axis, axq. rewrite sin_0, cos_0. cbn [qw qx qy qz vx vy vz].
  destruct (Req_EM_T _ _) as [|N]; cbn [fst snd]; [mat_eq; ring|].
  exfalso; apply N. unfold vnorm, vdot. cbn [vx vy vz].
  replace (0 * 0 * (0 * 0) + 0 * 0 * (0 * 0) + 0 * 1 * (0 * 1)) with 0 by ring. apply sqrt_0.
Qed.
Lemma ex_rvec (i : nat) : (i <= 4)%nat -> rvec_of (axq (V3 0 0 1) (INR i * (PI / 8))) = vscale (PI * (INR i / 4)) (V3 0 0 1).
Proof.
  intros I. destruct i as [|i].
  - cbn [INR]. rewrite Rmult_0_l, rvec_id. mat_eq; field.
  - pose proof PI_RGT_0. apply le_INR in I. replace (INR 4) with 4 in I by (cbn; ring).
    assert (1 <= INR (S i)) by (rewrite S_INR; pose proof (pos_INR i); lra).
    rewrite rvec_of_axq; [f_equal; field|unfold vdot; cbn; ring|nra].
Qed.
Lemma ex_trackable : Trackable (ct_quat ex_c).
Proof.
  right. exists (V3 0 0 1). split; [unfold vdot; cbn; ring|]. intros q I.
  apply in_map_iff in I. destruct I as (i & <- & I). apply in_seq in I.
  eexists. apply ex_rvec. lia.
Qed.
Lemma ex_small : small_steps (axq (V3 0 0 1) (INR 0 * (PI / 8))) (map (fun i => axq (V3 0 0 1) (INR i * (PI / 8))) (seq 1 4)).
Proof.
  pose proof PI_RGT_0.
  assert (G : forall i, (i < 4)%nat -> vnorm (vsub (rvec_of (axq (V3 0 0 1) (INR (S i) * (PI / 8)))) (rvec_of (axq (V3 0 0 1) (INR i * (PI / 8))))) <= PI).
  { intros i I. rewrite !ex_rvec by lia.
    replace (vsub (vscale (PI * (INR (S i) / 4)) (V3 0 0 1)) (vscale (PI * (INR i / 4)) (V3 0 0 1))) with (vscale (PI / 4) (V3 0 0 1))
      by (rewrite S_INR; mat_eq; field).
    rewrite vnorm_scale, Rabs_right by lra. unfold vnorm, vdot. cbn [vx vy vz].
    replace (0 * 0 + 0 * 0 + 1 * 1) with 1 by ring. rewrite sqrt_1. lra. }
  cbn [seq map small_steps]. repeat split; apply G; lia.
Qed.
Lemma ex_rvecs : rvecs (ct_quat ex_c) = map (fun i => vscale (PI * (INR i / 4)) (V3 0 0 1)) (seq 0 5).
Proof.
  unfold ex_c. cbn [ct_quat seq map rvecs]. f_equal; [apply ex_rvec; lia|].
  etransitivity; [apply rvecs_small, ex_small|]. cbn [seq map]. rewrite !ex_rvec by lia. reflexivity.
Qed.
Lemma d_lin (a t : R) : is_derive (fun u : R => a * u) t a.
Proof. eapply d_eq; [apply d_scal; apply (is_derive_id t)|]. unfold one; cbn; ring. Qed.
Example C75_case :
  (ct_start ex_c < ct_end ex_c)%Z /\ length (ct_pos ex_c) = length (ct_quat ex_c) /\
  (forall q, In q (ct_quat ex_c) -> qnorm2 q = 1) /\
  Interpolates (ct_ps ex_c) (knots ex_c) (ct_pos ex_c) /\
  Interpolates (ct_rs ex_c) (knots ex_c) (rvecs (ct_quat ex_c)) /\ Trackable (ct_quat ex_c) /\
  Differentiates (ct_ps ex_c) /\ Differentiates (ct_rs ex_c) /\
  (forall t, 1 <= t <= 3 -> 1 / 10000 < ts_normalize ex_c t < 1 - 1 / 10000 /\
     / 10 ^ 12 < vnorm (s_0 (ct_rs ex_c) (ts_normalize ex_c t)) /\ ctraj_get_velocity ex_c t = V3 1 2 0).
Proof.
  pose proof PI_RGT_0 as P0.
  split; [cbn; lia|]. split; [reflexivity|].
  split. { intros q I. apply in_map_iff in I. destruct I as (i & <- & _). apply axq_unit. unfold vdot; cbn; ring. }
  split. { rewrite knots5 by reflexivity. apply interp5; cbn; mat_eq; field. }
  split. { rewrite knots5, ex_rvecs by reflexivity. cbn [seq map]. apply interp5; cbn [s_0 ct_rs ex_c INR]; f_equal; field. }
  split; [apply ex_trackable|].
  split. { intros u _. cbn [ct_ps ex_c s_0 s_1 s_2]. split; [|apply dv_const]. split; [|split]; cbn [vx vy vz]; [apply d_lin|apply d_lin|apply d_const]. }
  split. { intros u _. cbn [ct_rs ex_c s_0 s_1 s_2]. split; [|apply dv_const].
    split; [|split]; cbn [vscale vx vy vz].
    - eapply is_derive_ext; [intros s; symmetry; apply Rmult_0_r|]. rewrite Rmult_0_r. apply d_const.
    - eapply is_derive_ext; [intros s; symmetry; apply Rmult_0_r|]. rewrite Rmult_0_r. apply d_const.
    - eapply is_derive_ext; [intros s; symmetry; apply Rmult_1_r|]. rewrite Rmult_1_r. apply d_lin. }
  intros t T. assert (U : ts_normalize ex_c t = t / 4) by (unfold ts_normalize, secs; cbn [ct_start ct_end ex_c]; field).
  rewrite U. split; [lra|]. split.
  - cbn [ct_rs ex_c s_0]. rewrite vnorm_scale, Rabs_right by nra. unfold vnorm, vdot. cbn [vx vy vz].
    replace (0 * 0 + 0 * 0 + 1 * 1) with 1 by ring. rewrite sqrt_1.
    assert (10 ^ 12 > 4) by lra. assert (/ 10 ^ 12 < / 4) by (apply Rinv_lt_contravar; lra).
    pose proof PI2_3_2. unfold PI2 in *. nra.
  - unfold ctraj_get_velocity, ct_gap, secs. cbn [ct_start ct_end ct_ps ex_c s_1]. mat_eq; field.
Qed.

(** ** Refuted: way points are reproduced for every sequence of unit orientations *)
Lemma unwrap_stop n e : vnorm e <= PI -> unwrap_loop n e = e.
Proof. intros H. destruct n; auto. cbn [unwrap_loop]. destruct (Rlt_dec _ _) as [L|]; auto. apply pi_lt in L. lra. Qed.
Lemma unwrap_step d e : PI < vnorm d -> e = vsub d (vscale (2 * PI) (vnormalized d)) -> vnorm e <= PI -> unwrap d = e.
Proof.
  intros L E H. unfold unwrap. cbn [unwrap_loop]. destruct (Rlt_dec _ _) as [_|N].
  - rewrite <- E. apply unwrap_stop, H.
  - apply pi_ge in N. lra.
Qed.
Definition bad_r0 : vec3 := V3 PI 0 0.
Definition bad_r1 : vec3 := V3 (PI * sqrt 2) (PI * (1 - sqrt 2)) 0.
Definition quartic (u : R) : R := (1 - 4 * u) * (1 - 2 * u) * (1 - 4 / 3 * u) * (1 - u).
Definition quartic1 (u : R) : R := - 25 / 3 + 140 / 3 * u - 80 * u * u + 128 / 3 * u * u * u.
Definition quartic2 (u : R) : R := 140 / 3 - 160 * u + 128 * u * u.
Definition bad_c : ctraj :=
  CT 0 4000000000 (repeat vzero 5) (Q 0 1 0 0 :: repeat (Q 0 0 1 0) 4)
    (Spl (fun _ => vzero) (fun _ => vzero) (fun _ => vzero))
    (Spl (fun u => vadd bad_r1 (vscale (quartic u) (vsub bad_r0 bad_r1)))
         (fun u => vscale (quartic1 u) (vsub bad_r0 bad_r1)) (fun u => vscale (quartic2 u) (vsub bad_r0 bad_r1))).
Lemma bad_rvec0 : rvec_of (Q 0 1 0 0) = bad_r0.
Proof.
  replace (Q 0 1 0 0) with (axq (V3 1 0 0) (PI / 2)) by (unfold axq; rewrite cos_PI2, sin_PI2; mat_eq; ring).
  pose proof PI_RGT_0. rewrite rvec_of_axq; [unfold bad_r0; mat_eq; field|unfold vdot; cbn; ring|lra].
Qed.
Lemma bad_rvec1 : rvec_of (Q 0 0 1 0) = V3 0 PI 0.
Proof.
  replace (Q 0 0 1 0) with (axq (V3 0 1 0) (PI / 2)) by (unfold axq; rewrite cos_PI2, sin_PI2; mat_eq; ring).
  pose proof PI_RGT_0. rewrite rvec_of_axq; [mat_eq; field|unfold vdot; cbn; ring|lra].
Qed.
Lemma diag_norm a : 0 < a -> vnorm (V3 (- a) a 0) = a * sqrt 2.
Proof.
  intros A. unfold vnorm, vdot. cbn [vx vy vz]. replace (- a * - a + a * a + 0 * 0) with (a * a * 2) by ring.
  rewrite sqrt_mult by nra. rewrite sqrt_square by lra. reflexivity.
Qed.
Lemma sqrt2_b : 14 / 10 < sqrt 2 < 15 / 10 /\ sqrt 2 * sqrt 2 = 2.
Proof. pose proof (sqrt_sqrt 2 ltac:(lra)). pose proof (sqrt_pos 2). split; [split; nra|auto]. Qed.
Lemma bad_rvecs : rvecs (ct_quat bad_c) = bad_r0 :: bad_r1 :: bad_r1 :: bad_r1 :: bad_r1 :: nil.
Proof.
  pose proof PI_RGT_0 as P0. pose proof sqrt2_b as ([A1 A2] & AA).
  cbn [bad_c ct_quat repeat rvecs rvecs_from]. rewrite bad_rvec0, bad_rvec1.
  assert (S1 : vadd bad_r0 (unwrap (vsub (V3 0 PI 0) bad_r0)) = bad_r1).
  { replace (vsub (V3 0 PI 0) bad_r0) with (V3 (- PI) PI 0) by (unfold bad_r0; mat_eq; ring).
    rewrite (unwrap_step _ (V3 (- PI * (1 - sqrt 2)) (PI * (1 - sqrt 2)) 0)).
    - unfold bad_r0, bad_r1. mat_eq; ring.
    - rewrite diag_norm by auto. nra.
    - rewrite vnormalized_eq, diag_norm by auto. mat_eq; [| |field; lra].
      + apply Rminus_diag_uniq. transitivity (PI / sqrt 2 * (sqrt 2 * sqrt 2 - 2)); [field; lra|rewrite AA; ring].
      + apply Rminus_diag_uniq. transitivity (- PI / sqrt 2 * (sqrt 2 * sqrt 2 - 2)); [field; lra|rewrite AA; ring].
    - replace (V3 (- PI * (1 - sqrt 2)) (PI * (1 - sqrt 2)) 0) with (vscale (1 - sqrt 2) (V3 (- PI) PI 0)) by (mat_eq; ring).
      rewrite vnorm_scale, diag_norm, Rabs_left by lra. nra. }
  assert (S2 : vadd bad_r1 (unwrap (vsub (V3 0 PI 0) bad_r1)) = bad_r1).
  { replace (vsub (V3 0 PI 0) bad_r1) with (V3 (- (PI * sqrt 2)) (PI * sqrt 2) 0) by (unfold bad_r1; mat_eq; ring).
    assert (NN : vnorm (V3 (- (PI * sqrt 2)) (PI * sqrt 2) 0) = 2 * PI).
    { rewrite diag_norm by nra. rewrite Rmult_assoc, AA. ring. }
    rewrite (unwrap_step _ vzero).
    - mat_eq; ring.
    - rewrite NN. lra.
    - rewrite vnormalized_eq, NN. mat_eq; field; lra.
    - unfold vnorm, vdot, vzero. cbn [vx vy vz]. replace (0 * 0 + 0 * 0 + 0 * 0) with 0 by ring. rewrite sqrt_0. lra. }
  rewrite S1, !S2. reflexivity.
Qed.
Theorem C75_waypoints_refuted : exists c,
  (ct_start c < ct_end c)%Z /\ length (ct_pos c) = length (ct_quat c) /\
  (forall q, In q (ct_quat c) -> qnorm2 q = 1) /\
  Interpolates (ct_ps c) (knots c) (ct_pos c) /\
  Interpolates (ct_rs c) (knots c) (rvecs (ct_quat c)) /\
  Differentiates (ct_ps c) /\ Differentiates (ct_rs c) /\
  exists ts q p, nth_error (ct_stamps c) 1 = Some ts /\ nth_error (ct_quat c) 1 = Some q /\ nth_error (ct_pos c) 1 = Some p /\
    ts_normalize c (secs ts) = / 4 /\
    exists T, ctraj_get_pose c (secs ts) = Some T /\ tf_trans T = p /\ tf_rot T <> to_rot q.
Proof.
  exists bad_c. pose proof PI_RGT_0 as P0. pose proof sqrt2_b as ([A1 A2] & AA).
  split; [cbn; lia|]. split; [reflexivity|].
  split. { intros q I. cbn in I. repeat destruct I as [ <- |I]; try (unfold qnorm2; cbn; ring). destruct I. }
  split. { rewrite knots5 by reflexivity. apply interp5; reflexivity. }
  split. { rewrite knots5, bad_rvecs by reflexivity. apply interp5; cbn [s_0 ct_rs bad_c]; unfold quartic; mat_eq; field. }
  split. { intros u _. cbn [ct_ps bad_c s_0 s_1 s_2]. split; apply (dv_const vzero). }
  split. { intros u _. cbn [ct_rs bad_c s_0 s_1 s_2]. set (w := vsub bad_r0 bad_r1).
    assert (Q1 : is_derive quartic u (quartic1 u)) by (unfold quartic, quartic1; auto_derive; [auto|field]).
    assert (Q2 : is_derive quartic1 u (quartic2 u)) by (unfold quartic1, quartic2; auto_derive; [auto|field]).
    split; (split; [|split]); cbn [vadd vscale vx vy vz];
      (eapply d_eq; [repeat dstep|cbn beta; ring]). }
  exists 1000000000%Z, (Q 0 0 1 0), vzero.
  split. { unfold ct_stamps. change (length (ct_pos bad_c)) with 5%nat. cbn [ct_start ct_end bad_c]. rewrite stamps5_eq. reflexivity. }
  split; [reflexivity|]. split; [reflexivity|].
  assert (U : ts_normalize bad_c (secs 1000000000) = / 4) by (unfold ts_normalize, secs; cbn [ct_start ct_end bad_c]; field).
  split; auto.
  assert (SV : s_0 (ct_rs bad_c) (/ 4) = bad_r1) by (cbn [s_0 ct_rs bad_c]; unfold quartic; mat_eq; field).
  assert (NB : PI < vnorm bad_r1 < 2 * PI).
  { pose proof (vnorm_sq bad_r1) as N2. pose proof (vnorm_nonneg bad_r1) as N0.
    unfold vdot, bad_r1 in N2. cbn [vx vy vz] in N2. fold bad_r1 in N2.
    assert (E : vnorm bad_r1 * vnorm bad_r1 = PI * PI * (5 - 2 * sqrt 2)).
    { rewrite N2. transitivity (PI * PI * (1 + 2 * (sqrt 2 * sqrt 2) - 2 * sqrt 2)); [ring|rewrite AA; ring]. }
    split; nra. }
  unfold ctraj_get_pose. rewrite U, !fltcmp_far.
  2:{ rewrite Rabs_left; lra. } 2:{ rewrite Rminus_0_r, Rabs_right; lra. }
  rewrite SV. destruct (Rlt_dec _ _) as [SM|_].
  { exfalso. assert (10 ^ 12 > 1) by (apply Rlt_pow_R1; [lra|lia]).
    assert (/ 10 ^ 12 < 1) by (rewrite <- Rinv_1; apply Rinv_lt_contravar; lra). pose proof PI2_3_2. unfold PI2 in *. lra. }
  fold (rq bad_r1). eexists. split; [reflexivity|]. split; [mat_eq; reflexivity|].
  replace (tf_rot (tf_q (rq bad_r1) (s_0 (ct_ps bad_c) (/ 4)))) with (to_rot (rq bad_r1)) by (unfold tf_q; apply M3_ext; reflexivity).
  intros E. pose proof (trace_rq bad_r1) as T. rewrite E in T. cbn [to_rot qw qx qy qz m00 m11 m22] in T.
  assert (C1 : cos (vnorm bad_r1) = -1) by lra.
  replace (vnorm bad_r1) with (2 * (vnorm bad_r1 / 2)) in C1 by field.
  rewrite cos_2a_cos in C1.
  assert (C0 : cos (vnorm bad_r1 / 2) < 0) by (apply cos_lt_0; lra). nra.
Qed.

Print Assumptions C75_kinematics_partial.
Print Assumptions C75_ends_refuted.
Print Assumptions C75_waypoints_partial.
Print Assumptions C75_waypoints_refuted.
