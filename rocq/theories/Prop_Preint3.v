(** C83 (Jacobians of the IMU residual) and C82 (Jacobian of propagation). *)
From Coq Require Import Reals Lra Lia Psatz.
From Verif Require Import Base GeomModel GeomSpec GeomProofs ImuModel PreintModel PreintSpec PreintProofs PreintProofs2 CtrajModel CtrajProofs Prop_Interp Prop_Geom2 CalcSpec ResidualProofs PreintProofs3 PreintProofs4 Prop_ResidualPrior Prop_Preint Prop_Preint2.
From Coquelicot Require Import Coquelicot.
Local Open Scope R_scope.

(** the five parts of an error that depends on [t] have these derivatives at 0 *)
Definition err_rate (E : R -> imu_error) (p a v bg ba : vec3) : Prop :=
  dv (fun t => er_p (E t)) 0 p /\ dv (fun t => er_a (E t)) 0 a /\ dv (fun t => er_v (E t)) 0 v /\
  dv (fun t => er_bg (E t)) 0 bg /\ dv (fun t => er_ba (E t)) 0 ba.
Lemma rate_ext E F p a v bg ba : (forall t, E t = F t) -> err_rate F p a v bg ba -> err_rate E p a v bg ba.
Proof.
  intros H (?&?&?&?&?). assert (E = F) as -> by (apply FunctionalExtensionality.functional_extensionality; exact H). repeat (split; [assumption|]). assumption.
Qed.
Lemma ret_inj {A} (x y : A) : Ret x = Ret y -> x = y. Proof. congruence. Qed.
Lemma pose_plus_0 x d : pose_plus x (tscale 0 d) = x.
Proof.
  destruct x as [r q]. unfold pose_plus, tscale. cbn [p_r p_q d_r d_a].
  assert (Z : forall v, vscale 0 v = vzero) by (intros; unfold vzero; mat_eq; ring). rewrite !Z, quat_delta_0, qmul_1.
  f_equal. destruct r. unfold vzero. mat_eq; ring.
Qed.
Lemma pose_dq x d : unitq (p_q x) -> 0 < trace (to_rot (p_q x)) ->
  dq (fun t => tf_quat (tf_pose (pose_plus x (tscale t d)))) 0 (half_qmul (d_a d) (tf_quat (tf_pose x))).
Proof.
  intros U T. pose proof (pose_dR x d U) as D.
  pose proof (of_rot_move (fun t => to_rot (p_q (pose_plus x (tscale t d)))) (d_a d)) as M. cbn beta in M. rewrite pose_plus_0 in M.
  specialize (M (to_rot_orth _ U) T D).
  assert (E : forall y, tf_quat (tf_pose y) = of_rot (to_rot (p_q y))) by (intros y; unfold tf_quat; rewrite pose_rot; reflexivity).
  eapply dq_ext_loc; [apply filter_forall; intros t; apply E|]. rewrite E. exact M.
Qed.
Lemma dv_qvec f q' : dq f 0 q' -> dv (fun t => vscale 2 (qvec (f t))) 0 (vscale 2 (qvec q')).
Proof. intros ((?&?)&(?&?)). split; [|split]; cbn [vscale qvec vx vy vz]; apply d_scal; assumption. Qed.
Lemma dq_const q : dq (fun _ => q) 0 (Q 0 0 0 0).
Proof. split; split; apply d_const. Qed.
Lemma dq_mul_l f a q : dq f 0 a -> dq (fun s => qmul q (f s)) 0 (qmul q a).
Proof. intros ((?&?)&(?&?)). split; split; cbn [qmul qw qx qy qz]; dring. Qed.
Lemma dv_c v w : w = vzero -> dv (fun _ => v) 0 w. Proof. intros ->. apply dv_const. Qed.

Ltac flat := lazymatch goal with |- dv (fun _ => ?c) _ _ => apply (dv_c c); unfold vzero, Z3; mat_eq; ring end.
(** ** The first pose *)
Theorem C83_jacobian_pose_i_partial : forall b ip t0 t1 td x0 x1 s0 s1 s d E,
  redo_preintegration b ip s0 (t0 + td) (t1 + td) = Ret s -> unitq (p_q x0) -> unitq (p_q x1) -> 0 < trace (to_rot (p_q x0)) ->
  (forall t, imu_evaluate b ip t0 t1 td (pose_plus x0 (tscale t d)) x1 s0 s1 = Ret (E t)) ->
  let F := imu_F0 ip (time_of (t1 - t0)) x0 x1 s0 s1 s in
  let J i := vadd (mapp (F i 0%nat) (d_r d)) (mapp (F i 1%nat) (d_a d)) in
  err_rate E (J 0%nat) (J 1%nat) (J 2%nat) (J 3%nat) (J 4%nat).
Proof.
  intros b ip t0 t1 td x0 x1 s0 s1 s d E Hs U0 U1 T HE F J.
  eapply rate_ext; [intros t; apply ret_inj; rewrite <- HE; apply evaluate_eq; exact Hs|]. change secs with time_of.
  set (Dt := time_of (t1 - t0)) in *. unfold err_rate, imu_err. cbn [er_p er_a er_v er_bg er_ba].
  assert (DC : dm (fun t => mtr (tf_rot (tf_pose (pose_plus x0 (tscale t d))))) 0 (mtr (mmul (skew (d_a d)) (to_rot (p_q x0))))).
  { apply dm_mtr. pose proof (pose_dR x0 d U0) as D.
    assert (Ef : (fun t => tf_rot (tf_pose (pose_plus x0 (tscale t d)))) = (fun t => to_rot (p_q (pose_plus x0 (tscale t d))))).
    { apply FunctionalExtensionality.functional_extensionality. intros t. apply pose_rot. }
    rewrite Ef. exact D. }
  assert (Dp : dv (fun t => delta_p ip Dt (pose_plus x0 (tscale t d)) x1 s0) 0 (d_r d)).
  { unfold delta_p. eapply dv_eq; [apply dv_sub; [apply dv_add; [apply dv_sub; [apply pose_dr|apply dv_const]|apply dv_const]|apply dv_const]|].
    unfold vzero. destruct (d_r d). mat_eq; ring. }
  pose proof (pose_dq x0 d U0 T) as DQ.
  unfold J, F, imu_F0. split; [|split; [|split; [|split]]].
  - eapply dv_eq; [apply dv_add; [apply dv_mapp; [exact DC|exact Dp]|apply dv_const]|]. cbn beta. rewrite pose_plus_0, pose_rot.
    generalize (to_rot (p_q x0)) (delta_p ip Dt x0 x1 s0). intros. unfold vzero. mat_eq; ring.
  - eapply dv_eq; [apply dv_qvec, dq_mul_l, dq_mul_l, DQ|].
    generalize (qinverse (tf_quat (tf_pose x1))) (tf_quat (tf_pose x0)) (e_q s). intros q1 q0 qd.
    unfold half_qmul, Qplus, Qoplus, tf_rot, mmul4, qvec, Z3. mat_eq; field.
  - eapply dv_eq; [apply dv_add; [apply dv_mapp; [exact DC|apply dv_const]|apply dv_const]|]. cbn beta. rewrite ?pose_plus_0, ?pose_rot.
    generalize (to_rot (p_q x0)) (delta_v ip Dt s0 s1). intros. unfold vzero, Z3. mat_eq; ring.
  - apply dv_c. unfold vzero, Z3. mat_eq; ring.
  - apply dv_c. unfold vzero, Z3. mat_eq; ring.
Qed.
(** ** The second pose *)
Theorem C83_jacobian_pose_j_partial : forall b ip t0 t1 td x0 x1 s0 s1 s d E,
  redo_preintegration b ip s0 (t0 + td) (t1 + td) = Ret s -> unitq (p_q x0) -> unitq (p_q x1) -> 0 < trace (to_rot (p_q x1)) ->
  (forall t, imu_evaluate b ip t0 t1 td x0 (pose_plus x1 (tscale t d)) s0 s1 = Ret (E t)) ->
  let F := imu_F1 x0 x1 s in
  let J i := vadd (mapp (F i 0%nat) (d_r d)) (mapp (F i 1%nat) (d_a d)) in
  err_rate E (J 0%nat) (J 1%nat) (J 2%nat) (J 3%nat) (J 4%nat).
Proof.
  intros b ip t0 t1 td x0 x1 s0 s1 s d E Hs U0 U1 T HE F J.
  eapply rate_ext; [intros t; apply ret_inj; rewrite <- HE; apply evaluate_eq; exact Hs|]. change secs with time_of.
  set (Dt := time_of (t1 - t0)) in *. unfold err_rate, imu_err. cbn [er_p er_a er_v er_bg er_ba].
  assert (Dp : dv (fun t => delta_p ip Dt x0 (pose_plus x1 (tscale t d)) s0) 0 (vopp (d_r d))).
  { unfold delta_p. eapply dv_eq; [apply dv_sub; [apply dv_add; [apply dv_sub; [apply dv_const|apply pose_dr]|apply dv_const]|apply dv_const]|].
    unfold vzero. destruct (d_r d). mat_eq; ring. }
  pose proof (pose_dq x1 d U1 T) as DQ. destruct (pose_quat x1 U1) as [_ N1].
  assert (DI : dq (fun t => qinverse (tf_quat (tf_pose (pose_plus x1 (tscale t d))))) 0 (qconj (half_qmul (d_a d) (tf_quat (tf_pose x1))))).
  { apply qinverse_d; [rewrite pose_plus_0; exact N1|exact DQ|]. rewrite pose_plus_0. unfold half_qmul. generalize (tf_quat (tf_pose x1)). intros q. unfold qscale, qmul. cbn [qw qx qy qz]. ring. }
  unfold J, F, imu_F1. split; [|split; [|split; [|split]]].
  - eapply dv_eq; [apply dv_add; [apply dv_mapp; [apply dm_const|exact Dp]|apply dv_const]|]. cbn beta. rewrite pose_rot.
    generalize (to_rot (p_q x0)) (delta_p ip Dt x0 (pose_plus x1 (tscale 0 d)) s0). intros. unfold vzero, Z3. mat_eq; ring.
  - eapply dv_eq; [apply dv_qvec, dq_mul_l, dq_mul_r, DI|].
    assert (Ei : qinverse (tf_quat (tf_pose x1)) = qconj (tf_quat (tf_pose x1))).
    { unfold qinverse. rewrite N1. destruct Rlt_dec; [|lra]. rewrite Rinv_1. mat_eq; ring. }
    rewrite Ei. generalize (tf_quat (tf_pose x1)) (tf_quat (tf_pose x0)) (e_q s). intros q1 q0 qd.
    unfold half_qmul, Qplus, Qoplus, tf_rot, mmul4, qvec, Z3. mat_eq; field.
  - apply dv_c. unfold vzero, Z3. mat_eq; ring.
  - apply dv_c. unfold vzero, Z3. mat_eq; ring.
  - apply dv_c. unfold vzero, Z3. mat_eq; ring.
Qed.
(** ** Speeds and the second state's biases: for every buffer and window *)
Definition push_v (x : sb) (d : vec3) (t : R) : sb := Sb (vadd (sb_v x) (vscale t d)) (sb_bg x) (sb_ba x).
Definition push_g (x : sb) (d : vec3) (t : R) : sb := Sb (sb_v x) (vadd (sb_bg x) (vscale t d)) (sb_ba x).
Definition push_a (x : sb) (d : vec3) (t : R) : sb := Sb (sb_v x) (sb_bg x) (vadd (sb_ba x) (vscale t d)).
Lemma dv_line v d : dv (fun t => vadd v (vscale t d)) 0 d.
Proof. split; [|split]; cbn; auto_derive; auto; ring. Qed.
Theorem C83_jacobian_speed : forall b ip t0 t1 td x0 x1 s0 s1 s d E E',
  redo_preintegration b ip s0 (t0 + td) (t1 + td) = Ret s ->
  (forall t, imu_evaluate b ip t0 t1 td x0 x1 (push_v s0 d t) s1 = Ret (E t)) ->
  (forall t, imu_evaluate b ip t0 t1 td x0 x1 s0 (push_v s1 d t) = Ret (E' t)) ->
  let J i := mapp (imu_F0 ip (time_of (t1 - t0)) x0 x1 s0 s1 s i 2%nat) d in
  let J' i := mapp (imu_F1 x0 x1 s i 2%nat) d in
  err_rate E (J 0%nat) (J 1%nat) (J 2%nat) (J 3%nat) (J 4%nat) /\ err_rate E' (J' 0%nat) (J' 1%nat) (J' 2%nat) (J' 3%nat) (J' 4%nat).
Proof.
  intros b ip t0 t1 td x0 x1 s0 s1 s d E E' Hs HE HE' J J'. split.
  - eapply rate_ext; [intros t; apply ret_inj; rewrite <- HE; apply evaluate_eq; exact Hs|]. change secs with time_of.
    set (Dt := time_of (t1 - t0)) in *. unfold err_rate, imu_err, J, imu_F0, push_v. cbn [er_p er_a er_v er_bg er_ba sb_v sb_bg sb_ba].
    split; [|split; [|split; [|split]]]; try flat.
    + unfold delta_p. cbn [sb_v]. eapply dv_eq; [apply dv_add; [apply dv_mapp; [apply dm_const|apply dv_sub; [apply dv_add; [apply dv_const|apply dv_scale, dv_line]|apply dv_const]]|apply dv_const]|].
      cbn beta. rewrite pose_rot. generalize (to_rot (p_q x0)). intros. unfold vzero, Z3. mat_eq; ring.
    + unfold delta_v. cbn [sb_v]. eapply dv_eq; [apply dv_add; [apply dv_mapp; [apply dm_const|apply dv_sub; [apply dv_sub; [apply dv_line|apply dv_const]|apply dv_const]]|apply dv_const]|].
      cbn beta. rewrite pose_rot. generalize (to_rot (p_q x0)). intros. unfold vzero, Z3. mat_eq; ring.
  - eapply rate_ext; [intros t; apply ret_inj; rewrite <- HE'; apply evaluate_eq; exact Hs|]. change secs with time_of.
    set (Dt := time_of (t1 - t0)) in *. unfold err_rate, imu_err, J', imu_F1, push_v. cbn [er_p er_a er_v er_bg er_ba sb_v sb_bg sb_ba].
    split; [|split; [|split; [|split]]]; try flat.
    unfold delta_v. cbn [sb_v]. eapply dv_eq; [apply dv_add; [apply dv_mapp; [apply dm_const|apply dv_sub; [apply dv_sub; [apply dv_const|apply dv_line]|apply dv_const]]|apply dv_const]|].
    cbn beta. rewrite pose_rot. generalize (to_rot (p_q x0)). intros. unfold vzero, Z3. mat_eq; ring.
Qed.
Theorem C83_jacobian_bias_j : forall b ip t0 t1 td x0 x1 s0 s1 s d E E',
  redo_preintegration b ip s0 (t0 + td) (t1 + td) = Ret s ->
  (forall t, imu_evaluate b ip t0 t1 td x0 x1 s0 (push_g s1 d t) = Ret (E t)) ->
  (forall t, imu_evaluate b ip t0 t1 td x0 x1 s0 (push_a s1 d t) = Ret (E' t)) ->
  let J i := mapp (imu_F1 x0 x1 s i 3%nat) d in
  let J' i := mapp (imu_F1 x0 x1 s i 4%nat) d in
  err_rate E (J 0%nat) (J 1%nat) (J 2%nat) (J 3%nat) (J 4%nat) /\ err_rate E' (J' 0%nat) (J' 1%nat) (J' 2%nat) (J' 3%nat) (J' 4%nat).
Proof.
  intros b ip t0 t1 td x0 x1 s0 s1 s d E E' Hs HE HE' J J'. split.
  - eapply rate_ext; [intros t; apply ret_inj; rewrite <- HE; apply evaluate_eq; exact Hs|].
    unfold err_rate, imu_err, J, imu_F1, push_g, delta_v. cbn [er_p er_a er_v er_bg er_ba sb_v sb_bg sb_ba].
    split; [|split; [|split; [|split]]]; try flat.
    eapply dv_eq; [apply dv_sub; [apply dv_const|apply dv_line]|]. unfold vzero, I3. mat_eq; ring.
  - eapply rate_ext; [intros t; apply ret_inj; rewrite <- HE'; apply evaluate_eq; exact Hs|].
    unfold err_rate, imu_err, J', imu_F1, push_a, delta_v. cbn [er_p er_a er_v er_bg er_ba sb_v sb_bg sb_ba].
    split; [|split; [|split; [|split]]]; try flat.
    eapply dv_eq; [apply dv_sub; [apply dv_const|apply dv_line]|]. unfold vzero, I3. mat_eq; ring.
Qed.
(** ** The first state's biases *)
Lemma moves_run redo ip bg ba d l p r t0 t1 : l = p :: r -> rising l -> (fst p <= t0)%Z -> (t0 < t1)%Z ->
  stamped l t0 -> stamped l t1 -> brisk l t0 t1 bg ->
  moves redo d (fun t => fst (lloop redo ip (vadd bg (vscale t d)) ba t1 p r (pint0 t0))).
Proof.
  intros El Hr Hp Ht S0 S1 Hbr.
  apply (moves_loop redo ip bg ba d l t0 t1 Hr S0 S1 Hbr r p (fun _ => pint0 t0) t0 false).
  - intros p' n'. rewrite El. auto.
  - intros _. split; reflexivity.
  - intros _. split; [reflexivity|exact Hp].
  - discriminate.
  - intros; exact Ht.
  - apply moves_0.
Qed.
Lemma line_0 v d : vadd v (vscale 0 d) = v. Proof. destruct v. mat_eq; ring. Qed.
(** Gyroscope bias, for a window between two samples in which the sensor turns by nothing or by at least 1e-4 rad
    between samples. *)
Theorem C83_jacobian_gyro_i_partial : forall l ip t0 t1 td x0 x1 s0 s1 d, rising l -> covers l (t0 + td) (t1 + td) -> (t0 < t1)%Z ->
  stamped l (t0 + td) -> stamped l (t1 + td) -> brisk l (t0 + td) (t1 + td) (sb_bg s0) ->
  exists s E, redo_preintegration (buffer l) ip s0 (t0 + td) (t1 + td) = Ret s /\
  (forall t, imu_evaluate (buffer l) ip t0 t1 td x0 x1 (push_g s0 d t) s1 = Ret (E t)) /\
  let J i := mapp (imu_F0 ip (time_of (t1 - t0)) x0 x1 s0 s1 s i 3%nat) d in
  err_rate E (J 0%nat) (J 1%nat) (J 2%nat) (J 3%nat) (J 4%nat).
Proof.
  intros l ip t0 t1 td x0 x1 s0 s1 d Hr Hc Ht S0 S1 Hbr.
  destruct (evaluate_run l ip t0 t1 td x0 x1 s0 s1 Hr Hc Ht) as (p & r & El & Hp & Hb & Hs & _). cbv zeta in Hs.
  set (F := fun t => fst (lloop true ip (vadd (sb_bg s0) (vscale t d)) (sb_ba s0) (t1 + td) p r (pint0 (t0 + td)))).
  assert (F0 : F 0 = fst (lloop true ip (sb_bg s0) (sb_ba s0) (t1 + td) p r (pint0 (t0 + td)))) by (unfold F; rewrite line_0; reflexivity).
  rewrite <- F0 in Hs.
  exists (F 0), (fun t => imu_err ip (time_of (t1 - t0)) x0 x1 (push_g s0 d t) s1 (F t)). split; [exact Hs|]. split.
  - intros t. destruct (evaluate_run l ip t0 t1 td x0 x1 (push_g s0 d t) s1 Hr Hc Ht) as (p' & r' & El' & _ & _ & _ & E).
    rewrite El in El'. injection El' as <- <-. exact E.
  - cbv zeta. pose proof (moves_run true ip (sb_bg s0) (sb_ba s0) d l p r (t0 + td) (t1 + td) El Hr Hp ltac:(lia) S0 S1 Hbr) as M.
    change (moves true d F) in M. destruct M as [U Mq Ma Maa Mal]. specialize (Mal eq_refl).
    assert (Mq' : dq (fun t => e_q (F t)) 0 (half_qmul (vopp (mapp (e_dalpha (F 0)) d)) (e_q (F 0)))) by (rewrite Mal; exact Mq).
    unfold err_rate, imu_err, imu_F0, push_g, delta_p, delta_v. cbn [er_p er_a er_v er_bg er_ba sb_v sb_bg sb_ba].
    split; [|split; [|split; [|split]]].
    + eapply dv_eq; [apply dv_add; [apply dv_const|exact Maa]|]. generalize (e_dp (F 0)). intros. unfold vzero. mat_eq; ring.
    + eapply dv_eq; [apply dv_qvec, dq_mul_r, Mq'|].
      generalize (qinverse (tf_quat (tf_pose x1))) (tf_quat (tf_pose x0)) (e_q (F 0)) (e_dalpha (F 0)). intros q1 q0 qd A.
      rewrite mapp_mmul. replace (mapp (mscale (-1) A) d) with (vopp (mapp A d)) by (mat_eq; ring). generalize (vopp (mapp A d)). intros v.
      unfold half_qmul, Qplus, Qoplus, tf_rot, mmul4, qvec. mat_eq; field.
    + eapply dv_eq; [apply dv_add; [apply dv_const|exact Ma]|]. generalize (e_dv (F 0)). intros. unfold vzero. mat_eq; ring.
    + eapply dv_eq; [apply dv_sub; [apply dv_line|apply dv_const]|]. unfold vzero, I3. mat_eq; ring.
    + apply dv_c. unfold vzero, Z3. mat_eq; ring.
Qed.
(** Accelerometer bias, for every window in the buffer. *)
Theorem C83_jacobian_accel_i : forall l ip t0 t1 td x0 x1 s0 s1 d, rising l -> covers l (t0 + td) (t1 + td) -> (t0 < t1)%Z ->
  exists s E, redo_preintegration (buffer l) ip s0 (t0 + td) (t1 + td) = Ret s /\
  (forall t, imu_evaluate (buffer l) ip t0 t1 td x0 x1 (push_a s0 d t) s1 = Ret (E t)) /\
  let J i := mapp (imu_F0 ip (time_of (t1 - t0)) x0 x1 s0 s1 s i 4%nat) d in
  err_rate E (J 0%nat) (J 1%nat) (J 2%nat) (J 3%nat) (J 4%nat).
Proof.
  intros l ip t0 t1 td x0 x1 s0 s1 d Hr Hc Ht.
  destruct (evaluate_run l ip t0 t1 td x0 x1 s0 s1 Hr Hc Ht) as (p & r & El & Hp & Hb & Hs & _). cbv zeta in Hs.
  set (F := fun t => fst (lloop true ip (sb_bg s0) (vadd (sb_ba s0) (vscale t d)) (t1 + td) p r (pint0 (t0 + td)))).
  set (s := fst (lloop true ip (sb_bg s0) (sb_ba s0) (t1 + td) p r (pint0 (t0 + td)))) in *.
  exists s, (fun t => imu_err ip (time_of (t1 - t0)) x0 x1 (push_a s0 d t) s1 (F t)). split; [exact Hs|]. split.
  - intros t. destruct (evaluate_run l ip t0 t1 td x0 x1 (push_a s0 d t) s1 Hr Hc Ht) as (p' & r' & El' & _ & _ & _ & E).
    rewrite El in El'. injection El' as <- <-. exact E.
  - cbv zeta.
    assert (Sh : forall t, shifted (vscale t d) s (F t)).
    { intros t. apply (run_shift true ip (sb_bg s0) (sb_ba s0) (vscale t d) l p r (t0 + td) (t1 + td) El Hr ltac:(lia)). }
    assert (Ln : forall (M : mat3) v, dv (fun t => vsub v (mapp M (vscale t d))) 0 (mapp (mscale (-1) M) d)).
    { intros M v. split; [|split]; cbn; auto_derive; auto; ring. }
    unfold err_rate, imu_err, imu_F0, push_a, delta_p, delta_v. cbn [er_p er_a er_v er_bg er_ba sb_v sb_bg sb_ba].
    split; [|split; [|split; [|split]]].
    + eapply dv_eq; [apply dv_add; [apply dv_const|apply (dv_ext (fun t => vsub (e_aa s) (mapp (e_CC s) (vscale t d)))); [|apply Ln]]|].
      * intros t. destruct (Sh t) as (_ & _ & _ & _ & _ & K). symmetry. exact K.
      * generalize (e_CC s). intros. unfold vzero. mat_eq; ring.
    + apply (dv_ext (fun _ => vscale 2 (qvec (qmul (e_q s) (qmul (qinverse (tf_quat (tf_pose x1))) (tf_quat (tf_pose x0))))))).
      * intros t. destruct (Sh t) as (_ & K & _). rewrite K. reflexivity.
      * apply dv_c. unfold vzero, Z3. mat_eq; ring.
    + eapply dv_eq; [apply dv_add; [apply dv_const|apply (dv_ext (fun t => vsub (e_a s) (mapp (e_C s) (vscale t d)))); [|apply Ln]]|].
      * intros t. destruct (Sh t) as (_ & _ & _ & _ & K & _). symmetry. exact K.
      * generalize (e_C s). intros. unfold vzero. mat_eq; ring.
    + apply dv_c. unfold vzero, Z3. mat_eq; ring.
    + eapply dv_eq; [apply dv_sub; [apply dv_line|apply dv_const]|]. unfold vzero, I3. mat_eq; ring.
Qed.
(** ** The weight *)
(** The covariance the weight is computed from is symmetric, and positive definite for positive noise densities, so its
    inverse exists. *)
Theorem C83_information : forall l ip s0 t0 t1, rising l -> covers l t0 t1 -> (t0 < t1)%Z ->
  exists s, redo_preintegration (buffer l) ip s0 t0 t1 = Ret s /\ symmetric15 (e_P s) /\ psd15 (e_P s) /\ (live ip -> pd15 (e_P s)).
Proof.
  intros l ip s0 t0 t1 Hr Hc Ht.
  destruct (evaluate_run l ip t0 t1 0 (P vzero (Q 1 0 0 0)) (P vzero (Q 1 0 0 0)) s0 s0 Hr) as (p & r & El & Hp & Hb & Hs & _); rewrite ?Z.add_0_r in *; auto.
  eexists. split; [exact Hs|]. apply (run_cov true ip (sb_bg s0) (sb_ba s0) l p r t0 t1 El Hr Hp Hb Ht).
Qed.
