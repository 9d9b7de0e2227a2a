(** * C88: the first guess of a view *)
From Verif Require Import Base GeomModel GeomSpec GeomProofs Prop_Geom EulerModel Prop_Euler StatsModel ImuModel ImuSpec PreintSpec ViModel ViSpec ViProofs ViProofs2 ViProofs3 ViProofs4 ViProofs5 Prop_Vi Prop_Vi2 Prop_Vi3.
From Coq Require Import Reals Lra Sorted Permutation.
Local Open Scope Z_scope.

(** where camera [T_BC] sees the target when the IMU, mounted at [T_BS], is at [T_WS] and the target at [T_WF] *)
Definition sees (T_WS T_BS T_BC T_WF : mat4) : mat4 := mmul4 (mmul4 (mmul4 (tf_inv T_BC) T_BS) (tf_inv T_WS)) T_WF.

Lemma rigid_mul A B : Rigid A -> Rigid B -> Rigid (mmul4 A B).
Proof. intros HA HB. apply (C46_rigid_group A B HA HB). Qed.
Lemma rigid_inv A : Rigid A -> Rigid (tf_inv A).
Proof. intros HA. apply (C46_tf_inv_two_sided A HA). Qed.
Lemma inv_l A X : Rigid A -> mmul4 (tf_inv A) (mmul4 A X) = X.
Proof. intros HA. rewrite <- mmul4_assoc, (proj2 (proj1 (C46_tf_inv_two_sided A HA))), mmul4_I_l. reflexivity. Qed.
Lemma inv_r A X : Rigid A -> mmul4 A (mmul4 (tf_inv A) X) = X.
Proof. intros HA. rewrite <- mmul4_assoc, (proj1 (proj1 (C46_tf_inv_two_sided A HA))), mmul4_I_l. reflexivity. Qed.
Lemma tf_at_of_mat T x p : Rigid T -> x p = of_mat T -> tf_at x p = T.
Proof.
  intros (C & r & HC & -> ) E. unfold tf_at. rewrite E. unfold of_mat, of_pose, to_pose, tf_pose, tf_vec, tf_q. cbn [p_r p_q].
  assert (E1 : V3 (vx (tf_trans (tf C r))) (vy (tf_trans (tf C r))) (vz (tf_trans (tf C r))) = r) by (apply V3_ext; reflexivity).
  rewrite E1. assert (E2 : forall q, Q (qw q) (qx q) (qy q) (qz q) = q) by (intros []; reflexivity). rewrite E2.
  unfold tf_quat. assert (E3 : tf_rot (tf C r) = C) by (apply M3_ext; reflexivity). rewrite E3. f_equal. apply to_rot_of_rot; apply HC.
Qed.
Lemma sees_sensor T_WF T_CF T_BC T_BS : Rigid T_WF -> Rigid T_CF -> Rigid T_BC -> Rigid T_BS ->
  Rigid (sensor_pose T_WF T_CF T_BC T_BS) /\ sees (sensor_pose T_WF T_CF T_BC T_BS) T_BS T_BC T_WF = T_CF.
Proof.
  intros A B C D. unfold sensor_pose.
  assert (Rg : Rigid (mmul4 (mmul4 T_WF (tf_inv T_CF)) (mmul4 (tf_inv T_BC) T_BS))) by auto using rigid_mul, rigid_inv.
  split; [auto|]. unfold sees.
  rewrite (proj1 (proj2 (C46_rigid_group _ _ (rigid_mul _ _ A (rigid_inv _ B)) (rigid_mul _ _ (rigid_inv _ C) D)))).
  rewrite (proj1 (proj2 (C46_rigid_group _ _ A (rigid_inv _ B)))), (proj1 (proj2 (C46_rigid_group _ _ (rigid_inv _ C) D))).
  rewrite (proj1 (proj2 (proj2 (C46_rigid_group _ _ B B)))), (proj1 (proj2 (proj2 (C46_rigid_group _ _ C C)))).
  rewrite !mmul4_assoc. rewrite (inv_r T_BS) by auto. rewrite (inv_l T_BC) by auto.
  rewrite (proj2 (proj1 (C46_tf_inv_two_sided _ A))), mmul4_I_r. reflexivity.
Qed.
Lemma rigid_euler e r : Rigid (tf (euler321 e) r).
Proof. exists (euler321 e), r. split; auto. apply C46_rotation_builders. Qed.
Lemma fid_rigid z1 z3 f : Rigid (snd (fid_estimate z1 z3 f)).
Proof. apply rigid_euler. Qed.
Lemma fiducial_pose_rigid z1 z3 s f : fiducial_pose z1 z3 s = Ret f -> Rigid (fst f).
Proof.
  unfold fiducial_pose. destruct (s_fid s) as [T|]; [|discriminate]. intros E. set (e := fid_estimate z1 z3 (fid_of s T)) in *.
  assert (K : fst f = snd e) by (cbv zeta in E; clearbody e; inversion E; reflexivity). rewrite K. apply fid_rigid.
Qed.
(** the average of the accelerations *)
Definition average (l : list vec3) : vec3 := vscale (/ INR (length l)) (fold_right vadd vzero l).
(** pnp returns rigid transforms *)
Definition rigid_pnp (pnp : list R -> list corner -> option mat4) : Prop := forall ps l T, pnp ps l = Some T -> Rigid T.

Section T.
Context (z1 z3 : R) (pnp : list R -> list corner -> option mat4) (pick : nat -> Z -> list corner -> list corner)
        (slv : problem -> (pid -> list R) -> pid -> list R) (reproj : rid -> corner -> (pid -> list R) -> option (R * R))
        (cfg : settings).
Notation run := (vrun z1 z3 pnp pick slv reproj cfg).
Notation step := (vstep z1 z3 pnp pick slv reproj cfg).
Notation conf := (configure z1 z3).

Lemma run_al os h s : run h (conf os) = Ret s -> aligned (s_imu s).
Proof.
  assert (K : forall h s s', run h s = Ret s' -> aligned (s_imu s) -> aligned (s_imu s')).
  { clear. induction h as [|e h IH]; intros s s' E A; cbn [vrun] in E; [inversion E; subst; auto|].
    apply bind_ret in E as (s1 & E1 & E). apply (IH s1); auto. eapply step_al; eauto. }
  intros E. apply (K _ _ _ E). destruct (conf_cams z1 z3 os) as (_ & _ & -> & _). split; reflexivity.
Qed.
(** The start without a target pose in the configuration: the world's origin is the target, the average acceleration
    points up, camera 0 sees the target where solvepnp put it, and the speed and biases are zero. The target's roll and
    pitch give its pose back unless it is pitched by 90 degrees. *)
Theorem C88_first_view : forall os h s ts a w s', run h (conf os) = Ret s -> c_marg cfg = false \/ never is_reset h ->
  step (EImu ts a w) s = Ret s' -> s_init s = false -> s_init s' = true -> s_fid s = None ->
  rigid_pnp pnp -> Rigid (tf_at (s_x s) PImuExt) -> Rigid (tf_at (s_x s) (PCamExt 0)) ->
  let up := V3 0 0 (981 / 100) in
  let acc := average (i_acc (s_imu s) ++ [a]) in acc <> vzero -> ~ opposite acc up ->
  exists v g T_C0F T_WF, s_views s' = [v] /\ In (0, g) (s_gbuf s) /\ pnp (s_x s (PCam 0)) (g_pts g) = Some T_C0F /\ s_fid s' = Some T_WF /\
  let T_WS := tf_at (s_x s') (PPose (v_id v)) in
  Rigid T_WS /\ Rigid T_WF /\ tf_trans T_WF = vzero /\
  vscale (/ vnorm up) up = mapp (tf_rot T_WS) (vscale (/ vnorm acc) acc) /\
  sees T_WS (tf_at (s_x s') PImuExt) (tf_at (s_x s') (PCamExt 0)) T_WF = T_C0F /\
  s_x s' (PSb (v_id v)) = repeat 0%R 9 /\
  (forall p, p <> PFid -> ~ block_of v p -> s_x s' p = s_x s p) /\
  (Rabs (n20 T_WF) <> 1%R -> fiducial_pose z1 z3 s' = Ret (T_WF, T_WF)).
Proof.
  intros os h s ts a w s' E Hr Es Hi Hi' Hf Hp RS RC up acc Ha Ho.
  pose proof (run_al os h s E) as Al.
  pose proof (run_inv _ _ _ _ _ _ _ _ _ _ E Hr (configure_inv z1 z3 cfg os)) as I. pose proof (v_uninit _ _ I Hi) as Hv0.
  cbn [vstep] in Es. apply sample_spec in Es.
  assert (Nv : forall s1, ~ view_step z1 z3 pnp pick cfg (s_gbuf s) (sampled ts a w [] s) s1).
  { intros s1 [c0 g0 Hd0 Hii]. cbn in Hii. congruence. }
  destruct Es as [_ -> |_ _ _ _ Hst|_ _ _ -> |_ Hv Hw|s1 s2 _ H1 Hm Hw H2 -> ].
  - cbn in Hi'. congruence.
  - destruct Hst as [g Hg Hk T He s0 W Hc f q Hq -> ]. cbn [s_views s_gbuf s_init sampled s_next s_fid s_x s_imu s_started] in *.
    destruct Hc as [(_ & Hc)|(T0 & Hc & _)]; [|congruence].
    set (C_WS := initial_attitude (imu_add (s_imu s) ts a w)) in *. cbv zeta in Hc. destruct Hc as (EW & Es0).
    set (T_S := tf_at (s_x s) PImuExt) in *. set (T_C := tf_at (s_x s) (PCamExt 0)) in *.
    set (T0 := mmul4 (mmul4 (tf C_WS vzero) (mmul4 (tf_inv T_S) T_C)) T) in *.
    assert (Ep : pnp (s_x s (PCam 0)) (g_pts g) = Some T).
    { unfold estimate in He. destruct (g_pts g); [discriminate|exact He]. }
    assert (RT : Rigid T) by (eapply Hp; eauto).
    assert (Ec : C_WS = vecs2rot acc up).
    { unfold C_WS, initial_attitude, acc, average. f_equal. cbn [imu_add i_acc]. f_equal. unfold imu_size, imu_add. cbn [i_ts]. rewrite !app_length, <- INR_IZR_INZ. cbn [length].
      f_equal. f_equal. destruct Al as (Al & _). rewrite Al. reflexivity. }
    destruct (C79_vecs2rot_partial acc up Ha) as (RW & Eu); [|auto|].
    { intros K. apply (f_equal vz) in K. cbn in K. lra. }
    rewrite <- Ec in RW, Eu.
    assert (RX : Rigid (mmul4 (mmul4 (tf_inv T_S) T_C) T)) by auto using rigid_mul, rigid_inv.
    destruct RX as (Cx & rx & RCx & EX).
    assert (ET0 : T0 = tf (mmul C_WS Cx) (mapp C_WS rx)).
    { unfold T0. rewrite mmul4_assoc, EX, tf_mul. f_equal. mat_eq; ring. }
    assert (RWx : IsRot (mmul C_WS Cx)) by (apply C46_rotation_group; auto).
    assert (Er : tf_rot T0 = mmul C_WS Cx) by (rewrite ET0; apply M3_ext; reflexivity).
    assert (Et : tf_trans T0 = mapp C_WS rx) by (rewrite ET0; apply V3_ext; reflexivity).
    rewrite Er, Et in *. set (T_WF := tf (mmul C_WS Cx) vzero) in *.
    assert (RF : Rigid T_WF) by (exists (mmul C_WS Cx), vzero; auto).
    assert (RWS : Rigid W) by (rewrite EW; eexists _, _; split; [exact RW|reflexivity]).
    assert (X0 : forall p, p <> PFid -> s_x s0 p = s_x s p).
    { intros p Hpp. rewrite Es0. cbn. unfold set_x. destruct (pid_eq PFid p); [congruence|reflexivity]. }
    set (x' := set_x (PSb (s_next s)) (repeat 0%R 9) (set_x (PPose (s_next s)) (of_mat W) (s_x s0))).
    assert (Xp : forall p, p <> PFid -> p <> PPose (s_next s) -> p <> PSb (s_next s) -> x' p = s_x s p).
    { intros p P1 P2 P3. unfold x', set_x. destruct (pid_eq (PSb (s_next s)) p); [congruence|]. destruct (pid_eq (PPose (s_next s)) p); [congruence|]. auto. }
    assert (TW : tf_at x' (PPose (s_next s)) = W).
    { apply tf_at_of_mat; auto. unfold x', set_x. destruct (pid_eq (PSb (s_next s)) (PPose (s_next s))); [discriminate|]. destruct (pid_eq (PPose (s_next s)) (PPose (s_next s))); [reflexivity|congruence]. }
    assert (TS : tf_at x' PImuExt = T_S) by (unfold tf_at; rewrite Xp by discriminate; reflexivity).
    assert (TC : tf_at x' (PCamExt 0) = T_C) by (unfold tf_at; rewrite Xp by discriminate; reflexivity).
    exists (View (s_next s) (g_ts g) f None), g, T, T_WF. rewrite Hv0. cbn [app v_id]. split; [reflexivity|].
    split; [apply gm_get_in; auto|]. split; [auto|]. split; [rewrite Es0; reflexivity|].
    rewrite TW, TS, TC. split; [auto|]. split; [auto|]. split; [apply V3_ext; reflexivity|]. split.
    { rewrite EW. replace (tf_rot (tf C_WS (vscale (-1) (mapp C_WS rx)))) with C_WS by (apply M3_ext; reflexivity). exact Eu. }
    split.
    { assert (EF : T_WF = mmul4 W (mmul4 (mmul4 (tf_inv T_S) T_C) T)).
      { rewrite EX, EW, tf_mul. unfold T_WF. f_equal. mat_eq; ring. }
      unfold sees. rewrite EF, !mmul4_assoc. rewrite (inv_l W), (inv_r T_S), (inv_l T_C) by auto. reflexivity. }
    split. { unfold x', set_x. destruct (pid_eq (PSb (s_next s)) (PSb (s_next s))); [reflexivity|congruence]. }
    split. { intros p P1 P2. apply Xp; auto; intros -> ; apply P2; [left|right]; reflexivity. }
    intros Hg90. unfold fiducial_pose. rewrite Es0. cbn [set_fiducial s_fid]. unfold fid_of. cbn [s_x].
    assert (XF : x' PFid = [f_roll (fid_new z1 z3 T_WF); f_pitch (fid_new z1 z3 T_WF)]).
    { unfold x', set_x. destruct (pid_eq (PSb (s_next s)) PFid); [discriminate|]. destruct (pid_eq (PPose (s_next s)) PFid); [discriminate|].
      rewrite Es0. cbn [set_fiducial s_x]. unfold set_x. destruct (pid_eq PFid PFid); [reflexivity|congruence]. }
    rewrite XF. cbn [nth].
    destruct (C80_fiducial_partial z1 z3 (mmul C_WS Cx) vzero RWx) as (ro & pi & ya & F1 & (S1 & S2 & S3) & F2).
    { exact Hg90. }
    assert (Hup : upright (ro, pi) []).
    { cbn. split; [|auto]. cbn [vx vy vz] in S2. apply Rabs_def1; destruct S2 as (S2a & S2b).
      - destruct S2b as [S2b|S2b]; [lra|]. exfalso. apply Hg90.
        assert (E20 : n20 T_WF = (- sin pi)%R) by (change (n20 T_WF) with (m20 (mmul C_WS Cx)); rewrite <- F1, rpy_euler; reflexivity). rewrite E20, S2b, sin_PI2. rewrite Rabs_left; lra.
      - destruct S2a as [S2a|S2a]; [lra|]. exfalso. apply Hg90.
        assert (E20 : n20 T_WF = (- sin pi)%R) by (change (n20 T_WF) with (m20 (mmul C_WS Cx)); rewrite <- F1, rpy_euler; reflexivity). rewrite E20, <- S2a, sin_neg, sin_PI2. rewrite Rabs_right; lra. }
    destruct (F2 [] Hup) as (F3 & F4 & F5). cbn [fold_left fst snd] in F3, F4, F5.
    fold T_WF in F3, F4, F5. rewrite F1 in F4, F5. fold T_WF in F4, F5.
    replace (Fid (f_roll (fid_new z1 z3 T_WF)) (f_pitch (fid_new z1 z3 T_WF)) T_WF) with (fid_new z1 z3 T_WF) by reflexivity.
    rewrite F4. f_equal. f_equal. destruct (F2 [Estimate]) as (_ & _ & F6); [cbn in Hup |- *; tauto|]. cbn [fold_left do_op want fst snd] in F6.
    fold T_WF in F6. rewrite F1 in F6. exact F6.
  - cbn in Hi'. congruence.
  - exfalso. eapply Nv; eauto.
  - destruct H1 as [ -> |Hv]; [|exfalso; eapply Nv; eauto]. exfalso. unfold marginalize in H2. cbn [with_x s_views sampled] in H2.
    rewrite Hv0 in H2. discriminate.
Qed.

(** The start with a target pose from the configuration: the code takes the IMU's mounting for its pose in camera 0's
    frame. Camera 0 then sees the target where solvepnp put it only if its own mounting is the identity. *)
Theorem C88_preset_refuted : forall os h s ts a w s' F, run h (conf os) = Ret s -> c_marg cfg = false \/ never is_reset h ->
  step (EImu ts a w) s = Ret s' -> s_init s = false -> s_init s' = true -> s_fid s = Some F ->
  rigid_pnp pnp -> Rigid (tf_at (s_x s) PImuExt) -> Rigid (tf_at (s_x s) (PCamExt 0)) ->
  exists v g T_C0F T_WF, s_views s' = [v] /\ In (0, g) (s_gbuf s) /\ pnp (s_x s (PCam 0)) (g_pts g) = Some T_C0F /\ fiducial_pose z1 z3 s = Ret T_WF /\
  let T_WS := tf_at (s_x s') (PPose (v_id v)) in
  let T_BC0 := tf_at (s_x s') (PCamExt 0) in
  let seen := sees T_WS (tf_at (s_x s') PImuExt) T_BC0 (fst T_WF) in
  seen = mmul4 (tf_inv T_BC0) T_C0F /\ (seen = T_C0F <-> T_BC0 = I4).
Proof.
  intros os h s ts a w s' F E Hr Es Hi Hi' Hf Hp RS RC.
  pose proof (run_inv _ _ _ _ _ _ _ _ _ _ E Hr (configure_inv z1 z3 cfg os)) as I. pose proof (v_uninit _ _ I Hi) as Hv0.
  cbn [vstep] in Es. apply sample_spec in Es.
  assert (Nv : forall s1, ~ view_step z1 z3 pnp pick cfg (s_gbuf s) (sampled ts a w [] s) s1).
  { intros s1 [c0 g0 Hd0 Hii]. cbn in Hii. congruence. }
  destruct Es as [_ -> |_ _ _ _ Hst|_ _ _ -> |_ Hv Hw|s1 s2 _ H1 Hm Hw H2 -> ].
  - cbn in Hi'. congruence.
  - destruct Hst as [g Hg Hk T He s0 W Hc f q Hq -> ]. cbn [s_views s_gbuf s_init sampled s_next s_fid s_x s_imu s_started] in *.
    destruct Hc as [(Hc & _)|(T0 & Hc & fp & Efp & EW & Es0)]; [congruence|].
    assert (Ep : pnp (s_x s (PCam 0)) (g_pts g) = Some T).
    { unfold estimate in He. destruct (g_pts g); [discriminate|exact He]. }
    assert (RT : Rigid T) by (eapply Hp; eauto).
    change (fiducial_pose z1 z3 (sampled ts a w [] s)) with (fiducial_pose z1 z3 s) in Efp.
    assert (RF : Rigid (fst fp)).
    { apply (fiducial_pose_rigid z1 z3 s). exact Efp. }
    set (T_S := tf_at (s_x s) PImuExt) in *. set (T_C := tf_at (s_x s) (PCamExt 0)) in *.
    assert (RW : Rigid W) by (rewrite EW; auto using rigid_mul, rigid_inv).
    set (x' := set_x (PSb (s_next s)) (repeat 0%R 9) (set_x (PPose (s_next s)) (of_mat W) (s_x s0))).
    assert (Xp : forall p, p <> PPose (s_next s) -> p <> PSb (s_next s) -> x' p = s_x s p).
    { intros p P2 P3. unfold x', set_x. destruct (pid_eq (PSb (s_next s)) p); [congruence|]. destruct (pid_eq (PPose (s_next s)) p); [congruence|]. rewrite Es0. reflexivity. }
    assert (TW : tf_at x' (PPose (s_next s)) = W).
    { apply tf_at_of_mat; auto. unfold x', set_x. destruct (pid_eq (PSb (s_next s)) (PPose (s_next s))); [discriminate|]. destruct (pid_eq (PPose (s_next s)) (PPose (s_next s))); [reflexivity|congruence]. }
    assert (TS : tf_at x' PImuExt = T_S) by (unfold tf_at; rewrite Xp by discriminate; reflexivity).
    assert (TC : tf_at x' (PCamExt 0) = T_C) by (unfold tf_at; rewrite Xp by discriminate; reflexivity).
    exists (View (s_next s) (g_ts g) f None), g, T, fp. rewrite Hv0. cbn [app v_id]. split; [reflexivity|].
    split; [apply gm_get_in; auto|]. split; [auto|]. split; [auto|]. rewrite TW, TS, TC.
    assert (Sn : sees W T_S T_C (fst fp) = mmul4 (tf_inv T_C) T).
    { unfold sees. rewrite EW.
      rewrite (proj1 (proj2 (C46_rigid_group _ _ (rigid_mul _ _ RF (rigid_inv _ RT)) RS))), (proj1 (proj2 (C46_rigid_group _ _ RF (rigid_inv _ RT)))).
      rewrite (proj1 (proj2 (proj2 (C46_rigid_group _ _ RT RT)))). rewrite !mmul4_assoc, (inv_r T_S) by auto.
      rewrite (proj2 (proj1 (C46_tf_inv_two_sided _ RF))), mmul4_I_r. reflexivity. }
    cbv zeta. rewrite Sn. split; [reflexivity|]. split.
    + intros K. apply (f_equal (mmul4 T_C)) in K. rewrite (inv_r T_C) in K by auto. apply (f_equal (fun M => mmul4 M (tf_inv T))) in K.
      rewrite mmul4_assoc, (proj1 (proj1 (C46_tf_inv_two_sided _ RT))), mmul4_I_r in K. auto.
    + intros -> . rewrite (proj2 (proj2 (proj2 (C46_rigid_group _ _ RT RT)))), mmul4_I_l. reflexivity.
  - cbn in Hi'. congruence.
  - exfalso. eapply Nv; eauto.
  - destruct H1 as [ -> |Hv]; [|exfalso; eapply Nv; eauto]. exfalso. unfold marginalize in H2. cbn [with_x s_views sampled] in H2.
    rewrite Hv0 in H2. discriminate.
Qed.

(** A further view: its pose is the one at which the first camera that saw the target sees it where solvepnp put it, its
    velocity is the mean velocity since the previous view, its biases are those of the previous view, and nothing else
    changes; the solver then runs if the window is full. *)
Theorem C88_next_view : forall os h s ts a w s' c g, run h (conf os) = Ret s -> c_marg cfg = false \/ never is_reset h ->
  step (EImu ts a w) s = Ret s' -> length (s_gbuf s) = length (s_cams s) -> s_init s = true -> first_detected (s_gbuf s) = Some (c, g) ->
  rigid_pnp pnp -> Rigid (tf_at (s_x s) PImuExt) -> Rigid (tf_at (s_x s) (PCamExt c)) ->
  exists old v new T_CF T_WF x, s_views s = old ++ [v] /\ In new (s_views s') /\ v_ts new = g_ts g /\
  pnp (s_x s (PCam c)) (g_pts g) = Some T_CF /\ fiducial_pose z1 z3 s = Ret T_WF /\
  (s_x s' = x \/ exists q, s_x s' = slv q x) /\
  let T_WS := tf_at x (PPose (v_id new)) in
  let T_old := tf_at (s_x s) (PPose (v_id v)) in
  let sb := x (PSb (v_id new)) in
  let sb_old := s_x s (PSb (v_id v)) in
  Rigid T_WS /\ sees T_WS (tf_at (s_x s) PImuExt) (tf_at (s_x s) (PCamExt c)) (fst T_WF) = T_CF /\
  length sb = 9%nat /\
  (g_ts g <> v_ts v -> vscale (time_of (g_ts g - v_ts v)) (seg3 0 sb) = vsub (tf_trans T_WS) (tf_trans T_old)) /\
  seg3 3 sb = seg3 3 sb_old /\ seg3 6 sb = seg3 6 sb_old /\
  (forall p, ~ block_of new p -> x p = s_x s p).
Proof.
  intros os h s ts a w s' c g E Hr Es El Ei Ed Hp RS RC. pose proof (run_inv _ _ _ _ _ _ _ _ _ _ E Hr (configure_inv z1 z3 cfg os)) as I.
  assert (V : forall s1, view_step z1 z3 pnp pick cfg (s_gbuf s) (sampled ts a w [] s) s1 ->
    exists old v new T_CF T_WF x, s_views s = old ++ [v] /\ (exists vs, s_views s1 = vs ++ [new] /\ vs <> []) /\ v_ts new = g_ts g /\
  pnp (s_x s (PCam c)) (g_pts g) = Some T_CF /\ fiducial_pose z1 z3 s = Ret T_WF /\
  s_x s1 = x /\
  let T_WS := tf_at x (PPose (v_id new)) in
  let T_old := tf_at (s_x s) (PPose (v_id v)) in
  let sb := x (PSb (v_id new)) in
  let sb_old := s_x s (PSb (v_id v)) in
  Rigid T_WS /\ sees T_WS (tf_at (s_x s) PImuExt) (tf_at (s_x s) (PCamExt c)) (fst T_WF) = T_CF /\
  length sb = 9%nat /\
  (g_ts g <> v_ts v -> vscale (time_of (g_ts g - v_ts v)) (seg3 0 sb) = vsub (tf_trans T_WS) (tf_trans T_old)) /\
  seg3 3 sb = seg3 3 sb_old /\ seg3 6 sb = seg3 6 sb_old /\
  (forall p, ~ block_of new p -> x p = s_x s p)).
  { intros s1 Hv. destruct Hv as [c0 g0 Hd Hi T F He old v Hv f q Hg Hm b Hb -> ]. rewrite Ed in Hd. inversion Hd; subst c0 g0. cbn [sampled s_views s_next s_imu s_gbuf s_x s_fid] in *.
    change (estimate_sensor_pose z1 z3 pnp (s_gbuf s) (sampled ts a w [] s)) with (estimate_sensor_pose z1 z3 pnp (s_gbuf s) s) in He.
    unfold estimate_sensor_pose in He. rewrite Ed in He. destruct (known s c); [|discriminate].
    destruct (estimate pnp s c g) as [T_CF|] eqn:Ee; [|discriminate]. apply bind_ret in He as (fp & Efp & He).
    set (T0 := sensor_pose (fst fp) T_CF (tf_at (s_x s) (PCamExt c)) (tf_at (s_x s) PImuExt)) in He.
    assert (ET : T0 = T) by (clearbody T0; inversion He; reflexivity). assert (EF : F = snd fp) by (clearbody T0; inversion He; reflexivity). clear He. subst T F.
    assert (Ep : pnp (s_x s (PCam c)) (g_pts g) = Some T_CF).
    { unfold estimate in Ee. destruct (g_pts g); [discriminate|exact Ee]. }
    assert (RT : Rigid T_CF) by (eapply Hp; eauto).
    assert (RF : Rigid (fst fp)).
    { apply (fiducial_pose_rigid z1 z3 s). exact Efp. }
    rename T0 into T.
    destruct (sees_sensor (fst fp) T_CF (tf_at (s_x s) (PCamExt c)) (tf_at (s_x s) PImuExt) RF RT RC RS) as (RW & Sn). fold T in RW, Sn.
    change (next_sb T (g_ts g) v (sampled ts a w [] s)) with (next_sb T (g_ts g) v s).
    set (x := set_x (PSb (s_next s)) (next_sb T (g_ts g) v s) (set_x (PPose (s_next s)) (of_mat T) (s_x s))).
    exists old, v, (View (s_next s) (g_ts g) f None), T_CF, fp, x. split; [auto|]. split.
    { rewrite Hv, <- app_assoc. cbn [app]. rewrite set_link_app.
      - eexists (old ++ [_]). rewrite <- app_assoc. split; [reflexivity|]. intros K. apply app_eq_nil in K as (_ & K). discriminate.
      - pose proof (i_ids _ _ _ _ _ (v_core cfg s I)) as B. rewrite Hv, map_app in B. cbn [map] in B. apply sorted_not_in in B. exact B. }
    split; [reflexivity|]. split; [auto|]. split; [auto|]. split; [reflexivity|]. cbn [v_id].
    assert (TW : tf_at x (PPose (s_next s)) = T).
    { apply tf_at_of_mat; auto. unfold x, set_x. destruct (pid_eq (PSb (s_next s)) (PPose (s_next s))); [discriminate|]. destruct (pid_eq (PPose (s_next s)) (PPose (s_next s))); [reflexivity|congruence]. }
    assert (SB : x (PSb (s_next s)) = next_sb T (g_ts g) v s).
    { unfold x, set_x. destruct (pid_eq (PSb (s_next s)) (PSb (s_next s))); [reflexivity|congruence]. }
    rewrite TW, SB. split; [auto|]. split; [auto|]. split; [reflexivity|]. split; [|split; [reflexivity|split; [reflexivity|]]].
    - intros N. assert (Nr : IZR (g_ts g - v_ts v) <> 0%R) by (intros K; apply eq_IZR in K; lia).
      unfold time_of, next_sb. apply V3_ext; cbn [seg3 of_vec app nth Nat.add vx vy vz vscale]; field; auto.
    - intros p Hb0. unfold x, set_x. destruct (pid_eq (PSb (s_next s)) p) as [ <- |]; [exfalso; apply Hb0; right; reflexivity|].
      destruct (pid_eq (PPose (s_next s)) p) as [ <- |]; [exfalso; apply Hb0; left; reflexivity|]. reflexivity. }
  cbn [vstep] in Es. apply sample_spec in Es. destruct Es as [Hl|_ Hi| _ Hd|_ Hv Hw|s1 s2 _ H1 Hm Hw H2 -> ]; try congruence.
  - destruct Hd as [(Hd & _)|Hd]; congruence.
  - destruct (V _ Hv) as (old & v & new & T_CF & T_WF & x & A1 & (vs & A2 & _) & A3 & A4 & A5 & A6 & A7).
    exists old, v, new, T_CF, T_WF, x. split; [auto|]. split; [rewrite A2; apply in_or_app; cbn; auto|]. split; [auto|]. split; [auto|]. split; [auto|]. split; [auto|]. exact A7.
  - destruct H1 as [ -> |Hv].
    { exfalso. cbn [sampled] in Hw. unfold over_window in Hw. cbn [s_views sampled] in Hw. apply andb_true_iff in Hw as (W1 & W2).
      rewrite Z.gtb_ltb in W1. apply Z.ltb_lt in W1. apply Z.leb_le in W2. pose proof (v_window cfg s I Hm W2) as Z0.
      pose proof (v_chain cfg s I) as Ch. unfold marginalize in H2. cbn [with_x s_views sampled s_prior s_prob] in H2.
      destruct (s_views s) as [|v rest] eqn:Ev; [discriminate|]. apply bind_ret in H2 as (r & _ & H2).
      assert (Hl : v_imu v <> None) by (intros Hl; rewrite Hl in H2; discriminate).
      destruct rest; [cbn in Ch; destruct Ch; congruence|]. cbn [length] in *. lia. }
    destruct (V _ Hv) as (old & v & new & T_CF & T_WF & x & A1 & (vs & A2 & A2') & A3 & A4 & A5 & A6 & A7).
    unfold marginalize in H2. cbn [with_x s_views s_prior s_prob s_gbuf s_x] in H2. rewrite A2 in H2.
    destruct vs as [|v0 vs]; [congruence|]. cbn [app] in H2. apply bind_ret in H2 as (r & _ & H2). destruct (v_imu v0); [|discriminate].
    inversion H2; subst s2. cbn [set_running s_views s_x].
    exists old, v, new, T_CF, T_WF, x. split; [auto|]. split; [apply in_or_app; cbn; auto|]. split; [auto|]. split; [auto|]. split; [auto|]. split; [right; rewrite A6; eauto|]. exact A7.
Qed.
End T.

(** ** Example: the hypotheses of [C88_first_view] hold for a sensor at rest *)
Definition rest_at (ts : Z) : event := EImu ts (V3 0 0 (981 / 100)) vzero.
Definition rest_h : list event := map rest_at [0; 10; 20; 30; 40] ++ [EGrid 0 (frame 45)].
Lemma rigid_I4 : Rigid I4.
Proof. exists I3, vzero. split; [split; [mat_eq; ring|unfold mdet, I3; cbn; ring]|symmetry; apply tf_I]. Qed.
Example C88_example : exists s s', vrun 0 0 ex_pnp ex_pick ex_slv ex_reproj (ex_cfg true 2) rest_h (configure 0 0 ex_os) = Ret s /\
  vstep 0 0 ex_pnp ex_pick ex_slv ex_reproj (ex_cfg true 2) (rest_at 50) s = Ret s' /\
  never is_reset rest_h /\ s_init s = false /\ s_init s' = true /\ s_fid s = None /\ rigid_pnp ex_pnp /\
  Rigid (tf_at (s_x s) PImuExt) /\ Rigid (tf_at (s_x s) (PCamExt 0)) /\
  let acc := average (i_acc (s_imu s) ++ [V3 0 0 (981 / 100)]) in acc = V3 0 0 (981 / 100) /\ acc <> vzero /\ ~ opposite acc (V3 0 0 (981 / 100)).
Proof.
  set (st := vstep 0 0 ex_pnp ex_pick ex_slv ex_reproj (ex_cfg true 2)).
  set (r := vrun 0 0 ex_pnp ex_pick ex_slv ex_reproj (ex_cfg true 2)).
  assert (K : match r rest_h (configure 0 0 ex_os) with
     | Ret s => Some (s_init s, match s_fid s with None => true | _ => false end, i_acc (s_imu s), match st (rest_at 50) s with Ret s' => s_init s' | _ => false end)
     | _ => None end = Some (false, true, repeat (V3 0 0 (981 / 100)) 5, true)).
  { unfold r, st. vm_compute. reflexivity. }
  destruct (r rest_h (configure 0 0 ex_os)) as [s| |] eqn:Er; try discriminate K.
  pose proof (f_equal (fun o => match o with Some u => u | None => (true, true, [], true) end) K) as K'. cbv beta iota in K'. clear K.
  pose proof (f_equal (fun u => fst (fst (fst u))) K') as K1. pose proof (f_equal (fun u => snd (fst (fst u))) K') as K2.
  pose proof (f_equal (fun u => snd (fst u)) K') as K3. pose proof (f_equal snd K') as K4. cbn [fst snd] in K1, K2, K3, K4. clear K'.
  destruct (st (rest_at 50) s) as [s'| |] eqn:Es; try discriminate K4. exists s, s'. split; [reflexivity|]. split; [exact Es|].
  split. { intros e H. cbn in H. repeat destruct H as [ <- |H]; try reflexivity. destruct H. }
  split; [auto|]. split; [auto|]. split; [destruct (s_fid s); [discriminate|reflexivity]|].
  split. { intros ps l T H. inversion H. apply rigid_I4. }
  assert (Kx : respects ex_slv) by (intros q x p _; reflexivity).
  assert (X1 : s_x s PImuExt = of_mat I4).
  { etransitivity; [apply (C87_fixed_partial 0 0 ex_pnp ex_pick ex_slv ex_reproj (ex_cfg true 2) ex_os rest_h s PImuExt Kx I); [vm_compute; auto|exact Er]|reflexivity]. }
  assert (X2 : s_x s (PCamExt 0) = of_mat I4).
  { etransitivity; [apply (C87_fixed_partial 0 0 ex_pnp ex_pick ex_slv ex_reproj (ex_cfg true 2) ex_os rest_h s (PCamExt 0) Kx I); [vm_compute; auto|exact Er]|reflexivity]. }
  split; [rewrite (tf_at_of_mat I4 _ _ rigid_I4 X1); apply rigid_I4|]. split; [rewrite (tf_at_of_mat I4 _ _ rigid_I4 X2); apply rigid_I4|].
  assert (Ea : average (i_acc (s_imu s) ++ [V3 0 0 (981 / 100)]) = V3 0 0 (981 / 100)).
  { rewrite K3. unfold average. cbn [repeat app length fold_right]. apply V3_ext; cbn; lra. }
  cbv zeta. rewrite Ea. split; [reflexivity|]. split.
  - intros H. apply (f_equal vz) in H. cbn in H. lra.
  - intros (k & Hk & H). apply (f_equal vz) in H. cbn in H. lra.
Qed.
