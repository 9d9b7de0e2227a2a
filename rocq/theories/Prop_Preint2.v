(** C83, C84: the IMU residual (imu_residual_t::EvaluateWithMinimalJacobians). *)
From Coq Require Import Reals Lra Lia Psatz.
From Verif Require Import Base GeomModel GeomSpec GeomProofs ImuModel PreintModel PreintSpec PreintProofs PreintProofs2 CtrajModel CtrajProofs Prop_Interp Prop_Geom2 CalcSpec ResidualProofs PreintProofs3 PreintProofs4 Prop_ResidualPrior Prop_Preint.
From Coquelicot Require Import Coquelicot.
Local Open Scope R_scope.

(** ** C84: when the residual answers *)
(** Evaluated with a time delay that moves the end of the window past the last sample, or with an empty window, the
    residual reads outside its buffer; otherwise it answers, even if the window starts before the first sample. *)
Theorem C84_outcome : forall l ip t0 t1 td x0 x1 s0 s1, rising l -> l <> nil ->
  let ok := (2 <= length l)%nat /\ (t0 < t1)%Z /\ exists b, hd_error (rev l) = Some b /\ (t1 + td <= fst b)%Z in
  (ok -> exists e, imu_evaluate (buffer l) ip t0 t1 td x0 x1 s0 s1 = Ret e) /\
  (~ ok -> imu_evaluate (buffer l) ip t0 t1 td x0 x1 s0 s1 = Undef).
Proof.
  intros l ip t0 t1 td x0 x1 s0 s1 Hr Hn ok. destruct l as [|p r]; [congruence|].
  assert (Eb : forall z, (exists b, hd_error (rev (p :: r)) = Some b /\ (z <= fst b)%Z) <-> (z <= back_of p r)%Z).
  { intros z. pose proof (rev_hd p r) as H. rewrite <- map_rev in H.
    destruct (rev (p :: r)) as [|b q]; [discriminate|]. injection H as <-. cbn. split; [intros (b' & [= ->] & K); exact K|eauto]. }
  unfold imu_evaluate. rewrite redo_eq.
  destruct (lloop true ip (sb_bg s0) (sb_ba s0) (t1 + td) p r (pint0 (t0 + td))) as [s st] eqn:E.
  assert (Es : st = snd (lloop true ip (sb_bg s0) (sb_ba s0) (t1 + td) p r (pint0 (t0 + td)))) by (rewrite E; reflexivity).
  split.
  - intros (L & Ht & B). apply Eb in B. rewrite loop_stops in Es; auto.
    + subst st. cbn [obind]. eauto.
    + intros ->. cbn in L. lia.
    + cbn. lia.
    + cbn. congruence.
  - intros N. assert (st = false) as ->; [|reflexivity]. subst st.
    destruct (Z.lt_ge_cases t0 t1) as [G|G]; [|rewrite loop_empty by (cbn; lia); reflexivity].
    destruct (Z.lt_ge_cases (back_of p r) (t1 + td)) as [K|K]; [apply loop_short; assumption|].
    destruct r as [|n r]; [reflexivity|]. exfalso. apply N. split; [cbn; lia|]. split; [exact G|]. apply Eb. exact K.
Qed.
(** So no bound on the delay is enforced: for every buffer some delay makes the evaluation undefined. *)
Theorem C84_unbounded_delay : forall l ip t0 t1 x0 x1 s0 s1, rising l -> l <> nil ->
  exists td, imu_evaluate (buffer l) ip t0 t1 td x0 x1 s0 s1 = Undef.
Proof.
  intros l ip t0 t1 x0 x1 s0 s1 Hr Hn.
  assert (exists b, hd_error (rev l) = Some b) as [b Hb].
  { destruct (rev l) eqn:E; [|cbn; eauto]. apply (f_equal (@rev _)) in E. rewrite rev_involutive in E. contradiction. }
  exists (fst b - t1 + 1)%Z. apply (C84_outcome l ip t0 t1); auto.
  intros (_ & _ & b' & Hb' & K). rewrite Hb in Hb'. injection Hb' as <-. lia.
Qed.

(** The delay acts as a shift of the samples' clock. *)
Definition earlier (k : Z) (l : list sample) : list sample := map (fun s => ((fst s - k)%Z, snd s)) l.
Definition rewind (k : Z) (s : pint) : pint :=
  Pint (e_q s) (e_C s) (e_CC s) (e_a s) (e_aa s) (e_cross s) (e_dalpha s) (e_dv s) (e_dp s) (e_P s) (e_Dt s) (e_started s) (e_n s) (e_ts s - k).
Lemma body_shift k redo ip bg ba t1 p n s :
  body redo ip bg ba t1 ((fst p - k)%Z, snd p) ((fst n - k)%Z, snd n) (rewind k s) =
  (rewind k (fst (body redo ip bg ba (t1 + k) p n s)), snd (body redo ip bg ba (t1 + k) p n s)).
Proof.
  unfold body. cbn [fst snd]. unfold imu_body. cbn [rewind e_ts e_started].
  replace (fst n - k - (e_ts s - k))%Z with (fst n - e_ts s)%Z by lia.
  replace (fst n - k - (fst p - k))%Z with (fst n - fst p)%Z by lia.
  destruct (fst n - e_ts s <? 0)%Z; [reflexivity|].
  replace (t1 <? fst n - k)%Z with (t1 + k <? fst n)%Z by (destruct (Z.ltb_spec (t1 + k) (fst n)), (Z.ltb_spec t1 (fst n - k)); lia).
  destruct (t1 + k <? fst n)%Z.
  - replace (t1 - (e_ts s - k))%Z with (t1 + k - e_ts s)%Z by lia.
    destruct (t1 + k - e_ts s <=? 0)%Z; [reflexivity|]. cbn [fst snd]. rewrite !Z.eqb_refl. f_equal.
    replace (t1 - (if redo then fst p - k else e_ts s - k))%Z with (t1 + k - (if redo then fst p else e_ts s))%Z by (destruct redo; lia).
    unfold imu_step, rewind. cbn [e_q e_C e_CC e_a e_aa e_cross e_dalpha e_dv e_dp e_P e_Dt e_n e_ts e_started]. f_equal. lia.
  - replace (fst n - k - (e_ts s - k))%Z with (fst n - e_ts s)%Z by lia.
    destruct (fst n - e_ts s <=? 0)%Z; [reflexivity|]. cbn [fst snd].
    replace (fst n - k =? t1)%Z with (fst n =? t1 + k)%Z by (destruct (Z.eqb_spec (fst n) (t1 + k)), (Z.eqb_spec (fst n - k) t1); lia). f_equal.
    replace (fst n - k - (if redo then fst p - k else e_ts s - k))%Z with (fst n - (if redo then fst p else e_ts s))%Z by (destruct redo; lia).
    unfold imu_step, rewind. cbn [e_q e_C e_CC e_a e_aa e_cross e_dalpha e_dv e_dp e_P e_Dt e_n e_ts e_started]. f_equal.
Qed.
Lemma loop_shift k redo ip bg ba t1 : forall l p s,
  lloop redo ip bg ba t1 ((fst p - k)%Z, snd p) (earlier k l) (rewind k s) =
  (rewind k (fst (lloop redo ip bg ba (t1 + k) p l s)), snd (lloop redo ip bg ba (t1 + k) p l s)).
Proof.
  induction l as [|n l IH]; intros p s; [reflexivity|]. cbn [earlier map lloop]. rewrite body_shift.
  destruct (body redo ip bg ba (t1 + k) p n s) as [s' st]. cbn [fst snd]. destruct st; [reflexivity|]. apply IH.
Qed.
Theorem C84_delay_is_shift : forall l ip t0 t1 td x0 x1 s0 s1,
  imu_evaluate (buffer l) ip t0 t1 td x0 x1 s0 s1 = imu_evaluate (buffer (earlier td l)) ip t0 t1 0 x0 x1 s0 s1.
Proof.
  intros [|p r] ip t0 t1 td x0 x1 s0 s1; [reflexivity|]. unfold imu_evaluate. rewrite redo_eq. cbn [earlier map].
  change (map (fun s => ((fst s - td)%Z, snd s)) r) with (earlier td r). rewrite redo_eq, !Z.add_0_r.
  pose proof (loop_shift td true ip (sb_bg s0) (sb_ba s0) t1 r p (pint0 (t0 + td))) as E.
  replace (rewind td (pint0 (t0 + td))) with (pint0 t0) in E by (unfold rewind, pint0; cbn; f_equal; lia).
  rewrite E. destruct (lloop true ip (sb_bg s0) (sb_ba s0) (t1 + td) p r (pint0 (t0 + td))) as [s [|]]; reflexivity.
Qed.

(** ** C83: what a zero residual means *)
Definition zero_error (e : imu_error) : Prop :=
  er_p e = vzero /\ er_a e = vzero /\ er_v e = vzero /\ er_bg e = vzero /\ er_ba e = vzero.
Lemma vsub_0 a b : vsub a b = vzero <-> a = b.
Proof.
  split; [|intros ->; unfold vzero; mat_eq; ring]. intros H.
  apply V3_ext; [apply (f_equal vx) in H|apply (f_equal vy) in H|apply (f_equal vz) in H]; cbn in H; lra.
Qed.
Lemma pull_0 C a b : IsRot C -> vadd (mapp (mtr C) a) b = vzero <-> vadd a (mapp C b) = vzero.
Proof.
  intros HC. split; intros H.
  - apply (f_equal (mapp C)) in H. assert (Z : mapp C vzero = vzero) by (unfold vzero; mat_eq; ring). rewrite Z in H. rewrite <- H.
    transitivity (vadd (mapp C (mapp (mtr C) a)) (mapp C b)); [rewrite (rot_tr_r C a HC); reflexivity|]. generalize (mapp (mtr C) a). intros. mat_eq; ring.
  - apply (f_equal (mapp (mtr C))) in H. assert (Z : mapp (mtr C) vzero = vzero) by (unfold vzero; mat_eq; ring). rewrite Z in H. rewrite <- H.
    transitivity (vadd (mapp (mtr C) a) (mapp (mtr C) (mapp C b))); [rewrite (rot_tr_l C b HC); reflexivity|]. generalize (mapp C b) (mtr C). intros. mat_eq; ring.
Qed.
Lemma pose_rot x : tf_rot (tf_pose x) = to_rot (p_q x).
Proof. unfold tf_pose, tf_q. apply rot_tf. Qed.
Lemma pose_quat x : unitq (p_q x) -> to_rot (tf_quat (tf_pose x)) = to_rot (p_q x) /\ qnorm2 (tf_quat (tf_pose x)) = 1.
Proof. intros U. unfold tf_quat. rewrite pose_rot. destruct (to_rot_orth _ U) as [A B]. apply to_rot_of_rot; assumption. Qed.
Lemma vec_0 q : qnorm2 q = 1 -> vscale 2 (qvec q) = vzero <-> to_rot q = I3.
Proof.
  intros U. split; intros H.
  - assert (qx q = 0 /\ qy q = 0 /\ qz q = 0) as (A & B & C).
    { unfold vscale, vzero, qvec in H. cbn in H. injection H as H1 H2 H3. lra. }
    unfold to_rot. rewrite A, B, C. unfold I3. f_equal; ring.
  - destruct q as [w x y z]. unfold qnorm2 in U. cbn [qw qx qy qz] in U.
    pose proof (f_equal m00 H) as H0. pose proof (f_equal m11 H) as H1. pose proof (f_equal m22 H) as H2. cbn in H0, H1, H2.
    assert (x = 0) by nra. assert (y = 0) by nra. assert (z = 0) by nra. subst. unfold qvec, vzero. mat_eq; ring.
Qed.
Lemma err_rot x0 x1 qd : unitq (p_q x0) -> unitq (p_q x1) -> qnorm2 qd = 1 ->
  vscale 2 (qvec (qmul qd (qmul (qinverse (tf_quat (tf_pose x1))) (tf_quat (tf_pose x0))))) = vzero <->
  to_rot (p_q x1) = mmul (to_rot (p_q x0)) (to_rot qd).
Proof.
  intros U0 U1 Ud. destruct (pose_quat x0 U0) as [R0 N0]. destruct (pose_quat x1 U1) as [R1 N1].
  set (q0 := tf_quat (tf_pose x0)) in *. set (q1 := tf_quat (tf_pose x1)) in *.
  assert (Ni : qnorm2 (qinverse q1) = 1).
  { unfold qinverse. rewrite N1. destruct Rlt_dec; [|lra]. unfold qnorm2, qscale, qconj in *. cbn [qw qx qy qz]. rewrite Rinv_1. etransitivity; [|exact N1]. ring. }
  assert (Nr : qnorm2 (qmul (qinverse q1) q0) = 1) by (rewrite qnorm2_mul, Ni, N0; ring).
  rewrite vec_0 by (rewrite qnorm2_mul, Ud, Nr; ring).
  rewrite !to_rot_mul by assumption. rewrite (qinverse_rot q1 N1), R0, R1.
  destruct (to_rot_orth _ U0) as [A0 B0]. destruct (to_rot_orth _ U1) as [A1 B1]. destruct (to_rot_orth _ Ud) as [Ad Bd].
  pose proof (orth_right _ A0 B0) as C0. pose proof (orth_right _ A1 B1) as C1. pose proof (orth_right _ Ad Bd) as Cd.
  set (M0 := to_rot (p_q x0)) in *. set (M1 := to_rot (p_q x1)) in *. set (D := to_rot qd) in *. split; intros H.
  - (* M1 = M0 D *)
    assert (H1 : mmul (mtr M1) M0 = mtr D).
    { rewrite <- (mmul_I_r (mtr D)), <- H, <- !mmul_assoc, Ad, mmul_I_l. reflexivity. }
    assert (H2 : M0 = mmul M1 (mtr D)) by (rewrite <- H1, <- mmul_assoc, C1, mmul_I_l; reflexivity).
    rewrite H2, mmul_assoc, Ad, mmul_I_r. reflexivity.
  - rewrite H, mtr_mul, !mmul_assoc, A0, mmul_I_r. exact Cd.
Qed.
(** everything at once *)
Lemma err_zero ip Dt x0 x1 s0 s1 s : unitq (p_q x0) -> unitq (p_q x1) -> qnorm2 (e_q s) = 1 ->
  let G := V3 0 0 (ip_g ip) in
  zero_error (imu_err ip Dt x0 x1 s0 s1 s) <->
  p_r x1 = vadd (vadd (vsub (p_r x0) (vscale (1 / 2 * Dt * Dt) G)) (vscale Dt (sb_v s0))) (mapp (to_rot (p_q x0)) (e_aa s)) /\
  to_rot (p_q x1) = mmul (to_rot (p_q x0)) (to_rot (e_q s)) /\
  sb_v s1 = vadd (vsub (sb_v s0) (vscale Dt G)) (mapp (to_rot (p_q x0)) (e_a s)) /\
  sb_bg s1 = sb_bg s0 /\ sb_ba s1 = sb_ba s0.
Proof.
  intros U0 U1 Us G. unfold zero_error, imu_err. cbn [er_p er_a er_v er_bg er_ba]. rewrite pose_rot, err_rot by assumption.
  pose proof (to_rot_orth _ U0) as HC. rewrite !(pull_0 _ _ _ HC), !vsub_0. unfold delta_p, delta_v, g_W. fold G.
  generalize (mapp (to_rot (p_q x0)) (e_aa s)) (mapp (to_rot (p_q x0)) (e_a s)). intros A B.
  assert (P : vadd (vsub (vadd (vsub (p_r x0) (p_r x1)) (vscale Dt (sb_v s0))) (vscale (1 / 2 * Dt * Dt) G)) A = vzero <->
    p_r x1 = vadd (vadd (vsub (p_r x0) (vscale (1 / 2 * Dt * Dt) G)) (vscale Dt (sb_v s0))) A).
  { rewrite <- (vsub_0 (p_r x1)). split; intros H; apply (f_equal vopp) in H; (etransitivity; [|etransitivity; [exact H|]]);
    unfold vzero; generalize (p_r x0) (p_r x1) (sb_v s0); intros; mat_eq; ring. }
  assert (V : vadd (vsub (vsub (sb_v s0) (sb_v s1)) (vscale Dt G)) B = vzero <-> sb_v s1 = vadd (vsub (sb_v s0) (vscale Dt G)) B).
  { rewrite <- (vsub_0 (sb_v s1)). split; intros H; apply (f_equal vopp) in H; (etransitivity; [|etransitivity; [exact H|]]);
    unfold vzero; generalize (sb_v s0) (sb_v s1); intros; mat_eq; ring. }
  rewrite P, V. intuition congruence.
Qed.
Lemma evaluate_run l ip t0 t1 td x0 x1 s0 s1 : rising l -> covers l (t0 + td) (t1 + td) -> (t0 < t1)%Z ->
  exists p r, l = p :: r /\ (fst p <= t0 + td)%Z /\ (t1 + td <= back_of p r)%Z /\
  let s := fst (lloop true ip (sb_bg s0) (sb_ba s0) (t1 + td) p r (pint0 (t0 + td))) in
  redo_preintegration (buffer l) ip s0 (t0 + td) (t1 + td) = Ret s /\
  imu_evaluate (buffer l) ip t0 t1 td x0 x1 s0 s1 = Ret (imu_err ip (time_of (t1 - t0)) x0 x1 s0 s1 s).
Proof.
  intros Hr Hc Ht. destruct (covers_inv _ _ _ Hc) as (p & r & -> & A & B). exists p, r. split; [reflexivity|]. split; [exact A|]. split; [exact B|].
  cbv zeta. assert (E : redo_preintegration (buffer (p :: r)) ip s0 (t0 + td) (t1 + td) = Ret (fst (lloop true ip (sb_bg s0) (sb_ba s0) (t1 + td) p r (pint0 (t0 + td))))).
  { rewrite redo_eq.
    assert (Es : snd (lloop true ip (sb_bg s0) (sb_ba s0) (t1 + td) p r (pint0 (t0 + td))) = true).
    { apply loop_stops; auto; cbn; try lia; try congruence. intros ->. unfold back_of in B. cbn in B. lia. }
    destruct (lloop _ _ _ _ _ _ _ _) as [s st]. cbn in Es. subst st. reflexivity. }
  split; [exact E|]. exact (evaluate_eq _ _ _ _ _ _ _ _ _ _ E).
Qed.

(** A sensor that does not turn and feels a constant force: the residual of two states is zero exactly when the
    second follows from the first by the exact equations of motion, and the biases agree. Any delay, any window
    within the buffer. *)
Theorem C83_straight : forall l ip t0 t1 td x0 x1 s0 s1 f, rising l -> covers l (t0 + td) (t1 + td) -> (t0 < t1)%Z ->
  unitq (p_q x0) -> unitq (p_q x1) ->
  (forall s, In s l -> snd (snd s) = sb_bg s0 /\ fst (snd s) = vadd (sb_ba s0) f) ->
  let Dt := time_of (t1 - t0) in
  let a := vsub (mapp (to_rot (p_q x0)) f) (V3 0 0 (ip_g ip)) in
  exists e, imu_evaluate (buffer l) ip t0 t1 td x0 x1 s0 s1 = Ret e /\
   (zero_error e <->
     p_r x1 = vadd (p_r x0) (vadd (vscale Dt (sb_v s0)) (vscale (Dt * Dt / 2) a)) /\
     to_rot (p_q x1) = to_rot (p_q x0) /\
     sb_v s1 = vadd (sb_v s0) (vscale Dt a) /\ sb_bg s1 = sb_bg s0 /\ sb_ba s1 = sb_ba s0).
Proof.
  intros l ip t0 t1 td x0 x1 s0 s1 f Hr Hc Ht U0 U1 Hs Dt a.
  destruct (evaluate_run l ip t0 t1 td x0 x1 s0 s1 Hr Hc Ht) as (p & r & El & Hp & Hb & _ & E).
  eexists. split; [exact E|].
  destruct (run_straight true ip (sb_bg s0) (sb_ba s0) l p r (t0 + td) (t1 + td) f El Hr Hp Hb ltac:(lia) Hs) as (E1 & E2 & E3).
  cbv zeta in E1, E2, E3. replace (t1 + td - (t0 + td))%Z with (t1 - t0)%Z in E2, E3 by lia. change (secs (t1 - t0)) with Dt in E2, E3.
  set (s := fst (lloop _ _ _ _ _ _ _ _)) in *.
  rewrite err_zero; auto; [|rewrite E1; unfold qnorm2; cbn; ring].
  fold Dt. rewrite E1, E2, E3, to_rot_id, mmul_I_r. unfold a.
  assert (X1 : vadd (vadd (vsub (p_r x0) (vscale (1 / 2 * Dt * Dt) (V3 0 0 (ip_g ip)))) (vscale Dt (sb_v s0)))
    (mapp (to_rot (p_q x0)) (vscale (1 / 2 * Dt * Dt) f)) =
    vadd (p_r x0) (vadd (vscale Dt (sb_v s0)) (vscale (Dt * Dt / 2) (vsub (mapp (to_rot (p_q x0)) f) (V3 0 0 (ip_g ip)))))).
  { generalize (to_rot (p_q x0)). intros. mat_eq; field. }
  assert (X2 : vadd (vsub (sb_v s0) (vscale Dt (V3 0 0 (ip_g ip)))) (mapp (to_rot (p_q x0)) (vscale Dt f)) =
    vadd (sb_v s0) (vscale Dt (vsub (mapp (to_rot (p_q x0)) f) (V3 0 0 (ip_g ip))))).
  { generalize (to_rot (p_q x0)). intros. mat_eq; field. }
  rewrite X1, X2. reflexivity.
Qed.

(** A sensor turning about a fixed axis at a rate that is affine between samples: when some sample lies in the window,
    the rotational part is zero exactly when the second orientation is the first turned by the integral of the rate. *)
Theorem C83_rotation_partial : forall l ip t0 t1 td x0 x1 s0 s1 u w, rising l -> covers l (t0 + td) (t1 + td) -> (t0 < t1)%Z ->
  unitq (p_q x0) -> unitq (p_q x1) -> vdot u u = 1 ->
  turns_at l (sb_bg s0) u w -> coarse l (t0 + td) (t1 + td) w -> touched l (t0 + td) (t1 + td) ->
  exists e, imu_evaluate (buffer l) ip t0 t1 td x0 x1 s0 s1 = Ret e /\
   (er_a e = vzero <-> to_rot (p_q x1) = mmul (to_rot (p_q x0)) (rodrigues u (RInt w (time_of (t0 + td)) (time_of (t1 + td))))).
Proof.
  intros l ip t0 t1 td x0 x1 s0 s1 u w Hr Hc Ht U0 U1 Uu Hg Hco Hto.
  destruct (evaluate_run l ip t0 t1 td x0 x1 s0 s1 Hr Hc Ht) as (p & r & El & Hp & Hb & _ & E).
  eexists. split; [exact E|].
  pose proof (run_turn true ip (sb_bg s0) (sb_ba s0) l p r (t0 + td) (t1 + td) u w El Hr Hp Hb ltac:(lia) Uu Hg Hco) as Eq.
  cbn [imu_err er_a]. rewrite Eq by (right; left; auto). rewrite err_rot; auto; [|apply axq_unit; exact Uu].
  rewrite to_rot_axq by exact Uu. assert (X : forall th : R, 2 * (th / 2) = th) by (intros; field). rewrite X. reflexivity.
Qed.
(** When the window lies strictly between two samples both ends are interpolated wrongly. *)
Theorem C83_inside_interval : forall ta tb wa wb aa ab ip t0 t1 x0 x1 s0 s1 u, (ta < t0 < t1)%Z -> (t1 < tb)%Z ->
  unitq (p_q x0) -> unitq (p_q x1) -> vdot u u = 1 ->
  let r1 := time_of (t1 - t0) / time_of (tb - ta) in let w1 := (1 - r1) * wa + r1 * wb in
  let r0 := time_of (t1 - t0) / time_of (t1 - ta) in let w0 := r0 * wa + (1 - r0) * w1 in
  let th := (w0 + w1) / 2 * time_of (t1 - t0) in th = 0 \/ 2 / 10 ^ 6 < Rabs th ->
  exists e, imu_evaluate (buffer ((ta, (aa, vadd (sb_bg s0) (vscale wa u))) :: (tb, (ab, vadd (sb_bg s0) (vscale wb u))) :: nil)) ip t0 t1 0 x0 x1 s0 s1 = Ret e /\
    (er_a e = vzero <-> to_rot (p_q x1) = mmul (to_rot (p_q x0)) (rodrigues u th)).
Proof.
  intros ta tb wa wb aa ab ip t0 t1 x0 x1 s0 s1 u H1 H2 U0 U1 Uu r1 w1 r0 w0 th Hth.
  set (p := (ta, (aa, vadd (sb_bg s0) (vscale wa u))) : sample). set (n := (tb, (ab, vadd (sb_bg s0) (vscale wb u))) : sample).
  destruct (evaluate_run (p :: n :: nil) ip t0 t1 0 x0 x1 s0 s1) as (p' & r' & El & _ & _ & _ & E).
  - cbn. split; [lia|exact I].
  - eexists _, _. split; [reflexivity|]. split; [reflexivity|]. cbn. lia.
  - lia.
  - injection El as <- <-. eexists. split; [exact E|]. cbn [imu_err er_a]. rewrite !Z.add_0_r.
    set (s := fst (lloop _ _ _ _ _ _ _ _)).
    assert (Es : e_q s = axq u (th / 2)).
    { unfold s. cbn [lloop]. assert (Hlt : (e_ts (pint0 t0) < Z.min (fst n) t1)%Z) by (cbn; lia).
      destruct (body_go true ip (sb_bg s0) (sb_ba s0) t1 p n (pint0 t0) Hlt) as (_ & _ & _ & _ & E5).
      pose proof (body_step true ip (sb_bg s0) (sb_ba s0) t1 p n (pint0 t0) Hlt) as Eb.
      destruct (body true _ _ _ _ _ _ _) as [s' st]. cbn [fst snd] in *.
      replace (fst (if st then (s', true) else (s', false))) with s' by (destruct st; reflexivity).
      rewrite Eb. clear Eb E5 E s. unfold imu_step, read0, read1. cbn [e_q e_ts pint0 e_started].
      change (fst n) with tb. change (fst p) with ta. assert (t1 <? tb = true)%Z as -> by (apply Z.ltb_lt; lia). rewrite Z.min_r by lia.
      cbn [gyr snd p n]. rewrite qmul_1. rewrite imu_dq_delta by (left; apply secs_pos; lia).
      rewrite <- (quat_delta_axis u th Uu Hth). f_equal. unfold th, w0, w1. change secs with time_of in *. fold r0 r1. unfold mix.
      generalize r0 r1 (time_of (t1 - t0)) (sb_bg s0). intros. mat_eq; field. }
    rewrite Es, err_rot; auto; [|apply axq_unit; exact Uu]. rewrite to_rot_axq by exact Uu.
    assert (X : forall th : R, 2 * (th / 2) = th) by (intros; field). rewrite X. reflexivity.
Qed.
Lemma rod_unit u a : vdot u u = 1 -> unitq (axq u (a / 2)) /\ to_rot (axq u (a / 2)) = rodrigues u a.
Proof.
  intros Uu. split; [apply axq_unit; exact Uu|]. rewrite to_rot_axq by exact Uu.
  assert (X : 2 * (a / 2) = a) by field. rewrite X. reflexivity.
Qed.
Theorem C83_rotation_refuted :
  ~ (forall l ip t0 t1 td x0 x1 s0 s1 u w, rising l -> covers l (t0 + td) (t1 + td) -> (t0 < t1)%Z ->
     unitq (p_q x0) -> unitq (p_q x1) -> vdot u u = 1 ->
     turns_at l (sb_bg s0) u w -> coarse l (t0 + td) (t1 + td) w ->
     exists e, imu_evaluate (buffer l) ip t0 t1 td x0 x1 s0 s1 = Ret e /\
      (er_a e = vzero <-> to_rot (p_q x1) = mmul (to_rot (p_q x0)) (rodrigues u (RInt w (time_of (t0 + td)) (time_of (t1 + td)))))).
Proof.
  intros H. assert (UZ : vdot vZ vZ = 1) by (unfold vdot, vZ; cbn; ring).
  set (z := Sb vzero vzero vzero). set (ip := ImuParams 1 1 1 1 1).
  set (x0 := P vzero (Q 1 0 0 0)). assert (U0 : unitq (p_q x0)) by (unfold unitq, qnorm2; cbn; ring).
  destruct (rod_unit vZ (1 / 4) UZ) as [U1 R1]. set (x1 := P vzero (axq vZ (1 / 4 / 2))).
  assert (Tq : time_of 250000000 = / 4) by (unfold time_of; field). assert (T3 : time_of 750000000 = 3 / 4) by (unfold time_of; field).
  assert (Ri : RInt (fun t : R => t) (time_of 250000000) (time_of 750000000) = 1 / 4).
  { rewrite (is_RInt_unique _ _ _ _ (ramp_int _ _)), Tq, T3. match goal with |- @eq _ ?l ?r => change (@eq R l r) end. field. }
  destruct (H ramp ip 250000000%Z 750000000%Z 0%Z x0 x1 z z vZ (fun t => t) ramp_rising
    (ramp_covers (250000000 + 0) (750000000 + 0) ltac:(lia) ltac:(lia)) ltac:(lia) U0 U1 UZ ramp_turns) as (e & E & K).
  { rewrite !Z.add_0_r. intros p n A _. destruct (ramp_adjacent p n A) as [-> ->].
    unfold seg_from, seg_to. cbn [fst]. change (Z.max 250000000 0) with 250000000%Z. change (Z.min 750000000 1000000000) with 750000000%Z.
    rewrite Ri. right. rewrite Rabs_pos_eq; lra. }
  rewrite !Z.add_0_r, Ri in K.
  destruct (C83_inside_interval 0 1000000000 0 1 vzero vzero ip 250000000 750000000 x0 x1 z z vZ) as (e' & E' & K'); auto; try lia.
  - change (750000000 - 250000000)%Z with 500000000%Z. rewrite !Z.sub_0_r, time_h, time_1, T3. right. rewrite Rabs_pos_eq; lra.
  - assert (Eb : ((0%Z, (vzero, vadd (sb_bg z) (vscale 0 vZ))) :: (1000000000%Z, (vzero, vadd (sb_bg z) (vscale 1 vZ))) :: nil) = ramp).
    { unfold ramp. cbn [sb_bg z]. repeat f_equal; unfold vzero, vZ; mat_eq; ring. }
    rewrite Eb, E in E'. injection E' as <-. rewrite K in K'.
    change (750000000 - 250000000)%Z with 500000000%Z in K'. rewrite !Z.sub_0_r, time_h, time_1, T3 in K'.
    cbn [x0 x1 p_q] in K'. rewrite R1, to_rot_id, !mmul_I_l in K'.
    pose proof (proj1 K' eq_refl) as B. apply (f_equal m10) in B. rewrite !rod_z in B.
    match type of B with _ = sin ?a => replace a with (1 / 6) in B by field end.
    assert (sin (1 / 6) < sin (1 / 4)); [|lra]. pose proof PI2_3_2. apply sin_increasing_1; lra.
Qed.

(** The residual agrees with propagation: over a window between two samples it is zero exactly at the propagated state. *)
Theorem C83_zero_at_propagation_partial : forall l ip t0 t1 x0 x1 s0 s1, rising l -> covers l t0 t1 -> (t0 < t1)%Z ->
  stamped l t0 -> stamped l t1 -> brisk l t0 t1 (sb_bg s0) -> unitq (p_q x0) -> unitq (p_q x1) ->
  exists o e, propagation (buffer l) ip (tf_pose x0) s0 t0 t1 = Ret o /\ imu_evaluate (buffer l) ip t0 t1 0 x0 x1 s0 s1 = Ret e /\
    (zero_error e <-> tf_pose x1 = po_T o /\ s1 = po_sb o).
Proof.
  intros l ip t0 t1 x0 x1 s0 s1 Hr Hc Ht S0 S1 Hbr U0 U1.
  destruct (evaluate_run l ip t0 t1 0 x0 x1 s0 s1 Hr) as (p & r & El & Hp & Hb & _ & E); rewrite ?Z.add_0_r in *; auto.
  destruct (prop_run l ip (tf_pose x0) s0 t0 t1 Hc) as (p' & r' & El' & _ & _ & E'). rewrite El in El'. injection El' as <- <-.
  eexists _, _. split; [exact E'|]. split; [exact E|]. cbn [po_T po_sb].
  destruct (run_same ip (sb_bg s0) (sb_ba s0) l p r t0 t1 El Hr Ht Hp S0) as (_ & Q1 & Q2 & Q3 & Q4).
  pose proof (run_time false ip (sb_bg s0) (sb_ba s0) l p r t0 t1 El Hr Hp Hb Ht) as Et.
  assert (Un : qnorm2 (e_q (fst (lloop true ip (sb_bg s0) (sb_ba s0) t1 p r (pint0 t0)))) = 1).
  { pose proof (moves_loop true ip (sb_bg s0) (sb_ba s0) vzero l t0 t1 Hr S0 S1 Hbr r p (fun _ => pint0 t0) t0 false) as M.
    destruct M as [U _ _ _ _].
    - intros p' n'. rewrite El. auto.
    - intros _. split; reflexivity.
    - intros _. split; [reflexivity|exact Hp].
    - discriminate.
    - intros; exact Ht.
    - apply moves_0.
    - replace (vadd (sb_bg s0) (vscale 0 vzero)) with (sb_bg s0) in U; [exact U|]. destruct (sb_bg s0). unfold vzero. mat_eq; ring. }
  cbv zeta in E, E'. set (s := fst (lloop true _ _ _ _ _ _ _)) in *. set (s' := fst (lloop false _ _ _ _ _ _ _)) in *. clearbody s s'.
  rewrite err_zero by assumption. unfold propagated. cbn [fst snd]. rewrite <- Q1, <- Q2, <- Q3, Et. change secs with time_of.
  set (Dt := time_of (t1 - t0)). rewrite pose_rot. destruct (pose_quat x0 U0) as [P1 P2].
  assert (Tr : forall x, tf_trans (tf_pose x) = p_r x) by (intros x; unfold tf_pose, tf_q; apply trans_tf). rewrite Tr.
  unfold tf_q. rewrite to_rot_mul, P1 by assumption.
  unfold tf_pose at 1. unfold tf_q, g_W.
  assert (X : vsub (vadd (vadd (p_r x0) (vscale Dt (sb_v s0))) (mapp (to_rot (p_q x0)) (e_aa s))) (vscale (1 / 2 * Dt * Dt) (V3 0 0 (ip_g ip)))
    = vadd (vadd (vsub (p_r x0) (vscale (1 / 2 * Dt * Dt) (V3 0 0 (ip_g ip)))) (vscale Dt (sb_v s0))) (mapp (to_rot (p_q x0)) (e_aa s))).
  { generalize (mapp (to_rot (p_q x0)) (e_aa s)). intros. mat_eq; ring. }
  assert (Y : vadd (sb_v s0) (vsub (mapp (to_rot (p_q x0)) (e_a s)) (vscale Dt (V3 0 0 (ip_g ip)))) =
     vadd (vsub (sb_v s0) (vscale Dt (V3 0 0 (ip_g ip)))) (mapp (to_rot (p_q x0)) (e_a s))).
  { generalize (mapp (to_rot (p_q x0)) (e_a s)). intros. mat_eq; ring. }
  rewrite X, Y. split.
  - intros (A & B & C & D & F). rewrite A, B. split; [reflexivity|]. destruct s1. cbn in *. subst. reflexivity.
  - intros (A & B). split; [|split; [|split; [|split]]].
    + apply (f_equal tf_trans) in A. rewrite !trans_tf in A. exact A.
    + apply (f_equal tf_rot) in A. rewrite !rot_tf in A. exact A.
    + rewrite B. reflexivity.
    + rewrite B. reflexivity.
    + rewrite B. reflexivity.
Qed.
