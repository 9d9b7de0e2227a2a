(** C82, part 2: the Jacobian that propagation returns. *)
From Coq Require Import Reals Lra Lia Psatz.
From Verif Require Import Base GeomModel GeomSpec GeomProofs ImuModel PreintModel PreintSpec PreintProofs PreintProofs2 CtrajModel CtrajProofs Prop_Interp Prop_Geom2 CalcSpec ResidualProofs PreintProofs3 PreintProofs4 Prop_ResidualPrior Prop_Preint Prop_Preint2 Prop_Preint3.
From Coquelicot Require Import Coquelicot.
Local Open Scope R_scope.

(** the 3 x 3 block (i,j) of a 15 x 15 matrix *)
Definition block (M : nat -> nat -> R) (i j : nat) : mat3 :=
  let e a b := M (3 * i + a)%nat (3 * j + b)%nat in
  M3 (e 0 0)%nat (e 0 1)%nat (e 0 2)%nat (e 1 0)%nat (e 1 1)%nat (e 1 2)%nat (e 2 0)%nat (e 2 1)%nat (e 2 2)%nat.
Lemma jac_block T s : let J := out_jacobian T s in let C0 := tf_rot T in
  block J 0 0 = I3 /\ block J 0 1 = mscale (-1) (skew (mapp C0 (e_aa s))) /\ block J 0 2 = mscale (e_Dt s) I3 /\
  block J 0 3 = mmul C0 (e_dp s) /\ block J 0 4 = mscale (-1) (mmul C0 (e_CC s)) /\
  block J 1 0 = Z3 /\ block J 1 1 = I3 /\ block J 1 2 = Z3 /\ block J 1 3 = mscale (-1) (mmul C0 (e_dalpha s)) /\ block J 1 4 = Z3 /\
  block J 2 0 = Z3 /\ block J 2 1 = mscale (-1) (skew (mapp C0 (e_a s))) /\ block J 2 2 = I3 /\
  block J 2 3 = mmul C0 (e_dv s) /\ block J 2 4 = mscale (-1) (mmul C0 (e_C s)).
Proof. repeat split. Qed.

(** how a propagated state that depends on [t] moves at 0: position, orientation (rotation vector in the world frame), speed *)
Definition state_rate (O : R -> prop_out) (p a v : vec3) : Prop :=
  dv (fun t => tf_trans (po_T (O t))) 0 p /\
  dm (fun t => tf_rot (po_T (O t))) 0 (mmul (skew a) (tf_rot (po_T (O 0)))) /\
  dv (fun t => sb_v (po_sb (O t))) 0 v.
Lemma propagated_parts ip T x s : Rigid T -> qnorm2 (e_q s) = 1 ->
  tf_trans (fst (propagated ip T x s)) = vsub (vadd (vadd (tf_trans T) (vscale (e_Dt s) (sb_v x))) (mapp (tf_rot T) (e_aa s))) (vscale (1 / 2 * e_Dt s * e_Dt s) (g_W ip)) /\
  tf_rot (fst (propagated ip T x s)) = mmul (tf_rot T) (to_rot (e_q s)) /\
  sb_v (snd (propagated ip T x s)) = vadd (sb_v x) (vsub (mapp (tf_rot T) (e_a s)) (vscale (e_Dt s) (g_W ip))).
Proof.
  intros HT U. unfold propagated. cbn [fst snd sb_v]. unfold tf_q. rewrite trans_tf, rot_tf.
  destruct (rigid_quat T HT) as [R1 R2]. rewrite to_rot_mul, R1 by assumption. auto.
Qed.
Lemma rate_is O p a v p' a' v' : state_rate O p a v -> p = p' -> a = a' -> v = v' -> state_rate O p' a' v'.
Proof. intros H -> -> ->. exact H. Qed.

(** Pose and speed at the start: for a window between two samples. *)
Theorem C82_jacobian_pose_partial : forall l ip (T : R -> mat4) x t0 t1 dr a d, rising l -> covers l t0 t1 -> (t0 < t1)%Z ->
  stamped l t0 -> stamped l t1 -> brisk l t0 t1 (sb_bg x) ->
  (forall t, Rigid (T t)) -> dv (fun t => tf_trans (T t)) 0 dr -> dm (fun t => tf_rot (T t)) 0 (mmul (skew a) (tf_rot (T 0))) ->
  exists O, (forall t, propagation (buffer l) ip (T t) (push_v x d t) t0 t1 = Ret (O t)) /\
  let J := block (po_jac (O 0)) in let row i := vadd (mapp (J i 0%nat) dr) (vadd (mapp (J i 1%nat) a) (mapp (J i 2%nat) d)) in
  state_rate O (row 0%nat) (row 1%nat) (row 2%nat).
Proof.
  intros l ip T x t0 t1 dr a d Hr Hc Ht S0 S1 Hbr HT Dr DR.
  destruct (prop_run l ip (T 0) x t0 t1 Hc) as (p & r & El & Hp & Hb & _).
  set (s := fst (lloop false ip (sb_bg x) (sb_ba x) t1 p r (pint0 t0))).
  assert (U : qnorm2 (e_q s) = 1).
  { destruct (moves_run false ip (sb_bg x) (sb_ba x) vzero l p r t0 t1 El Hr Hp Ht S0 S1 Hbr) as [U _ _ _ _]. rewrite line_0 in U. exact U. }
  exists (fun t => PropOut (e_n s) (fst (propagated ip (T t) (push_v x d t) s)) (snd (propagated ip (T t) (push_v x d t) s)) (out_covariance (T t) s) (out_jacobian (T t) s)).
  split.
  - intros t. destruct (prop_run l ip (T t) (push_v x d t) t0 t1 Hc) as (p' & r' & El' & _ & _ & E).
    rewrite El in El'. injection El' as <- <-. exact E.
  - cbv zeta. cbn [po_jac]. pose proof (jac_block (T 0) s) as B. cbv zeta in B. destruct B as (-> & -> & -> & _ & _ & -> & -> & -> & _ & _ & -> & -> & -> & _ & _).
    assert (PP : forall t, _) by exact (fun t => propagated_parts ip (T t) (push_v x d t) s (HT t) U).
    unfold state_rate. cbn [po_T po_sb]. split; [|split].
    + eapply dv_ext; [intros t; symmetry; apply (PP t)|]. cbn [push_v sb_v].
      eapply dv_eq; [apply dv_sub; [apply dv_add; [apply dv_add; [exact Dr|apply dv_scale, dv_line]|apply dv_mapp; [exact DR|apply dv_const]]|apply dv_const]|].
      generalize (tf_rot (T 0)) (e_aa s). intros. unfold vzero, I3. mat_eq; ring.
    + replace (fun t => tf_rot (fst (propagated ip (T t) (push_v x d t) s))) with (fun t => mmul (tf_rot (T t)) (to_rot (e_q s))).
      2: { apply FunctionalExtensionality.functional_extensionality. intros t. symmetry. apply (PP t). }
      eapply dm_eq; [apply dm_mmul; [exact DR|apply dm_const]|]. rewrite (proj1 (proj2 (PP 0))).
      generalize (tf_rot (T 0)) (to_rot (e_q s)). intros. unfold I3, Z3. mat_eq; ring.
    + eapply dv_ext; [intros t; symmetry; apply (PP t)|]. cbn [push_v sb_v].
      eapply dv_eq; [apply dv_add; [apply dv_line|apply dv_sub; [apply dv_mapp; [exact DR|apply dv_const]|apply dv_const]]|].
      generalize (tf_rot (T 0)) (e_a s). intros. unfold vzero, I3, Z3. mat_eq; ring.
Qed.
(** Accelerometer bias. *)
Theorem C82_jacobian_accel_partial : forall l ip T x t0 t1 d, rising l -> covers l t0 t1 -> (t0 < t1)%Z ->
  stamped l t0 -> stamped l t1 -> brisk l t0 t1 (sb_bg x) -> Rigid T ->
  exists O, (forall t, propagation (buffer l) ip T (push_a x d t) t0 t1 = Ret (O t)) /\
  let J := block (po_jac (O 0)) in state_rate O (mapp (J 0%nat 4%nat) d) (mapp (J 1%nat 4%nat) d) (mapp (J 2%nat 4%nat) d).
Proof.
  intros l ip T x t0 t1 d Hr Hc Ht S0 S1 Hbr HT.
  destruct (prop_run l ip T x t0 t1 Hc) as (p & r & El & Hp & Hb & _).
  set (s := fst (lloop false ip (sb_bg x) (sb_ba x) t1 p r (pint0 t0))).
  set (F := fun t => fst (lloop false ip (sb_bg x) (vadd (sb_ba x) (vscale t d)) t1 p r (pint0 t0))).
  assert (F0 : F 0 = s) by (unfold F; rewrite line_0; reflexivity).
  assert (U : qnorm2 (e_q s) = 1).
  { destruct (moves_run false ip (sb_bg x) (sb_ba x) vzero l p r t0 t1 El Hr Hp Ht S0 S1 Hbr) as [U _ _ _ _]. rewrite line_0 in U. exact U. }
  assert (Sh : forall t, shifted (vscale t d) s (F t)).
  { intros t. apply (run_shift false ip (sb_bg x) (sb_ba x) (vscale t d) l p r t0 t1 El Hr Ht). }
  assert (Ut : forall t, qnorm2 (e_q (F t)) = 1) by (intros t; destruct (Sh t) as (_ & <- & _); exact U).
  assert (Dt' : forall t, e_Dt (F t) = e_Dt s).
  { intros t. unfold F, s. rewrite !(run_time _ _ _ _ l p r t0 t1 El Hr Hp Hb Ht). reflexivity. }
  exists (fun t => PropOut (e_n (F t)) (fst (propagated ip T (push_a x d t) (F t))) (snd (propagated ip T (push_a x d t) (F t))) (out_covariance T (F t)) (out_jacobian T (F t))).
  split.
  - intros t. destruct (prop_run l ip T (push_a x d t) t0 t1 Hc) as (p' & r' & El' & _ & _ & E).
    rewrite El in El'. injection El' as <- <-. exact E.
  - cbv zeta. cbn [po_jac]. rewrite F0. pose proof (jac_block T s) as B. cbv zeta in B. destruct B as (_ & _ & _ & _ & -> & _ & _ & _ & _ & -> & _ & _ & _ & _ & ->).
    assert (PP : forall t, _) by exact (fun t => propagated_parts ip T (push_a x d t) (F t) HT (Ut t)).
    assert (Ln : forall (M : mat3) v, dv (fun t => vsub v (mapp M (vscale t d))) 0 (mapp (mscale (-1) M) d)).
    { intros M v. split; [|split]; cbn; auto_derive; auto; ring. }
    assert (Da : dv (fun t => e_aa (F t)) 0 (mapp (mscale (-1) (e_CC s)) d)).
    { apply (dv_ext (fun t => vsub (e_aa s) (mapp (e_CC s) (vscale t d)))); [|apply Ln]. intros t. destruct (Sh t) as (_ & _ & _ & _ & _ & K). symmetry. exact K. }
    assert (Db : dv (fun t => e_a (F t)) 0 (mapp (mscale (-1) (e_C s)) d)).
    { apply (dv_ext (fun t => vsub (e_a s) (mapp (e_C s) (vscale t d)))); [|apply Ln]. intros t. destruct (Sh t) as (_ & _ & _ & _ & K & _). symmetry. exact K. }
    unfold state_rate. cbn [po_T po_sb]. split; [|split].
    + eapply dv_ext; [intros t; symmetry; etransitivity; [apply (PP t)|rewrite Dt'; reflexivity]|]. cbn [push_a sb_v].
      eapply dv_eq; [apply dv_sub; [apply dv_add; [apply dv_const|apply dv_mapp; [apply dm_const|exact Da]]|apply dv_const]|].
      cbn beta. rewrite ?F0. generalize (tf_rot T) (e_aa s) (e_CC s). intros. unfold vzero, I3, Z3. mat_eq; ring.
    + replace (fun t => tf_rot (fst (propagated ip T (push_a x d t) (F t)))) with (fun _ : R => mmul (tf_rot T) (to_rot (e_q s))).
      2: { apply FunctionalExtensionality.functional_extensionality. intros t. destruct (Sh t) as (_ & K & _). rewrite K. symmetry. apply (PP t). }
      eapply dm_eq; [apply dm_const|]. rewrite (proj1 (proj2 (PP 0))). generalize (mmul (tf_rot T) (to_rot (e_q (F 0)))). intros. unfold Z3. mat_eq; ring.
    + eapply dv_ext; [intros t; symmetry; etransitivity; [apply (PP t)|rewrite Dt'; reflexivity]|]. cbn [push_a sb_v].
      eapply dv_eq; [apply dv_add; [apply dv_const|apply dv_sub; [apply dv_mapp; [apply dm_const|exact Db]|apply dv_const]]|].
      cbn beta. rewrite ?F0. generalize (tf_rot T) (e_a s) (e_C s). intros. unfold vzero, I3, Z3. mat_eq; ring.
Qed.
(** Gyroscope bias: position and speed. The true motion of the orientation is given with the matrix that redoing the
    integration accumulates. *)
Lemma gyro_rate l ip T x t0 t1 d : rising l -> covers l t0 t1 -> (t0 < t1)%Z ->
  stamped l t0 -> stamped l t1 -> brisk l t0 t1 (sb_bg x) -> Rigid T ->
  exists p r O, l = p :: r /\ (forall t, propagation (buffer l) ip T (push_g x d t) t0 t1 = Ret (O t)) /\
  let s := fst (lloop false ip (sb_bg x) (sb_ba x) t1 p r (pint0 t0)) in
  po_jac (O 0) = out_jacobian T s /\ tf_rot (po_T (O 0)) = mmul (tf_rot T) (to_rot (e_q s)) /\ IsRot (to_rot (e_q s)) /\
  let J := block (po_jac (O 0)) in
  state_rate O (mapp (J 0%nat 3%nat) d) (vopp (mapp (mmul (tf_rot T) (mmul (to_rot (e_q s)) (e_cross s))) d)) (mapp (J 2%nat 3%nat) d).
Proof.
  intros Hr Hc Ht S0 S1 Hbr HT.
  destruct (prop_run l ip T x t0 t1 Hc) as (p & r & El & Hp & Hb & _).
  set (s := fst (lloop false ip (sb_bg x) (sb_ba x) t1 p r (pint0 t0))).
  set (F := fun t => fst (lloop false ip (vadd (sb_bg x) (vscale t d)) (sb_ba x) t1 p r (pint0 t0))).
  assert (F0 : F 0 = s) by (unfold F; rewrite line_0; reflexivity).
  pose proof (moves_run false ip (sb_bg x) (sb_ba x) d l p r t0 t1 El Hr Hp Ht S0 S1 Hbr) as M. change (moves false d F) in M.
  destruct M as [U Mq Ma Maa _]. rewrite F0 in *.
  assert (Dt' : forall t, e_Dt (F t) = e_Dt s).
  { intros t. unfold F, s. rewrite !(run_time _ _ _ _ l p r t0 t1 El Hr Hp Hb Ht). reflexivity. }
  exists p, r, (fun t => PropOut (e_n (F t)) (fst (propagated ip T (push_g x d t) (F t))) (snd (propagated ip T (push_g x d t) (F t))) (out_covariance T (F t)) (out_jacobian T (F t))).
  split; [exact El|]. split.
  - intros t. destruct (prop_run l ip T (push_g x d t) t0 t1 Hc) as (p' & r' & El' & _ & _ & E).
    rewrite El in El'. injection El' as <- <-. exact E.
  - cbv zeta. cbn [po_jac po_T]. fold s. rewrite F0. split; [reflexivity|]. split; [apply propagated_parts; assumption|]. split; [apply to_rot_orth; exact U|].
    pose proof (jac_block T s) as B. cbv zeta in B. destruct B as (_ & _ & _ & -> & _ & _ & _ & _ & _ & _ & _ & _ & _ & -> & _).
    destruct (rigid_quat T HT) as [R1 R2].
    unfold state_rate. cbn [po_T po_sb]. split; [|split].
    + unfold propagated. cbn [fst]. unfold tf_q. eapply dv_ext; [intros t; symmetry; rewrite trans_tf, Dt'; reflexivity|]. cbn [push_g sb_v].
      eapply dv_eq; [apply dv_sub; [apply dv_add; [apply dv_const|apply dv_mapp; [apply dm_const|exact Maa]]|apply dv_const]|].
      cbn beta. rewrite ?F0. generalize (tf_rot T) (e_aa s) (e_dp s). intros. unfold vzero, I3, Z3. mat_eq; ring.
    + unfold propagated. cbn [fst]. unfold tf_q.
      replace (fun t => tf_rot (tf (to_rot (qmul (tf_quat T) (e_q (F t)))) _)) with (fun t => to_rot (qmul (tf_quat T) (e_q (F t)))).
      2: { apply FunctionalExtensionality.functional_extensionality. intros t. rewrite rot_tf. reflexivity. }
      rewrite rot_tf, F0.
      pose proof (dm_to_rot _ _ _ (dq_mul_l _ _ (tf_quat T) Mq)) as D. cbn beta in D. rewrite F0 in D.
      rewrite half_qmul_push in D by exact R2. rewrite dto_rot_half in D by (rewrite qnorm2_mul, R2, U; ring).
      eapply dm_eq; [exact D|]. f_equal. f_equal. rewrite R1. rewrite mapp_mmul. generalize (tf_rot T) (mapp (mmul (to_rot (e_q s)) (e_cross s)) d). intros. mat_eq; ring.
    + unfold propagated. cbn [snd sb_v push_g]. eapply dv_ext; [intros t; symmetry; rewrite Dt'; reflexivity|].
      eapply dv_eq; [apply dv_add; [apply dv_const|apply dv_sub; [apply dv_mapp; [apply dm_const|exact Ma]|apply dv_const]]|].
      cbn beta. rewrite ?F0. generalize (tf_rot T) (e_a s) (e_dv s). intros. unfold vzero, I3, Z3. mat_eq; ring.
Qed.
Theorem C82_jacobian_gyro_partial : forall l ip T x t0 t1 d, rising l -> covers l t0 t1 -> (t0 < t1)%Z ->
  stamped l t0 -> stamped l t1 -> brisk l t0 t1 (sb_bg x) -> Rigid T ->
  exists O, (forall t, propagation (buffer l) ip T (push_g x d t) t0 t1 = Ret (O t)) /\
  let J := block (po_jac (O 0)) in
  dv (fun t => tf_trans (po_T (O t))) 0 (mapp (J 0%nat 3%nat) d) /\ dv (fun t => sb_v (po_sb (O t))) 0 (mapp (J 2%nat 3%nat) d).
Proof.
  intros l ip T x t0 t1 d Hr Hc Ht S0 S1 Hbr HT.
  destruct (gyro_rate l ip T x t0 t1 d Hr Hc Ht S0 S1 Hbr HT) as (p & r & O & _ & HO & K). cbv zeta in K. destruct K as (_ & _ & _ & A & _ & C).
  exists O. split; [exact HO|]. cbv zeta. split; assumption.
Qed.
(** The block of the orientation with respect to the gyroscope bias is not its derivative: the right Jacobian of each
    step is left out. *)
Definition spin : list sample := (0%Z, (vzero, vZ)) :: (1000000000%Z, (vzero, vZ)) :: nil.
Lemma spin_rising : rising spin. Proof. cbn. split; [lia|exact I]. Qed.
Lemma spin_covers t0 t1 : (0 <= t0)%Z -> (t1 <= 1000000000)%Z -> covers spin t0 t1.
Proof. intros. eexists _, _. split; [reflexivity|]. split; [reflexivity|]. cbn. lia. Qed.
Lemma spin_0 : stamped spin 0. Proof. eexists. split; [left; reflexivity|reflexivity]. Qed.
Lemma spin_1 : stamped spin 1000000000. Proof. eexists. split; [right; left; reflexivity|reflexivity]. Qed.
Lemma vnorm_Z : vnorm vZ = 1.
Proof. unfold vnorm, vdot, vZ. cbn [vx vy vz]. replace (0 * 0 + 0 * 0 + 1 * 1) with 1 by ring. apply sqrt_1. Qed.
Lemma spin_brisk : brisk spin 0 1000000000 vzero.
Proof.
  intros p n A _ _. inversion A as [|? ? ? ? B]; subst; [|inversion B as [|? ? ? ? B']; inversion B'].
  cbn [fst snd]. right. rewrite Z.sub_0_r, time_1.
  replace (vscale 1 (vsub (vscale (1 / 2) (vadd vZ vZ)) vzero)) with vZ by (unfold vZ, vzero; mat_eq; field). rewrite vnorm_Z. lra.
Qed.
Lemma skew_inj u v R : IsRot R -> mmul (skew u) R = mmul (skew v) R -> u = v.
Proof.
  intros [A B] H. apply (f_equal (fun M => mmul M (mtr R))) in H. rewrite !mmul_assoc, !(orth_right R A B), !mmul_I_r in H.
  destruct u, v. unfold skew in H. cbn in H. injection H as H1 H2 H3 H4 H5 H6. f_equal; lra.
Qed.
Lemma dm_unique f a b : dm f 0 a -> dm f 0 b -> a = b.
Proof.
  intros ((?&?&?)&(?&?&?)&(?&?&?)) ((?&?&?)&(?&?&?)&(?&?&?)).
  assert (X : forall (g : R -> R) (u v : R), is_derive g 0 u -> is_derive g 0 v -> u = v).
  { intros g u v G1 G2. rewrite <- (is_derive_unique g 0 u G1). apply is_derive_unique. exact G2. }
  destruct a, b. cbn in *. f_equal; eapply X; eassumption.
Qed.
Theorem C82_jacobian_gyro_rotation_refuted :
  ~ (forall l ip T x t0 t1 d O, rising l -> covers l t0 t1 -> (t0 < t1)%Z ->
     stamped l t0 -> stamped l t1 -> brisk l t0 t1 (sb_bg x) -> Rigid T ->
     (forall t, propagation (buffer l) ip T (push_g x d t) t0 t1 = Ret (O t)) ->
     dm (fun t => tf_rot (po_T (O t))) 0 (mmul (skew (mapp (block (po_jac (O 0)) 1 3) d)) (tf_rot (po_T (O 0))))).
Proof.
  intros H. set (x := Sb vzero vzero vzero). set (ip := ImuParams 1 1 1 1 1). set (d := V3 1 0 0).
  assert (Bx : brisk spin 0 1000000000 (sb_bg x)) by exact spin_brisk.
  destruct (gyro_rate spin ip I4 x 0 1000000000 d spin_rising (spin_covers 0 1000000000 ltac:(lia) ltac:(lia)) ltac:(lia) spin_0 spin_1 Bx I4_rigid)
    as (p & r & O & El & HO & K). cbv zeta in K. destruct K as (Ej & Er & Ir & _ & D & _).
  specialize (H spin ip I4 x 0%Z 1000000000%Z d O spin_rising (spin_covers 0 1000000000 ltac:(lia) ltac:(lia)) ltac:(lia) spin_0 spin_1 Bx I4_rigid HO).
  pose proof (dm_unique _ _ _ H D) as Hq. clear H D.
  assert (I4r : tf_rot I4 = I3) by reflexivity. rewrite Er, I4r, mmul_I_l in Hq. apply skew_inj in Hq; [|exact Ir].
  rewrite Ej in Hq. injection El as <- <-. set (s := fst (lloop _ _ _ _ _ _ _ _)) in *.
  destruct (jac_block I4 s) as (_ & _ & _ & _ & _ & _ & _ & _ & J13 & _). rewrite J13, I4r, !mmul_I_l in Hq.
  (* one step *)
  set (p := (0%Z, (vzero, vZ)) : sample) in *. set (n := (1000000000%Z, (vzero, vZ)) : sample) in *.
  assert (Hlt : (e_ts (pint0 0) < Z.min (fst n) 1000000000)%Z) by (cbn; lia).
  assert (Es : s = imu_step false ip (sb_bg x) (sb_ba x) 1 vZ vZ vzero vzero 1000000000 (pint0 0)).
  { unfold s. cbn [lloop].
    destruct (read_aligned false 1000000000 gyr spin p n (pint0 0) 0 spin_rising ltac:(constructor) spin_0 spin_1) as (A1 & A2 & A3 & A4 & _); try (cbn; intros; try discriminate; lia).
    destruct (read_aligned false 1000000000 acc spin p n (pint0 0) 0 spin_rising ltac:(constructor) spin_0 spin_1) as (B1 & B2 & _); try (cbn; intros; try discriminate; lia).
    pose proof (body_step false ip (sb_bg x) (sb_ba x) 1000000000 p n (pint0 0) Hlt) as E. rewrite A1, A2, A4, B1, B2 in E.
    destruct (body false _ _ _ _ _ _ _) as [s' st]. cbn [fst] in E.
    replace (fst (if st then (s', true) else (s', false))) with s' by (destruct st; reflexivity). rewrite E.
    change (fst n - e_ts (pint0 0))%Z with 1000000000%Z. change (secs 1000000000) with (time_of 1000000000). rewrite time_1. reflexivity. }
  assert (Ew : vsub (vscale (1 / 2) (vadd vZ vZ)) vzero = vZ) by (unfold vZ, vzero; mat_eq; field).
  assert (Ecr : e_cross s = right_jacobian vZ).
  { rewrite Es. unfold imu_step. cbn [e_cross pint0 sb_bg x]. rewrite Ew. replace (vscale 1 vZ) with vZ by (unfold vZ; mat_eq; ring).
    generalize (to_rot (qinverse (imu_dq vZ 1))) (right_jacobian vZ). intros M M'. unfold Z3. destruct M'. mat_eq; ring. }
  assert (Eal : e_dalpha s = to_rot (e_q s)).
  { rewrite Es. unfold imu_step. cbn [e_dalpha e_q pint0]. generalize (to_rot (qmul (Q 1 0 0 0) (imu_dq (vsub (vscale (1 / 2) (vadd vZ vZ)) (sb_bg x)) 1))). intros M. unfold Z3. destruct M. mat_eq; ring. }
  rewrite Ecr, Eal in Hq.
  assert (Q' : mapp (to_rot (e_q s)) d = mapp (to_rot (e_q s)) (mapp (right_jacobian vZ) d)).
  { apply (f_equal vopp) in Hq. rewrite mapp_mmul in Hq. revert Hq. generalize (to_rot (e_q s)) (mapp (right_jacobian vZ) d). intros M v Hq.
    etransitivity; [etransitivity; [|exact Hq]|]; [mat_eq; ring|]. destruct v. mat_eq; ring. }
  apply (f_equal (mapp (mtr (to_rot (e_q s))))) in Q'. rewrite !rot_tr_l in Q' by exact Ir.
  apply (f_equal vx) in Q'. unfold right_jacobian in Q'. rewrite vnorm_Z in Q'.
  destruct (Rlt_dec 1 (/ 10 ^ 4)) as [L|L]; [lra|].
  unfold d, vZ in Q'. cbn in Q'. field_simplify in Q'.
  pose proof PI2_3_2. assert (K : sin 1 < sin (PI / 2)) by (apply sin_increasing_1; lra). rewrite sin_PI2 in K. lra.
Qed.

(** ** The hypotheses are met: one second at 1 rad/s about the z axis *)
Example spin_propagates : exists o e, propagation (buffer spin) (ImuParams 1 1 1 1 1) (tf_pose (P vzero (Q 1 0 0 0))) (Sb vzero vzero vzero) 0 1000000000 = Ret o /\
  imu_evaluate (buffer spin) (ImuParams 1 1 1 1 1) 0 1000000000 0 (P vzero (Q 1 0 0 0)) (P vzero (Q 1 0 0 0)) (Sb vzero vzero vzero) (Sb vzero vzero vzero) = Ret e /\
  (zero_error e <-> tf_pose (P vzero (Q 1 0 0 0)) = po_T o /\ Sb vzero vzero vzero = po_sb o).
Proof.
  assert (U : unitq (p_q (P vzero (Q 1 0 0 0)))) by (unfold unitq, qnorm2; cbn; ring).
  apply C83_zero_at_propagation_partial; auto using spin_rising, spin_0, spin_1, spin_brisk; try lia.
  apply spin_covers; lia.
Qed.
Example spin_turns : exists o, propagation (buffer spin) (ImuParams 1 1 1 1 1) I4 (Sb vzero vzero vzero) 0 1000000000 = Ret o /\
  tf_rot (po_T o) = mmul (tf_rot I4) (rodrigues vZ (1 * time_of (1000000000 - 0))).
Proof.
  apply (C82_constant_rate spin _ I4 (Sb vzero vzero vzero) 0 1000000000 vZ 1).
  - exact spin_rising.
  - apply spin_covers; lia.
  - lia.
  - exact I4_rigid.
  - unfold vdot, vZ. cbn. ring.
  - intros s [<-|[<-|[]]]; cbn [snd sb_bg]; unfold vzero, vZ; mat_eq; ring.
  - intros p n A _. inversion A as [|? ? ? ? B]; subst; [|inversion B as [|? ? ? ? B']; inversion B'].
    unfold seg_from, seg_to. cbn [fst]. change (Z.max 0 0) with 0%Z. change (Z.min 1000000000 1000000000) with 1000000000%Z.
    rewrite time_0, time_1, RInt_const. right. unfold scal; cbn; unfold mult; cbn. rewrite Rabs_pos_eq; lra.
Qed.
Example spin_jacobian : exists O, (forall t, propagation (buffer spin) (ImuParams 1 1 1 1 1) I4 (push_a (Sb vzero vzero vzero) vZ t) 0 1000000000 = Ret (O t)) /\
  let J := block (po_jac (O 0)) in state_rate O (mapp (J 0%nat 4%nat) vZ) (mapp (J 1%nat 4%nat) vZ) (mapp (J 2%nat 4%nat) vZ).
Proof.
  apply C82_jacobian_accel_partial; auto using spin_rising, spin_0, spin_1, spin_brisk, I4_rigid; try lia. apply spin_covers; lia.
Qed.
(** a sensor at rest on a table, and its residual *)
Definition table : list sample := (0%Z, (V3 0 0 (98 / 10), vzero)) :: (5000000%Z, (V3 0 0 (98 / 10), vzero)) :: (10000000%Z, (V3 0 0 (98 / 10), vzero)) :: nil.
Example table_residual : exists e, imu_evaluate (buffer table) (ImuParams 1 1 1 1 (98 / 10)) 1000000 7000000 2000000
    (P vzero (Q 1 0 0 0)) (P vzero (Q 1 0 0 0)) (Sb vzero vzero vzero) (Sb vzero vzero vzero) = Ret e /\ zero_error e.
Proof.
  assert (U : unitq (p_q (P vzero (Q 1 0 0 0)))) by (unfold unitq, qnorm2; cbn; ring).
  destruct (C83_straight table (ImuParams 1 1 1 1 (98 / 10)) 1000000 7000000 2000000 (P vzero (Q 1 0 0 0)) (P vzero (Q 1 0 0 0)) (Sb vzero vzero vzero) (Sb vzero vzero vzero) (V3 0 0 (98 / 10))) as (e & E & K); auto.
  - cbn. lia.
  - eexists _, _. split; [reflexivity|]. split; [reflexivity|]. cbn. lia.
  - lia.
  - intros s [<-|[<-|[<-|[]]]]; cbn [snd fst sb_bg sb_ba]; (split; [reflexivity|]); unfold vzero; mat_eq; ring.
  - exists e. split; [exact E|]. apply K. cbn [p_q p_r sb_v sb_bg sb_ba ip_g]. rewrite to_rot_id, mapp_I.
    split; [|split; [reflexivity|split; [|split; reflexivity]]]; unfold vzero; mat_eq; field.
Qed.
Print Assumptions C82_covariance.
Print Assumptions C82_jacobian_gyro_rotation_refuted.
Print Assumptions C83_zero_at_propagation_partial.
Print Assumptions C83_jacobian_gyro_i_partial.
Print Assumptions C84_delay_is_shift.
