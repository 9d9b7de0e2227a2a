(** C82: propagation of a state with a buffer of IMU samples (imu_residual_t::propagation). *)
From Coq Require Import Reals Lra Lia Psatz.
From Verif Require Import Base GeomModel GeomSpec GeomProofs ImuModel PreintModel PreintSpec PreintProofs PreintProofs2 CtrajProofs Prop_Interp Prop_Geom2.
From Coquelicot Require Import Coquelicot.
Local Open Scope R_scope.

(** ** When it answers *)
(** Propagation over a non-empty buffer returns exactly when the buffer covers the window and stops with an
    error otherwise; on an empty buffer it is undefined. *)
Theorem C82_outcome : forall l ip T x t0 t1,
  (l = nil -> propagation (buffer l) ip T x t0 t1 = Undef) /\
  (l <> nil -> covers l t0 t1 -> exists o, propagation (buffer l) ip T x t0 t1 = Ret o) /\
  (l <> nil -> ~ covers l t0 t1 -> propagation (buffer l) ip T x t0 t1 = Throw Fatal).
Proof.
  intros l ip T x t0 t1. split; [|split].
  - intros ->. reflexivity.
  - intros _ H. destruct (covers_inv l t0 t1 H) as (p & r & -> & A & B). rewrite propagation_eq.
    assert (t0 <? fst p = false)%Z as -> by (apply Z.ltb_ge; lia).
    assert (back_of p r <? t1 = false)%Z as -> by (apply Z.ltb_ge; lia).
    cbv zeta. destruct (propagated _ _ _ _). eauto.
  - intros N H. destruct l as [|p r]; [congruence|]. rewrite propagation_eq.
    destruct (t0 <? fst p)%Z eqn:A; [reflexivity|]. destruct (back_of p r <? t1)%Z eqn:B; [reflexivity|].
    exfalso. apply H. apply Z.ltb_ge in A, B.
    pose proof (rev_hd p r) as Hh. rewrite <- map_rev in Hh. destruct (rev (p :: r)) as [|b q] eqn:E; [discriminate|].
    injection Hh as Hh. exists p, b. rewrite E. repeat split; auto. lia.
Qed.

Lemma prop_run l ip T x t0 t1 : covers l t0 t1 -> exists p r, l = p :: r /\ (fst p <= t0)%Z /\ (t1 <= back_of p r)%Z /\
  let s := fst (lloop false ip (sb_bg x) (sb_ba x) t1 p r (pint0 t0)) in
  propagation (buffer l) ip T x t0 t1 =
  Ret (PropOut (e_n s) (fst (propagated ip T x s)) (snd (propagated ip T x s)) (out_covariance T s) (out_jacobian T s)).
Proof.
  intros H. destruct (covers_inv l t0 t1 H) as (p & r & -> & A & B). exists p, r. repeat split; auto.
  rewrite propagation_eq.
  assert (t0 <? fst p = false)%Z as -> by (apply Z.ltb_ge; lia).
  assert (back_of p r <? t1 = false)%Z as -> by (apply Z.ltb_ge; lia).
  cbv zeta. destruct (propagated _ _ _ _). reflexivity.
Qed.

Lemma tf_eta C r : tf (tf_rot (tf C r)) (tf_trans (tf C r)) = tf C r. Proof. destruct C, r. reflexivity. Qed.
Lemma rigid_parts T : Rigid T -> IsRot (tf_rot T) /\ T = tf (tf_rot T) (tf_trans T).
Proof. intros (C & r & H & ->). split; [|symmetry; apply tf_eta]. destruct C, r. exact H. Qed.
Lemma rigid_quat T : Rigid T -> to_rot (tf_quat T) = tf_rot T /\ qnorm2 (tf_quat T) = 1.
Proof. intros H. destruct (rigid_parts T H) as [[A B] _]. apply to_rot_of_rot; assumption. Qed.

(** Over an empty window the state is unchanged. *)
Theorem C82_empty_window : forall l ip T x t0 t1, covers l t0 t1 -> (t1 <= t0)%Z -> Rigid T ->
  exists o, propagation (buffer l) ip T x t0 t1 = Ret o /\ po_n o = 0%Z /\ po_T o = T /\ po_sb o = x.
Proof.
  intros l ip T x t0 t1 Hc Ht HT. destruct (prop_run l ip T x t0 t1 Hc) as (p & r & -> & _ & _ & E).
  eexists. split; [exact E|]. rewrite loop_empty by exact Ht. cbn [fst po_n po_T po_sb propagated snd pint0 e_n e_q e_Dt e_aa e_a].
  split; [reflexivity|]. destruct (rigid_quat T HT) as [Q1 _]. destruct (rigid_parts T HT) as [_ Q2]. split.
  - unfold tf_q. replace (qmul (tf_quat T) (Q 1 0 0 0)) with (tf_quat T) by (mat_eq; ring). rewrite Q1.
    transitivity (tf (tf_rot T) (tf_trans T)); [|symmetry; exact Q2]. f_equal. unfold g_W, vzero. generalize (tf_trans T), (tf_rot T). intros [] []. mat_eq; field.
  - destruct x as [v bg ba]. cbn [sb_v sb_bg sb_ba]. f_equal. destruct v. unfold g_W, vzero. mat_eq; field.
Qed.

(** ** Elapsed time *)
Lemma run_time redo ip bg ba l p r t0 t1 : l = p :: r -> rising l -> (fst p <= t0)%Z -> (t1 <= back_of p r)%Z -> (t0 < t1)%Z ->
  e_Dt (fst (lloop redo ip bg ba t1 p r (pint0 t0))) = secs (t1 - t0).
Proof.
  intros -> Hr Hp Hb Ht.
  destruct (loop_ind redo ip bg ba t1 (fun s => e_Dt s = secs (e_ts s - t0)) t0 (p :: r) Ht) with (l := r) (p := p) (s := pint0 t0)
    as (A & B & _); auto; cbn [pint0 e_Dt e_ts e_started]; try congruence.
  - intros p' n s _ Hpn Hj H0 H1 Hlt.
    destruct (body_go redo ip bg ba t1 p' n s Hlt) as (E1 & _ & E3 & _). rewrite E1, E3, Hj, !secs_sub. ring.
  - unfold secs. rewrite Z.sub_diag. field.
Qed.

(** ** Straight motion *)
(** Sensor that does not turn and feels the constant force [f]: the exact kinematics over the window, whatever
    the sampling and wherever the window starts and ends. *)
Lemma to_rot_id : to_rot (Q 1 0 0 0) = I3. Proof. mat_eq; ring. Qed.
Lemma run_straight redo ip bg ba l p r t0 t1 f : l = p :: r -> rising l -> (fst p <= t0)%Z -> (t1 <= back_of p r)%Z -> (t0 < t1)%Z ->
  (forall s, In s l -> snd (snd s) = bg /\ fst (snd s) = vadd ba f) ->
  let s := fst (lloop redo ip bg ba t1 p r (pint0 t0)) in
  e_q s = Q 1 0 0 0 /\ e_a s = vscale (secs (t1 - t0)) f /\ e_aa s = vscale (1 / 2 * secs (t1 - t0) * secs (t1 - t0)) f.
Proof.
  intros -> Hr Hp Hb Ht Hs.
  destruct (loop_ind redo ip bg ba t1 (fun s => e_q s = Q 1 0 0 0 /\ e_a s = vscale (secs (e_ts s - t0)) f /\
      e_aa s = vscale (1 / 2 * secs (e_ts s - t0) * secs (e_ts s - t0)) f) t0 (p :: r) Ht) with (l := r) (p := p) (s := pint0 t0)
    as (A & B & _); auto; cbn [pint0 e_q e_a e_aa e_ts e_started]; try congruence.
  - intros p' n s Ad Hpn (J1 & J2 & J3) H0 H1 Hlt. destruct (adjacent_in _ _ _ Ad) as [I1 I2].
    destruct (Hs p' I1) as [G1 A1]. destruct (Hs n I2) as [G2 A2].
    rewrite body_step by exact Hlt.
    destruct (read_const redo t1 gyr p' n s bg G1 G2) as [-> ->].
    destruct (read_const redo t1 acc p' n s (vadd ba f) A1 A2) as [-> ->].
    set (dt := secs (Z.min (fst n) t1 - e_ts s)).
    assert (Ed : dt = secs (Z.min (fst n) t1 - t0) - secs (e_ts s - t0)) by (unfold dt; rewrite !secs_sub; ring).
    unfold imu_step. cbn [e_q e_a e_aa e_ts].
    replace (vsub (vscale (1 / 2) (vadd bg bg)) bg) with vzero by (unfold vzero; mat_eq; field).
    replace (vsub (vscale (1 / 2) (vadd (vadd ba f) (vadd ba f))) ba) with f by (destruct f; mat_eq; field).
    assert (Eq : imu_dq vzero dt = Q 1 0 0 0).
    { unfold imu_dq. rewrite Prop_Geom2.vnorm_0. replace (0 * (1 / 2) * dt) with 0 by ring. rewrite cos_0. unfold vscale, vzero. cbn [vx vy vz].
      f_equal; ring. }
    rewrite Eq, J1. replace (qmul (Q 1 0 0 0) (Q 1 0 0 0)) with (Q 1 0 0 0) by (mat_eq; ring).
    rewrite to_rot_id, J2, J3, Ed. set (u := secs (Z.min (fst n) t1 - t0)). set (v := secs (e_ts s - t0)). clearbody u v.
    split; [reflexivity|]. split; mat_eq; field.
  - split; [reflexivity|]. unfold secs. rewrite Z.sub_diag. split; unfold vzero; mat_eq; field.
Qed.
Theorem C82_straight_motion : forall l ip T x t0 t1 f, rising l -> covers l t0 t1 -> (t0 < t1)%Z -> Rigid T ->
  (forall s, In s l -> snd (snd s) = sb_bg x /\ fst (snd s) = vadd (sb_ba x) f) ->
  let Dt := time_of (t1 - t0) in
  let a := vsub (mapp (tf_rot T) f) (V3 0 0 (ip_g ip)) in
  exists o, propagation (buffer l) ip T x t0 t1 = Ret o /\
    po_T o = tf (tf_rot T) (vadd (tf_trans T) (vadd (vscale Dt (sb_v x)) (vscale (Dt * Dt / 2) a))) /\
    po_sb o = Sb (vadd (sb_v x) (vscale Dt a)) (sb_bg x) (sb_ba x).
Proof.
  intros l ip T x t0 t1 f Hr Hc Ht HT Hs Dt a. destruct (prop_run l ip T x t0 t1 Hc) as (p & r & El & Hp & Hb & E).
  eexists. split; [exact E|].
  pose proof (run_time false ip (sb_bg x) (sb_ba x) l p r t0 t1 El Hr Hp Hb Ht) as Et.
  destruct (run_straight false ip (sb_bg x) (sb_ba x) l p r t0 t1 f El Hr Hp Hb Ht Hs) as (E1 & E2 & E3).
  cbv zeta in E. set (s := fst (lloop _ _ _ _ _ _ _ _)) in *. clearbody s. cbn [po_T po_sb propagated fst snd].
  rewrite E1, E2, E3, Et. change (secs (t1 - t0)) with Dt. clearbody Dt.
  destruct (rigid_quat T HT) as [Q1 _]. split.
  - unfold tf_q. replace (qmul (tf_quat T) (Q 1 0 0 0)) with (tf_quat T) by (mat_eq; ring). rewrite Q1.
    unfold a, g_W. f_equal. mat_eq; field.
  - unfold a, g_W. f_equal. mat_eq; field.
Qed.
(** A sensor at rest, reading minus gravity in its own frame, stays where it is. *)
Theorem C82_at_rest : forall l ip T x t0 t1, rising l -> covers l t0 t1 -> (t0 < t1)%Z -> Rigid T -> sb_v x = vzero ->
  (forall s, In s l -> snd (snd s) = sb_bg x /\ fst (snd s) = vadd (sb_ba x) (mapp (mtr (tf_rot T)) (V3 0 0 (ip_g ip)))) ->
  exists o, propagation (buffer l) ip T x t0 t1 = Ret o /\ po_T o = T /\ po_sb o = x.
Proof.
  intros l ip T x t0 t1 Hr Hc Ht HT Hv Hs.
  destruct (C82_straight_motion l ip T x t0 t1 _ Hr Hc Ht HT Hs) as (o & E & E1 & E2).
  exists o. split; [exact E|]. destruct (rigid_parts T HT) as [[R1 R2] R3].
  rewrite <- mapp_mmul, (orth_right _ R1 R2), mapp_I in E1, E2.
  assert (Z : vsub (V3 0 0 (ip_g ip)) (V3 0 0 (ip_g ip)) = vzero) by (unfold vzero; mat_eq; ring).
  rewrite Z, Hv in E1, E2. split.
  - rewrite E1. transitivity (tf (tf_rot T) (tf_trans T)); [|symmetry; exact R3]. f_equal. unfold vzero. generalize (tf_trans T). intros []. mat_eq; field.
  - rewrite E2. destruct x as [v bg ba]. cbn in Hv |- *. subst v. f_equal. unfold vzero. mat_eq; ring.
Qed.

(** ** Rotation *)
Definition exact_reads (redo : bool) (l : list sample) (t0 t1 : Z) (w : R -> R) : Prop :=
  stamped l t0 \/ (redo = true /\ touched l t0 t1) \/ (forall a b, w a = w b).
Lemma run_turn redo ip bg ba l p r t0 t1 u w : l = p :: r -> rising l -> (fst p <= t0)%Z -> (t1 <= back_of p r)%Z -> (t0 < t1)%Z ->
  vdot u u = 1 -> turns_at l bg u w -> coarse l t0 t1 w -> exact_reads redo l t0 t1 w ->
  e_q (fst (lloop redo ip bg ba t1 p r (pint0 t0))) = axq u (RInt w (time_of t0) (time_of t1) / 2).
Proof.
  intros -> Hr Hp Hb Ht U [Hg Ha] Hco Hex.
  destruct (loop_ind redo ip bg ba t1 (fun s => (t0 <= e_ts s)%Z /\ exists th, is_RInt w (time_of t0) (time_of (e_ts s)) th /\ e_q s = axq u (th / 2))
     t0 (p :: r) Ht) with (l := r) (p := p) (s := pint0 t0)
    as ((_ & th & A1 & A2) & B & _); auto; cbn [pint0 e_q e_a e_aa e_ts e_started]; try congruence.
  - intros p' n s Ad Hpn (Hge & th & J1 & J2) H0 H1 Hlt. destruct (adjacent_in _ _ _ Ad) as [I1 I2].
    destruct (adjacent_split _ _ _ Ad Hr) as [_ Sp].
    assert (Hc : fst p' = t0 \/ (redo = true /\ (fst n <= t1)%Z) \/ (forall a b, w a = w b) \/ (t0 < fst p')%Z).
    { destruct (Z.lt_ge_cases t0 (fst p')) as [|G]; auto.
      destruct Hex as [(q & Iq & Eq)|[(Er & q & Iq & Eq)|C]]; auto.
      - destruct (Sp q Iq); [left; lia|]. exfalso. destruct (e_started s); [destruct (H1 eq_refl)|destruct (H0 eq_refl)]; lia.
      - destruct (Sp q Iq); [left; lia|]. right; left. split; [assumption|lia]. }
    assert (Esf : seg_from t0 p' = e_ts s).
    { unfold seg_from. destruct (e_started s); [destruct (H1 eq_refl)|destruct (H0 eq_refl)]; lia. }
    assert (Est : seg_to t1 n = Z.min (fst n) t1) by (unfold seg_to; lia).
    destruct (read_affine redo t1 gyr p' n s bg u w t0 Hpn (Hg p' I1) (Hg n I2) (Ha p' n Ad) H0 H1 Hlt Hc) as [R0 R1].
    destruct (body_go redo ip bg ba t1 p' n s Hlt) as (E1 & _). split; [rewrite E1; lia|].
    assert (Gp : (fst p' <= e_ts s)%Z) by (destruct (e_started s); [destruct (H1 eq_refl)|destruct (H0 eq_refl)]; lia).
    assert (Gt : (Z.min (fst n) t1 <= fst n)%Z) by lia.
    set (tb := Z.min (fst n) t1) in *.
    pose proof (affine_int w _ _ (time_of (e_ts s)) (time_of tb) (time_lt _ _ Hpn) (Ha p' n Ad) (time_le _ _ Gp)
      (time_le _ _ (Z.lt_le_incl _ _ Hlt)) (time_le _ _ Gt)) as Is.
    set (d := (time_of tb - time_of (e_ts s)) * (w (time_of (e_ts s)) + w (time_of tb)) / 2) in *.
    assert (Hd : d = 0 \/ 2 / 10 ^ 6 < Rabs d).
    { specialize (Hco p' n Ad). rewrite Esf, Est in Hco. specialize (Hco Hlt). cbv zeta in Hco. rewrite (is_RInt_unique _ _ _ _ Is) in Hco. exact Hco. }
    exists (th + d). split; [rewrite E1; exact (is_RInt_Chasles _ _ _ _ _ _ J1 Is)|].
    rewrite body_step by exact Hlt. unfold imu_step. cbn [e_q]. rewrite R0, R1, J2. change (Z.min (fst n) t1) with tb.
    rewrite imu_dq_delta by (left; apply secs_pos; lia).
    assert (X : vscale (secs (tb - e_ts s)) (vsub (vscale (1 / 2) (vadd (vadd bg (vscale (w (time_of (e_ts s))) u)) (vadd bg (vscale (w (time_of tb)) u)))) bg)
       = vscale d u).
    { rewrite secs_sub. unfold d. mat_eq; field. }
    rewrite X, quat_delta_axis by assumption. rewrite qmul_axq by exact U. f_equal. field.
  - split; [lia|]. exists 0. split; [apply (is_RInt_point w)|]. unfold axq. replace (0 / 2) with 0 by field. rewrite cos_0, sin_0. f_equal; ring.
  - rewrite B in A1. rewrite (is_RInt_unique _ _ _ _ A1). exact A2.
Qed.
Lemma turn_out ip T x s u th : Rigid T -> vdot u u = 1 -> e_q s = axq u (th / 2) ->
  tf_rot (fst (propagated ip T x s)) = mmul (tf_rot T) (rodrigues u th).
Proof.
  intros HT U E. destruct (rigid_quat T HT) as [Q1 Q2]. unfold propagated. cbn [fst]. unfold tf_q.
  match goal with |- tf_rot (tf ?C ?r) = _ => replace (tf_rot (tf C r)) with C by (destruct C; reflexivity) end.
  rewrite E, to_rot_mul, Q1, to_rot_axq; auto; [|apply axq_unit; exact U]. f_equal. f_equal. field.
Qed.
(** A sensor that turns about a fixed axis at a rate that is affine between samples: when the window starts at a
    sample (it may end anywhere), the orientation is turned by the integral of the rate over the window. *)
Theorem C82_rotation_partial : forall l ip T x t0 t1 u w, rising l -> covers l t0 t1 -> (t0 < t1)%Z -> Rigid T ->
  vdot u u = 1 -> turns_at l (sb_bg x) u w -> coarse l t0 t1 w -> stamped l t0 ->
  exists o, propagation (buffer l) ip T x t0 t1 = Ret o /\
    tf_rot (po_T o) = mmul (tf_rot T) (rodrigues u (RInt w (time_of t0) (time_of t1))).
Proof.
  intros l ip T x t0 t1 u w Hr Hc Ht HT U Hg Hco Hs. destruct (prop_run l ip T x t0 t1 Hc) as (p & r & El & Hp & Hb & E).
  eexists. split; [exact E|]. cbn [po_T]. apply turn_out; auto.
  apply (run_turn false ip (sb_bg x) (sb_ba x) l p r t0 t1 u w El Hr Hp Hb Ht U Hg Hco). left. exact Hs.
Qed.
(** At a constant rate the window may start and end anywhere. *)
Theorem C82_constant_rate : forall l ip T x t0 t1 u rate, rising l -> covers l t0 t1 -> (t0 < t1)%Z -> Rigid T ->
  vdot u u = 1 -> (forall s, In s l -> snd (snd s) = vadd (sb_bg x) (vscale rate u)) -> coarse l t0 t1 (fun _ => rate) ->
  exists o, propagation (buffer l) ip T x t0 t1 = Ret o /\
    tf_rot (po_T o) = mmul (tf_rot T) (rodrigues u (rate * time_of (t1 - t0))).
Proof.
  intros l ip T x t0 t1 u rate Hr Hc Ht HT U Hg Hco. destruct (prop_run l ip T x t0 t1 Hc) as (p & r & El & Hp & Hb & E).
  eexists. split; [exact E|]. cbn [po_T]. apply turn_out; auto.
  replace (rate * time_of (t1 - t0)) with (RInt (fun _ => rate) (time_of t0) (time_of t1)).
  - apply (run_turn false ip (sb_bg x) (sb_ba x) l p r t0 t1 u (fun _ => rate) El Hr Hp Hb Ht U); auto.
    + split; [exact Hg|]. intros p' n _ s _. ring.
    + right. right. auto.
  - rewrite RInt_const. unfold scal; cbn; unfold mult; cbn. change (time_of (t1 - t0)) with (secs (t1 - t0)). rewrite secs_sub. ring.
Qed.

(** When the window starts between two samples, the rate at its start is not interpolated: the first sample is
    used as it is, and the orientation is turned by the wrong angle unless the two rates agree. *)
Theorem C82_late_start : forall ta tb wa wb aa ab ip T x t0 u, (ta < t0 < tb)%Z -> Rigid T -> vdot u u = 1 ->
  let th := (wa + wb) / 2 * time_of (tb - t0) in th = 0 \/ 2 / 10 ^ 6 < Rabs th ->
  exists o, propagation (buffer ((ta, (aa, vadd (sb_bg x) (vscale wa u))) :: (tb, (ab, vadd (sb_bg x) (vscale wb u))) :: nil)) ip T x t0 tb = Ret o /\
    tf_rot (po_T o) = mmul (tf_rot T) (rodrigues u th).
Proof.
  intros ta tb wa wb aa ab ip T x t0 u Ht HT U th Hth.
  set (p := (ta, (aa, vadd (sb_bg x) (vscale wa u))) : sample). set (n := (tb, (ab, vadd (sb_bg x) (vscale wb u))) : sample).
  rewrite propagation_eq. cbn [back_of last fst n].
  assert (t0 <? fst p = false)%Z as -> by (apply Z.ltb_ge; cbn; lia). change (back_of p (n :: nil)) with tb. rewrite Z.ltb_irrefl.
  cbv zeta. set (s := fst (lloop _ _ _ _ _ _ _ _)).
  assert (Es : e_q s = axq u (th / 2)).
  { unfold s. cbn [lloop]. assert (Hlt : (e_ts (pint0 t0) < Z.min (fst n) tb)%Z) by (cbn; lia).
    destruct (body_go false ip (sb_bg x) (sb_ba x) tb p n (pint0 t0) Hlt) as (_ & _ & _ & _ & E5).
    pose proof (body_step false ip (sb_bg x) (sb_ba x) tb p n (pint0 t0) Hlt) as E.
    destruct (body false _ _ _ _ _ _ _) as [s' st]. cbn [fst snd] in *.
    replace (fst (if st then (s', true) else (s', false))) with s' by (destruct st; reflexivity).
    rewrite E. clear E E5. unfold imu_step, read0, read1. cbn [e_q e_ts pint0 e_started].
    rewrite Z.ltb_irrefl, Z.min_id. rewrite (Rinv_r_simpl_l) || idtac.
    assert (X : secs (tb - t0) / secs (tb - t0) = 1) by (pose proof (secs_pos (tb - t0) ltac:(lia)); field; lra).
    rewrite X, mix_1. cbn [gyr snd p n]. rewrite qmul_1.
    rewrite imu_dq_delta by (left; apply secs_pos; lia).
    rewrite <- (quat_delta_axis u th U Hth). f_equal. unfold th. change (time_of (tb - t0)) with (secs (tb - t0)). mat_eq; field. }
  pose proof (turn_out ip T x s u th HT U Es) as R. destruct (propagated ip T x s) as [T' x']. cbn [fst] in R.
  eexists. split; [reflexivity|]. exact R.
Qed.
Definition vZ : vec3 := V3 0 0 1.
Definition ramp : list sample := (0%Z, (vzero, vzero)) :: (1000000000%Z, (vzero, vZ)) :: nil.
Lemma time_0 : time_of 0 = 0. Proof. unfold time_of. field. Qed.
Lemma time_1 : time_of 1000000000 = 1. Proof. unfold time_of. field. Qed.
Lemma time_h : time_of 500000000 = / 2. Proof. unfold time_of. field. Qed.
Lemma ramp_turns : turns_at ramp vzero vZ (fun t => t).
Proof.
  split.
  - intros s [<-|[<-|[]]]; cbn [fst snd]; rewrite ?time_0, ?time_1; unfold vZ, vzero; mat_eq; ring.
  - intros p n A s Hs. inversion A as [|? ? ? ? B]; subst; [|inversion B as [|? ? ? ? B']; inversion B'].
    cbn [fst]. rewrite time_0, time_1. field.
Qed.
Lemma I4_rigid : Rigid I4.
Proof. exists I3, vzero. split; [|reflexivity]. split; [mat_eq; ring|]. unfold mdet, I3. cbn. ring. Qed.
Lemma rod_z a : m10 (rodrigues vZ a) = sin a.
Proof. unfold rodrigues, vZ, skew, mscale, madd, mmul, I3. cbn. ring. Qed.
Lemma ramp_rising : rising ramp. Proof. cbn. split; [lia|exact I]. Qed.
Lemma ramp_covers t0 t1 : (0 <= t0)%Z -> (t1 <= 1000000000)%Z -> covers ramp t0 t1.
Proof. intros. eexists _, _. split; [reflexivity|]. split; [reflexivity|]. cbn. lia. Qed.
Lemma ramp_int a b : is_RInt (fun t : R => t) a b ((b * b - a * a) / 2).
Proof.
  replace ((b * b - a * a) / 2) with (minus ((fun t => t ^ 2 / 2) b) ((fun t => t ^ 2 / 2) a)) by (unfold minus, plus, opp; cbn; field).
  apply (is_RInt_derive (fun t => t ^ 2 / 2) (fun t => t)).
  - intros t _. auto_derive; auto. field.
  - intros t _. apply continuous_id.
Qed.
Lemma ramp_adjacent p n : adjacent ramp p n -> p = (0%Z, (vzero, vzero)) /\ n = (1000000000%Z, (vzero, vZ)).
Proof. intros A. inversion A as [|? ? ? ? B]; subst; [auto|inversion B as [|? ? ? ? B']; inversion B']. Qed.
Theorem C82_late_start_refuted :
  ~ (forall l ip T x t0 t1 u w, rising l -> covers l t0 t1 -> (t0 < t1)%Z -> Rigid T ->
     vdot u u = 1 -> turns_at l (sb_bg x) u w -> coarse l t0 t1 w ->
     exists o, propagation (buffer l) ip T x t0 t1 = Ret o /\
       tf_rot (po_T o) = mmul (tf_rot T) (rodrigues u (RInt w (time_of t0) (time_of t1)))).
Proof.
  intros H. specialize (H ramp (ImuParams 1 1 1 1 1) I4 (Sb vzero vzero vzero) 500000000%Z 1000000000%Z vZ (fun t => t)
    ramp_rising (ramp_covers 500000000 1000000000 ltac:(lia) ltac:(lia)) ltac:(lia) I4_rigid ltac:(unfold vdot, vZ; cbn; ring) ramp_turns).
  assert (Ri : RInt (fun t : R => t) (time_of 500000000) (time_of 1000000000) = 3 / 8).
  { rewrite (is_RInt_unique _ _ _ _ (ramp_int _ _)), time_h, time_1. match goal with |- @eq _ ?l ?r => change (@eq R l r) end. field. }
  destruct H as (o & E & R).
  { intros p n A _. destruct (ramp_adjacent p n A) as [-> ->]. cbn [fst seg_from seg_to]. cbn [Z.max Z.min Z.compare Pos.compare Pos.compare_cont].
    unfold seg_from, seg_to. cbn [fst]. change (Z.max 500000000 0) with 500000000%Z. change (Z.min 1000000000 1000000000) with 1000000000%Z.
    rewrite Ri. right. rewrite Rabs_pos_eq; lra. }
  destruct (C82_late_start 0 1000000000 0 1 vzero vzero (ImuParams 1 1 1 1 1) I4 (Sb vzero vzero vzero) 500000000 vZ) as (o' & E' & R').
  - lia.
  - exact I4_rigid.
  - unfold vdot, vZ; cbn; ring.
  - replace (1000000000 - 500000000)%Z with 500000000%Z by reflexivity. rewrite time_h. right. rewrite Rabs_pos_eq; lra.
  - replace (1000000000 - 500000000)%Z with 500000000%Z in R' by reflexivity. rewrite time_h in R'.
    assert (Eb : ((0%Z, (vzero, vadd (sb_bg (Sb vzero vzero vzero)) (vscale 0 vZ))) :: (1000000000%Z, (vzero, vadd (sb_bg (Sb vzero vzero vzero)) (vscale 1 vZ))) :: nil) = ramp).
    { unfold ramp. cbn [sb_bg]. repeat f_equal; unfold vzero, vZ; mat_eq; ring. }
    rewrite Eb, E in E'. injection E' as <-. rewrite R, Ri in R'. change (tf_rot I4) with I3 in R'.
    rewrite !mmul_I_l in R'. apply (f_equal m10) in R'. rewrite !rod_z in R'.
    assert (sin (1 / 4) < sin (3 / 8)).
    { pose proof PI2_3_2. apply sin_increasing_1; lra. }
    replace ((0 + 1) / 2 * / 2) with (1 / 4) in R' by field. lra.
Qed.

(** ** Velocity *)
(** The force along the direction [d] is affine between samples *)
Definition pushed_at (l : list sample) (ba d : vec3) (a : R -> R) : Prop :=
  (forall s, In s l -> fst (snd s) = vadd ba (vscale (a (time_of (fst s))) d)) /\
  (forall p n, adjacent l p n -> affine_on a (time_of (fst p)) (time_of (fst n))).
Lemma run_push redo ip bg ba l p r t0 t1 d a : l = p :: r -> rising l -> (fst p <= t0)%Z -> (t1 <= back_of p r)%Z -> (t0 < t1)%Z ->
  (forall s, In s l -> snd (snd s) = bg) -> pushed_at l ba d a -> exact_reads redo l t0 t1 a ->
  e_a (fst (lloop redo ip bg ba t1 p r (pint0 t0))) = vscale (RInt a (time_of t0) (time_of t1)) d.
Proof.
  intros -> Hr Hp Hb Ht Hg [Hf Ha] Hex.
  destruct (loop_ind redo ip bg ba t1 (fun s => (t0 <= e_ts s)%Z /\ e_q s = Q 1 0 0 0 /\
      exists v, is_RInt a (time_of t0) (time_of (e_ts s)) v /\ e_a s = vscale v d)
     t0 (p :: r) Ht) with (l := r) (p := p) (s := pint0 t0)
    as ((_ & _ & v & A1 & A2) & B & _); auto; cbn [pint0 e_q e_a e_aa e_ts e_started]; try congruence.
  - intros p' n s Ad Hpn (Hge & Jq & v & J1 & J2) H0 H1 Hlt. destruct (adjacent_in _ _ _ Ad) as [I1 I2].
    destruct (adjacent_split _ _ _ Ad Hr) as [_ Sp].
    assert (Hc : fst p' = t0 \/ (redo = true /\ (fst n <= t1)%Z) \/ (forall x y, a x = a y) \/ (t0 < fst p')%Z).
    { destruct (Z.lt_ge_cases t0 (fst p')) as [|G]; auto.
      destruct Hex as [(q & Iq & Eq)|[(Er & q & Iq & Eq)|C]]; auto.
      - destruct (Sp q Iq); [left; lia|]. exfalso. destruct (e_started s); [destruct (H1 eq_refl)|destruct (H0 eq_refl)]; lia.
      - destruct (Sp q Iq); [left; lia|]. right; left. split; [assumption|lia]. }
    destruct (read_affine redo t1 acc p' n s ba d a t0 Hpn (Hf p' I1) (Hf n I2) (Ha p' n Ad) H0 H1 Hlt Hc) as [R0 R1].
    destruct (read_const redo t1 gyr p' n s bg (Hg _ I1) (Hg _ I2)) as [W0 W1].
    destruct (body_go redo ip bg ba t1 p' n s Hlt) as (E1 & _). split; [rewrite E1; lia|].
    assert (Gp : (fst p' <= e_ts s)%Z) by (destruct (e_started s); [destruct (H1 eq_refl)|destruct (H0 eq_refl)]; lia).
    assert (Gt : (Z.min (fst n) t1 <= fst n)%Z) by lia.
    set (tb := Z.min (fst n) t1) in *.
    pose proof (affine_int a _ _ (time_of (e_ts s)) (time_of tb) (time_lt _ _ Hpn) (Ha p' n Ad) (time_le _ _ Gp)
      (time_le _ _ (Z.lt_le_incl _ _ Hlt)) (time_le _ _ Gt)) as Is.
    set (dv := (time_of tb - time_of (e_ts s)) * (a (time_of (e_ts s)) + a (time_of tb)) / 2) in *.
    rewrite E1. rewrite body_step by exact Hlt. unfold imu_step. cbn [e_q e_a]. rewrite R0, R1, W0, W1, Jq, J2.
    change (Z.min (fst n) t1) with tb.
    replace (vsub (vscale (1 / 2) (vadd bg bg)) bg) with vzero by (unfold vzero; mat_eq; field).
    assert (Eq : imu_dq vzero (secs (tb - e_ts s)) = Q 1 0 0 0).
    { unfold imu_dq. rewrite Prop_Geom2.vnorm_0. replace (0 * (1 / 2) * secs (tb - e_ts s)) with 0 by ring. rewrite cos_0. unfold vscale, vzero. cbn [vx vy vz].
      f_equal; ring. }
    rewrite Eq. replace (qmul (Q 1 0 0 0) (Q 1 0 0 0)) with (Q 1 0 0 0) by (mat_eq; ring). rewrite to_rot_id.
    split; [reflexivity|]. exists (v + dv). split; [exact (is_RInt_Chasles _ _ _ _ _ _ J1 Is)|].
    rewrite secs_sub. unfold dv. mat_eq; field.
  - split; [lia|]. split; [reflexivity|]. exists 0. split; [apply (is_RInt_point a)|]. unfold vzero. mat_eq; ring.
  - rewrite B in A1. rewrite (is_RInt_unique _ _ _ _ A1). exact A2.
Qed.
(** A sensor that does not turn and whose specific force is affine between samples: the velocity gains the exact
    integral of the acceleration, when the window starts at a sample. *)
Theorem C82_velocity_partial : forall l ip T x t0 t1 d a, rising l -> covers l t0 t1 -> (t0 < t1)%Z ->
  (forall s, In s l -> snd (snd s) = sb_bg x) -> pushed_at l (sb_ba x) d a -> stamped l t0 ->
  exists o, propagation (buffer l) ip T x t0 t1 = Ret o /\
    sb_v (po_sb o) = vadd (sb_v x) (vsub (vscale (RInt a (time_of t0) (time_of t1)) (mapp (tf_rot T) d))
                                         (vscale (time_of (t1 - t0)) (V3 0 0 (ip_g ip)))) /\
    sb_bg (po_sb o) = sb_bg x /\ sb_ba (po_sb o) = sb_ba x.
Proof.
  intros l ip T x t0 t1 d a Hr Hc Ht Hg Ha Hs. destruct (prop_run l ip T x t0 t1 Hc) as (p & r & El & Hp & Hb & E).
  eexists. split; [exact E|]. cbn [po_sb propagated snd sb_v sb_bg sb_ba]. split; [|split; reflexivity].
  rewrite (run_time false ip (sb_bg x) (sb_ba x) l p r t0 t1 El Hr Hp Hb Ht).
  rewrite (run_push false ip (sb_bg x) (sb_ba x) l p r t0 t1 d a El Hr Hp Hb Ht Hg Ha (or_introl Hs)).
  change (time_of (t1 - t0)) with (secs (t1 - t0)). unfold g_W. mat_eq; ring.
Qed.

(** ** Covariance *)
Lemma tot_ext n f g : (forall i, (i < n)%nat -> f i = g i) -> total n f = total n g.
Proof. induction n as [|n IH]; intros H; cbn; [reflexivity|]. rewrite (H n), IH by (intros; try apply H; lia). reflexivity. Qed.
Lemma tot_plus n f g : total n (fun i => f i + g i) = total n f + total n g.
Proof. induction n as [|n IH]; cbn; [ring|]. rewrite IH. ring. Qed.
Lemma tot_scal n c f : total n (fun i => c * f i) = c * total n f.
Proof. induction n as [|n IH]; cbn; [ring|]. rewrite IH. ring. Qed.
Lemma tot_0 n : total n (fun _ => 0) = 0.
Proof. induction n as [|n IH]; cbn; [ring|]. rewrite IH. ring. Qed.
Lemma tot_swap n m f : total n (fun i => total m (fun j => f i j)) = total m (fun j => total n (fun i => f i j)).
Proof.
  induction n as [|n IH]; [cbn [total]; symmetry; apply tot_0|]. cbn [total]. rewrite IH, <- tot_plus. reflexivity.
Qed.
Lemma tot_nonneg n f : (forall i, (i < n)%nat -> 0 <= f i) -> 0 <= total n f.
Proof. induction n as [|n IH]; cbn; intros H; [lra|]. pose proof (H n ltac:(lia)). pose proof (IH ltac:(intros; apply H; lia)). lra. Qed.
Lemma tot_pos n f i : (forall i, (i < n)%nat -> 0 <= f i) -> (i < n)%nat -> 0 < f i -> 0 < total n f.
Proof.
  induction n as [|n IH]; intros H Hi Hp; [lia|]. cbn [total]. pose proof (H n ltac:(lia)).
  destruct (Nat.eq_dec i n) as [->|N].
  - pose proof (tot_nonneg n f ltac:(intros; apply H; lia)). lra.
  - pose proof (IH ltac:(intros; apply H; lia) ltac:(lia) Hp). lra.
Qed.
Lemma sum_total n f : sum15 n f = total n f. Proof. reflexivity. Qed.
(** x' A P A' x = (A' x)' P (A' x) *)
Lemma quad_congr A P x : quadratic (mul15 (mul15 A P) (tr15 A)) x = quadratic P (fun k => total 15 (fun i => A i k * x i)).
Proof.
  unfold quadratic, mul15, tr15. rewrite ?sum_total.
  transitivity (total 15 (fun i => total 15 (fun j => total 15 (fun l => total 15 (fun k => (A i k * x i) * P k l * (A j l * x j)))))).
  - apply tot_ext. intros i _. apply tot_ext. intros j _.
    rewrite (sum_total 15), <- tot_scal, Rmult_comm, <- tot_scal. apply tot_ext. intros l _. rewrite (sum_total 15).
    transitivity ((A j l * x j * x i) * total 15 (fun k => A i k * P k l)); [ring|]. rewrite <- tot_scal. apply tot_ext. intros k _. ring.
  - transitivity (total 15 (fun i => total 15 (fun l => total 15 (fun k => (A i k * x i) * P k l * total 15 (fun j => A j l * x j))))).
    + apply tot_ext. intros i _. rewrite tot_swap. apply tot_ext. intros l _. rewrite tot_swap. apply tot_ext. intros k _.
      rewrite <- tot_scal. reflexivity.
    + transitivity (total 15 (fun l => total 15 (fun k => total 15 (fun i => A i k * x i) * P k l * total 15 (fun j => A j l * x j)))).
      * rewrite tot_swap. apply tot_ext. intros l _. rewrite tot_swap. apply tot_ext. intros k _.
        transitivity (total 15 (fun i => (P k l * total 15 (fun j => A j l * x j)) * (A i k * x i))).
        -- apply tot_ext. intros i _. ring.
        -- rewrite tot_scal. ring.
      * apply tot_swap.
Qed.
Lemma sym_congr A P : symmetric15 P -> symmetric15 (mul15 (mul15 A P) (tr15 A)).
Proof.
  intros H i j Hi Hj. unfold mul15, tr15. change sum15 with total.
  transitivity (total 15 (fun l => total 15 (fun k => A i k * P k l * A j l))).
  { apply tot_ext. intros l _. rewrite Rmult_comm, <- tot_scal. apply tot_ext. intros k _. ring. }
  rewrite tot_swap. apply tot_ext. intros k Hk. rewrite Rmult_comm, <- tot_scal. apply tot_ext. intros l Hl. rewrite (H k l Hk Hl). ring.
Qed.
Lemma noise_nonneg ip dt b : 0 <= dt -> 0 <= noise ip dt b.
Proof.
  intros H. unfold noise.
  assert (S : forall v, 0 <= dt * v * v) by (intros v; rewrite Rmult_assoc; apply Rmult_le_pos; [exact H|apply Rle_0_sqr]).
  assert (D : 0 <= 1 / 2 * dt * dt) by nra.
  destruct b as [|[|[|[|b]]]]; auto. apply Rmult_le_pos; auto.
Qed.
Definition live (ip : imu_params) : Prop := ip_sigma_a ip <> 0 /\ ip_sigma_g ip <> 0 /\ ip_sigma_aw ip <> 0 /\ ip_sigma_gw ip <> 0.
Lemma noise_pos ip dt b : live ip -> 0 < dt -> 0 < noise ip dt b.
Proof.
  intros (A & B & C & D) H. unfold noise.
  assert (S : forall v, v <> 0 -> 0 < dt * v * v) by (intros v Hv; rewrite Rmult_assoc; apply Rmult_lt_0_compat; [exact H|apply Rsqr_pos_lt; exact Hv]).
  assert (E : 0 < 1 / 2 * dt * dt) by nra.
  destruct b as [|[|[|[|b]]]]; auto. apply Rmult_lt_0_compat; auto.
Qed.
Lemma quad_diag P d x : quadratic (fun i j => P i j + (if Nat.eqb i j then d i else 0)) x = quadratic P x + total 15 (fun i => d i * (x i * x i)).
Proof.
  unfold quadratic. rewrite <- tot_plus. apply tot_ext. intros i Hi.
  transitivity (total 15 (fun j => x i * P i j * x j) + total 15 (fun j => if Nat.eqb i j then d i * (x i * x i) else 0)).
  - rewrite <- tot_plus. apply tot_ext. intros j _. destruct (Nat.eqb_spec i j) as [->|]; ring.
  - f_equal. generalize (d i * (x i * x i)) as c. intros c. clear - Hi. revert Hi. generalize 15%nat as n. induction n as [|n IH]; intros Hi; [lia|].
    cbn [total]. destruct (Nat.eqb_spec i n) as [->|N].
    + rewrite (tot_ext n _ (fun _ => 0)); [rewrite tot_0; ring|]. intros j Hj. destruct (Nat.eqb_spec n j); [lia|reflexivity].
    + rewrite IH by lia. ring.
Qed.
Lemma run_cov redo ip bg ba l p r t0 t1 : l = p :: r -> rising l -> (fst p <= t0)%Z -> (t1 <= back_of p r)%Z -> (t0 < t1)%Z ->
  let P := e_P (fst (lloop redo ip bg ba t1 p r (pint0 t0))) in symmetric15 P /\ psd15 P /\ (live ip -> pd15 P).
Proof.
  intros -> Hr Hp Hb Ht.
  destruct (loop_ind redo ip bg ba t1 (fun s => symmetric15 (e_P s) /\ psd15 (e_P s) /\ (e_started s = true -> live ip -> pd15 (e_P s))) t0 (p :: r) Ht)
    with (l := r) (p := p) (s := pint0 t0) as ((A & A1 & A2) & B & _ & _ & C); auto; cbn [pint0 e_P e_ts e_started]; try congruence.
  - intros p' n s Ad Hpn (J1 & J2 & J3) H0 H1 Hlt.
    rewrite body_step by exact Hlt. unfold imu_step. cbn [e_P e_started]. set (F := f_delta _ _ _ _ _ _ _). clearbody F.
    set (dt := secs _). assert (Hdt : 0 < dt) by (apply secs_pos; lia). clearbody dt.
    assert (Q : forall x, quadratic (fun i j => mul15 (mul15 F (e_P s)) (tr15 F) i j + (if Nat.eqb i j then noise ip dt (i / 3) else 0)) x
       = quadratic (e_P s) (fun k => total 15 (fun i => F i k * x i)) + total 15 (fun i => noise ip dt (i / 3) * (x i * x i))).
    { intros x. rewrite (quad_diag (mul15 (mul15 F (e_P s)) (tr15 F)) (fun i => noise ip dt (i / 3))), quad_congr. reflexivity. }
    split; [|split].
    + intros i j Hi Hj. rewrite (sym_congr F (e_P s) J1 i j Hi Hj), (Nat.eqb_sym i j).
      destruct (Nat.eqb_spec j i) as [->|]; reflexivity.
    + intros x. rewrite Q. pose proof (J2 (fun k => total 15 (fun i => F i k * x i))).
      assert (0 <= total 15 (fun i => noise ip dt (i / 3) * (x i * x i))); [|lra].
      apply tot_nonneg. intros i _. apply Rmult_le_pos; [apply noise_nonneg; lra|apply Rle_0_sqr].
    + intros _ HL x (i & Hi & Hx). rewrite Q. pose proof (J2 (fun k => total 15 (fun i => F i k * x i))).
      assert (0 < total 15 (fun i => noise ip dt (i / 3) * (x i * x i))); [|lra].
      apply (tot_pos 15 _ i); auto.
      * intros j _. apply Rmult_le_pos; [apply noise_nonneg; lra|apply Rle_0_sqr].
      * apply Rmult_lt_0_compat; [apply noise_pos; auto|apply Rsqr_pos_lt; exact Hx].
  - split; [|split; [|congruence]].
    + intros i j _ _. reflexivity.
    + intros x. right. unfold quadratic, zero15. symmetry. rewrite (tot_ext 15 _ (fun _ => 0)); [apply tot_0|].
      intros i _. rewrite (tot_ext 15 _ (fun _ => 0)); [apply tot_0|]. intros j _. ring.
Qed.
(** The covariance of the propagated state is symmetric and positive semidefinite, and positive definite when all
    four noise densities are non-zero. *)
Theorem C82_covariance : forall l ip T x t0 t1, rising l -> covers l t0 t1 -> (t0 < t1)%Z -> Rigid T ->
  exists o, propagation (buffer l) ip T x t0 t1 = Ret o /\ symmetric15 (po_cov o) /\ psd15 (po_cov o) /\ (live ip -> pd15 (po_cov o)).
Proof.
  intros l ip T x t0 t1 Hr Hc Ht HT. destruct (prop_run l ip T x t0 t1 Hc) as (p & r & El & Hp & Hb & E).
  eexists. split; [exact E|]. cbn [po_cov].
  destruct (run_cov false ip (sb_bg x) (sb_ba x) l p r t0 t1 El Hr Hp Hb Ht) as (A & B & C).
  set (s := fst (lloop _ _ _ _ _ _ _ _)) in *. clearbody s. unfold out_covariance. cbv zeta.
  set (M := blocks15 _).
  split; [apply sym_congr; exact A|]. split; [intros y; rewrite quad_congr; apply B|].
  intros HL y (i & Hi & Hy). rewrite quad_congr. apply (C HL).
  (* M' y is not zero *)
  destruct (rigid_parts T HT) as [[R1 R2] _]. pose proof (orth_right _ R1 R2) as R3.
  assert (Inj : forall a b c : R, mapp (mtr (tf_rot T)) (V3 a b c) = V3 0 0 0 -> a = 0 /\ b = 0 /\ c = 0).
  { intros a b c H. apply (f_equal (mapp (tf_rot T))) in H. rewrite <- mapp_mmul, R3, mapp_I in H.
    assert (Z : mapp (tf_rot T) (V3 0 0 0) = V3 0 0 0) by (mat_eq; ring). rewrite Z in H. injection H. auto. }
  assert (Dec : forall k, total 15 (fun i => M i k * y i) = 0 \/ total 15 (fun i => M i k * y i) <> 0) by (intros k; lra).
  destruct (Classical_Prop.classic (exists k, (k < 15)%nat /\ total 15 (fun i => M i k * y i) <> 0)) as [|N]; [assumption|exfalso].
  assert (Z : forall k, (k < 15)%nat -> total 15 (fun i => M i k * y i) = 0).
  { intros k Hk. destruct (Dec k) as [|D]; [assumption|]. exfalso. apply N. eauto. }
  assert (I0 : y 0%nat = 0 /\ y 1%nat = 0 /\ y 2%nat = 0).
  { apply Inj. pose proof (Z 0%nat ltac:(lia)) as K0. pose proof (Z 1%nat ltac:(lia)) as K1. pose proof (Z 2%nat ltac:(lia)) as K2.
    unfold M, blocks15 in K0, K1, K2. cbn in K0, K1, K2. unfold mapp, mtr, tf_rot. cbn. f_equal; lra. }
  assert (I1 : y 3%nat = 0 /\ y 4%nat = 0 /\ y 5%nat = 0).
  { apply Inj. pose proof (Z 3%nat ltac:(lia)) as K0. pose proof (Z 4%nat ltac:(lia)) as K1. pose proof (Z 5%nat ltac:(lia)) as K2.
    unfold M, blocks15 in K0, K1, K2. cbn in K0, K1, K2. unfold mapp, mtr, tf_rot. cbn. f_equal; lra. }
  assert (I2 : y 6%nat = 0 /\ y 7%nat = 0 /\ y 8%nat = 0).
  { apply Inj. pose proof (Z 6%nat ltac:(lia)) as K0. pose proof (Z 7%nat ltac:(lia)) as K1. pose proof (Z 8%nat ltac:(lia)) as K2.
    unfold M, blocks15 in K0, K1, K2. cbn in K0, K1, K2. unfold mapp, mtr, tf_rot. cbn. f_equal; lra. }
  assert (I3 : forall k, (9 <= k < 15)%nat -> y k = 0).
  { intros k Hk. assert (K : k = 9%nat \/ k = 10%nat \/ k = 11%nat \/ k = 12%nat \/ k = 13%nat \/ k = 14%nat) by lia.
    pose proof (Z k ltac:(lia)) as K0. unfold M, blocks15 in K0.
    destruct K as [->|[->|[->|[->|[->| ->]]]]]; cbn in K0; lra. }
  apply Hy. destruct (Nat.lt_ge_cases i 9) as [G|G]; [|apply I3; lia].
  assert (K : i = 0%nat \/ i = 1%nat \/ i = 2%nat \/ i = 3%nat \/ i = 4%nat \/ i = 5%nat \/ i = 6%nat \/ i = 7%nat \/ i = 8%nat) by lia.
  destruct I0 as (?&?&?), I1 as (?&?&?), I2 as (?&?&?).
  destruct K as [->|[->|[->|[->|[->|[->|[->|[->| ->]]]]]]]]; assumption.
Qed.
