(** * C91: the speed and bias block has one meaning *)
From Verif Require Import Base.
From Coq Require Import Reals Lra Lia ZArith.
From Coquelicot Require Import Coquelicot.
From Verif Require Import GeomModel GeomSpec GeomProofs ImuModel PreintModel PreintSpec PreintProofs ResidualProofs Prop_Geom Prop_Preint Prop_Preint2.
From Verif Require Import ViModel TimeModel Prop_Time SbModel.
Local Open Scope R_scope.

Lemma seg_new v ba bg : seg3 0 (sb_new v ba bg) = v /\ seg3 3 (sb_new v ba bg) = ba /\ seg3 6 (sb_new v ba bg) = bg.
Proof. destruct v, ba, bg. repeat split. Qed.

(** ** Saving and loading *)
Lemma seg_9 l : length l = 9%nat -> (of_vec (seg3 0 l) ++ of_vec (seg3 3 l) ++ of_vec (seg3 6 l))%list = l.
Proof. intros H. do 9 (destruct l as [|? l]; [discriminate|]). destruct l; [reflexivity|discriminate]. Qed.
(** Whatever was estimated, results saved and loaded again for the same views give back every velocity and bias, as
    precisely as they were printed (six decimals). *)
Theorem C91_save_load : forall fmt vs vs', (forall x, Rabs (fmt x - x) <= 5 / 10 ^ 7) -> NoDup (map fst vs) ->
  (forall v, In v vs -> is_int64 (fst v) /\ length (snd v) = 9%nat) -> map fst vs' = map fst vs ->
  exists rows t, sb_rows fmt vs = Ret rows /\ sb_table rows = Ret t /\
    List.Forall2 (fun old new => fst new = fst old /\
      List.Forall2 (fun x y => Rabs (y - x) <= 5 / 10 ^ 7) (snd old) (snd new)) vs (sb_load t vs').
Proof.
  intros fmt vs vs' Hf Hn Hv E.
  assert (K : exists rows t, sb_rows fmt vs = Ret rows /\ sb_table rows = Ret t /\ t = map (fun v => (fst v, map fmt (snd v))) vs).
  { clear E Hn vs'. induction vs as [|[ts l] vs IH].
    - exists nil, nil. auto.
    - destruct IH as (rows & t & E1 & E2 & E3); [intros; apply Hv; right; auto|].
      destruct (Hv (ts, l) (or_introl eq_refl)) as (Ht & Hl). cbn [fst snd] in *.
      destruct (C33_round_trip ts Ht) as (sec & nsec & D1 & D2).
      eexists _, _. cbn [sb_rows]. unfold sb_row. rewrite D1. cbn [obind fst snd]. rewrite E1. cbn [obind]. split; [reflexivity|].
      cbn [sb_table]. rewrite D2. cbn [obind]. rewrite E2. cbn [obind]. split; [reflexivity|]. cbn [map fst snd]. rewrite E3. f_equal. f_equal.
      unfold sb_vel, sb_acc_bias, sb_gyr_bias. rewrite (seg_9 l Hl). apply seg_9. rewrite map_length. exact Hl. }
  destruct K as (rows & t & E1 & E2 & E3). exists rows, t. split; [exact E1|]. split; [exact E2|]. clear E1 E2 rows.
  assert (L : forall v, In v vs -> sb_lookup t (fst v) = Some (map fmt (snd v))).
  { subst t. clear -Hn. induction vs as [|u vs IH]; intros v Hv; [destruct Hv|]. inversion Hn; subst. cbn [map sb_lookup fst snd].
    destruct Hv as [ <- |Hv].
    - replace (sb_lookup (map (fun v => (fst v, map fmt (snd v))) vs) (fst u)) with (@None (list R)).
      + rewrite Z.eqb_refl. reflexivity.
      + symmetry. clear -H1. induction vs as [|w vs IH]; [reflexivity|]. cbn [map sb_lookup fst snd]. rewrite IH by (intros H; apply H1; right; auto).
        destruct (fst w =? fst u)%Z eqn:Ew; [|reflexivity]. apply Z.eqb_eq in Ew. exfalso. apply H1. left. auto.
    - rewrite (IH H2 v Hv). reflexivity. }
  clear E3. revert vs' E L. induction vs as [|u vs IH]; intros [|u' vs'] E L; try discriminate; [constructor|].
  cbn [map] in E. injection E as Eu E. cbn [sb_load map]. constructor.
  - cbn [fst snd]. split; [exact Eu|]. rewrite Eu, (L u (or_introl eq_refl)).
    induction (snd u) as [|x l IHl]; constructor; auto.
  - inversion Hn; subst. apply IH; auto; intros; [apply Hv|apply L]; right; auto.
Qed.
(** Loading: a view gets the values of the last row with its stamp, and a view without a row keeps its own. *)
Theorem C91_load : forall t vs ts l, In (ts, l) vs ->
  ((forall x, ~ In (ts, x) t) -> In (ts, l) (sb_load t vs)) /\
  (forall t1 x t2, t = (t1 ++ (ts, x) :: t2)%list -> (forall y, ~ In (ts, y) t2) -> In (ts, x) (sb_load t vs)).
Proof.
  intros t vs ts l H.
  assert (N : forall t, (forall x, ~ In (ts, x) t) -> sb_lookup t ts = None).
  { induction t0 as [|[u x] r IH]; intros K; [reflexivity|]. cbn [sb_lookup]. rewrite IH by (intros y Hy; apply (K y); right; exact Hy).
    destruct (u =? ts)%Z eqn:E; [|reflexivity]. apply Z.eqb_eq in E. subst u. exfalso. apply (K x). left. reflexivity. }
  split.
  - intros K. apply in_map_iff. exists (ts, l). cbn [fst snd]. rewrite (N t K). auto.
  - intros t1 x t2 -> K. apply in_map_iff. exists (ts, l). cbn [fst snd]. split; [|exact H]. f_equal.
    assert (E : sb_lookup (t1 ++ (ts, x) :: t2) ts = Some x); [|rewrite E; reflexivity].
    induction t1 as [|[u y] t1 IH]; cbn [app sb_lookup]; [rewrite (N t2 K), Z.eqb_refl; reflexivity|]. rewrite IH. reflexivity.
Qed.
(** Constructor, accessors and file agree on the order velocity, accelerometer bias, gyroscope bias. *)
Theorem C91_accessors : forall v ba bg, sb_vel (sb_new v ba bg) = v /\ sb_acc_bias (sb_new v ba bg) = ba /\ sb_gyr_bias (sb_new v ba bg) = bg.
Proof. apply seg_new. Qed.

(** ** The IMU residual *)
(** A sensor with accelerometer bias [ba] and gyroscope bias [bg] that moves without turning under a constant force:
    the residual is zero for blocks in which the two biases are exchanged, so a converged calibration reports the
    gyroscope's bias as the accelerometer's and the reverse. *)
Theorem C91_exchanged_refuted : forall l ip t0 t1 td x0 x1 v0 v1 ba bg f, rising l -> covers l (t0 + td) (t1 + td) -> (t0 < t1)%Z ->
  unitq (p_q x0) -> unitq (p_q x1) -> (forall s, In s l -> snd (snd s) = bg /\ fst (snd s) = vadd ba f) ->
  let Dt := time_of (t1 - t0) in let a := vsub (mapp (to_rot (p_q x0)) f) (V3 0 0 (ip_g ip)) in
  p_r x1 = vadd (p_r x0) (vadd (vscale Dt v0) (vscale (Dt * Dt / 2) a)) -> to_rot (p_q x1) = to_rot (p_q x0) -> v1 = vadd v0 (vscale Dt a) ->
  exists b0 b1 e, imu_evaluate (buffer l) ip t0 t1 td x0 x1 (sb_residual b0) (sb_residual b1) = Ret e /\ zero_error e /\
    sb_vel b0 = v0 /\ sb_vel b1 = v1 /\ sb_acc_bias b0 = bg /\ sb_gyr_bias b0 = ba /\ sb_acc_bias b1 = bg /\ sb_gyr_bias b1 = ba.
Proof.
  intros l ip t0 t1 td x0 x1 v0 v1 ba bg f Hr Hc Ht U0 U1 Hs Dt a Hp Hq Hv.
  destruct (seg_new v0 bg ba) as (A0 & A1 & A2). destruct (seg_new v1 bg ba) as (B0 & B1 & B2).
  assert (R0 : sb_residual (sb_new v0 bg ba) = Sb v0 bg ba) by (unfold sb_residual; rewrite A0, A1, A2; reflexivity).
  assert (R1 : sb_residual (sb_new v1 bg ba) = Sb v1 bg ba) by (unfold sb_residual; rewrite B0, B1, B2; reflexivity).
  destruct (C83_straight l ip t0 t1 td x0 x1 (Sb v0 bg ba) (Sb v1 bg ba) f Hr Hc Ht U0 U1 Hs) as (e & Ee & He).
  exists (sb_new v0 bg ba), (sb_new v1 bg ba), e. rewrite R0, R1. split; [exact Ee|]. split; [apply He; cbn [sb_v sb_bg sb_ba]; auto|].
  unfold sb_vel, sb_acc_bias, sb_gyr_bias. repeat split; assumption.
Qed.
Lemma rod_not_id u th : vdot u u = 1 -> 0 < th < 2 * PI -> rodrigues u th <> I3.
Proof.
  intros U H E. assert (C : 2 * cos th = 2).
  { pose proof (f_equal (fun m => m00 m + m11 m + m22 m) E) as T. unfold rodrigues in T. destruct u as [x y z]. cbn in T. unfold vdot in U. cbn in U.
    nra. }
  assert (Sp : 0 < sin (th / 2)) by (apply sin_gt_0; lra).
  pose proof (cos_2a_sin (th / 2)) as D. replace (2 * (th / 2)) with th in D by field. nra.
Qed.
(** With the true biases in the block, as the constructor takes them, the residual of the true states of a sensor at
    rest is not zero as soon as the biases differ (by less than a full turn over the window). *)
Theorem C91_true_biases_refuted : forall l ip t0 t1 td x v ba bg u rate, rising l -> covers l (t0 + td) (t1 + td) -> touched l (t0 + td) (t1 + td) ->
  (t0 < t1)%Z -> unitq (p_q x) -> vdot u u = 1 -> vsub bg ba = vscale rate u -> (forall s, In s l -> snd (snd s) = bg) ->
  0 < rate * time_of (t1 - t0) < 2 * PI -> coarse l (t0 + td) (t1 + td) (fun _ => rate) ->
  exists e, imu_evaluate (buffer l) ip t0 t1 td x x (sb_residual (sb_new v ba bg)) (sb_residual (sb_new v ba bg)) = Ret e /\ ~ zero_error e.
Proof.
  intros l ip t0 t1 td x v ba bg u rate Hr Hc Hto Ht U Uu Hd Hs Hrate Hco.
  destruct (seg_new v ba bg) as (A0 & A1 & A2).
  assert (R0 : sb_residual (sb_new v ba bg) = Sb v ba bg) by (unfold sb_residual; rewrite A0, A1, A2; reflexivity). rewrite R0.
  destruct (C83_rotation_partial l ip t0 t1 td x x (Sb v ba bg) (Sb v ba bg) u (fun _ => rate) Hr Hc Ht U U Uu) as (e & Ee & He); auto.
  - split; [|intros p n _ s _; ring]. intros s Hin. rewrite (Hs s Hin). cbn [sb_bg].
    rewrite <- Hd. destruct bg, ba. unfold vadd, vsub. cbn. f_equal; ring.
  - exists e. split; [exact Ee|]. intros (_ & Z & _). apply He in Z.
    assert (Eth : RInt (fun _ : R => rate) (time_of (t0 + td)) (time_of (t1 + td)) = rate * time_of (t1 - t0)).
    { rewrite RInt_const. unfold scal; cbn; unfold mult; cbn. unfold time_of. rewrite !plus_IZR, minus_IZR. field. }
    rewrite Eth in Z. apply (rod_not_id u (rate * time_of (t1 - t0)) Uu Hrate).
    assert (Ro := proj1 (to_rot_orth (p_q x) U)).
    assert (Z' : mmul (mtr (to_rot (p_q x))) (to_rot (p_q x)) = mmul (mtr (to_rot (p_q x))) (mmul (to_rot (p_q x)) (rodrigues u (rate * time_of (t1 - t0))))) by (rewrite <- Z; reflexivity).
    rewrite <- mmul_assoc, !Ro, mmul_I_l in Z'. symmetry. exact Z'.
Qed.

(** ** Concrete cases *)
Definition still : list sample := (0%Z, (V3 (1 / 10) 0 (981 / 100), V3 0 0 1)) :: (1000000000%Z, (V3 (1 / 10) 0 (981 / 100), V3 0 0 1)) :: nil.
Definition at_origin : pose := P vzero (Q 1 0 0 0).
(** a sensor at rest, accelerometer bias (0.1, 0, 0), gyroscope bias (0, 0, 1) *)
Example C91_exchanged_example : rising still /\ covers still (0 + 0) (1000000000 + 0) /\ unitq (p_q at_origin) /\
  (forall s, In s still -> snd (snd s) = V3 0 0 1 /\ fst (snd s) = vadd (V3 (1 / 10) 0 0) (V3 0 0 (981 / 100))) /\
  let a := vsub (mapp (to_rot (p_q at_origin)) (V3 0 0 (981 / 100))) (V3 0 0 (981 / 100)) in
  p_r at_origin = vadd (p_r at_origin) (vadd (vscale (time_of (1000000000 - 0)) vzero) (vscale (time_of (1000000000 - 0) * time_of (1000000000 - 0) / 2) a)).
Proof.
  split; [cbn; lia|]. split; [eexists _, _; split; [reflexivity|split; [reflexivity|cbn; lia]]|]. split; [unfold unitq, qnorm2, at_origin; cbn; ring|]. split.
  - intros s [ <- |[ <- |[]]]; cbn; split; auto; unfold vadd; cbn; f_equal; lra.
  - cbv zeta. unfold at_origin, vzero, time_of. mat_eq; field.
Qed.
Example C91_true_biases_example : exists e,
  imu_evaluate (buffer still) (ImuParams 1 1 1 1 (981 / 100)) 0 1000000000 0 at_origin at_origin
    (sb_residual (sb_new vzero vzero (V3 0 0 1))) (sb_residual (sb_new vzero vzero (V3 0 0 1))) = Ret e /\ ~ zero_error e.
Proof.
  apply (C91_true_biases_refuted still (ImuParams 1 1 1 1 (981 / 100)) 0 1000000000 0 at_origin vzero vzero (V3 0 0 1) (V3 0 0 1) 1).
  - cbn; lia.
  - eexists _, _; split; [reflexivity|split; [reflexivity|cbn; lia]].
  - eexists. split; [left; reflexivity|]. cbn. lia.
  - lia.
  - unfold unitq, qnorm2, at_origin; cbn; ring.
  - unfold vdot; cbn; ring.
  - unfold vzero. mat_eq; ring.
  - intros s [ <- |[ <- |[]]]; reflexivity.
  - unfold time_of. replace (1 * (IZR (1000000000 - 0) / 10 ^ 9)) with 1 by (cbn; field). pose proof PI2_1. lra.
  - intros p n A Hs. cbv zeta. right.
    inversion A as [? ? ? E1|? ? ? ? A']; subst; [|inversion A' as [|? ? ? ? A'']; inversion A''].
    change (2 / 10 ^ 6 < Rabs (RInt (fun _ : R => 1) (time_of 0) (time_of 1000000000))).
    rewrite RInt_const. change (scal (time_of 1000000000 - time_of 0) 1) with ((time_of 1000000000 - time_of 0) * 1).
    replace ((time_of 1000000000 - time_of 0) * 1) with 1 by (unfold time_of; field). rewrite Rabs_R1. lra.
Qed.
Print Assumptions C91_save_load.
Print Assumptions C91_exchanged_refuted.
Print Assumptions C91_true_biases_refuted.
