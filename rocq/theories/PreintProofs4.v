(** Facts behind the IMU residual's Jacobians: moving rotations, the accelerometer bias, the two integrations. *)
From Coq Require Import Reals Lra Lia Psatz.
From Verif Require Import Base GeomModel GeomSpec GeomProofs ImuModel PreintModel PreintSpec PreintProofs PreintProofs2 CtrajModel CtrajProofs Prop_Interp Prop_Geom2 CalcSpec ResidualProofs PreintProofs3 Prop_ResidualPrior Prop_Camera2.
From Coquelicot Require Import Coquelicot.
Local Open Scope R_scope.

Lemma of_rot_pos C : IsRot C -> 0 < trace C -> 0 < qw (of_rot C) /\ trace C + 1 = (2 * qw (of_rot C)) * (2 * qw (of_rot C)).
Proof.
  intros _ H. unfold of_rot. fold (trace C). destruct Rlt_dec; [|contradiction]. cbn [qw].
  pose proof (sqrt_lt_R0 (trace C + 1) ltac:(lra)).
  split; [lra|]. replace (2 * (/ 2 * sqrt (trace C + 1))) with (sqrt (trace C + 1)) by field.
  rewrite sqrt_sqrt; lra.
Qed.
Lemma sqrt_d (f : R -> R) (a s : R) : is_derive f 0 a -> 0 < s -> f 0 = s * s -> is_derive (fun t => sqrt (f t)) 0 (a / (2 * s)).
Proof.
  intros D Hs E. assert (S : sqrt (f 0) = s) by (rewrite E; apply sqrt_square; lra).
  eapply d_eq; [apply (is_derive_comp sqrt f); [auto_derive; [rewrite E; nra|reflexivity]|exact D]|].
  unfold scal; cbn; unfold mult; cbn. rewrite S. field. lra.
Qed.
Lemma of_rot_move (M : R -> mat3) a : IsRot (M 0) -> 0 < trace (M 0) -> dm M 0 (mmul (skew a) (M 0)) ->
  dq (fun t => of_rot (M t)) 0 (half_qmul a (of_rot (M 0))).
Proof.
  intros OM HT DM. destruct (of_rot_pos _ OM HT) as [WP WT].
  destruct OM as [OA OB]. destruct (to_rot_of_rot _ OA OB) as [RQ UQ].
  set (q := of_rot (M 0)) in *.
  assert (DT : is_derive (fun t => trace (M t) + 1) 0 (trace (mmul (skew a) (M 0)))).
  { destruct DM as ((?&?&?)&(?&?&?)&(?&?&?)). unfold trace. eapply d_eq; [repeat dstep|]. apply Rplus_0_r. }
  assert (LP : locally 0 (fun t : R => 0 < trace (M t))).
  { apply filter_imp with (fun t : R => 0 < (trace (M t) + 1) + -1).
    - intros t Ht. lra.
    - apply near_pos; [|cbn beta; lra]. eapply d_cont. apply d_plus; [exact DT|apply d_const]. }
  assert (LE : locally 0 (fun t : R => of_rot (M t) =
     let s := sqrt (trace (M t) + 1) in let k := / 2 / s in
     Q (/ 2 * s) ((m21 (M t) - m12 (M t)) * k) ((m02 (M t) - m20 (M t)) * k) ((m10 (M t) - m01 (M t)) * k))).
  { apply filter_imp with (2 := LP). intros t Ht.
    unfold of_rot. fold (trace (M t)). destruct Rlt_dec; [|contradiction]. reflexivity. }
  pose proof (inv_sqrt_d (fun t => trace (M t) + 1) _ (2 * qw q) DT ltac:(lra) WT) as DK.
  pose proof (sqrt_d (fun t => trace (M t) + 1) _ (2 * qw q) DT ltac:(lra) WT) as DS.
  assert (KV : / 2 / sqrt (trace (M 0) + 1) = / (4 * qw q)).
  { rewrite WT, sqrt_square by lra. field. lra. }
  eapply dq_ext_loc; [exact LE|]. cbv zeta.
  destruct DM as ((D00&D01&D02)&(D10&D11&D12)&(D20&D21&D22)).
  clearbody q.
  destruct q as [w x y z]. cbn [qw] in *. unfold qnorm2 in UQ. cbn [qw qx qy qz] in UQ. destruct a as [X Y Z].
  split; split; cbn [qw qx qy qz].
  - eapply d_eq; [apply d_scal, DS|]. rewrite <- RQ. unfold trace, half_qmul, mmul, skew, to_rot, qscale, qmul; cbn. field. lra.
  - eapply d_eq; [apply d_mult; [apply d_minus; eassumption|exact DK]|]. cbn beta. rewrite KV, <- RQ.
    unfold trace, half_qmul, mmul, skew, to_rot, qscale, qmul; cbn. apply Rminus_diag_uniq.
    transitivity (- X / (2 * w) * (w * w + x * x + y * y + z * z - 1)); [field; lra|rewrite UQ; field; lra].
  - eapply d_eq; [apply d_mult; [apply d_minus; eassumption|exact DK]|]. cbn beta. rewrite KV, <- RQ.
    unfold trace, half_qmul, mmul, skew, to_rot, qscale, qmul; cbn. apply Rminus_diag_uniq.
    transitivity (- Y / (2 * w) * (w * w + x * x + y * y + z * z - 1)); [field; lra|rewrite UQ; field; lra].
  - eapply d_eq; [apply d_mult; [apply d_minus; eassumption|exact DK]|]. cbn beta. rewrite KV, <- RQ.
    unfold trace, half_qmul, mmul, skew, to_rot, qscale, qmul; cbn. apply Rminus_diag_uniq.
    transitivity (- Z / (2 * w) * (w * w + x * x + y * y + z * z - 1)); [field; lra|rewrite UQ; field; lra].
Qed.
Lemma qinverse_d (q : R -> quat) q' : unitq (q 0) -> dq q 0 q' ->
  qw (q 0) * qw q' + qx (q 0) * qx q' + qy (q 0) * qy q' + qz (q 0) * qz q' = 0 ->
  dq (fun t => qinverse (q t)) 0 (qconj q').
Proof.
  intros U D T. assert (D' := D). destruct D' as ((Dw&Dx)&(Dy&Dz)).
  assert (DN : is_derive (fun t => qnorm2 (q t)) 0 0).
  { unfold qnorm2. eapply d_eq; [repeat dstep|]. cbn beta. lra. }
  assert (N0 : qnorm2 (q 0) = 1) by exact U.
  assert (LP : locally 0 (fun t : R => 0 < qnorm2 (q t))).
  { apply near_pos; [eapply d_cont; exact DN|cbn beta; lra]. }
  assert (DI : is_derive (fun t => / qnorm2 (q t)) 0 0).
  { eapply d_eq; [apply (is_derive_inv (fun t => qnorm2 (q t)) 0 0 DN); lra|]. rewrite N0. field. }
  eapply dq_ext_loc; [apply filter_imp with (2 := LP); intros t Ht; unfold qinverse; destruct Rlt_dec; [reflexivity|contradiction]|].
  unfold qscale, qconj. split; split; cbn [qw qx qy qz].
  - eapply d_eq; [apply d_mult; [exact DI|exact Dw]|]. cbn beta. rewrite N0. field.
  - eapply d_eq; [apply d_mult; [exact DI|exact (is_derive_opp _ _ _ Dx)]|]. cbn beta. rewrite N0. unfold opp; cbn. field.
  - eapply d_eq; [apply d_mult; [exact DI|exact (is_derive_opp _ _ _ Dy)]|]. cbn beta. rewrite N0. unfold opp; cbn. field.
  - eapply d_eq; [apply d_mult; [exact DI|exact (is_derive_opp _ _ _ Dz)]|]. cbn beta. rewrite N0. unfold opp; cbn. field.
Qed.
(** two runs over the same samples *)
Section Two.
Context (redo redo' : bool) (ip : imu_params) (bg ba ba' : vec3) (t0 t1 : Z) (l0 : list sample) (Rl : pint -> pint -> Prop).
Context (Hb : forall s s', Rl s s' -> e_ts s = e_ts s' /\ e_started s = e_started s').
Context (Hstep : forall dt w0 w1 a0 a1 t s s', Rl s s' ->
  Rl (imu_step redo ip bg ba dt w0 w1 a0 a1 t s) (imu_step redo' ip bg ba' dt w0 w1 a0 a1 t s')).
Context (Hst : redo = redo' \/ stamped l0 t0) (Hr : rising l0) (Ht : (t0 < t1)%Z).
Lemma two_runs : forall l p s s', (forall p' n', adjacent (p :: l) p' n' -> adjacent l0 p' n') ->
  Rl s s' -> (redo = redo' \/ (e_started s = false -> e_ts s = t0 /\ (fst p <= t0)%Z)) ->
  Rl (fst (lloop redo ip bg ba t1 p l s)) (fst (lloop redo' ip bg ba' t1 p l s')) /\
  snd (lloop redo ip bg ba t1 p l s) = snd (lloop redo' ip bg ba' t1 p l s').
Proof.
  induction l as [|n l IH]; intros p s s' Ha HR H0; [split; [exact HR|reflexivity]|].
  assert (Ad : adjacent l0 p n) by (apply Ha; constructor).
  assert (Ha' : forall p' n', adjacent (n :: l) p' n' -> adjacent l0 p' n') by (intros; apply Ha; constructor; assumption).
  destruct (adjacent_split _ _ _ Ad Hr) as [Hpn Sp].
  destruct (Hb s s' HR) as [E1 E2]. cbn [lloop].
  destruct (Z.lt_ge_cases (e_ts s) (Z.min (fst n) t1)) as [G|G].
  - pose proof (body_go redo ip bg ba t1 p n s G) as (A1 & A2 & _ & _ & A5).
    assert (G' : (e_ts s' < Z.min (fst n) t1)%Z) by lia.
    pose proof (body_go redo' ip bg ba' t1 p n s' G') as (_ & _ & _ & _ & B5).
    pose proof (body_step redo ip bg ba t1 p n s G) as C. pose proof (body_step redo' ip bg ba' t1 p n s' G') as C'.
    assert (Eq1 : forall f, read1 t1 f p n s = read1 t1 f p n s') by (intros f; unfold read1; rewrite E1; reflexivity).
    assert (Eq0 : forall f, read0 redo t1 f p n s = read0 redo' t1 f p n s').
    { intros f. unfold read0. rewrite <- E1, <- E2, Eq1. destruct (e_started s) eqn:St; [reflexivity|].
      assert (redo = redo' \/ e_ts s = fst p) as [->|K].
      - destruct H0 as [|H0]; [auto|]. destruct Hst as [|(q & Iq & Eq)]; [auto|]. right.
        destruct (H0 eq_refl). destruct (Sp q Iq); lia.
      - reflexivity.
      - rewrite K. destruct redo, redo'; reflexivity. }
    assert (HR' : Rl (fst (body redo ip bg ba t1 p n s)) (fst (body redo' ip bg ba' t1 p n s'))).
    { rewrite C, C', !Eq0, !Eq1, <- E1. apply Hstep. exact HR. }
    destruct (body redo ip bg ba t1 p n s) as [u st]. destruct (body redo' ip bg ba' t1 p n s') as [u' st'].
    cbn [fst snd] in *. subst st st'. destruct (t1 <=? fst n)%Z; [split; [exact HR'|reflexivity]|].
    apply IH; auto. destruct H0; [auto|]. right. congruence.
  - rewrite !body_skip by lia. apply IH; auto. destruct H0 as [|H0]; [auto|]. destruct Hst as [|(q & Iq & Eq)]; [auto|].
    right. intros E. destruct (H0 E). split; [assumption|]. lia.
Qed.
End Two.
(** another accelerometer bias *)
Definition shifted (d : vec3) (s s' : pint) : Prop :=
  (e_ts s = e_ts s' /\ e_started s = e_started s') /\ e_q s = e_q s' /\ e_C s = e_C s' /\ e_CC s = e_CC s' /\
  e_a s' = vsub (e_a s) (mapp (e_C s) d) /\ e_aa s' = vsub (e_aa s) (mapp (e_CC s) d).
Lemma run_shift redo ip bg ba d l0 p r t0 t1 : l0 = p :: r -> rising l0 -> (t0 < t1)%Z ->
  shifted d (fst (lloop redo ip bg ba t1 p r (pint0 t0))) (fst (lloop redo ip bg (vadd ba d) t1 p r (pint0 t0))) /\
  snd (lloop redo ip bg ba t1 p r (pint0 t0)) = snd (lloop redo ip bg (vadd ba d) t1 p r (pint0 t0)).
Proof.
  intros -> Hr Ht.
  apply (two_runs redo redo ip bg ba (vadd ba d) t0 t1 (p :: r) (shifted d)); auto.
  - intros s s' [H _]. exact H.
  - intros dt w0 w1 a0 a1 t s s' (_ & E1 & E2 & E3 & E4 & E5). unfold shifted, imu_step. cbn [e_q e_C e_CC e_a e_aa e_ts e_started].
    rewrite <- E1, <- E2, <- E3, E4, E5.
    set (C := to_rot (e_q s)). set (C1 := to_rot _). clearbody C C1.
    generalize (e_C s) (e_CC s) (e_a s) (e_aa s). intros M M2 v v2.
    split; [split; reflexivity|]. split; [reflexivity|]. split; [reflexivity|]. split; [reflexivity|].
    split; destruct d, ba, a0, a1; mat_eq; ring.
  - unfold shifted, pint0. cbn [e_q e_C e_CC e_a e_aa e_ts e_started]. unfold Z3, vzero. destruct d.
    split; [split; reflexivity|]. split; [reflexivity|]. split; [reflexivity|]. split; [reflexivity|]. split; mat_eq; ring.
Qed.
(** both integrations give the same increments when the window starts at a sample *)
Definition same_moves (s s' : pint) : Prop :=
  (e_ts s = e_ts s' /\ e_started s = e_started s') /\ e_q s = e_q s' /\ e_a s = e_a s' /\ e_aa s = e_aa s' /\ e_Dt s = e_Dt s'.
Lemma run_same ip bg ba l0 p r t0 t1 : l0 = p :: r -> rising l0 -> (t0 < t1)%Z -> (fst p <= t0)%Z -> stamped l0 t0 ->
  same_moves (fst (lloop true ip bg ba t1 p r (pint0 t0))) (fst (lloop false ip bg ba t1 p r (pint0 t0))).
Proof.
  intros -> Hr Ht Hp Hs.
  apply (two_runs true false ip bg ba ba t0 t1 (p :: r) same_moves); auto.
  - intros s s' [H _]. exact H.
  - intros dt w0 w1 a0 a1 t s s' (_ & E1 & E2 & E3 & E4). unfold same_moves, imu_step. cbn [e_q e_C e_CC e_a e_aa e_ts e_started e_Dt].
    rewrite E1, E2, E3, E4. auto 10.
  - unfold same_moves. auto 10.
Qed.
(** the residual's integration as a recursion over the samples *)
Lemma redo_eq p r ip x ta tb : redo_preintegration (buffer (p :: r)) ip x ta tb =
  let (s, stop) := lloop true ip (sb_bg x) (sb_ba x) tb p r (pint0 ta) in if stop then Ret s else Undef.
Proof. apply loop_redo. Qed.
Lemma evaluate_eq b ip t0 t1 td x0 x1 s0 s1 s : redo_preintegration b ip s0 (t0 + td) (t1 + td) = Ret s ->
  imu_evaluate b ip t0 t1 td x0 x1 s0 s1 = Ret (imu_err ip (secs (t1 - t0)) x0 x1 s0 s1 s).
Proof. intros E. unfold imu_evaluate. rewrite E. reflexivity. Qed.
Lemma loop_stops redo ip bg ba tb : forall l p s, l <> nil -> rising (p :: l) -> (tb <= back_of p l)%Z -> (e_ts s < tb)%Z ->
  (e_started s = true -> e_ts s = fst p) ->
  snd (lloop redo ip bg ba tb p l s) = true.
Proof.
  induction l as [|n l IH]; intros p s Hn Hr Hb Hlt Hs; [congruence|]. cbn [lloop]. destruct Hr as [H1 H2]. rewrite back_cons in Hb.
  destruct (Z.lt_ge_cases (e_ts s) (Z.min (fst n) tb)) as [G|G].
  - pose proof (body_go redo ip bg ba tb p n s G) as (E1 & E2 & _ & _ & E5).
    destruct (body redo ip bg ba tb p n s) as [s' st]. cbn [fst snd] in *. subst st.
    destruct (tb <=? fst n)%Z eqn:B; [reflexivity|]. apply Z.leb_gt in B. apply IH; auto; try lia.
    intros ->. unfold back_of in Hb. cbn in Hb. lia.
  - rewrite body_skip by lia. apply IH; auto.
    + intros ->. unfold back_of in Hb. cbn in Hb. lia.
    + intros E. specialize (Hs E). lia.
Qed.
