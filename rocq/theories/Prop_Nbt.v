(** * C71, C72: next-best-trajectory selection and time ranges *)
From Verif Require Import Base FloatModel FloatProofs TimeModel TimeProofs TimeProofs2 NbtModel.
From Coq Require Import Reals Lra Sorted.
From Flocq Require Import Core.Core IEEE754.BinarySingleNaN.
Open Scope Z_scope.

(** ** C71: selection *)
Local Open Scope R_scope.
Lemma log2_lt a b : 0 < a -> (log2 a < log2 b <-> ln a < ln b).
Proof.
  intros. assert (L : 0 < ln 2) by (rewrite <- ln_1; apply ln_increasing; lra). unfold log2. split; intros H0.
  - apply Rmult_lt_reg_r with (/ ln 2); auto. now apply Rinv_0_lt_compat.
  - apply Rmult_lt_compat_r; auto. now apply Rinv_0_lt_compat.
Qed.
Lemma log2_mono a b : 0 < a -> 0 < b -> (a < b <-> log2 a < log2 b).
Proof.
  intros Ha Hb. rewrite log2_lt by auto. split; [now apply ln_increasing|]. intros H. now apply ln_lt_inv.
Qed.
Lemma log2_le a b : 0 < a -> 0 < b -> (a <= b <-> log2 a <= log2 b).
Proof.
  intros Ha Hb. split; intros H; apply Rnot_lt_le; intros H1; [apply log2_mono in H1|apply (log2_mono b a) in H1]; auto; lra.
Qed.

(** what the loop computes *)
Lemma best_from_spec ik evals : forall idx best, 0 <= snd best ->
  let r := best_from ik evals idx best in
  (r = best /\ (forall e, In e evals -> / 2 * (ik - info_of e) <= snd best)) \/
  (exists j e, nth_error evals j = Some e /\ r = ((idx + Z.of_nat j)%Z, / 2 * (ik - info_of e)) /\ snd best < / 2 * (ik - info_of e) /\
     (forall e', In e' evals -> / 2 * (ik - info_of e') <= / 2 * (ik - info_of e)) /\
     (forall k e', (k < j)%nat -> nth_error evals k = Some e' -> / 2 * (ik - info_of e') < / 2 * (ik - info_of e))).
Proof.
  induction evals as [|e evals IH]; intros idx best Hb; cbn [best_from]; cbv zeta.
  - left. split; auto. intros e [].
  - set (g := / 2 * (ik - info_of e)). destruct (Rlt_dec (snd best) g) as [Hg|Hg].
    + destruct (IH (idx + 1)%Z (idx, g) ltac:(cbn [snd]; lra)) as [[E A]|(j & e' & N & E & L & A & B)]; cbn [snd] in *.
      * right. exists 0%nat, e. cbn [nth_error]. rewrite E. split; auto. split; [f_equal; lia|]. split; auto. split.
        { intros e' [ <- |Hi]; [fold g; lra|auto]. }
        { intros k e' Hk. lia. }
      * right. exists (Datatypes.S j), e'. cbn [nth_error]. rewrite E. split; auto. split; [f_equal; lia|]. split; [lra|]. split.
        { intros e2 [ <- |Hi]; [fold g; lra|auto]. }
        { intros [|k] e2 Hk N2; cbn in N2; [injection N2 as <-; exact L|]. apply (B k e2); auto. lia. }
    + destruct (IH (idx + 1)%Z best Hb) as [[E A]|(j & e' & N & E & L & A & B)].
      * left. split; auto. intros e' [ <- |Hi]; auto. fold g. lra.
      * right. exists (Datatypes.S j), e'. cbn [nth_error]. rewrite E. split; auto. split; [f_equal; lia|]. split; auto. split.
        { intros e2 [ <- |Hi]; [fold g; lra|auto]. }
        { intros [|k] e2 Hk N2; cbn in N2; [injection N2 as <-; fold g; lra|]. apply (B k e2); auto. lia. }
Qed.

(** When every evaluation succeeded, or the current covariance determinant is at most 1, nbt_find
    returns the first trajectory with the smallest covariance determinant if that is an
    improvement, and -1 if none improves; the reported numbers are the base 2 logarithms. *)
Theorem C71_best_partial : forall det_k evals, 0 < det_k -> (forall d, In (Some d) evals -> 0 < d) ->
  det_k <= 1 \/ ~ In None evals ->
  let '(best, info_k, info_kp1) := nbt_find det_k evals in
  info_k = ln det_k / ln 2 /\
  ((best = (-1)%Z /\ forall d, In (Some d) evals -> det_k <= d) \/
   (exists i d, best = Z.of_nat i /\ nth_error evals i = Some (Some d) /\ d < det_k /\ info_kp1 = ln d / ln 2 /\
      (forall d', In (Some d') evals -> d <= d') /\
      (forall j d', (j < i)%nat -> nth_error evals j = Some (Some d') -> d < d'))).
Proof.
  intros dk evals Hk Hp Hn. unfold nbt_find. cbv zeta. split; [reflexivity|].
  set (ik := log2 dk). pose proof (best_from_spec ik evals 0%Z ((-1)%Z, 0)) as S1. cbn [snd] in S1. specialize (S1 ltac:(lra)). cbv zeta in S1.
  destruct S1 as [[E A]|(j & e & N & E & L & A & B)]; rewrite E; cbn [fst].
  - left. split; auto. intros d Hd. specialize (A _ Hd). cbn [info_of] in A. apply log2_le; auto. fold ik. lra.
  - right. assert (He : In e evals) by (eapply nth_error_In; eauto).
    destruct e as [d|].
    + exists j, d. replace (0 + Z.of_nat j)%Z with (Z.of_nat j) by lia. split; auto. split; auto. cbn [info_of] in *.
      assert (Hd : 0 < d) by auto. split; [apply log2_mono; auto; fold ik; lra|].
      destruct (Z.ltb_spec (Z.of_nat j) 0); [lia|]. rewrite Nat2Z.id, N. split; [reflexivity|]. split.
      * intros d' Hd'. specialize (A _ Hd'). cbn [info_of] in A. apply log2_le; auto. lra.
      * intros k d' Hkj N2. specialize (B k _ Hkj N2). cbn [info_of] in B. apply log2_mono; auto; [|lra].
        apply Hp. eapply nth_error_In; eauto.
    + exfalso. destruct Hn as [Hn|Hn]; [|now apply Hn]. cbn [info_of] in L.
      assert (H : ik <= log2 1) by (apply (proj1 (log2_le dk 1 Hk Rlt_0_1)); exact Hn). unfold log2 at 1 in H. rewrite ln_1 in H. lra.
Qed.

(** A failed evaluation counts as a determinant of 1: with a larger current determinant the failed
    trajectory can be selected although another one was evaluated and improves. *)
Theorem C71_failed_refuted :
  fst (fst (nbt_find 4 [None; Some 2])) = 0%Z.
Proof.
  unfold nbt_find. cbv zeta. cbn [fst best_from snd info_of].
  assert (L : 0 < ln 2) by (rewrite <- ln_1; apply ln_increasing; lra).
  assert (L4 : log2 4 = 2) by (unfold log2; replace 4 with (2 * 2) by ring; rewrite ln_mult by lra; field; lra).
  assert (L2 : log2 2 = 1) by (unfold log2; field; lra). rewrite L4, L2.
  destruct (Rlt_dec 0 (/ 2 * (2 - 0))); [|lra]. cbn [snd]. destruct (Rlt_dec (/ 2 * (2 - 0)) (/ 2 * (2 - 1))); [lra|]. reflexivity.
Qed.
Example C71_example : exists i, fst (fst (nbt_find 1 [Some 2; Some (1 / 2)])) = i /\ i = 1%Z.
Proof.
  exists 1%Z. split; auto.
  pose proof (C71_best_partial 1 [Some 2; Some (1 / 2)] ltac:(lra)) as H.
  destruct (nbt_find 1 [Some 2; Some (1 / 2)]) as [[i a] b]. cbn [fst].
  destruct H as (_ & [[_ H]|(k & d & -> & N & Hd & _ & A & _)]).
  - intros d [E|[E|[]]]; injection E as <-; lra.
  - left; lra.
  - specialize (H (1 / 2) ltac:(cbn; auto)). lra.
  - destruct k as [|[|k]]; cbn in N; [injection N as <-; lra|reflexivity|destruct k; discriminate].
Qed.
Local Open Scope Z_scope.

(** ** C72: time ranges *)
Lemma dsub_R x y : is_finite x = true -> is_finite y = true ->
  (Rabs (B2R x - B2R y) <= 18446744073709551616)%R ->
  B2R (dsub x y) = rnd64 (B2R x - B2R y) /\ is_finite (dsub x y) = true.
Proof.
  intros Fx Fy H. unfold dsub.
  generalize (Bminus_correct 53 1024 _ _ mode_NE x y Fx Fy).
  change (round radix2 (SpecFloat.fexp 53 1024) (round_mode mode_NE) (B2R x - B2R y)) with (rnd64 (B2R x - B2R y)).
  rewrite Rlt_bool_true.
  - intros (A & B & _). auto.
  - apply Rle_lt_trans with (IZR 18446744073709551616).
    + apply rnd64_bnd; [apply H|apply big_gen].
    + apply Rle_lt_trans with (bpow radix2 64); [right; reflexivity|apply bpow_lt; lia].
Qed.
Lemma ts2sec_R ts : - two63 <= ts <= two63 ->
  B2R (ts2sec ts) = rnd64 (rnd64 (IZR ts) * c9) /\ is_finite (ts2sec ts) = true /\ (Rabs (B2R (ts2sec ts)) <= 9223372037)%R.
Proof.
  intros H. destruct (sec_analysis ts H) as (X & Y & EX & EY & HB & FB & A & B & C & P & N).
  unfold ts2sec. rewrite HB. split; [now rewrite EY, EX|]. split; auto.
  rewrite EY. apply rnd64_bnd; [|apply (gen_IZR 9223372037 0); lia].
  apply Rabs_le_inv in C. apply Rabs_le. unfold c9. lra.
Qed.
Lemma ts2sec_mono a b : - two63 <= a -> a <= b -> b <= two63 -> (B2R (ts2sec a) <= B2R (ts2sec b))%R.
Proof.
  intros Ha H Hb. destruct (ts2sec_R a ltac:(lia)) as (-> & _). destruct (ts2sec_R b ltac:(lia)) as (-> & _).
  apply rnd64_le, Rmult_le_compat_r; [unfold c9; lra|]. apply rnd64_le, IZR_le. auto.
Qed.
Lemma between_R s ts : - two63 <= s <= two63 -> - two63 <= ts <= two63 ->
  B2R (secs_between s ts) = rnd64 (B2R (ts2sec ts) - B2R (ts2sec s)) /\ is_finite (secs_between s ts) = true.
Proof.
  intros Hs Ht. destruct (ts2sec_R s Hs) as (_ & Fs & Bs). destruct (ts2sec_R ts Ht) as (_ & Ft & Bt).
  apply dsub_R; auto. apply Rabs_le_inv in Bs, Bt. apply Rabs_le. lra.
Qed.

(** Every query at a time stamp of [ts_start, ts_end] succeeds, in double precision arithmetic. *)
Theorem C72_in_range : forall ts_start ts_end ts,
  - 2 ^ 63 <= ts_start -> ts_start <= ts <= ts_end -> ts_end < 2 ^ 63 ->
  query_ok ts_start (secs_between ts_start ts_end) ts = true.
Proof.
  intros s e ts Hs Ht He. change (2 ^ 63) with two63 in *. unfold query_ok.
  destruct (between_R s ts ltac:(lia) ltac:(lia)) as [E1 F1]. destruct (between_R s e ltac:(lia) ltac:(lia)) as [E2 F2].
  assert (M1 : (0 <= B2R (secs_between s ts))%R).
  { rewrite E1, <- rnd64_0. apply rnd64_le. pose proof (ts2sec_mono s ts ltac:(lia) ltac:(lia) ltac:(lia)). lra. }
  assert (M2 : (B2R (secs_between s ts) <= B2R (secs_between s e))%R).
  { rewrite E1, E2. apply rnd64_le. pose proof (ts2sec_mono ts e ltac:(lia) ltac:(lia) ltac:(lia)). lra. }
  assert (Z0 : B2R dzero = 0%R /\ is_finite dzero = true).
  { destruct (dbl_of_Z_R 0 ltac:(lia)) as [A B]. split; [unfold dzero; rewrite A; apply rnd64_0|exact B]. }
  destruct Z0 as [Z0 ZF]. rewrite !Bltb_correct by auto. rewrite Z0.
  rewrite !Rlt_bool_false by lra. reflexivity.
Qed.

(** The loops handle exactly the time stamps ts_start + k dt <= ts_end, in order, and never throw,
    when the trajectory covers ts_end. *)
Fixpoint stamps (n : nat) (ts dt : Z) : list Z :=
  match n with O => [] | Datatypes.S m => ts :: stamps m (ts + dt) dt end.
Theorem C72_simulate : forall ts_start ts_end dt,
  - 2 ^ 63 <= ts_start <= ts_end -> ts_end < 2 ^ 63 -> 0 < dt ->
  exists l, simulate ts_start (secs_between ts_start ts_end) dt ts_end l (Ret tt) /\
    (forall l' r, simulate ts_start (secs_between ts_start ts_end) dt ts_end l' r -> l' = l /\ r = Ret tt) /\
    length l = Z.to_nat ((ts_end - ts_start) / dt + 1) /\
    (forall k, (k < length l)%nat -> nth_error l k = Some (ts_start + Z.of_nat k * dt)).
Proof.
  intros s e dt Hs He Hd. unfold simulate. set (T := secs_between s e).
  assert (K : forall ts, s <= ts <= e -> query_ok s T ts = true) by (intros; apply C72_in_range; lia).
  assert (G : forall n ts, n = Z.to_nat ((e - ts) / dt + 1) -> s <= ts ->
     sim_loop (query_ok s T) dt e ts (stamps n ts dt) (Ret tt) /\
     (forall l' r, sim_loop (query_ok s T) dt e ts l' r -> l' = stamps n ts dt /\ r = Ret tt)).
  { induction n as [|n IH]; intros ts Hn Hts.
    - assert (e < ts).
      { destruct (Z_lt_le_dec e ts); auto. exfalso. assert (0 <= (e - ts) / dt) by (apply Z.div_pos; lia). lia. }
      split; [constructor; lia|]. intros l' r HL. inversion HL; subst; auto; lia.
    - assert (Hle : ts <= e).
      { destruct (Z_le_gt_dec ts e); auto. exfalso. assert ((e - ts) / dt < 0) by (apply Z.div_lt_upper_bound; lia). lia. }
      assert (Hn' : n = Z.to_nat ((e - (ts + dt)) / dt + 1)).
      { replace (e - (ts + dt)) with (e - ts + (-1) * dt) by ring. rewrite Z.div_add by lia. lia. }
      destruct (IH (ts + dt) Hn' ltac:(lia)) as [I1 I2]. cbn [stamps]. split.
      + apply sim_step; auto.
      + intros l' r HL. inversion HL as [ts' A|ts' A B|ts' l0 r0 A B C]; subst; try lia.
        * rewrite K in B by lia. discriminate.
        * destruct (I2 _ _ C) as [-> ->]. auto. }
  destruct (G _ s eq_refl ltac:(lia)) as [G1 G2]. eexists. split; [exact G1|]. split; [exact G2|].
  assert (LS : forall n ts, length (stamps n ts dt) = n) by (induction n; intros; cbn; auto).
  rewrite LS. split; auto. intros k Hk. set (n := Z.to_nat _) in *. clearbody n. clear -Hk. revert s k Hk.
  induction n as [|n IH]; intros s k Hk; [lia|]. destruct k as [|k]; cbn [stamps nth_error]; [f_equal; lia|].
  rewrite IH by lia. f_equal. lia.
Qed.

(** For trajectories starting at time 0 and at most 2^51 ns (26 days) long nbt_eval recovers the
    end time exactly, so its simulation loops never throw either. *)
Theorem C72_eval_partial : forall ts_end dt, 0 <= ts_end <= 2 ^ 51 -> 0 < dt ->
  exists l, eval_simulate 0 (secs_between 0 ts_end) dt l (Ret tt) /\
    length l = Z.to_nat (ts_end / dt + 1) /\ forall k, (k < length l)%nat -> nth_error l k = Some (Z.of_nat k * dt).
Proof.
  intros e dt He Hd. change (2 ^ 51) with 2251799813685248 in He.
  assert (E : eval_end 0 (secs_between 0 e) = Ret e).
  { unfold eval_end, sec2ts.
    destruct (between_R 0 e ltac:(unfold two63; lia) ltac:(unfold two63; lia)) as [E1 F1].
    assert (E2 : B2R (secs_between 0 e) = B2R (ts2sec e)).
    { rewrite E1. destruct (ts2sec_R 0 ltac:(unfold two63; lia)) as (-> & _). rewrite rnd64_0, Rmult_0_l, rnd64_0, Rminus_0_r.
      destruct (ts2sec_R e ltac:(unfold two63; lia)) as (-> & _). apply rnd64_gen. apply generic_format_round; [apply FLT_exp_valid; reflexivity|apply valid_rnd_N]. }
    pose proof (sec2ts_exact e He) as X. unfold sec2ts in X.
    destruct (ts2sec_R e ltac:(unfold two63; lia)) as (_ & Fe & Be). destruct d1e9_R as [H9 F9].
    assert (BB : (Rabs (B2R (ts2sec e) * B2R d1e9) <= 18446744073709551616)%R).
    { rewrite H9. apply Rabs_le_inv in Be. apply Rabs_le. lra. }
    destruct (dmul_R (ts2sec e) d1e9 Fe F9 BB) as [P1 P2].
    destruct (dmul_R (secs_between 0 e) d1e9 F1 F9) as [P3 P4]; [rewrite E2; exact BB|].
    unfold long_of_dbl in X |- *. rewrite P2 in X. rewrite P4. rewrite Btrunc_R in X |- *. rewrite P3, E2, <- P1. rewrite X. cbn [obind].
    unfold i64. rewrite Z.add_0_l. rewrite (proj2 (int64b_spec e)); auto. unfold two63. lia. }
  destruct (C72_simulate 0 e dt ltac:(lia) ltac:(lia) Hd) as (l & S1 & _ & L & N).
  exists l. split; [exists e; split; auto|]. rewrite Z.sub_0_r in L. split; auto.
Qed.

(** In general the recovered end time can be past ts_end: a 200 Hz IMU simulation of a trajectory of
    4.999813 ms that starts in 2020 throws at its second sample. *)
Theorem C72_eval_refuted :
  let ts_start := 1600000000027213682 in let ts_end := 1600000000032213495 in
  eval_simulate ts_start (secs_between ts_start ts_end) 5000000 [ts_start] (Throw Fatal).
Proof.
  intros s e. exists 1600000000032213796. split; [vm_compute; reflexivity|].
  apply sim_step; [unfold s; lia|vm_compute; reflexivity|].
  apply sim_fatal; [unfold s; lia|vm_compute; reflexivity].
Qed.
Print Assumptions C71_best_partial.
Print Assumptions C71_failed_refuted.
Print Assumptions C72_in_range.
Print Assumptions C72_simulate.
Print Assumptions C72_eval_partial.
Print Assumptions C72_eval_refuted.
