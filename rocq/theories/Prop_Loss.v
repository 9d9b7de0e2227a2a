(** * C56: robust loss weights *)
From Coq Require Import Reals Lra Lia.
From Coquelicot Require Import Coquelicot.
From Verif Require Import LossModel.
Local Open Scope R_scope.

Lemma dbl_min_pos : 0 < dbl_min.
Proof. unfold dbl_min. apply Rinv_0_lt_compat, pow_lt. lra. Qed.
Lemma eps_pos q w : 0 < w < 1 -> 0 < bz_eps q w.
Proof. intros H. unfold bz_eps. apply Rmult_lt_0_compat; [|apply exp_pos]. apply Rdiv_lt_0_compat; lra. Qed.
Lemma x_gt1 eps s : 0 < eps -> 1 < bz_x eps s.
Proof. intros H. unfold bz_x. pose proof (exp_pos s). nra. Qed.
Lemma val_deriv eps s : 0 < eps -> is_derive (fun t : R => - ln (eps + exp (- t))) s (/ bz_x eps s).
Proof.
  intros He. pose proof (exp_pos (- s)). pose proof (x_gt1 eps s He).
  auto_derive; [lra|]. unfold bz_x in *. rewrite exp_Ropp in *. pose proof (exp_pos s). field. split; lra.
Qed.

(** *** Value: strictly increasing, starts at -ln(1 + eps), stays below -ln eps. *)
Theorem C56_value : forall q w, 0 < w < 1 ->
  let eps := bz_eps q w in
  (forall s t, s < t -> rho0 eps s < rho0 eps t) /\
  rho0 eps 0 = - ln (1 + eps) /\
  (forall s, rho0 eps s < s) /\ (forall s, rho0 eps s < - ln eps) /\
  (forall s, 0 <= s -> s - ln (1 + eps * exp s) = rho0 eps s).
Proof.
  intros q w Hw eps. pose proof (eps_pos q w Hw) as He. fold eps in He. unfold rho0, bz_evaluate. cbn [fst snd].
  split; [|split; [|split; [|split]]].
  - intros s t H. apply Ropp_lt_contravar. pose proof (exp_pos (-t)). apply ln_increasing; [lra|].
    apply Rplus_lt_compat_l, exp_increasing. lra.
  - rewrite Ropp_0, exp_0. f_equal. f_equal. lra.
  - intros s. rewrite <- (Ropp_involutive s) at 2. apply Ropp_lt_contravar.
    rewrite <- (ln_exp (- s)) at 1. apply ln_increasing; [apply exp_pos|lra].
  - intros s. apply Ropp_lt_contravar. pose proof (exp_pos (-s)). apply ln_increasing; lra.
  - intros s _. pose proof (exp_pos s). replace (eps + exp (- s)) with ((1 + eps * exp s) * exp (- s)).
    + rewrite ln_mult; [rewrite ln_exp; lra| |apply exp_pos]. nra.
    + rewrite Rmult_plus_distr_r, Rmult_assoc, <- exp_plus. rewrite Rplus_opp_r, exp_0. lra.
Qed.

(** *** Weight: the reported first derivative is the derivative of the value as long as that is a
    normal number (otherwise it is off by less than the smallest normal number); it is positive,
    below one, non-increasing, and equals w_q exactly at the quantile: a squared error below the
    quantile is weighted by at least w_q, one above it by at most w_q. *)
Theorem C56_weight_partial : forall q w, dbl_min <= w < 1 ->
  let eps := bz_eps q w in
  (forall s, exists d, is_derive (rho0 eps) s d /\ rho1 eps s = Rmax dbl_min d) /\
  (forall s, 0 < rho1 eps s < 1) /\
  (forall s t, s <= t -> rho1 eps t <= rho1 eps s) /\
  rho1 eps q = w /\
  (forall s, s <= q -> w <= rho1 eps s) /\ (forall s, q <= s -> rho1 eps s <= w) /\
  rho1 eps 0 = Rmax dbl_min (1 / (1 + eps)).
Proof.
  intros q w Hw eps. pose proof dbl_min_pos as Hd.
  assert (He : 0 < eps) by (apply eps_pos; lra).
  assert (HD : dbl_min < 1) by lra.
  assert (Hmono : forall s t, s <= t -> rho1 eps t <= rho1 eps s).
  { intros s t H. unfold rho1, bz_evaluate. cbn [fst snd]. apply Rle_max_compat_l.
    unfold Rdiv. rewrite !Rmult_1_l. pose proof (x_gt1 eps s He). apply Rinv_le_contravar; [lra|].
    unfold bz_x. destruct H as [H|H]; [apply exp_increasing in H; nra|subst; lra]. }
  assert (Hq : rho1 eps q = w).
  { unfold rho1, bz_evaluate, bz_x, eps, bz_eps. cbn [fst snd].
    rewrite Rmult_assoc, <- exp_plus, Rplus_opp_l, exp_0. replace (1 / ((1 - w) / w * 1 + 1)) with w by (field; lra).
    apply Rmax_right. lra. }
  split; [|split; [|split; [|split; [|split; [|split]]]]]; auto.
  - intros s. exists (/ bz_x eps s). split; [exact (val_deriv eps s He)|].
    unfold rho1, bz_evaluate. cbn [fst snd]. unfold Rdiv. now rewrite Rmult_1_l.
  - intros s. unfold rho1, bz_evaluate. cbn [fst snd]. pose proof (x_gt1 eps s He).
    unfold Rdiv. rewrite Rmult_1_l. split; [eapply Rlt_le_trans; [exact Hd|apply Rmax_l]|].
    apply Rmax_lub_lt; auto. rewrite <- Rinv_1. apply Rinv_lt_contravar; lra.
  - intros s H. rewrite <- Hq. auto.
  - intros s H. rewrite <- Hq. auto.
  - unfold rho1, bz_evaluate, bz_x. cbn [fst snd]. rewrite exp_0. do 2 f_equal. lra.
Qed.

(** *** As stated false: the slope at zero is below one and the value at zero is not zero. *)
Theorem C56_unit_slope_refuted : forall q w, dbl_min <= w < 1 ->
  rho1 (bz_eps q w) 0 < 1 /\ rho0 (bz_eps q w) 0 < 0.
Proof.
  intros q w Hw. pose proof dbl_min_pos. split.
  - apply (C56_weight_partial q w Hw).
  - destruct (C56_value q w) as (_ & -> & _); [lra|]. pose proof (eps_pos q w ltac:(lra)).
    assert (0 < ln (1 + bz_eps q w)); [|lra]. rewrite <- ln_1. apply ln_increasing; lra.
Qed.
(** ... but both are within eps of that. *)
Theorem C56_unit_slope_partial : forall q w, dbl_min <= w < 1 ->
  1 - bz_eps q w <= rho1 (bz_eps q w) 0 /\ - bz_eps q w <= rho0 (bz_eps q w) 0.
Proof.
  intros q w Hw. pose proof dbl_min_pos. pose proof (eps_pos q w ltac:(lra)) as He. split.
  - destruct (C56_weight_partial q w Hw) as (_ & _ & _ & _ & _ & _ & ->).
    eapply Rle_trans; [|apply Rmax_r]. apply Rmult_le_reg_r with (1 + bz_eps q w); [lra|].
    replace (1 / (1 + bz_eps q w) * (1 + bz_eps q w)) with 1 by (field; lra). nra.
  - destruct (C56_value q w) as (_ & -> & _); [lra|]. apply Ropp_le_contravar.
    rewrite <- (ln_exp (bz_eps q w)) at 2.
    apply Rlt_le, ln_increasing; [lra|]. apply exp_ineq1; lra.
Qed.

(** *** Second derivative: the value before the clamp is right, but it is negative for every error,
    so the clamp always replaces it by the smallest positive normal number: the sign of the
    curvature reported to the optimiser is always wrong. *)
Theorem C56_curvature_refuted : forall q w s, 0 < w < 1 ->
  let eps := bz_eps q w in
  exists d1 d2, (forall t, is_derive (rho0 eps) t (d1 t)) /\ is_derive d1 s d2 /\
    d2 < 0 /\ rho2 eps s = dbl_min /\ 0 < rho2 eps s.
Proof.
  intros q w s Hw eps. pose proof (eps_pos q w Hw) as He. fold eps in He. pose proof dbl_min_pos as Hd.
  pose proof (x_gt1 eps s He) as Hx. pose proof (exp_pos s) as Hs.
  exists (fun t => / bz_x eps t), (- (eps * exp s) / (bz_x eps s * bz_x eps s)).
  assert (E : rho2 eps s = dbl_min).
  { unfold rho2, bz_evaluate. cbn [snd]. apply Rmax_left.
    replace ((bz_x eps s - bz_x eps s * bz_x eps s) / (bz_x eps s * bz_x eps s * bz_x eps s))
      with (- (bz_x eps s - 1) / (bz_x eps s * bz_x eps s)) by (field; lra).
    assert (0 < (bz_x eps s - 1) / (bz_x eps s * bz_x eps s)) by (apply Rdiv_lt_0_compat; nra).
    unfold Rdiv in *. rewrite Ropp_mult_distr_l_reverse. lra. }
  split; [intros t; exact (val_deriv eps t He)|]. split; [|split; [|split; [exact E|now rewrite E]]].
  - unfold bz_x in *. auto_derive; [lra|]. field. lra.
  - assert (0 < eps * exp s / (bz_x eps s * bz_x eps s)) by (apply Rdiv_lt_0_compat; nra).
    unfold Rdiv in *. rewrite Ropp_mult_distr_l_reverse. lra.
Qed.

(** non-vacuity: the default weight 0.1 *)
Example C56_ex : dbl_min <= 1 / 10 < 1 /\ 0 < bz_eps 10 (1 / 10).
Proof.
  split; [|apply eps_pos; lra]. split; [|lra]. unfold dbl_min.
  replace (1 / 10) with (/ 10) by lra. apply Rinv_le_contravar; [lra|].
  apply Rle_trans with (2 ^ 4); [lra|]. apply Rle_pow; [lra|]. apply Nat.leb_le. reflexivity.
Qed.
Print Assumptions C56_value.
Print Assumptions C56_weight_partial.
Print Assumptions C56_unit_slope_refuted.
Print Assumptions C56_unit_slope_partial.
Print Assumptions C56_curvature_refuted.
