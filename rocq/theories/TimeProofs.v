(** * Error analysis of the time stamp conversions *)
From Verif Require Import Base FloatModel FloatProofs TimeModel.
From Coq Require Import Reals Lra.
From Flocq Require Import Core.Core IEEE754.BinarySingleNaN.
Open Scope Z_scope.

Definition two63 : Z := 9223372036854775808.

Lemma int64b_spec z : int64b z = true <-> - two63 <= z <= two63 - 1.
Proof. unfold int64b, two63. rewrite andb_true_iff, !Z.leb_le. lia. Qed.

Lemma Rabs_mid a b : (Rabs (a - b) <= 0 -> a = b)%R.
Proof. unfold Rabs; destruct (Rcase_abs (a - b)); lra. Qed.

(** Everything known about the intermediate values for any signed 64-bit [ts]. *)
Lemma sec_analysis ts : - two63 <= ts <= two63 ->
  exists X Y : R,
    X = rnd64 (IZR ts) /\ Y = rnd64 (X * c9) /\
    B2R (dmul (dbl_of_Z ts) d1em9) = Y /\ is_finite (dmul (dbl_of_Z ts) d1em9) = true /\
    (Rabs (X - IZR ts) <= u53 * Rabs (IZR ts))%R /\
    (Rabs (Y - X * c9) <= u53 * Rabs (X * c9))%R /\
    (Rabs X <= 9223372036854775808)%R /\
    (0 <= ts -> (0 <= X)%R) /\ (ts <= 0 -> (X <= 0)%R).
Proof.
  unfold two63. intros H.
  destruct (dbl_of_Z_R ts) as [HX FX]; [lia|].
  destruct d1em9_R as [HC FC].
  exists (rnd64 (IZR ts)), (rnd64 (rnd64 (IZR ts) * c9)).
  assert (BX : (Rabs (rnd64 (IZR ts)) <= 9223372036854775808)%R).
  { apply rnd64_bnd; [rewrite <- abs_IZR; apply IZR_le; lia|].
    apply (gen_IZR 1 63); lia. }
  destruct (dmul_R (dbl_of_Z ts) d1em9) as [HY FY]; auto.
  { rewrite HX, HC. apply Rabs_le_inv in BX. apply Rabs_le. unfold c9. lra. }
  assert (P0 : (0 <= ts)%Z -> (0 <= rnd64 (IZR ts))%R).
  { intros. rewrite <- rnd64_0. apply rnd64_le, IZR_le; auto. }
  assert (N0 : (ts <= 0)%Z -> (rnd64 (IZR ts) <= 0)%R).
  { intros. rewrite <- rnd64_0. apply rnd64_le, (IZR_le _ 0); auto. }
  repeat split; auto.
  - rewrite HY, HX, HC. reflexivity.
  - apply rnd64_err. destruct (Z.eq_dec ts 0) as [ -> |N]; [left; reflexivity|right].
    rewrite <- abs_IZR. apply Rle_trans with (IZR 1); [lra|apply IZR_le; lia].
  - apply rnd64_err. destruct (Z.eq_dec ts 0) as [ -> |N].
    { left. rewrite rnd64_0. ring. }
    right. destruct (Z_lt_le_dec ts 0).
    + assert (rnd64 (IZR ts) <= -1)%R.
      { rewrite <- (rnd64_small (-1)) by lia. apply rnd64_le, IZR_le; lia. }
      rewrite Rabs_left by (unfold c9; lra). unfold c9. lra.
    + assert (1 <= rnd64 (IZR ts))%R.
      { rewrite <- (rnd64_small 1) by lia. apply rnd64_le, IZR_le; lia. }
      rewrite Rabs_right by (unfold c9; lra). unfold c9. lra.
Qed.

Lemma long_of_dbl_R (x : dbl) y : is_finite x = true -> B2R x = y ->
  - two63 <= Ztrunc y <= two63 - 1 -> long_of_dbl x = Ret (Ztrunc y).
Proof.
  intros F E H. unfold long_of_dbl. rewrite F, Btrunc_R, E. unfold i64.
  now rewrite (proj2 (int64b_spec _)).
Qed.

Lemma Ztrunc_pos y : (0 <= y)%R -> (IZR (Ztrunc y) <= y < IZR (Ztrunc y) + 1)%R.
Proof.
  intros. rewrite Ztrunc_floor by auto. split; [apply Zfloor_lb|apply Zfloor_ub].
Qed.
Lemma Ztrunc_neg y : (y <= 0)%R -> (IZR (Ztrunc y) - 1 < y <= IZR (Ztrunc y))%R.
Proof.
  intros. rewrite Ztrunc_ceil by auto.
  generalize (Zceil_ub y). unfold Zceil. rewrite opp_IZR.
  generalize (Zfloor_ub (- y)). lra.
Qed.

(** The product [sec * 1e9] is exact whenever it needs at most 53 bits. *)
Lemma prod_exact s : Z.abs s <= 4611686018 ->
  long_of_dbl (dmul (dbl_of_Z s) d1e9) = Ret (s * 1000000000).
Proof.
  intros H. destruct (dbl_of_Z_R s) as [HS FS]; [lia|]. destruct d1e9_R as [H9 F9].
  rewrite rnd64_small in HS by lia.
  destruct (dmul_R (dbl_of_Z s) d1e9) as [HP FP]; auto.
  { rewrite HS, H9, <- mult_IZR, <- abs_IZR. apply IZR_le. lia. }
  rewrite HS, H9, <- mult_IZR in HP.
  replace (s * 1000000000) with (s * 1953125 * 2 ^ 9) in HP by lia.
  rewrite rnd64_IZR in HP by lia.
  rewrite (long_of_dbl_R _ _ FP HP); rewrite Ztrunc_IZR; [f_equal; lia|unfold two63; lia].
Qed.

(** In general it is within 512 of the exact product. *)
Lemma prod_close s : Z.abs s <= 9223372036 ->
  exists p, long_of_dbl (dmul (dbl_of_Z s) d1e9) = Ret p /\ Z.abs (p - s * 1000000000) <= 2048 /\
    Z.abs p <= 9223372036000000000 .
Proof.
  intros H. destruct (dbl_of_Z_R s) as [HS FS]; [lia|]. destruct d1e9_R as [H9 F9].
  rewrite rnd64_small in HS by lia.
  destruct (dmul_R (dbl_of_Z s) d1e9) as [HP FP]; auto.
  { rewrite HS, H9, <- mult_IZR, <- abs_IZR. apply IZR_le. lia. }
  rewrite HS, H9, <- mult_IZR in HP.
  set (q := s * 1000000000) in *.
  assert (E : (Rabs (rnd64 (IZR q) - IZR q) <= u53 * Rabs (IZR q))%R).
  { apply rnd64_err. destruct (Z.eq_dec q 0) as [ -> |N]; [left; reflexivity|right].
    rewrite <- abs_IZR. apply Rle_trans with (IZR 1); [lra|apply IZR_le; lia]. }
  assert (Q : (Rabs (IZR q) <= 9223372036000000000)%R).
  { rewrite <- abs_IZR. apply IZR_le. unfold q. lia. }
  assert (B : (Rabs (rnd64 (IZR q)) <= 9223372036000000000)%R).
  { apply rnd64_bnd; auto.
    apply (gen_IZR 4503599626953125 11); lia. }
  assert (D : (Rabs (rnd64 (IZR q) - IZR q) <= 1100)%R).
  { eapply Rle_trans; [apply E|]. unfold u53. lra. }
  set (r := rnd64 (IZR q)) in *.
  assert (T : (Rabs (IZR (Ztrunc r) - r) <= 1 /\ Rabs (IZR (Ztrunc r)) <= Rabs r)%R).
  { destruct (Rle_dec 0 r) as [P|P].
    - generalize (Ztrunc_pos r P). intros T. split; [apply Rabs_le; lra|].
      rewrite (Rabs_right r) by lra. apply Rabs_le.
      assert (0 <= Ztrunc r). { rewrite Ztrunc_floor by auto. apply Zfloor_lub. auto. }
      apply IZR_le in H0. lra.
    - generalize (Ztrunc_neg r ltac:(lra)). intros T. split; [apply Rabs_le; lra|].
      rewrite (Rabs_left r) by lra. apply Rabs_le.
      assert (Ztrunc r <= 0). { rewrite Ztrunc_ceil by lra. apply Zceil_glb. lra. }
      apply IZR_le in H0. lra. }
  destruct T as [T1 T2].
  assert (T3 : Z.abs (Ztrunc r) <= 9223372036000000000).
  { apply le_IZR. rewrite abs_IZR. lra. }
  exists (Ztrunc r). split; [|split]; auto.
  - apply long_of_dbl_R; auto. unfold two63; lia.
  - apply le_IZR. rewrite abs_IZR, minus_IZR.
    apply Rabs_le_inv in T1, D. apply Rabs_le. lra.
Qed.

(** The truncated seconds never leave the 64-bit range and are within
    one second and a few microseconds of the true value. *)
Lemma sec_any ts : - two63 <= ts <= two63 ->
  exists s, long_of_dbl (dmul (dbl_of_Z ts) d1em9) = Ret s /\
    Z.abs s <= 9223372036 /\ Z.abs (ts - s * 1000000000) <= 1000003000.
Proof.
  intros H. destruct (sec_analysis ts H) as (X & Y & EX & EY & HB & FB & A & B & C & P & N).
  assert (Hts : (Rabs (IZR ts) <= 9223372036854775808)%R).
  { rewrite <- abs_IZR. apply IZR_le. unfold two63 in H. lia. }
  assert (A' : (Rabs (X - IZR ts) <= 1024)%R) by (unfold u53 in A; lra).
  assert (HXc : (Rabs (X * c9) <= 9223372036.86)%R).
  { apply Rabs_le_inv in C. apply Rabs_le. unfold c9. lra. }
  assert (B' : (Rabs (Y - X * c9) <= 0.0000011)%R) by (unfold u53 in B; lra).
  exists (Ztrunc Y).
  assert (K : Z.abs (Ztrunc Y) <= 9223372036 /\ (Rabs (IZR (Ztrunc Y) - Y) <= 1)%R).
  { apply Rabs_le_inv in HXc, B'.
    destruct (Rle_dec 0 Y) as [Q|Q].
    - generalize (Ztrunc_pos Y Q). intros T.
      assert (0 <= Ztrunc Y). { rewrite Ztrunc_floor by auto. apply Zfloor_lub. auto. }
      split; [|apply Rabs_le; lra].
      assert (Ztrunc Y < 9223372037); [|lia]. apply lt_IZR. lra.
    - generalize (Ztrunc_neg Y ltac:(lra)). intros T.
      assert (Ztrunc Y <= 0). { rewrite Ztrunc_ceil by lra. apply Zceil_glb. lra. }
      split; [|apply Rabs_le; lra].
      assert (-9223372037 < Ztrunc Y); [|lia]. apply lt_IZR. lra. }
  destruct K as [K1 K2]. split; [|split]; auto.
  - apply long_of_dbl_R; auto. unfold two63; lia.
  - apply le_IZR. rewrite abs_IZR, minus_IZR, mult_IZR.
    apply Rabs_le_inv in A', B', C, K2. apply Rabs_le. unfold c9 in *. lra.
Qed.

(** Non-negative time stamps for which the product is exact. *)
Lemma sec_pos ts : 0 <= ts <= 4611686018427387904 ->
  exists s, long_of_dbl (dmul (dbl_of_Z ts) d1em9) = Ret s /\
    0 <= s <= 4611686018 /\
    s * 1000000000 - 1400 <= ts < s * 1000000000 + 1000000000 /\
    (ts <= 4503599627370496 -> s * 1000000000 <= ts).
Proof.
  intros H.
  destruct (sec_analysis ts) as (X & Y & EX & EY & HB & FB & A & B & C & P & N);
    [unfold two63; lia|].
  destruct (sec_any ts) as (s & Hs & _ & _); [unfold two63; lia|].
  assert (s = Ztrunc Y).
  { unfold long_of_dbl in Hs. rewrite FB, Btrunc_R, HB in Hs. unfold i64 in Hs.
    destruct (int64b _); congruence. }
  subst s. exists (Ztrunc Y). split; auto.
  assert (H0 : (0 <= IZR ts)%R) by (apply IZR_le; lia).
  assert (H1 : (IZR ts <= 4611686018427387904)%R) by (apply IZR_le; lia).
  assert (X0 : (0 <= X)%R) by (apply P; lia).
  assert (Y0 : (0 <= Y)%R).
  { rewrite EY, <- rnd64_0. apply rnd64_le. unfold c9. lra. }
  rewrite (Rabs_right (IZR ts)) in A by lra.
  rewrite (Rabs_right (X * c9)) in B by (unfold c9; lra).
  generalize (Ztrunc_pos Y Y0). intros T.
  assert (Z0 : 0 <= Ztrunc Y). { rewrite Ztrunc_floor by auto. apply Zfloor_lub. auto. }
  set (s := Ztrunc Y) in *.
  apply Rabs_le_inv in A, B. clear Hs HB FB.
  assert (S1 : s <= 4611686018).
  { assert (s < 4611686019); [|lia]. apply lt_IZR. unfold u53, c9 in *. lra. }
  repeat split; auto.
  - apply le_IZR. rewrite minus_IZR, mult_IZR. unfold u53, c9 in *. lra.
  - (* upper bound: monotonicity of rounding *)
    apply Z.nle_gt. intros L.
    assert (S2 : s < 4611686018).
    { lia. }
    assert (X1 : (IZR (s + 1) * 1000000000 <= X)%R).
    { rewrite EX. rewrite <- mult_IZR.
      replace ((s + 1) * 1000000000) with ((s + 1) * 1953125 * 2 ^ 9) by lia.
      rewrite <- rnd64_IZR by lia. apply rnd64_le, IZR_le. lia. }
    assert (Y1 : (IZR (s + 1) <= Y)%R).
    { rewrite EY. rewrite <- (rnd64_small (s + 1)) by lia. apply rnd64_le.
      assert (0 <= IZR (s+1))%R by (apply IZR_le; lia). unfold c9. lra. }
    rewrite plus_IZR in Y1. lra.
  - intros L. assert (L' : (IZR ts <= 4503599627370496)%R) by (apply IZR_le; lia).
    assert (XE : X = IZR ts) by (rewrite EX; apply rnd64_small; lia).
    assert (s * 1000000000 < ts + 1); [|lia].
    apply lt_IZR. rewrite plus_IZR, mult_IZR. rewrite XE in *.
    unfold u53, c9 in *. lra.
Qed.
