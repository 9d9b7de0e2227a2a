(** * The conversion [sec2ts (ts2sec ts)] *)
From Verif Require Import Base FloatModel FloatProofs TimeModel TimeProofs.
From Coq Require Import Reals Lra.
From Flocq Require Import Core.Core IEEE754.BinarySingleNaN.
Open Scope Z_scope.
Notation f64 := (FLT_exp (-1074) 53).

Lemma pred64 x : (1 <= x)%R -> generic_format radix2 f64 x -> (pred radix2 f64 x <= x - x * u53)%R.
Proof.
  intros H F. rewrite pred_eq_pos by lra. unfold pred_pos.
  assert (M : (1 <= mag radix2 x)%Z).
  { apply mag_ge_bpow. simpl. rewrite Rabs_right; lra. }
  assert (U : (u53 = bpow radix2 (-53))%R) by reflexivity.
  case Req_bool_spec; intros E.
  - assert (FE : f64 (mag radix2 x - 1) = mag radix2 x - 1 + -53).
    { unfold FLT_exp. lia. }
    rewrite FE, bpow_plus, <- E, U. lra.
  - rewrite ulp_neq_0 by lra. unfold cexp.
    assert (FE : f64 (mag radix2 x) = mag radix2 x + -53).
    { unfold FLT_exp. lia. }
    rewrite FE, bpow_plus, U.
    assert (x < bpow radix2 (mag radix2 x))%R.
    { generalize (bpow_mag_gt radix2 x). rewrite Rabs_right by lra. auto. }
    generalize (bpow_gt_0 radix2 (-53)). nra.
Qed.

Lemma rnd64_ge_near x y : (1 <= x)%R -> generic_format radix2 f64 x ->
  (x - x * u53 / 2 < y)%R -> (x <= rnd64 y)%R.
Proof.
  intros H F L. unfold rnd64. apply round_N_ge_midp; auto. apply valid64.
  generalize (pred64 x H F). lra.
Qed.

Lemma sec2ts_exact ts : 0 <= ts <= 2251799813685248 -> sec2ts (ts2sec ts) = Ret ts.
Proof.
  intros H. unfold sec2ts, ts2sec.
  destruct (sec_analysis ts) as (X & Y & EX & EY & HB & FB & A & B & C & P & N);
    [unfold two63; lia|].
  destruct d1e9_R as [H9 F9].
  assert (H0 : (0 <= IZR ts)%R) by (apply IZR_le; lia).
  assert (H1 : (IZR ts <= 2251799813685248)%R) by (apply IZR_le; lia).
  assert (XE : X = IZR ts) by (rewrite EX; apply rnd64_small; lia).
  rewrite XE in *. clear A XE.
  rewrite (Rabs_right (IZR ts * c9)) in B by (unfold c9; lra).
  apply Rabs_le_inv in B.
  assert (Y0 : (0 <= Y)%R).
  { rewrite EY, <- rnd64_0. apply rnd64_le. unfold c9. lra. }
  destruct (dmul_R (dmul (dbl_of_Z ts) d1em9) d1e9) as [HP FP]; auto.
  { rewrite HB, H9. rewrite Rabs_right by lra. unfold c9, u53 in *. lra. }
  rewrite HB, H9 in HP.
  assert (K : Ztrunc (rnd64 (Y * 1000000000)) = ts).
  { destruct (Z.eq_dec ts 0) as [ -> |Nz].
    { assert (Y = 0)%R as ->.
      { rewrite EY. rewrite Rmult_0_l. apply rnd64_0. }
      rewrite Rmult_0_l, rnd64_0. apply (Ztrunc_IZR 0). }
    assert (G1 : (1 <= IZR ts)%R) by (apply IZR_le; lia).
    assert (E : (Rabs (rnd64 (Y * 1000000000) - Y * 1000000000) <= u53 * Rabs (Y * 1000000000))%R).
    { apply rnd64_err. right. rewrite Rabs_right by lra. unfold c9, u53 in *. lra. }
    rewrite (Rabs_right (Y * 1000000000)) in E by lra.
    apply Rabs_le_inv in E.
    assert (LB : (IZR ts <= rnd64 (Y * 1000000000))%R).
    { apply rnd64_ge_near; auto.
      - generalize (gen_IZR ts 0). rewrite Z.mul_1_r. intros Q; apply Q; lia.
      - unfold c9, u53 in *. lra. }
    rewrite Ztrunc_floor by lra. apply Zfloor_imp. rewrite plus_IZR.
    split; auto. unfold c9, u53 in *. lra. }
  rewrite (long_of_dbl_R _ _ FP HP); rewrite K; auto. unfold two63. lia.
Qed.

(** For any stamp the detour through double seconds costs at most a few
    microseconds. *)
Lemma sec2ts_close ts : Z.abs ts <= 4611686018427387904 ->
  exists t, sec2ts (ts2sec ts) = Ret t /\ Z.abs (t - ts) <= 2000.
Proof.
  intros H. unfold sec2ts, ts2sec.
  destruct (sec_analysis ts) as (X & Y & EX & EY & HB & FB & A & B & C & P & N);
    [unfold two63; lia|].
  destruct d1e9_R as [H9 F9].
  assert (Hts : (Rabs (IZR ts) <= 4611686018427387904)%R).
  { rewrite <- abs_IZR. apply IZR_le; auto. }
  assert (A' : (Rabs (X - IZR ts) <= 512)%R) by (unfold u53 in A; lra).
  assert (C' : (Rabs X <= 4611686018427387904)%R).
  { rewrite EX. apply rnd64_bnd; auto. apply (gen_IZR 1 62); lia. }
  assert (HXc : (Rabs (X * c9) <= 4611686018.5)%R).
  { apply Rabs_le_inv in C'. apply Rabs_le. unfold c9. lra. }
  assert (B' : (Rabs (Y - X * c9) <= 0.00000052)%R) by (unfold u53 in B; lra).
  apply Rabs_le_inv in A', B', HXc, C'.
  destruct (dmul_R (dmul (dbl_of_Z ts) d1em9) d1e9) as [HP FP]; auto.
  { rewrite HB, H9. apply Rabs_le. lra. }
  rewrite HB, H9 in HP.
  set (q := (Y * 1000000000)%R) in *.
  assert (Q : (Rabs q <= 4611686019000000000)%R) by (apply Rabs_le; unfold q; lra).
  assert (E : (Rabs (rnd64 q - q) <= 513)%R).
  { destruct (Rle_dec 1 (Rabs q)) as [L|L].
    - eapply Rle_trans; [apply rnd64_err; right; lra|unfold u53; lra].
    - assert (Rabs (rnd64 q) <= 1)%R.
      { apply rnd64_bnd; [lra|]. apply (gen_IZR 1 0); lia. }
      apply Rnot_le_lt in L. apply Rabs_le_inv in H0. apply Rabs_lt_inv in L. apply Rabs_le. lra. }
  apply Rabs_le_inv in E, Q.
  set (r := rnd64 q) in *.
  assert (T : (Rabs (IZR (Ztrunc r) - r) <= 1)%R).
  { apply Rabs_le. destruct (Rle_dec 0 r) as [R|R].
    - generalize (Ztrunc_pos r R). lra.
    - generalize (Ztrunc_neg r ltac:(lra)). lra. }
  apply Rabs_le_inv in T.
  assert (T3 : Z.abs (Ztrunc r) <= 4611686019000001000).
  { apply le_IZR. rewrite abs_IZR. apply Rabs_le. lra. }
  exists (Ztrunc r). split.
  - apply long_of_dbl_R; auto. unfold two63; lia.
  - apply le_IZR. rewrite abs_IZR, minus_IZR. apply Rabs_le.
    unfold q in *. unfold c9 in *. lra.
Qed.
