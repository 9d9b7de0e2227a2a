(** * Real-number facts about the double operations of [FloatModel] *)
From Verif Require Import Base FloatModel.
From Coq Require Import Reals Lra.
From Flocq Require Import Core.Core IEEE754.BinarySingleNaN Relative.
Open Scope Z_scope.

Definition rnd64 (x : R) : R := round radix2 (FLT_exp (-1074) 53) ZnearestE x.
Notation emb := (fun x : dbl => B2R x).

Definition u53 : R := (/ 9007199254740992)%R.

#[global] Instance valid64 : Valid_exp (FLT_exp (-1074) 53).
Proof. apply FLT_exp_valid. reflexivity. Qed.

Lemma rnd64_0 : rnd64 0 = 0%R.
Proof. unfold rnd64. apply round_0. apply valid_rnd_N. Qed.
Lemma rnd64_le x y : (x <= y)%R -> (rnd64 x <= rnd64 y)%R.
Proof. intros. unfold rnd64. apply round_le; auto. apply valid64. apply valid_rnd_N. Qed.
Lemma rnd64_gen x : generic_format radix2 (FLT_exp (-1074) 53) x -> rnd64 x = x.
Proof. intros. unfold rnd64. apply round_generic; auto. apply valid_rnd_N. Qed.
Lemma gen_IZR m e : Z.abs m < 9007199254740992 -> 0 <= e ->
  generic_format radix2 (FLT_exp (-1074) 53) (IZR (m * 2 ^ e)).
Proof.
  intros Hm He. apply generic_format_FLT.
  exists (Float radix2 m e); simpl; auto; try lia.
  unfold F2R; simpl. rewrite mult_IZR. f_equal.
  rewrite <- IZR_Zpower by lia. reflexivity.
Qed.
Lemma rnd64_IZR m e : Z.abs m < 9007199254740992 -> 0 <= e ->
  rnd64 (IZR (m * 2 ^ e)) = IZR (m * 2 ^ e).
Proof. intros. apply rnd64_gen, gen_IZR; auto. Qed.
Lemma rnd64_small z : Z.abs z < 9007199254740992 -> rnd64 (IZR z) = IZR z.
Proof. intros H. generalize (rnd64_IZR z 0 H). rewrite Z.mul_1_r. intros E. apply E; lia. Qed.
Lemma rnd64_err x : (x = 0 \/ / 1000000000000 <= Rabs x)%R ->
  (Rabs (rnd64 x - x) <= u53 * Rabs x)%R.
Proof.
  intros [ -> | H].
  - rewrite rnd64_0, Rminus_0_r, Rabs_R0. unfold u53. lra.
  - unfold rnd64.
    refine (Rle_trans _ _ _ (relative_error_N_FLT radix2 (-1074) 53 eq_refl (fun z => negb (Z.even z)) x _) _).
    + apply Rle_trans with (2 := H).
      apply Rle_trans with (bpow radix2 (-40)).
      * apply bpow_le. lia.
      * change (bpow radix2 (-40)) with (/ IZR 1099511627776)%R.
        apply Rinv_le; lra.
    + apply Rmult_le_compat_r; [apply Rabs_pos|].
      change (bpow radix2 (- (53) + 1)) with (/ IZR 4503599627370496)%R. unfold u53. lra.
Qed.

Lemma rnd64_bnd x b : (Rabs x <= b)%R -> generic_format radix2 (FLT_exp (-1074) 53) b ->
  (Rabs (rnd64 x) <= b)%R.
Proof.
  intros H G. apply Rabs_le_inv in H. apply Rabs_le. split.
  - replace (-b)%R with (rnd64 (- b)) by (apply rnd64_gen, generic_format_opp, G).
    apply rnd64_le; lra.
  - replace b with (rnd64 b) by (apply rnd64_gen, G). apply rnd64_le; lra.
Qed.

Lemma big_gen : generic_format radix2 (FLT_exp (-1074) 53) (IZR 18446744073709551616).
Proof. apply (gen_IZR 1 64); lia. Qed.

Lemma dbl_of_Z_R z : Z.abs z <= 18446744073709551616 ->
  B2R (dbl_of_Z z) = rnd64 (IZR z) /\ is_finite (dbl_of_Z z) = true.
Proof.
  intros H.
  generalize (binary_normalize_correct 53 1024 _ _ mode_NE z 0 false). cbv zeta.
  replace (F2R {| Fnum := z; Fexp := 0 |} : R) with (IZR z)
    by (unfold F2R; simpl; ring).
  change (round radix2 (SpecFloat.fexp 53 1024) (round_mode mode_NE) (IZR z)) with (rnd64 (IZR z)).
  rewrite Rlt_bool_true.
  - intros (A & B & _). split; auto.
  - apply Rle_lt_trans with (IZR 18446744073709551616).
    + apply rnd64_bnd; [|apply big_gen]. rewrite <- abs_IZR. now apply IZR_le.
    + apply Rle_lt_trans with (bpow radix2 64); [right; reflexivity|apply bpow_lt; lia].
Qed.

Lemma dmul_R x y : is_finite x = true -> is_finite y = true ->
  (Rabs (B2R x * B2R y) <= 18446744073709551616)%R ->
  B2R (dmul x y) = rnd64 (B2R x * B2R y) /\ is_finite (dmul x y) = true.
Proof.
  intros Fx Fy H. unfold dmul.
  generalize (Bmult_correct 53 1024 _ _ mode_NE x y).
  change (round radix2 (SpecFloat.fexp 53 1024) (round_mode mode_NE) (B2R x * B2R y)) with (rnd64 (B2R x * B2R y)).
  rewrite Rlt_bool_true.
  - intros (A & B & _). rewrite A, B, Fx, Fy. auto.
  - apply Rle_lt_trans with (IZR 18446744073709551616).
    + apply rnd64_bnd; [apply H|apply big_gen].
    + apply Rle_lt_trans with (bpow radix2 64); [right; reflexivity|apply bpow_lt; lia].
Qed.

Definition c9 : R := (4835703278458517 / 4835703278458516698824704)%R.
Lemma d1em9_R : B2R d1em9 = c9 /\ is_finite d1em9 = true.
Proof.
  split; [|vm_compute; reflexivity].
  generalize (binary_normalize_correct 53 1024 _ _ mode_NE 4835703278458517 (-82) false). cbv zeta.
  fold d1em9.
  assert (E : F2R (Float radix2 4835703278458517 (-82)) = c9).
  { unfold F2R, c9, Rdiv. simpl Fnum; simpl Fexp.
    change (bpow radix2 (-82)) with (/ IZR 4835703278458516698824704)%R. reflexivity. }
  rewrite E.
  change (round radix2 (SpecFloat.fexp 53 1024) (round_mode mode_NE) c9) with (rnd64 c9).
  rewrite rnd64_gen.
  - rewrite Rlt_bool_true; [intros (A & _); exact A|].
    apply Rlt_trans with (bpow radix2 64); [|apply bpow_lt; lia].
    change (bpow radix2 64) with (IZR 18446744073709551616).
    rewrite Rabs_pos_eq; unfold c9; lra.
  - rewrite <- E. apply generic_format_FLT.
    eexists; [reflexivity|simpl; lia|simpl; lia].
Qed.
Lemma d1e9_R : B2R d1e9 = 1000000000%R /\ is_finite d1e9 = true.
Proof.
  destruct (dbl_of_Z_R 1000000000) as [A B]; [lia|]. split; auto.
  unfold d1e9. rewrite A. apply rnd64_small. lia.
Qed.

(** Truncation. *)
Lemma Btrunc_R (x : dbl) : Btrunc x = Ztrunc (B2R x).
Proof.
  apply eq_IZR. rewrite Btrunc_correct by reflexivity.
  now rewrite round_FIX_IZR.
Qed.

(** The double comparison [x * 1e-9 > 0] of an integer difference. *)
Lemma c9_bounds : (/ 1000000000 < c9 /\ c9 < / 1000000000 * (1 + 7 * / 100000000000000000))%R.
Proof. unfold c9. split; lra. Qed.
