(** * C33: decomposition of nanosecond time stamps; C61: seconds as double *)
From Verif Require Import Base FloatModel TimeModel TimeProofs TimeProofs2.
Open Scope Z_scope.

(** The 64-bit signed integers. *)
Definition is_int64 (z : Z) : Prop := - 2 ^ 63 <= z < 2 ^ 63.

(** C33, round trip: for every 64-bit time stamp both functions are defined and
    [tsform (tsdecomp ts) = ts]. *)
Theorem C33_round_trip : forall ts, is_int64 ts ->
  exists sec nsec, tsdecomp ts = Ret (sec, nsec) /\ tsform sec nsec = Ret ts.
Proof.
  unfold is_int64. change (2 ^ 63) with two63. intros ts H.
  destruct (sec_any ts) as (s & Hs & A & B); [lia|].
  destruct (prod_close s A) as (p & Hp & C & D).
  exists s, (ts - p). unfold tsdecomp, tsform. rewrite Hs. simpl. rewrite Hp. simpl.
  unfold i64. rewrite (proj2 (int64b_spec (ts - p))) by (unfold two63 in *; lia).
  replace (p + (ts - p)) with ts by ring.
  rewrite (proj2 (int64b_spec ts)) by lia. auto.
Qed.

(** C33, exact decomposition for uptimes up to 2^52 ns (52 days). Missing from
    the full statement: larger and negative stamps, for which it is false, see
    the refutations below. *)
Theorem C33_exact_decomposition_partial : forall ts, 0 <= ts <= 2 ^ 52 ->
  tsdecomp ts = Ret (ts / 1000000000, ts mod 1000000000).
Proof.
  intros ts H. change (2 ^ 52) with 4503599627370496 in H.
  destruct (sec_pos ts) as (s & Hs & A & B & C); [lia|].
  unfold tsdecomp. rewrite Hs. simpl. rewrite prod_exact by lia. simpl.
  specialize (C ltac:(lia)).
  unfold i64. rewrite (proj2 (int64b_spec _)) by (unfold two63; lia). simpl.
  assert (s = ts / 1000000000) as ->.
  { apply Z.div_unique with (ts - s * 1000000000); lia. }
  rewrite Z.mod_eq by lia. do 2 f_equal. ring.
Qed.

(** C33, what holds for all non-negative stamps up to 2^62 ns (the year 2116):
    the nanosecond part stays below one second but may be slightly negative. *)
Theorem C33_nsec_bounds : forall ts, 0 <= ts <= 2 ^ 62 ->
  exists sec nsec, tsdecomp ts = Ret (sec, nsec) /\
    ts = sec * 1000000000 + nsec /\ -1400 <= nsec < 1000000000 /\
    (sec = ts / 1000000000 \/ sec = ts / 1000000000 + 1).
Proof.
  intros ts H. change (2 ^ 62) with 4611686018427387904 in H.
  destruct (sec_pos ts) as (s & Hs & A & B & _); [lia|].
  exists s, (ts - s * 1000000000).
  unfold tsdecomp. rewrite Hs. simpl. rewrite prod_exact by lia. simpl.
  unfold i64. rewrite (proj2 (int64b_spec _)) by (unfold two63; lia). simpl.
  repeat split; try lia.
  destruct (Z_le_gt_dec (s * 1000000000) ts).
  - left. apply Z.div_unique with (ts - s * 1000000000); lia.
  - right. assert (s - 1 = ts / 1000000000); [|lia].
    apply Z.div_unique with (ts - (s - 1) * 1000000000); lia.
Qed.

(** C33, the range [0 <= nsec < 1e9] fails: a stamp of September 2020 (one
    nanosecond before a full second) decomposes into the next second and -1 ns. *)
Theorem C33_nsec_range_refuted :
  tsdecomp 1600000000999999999 = Ret (1600000001, -1).
Proof. vm_compute. reflexivity. Qed.
Theorem C33_negative_stamp_refuted : tsdecomp (-1) = Ret (0, -1).
Proof. vm_compute. reflexivity. Qed.

(** C61: seconds as double. Converting a stamp of at most 2^51 ns (26 days) to
    seconds and back gives the same stamp... *)
Theorem C61_seconds_round_trip : forall ts, 0 <= ts <= 2 ^ 51 ->
  sec2ts (ts2sec ts) = Ret ts.
Proof. intros ts H. apply sec2ts_exact. lia. Qed.

(** ... and stays within 2 microseconds for every stamp of magnitude at most 2^62 ns... *)
Theorem C61_seconds_accuracy : forall ts, Z.abs ts <= 2 ^ 62 ->
  exists t, sec2ts (ts2sec ts) = Ret t /\ Z.abs (t - ts) <= 2000.
Proof. intros ts H. apply sec2ts_close. lia. Qed.

(** ... but is not the identity on epoch time stamps. *)
Theorem C61_epoch_round_trip_refuted :
  sec2ts (ts2sec 1600000000123456789) = Ret 1600000000123457024.
Proof. vm_compute. reflexivity. Qed.

(** Concrete instances. *)
Example C33_example : tsdecomp 12345678901 = Ret (12, 345678901) /\
  tsform 12 345678901 = Ret 12345678901.
Proof. vm_compute. auto. Qed.
Example C33_int64_max : exists n, tsdecomp 9223372036854775807 = Ret (9223372036, n).
Proof. eexists. vm_compute. reflexivity. Qed.

Print Assumptions C33_round_trip.
Print Assumptions C33_exact_decomposition_partial.
Print Assumptions C61_seconds_round_trip.
