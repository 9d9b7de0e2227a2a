(** * C34, C35, C62: interpolation of one signal at the stamps of another *)
From Verif Require Import Base GeomModel LerpModel LerpSpec LerpProofs FloatModel FloatProofs TimeProofs.
From Coq Require Import Sorted Reals Lra.
From Flocq Require Import Core.Raux IEEE754.BinarySingleNaN.
Open Scope Z_scope.

(** The stamps of [base] inside the closed time range of [other]. *)
Definition requested (base other : list Z) : list Z :=
  filter (fun t => (hd 0 other <=? t) && (t <=? last other 0)) base.

Lemma requested_asc b o : ascending b -> ascending (requested b o).
Proof.
  unfold requested. intros A. induction b as [|x t0 IH]; simpl; [constructor|].
  inversion A as [|? ? A1 A2]; subst. destruct (_ && _); auto.
  constructor; [apply IH; auto|]. apply Forall_forall. intros y Hy. apply filter_In in Hy as [Hy _].
  rewrite Forall_forall in A2. auto.
Qed.

(** C34: the result is the part of the longer sequence inside the closed time
    range of the shorter one, in order; if both are equally long the second
    argument is the reference. Missing: the documented strict bounds and
    independence of the argument order (both refuted below). *)
Theorem C34_lerp_timestamps_partial : forall t0 t1, t0 <> [] -> t1 <> [] ->
  lerp_timestamps t0 t1 =
    Ret (if (length t1 <? length t0)%nat then requested t0 t1 else requested t1 t0).
Proof.
  intros t0 t1 H0 H1. unfold lerp_timestamps, requested.
  destruct (Nat.ltb_spec (length t1) (length t0)).
  - rewrite (back_last t1) by auto. destruct t1; [congruence|reflexivity].
  - rewrite (back_last t0) by auto. destruct t0; [congruence|reflexivity].
Qed.

(** Every returned stamp is a stamp of the reference within the range of the
    other signal, nothing inside that range is left out, and order is kept. *)
Theorem C34_members : forall t0 t1 r, (length t1 < length t0)%nat -> t1 <> [] ->
  lerp_timestamps t0 t1 = Ret r ->
  (forall t, In t r <-> In t t0 /\ hd 0 t1 <= t <= last t1 0) /\
  (ascending t0 -> ascending r).
Proof.
  intros t0 t1 r L N E. rewrite C34_lerp_timestamps_partial in E; auto.
  2:{ intros ->. simpl in L. lia. }
  destruct (Nat.ltb_spec (length t1) (length t0)); [|lia]. inversion E; subst. split.
  - intros t. unfold requested. rewrite filter_In, andb_true_iff, !Z.leb_le. tauto.
  - intros A. now apply requested_asc.
Qed.

(** Documentation (core.hpp 1379-1383): "interp start > target start" and
    "interp end < target end". Stamps equal to the bounds are returned. *)
Theorem C34_strict_bounds_refuted :
  lerp_timestamps [0; 1; 2; 3] [0; 3] = Ret [0; 1; 2; 3].
Proof. reflexivity. Qed.
(** With equally long inputs the result depends on the argument order. *)
Theorem C34_argument_order_refuted :
  lerp_timestamps [0; 10; 20] [5; 15; 25] = Ret [5; 15] /\
  lerp_timestamps [5; 15; 25] [0; 10; 20] = Ret [10; 20].
Proof. split; reflexivity. Qed.
(** An empty signal makes the function read [front()] of an empty deque. *)
Theorem C34_empty_input_refuted : forall t, lerp_timestamps t [] = Undef /\ lerp_timestamps [] t = Undef.
Proof.
  intros t. split; [|reflexivity].
  destruct t; reflexivity.
Qed.

(** ** C35 *)
(** Whatever lerp_data returns (without keep_old): the stamps are the first
    ones of the requested list, there is one value per stamp, and every value
    lies on a segment between two samples of the signal around that stamp.
    Missing: that the two samples are consecutive, that all requested stamps
    are served and that the function is total (refuted below). *)
Theorem C35_values_on_segment_partial : forall ls ts vs rts rvs,
  ascending ls -> ascending ts -> Forall (fun l => hd 0 ts <= l) ls ->
  lerp_data ls ts vs false = Ret (rts, rvs) ->
  (exists rest, ls = rts ++ rest) /\ length rts = length rvs /\
  (forall l v, In (l, v) (combine rts rvs) -> on_chord (combine ts vs) l v).
Proof.
  intros ls ts vs rts rvs A At Hl E. unfold lerp_data in E.
  destruct ts as [|t0 ts]; [discriminate|]. destruct vs as [|v0 vs]; [discriminate|].
  apply (lerp_loop_chord (combine (t0 :: ts) (v0 :: vs))) in E; auto.
  - destruct E as ((u & r & U1 & U2) & E2 & E3). simpl in *. subst u. split; eauto.
  - left; auto.
  - intros x Hx; right; auto.
  - intros l v [].
Qed.

(** If there is a requested stamp strictly between any two consecutive samples
    and all requested stamps are in the range of the signal, then lerp_data
    returns exactly one sample per requested stamp, each the piecewise linear
    interpolant of the signal. *)
Theorem C35_exact_when_dense : forall ls ts vs,
  ascending ls -> ascending ts -> (2 <= length ts)%nat -> length vs = length ts ->
  (forall l, In l ls -> hd 0 ts <= l <= last ts 0) -> dense ls ts ->
  exists rvs, lerp_data ls ts vs false = Ret (ls, rvs) /\ length rvs = length ls /\
    (forall l v, In (l, v) (combine ls rvs) -> interpolant (combine ts vs) l v).
Proof.
  intros ls ts vs A At L2 Hv Hr D.
  destruct ts as [|t0 ts]; [simpl in L2; lia|]. destruct vs as [|v0 vs]; [discriminate|].
  unfold lerp_data. simpl in L2, Hv.
  destruct (lerp_loop_dense ts vs ls t0 v0 [] [] []) as (rvs & E & E2 & E3); auto.
  - apply Forall_forall. intros l Hl. apply Hr in Hl. simpl in Hl. lia.
  - intros ->. destruct ts as [|t1 ts]; auto.
    destruct (D t0 t1 (neigh_cons _ _ _)) as (x & [] & _).
  - apply Forall_forall. intros l Hl. apply Hr in Hl. lia.
  - left. destruct ts; [simpl in L2; lia|discriminate].
  - intros l v [].
  - exists rvs. simpl in *. auto.
Qed.

(** Reads [lerp_ts] out of bounds as soon as a sample follows the one that
    served the last requested stamp. *)
Theorem C35_out_of_bounds_refuted : forall va vb vc,
  lerp_data [0; 1; 2] [0; 3; 10] [va; vb; vc] false = Undef.
Proof. reflexivity. Qed.
(** A requested stamp equal to the last sample is dropped when nothing else is
    requested after the last but one sample. *)
Theorem C35_last_stamp_dropped_refuted : forall va vb vc, exists vs,
  lerp_data [0; 1; 2; 10] [0; 3; 10] [va; vb; vc] false = Ret ([0; 1; 2], vs).
Proof. intros. eexists. reflexivity. Qed.
(** The value requested at 25 from samples at 0, 10, 20, 30 (values 0, 0, 0, 60)
    is 50 (line from sample 0 to sample 30) instead of 30. *)
Theorem C35_neighbours_refuted :
  exists v, lerp_data [25] [0; 10; 20; 30] [vzero; vzero; vzero; V3 60 0 0] false = Ret ([25], [v]) /\
    vx v = 50%R /\
    (forall w, interpolant (combine [0; 10; 20; 30] [vzero; vzero; vzero; V3 60 0 0]) 25 w -> vx w = 30%R).
Proof.
  eexists. split; [reflexivity|]. split.
  - unfold lerp, secs, vadd, vscale; simpl. lra.
  - intros w (a & b & (p & q & E) & H & ->).
    destruct p as [|x1 [|x2 [|x3 [|x4 p]]]]; simpl in E; inversion E; subst; simpl in *; try lia.
    + unfold vadd, vscale, vsub; simpl. lra.
    + destruct p; discriminate.
Qed.

(** The double test [((ts - lerp) * 1e-9) > 0] is the integer comparison. *)
Theorem C35_float_test_exact : forall ts l, - 2 ^ 63 <= ts - l < 2 ^ 63 ->
  let x := B2R (dmul (dbl_of_Z (ts - l)) d1em9) in
  ((0 < x)%R <-> l < ts).
Proof.
  intros ts l H x. unfold x.
  destruct (sec_analysis (ts - l)) as (X & Y & EX & EY & HB & _ & A & B & C & P & N).
  { unfold two63. lia. }
  rewrite HB. assert (C9 : (0 < c9)%R) by (unfold c9; lra). split; intros L.
  - destruct (Z_lt_le_dec l ts) as [|G]; auto. exfalso.
    assert (X <= 0)%R by (apply N; lia).
    assert (Y <= 0)%R; [|lra]. rewrite EY, <- rnd64_0. apply rnd64_le.
    assert (0 <= - X * c9)%R; [|lra]. apply Rmult_le_pos; lra.
  - assert (X1 : (1 <= X)%R).
    { rewrite EX. rewrite <- (rnd64_small 1) by lia. apply rnd64_le, IZR_le; lia. }
    rewrite (Rabs_right (X * c9)) in B.
    2:{ apply Rle_ge, Rmult_le_pos; lra. }
    apply Raux.Rabs_le_inv in B. unfold u53 in B.
    assert (0 < X * c9)%R by (apply Rmult_lt_0_compat; lra). lra.
Qed.

(** ** C62: lerp_data(ts0, vs0, ts1, vs1) synchronises both signals *)
Lemma align_self ls (vs : list vec3) : ls <> [] -> length vs = length ls ->
  align_front ls ls vs = Ret (ls, vs) /\ align_back ls ls vs = Ret (ls, vs).
Proof.
  intros N L. split.
  - unfold align_front. destruct ls as [|l ls]; [congruence|]. simpl.
    now rewrite Z.ltb_irrefl.
  - unfold align_back, back. destruct (rev ls) as [|l r] eqn:E.
    { apply (f_equal (@length Z)) in E. rewrite rev_length in E. destruct ls; [congruence|discriminate]. }
    simpl. rewrite Z.ltb_irrefl. change (rev r ++ [l]) with (rev (l :: r)).
    rewrite <- E, !rev_involutive. auto.
Qed.

Lemma base_part tb (vb : list vec3) tt : ascending tb -> length vb = length tb ->
  let ls := requested tb tt in ls <> [] ->
  exists t1 v1 t2 v2, align_front ls tb vb = Ret (t1, v1) /\ align_back ls t1 v1 = Ret (t2, v2) /\
    t2 = ls /\ length v2 = length t2 /\
    (forall l v, In (l, v) (combine t2 v2) -> In (l, v) (combine tb vb)).
Proof.
  intros A L ls N.
  assert (Als : ascending ls) by (apply requested_asc; auto).
  assert (Hin : forall l, In l ls -> In l tb /\ hd 0 tt <= l <= last tt 0).
  { intros l. unfold ls, requested. rewrite filter_In, andb_true_iff, !Z.leb_le. tauto. }
  destruct ls as [|l0 ls'] eqn:Els; [congruence|].
  destruct (align_front_loop_spec l0 tb vb) as (t1 & v1 & E1 & L1 & C1 & A1); auto.
  { exists l0. split; [apply Hin; left; auto|lia]. }
  set (hi := last (l0 :: ls') 0).
  assert (Hhi : In hi (l0 :: ls')).
  { unfold hi. rewrite (app_removelast_last 0 (l := l0 :: ls')) by discriminate.
    rewrite last_last. apply in_or_app. right; left; auto. }
  assert (M1 : map fst (combine t1 v1) = t1).
  { clear - L1. revert v1 L1; induction t1; intros [|]; simpl; intros; try discriminate; auto.
    f_equal. auto. }
  assert (T1 : t1 = filter (fun x => l0 <=? x) tb).
  { rewrite <- M1, C1. apply (filter_combine_fst (fun x => l0 <=? x)). auto. }
  destruct (align_back_loop_spec hi t1 v1) as (t2 & v2 & E2 & L2 & C2); auto.
  { exists hi. split; [|lia]. rewrite T1. apply filter_In. split; [apply Hin; auto|].
    apply Z.leb_le. destruct Hhi as [E0|Hhi]; [lia|].
    inversion Als as [|? ? ? G]; subst. rewrite Forall_forall in G. apply G in Hhi. lia. }
  exists t1, v1, t2, v2. split; [exact E1|]. split.
  { unfold align_back. rewrite back_last by discriminate. exact E2. }
  assert (M2 : map fst (combine t2 v2) = t2).
  { clear - L2. revert v2 L2; induction t2; intros [|]; simpl; intros; try discriminate; auto.
    f_equal. auto. }
  assert (T2 : t2 = filter (fun x => x <=? hi) t1).
  { rewrite <- M2, C2. apply (filter_combine_fst (fun x => x <=? hi)). auto. }
  split; [|split; [auto|]].
  - rewrite T2, T1. transitivity (requested tb tt); auto. unfold requested.
    rewrite <- Els in Hhi, Hin, Als.
    assert (H0in : In l0 ls) by (rewrite Els; left; auto).
    assert (Hmin : forall x, In x ls -> l0 <= x).
    { intros x Hx. rewrite Els in Hx. destruct Hx as [ -> |Hx]; [lia|].
      rewrite Els in Als. inversion Als as [|? ? ? G]; subst.
      rewrite Forall_forall in G. apply G in Hx. lia. }
    assert (Hmax : forall x, In x ls -> x <= hi).
    { intros x Hx. unfold hi. rewrite <- Els. apply asc_last_max; auto. }
    destruct (Hin _ H0in) as [_ R0]. destruct (Hin _ Hhi) as [_ R1].
    clear - Hmin Hmax R0 R1.
    assert (K : forall x, In x tb -> (l0 <=? x) && (x <=? hi) = (hd 0 tt <=? x) && (x <=? last tt 0)).
    { intros x Hx. destruct ((hd 0 tt <=? x) && (x <=? last tt 0)) eqn:G.
      - assert (In x ls) by (apply filter_In; auto).
        rewrite andb_true_iff, !Z.leb_le. split; auto.
      - rewrite andb_false_iff, !Z.leb_gt in *. lia. }
    clear - K. induction tb as [|x tb IH]; simpl; auto.
    assert (Kx := K x (or_introl eq_refl)).
    destruct (l0 <=? x) eqn:G1; simpl.
    + destruct (x <=? hi) eqn:G2; rewrite <- Kx; simpl; rewrite IH; auto; intros; apply K; right; auto.
    + rewrite <- Kx. simpl. apply IH. intros; apply K; right; auto.
  - intros l v H. rewrite C2 in H. apply filter_In in H as [H _].
    rewrite C1 in H. apply filter_In in H as [H _]. auto.
Qed.

Lemma dense_nonempty ls ts : dense ls ts -> (2 <= length ts)%nat -> ls <> [].
Proof.
  intros D L ->. destruct ts as [|a [|b ts]]; simpl in L; try lia.
  destruct (D a b (neigh_cons _ _ _)) as (x & [] & _).
Qed.

(** What synchronised means: both signals have exactly the requested stamps, the
    reference keeps its values and the target has the interpolated ones. *)
Definition synchronised (tb : list Z) (vb : list vec3) (tt : list Z) (vt : list vec3)
           (base target : list Z * list vec3) : Prop :=
  fst base = requested tb tt /\ fst target = requested tb tt /\
  length (snd base) = length (fst base) /\ length (snd target) = length (fst target) /\
  (forall l v, In (l, v) (combine (fst base) (snd base)) -> In (l, v) (combine tb vb)) /\
  (forall l v, In (l, v) (combine (fst target) (snd target)) -> interpolant (combine tt vt) l v).

(** If the reference has a stamp strictly between any two consecutive target
    samples the call succeeds and synchronises the signals, in both argument
    orders. Missing: signals without such stamps (refuted below). *)
Theorem C62_synchronises_partial : forall tb vb tt vt,
  ascending tb -> ascending tt -> length vb = length tb -> length vt = length tt ->
  (2 <= length tt)%nat -> dense (requested tb tt) tt ->
  ((length tt < length tb)%nat ->
     exists base target, lerp_sync tb vb tt vt = Ret (base, target) /\
       synchronised tb vb tt vt base target) /\
  ((length tt <= length tb)%nat ->
     exists base target, lerp_sync tt vt tb vb = Ret (target, base) /\
       synchronised tb vb tt vt base target).
Proof.
  intros tb vb tt vt Ab At Lb Lt L2 D.
  assert (N := dense_nonempty _ _ D L2).
  assert (Als := requested_asc tb tt Ab).
  destruct (base_part tb vb tt Ab Lb N) as (t1 & v1 & t2 & v2 & E1 & E2 & -> & V2 & S2).
  destruct (C35_exact_when_dense (requested tb tt) tt vt Als At L2 Lt) as (rv & R1 & R2 & R3); auto.
  { intros l. unfold requested. rewrite filter_In, andb_true_iff, !Z.leb_le. tauto. }
  destruct (align_self (requested tb tt) rv N R2) as [S3 S4].
  assert (Nt : tt <> []) by (intros ->; simpl in L2; lia).
  assert (Syn : synchronised tb vb tt vt (requested tb tt, v2) (requested tb tt, rv)).
  { unfold synchronised; simpl. auto 10. }
  split; intros LL.
  - exists (requested tb tt, v2), (requested tb tt, rv). split; [|exact Syn].
    unfold lerp_sync. rewrite C34_lerp_timestamps_partial; auto.
    2:{ intros ->. simpl in LL. lia. }
    destruct (Nat.ltb_spec (length tt) (length tb)); [|lia]. simpl.
    rewrite R1. simpl. rewrite S3. simpl. rewrite E1. simpl. rewrite S4. simpl. rewrite E2. reflexivity.
  - exists (requested tb tt, v2), (requested tb tt, rv). split; [|exact Syn].
    unfold lerp_sync. rewrite C34_lerp_timestamps_partial; auto.
    2:{ intros ->. simpl in LL. lia. }
    destruct (Nat.ltb_spec (length tb) (length tt)); [lia|]. simpl.
    rewrite R1. simpl. rewrite E1. simpl. rewrite S3. simpl. rewrite E2. simpl. rewrite S4. reflexivity.
Qed.

(** Without such stamps the signals can end up with different lengths ... *)
Theorem C62_different_lengths_refuted : forall v0 v1 v2 v3 v4 a b c,
  exists w, lerp_sync [0; 1; 2; 3; 10] [v0; v1; v2; v3; v4] [0; 3; 10] [a; b; c] =
  Ret (([0; 1; 2; 3; 10], [v0; v1; v2; v3; v4]), ([0; 1; 2; 3], w)).
Proof. intros. eexists. reflexivity. Qed.
(** ... or the call reads out of bounds: here the slow signal simply lasts longer. *)
Theorem C62_out_of_bounds_refuted : forall v0 v1 v2 v3 a b c,
  lerp_sync [0; 1; 2; 3] [v0; v1; v2; v3] [0; 3; 10] [a; b; c] = Undef.
Proof. intros. reflexivity. Qed.

(** Hypotheses are satisfiable: a 200 Hz / 100 Hz pair. *)
Example C62_example : 
  let tb := [0; 5; 10; 15; 20; 25; 30] in let tt := [2; 12; 22] in
  ascending tb /\ ascending tt /\ requested tb tt = [5; 10; 15; 20] /\ dense (requested tb tt) tt.
Proof.
  cbv zeta. split; [|split; [|split]].
  - repeat constructor; lia.
  - repeat constructor; lia.
  - reflexivity.
  - intros a b (p & q & E). destruct p as [|x [|y p]]; simpl in E; inversion E; subst.
    + exists 5. simpl. split; [auto|lia].
    + exists 15. simpl. split; [auto|lia].
    + destruct p as [|z [|? ?]]; discriminate.
Qed.
Example C35_example : exists v w,
  lerp_data [5; 15] [0; 10; 20] [V3 0 0 0; V3 10 2 4; V3 30 0 0] false = Ret ([5; 15], [v; w]) /\
  vx v = 5%R /\ vx w = 20%R.
Proof.
  do 2 eexists. split; [reflexivity|].
  split; unfold lerp, secs, vadd, vscale; simpl; lra.
Qed.

Print Assumptions C35_exact_when_dense.
Print Assumptions C62_synchronises_partial.
Print Assumptions C35_float_test_exact.
