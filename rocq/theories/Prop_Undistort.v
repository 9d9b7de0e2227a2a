(** * C68: undistortion inverts distortion *)
From Coq Require Import Reals Lra Lia ZArith List Bool Psatz.
From Coquelicot Require Import Coquelicot.
From Verif Require Import GeomModel CameraModel Prop_Camera Prop_Camera2.
Import ListNotations.
Local Open Scope R_scope.

(** ** Specification *)
Definition no_distortion (c : cam8) : Prop := d0 c = 0 /\ d1 c = 0 /\ d2 c = 0 /\ d3 c = 0.
(** the viewing ray of a point, scaled to depth 1 *)
Definition ray (p : vec3) : vec3 := V3 (vx p / vz p) (vy p / vz p) 1.
(** angle between the optical axis and the ray through the normalised point *)
Definition view_angle (p : vec2) : R := atan (sqrt (v2x p ^ 2 + v2y p ^ 2)).
(** how fast the equidistant distortion factor changes, over angles up to 1 rad *)
Definition equi_strength (c : cam8) : R :=
  2 * Rabs (d0 c) + 4 * Rabs (d1 c) + 6 * Rabs (d2 c) + 8 * Rabs (d3 c).

(** ** radial-tangential *)
(** A point that distorts to the given one is left alone by the refinement. *)
Theorem C68_radtan4_fixpoint_partial : forall c p n,
  let J := radtan4_point_jacobian c p in
  J 0%nat 0%nat * J 1%nat 1%nat - J 0%nat 1%nat * J 1%nat 0%nat <> 0 ->
  radtan4_iter n c (radtan4_distort c p) p = Some p.
Proof.
  intros c p n J H. destruct n; [reflexivity|]. cbn [radtan4_iter].
  cbn [v2x v2y]. rewrite !Rminus_diag_eq by auto. fold J. unfold gn_step, mulf, sum_to. cbn [nth].
  destruct Req_EM_T as [Q|Q].
  - exfalso. apply H. revert Q. generalize (J 0%nat 0%nat) (J 0%nat 1%nat) (J 1%nat 0%nat) (J 1%nat 1%nat).
    intros a b c' d Q. assert (S : (a * d - b * c') * (a * d - b * c') = 0) by (rewrite <- Q; ring). nra.
  - cbn [v2x v2y]. destruct Rlt_dec as [_|N].
    + f_equal. destruct p as [x y]; cbn [v2x v2y]. f_equal; ring.
    + exfalso. apply N. rewrite Rmult_0_l, Rplus_0_r. apply Rinv_0_lt_compat, pow_lt. lra.
Qed.
Lemma some_inj {A} (a b : A) : Some a = Some b -> a = b.
Proof. congruence. Qed.
Lemma radtan_undistort_zero c p : no_distortion c -> radtan4_undistort c p = Some p.
Proof.
  intros (A & B & C & D). unfold radtan4_undistort.
  assert (E : radtan4_distort c p = p).
  { rewrite radtan_distort_spec. unfold radtan_spec. rewrite A, B, C, D. destruct p as [px py]; cbn [v2x v2y]. f_equal; ring. }
  rewrite <- E at 1. apply C68_radtan4_fixpoint_partial.
  unfold radtan4_point_jacobian, rows; cbn [nth]. rewrite A, B, C, D. nra.
Qed.
Lemma norm_coords c q : fx c <> 0 -> fy c <> 0 ->
  normalized_coords c (V2 (fx c * v2x q + cx c) (fy c * v2y q + cy c)) = Some q.
Proof.
  intros A B. unfold normalized_coords. destruct Req_EM_T; [contradiction|]. destruct Req_EM_T; [contradiction|].
  f_equal. destruct q as [x y]; cbn [v2x v2y]. f_equal; field; auto.
Qed.
(** Without distortion, back projecting the pixel of a point gives exactly its viewing ray, and
    undistorting a pixel gives that pixel. *)
Theorem C68_radtan4_plain_partial : forall res c p z, no_distortion c -> fx c <> 0 -> fy c <> 0 ->
  (zhat (pinhole_radtan4_project res c p) = Some z ->
     pinhole_radtan4_back_project c z = Some (ray p)) /\
  pinhole_radtan4_undistort c z = Some z.
Proof.
  intros res c p z D A B. split.
  - unfold pinhole_radtan4_project, project_point. destruct Req_EM_T; cbn [zhat]; [discriminate|].
    intros H. apply some_inj in H. subst z. unfold pinhole_radtan4_back_project, back_project.
    match goal with |- context [radtan4_distort c ?q] => rewrite (norm_coords c (radtan4_distort c q)) by auto end.
    rewrite radtan_undistort_zero by auto.
    destruct D as (K0 & K1 & K2 & K3).
    rewrite radtan_distort_spec. unfold radtan_spec, ray; cbn [v2x v2y]. rewrite K0, K1, K2, K3. f_equal. f_equal; ring.
  - unfold pinhole_radtan4_undistort, undistort_pixel, normalized_coords.
    destruct Req_EM_T; [contradiction|]. destruct Req_EM_T; [contradiction|]. rewrite radtan_undistort_zero by auto.
    destruct z as [x y]; cbn [v2x v2y]. f_equal. f_equal; field; auto.
Qed.
(** For some cameras and pixels the refinement hits a singular Jacobian and no finite result
    comes out: k1 = -1/3 and the normalised point (1, 0). *)
Theorem C68_radtan4_refuted : exists c z, fx c <> 0 /\ fy c <> 0 /\
  pinhole_radtan4_back_project c z = None /\ pinhole_radtan4_undistort c z = None.
Proof.
  exists (Cam 1 1 0 0 (- / 3) 0 0 0), (V2 1 0). cbn [fx fy]. repeat split; try lra.
  all: unfold pinhole_radtan4_back_project, pinhole_radtan4_undistort, back_project, undistort_pixel, normalized_coords;
    cbn [fx fy cx cy v2x v2y]; destruct (Req_EM_T 1 0); [lra|];
    unfold radtan4_undistort; set (k := 4%nat); change 5%nat with (S k); cbn [radtan4_iter];
    unfold gn_step at 1; unfold radtan4_point_jacobian, mulf, sum_to, rows; cbn [nth d0 d1 d2 d3 v2x v2y];
    destruct (Req_EM_T _ 0) as [Q|Q]; [reflexivity|exfalso; apply Q; field].
Qed.

(** ** equidistant *)
Lemma thd_den c th : equi4_thd c th = th * equi4_den c th.
Proof. reflexivity. Qed.
Lemma diffpow_bound n a b : 0 <= a <= 1 -> 0 <= b <= 1 -> Rabs (a ^ n - b ^ n) <= INR n * Rabs (a - b).
Proof.
  intros Ha Hb. induction n as [|n IH].
  - simpl. rewrite Rminus_diag_eq by auto. rewrite Rabs_R0. lra.
  - replace (a ^ S n - b ^ S n) with (a * (a ^ n - b ^ n) + b ^ n * (a - b)) by (simpl; ring).
    eapply Rle_trans; [apply Rabs_triang|]. rewrite !Rabs_mult, S_INR.
    assert (0 <= b ^ n <= 1).
    { split; [apply pow_le; lra|]. rewrite <- (pow1 n). apply pow_incr. lra. }
    rewrite (Rabs_pos_eq a) by lra. rewrite (Rabs_pos_eq (b ^ n)) by lra.
    generalize (Rabs_pos (a - b)), (Rabs_pos (a ^ n - b ^ n)). nra.
Qed.
Lemma den_pow c th : equi4_den c th = 1 + d0 c * th ^ 2 + d1 c * th ^ 4 + d2 c * th ^ 6 + d3 c * th ^ 8.
Proof. unfold equi4_den. ring. Qed.
Lemma den_lip c a b : 0 <= a <= 1 -> 0 <= b <= 1 ->
  Rabs (equi4_den c a - equi4_den c b) <= equi_strength c * Rabs (a - b).
Proof.
  intros Ha Hb. rewrite !den_pow.
  replace (_ - _) with (d0 c * (a ^ 2 - b ^ 2) + (d1 c * (a ^ 4 - b ^ 4) + (d2 c * (a ^ 6 - b ^ 6) + d3 c * (a ^ 8 - b ^ 8)))) by ring.
  assert (P2 := diffpow_bound 2 a b Ha Hb). assert (P4 := diffpow_bound 4 a b Ha Hb).
  assert (P6 := diffpow_bound 6 a b Ha Hb). assert (P8 := diffpow_bound 8 a b Ha Hb).
  repeat (eapply Rle_trans; [apply Rabs_triang|]; try apply Rplus_le_compat_l).
  eapply Rle_trans.
  { apply Rplus_le_compat; [rewrite Rabs_mult; apply Rmult_le_compat_l; [apply Rabs_pos|exact P2]|].
    eapply Rle_trans; [apply Rabs_triang|].
    apply Rplus_le_compat; [rewrite Rabs_mult; apply Rmult_le_compat_l; [apply Rabs_pos|exact P4]|].
    eapply Rle_trans; [apply Rabs_triang|].
    apply Rplus_le_compat; [rewrite Rabs_mult; apply Rmult_le_compat_l; [apply Rabs_pos|exact P6]|].
    rewrite Rabs_mult; apply Rmult_le_compat_l; [apply Rabs_pos|exact P8]. }
  unfold equi_strength. simpl INR. lra.
Qed.
Lemma den_range c a : 0 <= a <= 1 -> equi_strength c <= 1 / 4 -> 7 / 8 <= equi4_den c a <= 9 / 8.
Proof.
  intros Ha Hs. rewrite den_pow.
  assert (P : forall n, 0 <= a ^ n <= 1).
  { intros n. split; [apply pow_le; lra|]. rewrite <- (pow1 n). apply pow_incr. lra. }
  assert (P2 := P 2%nat). assert (P4 := P 4%nat). assert (P6 := P 6%nat). assert (P8 := P 8%nat).
  revert P2 P4 P6 P8. generalize (a ^ 2) (a ^ 4) (a ^ 6) (a ^ 8). intros x2 x4 x6 x8 P2 P4 P6 P8.
  assert (B : forall k x, 0 <= x <= 1 -> - Rabs k <= k * x <= Rabs k).
  { intros k x Hx. unfold Rabs. destruct Rcase_abs; nra. }
  assert (B0 := B (d0 c) _ P2). assert (B1 := B (d1 c) _ P4). assert (B2 := B (d2 c) _ P6). assert (B3 := B (d3 c) _ P8).
  unfold equi_strength in Hs.
  generalize (Rabs_pos (d0 c)), (Rabs_pos (d1 c)), (Rabs_pos (d2 c)), (Rabs_pos (d3 c)). lra.
Qed.
(** one iteration is a contraction by 3/10 that stays within [0, 1] *)
Lemma step_contract c ths th : equi_strength c <= 1 / 4 -> 0 <= ths <= 3 / 4 -> 0 <= th <= 1 ->
  let th' := equi4_thd c ths / equi4_den c th in
  0 <= th' <= 1 /\ Rabs (th' - ths) <= 3 / 10 * Rabs (th - ths).
Proof.
  intros Hs Hth Ht th'. assert (R1 := den_range c ths ltac:(lra) Hs). assert (R2 := den_range c th Ht Hs).
  assert (L := den_lip c ths th ltac:(lra) Ht). unfold th'. rewrite thd_den.
  revert R1 R2 L. generalize (equi4_den c ths) (equi4_den c th). intros D1 D2 R1 R2 L.
  assert (V : 0 < D2) by lra. assert (I : 0 < / D2) by now apply Rinv_0_lt_compat.
  assert (ID : D2 * / D2 = 1) by (apply Rinv_r; lra).
  split; [split|].
  - unfold Rdiv. apply Rmult_le_pos; nra.
  - unfold Rdiv. assert (ths * D1 <= D2) by nra. rewrite <- ID. apply Rmult_le_compat_r; lra.
  - replace (ths * D1 / D2 - ths) with (ths * ((D1 - D2) * / D2)) by (field; lra).
    rewrite !Rabs_mult. rewrite (Rabs_pos_eq ths), (Rabs_pos_eq (/ D2)) by lra.
    rewrite (Rabs_minus_sym th ths). set (e := Rabs (ths - th)) in *. assert (0 <= e) by apply Rabs_pos.
    assert (Rabs (D1 - D2) <= 1 / 4 * e) by nra.
    assert (/ D2 <= 8 / 7).
    { apply Rmult_le_reg_l with D2; auto. rewrite ID. nra. }
    assert (0 <= Rabs (D1 - D2)) by apply Rabs_pos.
    assert (Rabs (D1 - D2) * / D2 <= 1 / 4 * e * (8 / 7)) by (apply Rmult_le_compat; lra).
    assert (0 <= Rabs (D1 - D2) * / D2) by (apply Rmult_le_pos; lra).
    eapply Rle_trans; [apply Rmult_le_compat; [lra| |apply Hth|exact H3]; lra|]. lra.
Qed.
Lemma iter_contract c ths : equi_strength c <= 1 / 4 -> 0 <= ths <= 3 / 4 ->
  forall n th, 0 <= th <= 1 -> exists th', equi4_iter n c (equi4_thd c ths) th = Some th' /\
    0 <= th' <= 1 /\ Rabs (th' - ths) <= (3 / 10) ^ n * Rabs (th - ths).
Proof.
  intros Hs Hth. induction n as [|n IH]; intros th Ht; cbn [equi4_iter].
  - exists th. split; [reflexivity|]. split; [auto|]. simpl. lra.
  - assert (R2 := den_range c th Ht Hs). destruct Req_EM_T; [lra|].
    destruct (step_contract c ths th Hs Hth Ht) as [B C].
    destruct (IH _ B) as (th' & E & B' & C'). exists th'. split; [exact E|]. split; [exact B'|].
    eapply Rle_trans; [exact C'|]. simpl. assert (0 <= (3 / 10) ^ n) by (apply pow_le; lra). nra.
Qed.
(** For every equidistant camera with moderate coefficients and every point seen at an angle of
    at most 3/4 rad (43 degrees), undistorting the distorted point gives a point of the same
    ray direction in the image plane, whose viewing angle differs by less than 1e-10 rad. *)
Theorem C68_equi4_partial : forall c p,
  equi_strength c <= 1 / 4 -> view_angle p <= 3 / 4 -> / 10 ^ 8 <= sqrt (v2x p ^ 2 + v2y p ^ 2) ->
  exists s, 0 <= s /\ let q := V2 (s * v2x p) (s * v2y p) in
    equi4_undistort c (equi4_distort c p) = Some q /\
    Rabs (view_angle q - view_angle p) <= / 10 ^ 10.
Proof.
  intros c p Hs Ha Hr. rewrite <- norm2_spec in Hr. unfold view_angle in *. rewrite <- norm2_spec in *.
  assert (E8 : 0 < / 10 ^ 8) by (apply Rinv_0_lt_compat, pow_lt; lra).
  set (r := norm2 p) in *. set (ths := atan r) in *.
  assert (T0 : 0 < ths) by (unfold ths; rewrite <- atan_0; apply atan_increasing; lra).
  assert (RS := den_range c ths ltac:(lra) Hs).
  assert (TD : 0 < equi4_thd c ths <= 1) by (rewrite thd_den; nra).
  set (thd := equi4_thd c ths) in *.
  assert (DIST : equi4_distort c p = V2 (thd / r * v2x p) (thd / r * v2y p)).
  { unfold equi4_distort. fold r. destruct Rlt_dec; [lra|]. reflexivity. }
  assert (NS : forall k, 0 <= k -> norm2 (V2 (k * v2x p) (k * v2y p)) = k * r).
  { intros k Hk. unfold r, norm2; cbn [v2x v2y].
    replace (_ + _) with ((k * k) * (v2x p * v2x p + v2y p * v2y p)) by ring.
    rewrite sqrt_mult; [rewrite sqrt_square by auto; reflexivity|nra|nra]. }
  assert (K : 0 < thd / r) by (apply Rdiv_lt_0_compat; lra).
  assert (ND : sqrt (v2x (equi4_distort c p) * v2x (equi4_distort c p) + v2y (equi4_distort c p) * v2y (equi4_distort c p)) = thd).
  { fold (norm2 (equi4_distort c p)). rewrite DIST, NS by lra. field. lra. }
  unfold equi4_undistort. rewrite ND.
  destruct (iter_contract c ths Hs ltac:(lra) 20 thd ltac:(lra)) as (th & E & B & C).
  fold thd in E. rewrite E. destruct (Req_EM_T thd 0); [lra|].
  assert (PI3 : 1 < PI / 2) by (generalize PI2_3_2; unfold PI2; lra).
  assert (TT : 0 <= tan th).
  { destruct (Req_dec th 0) as [->|]; [rewrite tan_0; lra|]. left. apply tan_gt_0; lra. }
  exists (tan th / r). split; [unfold Rdiv; apply Rmult_le_pos; [auto|]; left; apply Rinv_0_lt_compat; lra|].
  cbv zeta. split.
  - rewrite DIST. cbn [v2x v2y]. f_equal. f_equal; field; lra.
  - rewrite <- norm2_spec, NS by (unfold Rdiv; apply Rmult_le_pos; [auto|]; left; apply Rinv_0_lt_compat; lra).
    replace (tan th / r * r) with (tan th) by (field; lra).
    assert (AT : atan (tan th) = th) by (apply atan_tan; lra). rewrite AT.
    eapply Rle_trans; [exact C|].
    assert (Rabs (thd - ths) <= 1) by (unfold Rabs; destruct Rcase_abs; lra).
    eapply Rle_trans with ((3 / 10) ^ 20 * 1).
    { apply Rmult_le_compat_l; [apply pow_le; lra|auto]. }
    apply Rmult_le_reg_r with (10 ^ 20); [apply pow_lt; lra|].
    replace ((3 / 10) ^ 20 * 1 * 10 ^ 20) with (3 ^ 20) by (rewrite Rmult_1_r, <- Rpow_mult_distr; f_equal; lra).
    replace (/ 10 ^ 10 * 10 ^ 20) with (10 ^ 10).
    2: { replace (10 ^ 20) with (10 ^ 10 * 10 ^ 10) by ring. field. }
    lra.
Qed.
(** Without distortion the round trip is exact up to a quarter turn. *)
Theorem C68_equi4_plain_partial : forall res c p z, no_distortion c -> fx c <> 0 -> fy c <> 0 ->
  / 10 ^ 8 <= offaxis p -> 
  zhat (pinhole_equi4_project res c p) = Some z -> pinhole_equi4_back_project c z = Some (ray p).
Proof.
  intros res c p z (K0 & K1 & K2 & K3) A B Hr. unfold pinhole_equi4_project, project_point.
  destruct Rlt_dec; cbn [zhat]; [discriminate|]. destruct Req_EM_T; cbn [zhat]; [discriminate|].
  intros H. apply some_inj in H. subst z. unfold pinhole_equi4_back_project, back_project.
    match goal with |- context [equi4_distort c ?q] => rewrite (norm_coords c (equi4_distort c q)) by auto end.
  set (q := V2 (vx p / vz p) (vy p / vz p)).
  assert (NN : / 10 ^ 8 <= norm2 q) by (rewrite norm2_spec; exact Hr).
  assert (E8 : 0 < / 10 ^ 8) by (apply Rinv_0_lt_compat, pow_lt; lra).
  assert (T0 : 0 < atan (norm2 q)) by (rewrite <- atan_0; apply atan_increasing; lra).
  assert (TH : equi4_thd c (atan (norm2 q)) = atan (norm2 q)) by (unfold equi4_thd; rewrite K0, K1, K2, K3; ring).
  assert (DIST : equi4_distort c q = V2 (atan (norm2 q) / norm2 q * v2x q) (atan (norm2 q) / norm2 q * v2y q)).
  { unfold equi4_distort. destruct Rlt_dec; [lra|]. rewrite TH. reflexivity. }
  assert (ND : sqrt (v2x (equi4_distort c q) * v2x (equi4_distort c q) + v2y (equi4_distort c q) * v2y (equi4_distort c q)) = atan (norm2 q)).
  { rewrite DIST; cbn [v2x v2y]. replace (_ + _) with ((atan (norm2 q) / norm2 q) * (atan (norm2 q) / norm2 q) * (v2x q * v2x q + v2y q * v2y q)) by (unfold q; cbn [v2x v2y]; ring).
    rewrite <- norm2_sq. replace (_ * _) with (atan (norm2 q) * atan (norm2 q)) by (field; lra). apply sqrt_square. lra. }
  assert (IT : forall m th, equi4_iter m c th th = Some th).
  { induction m as [|m IH]; intros th; cbn [equi4_iter]; auto.
    assert (D1 : equi4_den c th = 1) by (unfold equi4_den; rewrite K0, K1, K2, K3; ring).
    rewrite D1. destruct (Req_EM_T 1 0); [lra|]. replace (th / 1) with th by field. apply IH. }
  unfold equi4_undistort. rewrite ND, IT. destruct Req_EM_T; [lra|]. cbn [v2x v2y]. rewrite tan_atan, DIST. cbn [v2x v2y].
  unfold ray. f_equal. f_equal; unfold q; cbn [v2x v2y]; field; unfold q in *; repeat split; lra.
Qed.
Lemma atan_1_lt : atan (1 / 2) <= 3 / 4.
Proof.
  assert (H : atan (1 / 2) < 1 / 2 \/ 1 / 2 <= atan (1 / 2)) by lra. destruct H; [lra|].
  destruct (Rle_dec (atan (1/2)) (3/4)); [auto|]. exfalso.
  assert (atan (1 / 2) < PI / 4) by (rewrite <- atan_1; apply atan_increasing; lra).
  assert (PI2 := PI2_3_2).
  assert (T : tan (3 / 4) < 1 / 2).
  { rewrite <- (tan_atan (1 / 2)). apply tan_increasing; lra. }
  (* tan x >= x on [0, pi/2) *)
  assert (S : 3 / 4 < tan (3 / 4)).
  { unfold tan. assert (0 < cos (3 / 4)) by (apply cos_gt_0; lra).
    apply Rmult_lt_reg_r with (cos (3 / 4)); auto. unfold Rdiv at 3. rewrite Rmult_assoc, Rinv_l by lra.
    destruct (MVT_cor2 (fun x => sin x - x * cos x) (fun x => x * sin x) 0 (3 / 4)) as (w & Ew & Hw); [lra| |].
    - intros w _. apply is_derive_Reals. auto_derive; auto. ring.
    - rewrite sin_0, Rmult_0_l in Ew. assert (0 < sin w) by (apply sin_gt_0; lra).
      assert (0 < w * sin w * (3 / 4 - 0)) by (apply Rmult_lt_0_compat; nra). lra. }
  lra.
Qed.
Example C68_equi_ex : let c := Cam 400 400 320 240 (1 / 100) (1 / 100) 0 0 in let p := V2 (1 / 2) 0 in
  equi_strength c <= 1 / 4 /\ view_angle p <= 3 / 4 /\ / 10 ^ 8 <= sqrt (v2x p ^ 2 + v2y p ^ 2).
Proof.
  cbv zeta. unfold equi_strength, view_angle; cbn [d0 d1 d2 d3 v2x v2y].
  replace ((1 / 2) ^ 2 + 0 ^ 2) with (1 / 2 * (1 / 2)) by ring. rewrite sqrt_square by lra.
  rewrite Rabs_R0, !Rabs_pos_eq by lra. split; [lra|]. split; [apply atan_1_lt|].
  apply Rmult_le_reg_l with (10 ^ 8); [apply pow_lt; lra|]. rewrite Rinv_r by (apply pow_nonzero; lra). lra.
Qed.
Print Assumptions C68_radtan4_plain_partial.
Print Assumptions C68_radtan4_fixpoint_partial.
Print Assumptions C68_radtan4_refuted.
Print Assumptions C68_equi4_partial.
Print Assumptions C68_equi4_plain_partial.
