(** * C52-C54, C68: camera models *)
From Coq Require Import Reals Lra Lia ZArith List Bool Psatz.
From Coquelicot Require Import Coquelicot.
From Verif Require Import GeomModel CameraModel.
Import ListNotations.
Local Open Scope R_scope.

(** ** Specification *)
(** Brown-Conrady (radial-tangential) distortion of a normalised image point *)
Definition radtan_spec (c : cam8) (p : vec2) : vec2 :=
  let x := v2x p in let y := v2y p in
  let r2 := x ^ 2 + y ^ 2 in
  let radial := 1 + d0 c * r2 + d1 c * r2 ^ 2 in
  V2 (x * radial + 2 * d2 c * x * y + d3 c * (r2 + 2 * x ^ 2))
     (y * radial + d2 c * (r2 + 2 * y ^ 2) + 2 * d3 c * x * y).
(** Kannala-Brandt (equidistant) distortion: the angle theta to the optical axis, tan theta = r,
    becomes theta_d = theta + k1 theta^3 + ... + k4 theta^9 *)
Definition equi_spec (c : cam8) (p : vec2) : vec2 :=
  let r := sqrt (v2x p ^ 2 + v2y p ^ 2) in
  let th := atan r in
  let thd := th + d0 c * th ^ 3 + d1 c * th ^ 5 + d2 c * th ^ 7 + d3 c * th ^ 9 in
  V2 (thd * (v2x p / r)) (thd * (v2y p / r)).
(** pixel of a point in front of the camera *)
Definition pixel (distort : cam8 -> vec2 -> vec2) (c : cam8) (p : vec3) : vec2 :=
  let q := distort c (V2 (vx p / vz p) (vy p / vz p)) in
  V2 (fx c * v2x q + cx c) (fy c * v2y q + cy c).
(** half-open and closed image rectangles *)
Definition inside (res : Z * Z) (z : vec2) : Prop :=
  0 <= v2x z < IZR (fst res) /\ 0 <= v2y z < IZR (snd res).
Definition inside_closed (res : Z * Z) (z : vec2) : Prop :=
  0 <= v2x z <= IZR (fst res) /\ 0 <= v2y z <= IZR (snd res).
Definition offaxis (p : vec3) : R := sqrt ((vx p / vz p) ^ 2 + (vy p / vz p) ^ 2).

Lemma rleb_spec a b : rleb a b = true <-> a <= b.
Proof. unfold rleb. destruct Rle_dec; split; intros; auto; try lra; discriminate. Qed.
Lemma rltb_spec a b : rltb a b = true <-> a < b.
Proof. unfold rltb. destruct Rlt_dec; split; intros; auto; try lra; discriminate. Qed.
Lemma radtan_distort_spec c p : radtan4_distort c p = radtan_spec c p.
Proof. unfold radtan4_distort, radtan_spec. f_equal; ring. Qed.
Lemma norm2_spec p : norm2 p = sqrt (v2x p ^ 2 + v2y p ^ 2).
Proof. unfold norm2. f_equal. ring. Qed.
Lemma equi_distort_spec c p : / 10 ^ 8 <= norm2 p -> equi4_distort c p = equi_spec c p.
Proof.
  intros H. unfold equi4_distort, equi_spec. rewrite <- norm2_spec. destruct Rlt_dec; [lra|].
  assert (0 < / 10 ^ 8) by (apply Rinv_0_lt_compat, pow_lt; lra).
  unfold equi4_thd. f_equal; field; lra.
Qed.

(** ** C52 *)
Theorem C52_radtan4 : forall res c p,
  (code (pinhole_radtan4_project res c p) = 0%Z <->
     0 < vz p /\ inside res (pixel radtan_spec c p)) /\
  (vz p <> 0 -> zhat (pinhole_radtan4_project res c p) = Some (pixel radtan_spec c p)) /\
  (code (pinhole_radtan4_project res c p) = 0%Z \/ code (pinhole_radtan4_project res c p) = (-1)%Z).
Proof.
  intros res c p. unfold pinhole_radtan4_project, project_point.
  destruct (Req_EM_T (vz p) 0) as [Z|Z]; cbn [code zhat].
  - repeat split; try discriminate; try tauto; try (intros [? _]; lra).
  - rewrite radtan_distort_spec. fold (pixel radtan_spec c p).
    change (V2 _ _) with (pixel radtan_spec c p). set (z := pixel radtan_spec c p).
    unfold inside.
    destruct ((rleb 0 (v2x z) && rltb (v2x z) (IZR (fst res))) &&
              (rleb 0 (v2y z) && rltb (v2y z) (IZR (snd res))) && rltb 0 (vz p)) eqn:E.
    + rewrite !andb_true_iff, !rleb_spec, !rltb_spec in E. repeat split; auto; intuition.
    + split; [split; [discriminate|]|auto]. intros [A [[B C] [D F]]]. exfalso. apply Bool.diff_true_false.
      rewrite <- E. symmetry. rewrite !andb_true_iff, !rleb_spec, !rltb_spec. auto.
Qed.
Theorem C52_equi4_partial : forall res c p, / 10 ^ 8 <= offaxis p \/ vz p <= 0 ->
  (code (pinhole_equi4_project res c p) = 0%Z <->
     0 < vz p /\ inside_closed res (pixel equi_spec c p)) /\
  (0 < vz p -> zhat (pinhole_equi4_project res c p) = Some (pixel equi_spec c p)).
Proof.
  intros res c p H. unfold pinhole_equi4_project, project_point.
  destruct (Rlt_dec (vz p) 0) as [N|N]; cbn [code zhat].
  { repeat split; try discriminate; try lra; try (intros [? _]; lra). }
  destruct (Req_EM_T (vz p) 0) as [Z|Z]; cbn [code zhat].
  { repeat split; try discriminate; try lra; try (intros [? _]; lra). }
  destruct H as [H|H]; [|lra].
  rewrite equi_distort_spec by (rewrite norm2_spec; exact H).
  change (V2 (fx c * _ + _) _) with (pixel equi_spec c p). set (z := pixel equi_spec c p).
  unfold inside_closed.
  destruct ((rleb 0 (v2x z) && rleb (v2x z) (IZR (fst res))) &&
            (rleb 0 (v2y z) && rleb (v2y z) (IZR (snd res)))) eqn:E.
  + rewrite !andb_true_iff, !rleb_spec in E. repeat split; auto; try lra; intuition.
  + split; [split; [discriminate|]|auto]. intros [A [[B C] [D F]]]. exfalso. apply Bool.diff_true_false.
    rewrite <- E. symmetry. rewrite !andb_true_iff, !rleb_spec. auto.
Qed.
(** closer to the axis than 1e-8 the point is not distorted at all *)
Theorem C52_equi4_on_axis : forall res c p, offaxis p < / 10 ^ 8 ->
  (code (pinhole_equi4_project res c p) = 0%Z <->
     0 < vz p /\ inside_closed res (pixel (fun _ q => q) c p)) /\
  (0 < vz p -> zhat (pinhole_equi4_project res c p) = Some (pixel (fun _ q => q) c p)).
Proof.
  intros res c p H. unfold pinhole_equi4_project, project_point.
  destruct (Rlt_dec (vz p) 0) as [N|N]; cbn [code zhat].
  { repeat split; try discriminate; try lra; try (intros [? _]; lra). }
  destruct (Req_EM_T (vz p) 0) as [Z|Z]; cbn [code zhat].
  { repeat split; try discriminate; try lra; try (intros [? _]; lra). }
  unfold equi4_distort. rewrite norm2_spec.
  change (sqrt _) with (offaxis p). destruct Rlt_dec; [|lra].
  change (V2 (fx c * _ + _) _) with (pixel (fun _ q => q) c p). set (z := pixel _ c p).
  unfold inside_closed.
  destruct ((rleb 0 (v2x z) && rleb (v2x z) (IZR (fst res))) &&
            (rleb 0 (v2y z) && rleb (v2y z) (IZR (snd res)))) eqn:E.
  + rewrite !andb_true_iff, !rleb_spec in E. repeat split; auto; try lra; intuition.
  + split; [split; [discriminate|]|auto]. intros [A [[B C] [D F]]]. exfalso. apply Bool.diff_true_false.
    rewrite <- E. symmetry. rewrite !andb_true_iff, !rleb_spec. auto.
Qed.
Theorem C52_pinhole_partial : forall res c p,
  (code (pinhole_project res c p) = 0%Z <->
     0 < vz p /\ inside_closed res (pixel (fun _ q => q) c p)) /\
  (vz p <> 0 -> zhat (pinhole_project res c p) = Some (pixel (fun _ q => q) c p)).
Proof.
  intros res c p. unfold pinhole_project, project_point.
  destruct (Req_EM_T (vz p) 0) as [Z|Z]; cbn [code zhat].
  { repeat split; try discriminate; try tauto; try (intros [? _]; lra). }
  change (V2 (fx c * _ + _) _) with (pixel (fun _ q => q) c p). set (z := pixel _ c p).
  unfold inside_closed.
  destruct ((rleb 0 (v2x z) && rleb (v2x z) (IZR (fst res))) &&
            (rleb 0 (v2y z) && rleb (v2y z) (IZR (snd res))) && rltb 0 (vz p)) eqn:E.
  + rewrite !andb_true_iff, !rleb_spec, !rltb_spec in E. repeat split; auto; intuition.
  + split; [split; [discriminate|]|auto]. intros [A [[B C] [D F]]]. exfalso. apply Bool.diff_true_false.
    rewrite <- E. symmetry. rewrite !andb_true_iff, !rleb_spec, !rltb_spec. auto.
Qed.
(** The models do not agree on the image border: without distortion and for a point on the
    optical axis with principal point (w, 0), which is outside of [0,w)x[0,h), the pinhole and
    equidistant models report success and the radial-tangential model failure. *)
Theorem C52_border_refuted : exists res c p,
  ~ inside res (pixel radtan_spec c p) /\ pixel radtan_spec c p = pixel (fun _ q => q) c p /\
  code (pinhole_radtan4_project res c p) <> 0%Z /\
  code (pinhole_equi4_project res c p) = 0%Z /\ code (pinhole_project res c p) = 0%Z.
Proof.
  exists (640, 480)%Z, (Cam 1 1 640 0 0 0 0 0), (V3 0 0 1).
  assert (P : pixel radtan_spec (Cam 1 1 640 0 0 0 0 0) (V3 0 0 1) = V2 640 0).
  { unfold pixel, radtan_spec; simpl. f_equal; lra. }
  assert (Q : pixel (fun _ q => q) (Cam 1 1 640 0 0 0 0 0) (V3 0 0 1) = V2 640 0).
  { unfold pixel; simpl. f_equal; lra. }
  assert (O : offaxis (V3 0 0 1) < / 10 ^ 8).
  { unfold offaxis; simpl. replace (0 / 1 * (0 / 1 * 1) + 0 / 1 * (0 / 1 * 1)) with 0 by field.
    rewrite sqrt_0. lra. }
  assert (NI : ~ inside (640, 480)%Z (V2 640 0)) by (unfold inside; simpl; lra).
  rewrite P, Q. repeat split; auto.
  - intros H. apply C52_radtan4 in H. rewrite P in H. tauto.
  - apply (C52_equi4_on_axis _ _ _ O). rewrite Q. unfold inside_closed; simpl. lra.
  - apply C52_pinhole_partial. rewrite Q. unfold inside_closed; simpl. lra.
Qed.
(** The pixel and the verdict depend on the viewing ray only. *)
Theorem C52_depends_on_ray : forall res c p s, 0 < s ->
  pinhole_radtan4_project res c (vscale s p) = pinhole_radtan4_project res c p /\
  pinhole_equi4_project res c (vscale s p) = pinhole_equi4_project res c p /\
  pinhole_project res c (vscale s p) = pinhole_project res c p.
Proof.
  intros res c p s Hs.
  assert (PP : project_point (vscale s p) = project_point p).
  { unfold project_point, vscale; cbn [vx vy vz].
    destruct (Req_EM_T (vz p) 0), (Req_EM_T (s * vz p) 0); auto.
    - exfalso. apply n. rewrite e. ring.
    - exfalso. apply Rmult_integral in e as [|]; lra.
    - f_equal. f_equal; field; lra. }
  assert (S1 : rltb 0 (vz (vscale s p)) = rltb 0 (vz p)).
  { apply eq_true_iff_eq. rewrite !rltb_spec. cbn [vscale vz]. split; intros.
    - apply Rmult_lt_reg_l with s; auto. lra. - now apply Rmult_lt_0_compat. }
  unfold pinhole_radtan4_project, pinhole_equi4_project, pinhole_project. rewrite PP, S1.
  repeat split; auto. destruct (Rlt_dec (vz p) 0), (Rlt_dec (vz (vscale s p)) 0); auto; cbn [vscale vz] in *.
  - exfalso. apply n. nra.
  - exfalso. apply n. nra.
Qed.
Example C52_ex : code (pinhole_radtan4_project (640, 480)%Z (Cam 500 500 320 240 0 0 0 0) (V3 0 0 2)) = 0%Z.
Proof. apply C52_radtan4. unfold inside, pixel, radtan_spec; simpl. lra. Qed.
Print Assumptions C52_radtan4.
Print Assumptions C52_equi4_partial.
Print Assumptions C52_equi4_on_axis.
Print Assumptions C52_pinhole_partial.
Print Assumptions C52_border_refuted.
Print Assumptions C52_depends_on_ray.
