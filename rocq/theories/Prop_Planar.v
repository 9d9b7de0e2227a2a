(** * C49, C50, C64, C65: angles, planar geometry, look-at, latitude/longitude *)
From Coq Require Import Reals Lra Lia List Psatz.
From Flocq Require Import Core.Raux.
From Verif Require Import GeomModel GeomSpec GeomProofs Prop_Geom PlanarModel.
Import ListNotations.
Local Open Scope R_scope.

(** ** Specification *)
(** [x] and [y] differ by a whole number of turns of [p]. *)
Definition congruent (p x y : R) : Prop := exists k : Z, x - y = p * IZR k.
(** distance of two points of the plane *)
Definition dist2 (p q : vec2) : R := sqrt ((v2x p - v2x q) ^ 2 + (v2y p - v2y q) ^ 2).
(** the points of the line through [a] and [b] (just [a] when they coincide) *)
Definition on_line (a b q : vec2) : Prop :=
  exists s, q = V2 (v2x a + s * (v2x b - v2x a)) (v2y a + s * (v2y b - v2y a)).
Definition on_circle (c : vec2) (r : R) (q : vec2) : Prop := 0 <= r /\ dist2 c q = r.

(** ** fmod *)
Lemma Ztrunc_bounds_nonneg q : 0 <= q -> IZR (Ztrunc q) <= q < IZR (Ztrunc q) + 1.
Proof. intros H. rewrite Ztrunc_floor by auto. split; [apply Zfloor_lb|apply Zfloor_ub]. Qed.
Lemma Ztrunc_bounds_neg q : q < 0 -> q <= IZR (Ztrunc q) < q + 1.
Proof.
  intros H. rewrite Ztrunc_ceil by lra. split; [apply Zceil_ub|].
  generalize (Zceil_floor_neq q). intros N.
  destruct (Req_dec (IZR (Zfloor q)) q) as [E|E].
  - rewrite <- E, Zceil_IZR. lra.
  - rewrite N by auto. rewrite plus_IZR.
    generalize (Zfloor_lb q). intros. destruct (Rle_lt_or_eq_dec _ _ H0); lra.
Qed.
Lemma fmod_range x y : 0 < y -> (0 <= x -> 0 <= fmod x y < y) /\ (x < 0 -> - y < fmod x y <= 0).
Proof.
  intros Hy. unfold fmod. assert (E : x = y * (x / y)) by (field; lra).
  split; intros Hx.
  - assert (Q : 0 <= x / y) by (apply Rmult_le_reg_l with y; auto; rewrite <- E; lra).
    destruct (Ztrunc_bounds_nonneg _ Q). rewrite E at 1 3. split.
    + assert (0 <= y * (x / y - IZR (Ztrunc (x / y)))) by (apply Rmult_le_pos; lra). lra.
    + assert (y * (x / y - IZR (Ztrunc (x / y))) < y * 1) by (apply Rmult_lt_compat_l; lra). lra.
  - assert (Q : x / y < 0) by (apply Rmult_lt_reg_l with y; auto; rewrite <- E; lra).
    destruct (Ztrunc_bounds_neg _ Q). rewrite E at 1 3. split.
    + assert (y * -1 < y * (x / y - IZR (Ztrunc (x / y)))) by (apply Rmult_lt_compat_l; lra). lra.
    + assert (0 <= y * (IZR (Ztrunc (x / y)) - x / y)) by (apply Rmult_le_pos; lra). lra.
Qed.
Lemma fmod_congruent x y : congruent y x (fmod x y).
Proof. exists (Ztrunc (x / y)). unfold fmod. lra. Qed.

(** C49 congruence: the wrapped angle is the same direction, for every input. *)
Theorem C49_congruent : forall x,
  congruent 360 x (wrap180 x) /\ congruent 360 x (wrap360 x) /\
  congruent (2 * PI) x (wrapPi x) /\ congruent (2 * PI) x (wrap2Pi x).
Proof.
  assert (A : forall x, congruent 360 x (wrap180 x)).
  { intros x. destruct (fmod_congruent (x + 180) 360) as [k E]. exists k. unfold wrap180. lra. }
  assert (B : forall x, congruent 360 x (wrap360 x)).
  { intros x. unfold wrap360. destruct Rlt_dec; [apply fmod_congruent|].
    destruct (fmod_congruent (x + 360) 360) as [k E]. exists (k - 1)%Z. rewrite minus_IZR. lra. }
  assert (C : forall f x, congruent 360 (rad2deg x) (f (rad2deg x)) ->
                          congruent (2 * PI) x (deg2rad (f (rad2deg x)))).
  { intros f x [k E]. exists k. unfold deg2rad.
    replace x with (rad2deg x * (PI / 180)) at 1 by (unfold rad2deg; field; apply PI_neq0).
    replace (rad2deg x * (PI / 180) - f (rad2deg x) * (PI / 180))
      with ((rad2deg x - f (rad2deg x)) * (PI / 180)) by lra. rewrite E. field. }
  intros x. repeat split; auto; apply C; auto.
Qed.

(** C49 range, with the exact domain on which it holds: wrap180 lands in [-180,180) exactly for
    angles >= -180 and the odd multiples of 180; wrap360 lands in [0,360) exactly for angles
    >= -360 and multiples of 360. *)
Theorem C49_range_partial : forall x,
  ((-180 <= wrap180 x < 180) <-> (-180 <= x \/ congruent 360 x (-180))) /\
  ((0 <= wrap360 x < 360) <-> (-360 <= x \/ congruent 360 x 0)).
Proof.
  intros x. split.
  - destruct (Rle_dec (-180) x) as [H|H].
    + destruct (fmod_range (x + 180) 360) as [P _]; [lra|].
      unfold wrap180. split; intros; [now left|]. assert (0 <= x + 180) by lra. specialize (P H1). lra.
    + destruct (fmod_range (x + 180) 360) as [_ P]; [lra|]. assert (Q : x + 180 < 0) by lra. specialize (P Q).
      destruct (C49_congruent x) as [[k E] _]. unfold wrap180 in *. split.
      * intros R. right. exists k. replace (fmod (x + 180) 360) with 0 in E by lra. lra.
      * intros [?|[m M]]; [lra|].
        assert (K : fmod (x + 180) 360 = 360 * IZR (m - k)) by (rewrite minus_IZR; lra).
        rewrite K in P. assert (m - k = 0)%Z.
        { assert (-1 < IZR (m - k) <= 0) by lra. destruct H0 as [H1 H2].
          apply lt_IZR in H1. apply le_IZR in H2. lia. }
        rewrite H0 in K. rewrite K. lra.
  - unfold wrap360. destruct Rlt_dec as [H|H].
    + destruct (fmod_range x 360) as [P _]; [lra|]. split; intros; [left; lra|]. apply P. lra.
    + destruct (Rle_dec (-360) x) as [G|G].
      * destruct (fmod_range (x + 360) 360) as [P _]; [lra|]. split; intros; [now left|]. apply P. lra.
      * destruct (fmod_range (x + 360) 360) as [_ P]; [lra|]. assert (Q : x + 360 < 0) by lra. specialize (P Q).
        destruct (fmod_congruent (x + 360) 360) as [k E]. split.
        -- intros R. right. exists (k - 1)%Z. rewrite minus_IZR. lra.
        -- intros [?|[m M]]; [lra|].
           assert (K : fmod (x + 360) 360 = 360 * IZR (m + 1 - k)) by (rewrite minus_IZR, plus_IZR; lra).
           rewrite K in P. assert (m + 1 - k = 0)%Z.
           { assert (-1 < IZR (m + 1 - k) <= 0) by lra. destruct H0 as [H1 H2].
             apply lt_IZR in H1. apply le_IZR in H2. lia. }
           rewrite H0 in K. rewrite K. lra.
Qed.

(** the same for radians *)
Theorem C49_radians_partial : forall x, - PI <= x ->
  - PI <= wrapPi x < PI /\ 0 <= wrap2Pi x < 2 * PI.
Proof.
  intros x H. assert (P := PI_RGT_0). unfold wrapPi, wrap2Pi.
  assert (D : -180 <= rad2deg x).
  { unfold rad2deg. apply Rmult_le_reg_r with (PI / 180); [lra|].
    replace (x * (180 / PI) * (PI / 180)) with x by (field; lra). lra. }
  destruct (C49_range_partial (rad2deg x)) as [[_ A] [_ B]].
  specialize (A (or_introl D)). assert (D' : -360 <= rad2deg x) by lra. specialize (B (or_introl D')).
  unfold deg2rad. split; split.
  - replace (- PI) with (-180 * (PI / 180)) by field. apply Rmult_le_compat_r; lra.
  - replace PI with (180 * (PI / 180)) at 2 by field. apply Rmult_lt_compat_r; lra.
  - apply Rmult_le_pos; lra.
  - replace (2 * PI) with (360 * (PI / 180)) by field. apply Rmult_lt_compat_r; lra.
Qed.

(** The claim is false below: wrap180(-270) = -270 and wrap360(-450) = -90. *)
Theorem C49_negative_angles_refuted :
  ~ (forall x, -180 <= wrap180 x < 180) /\ ~ (forall x, 0 <= wrap360 x < 360) /\
  wrap180 (-270) = -270 /\ wrap360 (-450) = -90.
Proof.
  assert (T : Ztrunc (-90 / 360) = 0%Z).
  { rewrite Ztrunc_ceil by lra. apply Zceil_imp. simpl. lra. }
  assert (A : wrap180 (-270) = -270).
  { unfold wrap180, fmod. replace ((-270 + 180) / 360) with (-90 / 360) by lra. rewrite T. simpl. lra. }
  assert (B : wrap360 (-450) = -90).
  { unfold wrap360, fmod. destruct Rlt_dec; [lra|].
    replace ((-450 + 360) / 360) with (-90 / 360) by lra. rewrite T. simpl. lra. }
  split; [|split; [|split; auto]].
  - intros H. specialize (H (-270)). lra.
  - intros H. specialize (H (-450)). lra.
Qed.
Example C49_ex : wrap180 270 = -90 /\ wrap360 (-90) = 270.
Proof.
  unfold wrap180, wrap360, fmod. split.
  - replace (Ztrunc ((270 + 180) / 360)) with 1%Z; [simpl; lra|].
    rewrite Ztrunc_floor by lra. symmetry. apply Zfloor_imp. simpl. lra.
  - destruct Rlt_dec; [lra|]. replace (Ztrunc ((-90 + 360) / 360)) with 0%Z; [simpl; lra|].
    rewrite Ztrunc_floor by lra. symmetry. apply Zfloor_imp. simpl. lra.
Qed.
Print Assumptions C49_congruent.
Print Assumptions C49_range_partial.
Print Assumptions C49_radians_partial.
Print Assumptions C49_negative_angles_refuted.

(** ** C50 *)
Lemma sq2_pos a b : 0 <= a ^ 2 + b ^ 2.
Proof. generalize (pow2_ge_0 a), (pow2_ge_0 b). lra. Qed.
Lemma sum_sq_zero x y : x ^ 2 + y ^ 2 = 0 -> x = 0 /\ y = 0.
Proof. intros H. split; nra. Qed.
Lemma v2_ext p q : v2x p = v2x q -> v2y p = v2y q -> p = q.
Proof. destruct p, q; simpl; intros; subst; auto. Qed.
Lemma dist2_0 p q : dist2 p q = 0 -> p = q.
Proof.
  intros H. unfold dist2 in H.
  assert (K : (v2x p - v2x q) ^ 2 + (v2y p - v2y q) ^ 2 = 0).
  { apply sqrt_eq_0; auto. apply sq2_pos. }
  apply sum_sq_zero in K as [A B]. apply v2_ext; lra.
Qed.
Lemma dist2_sq p q : dist2 p q ^ 2 = (v2x p - v2x q) ^ 2 + (v2y p - v2y q) ^ 2.
Proof. unfold dist2. rewrite <- Rsqr_pow2. apply Rsqr_sqrt. apply sq2_pos. Qed.
Lemma dist2_pos p q : 0 <= dist2 p q.
Proof. apply sqrt_pos. Qed.
Lemma dist2_le p q a : 0 <= a -> (v2x p - v2x q) ^ 2 + (v2y p - v2y q) ^ 2 <= a ^ 2 -> dist2 p q <= a.
Proof.
  intros Ha H. apply Rsqr_incr_0_var; auto. rewrite !Rsqr_pow2, dist2_sq. auto.
Qed.

(** closest_point returns a point of the line that is nearest to the query, for all points
    (also when the two points of the line coincide), and the returned number is its position
    on the line, measured in units of [b - a]. *)
Theorem C50_closest_point : forall a b p,
  on_line a b (snd (closest_point a b p)) /\
  (forall q, on_line a b q -> dist2 p (snd (closest_point a b p)) <= dist2 p q) /\
  (a <> b -> let t := fst (closest_point a b p) in
     snd (closest_point a b p) = V2 (v2x a + t * (v2x b - v2x a)) (v2y a + t * (v2y b - v2y a))) /\
  (a = b -> closest_point a b p = (-1, a)).
Proof.
  intros a b p. unfold closest_point. change (sqrt _) with (dist2 a b) at 1.
  fold (dist2 a b). destruct (Req_EM_T (dist2 a b) 0) as [E|E].
  - apply dist2_0 in E. subst b. simpl. repeat split; auto; try congruence.
    + exists 0. apply v2_ext; simpl; lra.
    + intros q [s ->]. apply dist2_le; [apply dist2_pos|]. rewrite dist2_sq. simpl. right. f_equal; f_equal; lra.
  - simpl. set (vx2 := v2x b - v2x a). set (vy2 := v2y b - v2y a).
    assert (N : 0 < vx2 ^ 2 + vy2 ^ 2).
    { destruct (Rle_lt_dec (vx2 ^ 2 + vy2 ^ 2) 0) as [C|C]; auto. exfalso. apply E.
      assert (K : vx2 = 0 /\ vy2 = 0) by (split; nra). destruct K. unfold vx2, vy2 in *.
      unfold dist2. replace (v2x a - v2x b) with 0 by lra. replace (v2y a - v2y b) with 0 by lra.
      rewrite pow_i, Rplus_0_r, sqrt_0 by lia. auto. }
    replace (vx2 * (vx2 * 1) + vy2 * (vy2 * 1)) with (vx2 ^ 2 + vy2 ^ 2) by ring.
    set (t := _ / _).
    assert (T : t * (vx2 ^ 2 + vy2 ^ 2) = (v2x p - v2x a) * vx2 + (v2y p - v2y a) * vy2).
    { unfold t. field. lra. }
    repeat split.
    + exists t. reflexivity.
    + intros q [s ->]. apply dist2_le; [apply dist2_pos|]. rewrite dist2_sq. simpl v2x; simpl v2y.
      fold vx2 vy2.
      assert (H : (v2x p - (v2x a + s * vx2)) ^ 2 + (v2y p - (v2y a + s * vy2)) ^ 2
                  - ((v2x p - (v2x a + t * vx2)) ^ 2 + (v2y p - (v2y a + t * vy2)) ^ 2)
                  = (s - t) ^ 2 * (vx2 ^ 2 + vy2 ^ 2)).
      { transitivity ((s - t) ^ 2 * (vx2 ^ 2 + vy2 ^ 2) + 2 * (s - t) *
          (t * (vx2 ^ 2 + vy2 ^ 2) - ((v2x p - v2x a) * vx2 + (v2y p - v2y a) * vy2))); [ring|].
        rewrite T. ring. }
      assert (0 <= (s - t) ^ 2 * (vx2 ^ 2 + vy2 ^ 2)) by (apply Rmult_le_pos; [apply pow2_ge_0|lra]). lra.
    + intros ->. exfalso. apply E. unfold dist2. replace (v2x b - v2x b) with 0 by lra.
      replace (v2y b - v2y b) with 0 by lra. rewrite pow_i, Rplus_0_r, sqrt_0 by lia. auto.
Qed.

(** point_left_right: 1 exactly for the points left of the directed line from [a] to [b]
    (a positive multiple of the direction turned by +90 degrees away from it), 2 for the
    points right of it, 0 for the points on it. *)
Definition at_side (a b c : vec2) (u : R) : Prop :=
  exists s, c = V2 (v2x a + s * (v2x b - v2x a) - u * (v2y b - v2y a))
                   (v2y a + s * (v2y b - v2y a) + u * (v2x b - v2x a)).
Theorem C50_left_right : forall a b c, a <> b ->
  (point_left_right a b c = 1%nat <-> exists u, 0 < u /\ at_side a b c u) /\
  (point_left_right a b c = 2%nat <-> exists u, u < 0 /\ at_side a b c u) /\
  (point_left_right a b c = 0%nat <-> on_line a b c).
Proof.
  intros a b c Hab. unfold point_left_right.
  set (X := v2x b - v2x a). set (Y := v2y b - v2y a). set (x := _ - _).
  assert (N : 0 < X ^ 2 + Y ^ 2).
  { destruct (Rle_lt_dec (X ^ 2 + Y ^ 2) 0) as [C|C]; auto. exfalso. apply Hab.
    assert (K : X = 0 /\ Y = 0) by (split; nra). destruct K. unfold X, Y in *. apply v2_ext; lra. }
  assert (D : forall u, at_side a b c u -> x = u * (X ^ 2 + Y ^ 2)).
  { intros u [s ->]. unfold x, X, Y. simpl. ring. }
  assert (F : at_side a b c (x / (X ^ 2 + Y ^ 2))).
  { exists (((v2x c - v2x a) * X + (v2y c - v2y a) * Y) / (X ^ 2 + Y ^ 2)).
    apply v2_ext; simpl; unfold x; fold X Y; field; lra. }
  assert (Z : on_line a b c <-> at_side a b c 0).
  { unfold on_line, at_side. split; intros [s ->]; exists s; apply v2_ext; simpl; lra. }
  assert (S1 : 0 < x -> 0 < x / (X ^ 2 + Y ^ 2)) by (intros; now apply Rdiv_lt_0_compat).
  assert (S2 : x < 0 -> x / (X ^ 2 + Y ^ 2) < 0).
  { intros. unfold Rdiv. assert (0 < / (X ^ 2 + Y ^ 2)) by (now apply Rinv_0_lt_compat). nra. }
  assert (G : forall u, at_side a b c u -> (0 < u -> 0 < x) /\ (u < 0 -> x < 0) /\ (u = 0 -> x = 0)).
  { intros u Hu. apply D in Hu. repeat split; intros; rewrite Hu; nra. }
  destruct (Rlt_dec 0 x) as [P|P]; [|destruct (Rlt_dec x 0) as [Q|Q]].
  - repeat split; try discriminate; intros.
    + exists (x / (X ^ 2 + Y ^ 2)). auto.
    + destruct H as [u [U V]]. apply G in V as (_ & V & _). specialize (V U). lra.
    + apply Z in H. apply G in H as (_ & _ & V). specialize (V eq_refl). lra.
  - repeat split; try discriminate; intros.
    + destruct H as [u [U V]]. apply G in V as (V & _ & _). specialize (V U). lra.
    + exists (x / (X ^ 2 + Y ^ 2)). auto.
    + apply Z in H. apply G in H as (_ & _ & V). specialize (V eq_refl). lra.
  - assert (x = 0) by lra. repeat split; try discriminate; intros.
    + destruct H0 as [u [U V]]. apply G in V as (V & _ & _). specialize (V U). lra.
    + destruct H0 as [u [U V]]. apply G in V as (_ & V & _). specialize (V U). lra.
    + apply Z. replace 0 with (x / (X ^ 2 + Y ^ 2)); auto. rewrite H. field. lra.
Qed.

(** cross_track_error: what the function computes for all inputs: the distance of [pos] to
    the diagonal y = x, whatever the two way points are (NaN if their x coordinates agree). *)
Theorem C50_cross_track_partial : forall p1 p2 pos,
  cross_track_error p1 p2 pos =
  if Req_EM_T (v2x p1) (v2x p2) then None else Some (Rabs (v2x pos - v2y pos) / sqrt 2).
Proof.
  intros p1 p2 pos. unfold cross_track_error.
  set (D := v2x p2 - v2x p1).
  replace (D ^ 2 + D ^ 2) with ((D * sqrt 2) ^ 2).
  2:{ rewrite Rpow_mult_distr, <- (Rsqr_pow2 (sqrt 2)), Rsqr_sqrt by lra. ring. }
  assert (S2 : 0 < sqrt 2) by (apply sqrt_lt_R0; lra).
  rewrite <- (Rsqr_pow2 (D * sqrt 2)), sqrt_Rsqr_abs, Rabs_mult, (Rabs_right (sqrt 2)) by lra.
  destruct (Req_EM_T (v2x p1) (v2x p2)) as [E|E].
  - replace D with 0 by (unfold D; lra). rewrite Rabs_R0, Rmult_0_l. destruct Req_EM_T; auto. congruence.
  - assert (D <> 0) by (unfold D; lra). assert (Rabs D <> 0) by (now apply Rabs_no_R0).
    destruct Req_EM_T as [C|C]; [apply Rmult_integral in C; lra|]. f_equal.
    replace (D * v2x pos - D * v2y pos + v2x p2 * v2x p1 - v2x p2 * v2x p1) with (D * (v2x pos - v2y pos)) by ring.
    rewrite Rabs_mult. field. lra.
Qed.
(** so it is not the distance to the line: for the x axis and the point (0,1) at distance 1 it
    returns 1/sqrt 2, and for the vertical line x = 0 it returns NaN *)
Theorem C50_cross_track_refuted :
  ~ (forall p1 p2 pos, p1 <> p2 -> exists e, cross_track_error p1 p2 pos = Some e /\
       forall q, on_line p1 p2 q -> e <= dist2 pos q) /\
  ~ (forall p1 p2 pos, v2x p1 <> v2x p2 -> exists e q, cross_track_error p1 p2 pos = Some e /\
       on_line p1 p2 q /\ dist2 pos q = e).
Proof.
  split.
  - intros H. destruct (H (V2 0 0) (V2 0 1) (V2 1 0)) as [e [E _]].
    { intros C. injection C. lra. }
    rewrite C50_cross_track_partial in E. simpl in E. destruct Req_EM_T; [discriminate|lra].
  - intros H. destruct (H (V2 0 0) (V2 1 0) (V2 2 2)) as (e & q & E & [s ->] & D); simpl; [lra|].
    rewrite C50_cross_track_partial in E. simpl in E. destruct Req_EM_T; [lra|].
    injection E as <-. replace (2 - 2) with 0 in D by lra. rewrite Rabs_R0 in D. unfold Rdiv in D. rewrite Rmult_0_l in D.
    apply dist2_0 in D. injection D. lra.
Qed.

(** intersect_circles *)
Lemma circles_algebra cx0 cy0 r0 cx1 cy1 r1 (d := sqrt ((cx0 - cx1) ^ 2 + (cy0 - cy1) ^ 2)) q :
  d <> 0 ->
  let a := (r0 ^ 2 - r1 ^ 2 + d ^ 2) / (2 * d) in
  let ex := (cx1 - cx0) / d in let ey := (cy1 - cy0) / d in
  let u := (v2x q - cx0) * ex + (v2y q - cy0) * ey in
  let w := (v2x q - cx0) * ey - (v2y q - cy0) * ex in
  ((cx0 - v2x q) ^ 2 + (cy0 - v2y q) ^ 2 = r0 ^ 2 /\ (cx1 - v2x q) ^ 2 + (cy1 - v2y q) ^ 2 = r1 ^ 2
   <-> u = a /\ u ^ 2 + w ^ 2 = r0 ^ 2) /\
  v2x q = cx0 + u * ex + w * ey /\ v2y q = cy0 + u * ey - w * ex.
Proof.
  intros Hd a ex ey u w.
  assert (D2 : d ^ 2 = (cx1 - cx0) ^ 2 + (cy1 - cy0) ^ 2).
  { unfold d. rewrite <- Rsqr_pow2, Rsqr_sqrt by apply sq2_pos. ring. }
  assert (U : ex ^ 2 + ey ^ 2 = 1).
  { unfold ex, ey. replace (((cx1 - cx0) / d) ^ 2 + ((cy1 - cy0) / d) ^ 2)
      with (((cx1 - cx0) ^ 2 + (cy1 - cy0) ^ 2) / d ^ 2) by (field; auto).
    rewrite <- D2. field. auto. }
  assert (X : cx1 = cx0 + d * ex) by (unfold ex; field; auto).
  assert (Y : cy1 = cy0 + d * ey) by (unfold ey; field; auto).
  assert (QX : v2x q = cx0 + u * ex + w * ey).
  { transitivity (cx0 + (v2x q - cx0) * (ex ^ 2 + ey ^ 2)); [rewrite U; ring|unfold u, w; ring]. }
  assert (QY : v2y q = cy0 + u * ey - w * ex).
  { transitivity (cy0 + (v2y q - cy0) * (ex ^ 2 + ey ^ 2)); [rewrite U; ring|unfold u, w; ring]. }
  assert (A0 : (cx0 - v2x q) ^ 2 + (cy0 - v2y q) ^ 2 = u ^ 2 + w ^ 2).
  { rewrite QX, QY. transitivity ((u ^ 2 + w ^ 2) * (ex ^ 2 + ey ^ 2)); [ring|rewrite U; ring]. }
  assert (A1 : (cx1 - v2x q) ^ 2 + (cy1 - v2y q) ^ 2 = u ^ 2 + w ^ 2 - 2 * d * u + d ^ 2).
  { rewrite QX, QY, X, Y. transitivity ((u ^ 2 + w ^ 2 - 2 * d * u + d ^ 2) * (ex ^ 2 + ey ^ 2)); [ring|rewrite U; ring]. }
  split; [|split; auto]. rewrite A0, A1. split; intros [E F]; split; auto.
  - unfold a. rewrite <- E, <- F. field. auto.
  - rewrite F. assert (2 * d * a = r0 ^ 2 - r1 ^ 2 + d ^ 2) by (unfold a; field; auto).
    rewrite E. lra.
Qed.

Lemma on_circle_sq c r q : on_circle c r q <->
  0 <= r /\ (v2x c - v2x q) ^ 2 + (v2y c - v2y q) ^ 2 = r ^ 2.
Proof.
  unfold on_circle. split; intros [H E]; split; auto.
  - rewrite <- E, dist2_sq. auto.
  - unfold dist2. rewrite E, <- Rsqr_pow2. now apply sqrt_Rsqr.
Qed.

(** the three cases, for circles with different centres *)
Theorem C50_circles_partial : forall cx0 cy0 r0 cx1 cy1 r1,
  V2 cx0 cy0 <> V2 cx1 cy1 ->
  let common q := on_circle (V2 cx0 cy0) r0 q /\ on_circle (V2 cx1 cy1) r1 q in
  match intersect_circles cx0 cy0 r0 cx1 cy1 r1 with
  | [] => forall q, ~ common q
  | [Some p] =>
      (exists q, common q /\ dist2 p q < / 10 ^ 10) /\
      forall q, common q -> dist2 p q < / 10 ^ 10
  | [Some p; Some p'] => p <> p' /\ forall q, common q <-> q = p \/ q = p'
  | _ => False
  end.
Proof.
  intros cx0 cy0 r0 cx1 cy1 r1 Hc common. unfold intersect_circles.
  assert (ALG := fun q => circles_algebra cx0 cy0 r0 cx1 cy1 r1 q). cbv zeta in ALG.
  set (d := sqrt _) in *.
  assert (Dd : d = dist2 (V2 cx0 cy0) (V2 cx1 cy1)) by reflexivity.
  assert (Dp : 0 < d).
  { destruct (Rle_lt_or_eq_dec 0 d (sqrt_pos _)) as [L|L]; auto. exfalso. apply Hc, dist2_0. now rewrite <- Dd. }
  assert (COM : forall q, common q <-> (0 <= r0 /\ 0 <= r1) /\
    ((cx0 - v2x q) ^ 2 + (cy0 - v2y q) ^ 2 = r0 ^ 2 /\ (cx1 - v2x q) ^ 2 + (cy1 - v2y q) ^ 2 = r1 ^ 2)).
  { intros q. unfold common. rewrite !on_circle_sq. simpl. tauto. }
  set (a := (r0 ^ 2 - r1 ^ 2 + d ^ 2) / (2 * d)) in *.
  assert (Ea : 2 * d * a = r0 ^ 2 - r1 ^ 2 + d ^ 2) by (unfold a; field; lra).
  (* necessary condition *)
  assert (NEC : forall q, common q -> d <= r0 + r1 /\ Rabs (r0 - r1) <= d).
  { intros q Hq. apply COM in Hq as [[R0 R1] Hq]. apply ALG in Hq; [|lra]. destruct Hq as [U W].
    assert (a ^ 2 <= r0 ^ 2).
    { rewrite <- W. fold d. fold a in U. fold d in U. rewrite U.
      generalize (pow2_ge_0 ((v2x q - cx0) * ((cy1 - cy0) / d) - (v2y q - cy0) * ((cx1 - cx0) / d))).
      intros. lra. }
    assert (-r0 <= a <= r0) by (split; nra).
    split.
    - apply Rnot_lt_le. intros L. assert (r1 ^ 2 < (d - r0) ^ 2) by nra. nra.
    - apply Rabs_le. split; apply Rnot_lt_le; intros L.
      + assert (0 <= d * (r0 - a)) by (apply Rmult_le_pos; lra).
        assert (0 <= d * (r0 + a)) by (apply Rmult_le_pos; lra). nra.
      + assert (0 <= d * (r0 - a)) by (apply Rmult_le_pos; lra). nra. }
  destruct (Rlt_dec (r0 + r1) d) as [L1|L1].
  { intros q Hq. apply NEC in Hq. lra. }
  destruct (Rlt_dec d (Rabs (r0 - r1))) as [L2|L2].
  { intros q Hq. apply NEC in Hq. lra. }
  destruct (Req_EM_T d 0) as [Z|Z]; [lra|].
  apply Rnot_lt_le in L1, L2.
  assert (L3 := L2). apply Raux.Rabs_le_inv in L3.
  assert (R0 : 0 <= r0) by lra. assert (R1 : 0 <= r1) by lra.
  assert (Ha : a ^ 2 <= r0 ^ 2).
  { assert (d * a <= d * r0) by nra. assert (- (d * r0) <= d * a) by nra.
    assert (a <= r0) by (apply Rmult_le_reg_l with d; auto).
    assert (- r0 <= a) by (apply Rmult_le_reg_l with d; auto; lra). nra. }
  set (h := sqrt (r0 ^ 2 - a ^ 2)).
  assert (Hh : h ^ 2 = r0 ^ 2 - a ^ 2).
  { unfold h. rewrite <- Rsqr_pow2. apply Rsqr_sqrt. lra. }
  assert (Hp : 0 <= h) by apply sqrt_pos.
  set (ex := (cx1 - cx0) / d) in *. set (ey := (cy1 - cy0) / d) in *.
  assert (U : ex ^ 2 + ey ^ 2 = 1).
  { assert (D2 : d ^ 2 = (cx1 - cx0) ^ 2 + (cy1 - cy0) ^ 2).
    { unfold d. rewrite <- Rsqr_pow2, Rsqr_sqrt by apply sq2_pos. ring. }
    unfold ex, ey. replace (((cx1 - cx0) / d) ^ 2 + ((cy1 - cy0) / d) ^ 2)
      with (((cx1 - cx0) ^ 2 + (cy1 - cy0) ^ 2) / d ^ 2) by (field; auto).
    rewrite <- D2. field. auto. }
  (* characterisation of the common points *)
  assert (CH : forall q, common q <->
     q = V2 (cx0 + a * ex + h * ey) (cy0 + a * ey - h * ex) \/
     q = V2 (cx0 + a * ex - h * ey) (cy0 + a * ey + h * ex)).
  { intros q. rewrite COM. destruct (ALG q Z) as (EQ & QX & QY). rewrite EQ.
    set (u := (v2x q - cx0) * ex + (v2y q - cy0) * ey) in *.
    set (w := (v2x q - cx0) * ey - (v2y q - cy0) * ex) in *. split.
    - intros [_ [U1 W1]]. rewrite U1 in *. assert (W2 : w ^ 2 = h ^ 2) by lra.
      assert (w = h \/ w = - h) as [K|K].
      { assert ((w - h) * (w + h) = 0) by nra. apply Rmult_integral in H as [|]; [left|right]; lra. }
      + left. apply v2_ext; simpl; [rewrite QX|rewrite QY]; rewrite K; ring.
      + right. apply v2_ext; simpl; [rewrite QX|rewrite QY]; rewrite K; ring.
    - intros K. split; [lra|].
      assert (u = a /\ w ^ 2 = h ^ 2) as [U1 W1].
      { unfold u, w. destruct K as [ -> | -> ]; simpl v2x; simpl v2y; split.
        - transitivity (a * (ex ^ 2 + ey ^ 2)); [ring|rewrite U; ring].
        - transitivity ((h * (ex ^ 2 + ey ^ 2)) ^ 2); [ring|rewrite U; ring].
        - transitivity (a * (ex ^ 2 + ey ^ 2)); [ring|rewrite U; ring].
        - transitivity ((h * (ex ^ 2 + ey ^ 2)) ^ 2); [ring|rewrite U; ring]. }
      split; auto. rewrite U1. lra. }
  assert (EX : a * (cx1 - cx0) / d = a * ex) by (unfold ex; field; auto).
  assert (EY : a * (cy1 - cy0) / d = a * ey) by (unfold ey; field; auto).
  assert (HX : h * (cx1 - cx0) / d = h * ex) by (unfold ex; field; auto).
  assert (HY : h * (cy1 - cy0) / d = h * ey) by (unfold ey; field; auto).
  rewrite EX, EY, HX, HY. clear EX EY HX HY.
  destruct (Rlt_dec h (/ 10 ^ 10)) as [T|T].
  - assert (NEAR : forall q, common q -> dist2 (V2 (cx0 + a * ex) (cy0 + a * ey)) q < / 10 ^ 10).
    { intros q Hq. apply Rle_lt_trans with h; auto. apply dist2_le; auto.
      apply CH in Hq. destruct Hq as [ -> | -> ]; simpl v2x; simpl v2y; right;
      (transitivity (h ^ 2 * (ex ^ 2 + ey ^ 2)); [ring|rewrite U; ring]). }
    split; auto. eexists. split; [apply CH; left; reflexivity|]. apply NEAR, CH. now left.
  - assert (TE : 0 < / 10 ^ 10) by (apply Rinv_0_lt_compat, pow_lt; lra).
    split; [|exact CH].
    intros C. injection C as C1 C2. assert (h * ey = 0) by lra. assert (h * ex = 0) by lra.
    apply Rmult_integral in H as [|H]; [lra|]. apply Rmult_integral in H0 as [|H0]; [lra|].
    rewrite H, H0 in U. simpl in U. lra.
Qed.

(** Coinciding circles give two NaN points, whatever the radius. *)
Theorem C50_concentric_refuted : forall cx cy r, 0 <= r ->
  intersect_circles cx cy r cx cy r = [None; None].
Proof.
  intros cx cy r Hr. unfold intersect_circles.
  replace ((cx - cx) ^ 2 + (cy - cy) ^ 2) with 0 by ring. rewrite sqrt_0.
  destruct Rlt_dec; [lra|]. replace (r - r) with 0 by ring. rewrite Rabs_R0.
  destruct Rlt_dec; [lra|]. destruct Req_EM_T; congruence.
Qed.
Example C50_circles_ex : exists p q, intersect_circles 0 0 5 6 0 5 = [Some p; Some q] /\ p <> q.
Proof.
  pose proof (C50_circles_partial 0 0 5 6 0 5) as H. simpl in H.
  unfold intersect_circles in *.
  assert (D : sqrt ((0 - 6) ^ 2 + (0 - 0) ^ 2) = 6).
  { replace ((0 - 6) ^ 2 + (0 - 0) ^ 2) with (6 * 6) by ring. apply sqrt_square. lra. }
  rewrite D in *. destruct Rlt_dec; [lra|]. replace (5 - 5) with 0 in * by ring. rewrite Rabs_R0 in *.
  destruct Rlt_dec; [lra|]. destruct Req_EM_T; [lra|].
  replace (5 ^ 2 - ((5 ^ 2 - 5 ^ 2 + 6 ^ 2) / (2 * 6)) ^ 2) with (4 * 4) in * by field.
  rewrite sqrt_square in * by lra.
  destruct Rlt_dec as [C|C]; [lra|]. do 2 eexists. split; [reflexivity|].
  intros K. injection K. lra.
Qed.

(** fit_circle recovers the circle from points of it, as soon as three of them differ *)
Theorem C50_fit_circle : forall pts c r,
  (forall p, In p pts -> on_circle c r p) ->
  (exists p q s, In p pts /\ In q pts /\ In s pts /\ p <> q /\ q <> s /\ p <> s) ->
  (exists cx cy radius, fit_circle pts cx cy radius) /\
  (forall cx cy radius, fit_circle pts cx cy radius -> V2 cx cy = c /\ radius = r).
Proof.
  intros pts c r Hc (p & q & s & Hp & Hq & Hs & Npq & Nqs & Nps).
  assert (POS : forall l x, 0 <= fit_cost l x).
  { intros l x. induction l as [|p0 l IH]; simpl; [lra|]. generalize (pow2_ge_0 (fit_residual p0 x)). simpl. lra. }
  assert (ZERO : forall l x, fit_cost l x = 0 -> forall p0, In p0 l -> fit_residual p0 x = 0).
  { intros l x. induction l as [|p1 l IH]; intros E p0 []; unfold fit_cost in E; cbn [fold_right] in E;
      fold (fit_cost l x) in E; generalize (pow2_ge_0 (fit_residual p1 x)), (POS l x); intros.
    - subst. assert (fit_residual p0 x ^ 2 = 0) by lra. nra.
    - apply IH; auto. lra. }
  assert (Rp : 0 <= r) by (apply Hc in Hp; apply Hp).
  set (x0 := V3 (v2x c) (v2y c) (- r ^ 2 + v2x c ^ 2 + v2y c ^ 2)).
  assert (X0 : fit_cost pts x0 = 0).
  { assert (forall l, (forall p0, In p0 l -> on_circle c r p0) -> fit_cost l x0 = 0).
    { induction l as [|p1 l IH]; intros; unfold fit_cost; cbn [fold_right]; auto. fold (fit_cost l x0).
      rewrite IH by (intros; apply H; now right). assert (O := H p1 (or_introl eq_refl)).
      apply on_circle_sq in O as [_ O].
      assert (Z : fit_residual p1 x0 = 0) by (unfold fit_residual, x0; cbn [vx vy vz]; rewrite <- O; ring).
      rewrite Z, pow_i by lia. lra. }
    apply H; auto. }
  split.
  - exists (v2x c), (v2y c), (sqrt (v2x c * v2x c + v2y c * v2y c - vz x0)), x0. repeat split.
    intros x'. rewrite X0. apply POS.
  - intros cx cy radius (x & MIN & Ex & Ey & Er).
    assert (FX : fit_cost pts x = 0) by (specialize (MIN x0); generalize (POS pts x); lra).
    assert (E : forall p0, In p0 pts -> 2 * v2x p0 * (vx x - v2x c) + 2 * v2y p0 * (vy x - v2y c)
                                        = vz x - vz x0).
    { intros p0 H0. generalize (ZERO _ _ FX _ H0), (ZERO _ _ X0 _ H0). unfold fit_residual.
      simpl vx; simpl vy. intros. lra. }
    set (dx := vx x - v2x c) in *. set (dy := vy x - v2y c) in *.
    assert (K : forall p1 p2, In p1 pts -> In p2 pts -> (v2x p1 - v2x p2) * dx + (v2y p1 - v2y p2) * dy = 0).
    { intros p1 p2 H1 H2. generalize (E _ H1), (E _ H2). lra. }
    (* three distinct points of a circle are not collinear *)
    assert (DD : dx = 0 /\ dy = 0).
    { destruct (Req_dec (dx ^ 2 + dy ^ 2) 0) as [Z|Z]; [now apply sum_sq_zero|]. exfalso.
      assert (K1 := K p q Hp Hq). assert (K2 := K p s Hp Hs).
      apply Hc in Hp, Hq, Hs. apply on_circle_sq in Hp as [_ Hp], Hq as [_ Hq], Hs as [_ Hs].
      destruct p as [px py], q as [qx qy], s as [sx sy], c as [cx' cy']. simpl in *.
      assert (PAR : forall x1 y1, (px - x1) * dx + (py - y1) * dy = 0 ->
        exists t, x1 = px + t * dy /\ y1 = py - t * dx).
      { intros x1 y1 Hl. exists (((x1 - px) * dy - (y1 - py) * dx) / (dx ^ 2 + dy ^ 2)). split.
        - apply Rmult_eq_reg_l with (dx ^ 2 + dy ^ 2); auto. field_simplify; auto.
          assert (H : (px - x1) * dx * dx + (py - y1) * dy * dx = 0) by (rewrite <- (Rmult_0_l dx), <- Hl; ring). nra.
        - apply Rmult_eq_reg_l with (dx ^ 2 + dy ^ 2); auto. field_simplify; auto.
          assert (H : (px - x1) * dx * dy + (py - y1) * dy * dy = 0) by (rewrite <- (Rmult_0_l dy), <- Hl; ring). nra. }
      destruct (PAR _ _ K1) as [t [-> ->]]. destruct (PAR _ _ K2) as [t' [-> ->]].
      set (m := dx ^ 2 + dy ^ 2) in *. set (k := (cx' - px) * dy - (cy' - py) * dx).
      assert (T1 : t * (t * m - 2 * k) = 0).
      { transitivity (((cx' - (px + t * dy)) ^ 2 + (cy' - (py - t * dx)) ^ 2) - ((cx' - px) ^ 2 + (cy' - py) ^ 2)).
        - unfold m, k. ring. - simpl in *. rewrite Hq, Hp. ring. }
      assert (T2 : t' * (t' * m - 2 * k) = 0).
      { transitivity (((cx' - (px + t' * dy)) ^ 2 + (cy' - (py - t' * dx)) ^ 2) - ((cx' - px) ^ 2 + (cy' - py) ^ 2)).
        - unfold m, k. ring. - simpl in *. rewrite Hs, Hp. ring. }
      apply Rmult_integral in T1 as [T1|T1].
      { subst t. apply Npq. f_equal; ring. }
      apply Rmult_integral in T2 as [T2|T2].
      { subst t'. apply Nps. f_equal; ring. }
      assert (t = t') by (apply Rmult_eq_reg_r with m; auto; lra). subst. apply Nqs. auto. }
    destruct DD as [D1 D2]. assert (VZ : vz x = vz x0).
    { generalize (E p Hp). rewrite D1, D2. lra. }
    unfold dx, dy in *. subst cx cy. split; [apply v2_ext; simpl; lra|].
    rewrite Er, VZ. replace (vx x) with (v2x c) by lra. replace (vy x) with (v2y c) by lra.
    unfold x0. cbn [vz]. replace (v2x c * v2x c + v2y c * v2y c - (- r ^ 2 + v2x c ^ 2 + v2y c ^ 2)) with (r * r) by ring.
    now apply sqrt_square.
Qed.
Example C50_fit_ex : fit_circle [V2 1 0; V2 0 1; V2 (-1) 0; V2 0 (-1)] 0 0 1.
Proof.
  exists (V3 0 0 (-1)). split; [|repeat split; simpl; rewrite <- sqrt_1; f_equal; lra].
  intros x'. unfold fit_cost, fit_residual. simpl.
  match goal with |- ?l <= ?r => replace l with 0 by ring; cut (0 <= r); auto end.
  repeat apply Rplus_le_le_0_compat; try lra;
  match goal with |- 0 <= ?a * (?a * 1) => rewrite (Rmult_1_r a); apply Rle_0_sqr end.
Qed.
Print Assumptions C50_closest_point.
Print Assumptions C50_left_right.
Print Assumptions C50_cross_track_partial.
Print Assumptions C50_cross_track_refuted.
Print Assumptions C50_circles_partial.
Print Assumptions C50_concentric_refuted.
Print Assumptions C50_fit_circle.

(** ** C64: look-at *)
Lemma vdot_normalized v : 0 < vdot v v -> vdot (vnormalized v) (vnormalized v) = 1.
Proof.
  intros H. unfold vnormalized. destruct Rlt_dec; [|lra]. unfold vdot at 1, vscale. cbn [vx vy vz].
  assert (N : vnorm v * vnorm v = vdot v v) by (unfold vnorm; apply sqrt_sqrt; lra).
  assert (vnorm v <> 0) by (intros E; rewrite E in N; lra).
  transitivity (vdot v v / (vnorm v * vnorm v)); [unfold vdot; field; auto|].
  rewrite N. field. lra.
Qed.
Lemma normalized_scale v : 0 < vdot v v -> exists k, 0 < k /\ vnormalized v = vscale k v.
Proof.
  intros H. unfold vnormalized. destruct Rlt_dec; [|lra]. exists (/ vnorm v). split; auto.
  apply Rinv_0_lt_compat. apply sqrt_lt_R0. auto.
Qed.
Lemma v3_ext a b : vx a = vx b -> vy a = vy b -> vz a = vz b -> a = b.
Proof. destruct a, b; simpl; intros; subst; auto. Qed.

(** The column vectors of the rotation part of a transform. *)
Definition col_x (T : mat4) : vec3 := V3 (n00 T) (n10 T) (n20 T).
Definition col_y (T : mat4) : vec3 := V3 (n01 T) (n11 T) (n21 T).
Definition col_z (T : mat4) : vec3 := V3 (n02 T) (n12 T) (n22 T).
Definition col_t (T : mat4) : vec3 := V3 (n03 T) (n13 T) (n23 T).

Lemma cross_zero_iff u v : vdot (vcross u v) (vcross u v) = vdot u u * vdot v v - vdot u v * vdot u v.
Proof. unfold vdot, vcross. cbn [vx vy vz]. ring. Qed.
Lemma vscale_pos k v : vdot (vscale k v) (vscale k v) = k * k * vdot v v.
Proof. unfold vdot, vscale; cbn [vx vy vz]. ring. Qed.

(** For every camera position, target and up axis such that the viewing direction is not
    parallel to the up axis (and the target is not the camera position): look-at returns a
    rigid transform (exactly one), placed at the camera position, whose z axis points from the
    camera to the target, whose x axis is perpendicular to the up axis and whose y axis points
    up. *)
Theorem C64_lookat : forall cam_pos target up_axis,
  vcross up_axis (vsub target cam_pos) <> vzero ->
  exists T, (forall T', lookat cam_pos target up_axis T' <-> T' = T) /\
    Rigid T /\ col_t T = cam_pos /\
    (exists k, 0 < k /\ col_z T = vscale k (vsub target cam_pos)) /\
    vdot (col_x T) up_axis = 0 /\ 0 < vdot (col_y T) up_axis.
Proof.
  intros p t u H.
  assert (HC : 0 < vdot (vcross u (vsub t p)) (vcross u (vsub t p))).
  { destruct (Rle_lt_dec (vdot (vcross u (vsub t p)) (vcross u (vsub t p))) 0) as [C|C]; auto.
    exfalso. apply H. revert C. generalize (vcross u (vsub t p)). intros [a b c]. unfold vdot; cbn [vx vy vz].
    intros C. unfold vzero. f_equal; nra. }
  assert (HD : 0 < vdot (vsub t p) (vsub t p)).
  { destruct (Rle_lt_dec (vdot (vsub t p) (vsub t p)) 0) as [C|C]; auto. exfalso.
    rewrite cross_zero_iff in HC.
    assert (vdot (vsub t p) (vsub t p) = 0).
    { apply Rle_antisym; auto. unfold vdot. nra. }
    rewrite H0 in HC. nra. }
  unfold lookat, lookat_A, lookat_B, lookat_up, lookat_right, lookat_dir.
  assert (D1 := vdot_normalized _ HD). destruct (normalized_scale _ HD) as [kd [Kd Ed]].
  set (d := vnormalized (vsub t p)) in *.
  assert (HR : vcross u d = vscale kd (vcross u (vsub t p))).
  { rewrite Ed. unfold vcross, vscale; cbn [vx vy vz]. f_equal; ring. }
  assert (HP : 0 < vdot (vcross u d) (vcross u d)).
  { rewrite HR, vscale_pos. apply Rmult_lt_0_compat; auto. nra. }
  assert (R1 := vdot_normalized _ HP). destruct (normalized_scale _ HP) as [kr [Kr Er]].
  set (r := vnormalized (vcross u d)) in *.
  assert (RD : vdot r d = 0). { rewrite Er. unfold vdot, vscale, vcross; cbn [vx vy vz]. ring. }
  assert (RU : vdot r u = 0). { rewrite Er. unfold vdot, vscale, vcross; cbn [vx vy vz]. ring. }
  assert (UPP : 0 < vdot (vcross d r) u).
  { rewrite Er. replace (vdot (vcross d (vscale kr (vcross u d))) u) with (kr * vdot (vcross u d) (vcross u d)).
    - now apply Rmult_lt_0_compat.
    - unfold vdot, vscale, vcross; cbn [vx vy vz]. ring. }
  set (w := vcross d r) in *.
  assert (W1 : vdot w w = 1).
  { unfold w. rewrite cross_zero_iff. rewrite D1, R1. replace (vdot d r) with (vdot r d) by (unfold vdot; ring).
    rewrite RD. ring. }
  assert (WD : vdot w d = 0) by (unfold w, vdot, vcross; cbn [vx vy vz]; ring).
  assert (WR : vdot w r = 0) by (unfold w, vdot, vcross; cbn [vx vy vz]; ring).
  set (A := M3 (vx r) (vy r) (vz r) (vx w) (vy w) (vz w) (vx d) (vy d) (vz d)).
  assert (AAt : mmul A (mtr A) = I3).
  { unfold A, mmul, mtr, I3; cbn [m00 m01 m02 m10 m11 m12 m20 m21 m22].
    unfold vdot in *. f_equal; try assumption; try (rewrite <- R1; ring); lra. }
  assert (DET : mdet A = 1).
  { rewrite <- W1. unfold mdet, A; cbn [m00 m01 m02 m10 m11 m12 m20 m21 m22].
    unfold w, vdot, vcross; cbn [vx vy vz]. ring. }
  assert (AtA : mmul (mtr A) A = I3).
  { (* a right inverse of a 3x3 matrix is a left inverse: adjugate *)
    assert (COF : forall M N : mat3, mmul M N = I3 -> mdet M = 1 -> mmul N M = I3).
    { intros M N E1 E2. destruct M as [a b c e f g h i j], N as [a' b' c' e' f' g' h' i' j'].
      unfold mmul, I3, mdet in *; cbn [m00 m01 m02 m10 m11 m12 m20 m21 m22] in *.
      injection E1 as e1 e2 e3 e4 e5 e6 e7 e8 e9.
      (* N = adj M *)
      assert (forall x y z p1 p2 p3, a * x + b * y + c * z = p1 -> e * x + f * y + g * z = p2 -> h * x + i * y + j * z = p3 ->
        x = (f * j - g * i) * p1 - (b * j - c * i) * p2 + (b * g - c * f) * p3 /\
        y = - (e * j - g * h) * p1 + (a * j - c * h) * p2 - (a * g - c * e) * p3 /\
        z = (e * i - f * h) * p1 - (a * i - b * h) * p2 + (a * f - b * e) * p3) as ADJ.
      { intros x y z p1 p2 p3 <- <- <-. repeat split;
        match goal with |- ?x = _ => transitivity (x * (a * (f * j - g * i) - b * (e * j - g * h) + c * (e * i - f * h))); [rewrite E2; ring|ring] end. }
      destruct (ADJ _ _ _ _ _ _ e1 e4 e7) as (x1 & y1 & z1).
      destruct (ADJ _ _ _ _ _ _ e2 e5 e8) as (x2 & y2 & z2).
      destruct (ADJ _ _ _ _ _ _ e3 e6 e9) as (x3 & y3 & z3).
      rewrite x1, x2, x3, y1, y2, y3, z1, z2, z3.
      f_equal; try ring; (etransitivity; [|exact E2]; ring). }
    apply COF; auto. }
  set (T := tf (mtr A) p).
  assert (PROD : Inverse4 (mmul4 (M4 (vx r) (vy r) (vz r) 0 (vx w) (vy w) (vz w) 0 (vx d) (vy d) (vz d) 0 0 0 0 1)
        (M4 1 0 0 (- vx p) 0 1 0 (- vy p) 0 0 1 (- vz p) 0 0 0 1)) T).
  { change (Inverse4 (mmul4 (tf A vzero) (tf I3 (vopp p))) T). unfold Inverse4, T.
    rewrite !tf_mul.
    assert (E1 : vadd (mapp (mmul A I3) p) (vadd (mapp A (vopp p)) vzero) = vzero).
    { unfold A, mapp, mmul, I3, vadd, vopp, vzero; cbn -[Rmult Rplus Ropp IZR]. f_equal; ring. }
    assert (E2 : vadd (mapp (mtr A) (vadd (mapp A (vopp p)) vzero)) p = vzero).
    { assert (E : mapp (mmul (mtr A) A) (vopp p) = vopp p).
      { rewrite AtA. unfold mapp, I3, vopp; cbn -[Rmult Rplus Ropp IZR]. f_equal; ring. }
      replace (mapp (mtr A) (vadd (mapp A (vopp p)) vzero)) with (vopp p).
      - unfold vadd, vopp, vzero; cbn [vx vy vz]. f_equal; ring.
      - rewrite <- E at 1. unfold A, mapp, mmul, mtr, vadd, vopp, vzero; cbn -[Rmult Rplus Ropp IZR]. f_equal; ring. }
    assert (E3 : mmul A I3 = A).
    { unfold A, mmul, I3; cbn -[Rmult Rplus Ropp IZR]. f_equal; ring. }
    rewrite E1, E2, E3, AAt, AtA. split; reflexivity. }
  exists T. split; [|split; [|split; [|split; [|split]]]].
  - intros T'. unfold lookat. split.
    + intros [E1 E2]. destruct PROD as [P1 P2].
      rewrite <- (mmul4_I_r T'), <- P1, <- mmul4_assoc, E2. apply mmul4_I_l.
    + intros ->. exact PROD.
  - exists (mtr A), p. split; [|reflexivity]. split.
    + replace (mtr (mtr A)) with A by reflexivity. auto.
    + rewrite <- DET. unfold mdet, mtr; cbn [m00 m01 m02 m10 m11 m12 m20 m21 m22]. ring.
  - destruct p; reflexivity.
  - exists kd. split; auto. rewrite <- Ed. destruct d; reflexivity.
  - transitivity (vdot r u); auto.
  - exact UPP.
Qed.

(** Looking along the up axis (for example straight down), or at the camera position itself,
    there is no result at all: the matrix to be inverted is singular. *)
Theorem C64_parallel_up_refuted : forall cam_pos target up_axis,
  vcross up_axis (vsub target cam_pos) = vzero -> forall T, ~ lookat cam_pos target up_axis T.
Proof.
  intros p t u H T [E _].
  assert (NZ : forall v, v = vzero -> vnormalized v = vzero).
  { intros v ->. unfold vnormalized. destruct Rlt_dec as [C|C]; auto. unfold vdot, vzero in C. simpl in C. lra. }
  assert (R : lookat_right p t u = vzero).
  { unfold lookat_right. apply NZ. unfold lookat_dir.
    destruct (Rlt_dec 0 (vdot (vsub t p) (vsub t p))) as [C|C].
    - destruct (normalized_scale _ C) as [k [_ ->]].
      replace (vcross u (vscale k (vsub t p))) with (vscale k (vcross u (vsub t p))).
      + rewrite H. unfold vscale, vzero; simpl. f_equal; ring.
      + unfold vcross, vscale; cbn [vx vy vz]. f_equal; ring.
    - unfold vnormalized. destruct Rlt_dec; [contradiction|auto]. }
  unfold lookat_A, lookat_up in E. rewrite R in E. unfold vzero, lookat_B, mmul4, I4 in E. cbn -[Rmult Rplus Ropp IZR] in E.
  injection E. intros. lra.
Qed.
Example C64_ex : exists T, lookat (V3 1 2 3) (V3 4 5 6) (V3 0 0 1) T.
Proof.
  destruct (C64_lookat (V3 1 2 3) (V3 4 5 6) (V3 0 0 1)) as [T [H _]].
  - unfold vcross, vsub, vzero; cbn [vx vy vz]. intros E. injection E. lra.
  - exists T. now apply H.
Qed.
Print Assumptions C64_lookat.
Print Assumptions C64_parallel_up_refuted.

(** ** C65: latitude / longitude *)
(** Moving by an offset and measuring the displacement again should give the offset back.
    What the functions compute for all inputs: the two directions are exchanged and metres
    are divided by the radius without conversion to degrees, so that an offset of [N] metres
    north and [E] metres east is measured as E * pi/180 metres north and
    N * pi/180 * cos(new latitude)/cos(reference latitude) metres east. *)
Theorem C65_offset_then_diff_partial : forall lat lon N E, cos (deg2rad lat) <> 0 ->
  let new := latlon_offset lat lon N E in
  latlon_diff lat lon (fst new) (snd new) =
  (E * (PI / 180), N * (PI / 180) * (cos (deg2rad (fst new)) / cos (deg2rad lat))).
Proof.
  intros lat lon N E Hc new. unfold latlon_diff, new, latlon_offset; cbn [fst snd].
  set (c := cos (deg2rad (lat + E / EARTH_RADIUS_M))). f_equal; unfold deg2rad at 1, EARTH_RADIUS_M; field.
  auto.
Qed.
Theorem C65_offset_refuted :
  ~ (forall lat lon N E, let new := latlon_offset lat lon N E in
       fst (latlon_diff lat lon (fst new) (snd new)) = N) /\
  (forall lat lon N, fst (latlon_offset lat lon N 0) = lat).
Proof.
  split.
  - intros H. specialize (H 0 0 1 0). simpl in H.
    unfold deg2rad, EARTH_RADIUS_M in H.
    replace (0 + 0 / 6378137 - 0) with 0 in H by field. lra.
  - intros. unfold latlon_offset; cbn [fst]. unfold Rdiv. ring.
Qed.
(** latlon_dist is zero on the reference point, non-negative, and along a meridian it is
    the great-circle arc length R * |difference in radians| *)
Theorem C65_dist : forall lat lon lat' lon',
  0 <= latlon_dist lat lon lat' lon' /\ latlon_dist lat lon lat lon = 0 /\
  latlon_dist lat lon lat' lon = EARTH_RADIUS_M * Rabs (lat' - lat) * (PI / 180) /\
  latlon_dist lat lon lat' lon = latlon_dist lat' lon lat lon.
Proof.
  intros. assert (MER : forall a b c, latlon_dist a c b c = EARTH_RADIUS_M * Rabs (b - a) * (PI / 180)).
  { intros a b c. unfold latlon_dist, latlon_diff; cbn [fst snd].
    replace (c - c) with 0 by ring. replace (deg2rad 0) with 0 by (unfold deg2rad; ring).
    rewrite !Rmult_0_l, pow_i, Rplus_0_r by lia. rewrite <- Rsqr_pow2, sqrt_Rsqr_abs.
    unfold deg2rad. rewrite !Rabs_mult. generalize PI_RGT_0; intros.
    rewrite (Rabs_right (PI / 180)), (Rabs_right EARTH_RADIUS_M) by (unfold EARTH_RADIUS_M; lra). ring. }
  repeat split.
  - apply sqrt_pos.
  - rewrite MER. replace (lat - lat) with 0 by ring. rewrite Rabs_R0. ring.
  - apply MER.
  - rewrite !MER, (Rabs_minus_sym lat lat'). auto.
Qed.
(** but the distance between two points depends on which is called the reference *)
Theorem C65_asymmetric_refuted :
  ~ (forall lat lon lat' lon', latlon_dist lat lon lat' lon' = latlon_dist lat' lon' lat lon).
Proof.
  intros H. specialize (H 0 0 60 60). unfold latlon_dist, latlon_diff in H; cbn [fst snd] in H.
  replace (deg2rad 60) with (PI / 3) in H by (unfold deg2rad; field).
  replace (60 - 0) with 60 in H by ring. replace (0 - 60) with (-60) in H by ring.
  replace (deg2rad 0) with 0 in H by (unfold deg2rad; ring).
  rewrite cos_PI3, cos_0 in H. apply sqrt_inj in H.
  2,3: apply sq2_pos.
  assert (K : deg2rad (-60) = - deg2rad 60) by (unfold deg2rad; field). rewrite K in H.
  assert (P : 0 < deg2rad 60) by (unfold deg2rad; generalize PI_RGT_0; lra).
  set (x := deg2rad 60) in *. unfold EARTH_RADIUS_M in H. nra.
Qed.
Print Assumptions C65_offset_then_diff_partial.
Print Assumptions C65_offset_refuted.
Print Assumptions C65_dist.
Print Assumptions C65_asymmetric_refuted.

(** ** C66: sinc, circle and sphere points *)
Lemma INR_factS n : INR (fact (S n)) = (INR n + 1) * INR (fact n).
Proof. rewrite fact_simpl, mult_INR, S_INR. auto. Qed.
Lemma sin_bounds x : 0 <= x <= 4 ->
  x - x ^ 3 / 6 + x ^ 5 / 120 - x ^ 7 / 5040 <= sin x
  <= x - x ^ 3 / 6 + x ^ 5 / 120 - x ^ 7 / 5040 + x ^ 9 / 362880.
Proof.
  intros [H1 H2]. destruct (pre_sin_bound x 1 H1 H2) as [A B].
  assert (F1 : INR (fact 1) = 1) by (rewrite INR_factS; simpl; ring).
  assert (F2 : INR (fact 2) = 2) by (rewrite INR_factS, F1; simpl; ring).
  assert (F3 : INR (fact 3) = 6) by (rewrite INR_factS, F2; simpl; ring).
  assert (F4 : INR (fact 4) = 24) by (rewrite INR_factS, F3; simpl; ring).
  assert (F5 : INR (fact 5) = 120) by (rewrite INR_factS, F4; simpl; ring).
  assert (F6 : INR (fact 6) = 720) by (rewrite INR_factS, F5; simpl; ring).
  assert (F7 : INR (fact 7) = 5040) by (rewrite INR_factS, F6; simpl; ring).
  assert (F8 : INR (fact 8) = 40320) by (rewrite INR_factS, F7; simpl; ring).
  assert (F9 : INR (fact 9) = 362880) by (rewrite INR_factS, F8; simpl; ring).
  change (2 * 1 + 1)%nat with 3%nat in A. change (2 * (1 + 1))%nat with 4%nat in B.
  unfold sin_approx in A, B. cbn [sum_f_R0] in A, B. unfold sin_term in A, B.
  change (2 * 0 + 1)%nat with 1%nat in A, B. change (2 * 1 + 1)%nat with 3%nat in A, B.
  change (2 * 2 + 1)%nat with 5%nat in A, B. change (2 * 3 + 1)%nat with 7%nat in A, B.
  change (2 * 4 + 1)%nat with 9%nat in B.
  rewrite F1, F3, F5, F7 in A. rewrite F1, F3, F5, F7, F9 in B. split.
  - eapply Rle_trans; [|exact A]. right. field.
  - eapply Rle_trans; [exact B|]. right. field.
Qed.
(** sinc(0) = 1, and everywhere else sinc(x) is sin(x)/x up to x^8/362880, less than 3e-54. *)
Theorem C66_sinc : sinc 0 = 1 /\ (forall x, sinc (- x) = sinc x) /\
  forall x, x <> 0 -> Rabs (sinc x - sin x / x) <= / 10 ^ 48 / 362880.
Proof.
  assert (EV : forall x, sinc (- x) = sinc x).
  { intros x. unfold sinc. rewrite Rabs_Ropp. destruct Rlt_dec.
    - rewrite sin_neg. assert (x <> 0) by (intros ->; rewrite Rabs_R0 in r; lra). field. auto.
    - cbv zeta. ring. }
  split; [|split; auto].
  - unfold sinc. rewrite Rabs_R0. destruct Rlt_dec; [lra|]. cbv zeta. ring.
  - assert (POS : forall x, 0 < x -> Rabs (sinc x - sin x / x) <= / 10 ^ 48 / 362880).
    { intros x Hx. unfold sinc. rewrite (Rabs_right x) by lra. destruct Rlt_dec as [L|L].
      - unfold Rminus. rewrite Rplus_opp_r, Rabs_R0. apply Rmult_le_pos; [|lra].
        apply Rlt_le, Rinv_0_lt_compat, pow_lt; lra.
      - cbv zeta. destruct (sin_bounds x) as [A B]; [lra|].
        set (S := 1 - 1 / 6 * (x * x) + 1 / 120 * (x * x * (x * x)) - 1 / 5040 * (x * x * (x * x * (x * x)))).
        match goal with |- Rabs (?s - _) <= _ => replace s with S by (unfold S; ring) end.
        assert (E : x * S = x - x ^ 3 / 6 + x ^ 5 / 120 - x ^ 7 / 5040) by (unfold S; field).
        rewrite <- E in A, B.
        assert (P8 : 0 <= x ^ 8 <= / 10 ^ 48).
        { split; [apply pow_le; lra|]. replace (/ 10 ^ 48) with ((/ 1000000) ^ 8) by (simpl; field).
          apply pow_incr. lra. }
        assert (Q : x * (S - sin x / x) = x * S - sin x) by (field; lra).
        assert (E9 : x ^ 9 / 362880 = x * (x ^ 8 / 362880)) by field. rewrite E9 in B.
        apply Rabs_le. split.
        + apply Rmult_le_reg_l with x; auto. rewrite Q.
          assert (x * (x ^ 8 / 362880) <= x * (/ 10 ^ 48 / 362880)) by (apply Rmult_le_compat_l; lra). lra.
        + apply Rmult_le_reg_l with x; auto. rewrite Q.
          assert (0 <= x * (/ 10 ^ 48 / 362880)) by (apply Rmult_le_pos; lra). lra. }
    intros x Hx. destruct (Rlt_le_dec 0 x); [auto|].
    rewrite <- (EV x). replace (sin x / x) with (sin (- x) / (- x)) by (rewrite sin_neg; field; lra).
    apply POS. lra.
Qed.
(** circle and sphere points have the requested radius, and every point of the circle / sphere
    of radius [r > 0] is reached. The header calls [theta] longitude and [phi] latitude; in fact
    [theta] is the polar angle from the z axis and [phi] the azimuth. *)
Lemma polar_exists r x y : 0 < r -> x ^ 2 + y ^ 2 = r ^ 2 -> exists a, x = r * cos a /\ y = r * sin a.
Proof.
  intros Hr H. assert (B : -1 <= x / r <= 1).
  { split; apply (Rmult_le_reg_r r); auto; unfold Rdiv; rewrite Rmult_assoc, Rinv_l by lra; nra. }
  assert (S : 1 - (x / r)² = (y / r)²).
  { unfold Rsqr. apply Rminus_diag_uniq. transitivity ((r ^ 2 - (x ^ 2 + y ^ 2)) / (r * r)); [field; lra|rewrite H; field; lra]. }
  destruct (Rle_dec 0 y) as [Y|Y].
  - exists (acos (x / r)). rewrite cos_acos, sin_acos, S by auto.
    rewrite sqrt_Rsqr by (apply Rmult_le_pos; [lra|left; apply Rinv_0_lt_compat; auto]).
    split; field; lra.
  - exists (- acos (x / r)). rewrite cos_neg, sin_neg, cos_acos, sin_acos, S by auto.
    replace ((y / r)²) with ((- y / r)²) by (unfold Rsqr; field; lra).
    rewrite sqrt_Rsqr by (apply Rmult_le_pos; [lra|left; apply Rinv_0_lt_compat; auto]). split; field; lra.
Qed.
Theorem C66_circle_sphere : forall r theta phi,
  v2x (circle r theta) ^ 2 + v2y (circle r theta) ^ 2 = r ^ 2 /\
  (* angles run counter-clockwise from the x axis *)
  circle r 0 = V2 r 0 /\
  circle r (theta + phi) = V2 (cos phi * v2x (circle r theta) - sin phi * v2y (circle r theta))
                              (sin phi * v2x (circle r theta) + cos phi * v2y (circle r theta)) /\
  (0 < r -> forall x y, x ^ 2 + y ^ 2 = r ^ 2 -> exists a, circle r a = V2 x y) /\
  vdot (sphere r theta phi) (sphere r theta phi) = r ^ 2 /\
  vz (sphere r theta phi) = r * cos theta /\
  V2 (vx (sphere r theta phi)) (vy (sphere r theta phi)) = circle (r * sin theta) phi /\
  sphere r theta (phi + 2 * PI) = sphere r theta phi /\
  (0 < r -> forall v, vdot v v = r ^ 2 -> exists a b, 0 <= a <= PI /\ sphere r a b = v).
Proof.
  intros. assert (T := sin2_cos2 theta). assert (P := sin2_cos2 phi). unfold Rsqr in T, P.
  unfold circle, sphere, vdot; cbn [v2x v2y vx vy vz].
  split. { transitivity (r ^ 2 * (sin theta * sin theta + cos theta * cos theta)); [ring|rewrite T; ring]. }
  split. { rewrite cos_0, sin_0. f_equal; ring. }
  split. { rewrite cos_plus, sin_plus. f_equal; ring. }
  split. { intros Hr x y H. destruct (polar_exists r x y Hr H) as (a & -> & ->). eauto. }
  split. { transitivity (r ^ 2 * (sin theta * sin theta * (sin phi * sin phi + cos phi * cos phi) + cos theta * cos theta)); [ring|].
    rewrite P, Rmult_1_r, T. ring. }
  split; [reflexivity|]. split; [reflexivity|].
  split. { rewrite cos_plus, sin_plus, cos_2PI, sin_2PI. f_equal; ring. }
  intros Hr [x y z] H. cbn [vx vy vz] in H.
  assert (B : -1 <= z / r <= 1).
  { split; apply (Rmult_le_reg_r r); auto; unfold Rdiv; rewrite Rmult_assoc, Rinv_l by lra; nra. }
  set (a := acos (z / r)). assert (CA : cos a = z / r) by (apply cos_acos; auto).
  pose proof (acos_bound (z / r)) as AB. fold a in AB.
  assert (SA : 0 <= sin a) by (apply sin_ge_0; lra).
  assert (S2 : sin a * sin a = 1 - (z / r) * (z / r)).
  { pose proof (sin2_cos2 a) as Q. unfold Rsqr in Q. rewrite CA in Q. lra. }
  assert (XY : x ^ 2 + y ^ 2 = (r * sin a) ^ 2).
  { transitivity (r * r * (sin a * sin a)); [|ring]. rewrite S2.
    transitivity (r ^ 2 - z * z); [lra|field; lra]. }
  destruct (Req_dec (sin a) 0) as [Z|NZ].
  - exists a, 0. split; [lra|]. rewrite Z in *. rewrite CA.
    assert (x = 0 /\ y = 0) as [-> ->] by (split; nra). f_equal; field; lra.
  - destruct (polar_exists (r * sin a) x y) as (b & -> & ->); [apply Rmult_lt_0_compat; lra|auto|].
    exists a, b. split; [lra|]. rewrite CA. f_equal; field; lra.
Qed.
(** Read as documented in the header (theta longitude, phi latitude), latitude 90 degrees should
    be the pole for every longitude; it is not. *)
Theorem C66_latitude_refuted :
  ~ (forall rho theta, sphere rho theta (PI / 2) = V3 0 0 rho).
Proof.
  intros H. specialize (H 1 (PI / 2)). unfold sphere in H. rewrite cos_PI2, sin_PI2 in H.
  injection H. lra.
Qed.
Print Assumptions C66_sinc.
Print Assumptions C66_circle_sphere.
