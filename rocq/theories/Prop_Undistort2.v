(** * C68, C52: convergence of the radial-tangential undistortion; focal length and field of view *)
From Coq Require Import Reals Lra Lia ZArith List Bool Psatz.
From Coquelicot Require Import Coquelicot.
From Verif Require Import GeomModel CameraModel Prop_Camera Prop_Camera2 Prop_Undistort.
Local Open Scope R_scope.

(** ** Specification *)
(** both coordinates of [p] are at most [r] in absolute value *)
Definition within2 (r : R) (p : vec2) : Prop := Rabs (v2x p) <= r /\ Rabs (v2y p) <= r.
Definition sub2 (p q : vec2) : vec2 := V2 (v2x p - v2x q) (v2y p - v2y q).
(** how far the distortion is from the identity on the square of half width [r] *)
Definition radtan_strength (c : cam8) (r : R) : R :=
  6 * Rabs (d0 c) * r ^ 2 + 20 * Rabs (d1 c) * r ^ 4 + 12 * Rmax (Rabs (d2 c)) (Rabs (d3 c)) * r.

(** ** bounds on monomials *)
Lemma ab_le a k b m : Rabs a <= k -> Rabs b <= m -> Rabs (a * b) <= k * m.
Proof. intros A B. rewrite Rabs_mult. apply Rmult_le_compat; auto using Rabs_pos. Qed.
Lemma ab_diff a b a' b' A B da db : Rabs a <= A -> Rabs b' <= B -> Rabs (a - a') <= da -> Rabs (b - b') <= db ->
  Rabs (a * b - a' * b') <= A * db + da * B.
Proof.
  intros. replace (a * b - a' * b') with (a * (b - b') + (a - a') * b') by ring.
  eapply Rle_trans; [apply Rabs_triang|]. apply Rplus_le_compat; apply ab_le; auto.
Qed.
Lemma plus_le a b A B : Rabs a <= A -> Rabs b <= B -> Rabs (a + b) <= A + B.
Proof. intros. eapply Rle_trans; [apply Rabs_triang|]. lra. Qed.
Lemma scal_le k a A : Rabs a <= A -> Rabs (k * a) <= Rabs k * A.
Proof. intros. rewrite Rabs_mult. apply Rmult_le_compat_l; auto using Rabs_pos. Qed.
Lemma num_le n a A : Rabs a <= A -> 0 <= n -> Rabs (n * a) <= n * A.
Proof. intros. rewrite Rabs_mult, (Rabs_pos_eq n) by auto. apply Rmult_le_compat_l; auto. Qed.

(** the four entries of the Jacobian minus the identity, as sums of monomials *)
Definition E00 (c : cam8) (p : vec2) : R :=
  let x := v2x p in let y := v2y p in
  d0 c * (3 * (x * x) + 1 * (y * y)) + d1 c * (5 * ((x * x) * (x * x)) + (6 * ((x * x) * (y * y)) + 1 * ((y * y) * (y * y))))
  + (d2 c * (2 * y) + d3 c * (6 * x)).
Definition E01 (c : cam8) (p : vec2) : R :=
  let x := v2x p in let y := v2y p in
  d0 c * (2 * (x * y)) + d1 c * (4 * ((x * x) * (x * y)) + 4 * ((y * y) * (x * y)))
  + (d2 c * (2 * x) + d3 c * (2 * y)).
Definition E11 (c : cam8) (p : vec2) : R :=
  let x := v2x p in let y := v2y p in
  d0 c * (1 * (x * x) + 3 * (y * y)) + d1 c * (1 * ((x * x) * (x * x)) + (6 * ((x * x) * (y * y)) + 5 * ((y * y) * (y * y))))
  + (d2 c * (6 * y) + d3 c * (2 * x)).
Lemma jac_E c p : let J := radtan4_point_jacobian c p in
  J 0%nat 0%nat = 1 + E00 c p /\ J 0%nat 1%nat = E01 c p /\ J 1%nat 0%nat = E01 c p /\ J 1%nat 1%nat = 1 + E11 c p.
Proof. unfold radtan4_point_jacobian, rows, E00, E01, E11; cbn [nth]. repeat split; ring. Qed.

Lemma tang_le c a b A B : Rabs a <= A -> Rabs b <= B ->
  Rabs (d2 c * a + d3 c * b) <= Rmax (Rabs (d2 c)) (Rabs (d3 c)) * (A + B).
Proof.
  intros. eapply Rle_trans; [apply plus_le; apply scal_le; eassumption|].
  assert (0 <= A) by (generalize (Rabs_pos a); lra). assert (0 <= B) by (generalize (Rabs_pos b); lra).
  rewrite Rmult_plus_distr_l. apply Rplus_le_compat; apply Rmult_le_compat_r; auto using Rmax_l, Rmax_r.
Qed.
Lemma three_le a b c A B C : Rabs a <= A -> Rabs b <= B -> Rabs c <= C -> Rabs (a + b + c) <= A + B + C.
Proof. intros. apply plus_le; [apply plus_le|]; auto. Qed.
Ltac mono := repeat first [assumption | apply tang_le | apply num_le; [|lra] | apply plus_le].
Lemma E_small c r p : within2 r p ->
  Rabs (E00 c p) + Rabs (E01 c p) <= radtan_strength c r /\ Rabs (E01 c p) + Rabs (E11 c p) <= radtan_strength c r.
Proof.
  intros [X Y]. set (x := v2x p) in *. set (y := v2y p) in *.
  assert (XX := ab_le _ _ _ _ X X). assert (XY := ab_le _ _ _ _ X Y). assert (YY := ab_le _ _ _ _ Y Y).
  assert (A1 := ab_le _ _ _ _ XX XX). assert (A2 := ab_le _ _ _ _ XX YY). assert (A3 := ab_le _ _ _ _ YY YY).
  assert (A4 := ab_le _ _ _ _ XX XY). assert (A5 := ab_le _ _ _ _ YY XY).
  assert (H0 : Rabs (E00 c p) <= Rabs (d0 c) * (3 * (r * r) + 1 * (r * r)) + Rabs (d1 c) * (5 * (r * r * (r * r)) + (6 * (r * r * (r * r)) + 1 * (r * r * (r * r))))
     + Rmax (Rabs (d2 c)) (Rabs (d3 c)) * (2 * r + 6 * r)).
  { apply three_le; [apply scal_le; mono|apply scal_le; mono|apply tang_le; mono]. }
  assert (H1 : Rabs (E01 c p) <= Rabs (d0 c) * (2 * (r * r)) + Rabs (d1 c) * (4 * (r * r * (r * r)) + 4 * (r * r * (r * r)))
     + Rmax (Rabs (d2 c)) (Rabs (d3 c)) * (2 * r + 2 * r)).
  { apply three_le; [apply scal_le; mono|apply scal_le; mono|apply tang_le; mono]. }
  assert (H2 : Rabs (E11 c p) <= Rabs (d0 c) * (1 * (r * r) + 3 * (r * r)) + Rabs (d1 c) * (1 * (r * r * (r * r)) + (6 * (r * r * (r * r)) + 5 * (r * r * (r * r))))
     + Rmax (Rabs (d2 c)) (Rabs (d3 c)) * (6 * r + 2 * r)).
  { apply three_le; [apply scal_le; mono|apply scal_le; mono|apply tang_le; mono]. }
  unfold radtan_strength. split; lra.
Qed.
Lemma E_lip c r d p q : within2 r p -> within2 r q -> within2 d (sub2 p q) -> 0 < r ->
  Rabs (E00 c p - E00 c q) + Rabs (E01 c p - E01 c q) <= 4 / r * radtan_strength c r * d /\
  Rabs (E01 c p - E01 c q) + Rabs (E11 c p - E11 c q) <= 4 / r * radtan_strength c r * d.
Proof.
  intros [X Y] [X' Y'] [DX DY] R0. unfold sub2 in DX, DY; cbn [v2x v2y] in DX, DY.
  assert (D0 : 0 <= d) by (generalize (Rabs_pos (v2x p - v2x q)); lra).
  set (x := v2x p) in *. set (y := v2y p) in *. set (x' := v2x q) in *. set (y' := v2y q) in *.
  assert (XX := ab_le _ _ _ _ X X). assert (XY := ab_le _ _ _ _ X Y). assert (YY := ab_le _ _ _ _ Y Y).
  assert (XX' := ab_le _ _ _ _ X' X'). assert (XY' := ab_le _ _ _ _ X' Y'). assert (YY' := ab_le _ _ _ _ Y' Y').
  assert (dXX := ab_diff _ _ _ _ _ _ _ _ X X' DX DX). assert (dXY := ab_diff _ _ _ _ _ _ _ _ X Y' DX DY).
  assert (dYY := ab_diff _ _ _ _ _ _ _ _ Y Y' DY DY).
  assert (A1 := ab_diff _ _ _ _ _ _ _ _ XX XX' dXX dXX). assert (A2 := ab_diff _ _ _ _ _ _ _ _ XX YY' dXX dYY).
  assert (A3 := ab_diff _ _ _ _ _ _ _ _ YY YY' dYY dYY). assert (A4 := ab_diff _ _ _ _ _ _ _ _ XX XY' dXX dXY).
  assert (A5 := ab_diff _ _ _ _ _ _ _ _ YY XY' dYY dXY).
  set (m2 := r * d + d * r) in *. set (m4 := r * r * m2 + m2 * (r * r)) in *.
  assert (H0 : Rabs (E00 c p - E00 c q) <= Rabs (d0 c) * (3 * m2 + 1 * m2) + Rabs (d1 c) * (5 * m4 + (6 * m4 + 1 * m4))
     + Rmax (Rabs (d2 c)) (Rabs (d3 c)) * (2 * d + 6 * d)).
  { replace (E00 c p - E00 c q) with (d0 c * (3 * (x * x - x' * x') + 1 * (y * y - y' * y')) + d1 c * (5 * ((x * x) * (x * x) - (x' * x') * (x' * x')) + (6 * ((x * x) * (y * y) - (x' * x') * (y' * y')) + 1 * ((y * y) * (y * y) - (y' * y') * (y' * y')))) + (d2 c * (2 * (y - y')) + d3 c * (6 * (x - x')))) by (unfold E00; fold x y x' y'; ring).
    apply three_le; [apply scal_le; mono|apply scal_le; mono|apply tang_le; mono]. }
  assert (H1 : Rabs (E01 c p - E01 c q) <= Rabs (d0 c) * (2 * m2) + Rabs (d1 c) * (4 * m4 + 4 * m4)
     + Rmax (Rabs (d2 c)) (Rabs (d3 c)) * (2 * d + 2 * d)).
  { replace (E01 c p - E01 c q) with (d0 c * (2 * (x * y - x' * y')) + d1 c * (4 * ((x * x) * (x * y) - (x' * x') * (x' * y')) + 4 * ((y * y) * (x * y) - (y' * y') * (x' * y'))) + (d2 c * (2 * (x - x')) + d3 c * (2 * (y - y')))) by (unfold E01; fold x y x' y'; ring).
    apply three_le; [apply scal_le; mono|apply scal_le; mono|apply tang_le; mono]. }
  assert (H2 : Rabs (E11 c p - E11 c q) <= Rabs (d0 c) * (1 * m2 + 3 * m2) + Rabs (d1 c) * (1 * m4 + (6 * m4 + 5 * m4))
     + Rmax (Rabs (d2 c)) (Rabs (d3 c)) * (6 * d + 2 * d)).
  { replace (E11 c p - E11 c q) with (d0 c * (1 * (x * x - x' * x') + 3 * (y * y - y' * y')) + d1 c * (1 * ((x * x) * (x * x) - (x' * x') * (x' * x')) + (6 * ((x * x) * (y * y) - (x' * x') * (y' * y')) + 5 * ((y * y) * (y * y) - (y' * y') * (y' * y')))) + (d2 c * (6 * (y - y')) + d3 c * (2 * (x - x')))) by (unfold E11; fold x y x' y'; ring).
    apply three_le; [apply scal_le; mono|apply scal_le; mono|apply tang_le; mono]. }
  assert (F : 4 / r * radtan_strength c r * d =
    24 * (Rabs (d0 c) * (r * d)) + 80 * (Rabs (d1 c) * (r * r * (r * d))) + 48 * (Rmax (Rabs (d2 c)) (Rabs (d3 c)) * d))
    by (unfold radtan_strength; field; lra).
  assert (P0 : 0 <= Rabs (d0 c) * (r * d)) by (apply Rmult_le_pos; [apply Rabs_pos|nra]).
  assert (P1 : 0 <= Rmax (Rabs (d2 c)) (Rabs (d3 c)) * d).
  { apply Rmult_le_pos; auto. eapply Rle_trans; [apply Rabs_pos|apply Rmax_l]. }
  unfold m4, m2 in *. rewrite F. split; lra.
Qed.
(** ** mean value theorem along a segment *)
Definition seg (p q : vec2) (t : R) : vec2 := V2 (v2x p + t * (v2x q - v2x p)) (v2y p + t * (v2y q - v2y p)).
Lemma seg_within r p q t : 0 <= t <= 1 -> within2 r p -> within2 r q -> within2 r (seg p q t).
Proof.
  intros T [A B] [C D]. unfold within2, seg; cbn [v2x v2y].
  apply Rabs_le_between in A, B, C, D. split; apply Rabs_le; split; nra.
Qed.
Lemma mvt_x c p q : exists t, 0 <= t <= 1 /\
  v2x (radtan4_distort c q) - v2x (radtan4_distort c p)
  = (1 + E00 c (seg p q t)) * (v2x q - v2x p) + E01 c (seg p q t) * (v2y q - v2y p).
Proof.
  set (f := fun t => v2x (radtan4_distort c (seg p q t))).
  set (f' := fun t => (1 + E00 c (seg p q t)) * (v2x q - v2x p) + E01 c (seg p q t) * (v2y q - v2y p)).
  assert (Df : forall t, is_derive f t (f' t)).
  { intros t. unfold f, f', radtan4_distort, seg, E00, E01; cbn [v2x v2y]. auto_derive; [trivial|ring]. }
  destruct (MVT_gen f 0 1 f') as (t & T & E).
  - intros; apply Df.
  - intros. apply continuity_pt_filterlim. apply @ex_derive_continuous. eexists; apply Df.
  - rewrite Rmin_left, Rmax_right in T by lra. exists t. split; auto.
    unfold f' in E. rewrite Rminus_0_r, Rmult_1_r in E. rewrite <- E. unfold f, seg.
    rewrite !Rmult_0_l, !Rplus_0_r, !Rmult_1_l. destruct p as [px py], q as [qx qy]; cbn [v2x v2y].
    replace (px + (qx - px)) with qx by ring. replace (py + (qy - py)) with qy by ring. reflexivity.
Qed.
Lemma mvt_y c p q : exists t, 0 <= t <= 1 /\
  v2y (radtan4_distort c q) - v2y (radtan4_distort c p)
  = E01 c (seg p q t) * (v2x q - v2x p) + (1 + E11 c (seg p q t)) * (v2y q - v2y p).
Proof.
  set (f := fun t => v2y (radtan4_distort c (seg p q t))).
  set (f' := fun t => E01 c (seg p q t) * (v2x q - v2x p) + (1 + E11 c (seg p q t)) * (v2y q - v2y p)).
  assert (Df : forall t, is_derive f t (f' t)).
  { intros t. unfold f, f', radtan4_distort, seg, E11, E01; cbn [v2x v2y]. auto_derive; [trivial|ring]. }
  destruct (MVT_gen f 0 1 f') as (t & T & E).
  - intros; apply Df.
  - intros. apply continuity_pt_filterlim. apply @ex_derive_continuous. eexists; apply Df.
  - rewrite Rmin_left, Rmax_right in T by lra. exists t. split; auto.
    unfold f' in E. rewrite Rminus_0_r, Rmult_1_r in E. rewrite <- E. unfold f, seg.
    rewrite !Rmult_0_l, !Rplus_0_r, !Rmult_1_l. destruct p as [px py], q as [qx qy]; cbn [v2x v2y].
    replace (px + (qx - px)) with qx by ring. replace (py + (qy - py)) with qy by ring. reflexivity.
Qed.
(** ** a square Gauss-Newton step is a Newton step *)
Lemma gn_solves J e : J 0%nat 0%nat * J 1%nat 1%nat - J 0%nat 1%nat * J 1%nat 0%nat <> 0 ->
  exists u v, gn_step J e = Some (V2 u v) /\
    J 0%nat 0%nat * u + J 0%nat 1%nat * v = v2x e /\ J 1%nat 0%nat * u + J 1%nat 1%nat * v = v2y e.
Proof.
  unfold gn_step, mulf, sum_to, rows; cbn [nth].
  generalize (J 0%nat 0%nat) (J 0%nat 1%nat) (J 1%nat 0%nat) (J 1%nat 1%nat). intros a b c d H.
  assert (E : (0 + a * a + c * c) * (0 + b * b + d * d) - (0 + a * b + c * d) * (0 + b * a + d * c) = (a * d - b * c) * (a * d - b * c)) by ring.
  destruct Req_EM_T as [Q|Q].
  - exfalso. rewrite E in Q. apply Rmult_integral in Q. tauto.
  - eexists _, _. split; [reflexivity|]. rewrite !E. split; field; auto.
Qed.
(** a matrix close to the identity enlarges by at least 1 - e *)
Lemma near_id_low e a b c d u v m : Rabs a + Rabs b <= e -> Rabs c + Rabs d <= e -> e < 1 ->
  Rabs ((1 + a) * u + b * v) <= m -> Rabs (c * u + (1 + d) * v) <= m ->
  Rabs u <= m / (1 - e) /\ Rabs v <= m / (1 - e).
Proof.
  intros A B L H K.
  assert (X : Rabs u <= m + (Rabs a * Rabs u + Rabs b * Rabs v)).
  { replace u with (((1 + a) * u + b * v) + (- (a * u) + - (b * v))) at 1 by ring.
    apply plus_le; auto. apply plus_le; rewrite Rabs_Ropp, Rabs_mult; lra. }
  assert (Y : Rabs v <= m + (Rabs c * Rabs u + Rabs d * Rabs v)).
  { replace v with ((c * u + (1 + d) * v) + (- (c * u) + - (d * v))) at 1 by ring.
    apply plus_le; auto. apply plus_le; rewrite Rabs_Ropp, Rabs_mult; lra. }
  assert (Pa := Rabs_pos a). assert (Pb := Rabs_pos b). assert (Pc := Rabs_pos c). assert (Pd := Rabs_pos d).
  assert (Pu := Rabs_pos u). assert (Pv := Rabs_pos v).
  revert A B X Y Pa Pb Pc Pd Pu Pv. generalize (Rabs a) (Rabs b) (Rabs c) (Rabs d) (Rabs u) (Rabs v).
  intros a' b' c' d' u' v' A B X Y Pa Pb Pc Pd Pu Pv.
  assert (W : u' * (1 - e) <= m /\ v' * (1 - e) <= m).
  { destruct (Rle_dec u' v'); split; nra. }
  split; apply Rmult_le_reg_r with (1 - e); try lra; unfold Rdiv; rewrite Rmult_assoc, Rinv_l, Rmult_1_r by lra; lra.
Qed.
Lemma det_near e a b c d : Rabs a + Rabs b <= e -> Rabs c + Rabs d <= e -> e < 1 ->
  (1 + a) * (1 + d) - b * c <> 0.
Proof.
  intros A B L Z.
  (* the null vector (b, -(1+a)) would have to be zero *)
  destruct (near_id_low e a b c d b (- (1 + a)) 0 A B L) as [U V].
  - replace ((1 + a) * b + b * - (1 + a)) with 0 by ring. rewrite Rabs_R0. lra.
  - replace (c * b + (1 + d) * - (1 + a)) with (- ((1 + a) * (1 + d) - b * c)) by ring. rewrite Z, Ropp_0, Rabs_R0. lra.
  - unfold Rdiv in V. rewrite Rmult_0_l in V. rewrite Rabs_Ropp in V.
    assert (Rabs (1 + a) = 0) by (generalize (Rabs_pos (1 + a)); lra).
    apply Rabs_eq_0 in H. assert (a = -1) by lra. subst a. rewrite Rabs_left in A by lra.
    generalize (Rabs_pos b); lra.
Qed.
(** one refinement step towards the true point [p] *)
Definition next (c : cam8) (z s : vec2) : option vec2 :=
  match gn_step (radtan4_point_jacobian c s) (sub2 z (radtan4_distort c s)) with
  | Some dp => Some (V2 (v2x s + v2x dp) (v2y s + v2y dp)) | None => None end.
Lemma step_quadratic c r e p s d : 0 < r -> radtan_strength c r <= e -> e < 1 ->
  within2 r p -> within2 r s -> within2 d (sub2 s p) ->
  exists s', next c (radtan4_distort c p) s = Some s' /\ within2 (4 * e / (r * (1 - e)) * d * d) (sub2 s' p).
Proof.
  intros R0 S E P Q D.
  destruct (E_small c r s Q) as [A B]. destruct (jac_E c s) as (J0 & J1 & J2 & J3).
  set (J := radtan4_point_jacobian c s) in *.
  assert (A' : Rabs (E00 c s) + Rabs (E01 c s) <= e) by lra. assert (B' : Rabs (E01 c s) + Rabs (E11 c s) <= e) by lra.
  assert (N := det_near e _ _ _ _ A' B' E). rewrite <- J0, <- J3 in N. rewrite <- J1 in N at 1. rewrite <- J2 in N.
  destruct (gn_solves J (sub2 (radtan4_distort c p) (radtan4_distort c s)) N) as (u & v & G & U & V).
  unfold next. fold J. rewrite G. eexists. split; [reflexivity|]. cbn [v2x v2y].
  unfold sub2 in U, V; cbn [v2x v2y] in U, V.
  destruct (mvt_x c s p) as (t1 & T1 & M1). destruct (mvt_y c s p) as (t2 & T2 & M2).
  rewrite M1 in U. rewrite M2 in V. rewrite J0, J1 in U. rewrite J2, J3 in V.
  assert (W : forall t, 0 <= t <= 1 -> within2 d (sub2 s (seg s p t))).
  { intros t T. destruct D as [D1 D2]. unfold within2, sub2, seg in *; cbn [v2x v2y] in *.
    apply Rabs_le_between in D1, D2. split; apply Rabs_le; split; nra. }
  destruct (E_lip c r d s (seg s p t1) Q (seg_within r s p t1 T1 Q P) (W _ T1) R0) as [L1 _].
  destruct (E_lip c r d s (seg s p t2) Q (seg_within r s p t2 T2 Q P) (W _ T2) R0) as [_ L2].
  set (k := 4 / r * radtan_strength c r * d) in *. destruct D as [D1 D2]. unfold sub2 in D1, D2; cbn [v2x v2y] in D1, D2.
  assert (D0 : 0 <= d) by (generalize (Rabs_pos (v2x s - v2x p)); lra).
  set (hx := v2x s - v2x p) in *. set (hy := v2y s - v2y p) in *.
  replace (v2x p - v2x s) with (- hx) in * by (unfold hx; ring). replace (v2y p - v2y s) with (- hy) in * by (unfold hy; ring).
  assert (Kb : forall a b, Rabs a + Rabs b <= k -> Rabs (a * hx + b * hy) <= k * d).
  { intros a b H. eapply Rle_trans; [apply Rabs_triang|]. rewrite !Rabs_mult.
    assert (P1 := Rabs_pos a). assert (P2 := Rabs_pos b). nra. }
  apply Kb in L1, L2.
  destruct (near_id_low e _ _ _ _ (hx + u) (hy + v) (k * d) A' B' E) as [F1 F2].
  { replace ((1 + E00 c s) * (hx + u) + E01 c s * (hy + v))
      with ((1 + E00 c s) * hx + E01 c s * hy + ((1 + E00 c s) * u + E01 c s * v)) by ring.
    rewrite U. eapply Rle_trans; [right|exact L1]. f_equal. ring. }
  { replace (E01 c s * (hx + u) + (1 + E11 c s) * (hy + v))
      with (E01 c s * hx + (1 + E11 c s) * hy + (E01 c s * u + (1 + E11 c s) * v)) by ring.
    rewrite V. eapply Rle_trans; [right|exact L2]. f_equal. ring. }
  assert (KK : k * d / (1 - e) <= 4 * e / (r * (1 - e)) * d * d).
  { unfold k. replace (4 / r * radtan_strength c r * d * d / (1 - e)) with (radtan_strength c r * (4 * (d * d) / (r * (1 - e)))) by (field; lra).
    replace (4 * e / (r * (1 - e)) * d * d) with (e * (4 * (d * d) / (r * (1 - e)))) by (field; lra).
    apply Rmult_le_compat_r; auto. apply Rdiv_le_0_compat; [nra|]. apply Rmult_lt_0_compat; lra. }
  unfold within2, sub2; cbn [v2x v2y].
  replace (v2x s + u - v2x p) with (hx + u) by (unfold hx; ring). replace (v2y s + v - v2y p) with (hy + v) by (unfold hy; ring).
  split; lra.
Qed.
(** the distortion moves a point by at most e times its size, and a small residual means a small error *)
Lemma distort_moves c r e p m : 0 < r -> radtan_strength c r <= e -> within2 r p -> within2 m p ->
  within2 (e * m) (sub2 (radtan4_distort c p) p).
Proof.
  intros R0 S P M. set (o := V2 0 0).
  assert (O : within2 r o) by (unfold within2, o; cbn [v2x v2y]; rewrite Rabs_R0; lra).
  assert (Z : radtan4_distort c o = o) by (unfold radtan4_distort, o; cbn [v2x v2y]; f_equal; ring).
  destruct (mvt_x c o p) as (t1 & T1 & M1). destruct (mvt_y c o p) as (t2 & T2 & M2). rewrite Z in M1, M2.
  destruct (E_small c r _ (seg_within r o p t1 T1 O P)) as [A _]. destruct (E_small c r _ (seg_within r o p t2 T2 O P)) as [_ B].
  change (v2x o) with 0 in M1, M2. change (v2y o) with 0 in M1, M2. rewrite !Rminus_0_r in M1, M2.
  destruct M as [Mx My]. unfold within2, sub2; cbn [v2x v2y]. rewrite M1, M2.
  set (a := E00 c _) in *. set (b := E01 c (seg o p t1)) in *. set (b' := E01 c (seg o p t2)) in *. set (d := E11 c _) in *.
  replace ((1 + a) * v2x p + b * v2y p - v2x p) with (a * v2x p + b * v2y p) by ring.
  replace (b' * v2x p + (1 + d) * v2y p - v2y p) with (b' * v2x p + d * v2y p) by ring.
  assert (Hm : 0 <= m) by (generalize (Rabs_pos (v2x p)); lra).
  split; (eapply Rle_trans; [apply plus_le; apply scal_le; eassumption|]; rewrite <- Rmult_plus_distr_r; apply Rmult_le_compat_r; lra).
Qed.
Lemma residual_error c r e p s m : 0 < r -> radtan_strength c r <= e -> e < 1 -> within2 r p -> within2 r s ->
  within2 m (sub2 (radtan4_distort c p) (radtan4_distort c s)) -> within2 (m / (1 - e)) (sub2 s p).
Proof.
  intros R0 S E P Q [M N]. unfold sub2 in M, N; cbn [v2x v2y] in M, N.
  destruct (mvt_x c s p) as (t1 & T1 & M1). destruct (mvt_y c s p) as (t2 & T2 & M2). rewrite M1 in M. rewrite M2 in N.
  destruct (E_small c r _ (seg_within r s p t1 T1 Q P)) as [A _]. destruct (E_small c r _ (seg_within r s p t2 T2 Q P)) as [_ B].
  destruct (near_id_low e _ _ _ _ (v2x p - v2x s) (v2y p - v2y s) m (Rle_trans _ _ _ A S) (Rle_trans _ _ _ B S) E M N) as [U V].
  unfold within2, sub2; cbn [v2x v2y]. rewrite <- (Rabs_Ropp (v2x s - v2x p)), <- (Rabs_Ropp (v2y s - v2y p)), !Ropp_minus_distr. auto.
Qed.
Lemma within_weaken a b p : a <= b -> within2 a p -> within2 b p.
Proof. intros H [A B]. split; lra. Qed.
Lemma within_near r a b s p : within2 a p -> within2 b (sub2 s p) -> a + b <= r -> within2 r s.
Proof.
  intros [A B] [C D] H. unfold sub2 in *; cbn [v2x v2y] in *. split.
  - replace (v2x s) with (v2x p + (v2x s - v2x p)) by ring. eapply Rle_trans; [apply plus_le; eassumption|auto].
  - replace (v2y s) with (v2y p + (v2y s - v2y p)) by ring. eapply Rle_trans; [apply plus_le; eassumption|auto].
Qed.

Definition shrink (r d : R) : R := 4 / (3 * r) * d * d.
Lemma shrink_le r d : 0 < r -> 0 <= d <= r / 5 -> 0 <= shrink r d <= r / 5.
Proof.
  intros R0 [A B]. unfold shrink. split.
  - apply Rmult_le_pos; auto. apply Rmult_le_pos; auto. apply Rdiv_le_0_compat; lra.
  - apply Rle_trans with (4 / (3 * r) * (r / 5) * (r / 5)).
    + apply Rmult_le_compat; auto; [apply Rmult_le_pos; auto; apply Rdiv_le_0_compat; lra|].
      apply Rmult_le_compat_l; auto. apply Rdiv_le_0_compat; lra.
    + replace (4 / (3 * r) * (r / 5) * (r / 5)) with (4 / 75 * r) by (field; lra). lra.
Qed.
Lemma iter_S (f : R -> R) n d : Nat.iter (S n) f d = Nat.iter n f (f d).
Proof. induction n; [reflexivity|]. change (Nat.iter (S (S n)) f d) with (f (Nat.iter (S n) f d)). rewrite IHn. reflexivity. Qed.
Lemma iter_converges c r p : 0 < r -> radtan_strength c r <= / 4 -> within2 (4 / 5 * r) p ->
  forall n s d, within2 d (sub2 s p) -> d <= r / 5 ->
  exists q, radtan4_iter n c (radtan4_distort c p) s = Some q /\
    (within2 (Nat.iter n (shrink r) d) (sub2 q p) \/ within2 (3 / 10 ^ 15 / r) (sub2 q p)).
Proof.
  intros R0 S P n. assert (P' : within2 r p) by (apply within_weaken with (4 / 5 * r); auto; lra).
  induction n as [|n IH]; intros s d D L.
  - exists s. split; [reflexivity|]. left. exact D.
  - assert (D0 : 0 <= d) by (destruct D as [D _]; generalize (Rabs_pos (v2x (sub2 s p))); lra).
    assert (W : within2 r s) by (apply (within_near r (4 / 5 * r) d s p); auto; lra).
    destruct (step_quadratic c r (/ 4) p s d) as (s' & N & Q); auto; [lra|].
    assert (N0 := N). unfold next, sub2 in N. cbn [radtan4_iter]. destruct gn_step as [dp|]; [|discriminate N].
    apply some_inj in N. rewrite N. destruct Rlt_dec as [T|_].
    + exists s'. split; [reflexivity|]. right.
      assert (M : within2 (32 / 10 ^ 9) (sub2 (radtan4_distort c p) (radtan4_distort c s))).
      { unfold within2, sub2; cbn [v2x v2y] in *. revert T.
        generalize (v2x (radtan4_distort c p) - v2x (radtan4_distort c s)) (v2y (radtan4_distort c p) - v2y (radtan4_distort c s)).
        intros a b T. split; apply Rabs_le; split; nra. }
      apply (residual_error c r (/ 4) p s) in M; auto; [|lra].
      destruct (step_quadratic c r (/ 4) p s (32 / 10 ^ 9 / (1 - / 4))) as (s2 & N2 & Q2); auto; [lra|].
      assert (s2 = s') by (rewrite N0 in N2; apply some_inj in N2; auto).
      subst s2. eapply within_weaken; [|exact Q2].
      replace (4 * / 4 / (r * (1 - / 4)) * (32 / 10 ^ 9 / (1 - / 4)) * (32 / 10 ^ 9 / (1 - / 4))) with ((4 / 3 * (4 / 3) * (4 / 3) * 1024 / 10 ^ 18) / r) by (field; lra).
      unfold Rdiv at 1 6. apply Rmult_le_compat_r; [left; apply Rinv_0_lt_compat; auto|lra].
    + replace (4 * / 4 / (r * (1 - / 4)) * d * d) with (shrink r d) in Q by (unfold shrink; field; lra).
      destruct (IH s' (shrink r d) Q) as (q & E & F); [apply shrink_le; lra|].
      exists q. split; [exact E|]. rewrite iter_S. exact F.
Qed.

(** Any camera and any point in the square on which the distortion is a moderate deformation
    (strength at most 1/4): undistorting the distorted point gives the point back, up to an
    absolute error far below a millionth of a pixel. *)
Theorem C68_radtan4_converges_partial : forall c r p, 0 < r -> radtan_strength c r <= / 4 ->
  within2 (4 / 5 * r) p ->
  exists q, radtan4_undistort c (radtan4_distort c p) = Some q /\
    within2 (r / 10 ^ 18 + 3 / 10 ^ 15 / r) (sub2 q p).
Proof.
  intros c r p R0 S P.
  assert (D := distort_moves c r (/ 4) p (4 / 5 * r) R0 S ltac:(apply within_weaken with (4 / 5 * r); auto; lra) P).
  destruct (iter_converges c r p R0 S P 5 (radtan4_distort c p) (r / 5)) as (q & E & F); [|lra|].
  { apply within_weaken with (2 := D). lra. }
  exists q. split; [exact E|].
  assert (0 <= 3 / 10 ^ 15 / r) by (apply Rdiv_le_0_compat; lra). assert (0 <= r / 10 ^ 18) by (apply Rdiv_le_0_compat; lra).
  destruct F as [F|F]; (eapply within_weaken; [|exact F]); [|lra].
  replace (Nat.iter 5 (shrink r) (r / 5)) with (r * (3 / 4 * (4 / 15) ^ 32)).
  2:{ unfold Nat.iter, shrink; cbn [nat_rect]. field. lra. }
  apply Rle_trans with (r * / 10 ^ 18); [|unfold Rdiv; lra]. apply Rmult_le_compat_l; [lra|].
  assert (forall a b : R, 0 < b -> a * b <= 1 -> a <= / b).
  { intros a b B H1. apply Rmult_le_reg_r with b; auto. rewrite Rinv_l; lra. }
  apply H1; [apply pow_lt; lra|]. lra.
Qed.
(** hence back projection of the pixel of a visible point recovers its viewing ray *)
Theorem C68_radtan4_ray_partial : forall res c r p z, 0 < r -> radtan_strength c r <= / 4 ->
  fx c <> 0 -> fy c <> 0 -> Rabs (vx p / vz p) <= 4 / 5 * r -> Rabs (vy p / vz p) <= 4 / 5 * r ->
  zhat (pinhole_radtan4_project res c p) = Some z ->
  exists q, pinhole_radtan4_back_project c z = Some q /\ vz q = 1 /\
    Rabs (vx q - vx (ray p)) <= r / 10 ^ 18 + 3 / 10 ^ 15 / r /\
    Rabs (vy q - vy (ray p)) <= r / 10 ^ 18 + 3 / 10 ^ 15 / r.
Proof.
  intros res c r p z R0 S A B X Y. unfold pinhole_radtan4_project, project_point.
  destruct Req_EM_T; cbn [zhat]; [discriminate|]. intros H. apply some_inj in H. subst z.
  unfold pinhole_radtan4_back_project, back_project.
  match goal with |- context [radtan4_distort c ?q] => set (u := q); rewrite (norm_coords c (radtan4_distort c u)) by auto end.
  destruct (C68_radtan4_converges_partial c r u R0 S) as (q & E & F & G).
  { unfold u; split; cbn [v2x v2y]; assumption. }
  rewrite E. eexists. split; [reflexivity|]. cbn [vx vy vz]. split; [reflexivity|].
  unfold sub2, u in F, G; cbn [v2x v2y] in F, G. unfold ray; cbn [vx vy]. split; assumption.
Qed.
(** EuRoC-like coefficients are covered up to about 15 degrees off axis. *)
Example C68_radtan4_ex : let c := Cam 458 457 367 248 (-283 / 1000) (74 / 1000) (2 / 10000) (2 / 100000) in
  radtan_strength c (35 / 100) <= / 4 /\ within2 (4 / 5 * (35 / 100)) (V2 (1 / 4) (- 1 / 5)).
Proof.
  unfold radtan_strength, within2; cbn [d0 d1 d2 d3 v2x v2y].
  rewrite (Rabs_left (-283 / 1000)), (Rabs_pos_eq (74 / 1000)), (Rabs_pos_eq (2 / 10000)), (Rabs_pos_eq (2 / 100000)), (Rabs_pos_eq (1 / 4)), (Rabs_left (- 1 / 5)) by lra.
  rewrite Rmax_left by lra. lra.
Qed.

(** ** C52: the focal length computed from a field of view *)
(** With the principal point in the middle of the image, rays at half the field of view from the
    axis land on the two image borders, and exactly the rays inside the field of view land
    between them. *)
Theorem C52_focal_fov : forall size fov u, (0 < size)%Z -> 0 < fov < 180 ->
  let f := pinhole_focal size fov in let c := IZR size / 2 in
  let half := fov * PI / 360 in
  0 < f /\
  f * tan half + c = IZR size /\ f * tan (- half) + c = 0 /\
  (- PI / 2 < u < PI / 2 -> (0 <= f * tan u + c <= IZR size <-> - half <= u <= half)).
Proof.
  intros size fov u S F f c half. assert (S' : 0 < IZR size) by (apply (IZR_lt 0); auto).
  assert (HP := PI_RGT_0). assert (HH : 0 < half < PI / 2) by (unfold half; nra).
  assert (T : 0 < tan half) by (apply tan_gt_0; lra).
  assert (Ef : f = c / tan half).
  { unfold f, c, pinhole_focal. f_equal. f_equal. unfold half. field. }
  assert (F0 : 0 < f) by (rewrite Ef; apply Rdiv_lt_0_compat; unfold c; lra).
  assert (M : f * tan half = c) by (rewrite Ef; field; lra).
  split; auto. split; [|split].
  - rewrite M. unfold c. field.
  - rewrite tan_neg. replace (f * - tan half) with (- (f * tan half)) by ring. rewrite M. ring.
  - intros U.
    assert (Mono : forall a b, - PI / 2 < a < PI / 2 -> - PI / 2 < b < PI / 2 -> a <= b -> tan a <= tan b).
    { intros a b A B [L|E]; [left; apply tan_increasing; lra|subst; lra]. }
    split.
    + intros [A B]. split; apply Rnot_lt_le; intros L.
      * assert (tan u < tan (- half)) by (apply tan_increasing; lra). rewrite tan_neg in H. nra.
      * assert (tan half < tan u) by (apply tan_increasing; lra). unfold c in *. nra.
    + intros [A B]. assert (tan (- half) <= tan u) by (apply Mono; lra). assert (tan u <= tan half) by (apply Mono; lra).
      rewrite tan_neg in H. unfold c in *. nra.
Qed.
Example C52_focal_ex : 0 < 90 < 180 /\ (0 < 640)%Z. Proof. split; [lra|lia]. Qed.
Print Assumptions C68_radtan4_converges_partial.
Print Assumptions C68_radtan4_ray_partial.
Print Assumptions C52_focal_fov.
