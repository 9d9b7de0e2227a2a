(** * C53, C54: the analytic Jacobians are the derivatives of the projection *)
From Coq Require Import Reals Lra Lia ZArith List Bool Psatz.
From Coquelicot Require Import Coquelicot.
From Verif Require Import GeomModel CameraModel Prop_Camera.
Import ListNotations.
Local Open Scope R_scope.

(** ** Specification: derivative along a line *)
(** [F], a curve of pixels defined around 0, has the velocity (jx, jy) at 0 *)
Definition velocity (F : R -> option vec2) (jx jy : R) : Prop :=
  exists f, locally 0 (fun t => F t = Some (f t)) /\
    is_derive (fun t => v2x (f t)) 0 jx /\ is_derive (fun t => v2y (f t)) 0 jy.
(** a point / the parameters moved by [t] in a direction *)
Definition move (p d : vec3) (t : R) : vec3 := V3 (vx p + t * vx d) (vy p + t * vy d) (vz p + t * vz d).
Definition tune (c d : cam8) (t : R) : cam8 :=
  Cam (fx c + t * fx d) (fy c + t * fy d) (cx c + t * cx d) (cy c + t * cy d)
      (d0 c + t * d0 d) (d1 c + t * d1 d) (d2 c + t * d2 d) (d3 c + t * d3 d).
(** row [i] of a 2x3 (2x8) matrix times a direction *)
Definition times3 (J : matf) (i : nat) (d : vec3) : R :=
  J i 0%nat * vx d + J i 1%nat * vy d + J i 2%nat * vz d.
Definition times8 (J : matf) (i : nat) (d : cam8) : R :=
  J i 0%nat * fx d + J i 1%nat * fy d + J i 2%nat * cx d + J i 3%nat * cy d +
  J i 4%nat * d0 d + J i 5%nat * d1 d + J i 6%nat * d2 d + J i 7%nat * d3 d.

(** ** helpers *)
Lemma derive_lin a b : is_derive (fun t => a + t * b) 0 b.
Proof. auto_derive; auto. ring. Qed.
Lemma derive_ratio x dx z dz : z <> 0 ->
  is_derive (fun t => (x + t * dx) / (z + t * dz)) 0 (dx / z - x * dz / (z * z)).
Proof. intros H. auto_derive; [lra|]. field. auto. Qed.
Lemma near_neq (f : R -> R) : continuous f 0 -> f 0 <> 0 -> locally 0 (fun t : R => f t <> 0).
Proof. intros C H. exact (C (fun y => y <> 0) (open_neq 0 _ H)). Qed.
Lemma near_pos (f : R -> R) : continuous f 0 -> 0 < f 0 -> locally 0 (fun t : R => 0 < f t).
Proof. intros C H. exact (C (fun y => 0 < y) (open_gt 0 _ H)). Qed.
Lemma cont_lin a b : continuous (fun t : R => a + t * b) 0.
Proof. apply (ex_derive_continuous (V := R_NormedModule)). exists b. apply derive_lin. Qed.

Lemma radtan_chain c u v du dv : is_derive u 0 du -> is_derive v 0 dv ->
  let J := radtan4_point_jacobian c (V2 (u 0) (v 0)) in
  is_derive (fun t => v2x (radtan4_distort c (V2 (u t) (v t)))) 0 (J 0%nat 0%nat * du + J 0%nat 1%nat * dv) /\
  is_derive (fun t => v2y (radtan4_distort c (V2 (u t) (v t)))) 0 (J 1%nat 0%nat * du + J 1%nat 1%nat * dv).
Proof.
  intros Hu Hv J. unfold J, radtan4_point_jacobian, radtan4_distort, rows; cbn [v2x v2y nth].
  assert (Eu : ex_derive u 0) by (now exists du). assert (Ev : ex_derive v 0) by (now exists dv).
  apply is_derive_unique in Hu as Du. apply is_derive_unique in Hv as Dv.
  split; (auto_derive; [tauto|]);
    replace (Derive (fun x => u x) 0) with du by (symmetry; exact Du);
    replace (Derive (fun x => v x) 0) with dv by (symmetry; exact Dv); ring.
Qed.

(** C53, radial-tangential model: for every point with non-zero depth and all parameters. *)
Theorem C53_radtan4_point : forall res c p, vz p <> 0 ->
  exists J, pinhole_radtan4_project_jacobian c p = Some J /\
  forall d, velocity (fun t => zhat (pinhole_radtan4_project res c (move p d t)))
                     (times3 J 0 d) (times3 J 1 d).
Proof.
  intros res c p Hz. unfold pinhole_radtan4_project_jacobian, project_point, project_jacobian.
  destruct (Req_EM_T (vz p) 0); [contradiction|]. eexists. split; [reflexivity|]. intros d.
  set (u := fun t => (vx p + t * vx d) / (vz p + t * vz d)).
  set (v := fun t => (vy p + t * vy d) / (vz p + t * vz d)).
  assert (U0 : u 0 = vx p / vz p) by (unfold u; f_equal; ring).
  assert (V0 : v 0 = vy p / vz p) by (unfold v; f_equal; ring).
  assert (Du := derive_ratio (vx p) (vx d) (vz p) (vz d) Hz). fold u in Du.
  assert (Dv := derive_ratio (vy p) (vy d) (vz p) (vz d) Hz). fold v in Dv.
  destruct (radtan_chain c u v _ _ Du Dv) as [X Y]. rewrite U0, V0 in X, Y.
  exists (fun t => V2 (fx c * v2x (radtan4_distort c (V2 (u t) (v t))) + cx c)
                      (fy c * v2y (radtan4_distort c (V2 (u t) (v t))) + cy c)). split; [|split].
  - assert (NZ : vz p + 0 * vz d <> 0) by (rewrite Rmult_0_l, Rplus_0_r; auto).
    apply filter_imp with (2 := near_neq _ (cont_lin (vz p) (vz d)) NZ).
    intros t Ht. unfold pinhole_radtan4_project, project_point, move; cbn [vx vy vz].
    destruct Req_EM_T; [contradiction|]. reflexivity.
  - cbn [v2x]. eapply (is_derive_ext (fun t => plus (scal (fx c) (v2x (radtan4_distort c (V2 (u t) (v t))))) (cx c)));
      [reflexivity|]. evar_last.
    + apply @is_derive_plus; [apply is_derive_scal; exact X|apply is_derive_const].
    + unfold times3, mulf, sum_to, pinhole_point_jacobian, rows, plus, scal, zero; simpl.
      unfold mult; simpl. field. auto.
  - cbn [v2y]. eapply (is_derive_ext (fun t => plus (scal (fy c) (v2y (radtan4_distort c (V2 (u t) (v t))))) (cy c)));
      [reflexivity|]. evar_last.
    + apply @is_derive_plus; [apply is_derive_scal; exact Y|apply is_derive_const].
    + unfold times3, mulf, sum_to, pinhole_point_jacobian, rows, plus, scal, zero; simpl.
      unfold mult; simpl. field. auto.
Qed.
Theorem C53_radtan4_params : forall res c p, vz p <> 0 ->
  exists J, pinhole_radtan4_params_jacobian c p = Some J /\
  forall d, velocity (fun t => zhat (pinhole_radtan4_project res (tune c d t) p))
                     (times8 J 0 d) (times8 J 1 d).
Proof.
  intros res c p Hz. unfold pinhole_radtan4_params_jacobian, pinhole_radtan4_project, project_point.
  destruct (Req_EM_T (vz p) 0); [contradiction|]. eexists. split; [reflexivity|]. intros d.
  set (q := V2 (vx p / vz p) (vy p / vz p)). cbn [zhat].
  eexists (fun t => V2 _ _). split; [|split].
  - apply filter_forall. intros t. reflexivity.
  - cbn [v2x]. unfold radtan4_distort, tune, times8, hcat4, mulf, sum_to, pinhole_point_jacobian, pinhole_params_jacobian,
      radtan4_params_jacobian, rows. cbn [fx fy cx cy d0 d1 d2 d3 v2x v2y]. simpl. auto_derive; auto. ring.
  - cbn [v2y]. unfold radtan4_distort, tune, times8, hcat4, mulf, sum_to, pinhole_point_jacobian, pinhole_params_jacobian,
      radtan4_params_jacobian, rows. cbn [fx fy cx cy d0 d1 d2 d3 v2x v2y]. simpl. auto_derive; auto. ring.
Qed.

(** ** equidistant model *)
Lemma norm2_sq p : norm2 p * norm2 p = v2x p * v2x p + v2y p * v2y p.
Proof. unfold norm2. apply sqrt_sqrt. generalize (Rle_0_sqr (v2x p)), (Rle_0_sqr (v2y p)). unfold Rsqr. lra. Qed.
Lemma norm2_derive u v du dv : is_derive u 0 du -> is_derive v 0 dv -> 0 < norm2 (V2 (u 0) (v 0)) ->
  is_derive (fun t => norm2 (V2 (u t) (v t))) 0 ((u 0 * du + v 0 * dv) / norm2 (V2 (u 0) (v 0))).
Proof.
  intros Hu Hv Hr. assert (Eu : ex_derive u 0) by (now exists du). assert (Ev : ex_derive v 0) by (now exists dv).
  apply is_derive_unique in Hu as Du. apply is_derive_unique in Hv as Dv.
  assert (S := norm2_sq (V2 (u 0) (v 0))). cbn [v2x v2y] in S.
  unfold norm2 in *; cbn [v2x v2y] in *. auto_derive.
  - repeat split; auto. rewrite <- S. nra.
  - replace (Derive (fun x => u x) 0) with du by (symmetry; exact Du).
    replace (Derive (fun x => v x) 0) with dv by (symmetry; exact Dv). field. lra.
Qed.
Lemma thd_derive c r dr r0 : r 0 = r0 -> is_derive r 0 dr ->
  is_derive (fun t => equi4_thd c (atan (r t))) 0
   ((1 + 3 * d0 c * (atan r0 * atan r0) + 5 * d1 c * (atan r0 * atan r0 * (atan r0 * atan r0))
     + 7 * d2 c * (atan r0 * atan r0 * (atan r0 * atan r0) * (atan r0 * atan r0))
     + 9 * d3 c * (atan r0 * atan r0 * (atan r0 * atan r0) * (atan r0 * atan r0 * (atan r0 * atan r0))))
    * (1 / (r0 * r0 + 1)) * dr).
Proof.
  intros E H. assert (A : is_derive (fun t => atan (r t)) 0 (dr * / (1 + r0²))).
  { apply (is_derive_comp atan r); auto. rewrite E. apply is_derive_atan. }
  assert (Ea : ex_derive (fun t => atan (r t)) 0) by (eexists; exact A).
  apply is_derive_unique in A as DA. set (a := fun t => atan (r t)) in *.
  apply (is_derive_ext (fun t => equi4_thd c (a t))); [reflexivity|].
  unfold equi4_thd. auto_derive; [tauto|].
  replace (Derive (fun x => a x) 0) with (dr * / (1 + r0²)) by (symmetry; exact DA).
  unfold a. rewrite E. unfold Rsqr. field. nra.
Qed.
Lemma equi_chain c u v du dv : is_derive u 0 du -> is_derive v 0 dv ->
  / 10 ^ 8 < norm2 (V2 (u 0) (v 0)) ->
  exists J, equi4_point_jacobian c (V2 (u 0) (v 0)) = Some J /\
  is_derive (fun t => v2x (equi4_distort c (V2 (u t) (v t)))) 0 (J 0%nat 0%nat * du + J 0%nat 1%nat * dv) /\
  is_derive (fun t => v2y (equi4_distort c (V2 (u t) (v t)))) 0 (J 1%nat 0%nat * du + J 1%nat 1%nat * dv).
Proof.
  intros Hu Hv Hr. assert (E8 : 0 < / 10 ^ 8) by (apply Rinv_0_lt_compat, pow_lt; lra).
  assert (R0 : 0 < norm2 (V2 (u 0) (v 0))) by lra.
  assert (Dr := norm2_derive _ _ _ _ Hu Hv R0). set (r := fun t => norm2 (V2 (u t) (v t))) in *.
  set (r0 := norm2 (V2 (u 0) (v 0))) in *.
  assert (Dt := thd_derive c r _ r0 eq_refl Dr).
  unfold equi4_point_jacobian. fold r0. destruct (Req_EM_T r0 0); [lra|].
  eexists. split; [reflexivity|].
  assert (LOC : locally 0 (fun t => / 10 ^ 8 < r t)).
  { assert (C : continuous r 0) by (apply (ex_derive_continuous (V := R_NormedModule)); eexists; exact Dr).
    exact (C (fun y => / 10 ^ 8 < y) (open_gt (/ 10 ^ 8) _ Hr)). }
  set (T := fun t => equi4_thd c (atan (r t))) in *.
  assert (Er : ex_derive r 0) by (eexists; exact Dr). assert (Et : ex_derive T 0) by (eexists; exact Dt).
  assert (Eu : ex_derive u 0) by (eexists; exact Hu). assert (Ev : ex_derive v 0) by (eexists; exact Hv).
  apply is_derive_unique in Dr as DR. apply is_derive_unique in Dt as DT.
  apply is_derive_unique in Hu as Du. apply is_derive_unique in Hv as Dv.
  unfold rows; cbn [v2x v2y nth]. split.
  - apply (is_derive_ext_loc (fun t => T t / r t * u t)).
    { apply filter_imp with (2 := LOC). intros t Ht. unfold equi4_distort. change (norm2 (V2 (u t) (v t))) with (r t).
      destruct Rlt_dec; [lra|]. reflexivity. }
    auto_derive.
    + repeat split; auto.
    + replace (Derive (fun x => u x) 0) with du by (symmetry; exact Du).
      replace (Derive (fun x => r x) 0) with ((u 0 * du + v 0 * dv) / r0) by (symmetry; exact DR).
      match type of DT with _ = ?W => replace (Derive (fun x => T x) 0) with W by (symmetry; exact DT) end.
      change (T 0) with (equi4_thd c (atan r0)). change (r 0) with r0.
      field. split; [lra|nra].
  - apply (is_derive_ext_loc (fun t => T t / r t * v t)).
    { apply filter_imp with (2 := LOC). intros t Ht. unfold equi4_distort. change (norm2 (V2 (u t) (v t))) with (r t).
      destruct Rlt_dec; [lra|]. reflexivity. }
    auto_derive.
    + repeat split; auto.
    + replace (Derive (fun x => v x) 0) with dv by (symmetry; exact Dv).
      replace (Derive (fun x => r x) 0) with ((u 0 * du + v 0 * dv) / r0) by (symmetry; exact DR).
      match type of DT with _ = ?W => replace (Derive (fun x => T x) 0) with W by (symmetry; exact DT) end.
      change (T 0) with (equi4_thd c (atan r0)). change (r 0) with r0.
      field. split; [lra|nra].
Qed.

(** C53, equidistant model. Missing: points closer to the axis than 1e-8 (see below). *)
Theorem C53_equi4_point_partial : forall res c p, 0 < vz p -> / 10 ^ 8 < offaxis p ->
  exists J, pinhole_equi4_project_jacobian c p = Some J /\
  forall d, velocity (fun t => zhat (pinhole_equi4_project res c (move p d t)))
                     (times3 J 0 d) (times3 J 1 d).
Proof.
  intros res c p Hz Ho. unfold pinhole_equi4_project_jacobian, project_point, project_jacobian.
  destruct (Req_EM_T (vz p) 0); [lra|].
  assert (NZ : vz p <> 0) by lra.
  assert (NN : / 10 ^ 8 < norm2 (V2 (vx p / vz p) (vy p / vz p))) by (rewrite norm2_spec; exact Ho).
  assert (E8 : 0 < / 10 ^ 8) by (apply Rinv_0_lt_compat, pow_lt; lra).
  destruct (equi4_point_jacobian c (V2 (vx p / vz p) (vy p / vz p))) as [J|] eqn:EJ.
  2: { exfalso. revert EJ. unfold equi4_point_jacobian. destruct Req_EM_T; [lra|discriminate]. }
  eexists. split; [reflexivity|]. intros d.
  set (u := fun t => (vx p + t * vx d) / (vz p + t * vz d)).
  set (v := fun t => (vy p + t * vy d) / (vz p + t * vz d)).
  assert (U0 : u 0 = vx p / vz p) by (unfold u; f_equal; ring).
  assert (V0 : v 0 = vy p / vz p) by (unfold v; f_equal; ring).
  assert (Du := derive_ratio (vx p) (vx d) (vz p) (vz d) NZ). fold u in Du.
  assert (Dv := derive_ratio (vy p) (vy d) (vz p) (vz d) NZ). fold v in Dv.
  assert (NN' : / 10 ^ 8 < norm2 (V2 (u 0) (v 0))) by (rewrite U0, V0; exact NN).
  destruct (equi_chain c u v _ _ Du Dv NN') as (J' & EJ' & X & Y). rewrite U0, V0 in EJ'.
  rewrite EJ in EJ'. injection EJ' as <-.
  exists (fun t => V2 (fx c * v2x (equi4_distort c (V2 (u t) (v t))) + cx c)
                      (fy c * v2y (equi4_distort c (V2 (u t) (v t))) + cy c)). split; [|split].
  - assert (PZ : 0 < vz p + 0 * vz d) by (rewrite Rmult_0_l, Rplus_0_r; auto).
    apply filter_imp with (2 := near_pos _ (cont_lin (vz p) (vz d)) PZ).
    intros t Ht. unfold pinhole_equi4_project, project_point, move; cbn [vx vy vz].
    destruct Rlt_dec; [lra|]. destruct Req_EM_T; [lra|]. reflexivity.
  - cbn [v2x]. eapply (is_derive_ext (fun t => plus (scal (fx c) (v2x (equi4_distort c (V2 (u t) (v t))))) (cx c)));
      [reflexivity|]. evar_last.
    + apply @is_derive_plus; [apply is_derive_scal; exact X|apply is_derive_const].
    + unfold times3, mulf, sum_to, pinhole_point_jacobian, rows, plus, scal, zero; simpl.
      unfold mult; simpl. field. auto.
  - cbn [v2y]. eapply (is_derive_ext (fun t => plus (scal (fy c) (v2y (equi4_distort c (V2 (u t) (v t))))) (cy c)));
      [reflexivity|]. evar_last.
    + apply @is_derive_plus; [apply is_derive_scal; exact Y|apply is_derive_const].
    + unfold times3, mulf, sum_to, pinhole_point_jacobian, rows, plus, scal, zero; simpl.
      unfold mult; simpl. field. auto.
Qed.
Theorem C53_equi4_params_partial : forall res c p, 0 < vz p -> / 10 ^ 8 <= offaxis p ->
  exists J, pinhole_equi4_params_jacobian c p = Some J /\
  forall d, velocity (fun t => zhat (pinhole_equi4_project res (tune c d t) p))
                     (times8 J 0 d) (times8 J 1 d).
Proof.
  intros res c p Hz Ho. unfold pinhole_equi4_params_jacobian, pinhole_equi4_project, project_point.
  destruct (Req_EM_T (vz p) 0); [lra|]. destruct (Rlt_dec (vz p) 0); [lra|].
  assert (E8 : 0 < / 10 ^ 8) by (apply Rinv_0_lt_compat, pow_lt; lra).
  set (q := V2 (vx p / vz p) (vy p / vz p)).
  assert (NN : / 10 ^ 8 <= norm2 q) by (rewrite norm2_spec; exact Ho).
  unfold equi4_params_jacobian. destruct (Req_EM_T (norm2 q) 0); [lra|].
  eexists. split; [reflexivity|]. intros d. cbn [zhat]. unfold equi4_distort.
  destruct (Rlt_dec (norm2 q) (/ 10 ^ 8)); [lra|].
  eexists (fun t => V2 _ _). split; [|split].
  - apply filter_forall. intros t. reflexivity.
  - cbn [v2x]. unfold equi4_thd, tune, times8, hcat4, mulf, sum_to, pinhole_point_jacobian, pinhole_params_jacobian, rows.
    cbn [fx fy cx cy d0 d1 d2 d3 v2x v2y]. simpl. auto_derive; auto. field. auto.
  - cbn [v2y]. unfold equi4_thd, tune, times8, hcat4, mulf, sum_to, pinhole_point_jacobian, pinhole_params_jacobian, rows.
    cbn [fx fy cx cy d0 d1 d2 d3 v2x v2y]. simpl. auto_derive; auto. field. auto.
Qed.

(** C53, pinhole model without distortion *)
Theorem C53_pinhole : forall res c p, vz p <> 0 ->
  (exists J, project_jacobian p = Some J /\
   forall d, velocity (fun t => project_point (move p d t)) (times3 J 0 d) (times3 J 1 d) /\
             velocity (fun t => zhat (pinhole_project res c (move p d t)))
               (times3 (mulf 2 (pinhole_point_jacobian c) J) 0 d)
               (times3 (mulf 2 (pinhole_point_jacobian c) J) 1 d)) /\
  (exists x, project_point p = Some x /\
   forall d, velocity (fun t => zhat (pinhole_project res (tune c d t) p))
     (times8 (hcat4 (pinhole_params_jacobian x) (fun _ _ => 0)) 0 d)
     (times8 (hcat4 (pinhole_params_jacobian x) (fun _ _ => 0)) 1 d)).
Proof.
  intros res c p Hz.
  assert (NZ : forall d, vz p + 0 * vz d <> 0) by (intros d; rewrite Rmult_0_l, Rplus_0_r; auto).
  split.
  - unfold project_jacobian. destruct (Req_EM_T (vz p) 0); [contradiction|].
    eexists. split; [reflexivity|]. intros d. split.
    + exists (fun t => V2 ((vx p + t * vx d) / (vz p + t * vz d)) ((vy p + t * vy d) / (vz p + t * vz d))).
      split; [|split].
      * apply filter_imp with (2 := near_neq _ (cont_lin (vz p) (vz d)) (NZ d)).
        intros t Ht. unfold project_point, move; cbn [vx vy vz]. destruct Req_EM_T; [contradiction|reflexivity].
      * cbn [v2x]. evar_last; [apply derive_ratio; auto|]. unfold times3, rows; simpl. field. auto.
      * cbn [v2y]. evar_last; [apply derive_ratio; auto|]. unfold times3, rows; simpl. field. auto.
    + exists (fun t => V2 (fx c * ((vx p + t * vx d) / (vz p + t * vz d)) + cx c)
                          (fy c * ((vy p + t * vy d) / (vz p + t * vz d)) + cy c)).
      split; [|split].
      * apply filter_imp with (2 := near_neq _ (cont_lin (vz p) (vz d)) (NZ d)).
        intros t Ht. unfold pinhole_project, project_point, move; cbn [vx vy vz].
        destruct Req_EM_T; [contradiction|reflexivity].
      * cbn [v2x]. unfold times3, mulf, sum_to, pinhole_point_jacobian, rows; simpl.
        auto_derive; [rewrite Rmult_0_l, Rplus_0_r; auto|]. field. auto.
      * cbn [v2y]. unfold times3, mulf, sum_to, pinhole_point_jacobian, rows; simpl.
        auto_derive; [rewrite Rmult_0_l, Rplus_0_r; auto|]. field. auto.
  - unfold pinhole_project, project_point. destruct (Req_EM_T (vz p) 0); [contradiction|].
    eexists. split; [reflexivity|]. intros d. cbn [zhat].
    eexists (fun t => V2 _ _). split; [|split].
    + apply filter_forall. intros t. reflexivity.
    + cbn [v2x]. unfold tune, times8, hcat4, pinhole_params_jacobian, rows.
      cbn [fx fy cx cy d0 d1 d2 d3 v2x v2y]. simpl. auto_derive; auto. field. auto.
    + cbn [v2y]. unfold tune, times8, hcat4, pinhole_params_jacobian, rows.
      cbn [fx fy cx cy d0 d1 d2 d3 v2x v2y]. simpl. auto_derive; auto. field. auto.
Qed.
Example C53_ex : 0 < vz (V3 1 0 1) /\ / 10 ^ 8 < offaxis (V3 1 0 1).
Proof.
  split; [simpl; lra|]. unfold offaxis; cbn [vx vy vz].
  replace ((1 / 1) ^ 2 + (0 / 1) ^ 2) with 1 by field. rewrite sqrt_1.
  rewrite <- Rinv_1. apply Rinv_1_lt_contravar; [lra|]. apply Rlt_pow_R1; [lra|lia].
Qed.

(** ** C54 *)
Lemma norm2_zero p : norm2 p = 0 <-> p = V2 0 0.
Proof.
  split.
  - intros H. generalize (norm2_sq p). rewrite H. intros S. destruct p as [x y]; cbn [v2x v2y] in S.
    assert (x = 0) by nra. assert (y = 0) by nra. now subst.
  - intros ->. unfold norm2; cbn [v2x v2y]. replace (0 * 0 + 0 * 0) with 0 by ring. apply sqrt_0.
Qed.
(** the distortion itself returns the centre *)
Theorem C54_distort_centre : forall c, equi4_distort c (V2 0 0) = V2 0 0.
Proof.
  intros c. unfold equi4_distort. replace (norm2 (V2 0 0)) with 0 by (symmetry; now apply norm2_zero).
  destruct Rlt_dec as [|N]; [reflexivity|]. exfalso. apply N, Rinv_0_lt_compat, pow_lt. lra.
Qed.
(** the projection is differentiable on the optical axis, for any direction of movement ... *)
Theorem C54_projection_smooth : forall res c p, 0 < vz p -> vx p = 0 -> vy p = 0 ->
  forall d, velocity (fun t => zhat (pinhole_equi4_project res c (move p d t)))
                     (fx c * vx d / vz p) (fy c * vy d / vz p).
Proof.
  intros res c p Hz X0 Y0 d.
  set (u := fun t => (vx p + t * vx d) / (vz p + t * vz d)).
  set (v := fun t => (vy p + t * vy d) / (vz p + t * vz d)).
  assert (NZ : vz p <> 0) by lra.
  assert (Du := derive_ratio (vx p) (vx d) (vz p) (vz d) NZ). fold u in Du.
  assert (Dv := derive_ratio (vy p) (vy d) (vz p) (vz d) NZ). fold v in Dv.
  exists (fun t => V2 (fx c * u t + cx c) (fy c * v t + cy c)). split; [|split].
  - assert (PZ : 0 < vz p + 0 * vz d) by (rewrite Rmult_0_l, Rplus_0_r; auto).
    assert (E8 : 0 < / 10 ^ 8) by (apply Rinv_0_lt_compat, pow_lt; lra).
    assert (CU : continuous u 0) by (apply (ex_derive_continuous (V := R_NormedModule)); eexists; exact Du).
    assert (CV : continuous v 0) by (apply (ex_derive_continuous (V := R_NormedModule)); eexists; exact Dv).
    assert (CS : continuous (fun t => u t * u t + v t * v t) 0).
    { apply (continuous_plus (V := R_NormedModule)); apply (continuous_mult (K := R_AbsRing)); auto. }
    assert (Z0 : u 0 * u 0 + v 0 * v 0 < / 10 ^ 8 * / 10 ^ 8).
    { unfold u, v. rewrite X0, Y0. replace (0 + 0 * vx d) with 0 by ring. replace (0 + 0 * vy d) with 0 by ring.
      unfold Rdiv. rewrite !Rmult_0_l. nra. }
    assert (L : locally 0 (fun t : R => u t * u t + v t * v t < / 10 ^ 8 * / 10 ^ 8))
      by exact (CS (fun y => y < / 10 ^ 8 * / 10 ^ 8) (open_lt _ _ Z0)).
    assert (L2 := near_pos _ (cont_lin (vz p) (vz d)) PZ).
    apply filter_imp with (2 := filter_and _ _ L L2).
    intros t [Ht Hp]. unfold pinhole_equi4_project, project_point, move; cbn [vx vy vz].
    destruct Rlt_dec; [lra|]. destruct Req_EM_T; [lra|]. cbn [zhat]. fold (u t) (v t).
    unfold equi4_distort. destruct (Rlt_dec (norm2 _)) as [|N]; [reflexivity|]. exfalso. apply N.
    unfold norm2; cbn [v2x v2y]. rewrite <- (sqrt_square (/ 10 ^ 8)) by lra.
    apply sqrt_lt_1; [nra|nra|exact Ht].
  - cbn [v2x]. eapply (is_derive_ext (fun t => plus (scal (fx c) (u t)) (cx c))); [reflexivity|]. evar_last.
    + apply @is_derive_plus; [apply is_derive_scal; exact Du|apply is_derive_const].
    + unfold plus, scal, zero; simpl. unfold mult; simpl. rewrite X0. field. auto.
  - cbn [v2y]. eapply (is_derive_ext (fun t => plus (scal (fy c) (v t)) (cy c))); [reflexivity|]. evar_last.
    + apply @is_derive_plus; [apply is_derive_scal; exact Dv|apply is_derive_const].
    + unfold plus, scal, zero; simpl. unfold mult; simpl. rewrite Y0. field. auto.
Qed.
(** ... but neither the Jacobians nor the undistortion have a finite value there, whatever the
    camera. *)
Theorem C54_centre_refuted : forall c,
  equi4_undistort c (V2 0 0) = None /\
  equi4_point_jacobian c (V2 0 0) = None /\ equi4_params_jacobian c (V2 0 0) = None /\
  (forall p, 0 < vz p -> vx p = 0 -> vy p = 0 ->
     pinhole_equi4_project_jacobian c p = None /\ pinhole_equi4_params_jacobian c p = None) /\
  (fx c <> 0 -> fy c <> 0 -> pinhole_equi4_back_project c (V2 (cx c) (cy c)) = None /\
                             pinhole_equi4_undistort c (V2 (cx c) (cy c)) = None).
Proof.
  intros c. assert (N0 : norm2 (V2 0 0) = 0) by now apply norm2_zero.
  assert (U : equi4_undistort c (V2 0 0) = None).
  { unfold equi4_undistort. fold (norm2 (V2 0 0)). rewrite N0.
    destruct equi4_iter; [|reflexivity]. destruct (Req_EM_T 0 0); [reflexivity|contradiction]. }
  assert (P : equi4_point_jacobian c (V2 0 0) = None).
  { unfold equi4_point_jacobian. rewrite N0. destruct (Req_EM_T 0 0); [reflexivity|contradiction]. }
  assert (Q : equi4_params_jacobian c (V2 0 0) = None).
  { unfold equi4_params_jacobian. rewrite N0. destruct (Req_EM_T 0 0); [reflexivity|contradiction]. }
  repeat split; auto.
  - unfold pinhole_equi4_project_jacobian, project_point. destruct (Req_EM_T (vz p) 0); [reflexivity|].
    rewrite H0, H1. replace (0 / vz p) with 0 by (unfold Rdiv; ring). rewrite P. now destruct project_jacobian.
  - unfold pinhole_equi4_params_jacobian, project_point. destruct (Req_EM_T (vz p) 0); [reflexivity|].
    rewrite H0, H1. replace (0 / vz p) with 0 by (unfold Rdiv; ring). now rewrite Q.
  - unfold pinhole_equi4_back_project, back_project, normalized_coords.
    destruct (Req_EM_T (fx c) 0); [contradiction|]. destruct (Req_EM_T (fy c) 0); [contradiction|].
    cbn [v2x v2y]. rewrite !Rminus_diag_eq by auto. unfold Rdiv. rewrite !Rmult_0_l. now rewrite U.
  - unfold pinhole_equi4_undistort, undistort_pixel, normalized_coords.
    destruct (Req_EM_T (fx c) 0); [contradiction|]. destruct (Req_EM_T (fy c) 0); [contradiction|].
    cbn [v2x v2y]. rewrite !Rminus_diag_eq by auto. unfold Rdiv. rewrite !Rmult_0_l. now rewrite U.
Qed.
(** Everywhere else the Jacobians are finite. *)
Theorem C54_off_centre_partial : forall c p, p <> V2 0 0 ->
  equi4_point_jacobian c p <> None /\ equi4_params_jacobian c p <> None.
Proof.
  intros c p H. assert (N : norm2 p <> 0) by (now rewrite norm2_zero).
  unfold equi4_point_jacobian, equi4_params_jacobian.
  destruct (Req_EM_T (norm2 p) 0); [contradiction|]. split; discriminate.
Qed.
Print Assumptions C53_radtan4_point.
Print Assumptions C53_radtan4_params.
Print Assumptions C53_equi4_point_partial.
Print Assumptions C53_equi4_params_partial.
Print Assumptions C53_pinhole.
Print Assumptions C54_distort_centre.
Print Assumptions C54_projection_smooth.
Print Assumptions C54_centre_refuted.
Print Assumptions C54_off_centre_partial.
