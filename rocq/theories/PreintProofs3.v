(** Derivatives of the preintegrated increments with respect to the gyroscope bias. *)
From Coq Require Import Reals Lra Lia Psatz.
From Verif Require Import Base GeomModel GeomSpec GeomProofs ImuModel PreintModel PreintSpec PreintProofs PreintProofs2 CtrajModel CtrajProofs Prop_Interp Prop_Geom2 CalcSpec ResidualProofs.
From Coquelicot Require Import Coquelicot.
Local Open Scope R_scope.

Definition smooth_at (phi : vec3) : Prop := phi = vzero \/ / 10 ^ 4 <= vnorm phi.
Lemma quat_delta_0 : quat_delta vzero = Q 1 0 0 0.
Proof. unfold quat_delta. rewrite Prop_Geom2.vnorm_0, Rmult_0_r, cos_0. unfold vscale, vzero. cbn [vx vy vz]. f_equal; ring. Qed.
Lemma quat_delta_rq phi : 2 / 10 ^ 6 < vnorm phi -> quat_delta phi = rq phi.
Proof.
  intros H. unfold quat_delta. rewrite rq_axq. unfold axq.
  assert (S : sinc (1 / 2 * vnorm phi) * (1 / 2 * vnorm phi) = sin (1 / 2 * vnorm phi)).
  { apply sinc_half; [|right; lra]. lra. }
  replace (vnorm phi / 2) with (1 / 2 * vnorm phi) by field. rewrite <- S.
  f_equal; unfold vscale; cbn [vx vy vz]; field; lra.
Qed.
Lemma skew_poly u a b c d : vdot u u = 1 -> let K := skew u in
  mmul (madd (madd I3 (mscale a K)) (mscale b (mmul K K))) (madd I3 (madd (mscale c K) (mscale d (mmul K K)))) =
  madd (madd I3 (mscale (a + c - a * d - b * c) K)) (mscale (b + d + a * c - b * d) (mmul K K)).
Proof.
  intros U K.
  transitivity (madd (madd I3 (mscale (a + c - (a * d + b * c) * vdot u u) K)) (mscale (b + d + a * c - b * d * vdot u u) (mmul K K))).
  - unfold K, vdot. destruct u as [x y z]. mat_eq; ring.
  - rewrite U. f_equal; [f_equal|]; f_equal; ring.
Qed.
Lemma rot_jr phi : / 10 ^ 4 <= vnorm phi -> mmul (to_rot (rq phi)) (right_jacobian phi) = left_jac phi.
Proof.
  intros H. assert (P4 : 0 < / 10 ^ 4) by (apply Rinv_0_lt_compat, pow_lt; lra).
  assert (N : vnorm phi <> 0) by lra.
  rewrite rq_rot. unfold right_jacobian, left_jac, rodrigues. destruct (Rlt_dec (vnorm phi) (/ 10 ^ 4)) as [Hx|Hx]; [lra|]. clear Hx. cbv zeta.
  rewrite !vnormalized_eq. pose proof (unit_normalized phi N) as U. pose proof (sc (vnorm phi)) as SC.
  set (n := vnorm phi) in *. set (s := sin n) in *. set (c := cos n) in *. clearbody s c.
  assert (Ep : phi = vscale n (vscale (/ n) phi)) by (apply V3_ext; unfold vscale; cbn [vx vy vz]; field; exact N).
  set (u := vscale (/ n) phi) in *. clearbody u. clearbody n. subst phi.
  assert (Es : skew (vscale n u) = mscale n (skew u)) by (mat_eq; ring). rewrite Es.
  transitivity (mmul (madd (madd I3 (mscale s (skew u))) (mscale (1 - c) (mmul (skew u) (skew u))))
    (madd I3 (madd (mscale (- (1 - c) / n) (skew u)) (mscale ((n - s) / n) (mmul (skew u) (skew u)))))).
  - f_equal. f_equal. f_equal; mat_eq; field; exact N.
  - rewrite skew_poly by exact U. f_equal; [f_equal|]; f_equal; [apply Rminus_diag_uniq; transitivity ((s * s - (1 - c * c)) / n); [field; exact N|rewrite SC; field; exact N]|field; exact N].
Qed.
Lemma qnorm_rq phi : smooth_at phi -> qnorm2 (quat_delta phi) = 1.
Proof.
  assert (P4 : 2 / 10 ^ 6 < / 10 ^ 4) by lra.
  intros [->|H]; [rewrite quat_delta_0; unfold qnorm2; cbn; ring|]. rewrite quat_delta_rq by lra. apply rq_unit.
Qed.
Lemma dq_ext_loc f g t a : locally t (fun s => g s = f s) -> dq f t a -> dq g t a.
Proof.
  intros L ((?&?)&(?&?)). split; split;
  (eapply is_derive_ext_loc; [apply filter_imp with (2 := L); intros s Hs; symmetry; rewrite Hs; reflexivity|]); assumption.
Qed.
(** the increment moves with its angle as the right Jacobian says *)
Lemma quat_delta_move phi d : smooth_at phi ->
  dq (fun t => quat_delta (vadd phi (vscale t d))) 0
     (half_qmul (mapp (mmul (to_rot (quat_delta phi)) (right_jacobian phi)) d) (quat_delta phi)).
Proof.
  intros [->|H].
  - pose proof (quat_delta_d d) as D. assert (E : forall t, vadd vzero (vscale t d) = vscale t d) by (intros; unfold vzero; mat_eq; ring).
    eapply (dq_ext_loc _ _ 0).
    + apply filter_forall. intros t. rewrite E. reflexivity.
    + rewrite quat_delta_0.
      assert (J : right_jacobian vzero = I3).
      { unfold right_jacobian. rewrite Prop_Geom2.vnorm_0. destruct (Rlt_dec 0 (/ 10 ^ 4)) as [_|N].
        - unfold vzero. mat_eq; field.
        - exfalso. apply N. apply Rinv_0_lt_compat, pow_lt; lra. }
      rewrite J. replace (half_qmul (mapp (mmul (to_rot (Q 1 0 0 0)) I3) d) (Q 1 0 0 0)) with (Q 0 (vx d / 2) (vy d / 2) (vz d / 2)); [exact D|].
      unfold half_qmul. mat_eq; field.
  - assert (P4 : 2 / 10 ^ 6 < / 10 ^ 4) by lra.
    set (f := fun t : R => vadd phi (vscale t d)).
    assert (F0 : f 0 = phi) by (unfold f; apply V3_ext; cbn [vadd vscale vx vy vz]; ring).
    assert (Df : dv f 0 d) by (unfold f; split; [|split]; cbn [vadd vscale vx vy vz]; auto_derive; auto; ring).
    assert (P0 : 0 < / 10 ^ 6) by (apply Rinv_0_lt_compat, pow_lt; lra).
    assert (N : vnorm (f 0) <> 0) by (rewrite F0; lra).
    pose proof (rq_derive f 0 d N Df) as D. rewrite F0 in D. rewrite <- (rot_jr phi H) in D.
    rewrite (quat_delta_rq phi) by lra.
    apply (dq_ext_loc (fun s => rq (f s))); [|exact D].
    pose proof (d_norm f 0 d N Df) as Dn.
    assert (Cn : continuous (fun s : R => vnorm (f s)) 0) by (eapply d_cont; exact Dn).
    assert (L : locally 0 (fun s : R => 2 / 10 ^ 6 < vnorm (f s))).
    { apply (Cn (fun y => 2 / 10 ^ 6 < y)). apply (open_gt (2 / 10 ^ 6)). rewrite F0. lra. }
    apply filter_imp with (2 := L). intros s Hs. exact (quat_delta_rq (f s) Hs).
Qed.

Lemma half_qmul_push q v p : qnorm2 q = 1 -> qmul q (half_qmul v p) = half_qmul (mapp (to_rot q) v) (qmul q p).
Proof.
  intros U. destruct q as [a b c d]. destruct v as [x y z]. destruct p as [e f g h]. unfold qnorm2 in U. cbn [qw qx qy qz] in U.
  transitivity (half_qmul (mapp (quat2rot (Q a b c d)) (V3 x y z)) (qmul (Q a b c d) (Q e f g h))).
  2: { rewrite to_rot_quat2rot; [reflexivity|]. unfold qnorm2. cbn. exact U. }
  assert (K : forall L R k, L - R = k * (1 - (a * a + b * b + c * c + d * d)) -> L = R) by (intros L R k H; rewrite U in H; lra).
  unfold half_qmul, quat2rot, qscale, qmul, mapp. cbn [qw qx qy qz vx vy vz m00 m01 m02 m10 m11 m12 m20 m21 m22].
  apply Q_ext; cbn [qw qx qy qz].
  - apply (K _ _ (/ 2 * ((a * (- (x * f) - y * g - z * h)) - (b * (x * e + y * h - z * g) + c * (y * e + z * f - x * h) + d * (z * e + x * g - y * f))))). ring.
  - apply (K _ _ (/ 2 * ((a * (x * e + y * h - z * g)) + b * (- (x * f) - y * g - z * h) + c * (z * e + x * g - y * f) - d * (y * e + z * f - x * h)))). ring.
  - apply (K _ _ (/ 2 * ((a * (y * e + z * f - x * h)) + c * (- (x * f) - y * g - z * h) + d * (x * e + y * h - z * g) - b * (z * e + x * g - y * f)))). ring.
  - apply (K _ _ (/ 2 * ((a * (z * e + x * g - y * f)) + d * (- (x * f) - y * g - z * h) + b * (y * e + z * f - x * h) - c * (x * e + y * h - z * g)))). ring.
Qed.
Lemma half_qmul_r v p q : qmul (half_qmul v p) q = half_qmul v (qmul p q).
Proof. unfold half_qmul. mat_eq; ring. Qed.
Lemma half_qmul_add v w q : Q (qw (half_qmul v q) + qw (half_qmul w q)) (qx (half_qmul v q) + qx (half_qmul w q))
  (qy (half_qmul v q) + qy (half_qmul w q)) (qz (half_qmul v q) + qz (half_qmul w q)) = half_qmul (vadd v w) q.
Proof. unfold half_qmul. mat_eq; ring. Qed.
Lemma qinverse_rot q : qnorm2 q = 1 -> to_rot (qinverse q) = mtr (to_rot q).
Proof.
  intros U. unfold qinverse. rewrite U. destruct (Rlt_dec 0 1) as [_|N]; [|lra]. unfold qconj, qscale. mat_eq; field.
Qed.
Lemma skew_anti v a : mapp (skew v) a = vopp (mapp (skew a) v). Proof. mat_eq; ring. Qed.

(** what the accumulated matrices say about the increments, for the biases [bg + t * dl] *)
Record moves (redo : bool) (dl : vec3) (F : R -> pint) : Prop := Moves {
  mv_unit : qnorm2 (e_q (F 0)) = 1;
  mv_q : dq (fun t => e_q (F t)) 0 (half_qmul (vopp (mapp (mmul (to_rot (e_q (F 0))) (e_cross (F 0))) dl)) (e_q (F 0)));
  mv_a : dv (fun t => e_a (F t)) 0 (mapp (e_dv (F 0)) dl);
  mv_aa : dv (fun t => e_aa (F t)) 0 (mapp (e_dp (F 0)) dl);
  mv_al : redo = true -> e_dalpha (F 0) = mmul (to_rot (e_q (F 0))) (e_cross (F 0)) }.
Lemma moves_step redo ip bg ba dl dt w0 w1 a0 a1 t1 F : 0 < dt ->
  smooth_at (vscale dt (vsub (vscale (1 / 2) (vadd w0 w1)) bg)) ->
  moves redo dl F ->
  moves redo dl (fun t => imu_step redo ip (vadd bg (vscale t dl)) ba dt w0 w1 a0 a1 t1 (F t)).
Proof.
  intros Hdt Hs [U Mq Ma Maa Mal].
  set (wm := vscale (1 / 2) (vadd w0 w1)) in *. set (phi := vscale dt (vsub wm bg)) in *.
  assert (B0 : vadd bg (vscale 0 dl) = bg) by (apply V3_ext; cbn [vadd vscale vx vy vz]; ring).
  set (qd := fun t : R => quat_delta (vadd phi (vscale t (vscale (- dt) dl)))).
  assert (Eqd : forall t, imu_dq (vsub wm (vadd bg (vscale t dl))) dt = qd t).
  { intros t. rewrite imu_dq_delta by lra. unfold qd. f_equal. unfold phi. mat_eq; ring. }
  assert (Q0 : qd 0 = quat_delta phi) by (unfold qd; f_equal; apply V3_ext; cbn [vadd vscale vx vy vz]; ring).
  pose proof (quat_delta_move phi (vscale (- dt) dl) Hs) as Dd. fold qd in Dd.
  pose proof (qnorm_rq phi Hs) as Ud.
  set (q := e_q (F 0)) in *. set (C := to_rot q) in *. set (X := e_cross (F 0)) in *.
  set (R := to_rot (quat_delta phi)) in *. set (Jr := right_jacobian phi) in *.
  set (q1 := qmul q (quat_delta phi)). set (C1 := to_rot q1).
  set (X1 := madd (mmul (to_rot (qinverse (quat_delta phi))) X) (mscale dt Jr)).
  assert (C1e : C1 = mmul C R) by (apply to_rot_mul; assumption).
  assert (Rot : IsRot R) by (apply to_rot_orth; exact Ud).
  assert (D1e : mmul C1 X1 = madd (mmul C X) (mscale dt (mmul C1 Jr))).
  { unfold X1. rewrite qinverse_rot by exact Ud. fold R. rewrite C1e.
    transitivity (madd (mmul (mmul C (mmul R (mtr R))) X) (mscale dt (mmul (mmul C R) Jr))).
    - clearbody C R X Jr. rewrite <- !mmul_assoc. clear. generalize (mmul C R). intros CR.
      transitivity (madd (mmul CR (mmul (mtr R) X)) (mmul CR (mscale dt Jr))).
      + generalize (mmul (mtr R) X) (mscale dt Jr). intros. mat_eq; ring.
      + rewrite !mmul_assoc. f_equal. mat_eq; ring.
    - destruct Rot as [R1 R2]. rewrite (orth_right R R1 R2), mmul_I_r. reflexivity. }
  assert (U1 : qnorm2 q1 = 1) by (unfold q1; rewrite qnorm2_mul, U, Ud; ring).
  (* orientation *)
  assert (Dq1 : dq (fun t => qmul (e_q (F t)) (qd t)) 0 (half_qmul (vopp (mapp (mmul C1 X1) dl)) q1)).
  { pose proof (dq_mul _ _ _ _ _ Mq Dd) as D. rewrite Q0 in D. fold q in D.
    rewrite half_qmul_r, half_qmul_push in D by exact U. fold C q1 in D. rewrite half_qmul_add in D.
    replace (vopp (mapp (mmul C1 X1) dl)) with (vadd (vopp (mapp (mmul C X) dl)) (mapp C (mapp (mmul R Jr) (vscale (- dt) dl)))); [exact D|].
    rewrite D1e, C1e. rewrite <- mapp_mmul, mmul_assoc. generalize (mmul C (mmul R Jr)) (mmul C X). intros. mat_eq; ring. }
  (* rotation matrices *)
  assert (DC : dm (fun t => to_rot (e_q (F t))) 0 (mmul (skew (vopp (mapp (mmul C X) dl))) C)).
  { pose proof (dm_to_rot _ _ _ Mq) as D. fold q in D. rewrite dto_rot_half in D by exact U. exact D. }
  assert (DC1 : dm (fun t => to_rot (qmul (e_q (F t)) (qd t))) 0 (mmul (skew (vopp (mapp (mmul C1 X1) dl))) C1)).
  { pose proof (dm_to_rot _ _ _ Dq1) as D. cbn beta in D. rewrite Q0 in D. fold q q1 in D. rewrite dto_rot_half in D by exact U1. exact D. }
  (* force *)
  set (a := vsub (vscale (1 / 2) (vadd a0 a1)) ba).
  assert (IC : IsRot C) by (apply to_rot_orth; exact U). assert (IC1 : IsRot C1) by (apply to_rot_orth; exact U1).
  assert (Turn : forall (C : mat3) Y, IsRot C -> mapp (mmul (skew (vopp (mapp (mmul C Y) dl))) C) a = mapp (mmul (mmul C (skew a)) Y) dl).
  { intros M Y [M1 M2]. rewrite !mapp_mmul. set (v := mapp Y dl).
    rewrite skew_anti. pose proof (M3_inj_eqs M M1 M2) as (_ & A). clearbody v.
    transitivity (mapp (skew (mapp M a)) (mapp M v)); [mat_eq; ring|].
    assert (Cr : mapp (skew (mapp M a)) (mapp M v) = mapp (mtr (adj M)) (mapp (skew a) v)) by (unfold adj; mat_eq; ring).
    rewrite Cr. f_equal. rewrite <- A. apply mtr_tr. }
  assert (DS : dv (fun t => mapp (madd (to_rot (e_q (F t))) (to_rot (qmul (e_q (F t)) (qd t)))) a) 0
    (mapp (madd (mmul (mmul C (skew a)) X) (mmul (mmul C1 (skew a)) X1)) dl)).
  { pose proof (dv_mapp _ _ _ _ _ (dm_add _ _ _ _ _ DC DC1) (dv_const a 0)) as D. cbn beta in D.
    eapply dv_eq; [exact D|].
    transitivity (vadd (mapp (mmul (skew (vopp (mapp (mmul C X) dl))) C) a) (mapp (mmul (skew (vopp (mapp (mmul C1 X1) dl))) C1) a)).
    - generalize (mmul (skew (vopp (mapp (mmul C X) dl))) C) (mmul (skew (vopp (mapp (mmul C1 X1) dl))) C1). intros. unfold vzero. mat_eq; ring.
    - rewrite !Turn by assumption. generalize (mmul (mmul C (skew a)) X) (mmul (mmul C1 (skew a)) X1). intros. mat_eq; ring. }
  assert (Ew0 : vsub wm (vadd bg (vscale 0 dl)) = vsub wm bg) by (rewrite B0; reflexivity).
  assert (Eq1 : forall t, qmul (e_q (F t)) (imu_dq (vsub wm (vadd bg (vscale t dl))) dt) = qmul (e_q (F t)) (qd t)) by (intros; rewrite Eqd; reflexivity).
  assert (Ed0 : imu_dq (vsub wm bg) dt = quat_delta phi) by (rewrite <- Ew0, Eqd; exact Q0).
  constructor; unfold imu_step; cbn [e_q e_cross e_a e_aa e_dv e_dp e_dalpha]; fold wm; rewrite ?B0, ?Ed0; fold q C X q1 C1 phi Jr X1.
  - exact U1.
  - eapply dq_ext_loc; [|exact Dq1]. apply filter_forall. intros t. rewrite Eqd. reflexivity.
  - fold a. eapply dv_ext; [intros t; rewrite Eqd; reflexivity|].
    pose proof (dv_add _ _ _ _ _ Ma (dv_scale _ _ _ (1 / 2 * dt) DS)) as D. cbn beta in D. eapply dv_eq; [exact D|].
    generalize (madd (mmul (mmul C (skew a)) X) (mmul (mmul C1 (skew a)) X1)). intros. mat_eq; ring.
  - fold a. eapply dv_ext; [intros t; rewrite Eqd; reflexivity|].
    pose proof (dv_add _ _ _ _ _ Maa (dv_add _ _ _ _ _ (dv_scale _ _ _ dt Ma) (dv_scale _ _ _ (1 / 4 * dt * dt) DS))) as D. cbn beta in D. eapply dv_eq; [exact D|].
    generalize (madd (mmul (mmul C (skew a)) X) (mmul (mmul C1 (skew a)) X1)). intros. mat_eq; ring.
  - intros E. specialize (Mal E). subst redo. rewrite Mal. fold phi Jr. symmetry. exact D1e.
Qed.

Lemma moves_ext redo dl F G : (forall t, F t = G t) -> moves redo dl F -> moves redo dl G.
Proof. intros E H. replace G with F; [exact H|]. apply FunctionalExtensionality.functional_extensionality. exact E. Qed.
Lemma moves_0 redo dl t0 : moves redo dl (fun _ => pint0 t0).
Proof.
  constructor; cbn [pint0 e_q e_cross e_a e_aa e_dv e_dp e_dalpha].
  - unfold qnorm2. cbn. ring.
  - replace (half_qmul _ _) with (Q 0 0 0 0) by (unfold half_qmul, Z3; mat_eq; ring). split; split; apply d_const.
  - replace (mapp Z3 dl) with vzero by (unfold vzero, Z3; mat_eq; ring). apply (dv_const vzero).
  - replace (mapp Z3 dl) with vzero by (unfold vzero, Z3; mat_eq; ring). apply (dv_const vzero).
  - intros _. unfold Z3. mat_eq; ring.
Qed.
(** a window that starts and ends at samples uses the samples as they are *)
Lemma read_aligned redo t1 (f : sample -> vec3) l p n s t0 : rising l -> adjacent l p n -> stamped l t0 -> stamped l t1 ->
  (e_started s = false -> e_ts s = t0 /\ (fst p <= t0)%Z) -> (e_started s = true -> e_ts s = fst p /\ (t0 < fst p)%Z) ->
  (e_ts s < Z.min (fst n) t1)%Z ->
  read0 redo t1 f p n s = f p /\ read1 t1 f p n s = f n /\ e_ts s = fst p /\ Z.min (fst n) t1 = fst n /\ (t0 <= fst p)%Z.
Proof.
  intros Hr Ad (q0 & I0 & E0) (q1 & I1 & E1) H0 H1 Hlt. destruct (adjacent_split _ _ _ Ad Hr) as [Hpn Sp].
  assert (Gp : (fst p <= e_ts s)%Z) by (destruct (e_started s); [destruct (H1 eq_refl)|destruct (H0 eq_refl)]; lia).
  assert (Ge : e_ts s = fst p).
  { destruct (e_started s); [destruct (H1 eq_refl); assumption|]. destruct (H0 eq_refl). destruct (Sp q0 I0); lia. }
  assert (Gt : (t0 <= fst p)%Z) by (destruct (e_started s); [destruct (H1 eq_refl)|destruct (H0 eq_refl)]; lia).
  assert (Gn : (fst n <= t1)%Z) by (destruct (Sp q1 I1); lia).
  assert (R1 : read1 t1 f p n s = f n).
  { unfold read1. assert (t1 <? fst n = false)%Z as -> by (apply Z.ltb_ge; exact Gn). reflexivity. }
  split; [|split; [exact R1|split; [exact Ge|split; [lia|exact Gt]]]].
  unfold read0. destruct (e_started s); [reflexivity|]. rewrite R1, Ge.
  replace (if redo then fst p else fst p) with (fst p) by (destruct redo; reflexivity).
  assert (X : secs (Z.min (fst n) t1 - fst p) / secs (Z.min (fst n) t1 - fst p) = 1).
  { pose proof (secs_pos (Z.min (fst n) t1 - fst p) ltac:(lia)). field. lra. }
  rewrite X. apply mix_1.
Qed.
Lemma moves_loop redo ip bg ba dl l0 t0 t1 : rising l0 -> stamped l0 t0 -> stamped l0 t1 -> brisk l0 t0 t1 bg ->
  forall l p F ts st, (forall p' n', adjacent (p :: l) p' n' -> adjacent l0 p' n') ->
  (forall t, e_ts (F t) = ts /\ e_started (F t) = st) ->
  (st = false -> ts = t0 /\ ((fst p <= t0)%Z)) -> (st = true -> ts = fst p /\ (t0 < fst p)%Z) ->
  (forall n r, l = n :: r -> (ts < t1)%Z) ->
  moves redo dl F ->
  moves redo dl (fun t => fst (lloop redo ip (vadd bg (vscale t dl)) ba t1 p l (F t))).
Proof.
  intros Hr S0 S1 Hb. induction l as [|n l IH]; intros p F ts st Ha Hf H0 H1 Hts M.
  - cbn [lloop fst]. exact M.
  - assert (Ad : adjacent l0 p n) by (apply Ha; constructor).
    assert (Ha' : forall p' n', adjacent (n :: l) p' n' -> adjacent l0 p' n') by (intros; apply Ha; constructor; assumption).
    destruct (adjacent_split _ _ _ Ad Hr) as [Hpn Sp].
    specialize (Hts n l eq_refl).
    destruct (Z.lt_ge_cases ts (Z.min (fst n) t1)) as [G|G].
    + assert (Hgo : forall t, (e_ts (F t) < Z.min (fst n) t1)%Z) by (intros t; destruct (Hf t) as [-> _]; exact G).
      assert (Hs0 : forall t, e_started (F t) = false -> e_ts (F t) = t0 /\ (fst p <= t0)%Z) by (intros t; destruct (Hf t) as [-> ->]; exact H0).
      assert (Hs1 : forall t, e_started (F t) = true -> e_ts (F t) = fst p /\ (t0 < fst p)%Z) by (intros t; destruct (Hf t) as [-> ->]; exact H1).
      set (F' := fun t => fst (body redo ip (vadd bg (vscale t dl)) ba t1 p n (F t))).
      assert (M' : moves redo dl F').
      { destruct (read_aligned redo t1 gyr l0 p n (F 0) t0 Hr Ad S0 S1 (Hs0 0) (Hs1 0) (Hgo 0)) as (_ & _ & Ets & Emin & Gt0).
        apply (moves_ext redo dl (fun t => imu_step redo ip (vadd bg (vscale t dl)) ba (secs (fst n - fst p)) (gyr p) (gyr n) (acc p) (acc n) (fst n) (F t))).
        { intros t; unfold F'; rewrite body_step by apply Hgo;
          destruct (read_aligned redo t1 gyr l0 p n (F t) t0 Hr Ad S0 S1 (Hs0 t) (Hs1 t) (Hgo t)) as (E1 & E2 & E3 & E4 & E5);
          destruct (read_aligned redo t1 acc l0 p n (F t) t0 Hr Ad S0 S1 (Hs0 t) (Hs1 t) (Hgo t)) as (E1' & E2' & _);
          rewrite E1, E2, E1', E2', E3, E4; reflexivity. }
        apply moves_step; [apply secs_pos; lia| |exact M].
        apply (Hb p n Ad); [exact Gt0|lia]. }
      assert (Hf' : forall t, e_ts (F' t) = Z.min (fst n) t1 /\ e_started (F' t) = true).
      { intros t. destruct (body_go redo ip (vadd bg (vscale t dl)) ba t1 p n (F t) (Hgo t)) as (A & B & _). split; assumption. }
      destruct (t1 <=? fst n)%Z eqn:B.
      * eapply moves_ext; [|exact M']. intros t. cbn [lloop]. unfold F'.
        destruct (body_go redo ip (vadd bg (vscale t dl)) ba t1 p n (F t) (Hgo t)) as (_ & _ & _ & _ & E5).
        destruct (body redo ip (vadd bg (vscale t dl)) ba t1 p n (F t)) as [s' stop]. cbn [snd] in E5. rewrite E5, B. reflexivity.
      * pose proof B as B'. apply Z.leb_gt in B'.
        eapply moves_ext; [|apply (IH n F' (fst n) true Ha')]; auto.
        -- intros t. cbn [lloop]. unfold F'.
           destruct (body_go redo ip (vadd bg (vscale t dl)) ba t1 p n (F t) (Hgo t)) as (_ & _ & _ & _ & E5).
           destruct (body redo ip (vadd bg (vscale t dl)) ba t1 p n (F t)) as [s' stop]. cbn [snd] in E5. rewrite E5, B. reflexivity.
        -- intros t. destruct (Hf' t) as [-> ->]. split; [lia|reflexivity].
        -- congruence.
        -- intros _. split; [reflexivity|]. destruct st; [destruct (H1 eq_refl)|destruct (H0 eq_refl)]; lia.
    + eapply moves_ext; [|apply (IH n F ts st Ha' Hf)]; auto.
      * intros t. cbn [lloop]. rewrite body_skip by (destruct (Hf t) as [-> _]; lia). reflexivity.
      * intros E. destruct (H0 E). split; lia.
      * intros E. destruct (H1 E). lia.
Qed.
