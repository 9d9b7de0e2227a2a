(** C82, part 3: what the covariance returned by propagation consists of. *)
From Coq Require Import Reals Lra Lia Psatz.
From Verif Require Import Base GeomModel GeomSpec GeomProofs ImuModel PreintModel PreintSpec PreintProofs PreintProofs2 Prop_Geom2 Prop_Lissajous Prop_Preint.
From Coquelicot Require Import Coquelicot.
Local Open Scope R_scope.

(** ** Quadratic forms, block by block *)
Lemma quad_ext P x y : (forall i, (i < 15)%nat -> x i = y i) -> quadratic P x = quadratic P y.
Proof. intros H. unfold quadratic. apply tot_ext. intros i Hi. apply tot_ext. intros j Hj. rewrite (H i Hi), (H j Hj). reflexivity. Qed.
Ltac cases15 k H :=
  destruct k as [|[|[|[|[|[|[|[|[|[|[|[|[|[|[|k]]]]]]]]]]]]]]]; [..|exfalso; lia].
Lemma adjoint (A01 A03 A04 A13 A21 A23 A24 : mat3) (d : R) (x0 x1 x2 x3 x4 : vec3) k : (k < 15)%nat ->
  total 15 (fun i => blocks15 (fun i j => match i, j with
  | 0%nat, 1%nat => Some A01 | 0%nat, 2%nat => Some (mscale d I3) | 0%nat, 3%nat => Some A03 | 0%nat, 4%nat => Some A04
  | 1%nat, 3%nat => Some A13 | 2%nat, 1%nat => Some A21 | 2%nat, 3%nat => Some A23 | 2%nat, 4%nat => Some A24
  | _, _ => None end) i k * vec15 x0 x1 x2 x3 x4 i)
  = vec15 x0 (vadd x1 (vadd (mapp (mtr A01) x0) (mapp (mtr A21) x2))) (vadd x2 (vscale d x0))
      (vadd x3 (vadd (vadd (mapp (mtr A03) x0) (mapp (mtr A13) x1)) (mapp (mtr A23) x2)))
      (vadd x4 (vadd (mapp (mtr A04) x0) (mapp (mtr A24) x2))) k.
Proof.
  intros H.
  cases15 k H; cbv [total blocks15 vec15 Nat.div Nat.modulo Nat.divmod fst snd Nat.sub Nat.eqb ent3 m00 m01 m02 m10 m11 m12 m20 m21 m22
     mscale I3 vadd vscale mapp mtr vx vy vz]; ring.
Qed.
Definition form (s : pint) (x0 x1 x2 x3 x4 : vec3) : R := quadratic (e_P s) (vec15 x0 x1 x2 x3 x4).
Lemma noise_form ip dt x0 x1 x2 x3 x4 : total 15 (fun i => noise ip dt (i / 3) * (vec15 x0 x1 x2 x3 x4 i * vec15 x0 x1 x2 x3 x4 i)) =
  1 / 2 * dt * dt * (dt * ip_sigma_a ip ^ 2) * sq x0 + dt * ip_sigma_g ip ^ 2 * sq x1 + dt * ip_sigma_a ip ^ 2 * sq x2
  + dt * ip_sigma_gw ip ^ 2 * sq x3 + dt * ip_sigma_aw ip ^ 2 * sq x4.
Proof. unfold sq, vdot. cbv [total noise vec15 Nat.div Nat.modulo Nat.divmod fst snd Nat.sub]. ring. Qed.
Definition Xm (C C1 ax cr cr1 : mat3) : mat3 := madd (mmul (mmul C ax) cr) (mmul (mmul C1 ax) cr1).
Lemma form_step redo ip bg ba dt w0 w1 a0 a1 t1 s x0 x1 x2 x3 x4 :
  let w := vsub (vscale (1 / 2) (vadd w0 w1)) bg in
  let a := vsub (vscale (1 / 2) (vadd a0 a1)) ba in
  let C := to_rot (e_q s) in let C1 := to_rot (qmul (e_q s) (imu_dq w dt)) in let S := madd C C1 in
  let cross1 := madd (mmul (to_rot (qinverse (imu_dq w dt))) (e_cross s)) (mscale dt (right_jacobian (vscale dt w))) in
  let X := Xm C C1 (skew a) (e_cross s) cross1 in
  form (imu_step redo ip bg ba dt w0 w1 a0 a1 t1 s) x0 x1 x2 x3 x4 =
  form s x0
    (vadd x1 (vadd (mapp (skew (vadd (vscale dt (e_a s)) (vscale (1 / 4 * dt * dt) (mapp S a)))) x0) (mapp (skew (vscale (1 / 2 * dt) (mapp S a))) x2)))
    (vadd x2 (vscale dt x0))
    (vadd x3 (vadd (vadd (mapp (mtr (madd (mscale dt (e_dv s)) (mscale (1 / 4 * dt * dt) X))) x0) (vscale (- dt) (mapp (mtr C1) x1))) (mapp (mtr (mscale (1 / 2 * dt) X)) x2)))
    (vadd x4 (vadd (mapp (mtr (madd (mscale (- dt) (e_C s)) (mscale (1 / 4 * dt * dt) S))) x0) (vscale (- (1 / 2) * dt) (mapp (mtr S) x2))))
  + (1 / 2 * dt * dt * (dt * ip_sigma_a ip ^ 2) * sq x0 + dt * ip_sigma_g ip ^ 2 * sq x1 + dt * ip_sigma_a ip ^ 2 * sq x2
     + dt * ip_sigma_gw ip ^ 2 * sq x3 + dt * ip_sigma_aw ip ^ 2 * sq x4).
Proof.
  intros w a C C1 S cross1 X. unfold form, imu_step. cbv zeta. cbn [e_P]. fold w a. fold C1 C. fold cross1. fold S. fold (Xm C C1 (skew a) (e_cross s) cross1). fold X.
  set (F := f_delta _ _ _ _ _ _ _).
  rewrite (quad_diag (mul15 (mul15 F (e_P s)) (tr15 F)) (fun i => noise ip dt (i / 3))), quad_congr, noise_form.
  f_equal. apply quad_ext. intros k Hk. unfold F, f_delta. cbv zeta. fold S. fold (Xm C C1 (skew a) (e_cross s) cross1). fold X.
  rewrite adjoint by exact Hk.
  assert (E1 : forall v x, mapp (mtr (mscale (-1) (skew v))) x = mapp (skew v) x) by (intros; mat_eq; ring).
  assert (E2 : forall c M x, mapp (mtr (mscale c M)) x = vscale c (mapp (mtr M) x)) by (intros; mat_eq; ring).
  rewrite !E1, (E2 (- dt) C1), (E2 (- (1 / 2) * dt) S). reflexivity.
Qed.

(** ** Summing over the window *)
Section Seg.
Context (redo : bool) (ip : imu_params) (bg ba : vec3) (t_end t0 : Z) (l0 : list sample).
Context {X : Type} (Phi : pint -> X -> R) (tr : R -> X -> X) (g : R -> X -> R) (J : pint -> Prop).
Hypothesis tr_0 : forall x, tr 0 x = x.
Hypothesis tr_add : forall a b x, tr a (tr b x) = tr (a + b) x.
Hypothesis step : forall p n s, adjacent l0 p n -> (e_ts s < Z.min (fst n) t_end)%Z -> J s ->
  J (fst (body redo ip bg ba t_end p n s)) /\
  forall x, Phi (fst (body redo ip bg ba t_end p n s)) x = Phi s (tr (secs (Z.min (fst n) t_end - e_ts s)) x) + g (secs (Z.min (fst n) t_end - e_ts s)) x.
Lemma seg_done h : forall l p, rising (p :: l) -> (t_end <= fst p)%Z -> over_segments h t0 t_end (p :: l) = 0.
Proof.
  induction l as [|n l IH]; intros p Hr Hp; [reflexivity|]. destruct Hr as [H1 H2].
  change (over_segments h t0 t_end (p :: n :: l)) with ((if (seg_from t0 p <? seg_to t_end n)%Z
       then h (time_of (seg_to t_end n) - time_of (seg_from t0 p)) (time_of t_end - time_of (seg_to t_end n)) else 0) + over_segments h t0 t_end (n :: l)).
  assert ((seg_from t0 p <? seg_to t_end n)%Z = false) as -> by (apply Z.ltb_ge; unfold seg_from, seg_to; lia).
  rewrite IH by (auto; lia). ring.
Qed.
Lemma seg_run : forall l p s, (forall p' n', adjacent (p :: l) p' n' -> adjacent l0 p' n') -> rising (p :: l) -> (t_end <= back_of p l)%Z ->
  J s -> (e_ts s < t_end)%Z -> e_ts s = Z.max t0 (fst p) ->
  J (fst (lloop redo ip bg ba t_end p l s)) /\
  forall x, Phi (fst (lloop redo ip bg ba t_end p l s)) x =
    Phi s (tr (time_of t_end - time_of (e_ts s)) x) + over_segments (fun dt rest => g dt (tr rest x)) t0 t_end (p :: l).
Proof.
  induction l as [|n l IH]; intros p s Ha Hr Hb Hj Hlt He.
  - exfalso. unfold back_of in Hb. cbn in Hb. lia.
  - destruct Hr as [H1 H2]. rewrite back_cons in Hb. cbn [lloop].
    assert (Ha' : forall p' n', adjacent (n :: l) p' n' -> adjacent l0 p' n') by (intros; apply Ha; constructor; assumption).
    assert (U : forall h, over_segments h t0 t_end (p :: n :: l) = (if (seg_from t0 p <? seg_to t_end n)%Z
       then h (time_of (seg_to t_end n) - time_of (seg_from t0 p)) (time_of t_end - time_of (seg_to t_end n)) else 0) + over_segments h t0 t_end (n :: l))
      by reflexivity.
    destruct (Z.lt_ge_cases (e_ts s) (Z.min (fst n) t_end)) as [G|G].
    + destruct (body_go redo ip bg ba t_end p n s G) as (E1 & _ & _ & _ & E5).
      destruct (step p n s) as [S1 S2]; auto; [apply Ha; constructor|].
      destruct (body redo ip bg ba t_end p n s) as [s' stop]. cbn [fst snd] in *. subst stop.
      assert (Es : seg_from t0 p = e_ts s) by (unfold seg_from; lia).
      assert (Et : seg_to t_end n = Z.min (fst n) t_end) by (unfold seg_to; lia).
      assert (B : (seg_from t0 p <? seg_to t_end n)%Z = true) by (apply Z.ltb_lt; lia).
      destruct (t_end <=? fst n)%Z eqn:D; [apply Z.leb_le in D|apply Z.leb_gt in D].
      * cbn [fst]. split; [exact S1|]. intros x. rewrite U, B, seg_done, S2 by auto. rewrite Es, Et, Z.min_r, secs_sub by lia.
        rewrite (Rminus_diag_eq (time_of t_end) (time_of t_end)) by reflexivity. rewrite tr_0. ring.
      * destruct (IH n s') as [A1 A2]; auto; try lia. split; [exact A1|]. intros x. rewrite A2, U, B, S2, tr_add.
        rewrite E1, Es, Et, Z.min_l, !secs_sub by lia.
        replace (time_of (fst n) - time_of (e_ts s) + (time_of t_end - time_of (fst n))) with (time_of t_end - time_of (e_ts s)) by ring. ring.
    + rewrite body_skip by lia. destruct (IH n s) as [A1 A2]; auto; try lia. split; [exact A1|]. intros x. rewrite A2, U.
      assert ((seg_from t0 p <? seg_to t_end n)%Z = false) as -> by (apply Z.ltb_ge; unfold seg_from, seg_to; lia). ring.
Qed.
End Seg.
Lemma seg_all redo ip bg ba l p r t0 t1 {X : Type} (Phi : pint -> X -> R) tr g (J : pint -> Prop) :
  l = p :: r -> rising l -> (fst p <= t0)%Z -> (t1 <= back_of p r)%Z -> (t0 < t1)%Z ->
  (forall x, tr 0 x = x) -> (forall a b x, tr a (tr b x) = tr (a + b) x) -> J (pint0 t0) -> (forall x, Phi (pint0 t0) x = 0) ->
  (forall p n s, adjacent l p n -> (e_ts s < Z.min (fst n) t1)%Z -> J s -> let dt := secs (Z.min (fst n) t1 - e_ts s) in
     let s' := imu_step redo ip bg ba dt (read0 redo t1 gyr p n s) (read1 t1 gyr p n s) (read0 redo t1 acc p n s) (read1 t1 acc p n s) (Z.min (fst n) t1) s in
     J s' /\ forall x, Phi s' x = Phi s (tr dt x) + g dt x) ->
  forall x, Phi (fst (lloop redo ip bg ba t1 p r (pint0 t0))) x = over_segments (fun dt rest => g dt (tr rest x)) t0 t1 l.
Proof.
  intros -> Hr Hp Hb Ht T0 Ta J0 P0 St x.
  destruct (seg_run redo ip bg ba t1 t0 (p :: r) Phi tr g J T0 Ta) with (l := r) (p := p) (s := pint0 t0) as [_ A]; auto.
  - intros p' n s Ad Hlt Hj. rewrite body_step by exact Hlt. apply St; auto.
  - cbn [pint0 e_ts]. lia.
  - rewrite A, P0. ring.
Qed.
Lemma form_0 t0 x0 x1 x2 x3 x4 : form (pint0 t0) x0 x1 x2 x3 x4 = 0.
Proof.
  unfold form, quadratic, pint0, zero15. cbn [e_P]. rewrite (tot_ext 15 _ (fun _ => 0)); [apply tot_0|].
  intros i _. rewrite (tot_ext 15 _ (fun _ => 0)); [apply tot_0|]. intros j _. ring.
Qed.
Lemma out_form T s x0 x1 x2 x3 x4 : quadratic (out_covariance T s) (vec15 x0 x1 x2 x3 x4) =
  form s (mapp (mtr (tf_rot T)) x0) (mapp (mtr (tf_rot T)) x1) (mapp (mtr (tf_rot T)) x2) x3 x4.
Proof.
  unfold out_covariance. cbv zeta. rewrite quad_congr. apply quad_ext. intros k H. generalize (tf_rot T). intros C.
  cases15 k H; cbv [total blocks15 vec15 Nat.div Nat.modulo Nat.divmod fst snd Nat.sub Nat.eqb ent3
     mapp mtr vx vy vz m00 m01 m02 m10 m11 m12 m20 m21 m22]; ring.
Qed.
Lemma vdot_tr M u v : vdot (mapp (mtr M) u) v = vdot u (mapp M v).
Proof. unfold vdot, mapp, mtr. cbn [vx vy vz m00 m01 m02 m10 m11 m12 m20 m21 m22]. ring. Qed.
Lemma sq_rot C v : IsRot C -> sq (mapp (mtr C) v) = sq v.
Proof.
  intros [A B]. unfold sq. rewrite vdot_tr, <- mapp_mmul, (orth_right _ A B), mapp_I. reflexivity.
Qed.
Lemma seg_ext f g t0 t1 l : (forall dt rest, f dt rest = g dt rest) -> over_segments f t0 t1 l = over_segments g t0 t1 l.
Proof.
  intros H. induction l as [|p l IH]; [reflexivity|]. destruct l as [|n l]; [reflexivity|].
  cbn [over_segments] in *. rewrite IH. destruct (_ <? _)%Z; [rewrite H|]; reflexivity.
Qed.
Lemma seg_total l p r t0 t1 c : l = p :: r -> rising l -> (fst p <= t0)%Z -> (t1 <= back_of p r)%Z -> (t0 < t1)%Z ->
  over_segments (fun dt _ => dt * c) t0 t1 l = (time_of t1 - time_of t0) * c.
Proof.
  intros El Hr Hp Hb Ht. set (ip := ImuParams 0 0 0 0 0).
  pose proof (run_time false ip vzero vzero l p r t0 t1 El Hr Hp Hb Ht) as E.
  pose proof (seg_all false ip vzero vzero l p r t0 t1 (X := unit) (fun s _ => e_Dt s * c) (fun _ x => x) (fun dt _ => dt * c) (fun _ => True) El Hr Hp Hb Ht) as G.
  cbv beta in G. rewrite <- G, E, secs_sub; auto.
  - intros _. cbn [pint0 e_Dt]. ring.
  - intros p' n s _ _ _. cbv zeta. split; [trivial|]. intros _. unfold imu_step. cbn [e_Dt]. ring.
  - exact tt.
Qed.

(** ** Accelerometer noise *)
(** Without gyroscope noise and bias drift, for every motion and sampling: each part of the window adds white noise
    to the velocity, which moves the position for the rest of the window, and half its square to the position. *)
Theorem C82_cov_accel_noise : forall l ip T x t0 t1, rising l -> covers l t0 t1 -> (t0 < t1)%Z -> Rigid T ->
  ip_sigma_g ip = 0 -> ip_sigma_gw ip = 0 -> ip_sigma_aw ip = 0 ->
  exists o, propagation (buffer l) ip T x t0 t1 = Ret o /\
  forall dp da dv dbg dba, quadratic (po_cov o) (vec15 dp da dv dbg dba) =
    over_segments (fun dt rest => ip_sigma_a ip ^ 2 * dt * (sq (vadd dv (vscale rest dp)) + dt ^ 2 / 2 * sq dp)) t0 t1 l.
Proof.
  intros l ip T x t0 t1 Hr Hc Ht HT G1 G2 G3. destruct (prop_run l ip T x t0 t1 Hc) as (p & r & El & Hp & Hb & E).
  eexists. split; [exact E|]. cbn [po_cov]. intros dp da dv dbg dba. rewrite out_form.
  destruct (rigid_parts T HT) as [HR _]. set (C := tf_rot T) in *.
  pose (J := fun s => forall x0 x1 x2 x3 x4, form s x0 x1 x2 x3 x4 = form s x0 vzero x2 vzero vzero).
  assert (Main : J (fst (lloop false ip (sb_bg x) (sb_ba x) t1 p r (pint0 t0)))).
  { destruct (loop_ind false ip (sb_bg x) (sb_ba x) t1 J t0 l Ht) with (l := r) (p := p) (s := pint0 t0) as (A & _); auto; try (subst l; auto; fail).
    - intros p' n s _ _ Hj _ _ Hlt. rewrite body_step by exact Hlt. intros x0 x1 x2 x3 x4. rewrite !form_step, G1, G2, G3.
      rewrite Hj. symmetry. rewrite Hj. ring.
    - intros x0 x1 x2 x3 x4. rewrite !form_0. reflexivity.
    - cbn. congruence. }
  rewrite Main.
  etransitivity; [refine (seg_all false ip (sb_bg x) (sb_ba x) l p r t0 t1 (fun s (y : vec3 * vec3) => form s (fst y) vzero (snd y) vzero vzero)
    (fun d y => (fst y, vadd (snd y) (vscale d (fst y)))) (fun dt y => ip_sigma_a ip ^ 2 * dt * (sq (snd y) + dt ^ 2 / 2 * sq (fst y))) J El Hr Hp Hb Ht _ _ _ _ _ (mapp (mtr C) dp, mapp (mtr C) dv))|].
  - intros [a b]. cbn [fst snd]. f_equal. destruct b. mat_eq; ring.
  - intros a b [u v]. cbn [fst snd]. f_equal. mat_eq; ring.
  - intros x0 x1 x2 x3 x4. rewrite !form_0. reflexivity.
  - intros [a b]. apply form_0.
  - intros p' n s Ad Hlt Hj. cbv zeta. split.
    + intros x0 x1 x2 x3 x4. rewrite !form_step, G1, G2, G3. rewrite Hj. symmetry. rewrite Hj. ring.
    + intros [a b]. cbn [fst snd]. rewrite form_step, G1, G2, G3, Hj. f_equal. unfold sq. field.
  - apply seg_ext. intros dt rest. cbn [fst snd]. f_equal. f_equal; [|rewrite sq_rot by auto; reflexivity].
    rewrite <- (sq_rot C (vadd dv _)) by auto. f_equal. mat_eq; ring.
Qed.
(** ** Bias drift *)
(** The two biases drift independently of the motion and of everything else. *)
Theorem C82_cov_bias : forall l ip T x t0 t1, rising l -> covers l t0 t1 -> (t0 < t1)%Z ->
  exists o, propagation (buffer l) ip T x t0 t1 = Ret o /\
  forall dbg dba, quadratic (po_cov o) (vec15 vzero vzero vzero dbg dba) =
    time_of (t1 - t0) * (ip_sigma_gw ip ^ 2 * sq dbg + ip_sigma_aw ip ^ 2 * sq dba).
Proof.
  intros l ip T x t0 t1 Hr Hc Ht. destruct (prop_run l ip T x t0 t1 Hc) as (p & r & El & Hp & Hb & E).
  eexists. split; [exact E|]. cbn [po_cov]. intros dbg dba. rewrite out_form.
  assert (Z : forall M, mapp M vzero = vzero) by (intros; unfold vzero; mat_eq; ring). rewrite Z.
  etransitivity; [refine (seg_all false ip (sb_bg x) (sb_ba x) l p r t0 t1 (fun s (_ : unit) => form s vzero vzero vzero dbg dba)
    (fun d y => y) (fun dt y => dt * (ip_sigma_gw ip ^ 2 * sq dbg + ip_sigma_aw ip ^ 2 * sq dba)) (fun _ => True) El Hr Hp Hb Ht _ _ _ _ _ tt)|]; auto.
  - intros _. apply form_0.
  - intros p' n s Ad Hlt _. cbv zeta. split; [trivial|]. intros _. rewrite form_step, !Z.
    assert (V0 : forall c, vscale c vzero = vzero) by (intros; unfold vzero; mat_eq; ring).
    assert (V1 : forall v, vadd v vzero = v) by (intros []; unfold vzero; mat_eq; ring).
    rewrite !V0, !V1. f_equal. assert (sq vzero = 0) as -> by (unfold sq, vdot, vzero; cbn [vx vy vz]; ring). ring.
  - etransitivity; [exact (seg_total l p r t0 t1 _ El Hr Hp Hb Ht)|]. f_equal. rewrite <- secs_sub. reflexivity.
Qed.
(** ** Gyroscope noise *)
(** Without gyroscope bias drift the orientation does a random walk of density [ip_sigma_g], whatever the motion. *)
Theorem C82_cov_attitude : forall l ip T x t0 t1, rising l -> covers l t0 t1 -> (t0 < t1)%Z -> Rigid T -> ip_sigma_gw ip = 0 ->
  exists o, propagation (buffer l) ip T x t0 t1 = Ret o /\
  forall da, quadratic (po_cov o) (vec15 vzero da vzero vzero vzero) = time_of (t1 - t0) * ip_sigma_g ip ^ 2 * sq da.
Proof.
  intros l ip T x t0 t1 Hr Hc Ht HT G2. destruct (prop_run l ip T x t0 t1 Hc) as (p & r & El & Hp & Hb & E).
  eexists. split; [exact E|]. cbn [po_cov]. intros da. rewrite out_form.
  assert (Z : forall M, mapp M vzero = vzero) by (intros; unfold vzero; mat_eq; ring). rewrite !Z.
  destruct (rigid_parts T HT) as [HR _].
  assert (V0 : forall c, vscale c vzero = vzero) by (intros; unfold vzero; mat_eq; ring).
  assert (V1 : forall v, vadd v vzero = v) by (intros []; unfold vzero; mat_eq; ring).
  assert (S0 : sq vzero = 0) by (unfold sq, vdot, vzero; cbn [vx vy vz]; ring).
  assert (V2 : forall v, vadd vzero v = v) by (intros []; unfold vzero; mat_eq; ring).
  pose (J := fun s => forall x1 x3, form s vzero x1 vzero x3 vzero = form s vzero x1 vzero vzero vzero).
  etransitivity; [refine (seg_all false ip (sb_bg x) (sb_ba x) l p r t0 t1 (fun s (y : vec3) => form s vzero y vzero vzero vzero)
    (fun d y => y) (fun dt y => dt * (ip_sigma_g ip ^ 2 * sq y)) J El Hr Hp Hb Ht _ _ _ _ _ (mapp (mtr (tf_rot T)) da))|]; auto.
  - intros x1 x3. rewrite !form_0. reflexivity.
  - intros y. apply form_0.
  - intros p' n s Ad Hlt Hj. cbv zeta. split.
    + intros x1 x3. rewrite !form_step, !Z, !V0, !V1, !V2, G2, S0, Hj. symmetry. rewrite Hj. ring.
    + intros y. rewrite form_step, !Z, !V0, !V1, !V2, Hj, S0. ring.
  - etransitivity; [exact (seg_total l p r t0 t1 _ El Hr Hp Hb Ht)|]. rewrite <- secs_sub, sq_rot by auto. unfold secs, time_of. ring.
Qed.
(** ** A sensor that does not turn, under a constant force [f] *)
Definition still (l : list sample) (bg ba f : vec3) : Prop := forall s, In s l -> snd (snd s) = bg /\ fst (snd s) = vadd ba f.
Lemma v0 c : vscale c vzero = vzero. Proof. unfold vzero; mat_eq; ring. Qed.
Lemma m0 M : mapp M vzero = vzero. Proof. unfold vzero; mat_eq; ring. Qed.
Lemma sq0 : sq vzero = 0. Proof. unfold sq, vdot, vzero; cbn [vx vy vz]; ring. Qed.
Lemma dq_0 dt : imu_dq vzero dt = Q 1 0 0 0.
Proof. unfold imu_dq. rewrite Prop_Geom2.vnorm_0. replace (0 * (1 / 2) * dt) with 0 by ring. rewrite cos_0. unfold vscale, vzero. cbn [vx vy vz]. f_equal; ring. Qed.
Lemma still_step ip l bg ba f t1 p n s : still l bg ba f -> adjacent l p n -> e_q s = Q 1 0 0 0 ->
  let dt := secs (Z.min (fst n) t1 - e_ts s) in
  let s' := imu_step false ip bg ba dt (read0 false t1 gyr p n s) (read1 t1 gyr p n s) (read0 false t1 acc p n s) (read1 t1 acc p n s) (Z.min (fst n) t1) s in
  e_q s' = Q 1 0 0 0 /\ exists M : mat3, forall x1 x2 x3 x4,
  form s' vzero x1 x2 x3 x4 = form s vzero (vadd x1 (vscale dt (mapp (skew f) x2))) x2
     (vadd (vadd x3 (vscale (- dt) x1)) (mapp M x2)) (vadd x4 (vscale (- dt) x2))
   + dt * (ip_sigma_g ip ^ 2 * sq x1 + ip_sigma_a ip ^ 2 * sq x2 + ip_sigma_gw ip ^ 2 * sq x3 + ip_sigma_aw ip ^ 2 * sq x4).
Proof.
  intros Hs Ad Eq dt. destruct (adjacent_in _ _ _ Ad) as [I1 I2]. destruct (Hs p I1) as [G1 A1]. destruct (Hs n I2) as [G2 A2].
  destruct (read_const false t1 gyr p n s bg G1 G2) as [-> ->].
  destruct (read_const false t1 acc p n s (vadd ba f) A1 A2) as [-> ->].
  assert (W : vsub (vscale (1 / 2) (vadd bg bg)) bg = vzero) by (unfold vzero; mat_eq; field).
  assert (A : vsub (vscale (1 / 2) (vadd (vadd ba f) (vadd ba f))) ba = f) by (destruct f; mat_eq; field).
  assert (Q1 : qmul (Q 1 0 0 0) (Q 1 0 0 0) = Q 1 0 0 0) by (mat_eq; ring).
  split.
  - unfold imu_step. cbn [e_q]. rewrite W, dq_0, Eq. exact Q1.
  - exists (mtr (mscale (1 / 2 * dt) (Xm I3 I3 (skew f) (e_cross s) (madd (mmul (to_rot (qinverse (Q 1 0 0 0))) (e_cross s)) (mscale dt (right_jacobian (vscale dt vzero))))))).
    intros x1 x2 x3 x4. rewrite form_step, W, A, dq_0, Eq, Q1, to_rot_id.
    set (X := Xm _ _ _ _ _). rewrite !m0, !v0, sq0. f_equal; [|ring].
    f_equal.
    + mat_eq; field.
    + destruct x2. unfold vzero. mat_eq; ring.
    + generalize (mapp (mtr (mscale (1 / 2 * dt) X)) x2). intros v. unfold vzero. mat_eq; ring.
    + unfold vzero. mat_eq; field.
Qed.
Lemma tr_skew C f x : IsRot C -> mapp (skew f) (mapp (mtr C) x) = mapp (mtr C) (mapp (skew (mapp C f)) x).
Proof.
  intros H. pose proof (skew_rot C f H) as K. destruct H as [A B].
  transitivity (mapp (mmul (mmul (mtr C) (mmul C (skew f))) (mtr C)) x).
  - rewrite <- mmul_assoc, A, mmul_I_l, mapp_mmul. reflexivity.
  - rewrite <- K, mmul_assoc, mmul_assoc, (orth_right C A B), mmul_I_r, mapp_mmul. reflexivity.
Qed.
(** An orientation error made in one part of the window tilts the force for the rest of the window. *)
Theorem C82_cov_still_gyro_partial : forall l ip T x t0 t1 f, rising l -> covers l t0 t1 -> (t0 < t1)%Z -> Rigid T ->
  still l (sb_bg x) (sb_ba x) f -> ip_sigma_gw ip = 0 -> ip_sigma_aw ip = 0 ->
  exists o, propagation (buffer l) ip T x t0 t1 = Ret o /\
  forall da dv, quadratic (po_cov o) (vec15 vzero da dv vzero vzero) =
    over_segments (fun dt rest => dt * (ip_sigma_g ip ^ 2 * sq (vadd da (vscale rest (mapp (skew (mapp (tf_rot T) f)) dv)))
      + ip_sigma_a ip ^ 2 * sq dv)) t0 t1 l.
Proof.
  intros l ip T x t0 t1 f Hr Hc Ht HT Hs G1 G2. destruct (prop_run l ip T x t0 t1 Hc) as (p & r & El & Hp & Hb & E).
  eexists. split; [exact E|]. cbn [po_cov]. intros da dv. rewrite out_form.
  destruct (rigid_parts T HT) as [HR _]. set (C := tf_rot T) in *. rewrite m0.
  pose (J := fun s => e_q s = Q 1 0 0 0 /\ forall x1 x2 x3 x4, form s vzero x1 x2 x3 x4 = form s vzero x1 x2 vzero vzero).
  etransitivity; [refine (seg_all false ip (sb_bg x) (sb_ba x) l p r t0 t1 (fun s (y : vec3 * vec3) => form s vzero (fst y) (snd y) vzero vzero)
    (fun d y => (vadd (fst y) (vscale d (mapp (skew f) (snd y))), snd y))
    (fun dt y => dt * (ip_sigma_g ip ^ 2 * sq (fst y) + ip_sigma_a ip ^ 2 * sq (snd y))) J El Hr Hp Hb Ht _ _ _ _ _ (mapp (mtr C) da, mapp (mtr C) dv))|].
  - intros [[] b]. cbn [fst snd]. f_equal. mat_eq; ring.
  - intros a b [u v]. cbn [fst snd]. f_equal. mat_eq; ring.
  - split; [reflexivity|]. intros. rewrite !form_0. reflexivity.
  - intros [a b]. apply form_0.
  - intros p' n s Ad Hlt [Hq Hj]. cbv zeta. destruct (still_step ip l (sb_bg x) (sb_ba x) f t1 p' n s Hs Ad Hq) as (Hq' & M & St). split; [split; [exact Hq'|]|].
    + intros x1 x2 x3 x4. rewrite !St, G1, G2, Hj. symmetry. rewrite Hj. ring.
    + intros [a b]. cbn [fst snd]. rewrite St, Hj, sq0. ring.
  - apply seg_ext. intros dt rest. cbn [fst snd]. f_equal. f_equal; [|rewrite sq_rot by auto; reflexivity]. f_equal.
    rewrite tr_skew by auto. rewrite <- (sq_rot C (vadd da _)) by auto. f_equal. mat_eq; ring.
Qed.
(** A drift of the gyroscope bias turns the sensor for the rest of the window. *)
Theorem C82_cov_still_gyro_bias_partial : forall l ip T x t0 t1 f, rising l -> covers l t0 t1 -> (t0 < t1)%Z -> Rigid T ->
  still l (sb_bg x) (sb_ba x) f ->
  exists o, propagation (buffer l) ip T x t0 t1 = Ret o /\
  forall da dbg, quadratic (po_cov o) (vec15 vzero da vzero dbg vzero) =
    over_segments (fun dt rest => dt * (ip_sigma_g ip ^ 2 * sq da
      + ip_sigma_gw ip ^ 2 * sq (vsub dbg (vscale rest (mapp (mtr (tf_rot T)) da))))) t0 t1 l.
Proof.
  intros l ip T x t0 t1 f Hr Hc Ht HT Hs. destruct (prop_run l ip T x t0 t1 Hc) as (p & r & El & Hp & Hb & E).
  eexists. split; [exact E|]. cbn [po_cov]. intros da dbg. rewrite out_form.
  destruct (rigid_parts T HT) as [HR _]. set (C := tf_rot T) in *. rewrite !m0.
  pose (J := fun s => e_q s = Q 1 0 0 0).
  etransitivity; [refine (seg_all false ip (sb_bg x) (sb_ba x) l p r t0 t1 (fun s (y : vec3 * vec3) => form s vzero (fst y) vzero (snd y) vzero)
    (fun d y => (fst y, vadd (snd y) (vscale (- d) (fst y))))
    (fun dt y => dt * (ip_sigma_g ip ^ 2 * sq (fst y) + ip_sigma_gw ip ^ 2 * sq (snd y))) J El Hr Hp Hb Ht _ _ _ _ _ (mapp (mtr C) da, dbg))|].
  - intros [a []]. cbn [fst snd]. f_equal. mat_eq; ring.
  - intros a b [u v]. cbn [fst snd]. f_equal. mat_eq; ring.
  - reflexivity.
  - intros [a b]. apply form_0.
  - intros p' n s Ad Hlt Hq. cbv zeta. destruct (still_step ip l (sb_bg x) (sb_ba x) f t1 p' n s Hs Ad Hq) as (Hq' & M & St). split; [exact Hq'|].
    intros [a b]. cbn [fst snd]. rewrite St, !m0, !v0, sq0. f_equal; [|ring]. f_equal.
    + destruct a; unfold vzero; mat_eq; ring.
    + unfold vzero; mat_eq; ring.
    + unfold vzero; mat_eq; ring.
  - apply seg_ext. intros dt rest. cbn [fst snd]. f_equal. f_equal; [rewrite sq_rot by auto; reflexivity|]. f_equal. f_equal. mat_eq; ring.
Qed.
(** A drift of the accelerometer bias changes the velocity for the rest of the window. *)
Theorem C82_cov_still_accel_bias_partial : forall l ip T x t0 t1 f, rising l -> covers l t0 t1 -> (t0 < t1)%Z -> Rigid T ->
  still l (sb_bg x) (sb_ba x) f -> ip_sigma_g ip = 0 -> ip_sigma_gw ip = 0 ->
  exists o, propagation (buffer l) ip T x t0 t1 = Ret o /\
  forall dv dba, quadratic (po_cov o) (vec15 vzero vzero dv vzero dba) =
    over_segments (fun dt rest => dt * (ip_sigma_a ip ^ 2 * sq dv
      + ip_sigma_aw ip ^ 2 * sq (vsub dba (vscale rest (mapp (mtr (tf_rot T)) dv))))) t0 t1 l.
Proof.
  intros l ip T x t0 t1 f Hr Hc Ht HT Hs G1 G2. destruct (prop_run l ip T x t0 t1 Hc) as (p & r & El & Hp & Hb & E).
  eexists. split; [exact E|]. cbn [po_cov]. intros dv dba. rewrite out_form.
  destruct (rigid_parts T HT) as [HR _]. set (C := tf_rot T) in *. rewrite !m0.
  pose (J := fun s => e_q s = Q 1 0 0 0 /\ forall x1 x2 x3 x4, form s vzero x1 x2 x3 x4 = form s vzero vzero x2 vzero x4).
  etransitivity; [refine (seg_all false ip (sb_bg x) (sb_ba x) l p r t0 t1 (fun s (y : vec3 * vec3) => form s vzero vzero (fst y) vzero (snd y))
    (fun d y => (fst y, vadd (snd y) (vscale (- d) (fst y))))
    (fun dt y => dt * (ip_sigma_a ip ^ 2 * sq (fst y) + ip_sigma_aw ip ^ 2 * sq (snd y))) J El Hr Hp Hb Ht _ _ _ _ _ (mapp (mtr C) dv, dba))|].
  - intros [a []]. cbn [fst snd]. f_equal. mat_eq; ring.
  - intros a b [u v]. cbn [fst snd]. f_equal. mat_eq; ring.
  - split; [reflexivity|]. intros. rewrite !form_0. reflexivity.
  - intros [a b]. apply form_0.
  - intros p' n s Ad Hlt [Hq Hj]. cbv zeta. destruct (still_step ip l (sb_bg x) (sb_ba x) f t1 p' n s Hs Ad Hq) as (Hq' & M & St). split; [split; [exact Hq'|]|].
    + intros x1 x2 x3 x4. rewrite !St, G1, G2, Hj. symmetry. rewrite Hj. ring.
    + intros [a b]. cbn [fst snd]. rewrite St, Hj, sq0. ring.
  - apply seg_ext. intros dt rest. cbn [fst snd]. f_equal. f_equal; [rewrite sq_rot by auto; reflexivity|]. f_equal. f_equal. mat_eq; ring.
Qed.
(** ** Propagating in one go or in two *)
(** x' J for a 15 x 15 matrix *)
Definition pull_back (J : nat -> nat -> R) (x : nat -> R) : nat -> R := fun k => total 15 (fun i => J i k * x i).
Definition ramp3 : list sample := (0%Z, (V3 0 0 1, vzero)) :: (1000000000%Z, (V3 0 0 1, vzero)) :: (2000000000%Z, (V3 0 0 1, vzero)) :: nil.
Definition gyro_only : imu_params := ImuParams 0 1 0 0 0.
Lemma ramp3_rising : rising ramp3. Proof. cbn. repeat split; lia. Qed.
Lemma ramp3_covers t0 t1 : (0 <= t0)%Z -> (t1 <= 2000000000)%Z -> covers ramp3 t0 t1.
Proof. intros. eexists _, _. split; [reflexivity|]. split; [reflexivity|]. cbn. lia. Qed.
Lemma lloop_one redo ip bg ba t1 p n l s : (e_ts s < Z.min (fst n) t1)%Z ->
  fst (lloop redo ip bg ba t1 p (n :: l) s) =
  let s' := imu_step redo ip bg ba (secs (Z.min (fst n) t1 - e_ts s)) (read0 redo t1 gyr p n s) (read1 t1 gyr p n s)
    (read0 redo t1 acc p n s) (read1 t1 acc p n s) (Z.min (fst n) t1) s in
  if (t1 <=? fst n)%Z then s' else fst (lloop redo ip bg ba t1 n l s').
Proof.
  intros H. cbn [lloop]. destruct (body_go redo ip bg ba t1 p n s H) as (_ & _ & _ & _ & E). rewrite <- (body_step redo ip bg ba t1 p n s H).
  destruct (body redo ip bg ba t1 p n s) as [s' stop]. cbn [fst snd] in *. subst stop. destruct (_ <=? _)%Z; reflexivity.
Qed.
Lemma lloop_skip redo ip bg ba t1 p n l s : (Z.min (fst n) t1 <= e_ts s)%Z ->
  lloop redo ip bg ba t1 p (n :: l) s = lloop redo ip bg ba t1 n l s.
Proof. intros H. cbn [lloop]. rewrite body_skip by auto. reflexivity. Qed.
Lemma still_a ip l bg ba f t1 p n s : still l bg ba f -> adjacent l p n -> e_q s = Q 1 0 0 0 ->
  let dt := secs (Z.min (fst n) t1 - e_ts s) in
  let s' := imu_step false ip bg ba dt (read0 false t1 gyr p n s) (read1 t1 gyr p n s) (read0 false t1 acc p n s) (read1 t1 acc p n s) (Z.min (fst n) t1) s in
  e_a s' = vadd (e_a s) (vscale dt f) /\ forall x0 x1 x2, exists x3 x4,
  form s' x0 x1 x2 vzero vzero = form s x0
    (vadd x1 (vadd (mapp (skew (vadd (vscale dt (e_a s)) (vscale (1 / 2 * dt * dt) f))) x0) (mapp (skew (vscale dt f)) x2)))
    (vadd x2 (vscale dt x0)) x3 x4 + (1 / 2 * dt * dt * (dt * ip_sigma_a ip ^ 2) * sq x0 + dt * ip_sigma_g ip ^ 2 * sq x1 + dt * ip_sigma_a ip ^ 2 * sq x2).
Proof.
  intros Hs Ad Eq dt. destruct (adjacent_in _ _ _ Ad) as [I1 I2]. destruct (Hs p I1) as [G1 A1]. destruct (Hs n I2) as [G2 A2].
  destruct (read_const false t1 gyr p n s bg G1 G2) as [-> ->].
  destruct (read_const false t1 acc p n s (vadd ba f) A1 A2) as [-> ->].
  assert (W : vsub (vscale (1 / 2) (vadd bg bg)) bg = vzero) by (unfold vzero; mat_eq; field).
  assert (A : vsub (vscale (1 / 2) (vadd (vadd ba f) (vadd ba f))) ba = f) by (destruct f; mat_eq; field).
  assert (Q1 : qmul (Q 1 0 0 0) (Q 1 0 0 0) = Q 1 0 0 0) by (mat_eq; ring).
  assert (Sf : mapp (madd I3 I3) f = vscale 2 f) by (mat_eq; ring).
  split.
  - unfold imu_step. cbv zeta. cbn [e_a]. rewrite W, A, dq_0, Eq, Q1, to_rot_id, Sf. mat_eq; field.
  - intros x0 x1 x2. eexists _, _. rewrite form_step, W, A, dq_0, Eq, Q1, to_rot_id, Sf, sq0.
    replace (vscale (1 / 4 * dt * dt) (vscale 2 f)) with (vscale (1 / 2 * dt * dt) f) by (mat_eq; field).
    replace (vscale (1 / 2 * dt) (vscale 2 f)) with (vscale dt f) by (mat_eq; field).
    f_equal. ring.
Qed.
Lemma secs_1 : secs 1000000000 = 1. Proof. unfold secs. field. Qed.
(** one step from the start with gyroscope noise only *)
Lemma first_step bg ba t0 dt w0 w1 a0 a1 t1 x0 x1 x2 x3 x4 :
  form (imu_step false gyro_only bg ba dt w0 w1 a0 a1 t1 (pint0 t0)) x0 x1 x2 x3 x4 = dt * sq x1.
Proof. rewrite form_step, form_0. cbn [gyro_only ip_sigma_a ip_sigma_g ip_sigma_gw ip_sigma_aw]. ring. Qed.
Theorem C82_cov_chain_refuted : exists l ip T x o1 o2 o, rising l /\ covers l 0 2000000000 /\ Rigid T /\
  propagation (buffer l) ip T x 0 1000000000 = Ret o1 /\
  propagation (buffer l) ip (po_T o1) (po_sb o1) 1000000000 2000000000 = Ret o2 /\
  propagation (buffer l) ip T x 0 2000000000 = Ret o /\
  exists y, quadratic (po_cov o1) (pull_back (po_jac o2) y) + quadratic (po_cov o2) y = 1 / 4 /\ quadratic (po_cov o) y = 9 / 4.
Proof.
  set (T := I4). set (x := Sb vzero vzero vzero).
  assert (HT : Rigid T) by apply I4_rigid.
  assert (RT : tf_rot T = I3) by (unfold T; mat_eq; ring).
  assert (Hs : forall s, In s ramp3 -> snd (snd s) = sb_bg x /\ fst (snd s) = vadd (sb_ba x) (V3 0 0 1)).
  { intros s H. cbn in H. destruct H as [<-|[<-|[<-|[]]]]; cbn [fst snd x sb_bg sb_ba]; (split; [reflexivity|unfold vzero; mat_eq; ring]). }
  destruct (C82_straight_motion ramp3 gyro_only T x 0 1000000000 (V3 0 0 1) ramp3_rising (ramp3_covers 0 1000000000 ltac:(lia) ltac:(lia)) ltac:(lia) HT Hs) as (o1 & E1 & P1 & S1).
  destruct (prop_run ramp3 gyro_only T x 0 1000000000 (ramp3_covers 0 1000000000 ltac:(lia) ltac:(lia))) as (p1 & r1 & L1 & _ & _ & F1).
  destruct (prop_run ramp3 gyro_only T x 0 2000000000 (ramp3_covers 0 2000000000 ltac:(lia) ltac:(lia))) as (p3 & r3 & L3 & _ & _ & F3).
  destruct (prop_run ramp3 gyro_only (po_T o1) (po_sb o1) 1000000000 2000000000 (ramp3_covers 1000000000 2000000000 ltac:(lia) ltac:(lia))) as (p2 & r2 & L2 & _ & _ & F2).
  assert (Hs' : forall s, In s ramp3 -> snd (snd s) = sb_bg (po_sb o1) /\ fst (snd s) = vadd (sb_ba (po_sb o1)) (V3 0 0 1)) by (rewrite S1; exact Hs).
  destruct (run_straight false gyro_only (sb_bg (po_sb o1)) (sb_ba (po_sb o1)) ramp3 p2 r2 1000000000 2000000000 (V3 0 0 1) L2 ramp3_rising) as (_ & _ & Eaa);
    [injection L2 as <- <-; cbn; lia|injection L2 as <- <-; cbn; lia|lia|exact Hs'|].
  assert (R1 : tf_rot (po_T o1) = I3) by (rewrite P1, RT; mat_eq; ring).
  exists ramp3, gyro_only, T, x, o1. eexists. eexists.
  split; [exact ramp3_rising|]. split; [apply ramp3_covers; lia|]. split; [exact HT|]. split; [exact E1|]. split; [exact F2|]. split; [exact F3|].
  assert (Po1 : po_cov o1 = out_covariance T (fst (lloop false gyro_only (sb_bg x) (sb_ba x) 1000000000 p1 r1 (pint0 0)))).
  { rewrite F1 in E1. apply (f_equal (fun z => match z with Ret v => po_cov v | _ => po_cov o1 end)) in E1. cbv beta iota in E1. rewrite <- E1. reflexivity. }
  exists (vec15 (V3 1 0 0) vzero vzero vzero vzero). rewrite Po1. cbn [po_cov po_jac]. clear Po1 E1 F1 F2 F3.
  injection L1 as <- <-. injection L2 as <- <-. injection L3 as <- <-.
  assert (mI : mtr I3 = I3) by (mat_eq; reflexivity).
  split.
  - match goal with |- ?a + ?b = _ => assert (Pb : a = 1 / 4); [|assert (Pc : b = 0)] end.
    { etransitivity; [apply quad_ext; intros k Hk; unfold pull_back, out_jacobian; cbv zeta; apply adjoint; exact Hk|].
      rewrite out_form, RT, mI, Eaa, R1. rewrite lloop_one by (cbn; lia). cbv zeta.
      change (1000000000 <=? fst (1000000000%Z, (V3 0 0 1, vzero)))%Z with true. cbv iota. rewrite first_step.
      change (secs (Z.min (fst (1000000000%Z, (V3 0 0 1, vzero))) 1000000000 - e_ts (pint0 0))) with (secs 1000000000).
      change (secs (2000000000 - 1000000000)) with (secs 1000000000). rewrite secs_1.
      unfold sq, vdot, vzero. cbv [vadd vscale mapp mtr mscale skew I3 vx vy vz m00 m01 m02 m10 m11 m12 m20 m21 m22]. field. }
    { rewrite out_form, R1, mI. rewrite lloop_skip by (cbn; lia).
      rewrite lloop_one by (cbn; lia). cbv zeta.
      change (2000000000 <=? fst (2000000000%Z, (V3 0 0 1, vzero)))%Z with true. cbv iota.
      rewrite first_step. rewrite !m0. rewrite sq0. ring. }
    rewrite Pb, Pc. ring.
  - rewrite out_form, RT, mI. rewrite lloop_one by (cbn; lia). cbv zeta.
    change (2000000000 <=? fst (1000000000%Z, (V3 0 0 1, vzero)))%Z with false. cbv iota.
    set (a0 := (0%Z, (V3 0 0 1, vzero))). set (a1 := (1000000000%Z, (V3 0 0 1, vzero))). set (a2 := (2000000000%Z, (V3 0 0 1, vzero))).
    assert (Ad1 : adjacent ramp3 a0 a1) by (left; auto).
    assert (Ad2 : adjacent ramp3 a1 a2) by (right; left; auto).
    destruct (still_a gyro_only ramp3 (sb_bg x) (sb_ba x) (V3 0 0 1) 2000000000 a0 a1 (pint0 0) Hs Ad1 eq_refl) as [Ea1 _].
    destruct (still_step gyro_only ramp3 (sb_bg x) (sb_ba x) (V3 0 0 1) 2000000000 a0 a1 (pint0 0) Hs Ad1 eq_refl) as [Eq1 _].
    cbv zeta in Ea1, Eq1. set (s1 := imu_step _ _ _ _ _ _ _ _ _ _ _) in *.
    assert (T1 : e_ts s1 = 1000000000%Z) by reflexivity.
    rewrite lloop_one by (rewrite T1; cbn; lia). cbv zeta.
    change (2000000000 <=? fst a2)%Z with true. cbv iota.
    destruct (still_a gyro_only ramp3 (sb_bg x) (sb_ba x) (V3 0 0 1) 2000000000 a1 a2 s1 Hs Ad2 Eq1) as [_ St].
    rewrite !m0. destruct (St (mapp I3 (V3 1 0 0)) vzero vzero) as (x3 & x4 & ->). rewrite Ea1, T1. unfold s1. rewrite first_step.
    change (secs (Z.min (fst a1) 2000000000 - e_ts (pint0 0))) with (secs 1000000000).
    change (secs (Z.min (fst a2) 2000000000 - 1000000000)) with (secs 1000000000). rewrite secs_1.
    cbn [gyro_only ip_sigma_a ip_sigma_g ip_sigma_gw ip_sigma_aw]. rewrite sq0. cbn [pint0 e_a].
    unfold sq, vdot, vzero. cbv [vadd vscale mapp mtr mscale skew I3 vx vy vz m00 m01 m02 m10 m11 m12 m20 m21 m22]. field.
Qed.
(** the hypotheses of the theorems above are met: three samples, a constant specific force, biases and a window cutting two intervals *)
Example C82_cov_case : exists o, propagation (buffer ramp3) (ImuParams 1 2 3 4 0) I4 (Sb vzero vzero vzero) 500000000 1500000000 = Ret o /\
  forall dbg dba, quadratic (po_cov o) (vec15 vzero vzero vzero dbg dba) = 1 * (ip_sigma_gw (ImuParams 1 2 3 4 0) ^ 2 * sq dbg + ip_sigma_aw (ImuParams 1 2 3 4 0) ^ 2 * sq dba).
Proof.
  destruct (C82_cov_bias ramp3 (ImuParams 1 2 3 4 0) I4 (Sb vzero vzero vzero) 500000000 1500000000 ramp3_rising
    (ramp3_covers 500000000 1500000000 ltac:(lia) ltac:(lia)) ltac:(lia)) as (o & E & P).
  exists o. split; [exact E|]. intros. rewrite P. unfold time_of. f_equal. change (1500000000 - 500000000)%Z with 1000000000%Z. field.
Qed.
Example C82_still_case : still ramp3 vzero vzero (V3 0 0 1).
Proof. intros s H. cbn in H. destruct H as [<-|[<-|[<-|[]]]]; cbn [fst snd]; (split; [reflexivity|unfold vzero; mat_eq; ring]). Qed.
Print Assumptions C82_cov_accel_noise. Print Assumptions C82_cov_chain_refuted.
