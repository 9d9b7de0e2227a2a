From Coq Require Import Reals Lra Lia Psatz.
From Verif Require Import Base GeomModel GeomSpec GeomProofs ImuModel PreintModel PreintSpec PreintProofs CtrajProofs Prop_Interp Prop_Geom2.
From Coquelicot Require Import Coquelicot.
Local Open Scope R_scope.

Lemma secs_pos z : (0 < z)%Z -> 0 < secs z.
Proof. intros H. unfold secs. apply IZR_lt in H. apply Rdiv_lt_0_compat; lra. Qed.
Lemma secs_sub a b : secs (a - b) = time_of a - time_of b.
Proof. unfold secs, time_of. rewrite minus_IZR. field. Qed.
Lemma time_lt a b : (a < b)%Z -> time_of a < time_of b.
Proof. intros H. pose proof (secs_pos (b - a) ltac:(lia)). rewrite secs_sub in H0. lra. Qed.
Lemma time_le a b : (a <= b)%Z -> time_of a <= time_of b.
Proof. intros H. unfold time_of. apply IZR_le in H. unfold Rdiv. apply Rmult_le_compat_r; [|exact H]. left. apply Rinv_0_lt_compat. lra. Qed.
Lemma mix_same r v : mix r v v = v.
Proof. destruct v. unfold mix. mat_eq; ring. Qed.
Lemma mix_1 v w : mix 1 v w = v.
Proof. destruct v. unfold mix. mat_eq; ring. Qed.

(** the readings used by a step *)
Section Step.
Context (redo : bool) (ip : imu_params) (bg ba : vec3) (t_end : Z).
Definition read1 (f : sample -> vec3) (p n : sample) (s : pint) : vec3 :=
  if (t_end <? fst n)%Z then mix (1 - secs (Z.min (fst n) t_end - e_ts s) / secs (fst n - fst p)) (f p) (f n) else f n.
Definition read0 (f : sample -> vec3) (p n : sample) (s : pint) : vec3 :=
  if e_started s then f p
  else mix (secs (Z.min (fst n) t_end - e_ts s) / secs (Z.min (fst n) t_end - (if redo then fst p else e_ts s))) (f p) (read1 f p n s).
Definition gyr (s : sample) : vec3 := snd (snd s).
Definition acc (s : sample) : vec3 := fst (snd s).
Lemma body_step p n s : (e_ts s < Z.min (fst n) t_end)%Z ->
  fst (body redo ip bg ba t_end p n s) =
  imu_step redo ip bg ba (secs (Z.min (fst n) t_end - e_ts s)) (read0 gyr p n s) (read1 gyr p n s)
    (read0 acc p n s) (read1 acc p n s) (Z.min (fst n) t_end) s.
Proof.
  intros H. unfold body, imu_body, read0, read1, gyr, acc.
  assert (fst n - e_ts s <? 0 = false)%Z as -> by (apply Z.ltb_ge; lia).
  destruct (t_end <? fst n)%Z eqn:B; [apply Z.ltb_lt in B|apply Z.ltb_ge in B].
  - rewrite Z.min_r in * by lia. assert (t_end - e_ts s <=? 0 = false)%Z as -> by (apply Z.leb_gt; lia). reflexivity.
  - rewrite Z.min_l in * by lia. assert (fst n - e_ts s <=? 0 = false)%Z as -> by (apply Z.leb_gt; lia). reflexivity.
Qed.
Lemma read_const f p n s c : f p = c -> f n = c -> read0 f p n s = c /\ read1 f p n s = c.
Proof.
  intros A B. assert (E : read1 f p n s = c) by (unfold read1; rewrite A, B, mix_same; destruct (_ <? _)%Z; reflexivity).
  split; [|exact E]. unfold read0. rewrite E, A, mix_same. destruct (e_started s); reflexivity.
Qed.
Lemma mix_line r b u x y : mix r (vadd b (vscale x u)) (vadd b (vscale y u)) = vadd b (vscale (r * x + (1 - r) * y) u).
Proof. destruct b, u. unfold mix. mat_eq; ring. Qed.
(** a quantity that is affine in time is read exactly at both ends of the step *)
Lemma read_affine (f : sample -> vec3) p n s b u (w : R -> R) t0 :
  (fst p < fst n)%Z -> f p = vadd b (vscale (w (time_of (fst p))) u) -> f n = vadd b (vscale (w (time_of (fst n))) u) ->
  affine_on w (time_of (fst p)) (time_of (fst n)) ->
  (e_started s = false -> e_ts s = t0 /\ (fst p <= t0)%Z) -> (e_started s = true -> e_ts s = fst p /\ (t0 < fst p)%Z) ->
  (e_ts s < Z.min (fst n) t_end)%Z ->
  (fst p = t0 \/ (redo = true /\ (fst n <= t_end)%Z) \/ (forall a b, w a = w b) \/ (t0 < fst p)%Z) ->
  read0 f p n s = vadd b (vscale (w (time_of (e_ts s))) u) /\
  read1 f p n s = vadd b (vscale (w (time_of (Z.min (fst n) t_end))) u).
Proof.
  intros Hpn Hp Hn Ha H0 H1 Hlt Hc.
  assert (Ge : (fst p <= e_ts s)%Z) by (destruct (e_started s); [destruct (H1 eq_refl)|destruct (H0 eq_refl)]; lia).
  pose proof (time_lt _ _ Hpn) as D.
  assert (Cw : (forall a b, w a = w b) \/ e_ts s = fst p \/ (redo = true /\ (fst n <= t_end)%Z)).
  { destruct Hc as [Hc|[Hc|[Hc|Hc]]]; auto; destruct (e_started s) eqn:E;
      try (destruct (H1 eq_refl)); try (destruct (H0 eq_refl)); try (right; left; lia). }
  destruct Cw as [Cw|Cw].
  { pose proof (read_const f p n s (vadd b (vscale (w 0) u))) as X. rewrite Hp, Hn, (Cw (time_of (fst p)) 0), (Cw (time_of (fst n)) 0) in X.
    rewrite (Cw (time_of (e_ts s)) 0), (Cw (time_of (Z.min _ _)) 0). apply X; reflexivity. }
  assert (E1 : read1 f p n s = vadd b (vscale (w (time_of (Z.min (fst n) t_end))) u)).
  { unfold read1. destruct (t_end <? fst n)%Z eqn:B; [apply Z.ltb_lt in B|apply Z.ltb_ge in B].
    - rewrite Z.min_r in * by lia. destruct Cw as [Cw|[_ Cw]]; [|lia].
      rewrite Hp, Hn, mix_line, Cw. do 2 f_equal. rewrite (Ha (time_of t_end)).
      + rewrite !secs_sub. field. lra.
      + split; apply time_le; lia.
    - rewrite Z.min_l by lia. exact Hn. }
  split; [|exact E1]. unfold read0. rewrite E1. destruct (e_started s) eqn:E.
  - destruct (H1 eq_refl) as [-> _]. exact Hp.
  - destruct Cw as [Cw|[Cr Cw]].
    + rewrite <- Cw. replace (if redo then e_ts s else e_ts s) with (e_ts s) by (destruct redo; reflexivity).
      assert (X : secs (Z.min (fst n) t_end - e_ts s) / secs (Z.min (fst n) t_end - e_ts s) = 1).
      { pose proof (secs_pos (Z.min (fst n) t_end - e_ts s) ltac:(lia)). field. lra. }
      rewrite X, mix_1. rewrite Hp, Cw. reflexivity.
    + subst redo. rewrite Z.min_l in * by lia. rewrite Hp, mix_line. do 2 f_equal.
      rewrite (Ha (time_of (e_ts s))) by (split; apply time_le; lia).
      rewrite !secs_sub. field. lra.
Qed.
End Step.

(** the increment about a fixed axis *)
Lemma imu_dq_delta w dt : 0 <= dt -> imu_dq w dt = quat_delta (vscale dt w).
Proof.
  intros H. unfold imu_dq, quat_delta. rewrite vnorm_scale, Rabs_pos_eq by exact H.
  replace (vnorm w * (1 / 2) * dt) with (1 / 2 * (dt * vnorm w)) by ring.
  set (h := 1 / 2 * (dt * vnorm w)). clearbody h. f_equal; unfold vscale; cbn [vx vy vz]; ring.
Qed.
Lemma quat_delta_axis u th : vdot u u = 1 -> th = 0 \/ 2 / 10 ^ 6 < Rabs th -> quat_delta (vscale th u) = axq u (th / 2).
Proof.
  intros U H. unfold quat_delta. rewrite vnorm_scale.
  assert (N : vnorm u = 1) by (unfold vnorm; rewrite U; apply sqrt_1). rewrite N, Rmult_1_r.
  assert (S : sinc (1 / 2 * Rabs th) * (1 / 2 * Rabs th) = sin (1 / 2 * Rabs th)).
  { apply sinc_half. pose proof (Rabs_pos th); lra. destruct H as [->|H]; [left; rewrite Rabs_R0; ring|right]. lra. }
  unfold axq. destruct (Rle_lt_dec 0 th) as [P|P].
  - rewrite Rabs_pos_eq in * by exact P. replace (th / 2) with (1 / 2 * th) by field. rewrite <- S.
    f_equal; unfold vscale; cbn [vx vy vz]; field.
  - rewrite Rabs_left in * by exact P. replace (th / 2) with (- (1 / 2 * - th)) by field.
    rewrite cos_neg, sin_neg, <- S. f_equal; unfold vscale; cbn [vx vy vz]; field.
Qed.
Lemma qmul_axq u a b : vdot u u = 1 -> qmul (axq u a) (axq u b) = axq u (a + b).
Proof.
  intros U. unfold axq. rewrite cos_plus, sin_plus. unfold vdot in U. apply Q_ext; unfold qmul; cbn [qw qx qy qz]; try ring.
  transitivity (cos a * cos b - sin a * sin b * (vx u * vx u + vy u * vy u + vz u * vz u)); [ring|rewrite U; ring].
Qed.
Lemma affine_int w a b x y : a < b -> affine_on w a b -> a <= x -> x <= y -> y <= b ->
  is_RInt w x y ((y - x) * (w x + w y) / 2).
Proof.
  intros D H Hx Hxy Hy.
  set (k := (w b - w a) / (b - a)).
  apply (is_RInt_ext (fun s => w a + (s - a) * k)).
  - intros s. rewrite Rmin_left, Rmax_right by lra. intros Hs. rewrite (H s) by lra. unfold k. match goal with |- @eq _ ?l ?r => change (@eq R l r) end. field. lra.
  - replace ((y - x) * (w x + w y) / 2) with
      (minus ((fun s => w a * s + (s - a) ^ 2 * k / 2) y) ((fun s => w a * s + (s - a) ^ 2 * k / 2) x)).
    + apply (is_RInt_derive (fun s => w a * s + (s - a) ^ 2 * k / 2) (fun s => w a + (s - a) * k)).
      * intros s _. auto_derive; auto. field.
      * intros s _. apply (ex_derive_continuous (fun s : R => w a + (s - a) * k)). auto_derive; auto.
    + rewrite (H x), (H y) by lra. unfold k. unfold minus, plus, opp; cbn. field. lra.
Qed.
Lemma adjacent_split l p n : adjacent l p n -> rising l -> (fst p < fst n)%Z /\ forall s, In s l -> (fst s <= fst p \/ fst n <= fst s)%Z.
Proof.
  intros A. induction A as [p n r|x l p n A IH]; intros Hr.
  - destruct Hr as [H1 H2]. split; [assumption|].
    assert (G : forall r n, rising (n :: r) -> forall s, In s (n :: r) -> (fst n <= fst s)%Z).
    { clear. induction r as [|m r IH]; intros n Hr s [->|Hs]; try lia; try easy.
      destruct Hr as [H1 H2]. specialize (IH m H2 s Hs). lia. }
    intros s [->|Hs]; [lia|]. right. apply (G r n H2 s Hs).
  - assert (Hr' : rising l) by (destruct l; [exact I|destruct Hr; assumption]).
    destruct (IH Hr') as [H1 H2]. split; [assumption|]. intros s [->|Hs]; [|auto].
    left. clear IH H2 H1. revert s Hr Hr'. induction A as [p n r|y l p n A IH]; intros s Hr Hr'.
    + destruct Hr. lia.
    + destruct Hr as [H1 H2]. specialize (IH y H2). assert (rising l) by (destruct l; [exact I|destruct H2; assumption]).
      specialize (IH H). lia.
Qed.
Lemma adjacent_in l p n : adjacent l p n -> In p l /\ In n l.
Proof. induction 1; cbn; tauto. Qed.
Lemma adj_self l : forall p n : sample, adjacent l p n -> adjacent l p n. Proof. auto. Qed.
