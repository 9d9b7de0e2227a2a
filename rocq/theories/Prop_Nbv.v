(** * C57, C58: next best view *)
From Verif Require Import Base AprilGridModel AprilGridSpec AprilGridProofs AprilGridProofs2 AprilGridProofs3 AprilGridProofs4
  GeomModel GeomSpec GeomProofs PlanarModel StatsModel Prop_Planar Prop_Stats Prop_Geom NbvModel.
From Verif Require CameraModel.
From Coq Require Import Reals Lra.
Local Open Scope Z_scope.

(** ** C57 *)
(** Euclidean distance of two pixels *)
Definition pixel_distance (a b : kp2) : R := sqrt ((fst a - fst b) ^ 2 + (snd a - snd b) ^ 2).
(** the corners seen in both views with their pixel distance *)
Definition shared_distances (rows cols : Z) (cur des : content) : list R :=
  map (fun x => pixel_distance (snd (fst x)) (snd x)) (spec_common rows cols cur des).
Lemma kp_dist_eq a b : kp_dist a b = pixel_distance b a.
Proof. unfold kp_dist, pixel_distance. f_equal. ring. Qed.
Definition average (l : list R) : R := (fold_right Rplus 0 l / INR (length l))%R.

Lemma nbv_errors_spec rows cols size sp nbv des cur : 0 <= rows -> 0 <= cols ->
  Rep rows cols size sp nbv des ->
  forall l, (forall tc, In tc l -> corner_in rows cols (fst tc) (snd tc)) ->
  let ms := flat_map (fun tc => match cur (fst tc) (snd tc) with
                      | Some kp => [(fst tc, snd tc, kp)] | None => [] end) l in
  nbv_errors nbv (map (fun x => fst (fst x)) ms) (map (fun x => snd (fst x)) ms) (map snd ms) =
  Ret (map (fun x => kp_dist (snd x) (snd (fst x)))
     (flat_map (fun tc => match cur (fst tc) (snd tc), des (fst tc) (snd tc) with
                      | Some ki, Some kj => [(fst tc, snd tc, ki, kj)] | _, _ => [] end) l)).
Proof.
  intros Hr Hc HR. induction l as [|[t c] l IH]; intros Hin ms; [reflexivity|]. unfold ms; clear ms.
  specialize (IH ltac:(intros; apply Hin; now right)). cbv zeta in IH.
  pose proof (Hin (t, c) ltac:(now left)) as Htc. cbn [fst snd] in Htc.
  cbn [flat_map fst snd]. destruct (cur t c) as [k|]; [|exact IH].
  cbn [app map nbv_errors fst snd].
  rewrite (has_Rep _ _ _ _ _ _ _ _ HR Htc), (keypoint_Rep _ _ _ _ _ _ _ _ HR Htc). cbn [obind]. unfold present; cbn [fst snd].
  destruct (des t c) as [kd|]; cbn [negb]; [|exact IH].
  rewrite IH. reflexivity.
Qed.
Lemma sum_fold l : fold_left Rplus l 0%R = fold_right Rplus 0%R l.
Proof. rewrite fold_symmetric; auto with real. Qed.

(** What the call returns for any two grids with any history: false without touching the errors
    when the current grid is not marked as detected; otherwise the errors are the distances of the
    shared corners, and the result is true when there are none. *)
Theorem C57_reached_partial : forall rows cols size sp ts0 ts1 ops0 ops1 threshold errs,
  0 <= rows -> 0 <= cols -> Forall (op_in rows cols) ops0 -> Forall (op_in rows cols) ops1 ->
  exists nbv cur,
    run (new_grid ts0 rows cols size sp) ops0 = (Done, nbv) /\
    run (new_grid ts1 rows cols size sp) ops1 = (Done, cur) /\
    let d := shared_distances rows cols (latest (rev ops1)) (latest (rev ops0)) in
    nbv_reached nbv cur threshold errs =
      if g_detected cur
      then Ret (match d with [] => true | _ => if Rle_dec (average d) threshold then true else false end, d)
      else Ret (false, errs).
Proof.
  intros rows cols size sp ts0 ts1 ops0 ops1 threshold errs Hr Hc H0 H1.
  destruct (run_books rows cols size sp Hr Hc ops0 _ nothing (Rep_new rows cols size sp ts0) H0) as (nbv & E0 & R0 & _).
  destruct (run_books rows cols size sp Hr Hc ops1 _ nothing (Rep_new rows cols size sp ts1) H1) as (cur & E1 & R1 & _).
  exists nbv, cur. split; auto. split; auto. cbv zeta. unfold nbv_reached.
  destruct (g_detected cur) eqn:Ed; [|reflexivity]. cbn [negb].
  rewrite (get_measurements_Rep rows cols size sp cur _ meas_nil R1 Ed). cbn [obind m_tags m_corners m_kps meas_nil app].
  unfold meas_of. cbn [m_tags m_corners m_kps]. unfold spec_meas.
  rewrite (nbv_errors_spec rows cols size sp nbv _ _ Hr Hc R0) by (intros [t c] H; now apply all_corners_In).
  cbn [obind]. unfold shared_distances, spec_common.
  rewrite (map_ext _ _ (fun x : Z * Z * kp2 * kp2 => kp_dist_eq (snd x) (snd (fst x)))).
  assert (E : flat_map (fun tc : Z * Z => match spec_run ops1 nothing (fst tc) (snd tc), spec_run ops0 nothing (fst tc) (snd tc) with
                 | Some ki, Some kj => [(fst tc, snd tc, ki, kj)] | _, _ => [] end) (all_corners rows cols) =
              flat_map (fun tc : Z * Z => match latest (rev ops1) (fst tc) (snd tc), latest (rev ops0) (fst tc) (snd tc) with
                 | Some ki, Some kj => [(fst tc, snd tc, ki, kj)] | _, _ => [] end) (all_corners rows cols)).
  { apply flat_map_ext. intros [t c]. cbn [fst snd]. now rewrite !spec_run_latest. }
  rewrite E. set (l := map _ _). unfold mean, fdiv. destruct l as [|x l].
  - simpl. destruct Req_EM_T; [reflexivity|]. exfalso. auto.
  - destruct Req_EM_T as [Z|_].
    { exfalso. change 0%R with (INR 0) in Z. apply INR_eq in Z. simpl in Z. lia. }
    unfold average. rewrite sum_fold. set (a := (_ / _)%R).
    destruct (Rlt_dec threshold a), (Rle_dec a threshold); try lra; reflexivity.
Qed.

(** As stated false: a current view that shares no corner with the target view counts as aligned,
    whatever the threshold. *)
Theorem C57_no_overlap_refuted : forall threshold, exists nbv cur,
  run (new_grid 0 1 1 1 1) [OpAdd 0 0 (1, 2)%R] = (Done, nbv) /\
  run (new_grid 0 1 1 1 1) [OpAdd 0 1 (100, 200)%R] = (Done, cur) /\
  nbv_reached nbv cur threshold [] = Ret (true, []).
Proof.
  intros threshold.
  destruct (C57_reached_partial 1 1 1 1 0 0 [OpAdd 0 0 (1, 2)%R] [OpAdd 0 1 (100, 200)%R] threshold [])
    as (nbv & cur & E0 & E1 & E2); [lia|lia|repeat constructor; lia|repeat constructor; lia|].
  exists nbv, cur. split; auto. split; auto. rewrite E2.
  assert (Ed : g_detected cur = true) by (cbn in E1; injection E1 as <-; reflexivity).
  rewrite Ed. reflexivity.
Qed.
(** non-vacuity: a shared corner 5 pixels away *)
Example C57_ex : shared_distances 1 1 (latest (rev [OpAdd 0 0 (3, 4)%R])) (latest (rev [OpAdd 0 0 (0, 0)%R])) = [5%R].
Proof.
  transitivity [pixel_distance (3, 4)%R (0, 0)%R]; [reflexivity|]. unfold pixel_distance. cbn [fst snd].
  f_equal. replace ((3 - 0) ^ 2 + (4 - 0) ^ 2)%R with (5 * 5)%R by ring. apply sqrt_square. lra.
Qed.
Print Assumptions C57_reached_partial.
Print Assumptions C57_no_overlap_refuted.

(** ** C58 *)
Definition tg_ok (tg : target) : Prop := 0 <= tg_rows tg /\ 0 <= tg_cols tg.
(** the position of a corner of the target in the frame of the target *)
Definition corner_of (tg : target) (t c : Z) : vec3 := pt_of (corner_point (tg_cols tg) (tg_size tg) (tg_spacing tg) t c).
(** a camera at pose [T_FC] sees point [p] of the target at pixel [z]: the point [r] of the camera
    frame that the pose maps to [p] projects to [z] *)
Definition sees (project : vec3 -> option vec2) (T_FC : mat4) (p : vec3) (z : option vec2) : Prop :=
  exists r, tf_point T_FC r = p /\ project r = z.

Lemma inverse_unique T T' : Rigid T -> Inverse4 T T' -> T' = tf_inv T.
Proof.
  intros HR [H1 H2]. destruct (C46_tf_inv_two_sided T HR) as [[H3 H4] _].
  rewrite <- (mmul4_I_l T'), <- H4, mmul4_assoc, H1. now rewrite mmul4_I_r.
Qed.
Lemma tf_point_inv T T' : Rigid T -> Inverse4 T T' -> forall p r, tf_point T r = p <-> r = tf_point T' p.
Proof.
  intros HR HI p r. rewrite (inverse_unique T T' HR HI).
  destruct (C46_rigid_group T T HR HR) as (_ & _ & Hii & _).
  destruct (C46_tf_inv_two_sided T HR) as [_ HR'].
  assert (A : forall T, Rigid T -> forall p, tf_point (tf_inv T) (tf_point T p) = p).
  { intros T0 (C & t & HC & ->) p0. apply (C46_tf_point C t C t p0 p0 HC). }
  split; [intros <-; symmetry; auto|]. intros ->. rewrite <- Hii at 1. now apply A.
Qed.

Lemma corner_loop_all rows cols : corner_loop (rows * cols) = all_corners rows cols.
Proof. reflexivity. Qed.

Section Cam.
Context (project : vec3 -> option vec2).
Let seen (tg : target) (T_CF : mat4) (t c : Z) : option vec2 := project (tf_point T_CF (corner_of tg t c)).

Lemma check_corners_spec tg g m T_CF : tg_ok tg ->
  Rep (tg_rows tg) (tg_cols tg) (tg_size tg) (tg_spacing tg) g m ->
  forall l, (forall tc, In tc l -> corner_in (tg_rows tg) (tg_cols tg) (fst tc) (snd tc)) ->
  exists b, check_corners project g T_CF l = Ret b /\
    (b = true <-> forall tc, In tc l -> seen tg T_CF (fst tc) (snd tc) <> None).
Proof.
  intros [Hr Hc] HR. induction l as [|[t c] l IH]; intros Hin.
  - exists true. split; [reflexivity|]. split; auto.
  - destruct IH as (b & E & Hb); [intros; apply Hin; now right|].
    pose proof (Hin (t, c) ltac:(now left)) as Htc. cbn [fst snd] in Htc.
    cbn [check_corners]. rewrite (object_point_in _ _ _ _ Hc _ _ _ _ HR Htc). cbn [obind].
    fold (corner_of tg t c). fold (seen tg T_CF t c).
    destruct (seen tg T_CF t c) as [z|] eqn:Es.
    + exists b. split; auto. rewrite Hb. split.
      * intros H tc [ <- | H']; [cbn [fst snd]; congruence|auto].
      * intros H tc H'. apply H. now right.
    + exists false. split; auto. split; [discriminate|]. intros H. exfalso.
      apply (H (t, c) ltac:(now left)). exact Es.
Qed.

(** check_fully_observable is true exactly when every corner projects into the image *)
Theorem C58_fully_observable : forall tg T_FC T_CF, tg_ok tg -> Rigid T_FC -> Inverse4 T_FC T_CF ->
  exists b, check_fully_observable project tg T_CF = Ret b /\
    (b = true <-> forall t c, corner_in (tg_rows tg) (tg_cols tg) t c ->
                              exists z, sees project T_FC (corner_of tg t c) (Some z)).
Proof.
  intros tg T_FC T_CF Hok HR HI. unfold check_fully_observable. rewrite corner_loop_all.
  destruct (check_corners_spec tg _ nothing T_CF Hok (Rep_new _ _ _ _ 0) (all_corners (tg_rows tg) (tg_cols tg))) as (b & E & Hb).
  { intros [t c] H. now apply all_corners_In. }
  exists b. split; auto. rewrite Hb. split.
  - intros H t c Htc. specialize (H (t, c) ltac:(now apply all_corners_In)). cbn [fst snd] in H. unfold seen in H.
    destruct (project (tf_point T_CF (corner_of tg t c))) as [z|] eqn:Ez; [|congruence].
    exists z, (tf_point T_CF (corner_of tg t c)). split; auto. now apply (tf_point_inv T_FC T_CF).
  - intros H [t c] Hin. apply all_corners_In in Hin. destruct (H t c Hin) as (z & r & E1 & E2).
    apply (tf_point_inv T_FC T_CF) in E1; auto. unfold seen. cbn [fst snd]. rewrite <- E1, E2. discriminate.
Qed.

Lemma add_corners_spec tg T_CF : tg_ok tg ->
  forall l, NoDup l -> (forall tc, In tc l -> corner_in (tg_rows tg) (tg_cols tg) (fst tc) (snd tc)) ->
  forall g m, Rep (tg_rows tg) (tg_cols tg) (tg_size tg) (tg_spacing tg) g m ->
  exists g' m', add_corners project g T_CF l = (Done, g') /\
    Rep (tg_rows tg) (tg_cols tg) (tg_size tg) (tg_spacing tg) g' m' /\ g_ts g' = g_ts g /\
    (forall t c, In (t, c) l -> m' t c = match seen tg T_CF t c with Some z => Some (kp_of z) | None => m t c end) /\
    (forall t c, ~ In (t, c) l -> m' t c = m t c).
Proof.
  intros [Hr Hc]. induction l as [|[t c] l IH]; intros Hnd Hin g m HR.
  - exists g, m. repeat (split; auto). intros t c [].
  - inversion_clear Hnd as [|? ? Hni Hnd'].
    pose proof (Hin (t, c) ltac:(now left)) as Htc. cbn [fst snd] in Htc.
    assert (Hin' : forall tc, In tc l -> corner_in (tg_rows tg) (tg_cols tg) (fst tc) (snd tc)) by (intros; apply Hin; now right).
    cbn [add_corners]. rewrite (object_point_in _ _ _ _ Hc _ _ _ _ HR Htc).
    fold (corner_of tg t c). fold (seen tg T_CF t c). destruct (seen tg T_CF t c) as [z|] eqn:Es.
    + destruct (add_Rep _ _ _ _ Hc g m t c (kp_of z) HR Htc) as (g1 & E1 & R1 & _ & _ & T1). rewrite E1.
      destruct (IH Hnd' Hin' g1 _ R1) as (g' & m' & E & HR' & T' & A & B).
      exists g', m'. split; auto. split; auto. split; [congruence|]. split.
      * intros t' c' [X|X].
        -- injection X as <- <-. rewrite Es, (B t c Hni). cbn [spec_step]. now rewrite !Z.eqb_refl.
        -- rewrite (A t' c' X). destruct (seen tg T_CF t' c'); auto. cbn [spec_step].
           destruct (Z.eqb_spec t' t), (Z.eqb_spec c' c); cbn [andb]; auto. subst. contradiction.
      * intros t' c' X. rewrite B by (intros Y; apply X; now right). cbn [spec_step].
        destruct (Z.eqb_spec t' t), (Z.eqb_spec c' c); cbn [andb]; auto. subst. exfalso. apply X. now left.
    + destruct (IH Hnd' Hin' g _ HR) as (g' & m' & E & HR' & T' & A & B).
      exists g', m'. split; auto. split; auto. split; auto. split.
      * intros t' c' [X|X]; [|auto]. injection X as <- <-. now rewrite Es, (B t c Hni).
      * intros t' c' X. apply B. intros Y. apply X. now right.
Qed.
Lemma all_corners_NoDup rows cols : NoDup (all_corners rows cols).
Proof.
  rewrite all_corners_rows. apply FinFun.Injective_map_NoDup; [|apply zrange_NoDup].
  intros i j E. injection E. intros. rewrite (Z.div_mod i 4), (Z.div_mod j 4) by lia. lia.
Qed.

(** The target grid of a view contains exactly the corners that project into the image, at their
    pixels. *)
Theorem C58_target_grid : forall tg ts T_FC T_CF, tg_ok tg -> Rigid T_FC -> Inverse4 T_FC T_CF ->
  exists g, nbv_target_grid project tg ts T_CF = (Done, g) /\ g_ts g = ts /\
    forall t c, corner_in (tg_rows tg) (tg_cols tg) t c ->
      (forall z, keypoint g t c = Ret z <-> exists px, sees project T_FC (corner_of tg t c) (Some px) /\ z = (v2x px, v2y px)) /\
      (has g t c = Ret false <-> sees project T_FC (corner_of tg t c) None).
Proof.
  intros tg ts T_FC T_CF Hok HR HI. unfold nbv_target_grid. rewrite corner_loop_all.
  destruct (add_corners_spec tg T_CF Hok (all_corners (tg_rows tg) (tg_cols tg)) (all_corners_NoDup _ _)
    ltac:(intros [t c] H; now apply all_corners_In) _ nothing (Rep_new _ _ (tg_size tg) (tg_spacing tg) ts))
    as (g & m & E & HRp & Hts & A & _).
  exists g. split; auto. split; auto. intros t c Htc.
  rewrite (has_Rep _ _ _ _ _ _ _ _ HRp Htc), (keypoint_Rep _ _ _ _ _ _ _ _ HRp Htc). unfold present. cbn [fst snd].
  rewrite (A t c ltac:(now apply all_corners_In)). unfold nothing, seen.
  set (r := tf_point T_CF (corner_of tg t c)).
  assert (Hr : forall o, sees project T_FC (corner_of tg t c) o <-> project r = o).
  { intros o. split.
    - intros (r' & E1 & E2). apply (tf_point_inv T_FC T_CF) in E1; auto. subst r'. exact E2.
    - intros H. exists r. split; auto. now apply (tf_point_inv T_FC T_CF). }
  split.
  - intros z. split.
    + destruct (project r) as [px|] eqn:Ep; [|discriminate]. intros H. injection H as <-. exists px. split; [now apply Hr|reflexivity].
    + intros (px & H & ->). apply Hr in H. rewrite H. reflexivity.
  - rewrite Hr. destruct (project r); split; congruence.
Qed.
End Cam.

(** The camera frame of the origin search: x to the right, y and z of the target reversed, looking
    at the target from distance [vz r]. *)
Lemma C_FC_val : C_FC = M3 1 0 0 0 (-1) 0 0 0 (-1).
Proof.
  unfold C_FC, deg2rad, euler321. cbn [vx vy vz].
  replace (-180 * (PI / 180))%R with (- PI)%R by field. rewrite !Rmult_0_l.
  rewrite cos_neg, sin_neg, cos_PI, sin_PI, cos_0, sin_0. f_equal; ring.
Qed.
Lemma C_FC_rigid r : Rigid (tf C_FC r).
Proof.
  exists C_FC, r. split; auto. rewrite C_FC_val. split.
  - unfold mmul, mtr, I3. cbn. f_equal; ring.
  - unfold mdet. cbn. ring.
Qed.

Section Cam2.
Context (project : vec3 -> option vec2).

(** a camera at [r], turned to face the target, sees all corners *)
Definition sees_all (tg : target) (r : vec3) : Prop :=
  forall t c, corner_in (tg_rows tg) (tg_cols tg) t c ->
              exists z, sees project (tf (M3 1 0 0 0 (-1) 0 0 0 (-1)) r) (corner_of tg t c) (Some z).
(** the k-th candidate: centred on the target at the distance at which the target fills
    [scale - k/10] of the image width *)
Definition candidate (tg : target) (W fx scale : R) (k : nat) : vec3 :=
  V3 (target_width tg / 2) (target_height tg / 2)
     (fx * target_width tg / (W * (scale - INR k / 10))).

Lemma origin_candidate tg W fx scale : W <> 0%R -> scale <> 0%R ->
  origin_at tg W fx scale = candidate tg W fx scale 0.
Proof.
  intros HW Hs. unfold origin_at, candidate. f_equal. simpl INR. field. repeat split; auto; lra.
Qed.
Lemma sees_all_dec tg r : tg_ok tg ->
  exists b, check_fully_observable project tg (tf_inv (tf C_FC r)) = Ret b /\ (b = true <-> sees_all tg r).
Proof.
  intros Hok. pose proof (C_FC_rigid r) as HR.
  destruct (C58_fully_observable project tg (tf C_FC r) (tf_inv (tf C_FC r)) Hok HR) as (b & E & Hb).
  - now apply C46_tf_inv_two_sided.
  - exists b. split; auto. rewrite Hb, C_FC_val. unfold sees_all. reflexivity.
Qed.
Lemma origin_loop_S tg W fx scale r : origin_loop project tg W fx scale (S r) =
  obind (check_fully_observable project tg (tf_inv (tf C_FC (origin_at tg W fx scale)))) (fun ok : bool =>
    if ok then Ret (Some (tf I3 (origin_at tg W fx scale)))
    else match r with O => Ret None | _ => origin_loop project tg W fx (scale - 1 / 10) r end).
Proof. reflexivity. Qed.
Lemma origin_loop_spec tg W fx : tg_ok tg -> W <> 0%R -> forall n scale,
  (forall k, (k < S n)%nat -> scale - INR k / 10 <> 0)%R ->
  exists o, origin_loop project tg W fx scale (S n) = Ret o /\
    match o with
    | Some T => exists k, (k < S n)%nat /\ T = tf I3 (candidate tg W fx scale k) /\ sees_all tg (candidate tg W fx scale k) /\
                  forall j, (j < k)%nat -> ~ sees_all tg (candidate tg W fx scale j)
    | None => forall k, (k < S n)%nat -> ~ sees_all tg (candidate tg W fx scale k)
    end.
Proof.
  intros Hok HW. induction n as [|n IH]; intros scale Hs;
    rewrite origin_loop_S; destruct (sees_all_dec tg (origin_at tg W fx scale) Hok) as (b & E & Hb); rewrite E; cbn [obind];
    assert (H0 : scale <> 0%R) by (intros ->; apply (Hs 0%nat); [lia|simpl; lra]);
    rewrite (origin_candidate tg W fx scale HW H0) in *.
  - destruct b.
    + eexists. split; [reflexivity|]. exists 0%nat. split; [lia|]. split; [reflexivity|]. split; [now apply Hb|lia].
    + exists None. split; [reflexivity|]. intros k Hk. replace k with 0%nat by lia. intros H. apply Hb in H. discriminate.
  - destruct b.
    + eexists. split; [reflexivity|]. exists 0%nat. split; [lia|]. split; [reflexivity|]. split; [now apply Hb|lia].
    + assert (Ec : forall k, candidate tg W fx (scale - 1 / 10) k = candidate tg W fx scale (S k)).
      { intros k. unfold candidate. rewrite S_INR. do 3 f_equal. lra. }
      destruct (IH (scale - 1 / 10)%R) as (o & Eo & Ho).
      { intros k Hk. specialize (Hs (S k) ltac:(lia)). rewrite S_INR in Hs. lra. }
      exists o. split; [exact Eo|].
      assert (N0 : ~ sees_all tg (candidate tg W fx scale 0)) by (intros H; apply Hb in H; discriminate).
      destruct o as [T|].
      * destruct Ho as (k & Hk & ET & Hv & Hf). rewrite Ec in *. exists (S k). split; [lia|]. split; auto. split; auto.
        intros [|j] Hj; auto. rewrite <- Ec. apply Hf. lia.
      * intros [|k] Hk; auto. rewrite <- Ec. apply Ho. lia.
Qed.

(** The origin search tries the five candidates in turn and returns the first one from which the
    camera sees all corners; it fails only if none of them does. *)
Theorem C58_origin : forall tg W fx scale, tg_ok tg -> W <> 0%R ->
  (forall k, (k < 5)%nat -> scale - INR k / 10 <> 0)%R ->
  exists o, calib_target_origin project tg W fx scale = Ret o /\
    match o with
    | Some T => exists k, (k < 5)%nat /\ T = tf I3 (candidate tg W fx scale k) /\ sees_all tg (candidate tg W fx scale k) /\
                  forall j, (j < k)%nat -> ~ sees_all tg (candidate tg W fx scale j)
    | None => forall k, (k < 5)%nat -> ~ sees_all tg (candidate tg W fx scale k)
    end.
Proof. intros. now apply origin_loop_spec. Qed.
End Cam2.

(** What the candidate means: for an undistorted camera whose centre is the image centre, the left
    and right edges of the target appear at [s W / 2] on either side of the centre. *)
Theorem C58_candidate_fills : forall tg W fx cx scale k y, (0 < fx)%R -> (0 < target_width tg)%R -> (0 < W)%R ->
  (0 < scale - INR k / 10)%R ->
  let T_CF := tf_inv (tf (M3 1 0 0 0 (-1) 0 0 0 (-1)) (candidate tg W fx scale k)) in
  let u p := (fx * (vx (tf_point T_CF p) / vz (tf_point T_CF p)) + cx)%R in
  u (V3 0 y 0) = (cx - (scale - INR k / 10) * W / 2)%R /\
  u (V3 (target_width tg) y 0) = (cx + (scale - INR k / 10) * W / 2)%R.
Proof.
  intros tg W fx cx scale k y Hf Hw HW Hs T_CF u.
  assert (E : forall p, tf_point T_CF p = V3 (vx p - target_width tg / 2) (target_height tg / 2 - vy p)
                                            (fx * target_width tg / (W * (scale - INR k / 10)) - vz p)).
  { intros p. unfold T_CF, candidate. generalize (target_width tg / 2)%R (target_height tg / 2)%R
      (fx * target_width tg / (W * (scale - INR k / 10)))%R. intros a b c.
    assert (TP : forall C r q, tf_point (tf C r) q = vadd (mapp C q) r) by (intros; unfold tf_point; mat_eq; ring).
    rewrite tf_inv_tf, TP. unfold mtr, mapp, vopp, vadd. cbn [vx vy vz m00 m01 m02 m10 m11 m12 m20 m21 m22].
    f_equal; ring. }
  unfold u. rewrite !E. cbn [vx vy vz]. clear E u T_CF. generalize dependent (scale - INR k / 10)%R. intros s Hs.
  generalize dependent (target_width tg). intros w Hw. split; field; repeat split; lra.
Qed.

Lemma Forall2_length {A B} (P : A -> B -> Prop) l l' : Forall2 P l l' -> length l = length l'.
Proof. induction 1; simpl; congruence. Qed.
(** a camera placed at [p], upright, looking at [center] *)
Definition looks_at (p center : vec3) (T : mat4) : Prop :=
  Rigid T /\ col_t T = p /\ (exists k, 0 < k /\ col_z T = vscale k (vsub center p))%R /\
  (vdot (col_x T) (V3 0 (-1) 0) = 0 /\ 0 < vdot (col_y T) (V3 0 (-1) 0))%R.
Lemma lookats_spec center ps : vz center = 0%R -> (forall p, In p ps -> 0 < vz p)%R ->
  (exists Ts, lookats ps center Ts) /\
  forall Ts, lookats ps center Ts -> Forall2 (fun p T => looks_at p center T) ps Ts.
Proof.
  intros Hc Hp.
  assert (H1 : forall p, In p ps -> exists T, (forall T', lookat p center up_axis T' <-> T' = T) /\ looks_at p center T).
  { intros p H. specialize (Hp p H). destruct (C64_lookat p center up_axis) as (T & HT & A & B & C & D).
    - unfold up_axis, vcross, vsub, vzero. cbn [vx vy vz]. intros E. injection E. intros. lra.
    - exists T. split; auto. repeat split; try tauto. }
  split.
  - clear Hp. induction ps as [|p ps IH]; [exists []; constructor|].
    destruct (H1 p ltac:(now left)) as (T & HT & _). destruct IH as (Ts & IH); [intros; apply H1; now right|].
    exists (T :: Ts). constructor; auto. now apply HT.
  - intros Ts H. induction H as [|p T ps Ts H HF IH]; constructor.
    + destruct (H1 p ltac:(now left)) as (T' & HT & HL). apply HT in H. now subst.
    + apply IH; intros; [apply Hp|apply H1]; now right.
Qed.

(** a target and camera for which the functions are meant *)
Definition sane (tg : target) (W fx : R) : Prop :=
  1 <= tg_rows tg /\ 1 <= tg_cols tg /\ (0 < tg_size tg)%R /\ (0 <= tg_spacing tg)%R /\ (0 < W)%R /\ (0 < fx)%R.
Lemma sane_sizes tg W fx : sane tg W fx -> (0 < target_width tg)%R /\ (0 < target_height tg)%R.
Proof.
  intros (H1 & H2 & H3 & H4 & _). apply IZR_le in H1, H2. unfold target_width, target_height.
  split.
  - assert (0 <= (IZR (tg_cols tg) - 1) * tg_spacing tg)%R by (apply Rmult_le_pos; lra). nra.
  - assert (0 <= (IZR (tg_rows tg) - 1) * tg_spacing tg)%R by (apply Rmult_le_pos; lra). nra.
Qed.
Definition centre (tg : target) : vec3 := V3 (target_width tg / 2) (target_height tg / 2) 0.
Lemma candidate_z tg W fx scale k : sane tg W fx -> (0 < scale - INR k / 10)%R -> (0 < vz (candidate tg W fx scale k))%R.
Proof.
  intros H Hs. destruct (sane_sizes _ _ _ H). destruct H as (_ & _ & _ & _ & HW & Hf). cbn [candidate vz].
  apply Rdiv_lt_0_compat; apply Rmult_lt_0_compat; lra.
Qed.
Lemma tf_trans_tf C r : tf_trans (tf C r) = r.
Proof. destruct r. reflexivity. Qed.
Lemma scales_ok s k : (5 / 10 <= s)%R -> (k < 5)%nat -> (0 < s - INR k / 10)%R.
Proof. intros Hs H. assert (H' : (INR k <= INR 4)%R) by (apply le_INR; lia). simpl in H'. lra. Qed.

Section Cam3.
Context (project : vec3 -> option vec2).
(** The four initial poses: in front of the four corners of the target enlarged by 1.2, at the
    distance of the first suitable candidate, all looking at the centre of the target; when no
    candidate is suitable the call fails and the list is unchanged. *)
Theorem C58_init_poses : forall tg W fx poses0, sane tg W fx ->
  (exists code poses, calib_init_poses project tg W fx poses0 code poses) /\
  forall code poses, calib_init_poses project tg W fx poses0 code poses ->
  (code = 0 /\ length poses = 4%nat /\
   exists k, (k < 5)%nat /\ sees_all project tg (candidate tg W fx (5 / 10) k) /\
     let c := centre tg in let z := vz (candidate tg W fx (5 / 10) k) in
     let a := (12 / 10 * (target_width tg / 2))%R in let b := (12 / 10 * (target_height tg / 2))%R in
     Forall2 (fun p T => looks_at p c T)
       [V3 (vx c - a) (vy c + b) z; V3 (vx c - a) (vy c - b) z; V3 (vx c + a) (vy c - b) z; V3 (vx c + a) (vy c + b) z] poses)
  \/ (code = -1 /\ poses = poses0 /\ forall k, (k < 5)%nat -> ~ sees_all project tg (candidate tg W fx (5 / 10) k)).
Proof.
  intros tg W fx poses0 Hs.
  assert (Hok : tg_ok tg) by (destruct Hs as (? & ? & _); split; lia).
  assert (HW : W <> 0%R) by (destruct Hs as (_ & _ & _ & _ & ? & _); lra).
  destruct (C58_origin project tg W fx (5 / 10) Hok HW) as (o & Eo & Ho).
  { intros k Hk. pose proof (scales_ok (5 / 10) k ltac:(lra) Hk). lra. }
  unfold calib_init_poses. rewrite Eo. destruct o as [T|].
  - destruct Ho as (k & Hk & -> & Hv & _). rewrite tf_trans_tf.
    pose proof (candidate_z tg W fx (5 / 10) k Hs (scales_ok (5 / 10) k ltac:(lra) Hk)) as Hz.
    set (r := candidate tg W fx (5 / 10) k) in *.
    assert (Ec : target_center r = centre tg).
    { unfold target_center, centre, r, candidate. cbn [vx vy vz]. f_equal; field. }
    destruct (lookats_spec (centre tg) (init_positions r) eq_refl) as [HE HA].
    { intros p Hp. unfold init_positions in Hp. rewrite Ec in Hp. unfold vadd, centre in Hp. cbn [vx vy vz] in Hp.
      cbn [In] in Hp. destruct Hp as [ <- |[ <- |[ <- |[ <- |[]]]]]; cbn [vz]; lra. }
    rewrite Ec. split; [destruct HE as [Ts HE]; exists 0, Ts; auto|].
    intros code poses [-> HL]. left. split; auto. apply HA in HL. split; [now rewrite <- (Forall2_length _ _ _ HL)|].
    exists k. split; auto. split; auto. fold r. cbv zeta.
    replace [V3 (vx (centre tg) - 12 / 10 * (target_width tg / 2)) (vy (centre tg) + 12 / 10 * (target_height tg / 2)) (vz r);
             V3 (vx (centre tg) - 12 / 10 * (target_width tg / 2)) (vy (centre tg) - 12 / 10 * (target_height tg / 2)) (vz r);
             V3 (vx (centre tg) + 12 / 10 * (target_width tg / 2)) (vy (centre tg) - 12 / 10 * (target_height tg / 2)) (vz r);
             V3 (vx (centre tg) + 12 / 10 * (target_width tg / 2)) (vy (centre tg) + 12 / 10 * (target_height tg / 2)) (vz r)]%R
      with (init_positions r); auto.
    unfold init_positions. rewrite Ec. unfold vadd, centre. cbn [vx vy vz].
    replace (vx r) with (target_width tg / 2)%R by reflexivity. replace (vy r) with (target_height tg / 2)%R by reflexivity.
    generalize (vz r) (target_width tg / 2)%R (target_height tg / 2)%R. intros z0 a0 b0.
    assert (V3e : forall x y z x' y' z', x = x' -> y = y' -> z = z' -> V3 x y z = V3 x' y' z') by (intros; subst; auto).
    repeat (apply (f_equal2 (@cons vec3)); [apply V3e; lra|]). reflexivity.
  - split; [exists (-1), poses0; auto|]. intros code poses [-> ->]. right. auto.
Qed.

Lemma linspace_length a b n : 0 <= n -> Z.of_nat (length (linspace a b n)) = n.
Proof.
  intros H. unfold linspace. destruct (Z.eqb_spec n 0); [subst; reflexivity|]. destruct (Z.eqb_spec n 1); [subst; reflexivity|].
  rewrite app_length, map_length, zrange_length. simpl. lia.
Qed.
Lemma linspace_bounds a b n x : (a <= b)%R -> In x (linspace a b n) -> (a <= x <= b)%R.
Proof.
  intros Hab. unfold linspace. destruct (Z.eqb_spec n 0); [intros []|]. destruct (Z.eqb_spec n 1).
  - intros [ <- |[]]. lra.
  - rewrite in_app_iff, in_map_iff. intros [(i & <- & Hi)|[ <- |[]]]; [|lra]. apply zrange_In in Hi.
    assert (H1 : (0 <= IZR i <= IZR (n - 1))%R) by (split; apply IZR_le; lia).
    assert (H2 : (0 < IZR (n - 1))%R) by (apply IZR_lt; lia).
    assert (H3 : (0 <= (b - a) / IZR (n - 1))%R) by (apply Rmult_le_pos; [lra|apply Rlt_le, Rinv_0_lt_compat; auto]).
    assert (E : ((b - a) / IZR (n - 1) * IZR (n - 1) = b - a)%R) by (field; lra).
    split; [nra|]. assert (((b - a) / IZR (n - 1)) * IZR i <= ((b - a) / IZR (n - 1)) * IZR (n - 1))%R by (apply Rmult_le_compat_l; lra). lra.
Qed.
Lemma flat_map_const_length {A B} (f : A -> list B) l n : (forall x, length (f x) = n) -> length (flat_map f l) = (length l * n)%nat.
Proof. intros H. induction l; simpl; auto. rewrite app_length, H, IHl. reflexivity. Qed.

(** The pose grid: as many poses as the product of the three counts, at the positions of the grid
    spanning the target enlarged by 1.6 and the distances d to 1.5 d, all looking at the centre. *)
Theorem C58_nbv_poses : forall tg W fx nx ny nz poses0, sane tg W fx -> 0 <= nx -> 0 <= ny -> 0 <= nz ->
  (exists code poses, calib_nbv_poses project tg W fx nx ny nz poses0 code poses) /\
  forall code poses, calib_nbv_poses project tg W fx nx ny nz poses0 code poses ->
  (code = 0 /\ Z.of_nat (length poses) = nx * ny * nz /\
   exists k ps, (k < 5)%nat /\ sees_all project tg (candidate tg W fx (8 / 10) k) /\
     Forall2 (fun p T => looks_at p (centre tg) T) ps poses /\
     let d := vz (candidate tg W fx (8 / 10) k) in
     let a := (16 / 10 * (target_width tg / 2))%R in let b := (16 / 10 * (target_height tg / 2))%R in
     (0 < d)%R /\
     (forall p, In p ps <-> exists x y z, In x (linspace (- a) a nx) /\ In y (linspace (- b) b ny) /\
                              In z (linspace d (15 / 10 * d) nz) /\ p = V3 (vx (centre tg) + x) (vy (centre tg) + y) z) /\
     (forall p, In p ps -> (Rabs (vx p - vx (centre tg)) <= a /\ Rabs (vy p - vy (centre tg)) <= b /\ d <= vz p <= 15 / 10 * d)%R))
  \/ (code = -1 /\ poses = poses0 /\ forall k, (k < 5)%nat -> ~ sees_all project tg (candidate tg W fx (8 / 10) k)).
Proof.
  intros tg W fx nx ny nz poses0 Hs Hx Hy Hz.
  assert (Hok : tg_ok tg) by (destruct Hs as (? & ? & _); split; lia).
  assert (HW : W <> 0%R) by (destruct Hs as (_ & _ & _ & _ & ? & _); lra).
  destruct (sane_sizes _ _ _ Hs) as [Hw Hh].
  destruct (C58_origin project tg W fx (8 / 10) Hok HW) as (o & Eo & Ho).
  { intros k Hk. pose proof (scales_ok (8 / 10) k ltac:(lra) Hk). lra. }
  unfold calib_nbv_poses. rewrite Eo. destruct o as [T|].
  - destruct Ho as (k & Hk & -> & Hv & _). rewrite tf_trans_tf.
    pose proof (candidate_z tg W fx (8 / 10) k Hs (scales_ok (8 / 10) k ltac:(lra) Hk)) as Hd.
    set (r := candidate tg W fx (8 / 10) k) in *.
    assert (Ec : target_center r = centre tg).
    { unfold target_center, centre, r, candidate. cbn [vx vy vz]. f_equal; field. }
    set (a := (16 / 10 * (target_width tg / 2))%R). set (b := (16 / 10 * (target_height tg / 2))%R).
    assert (Hin : forall p, In p (nbv_positions r nx ny nz) <-> exists x y z, In x (linspace (- a) a nx) /\ In y (linspace (- b) b ny) /\
                              In z (linspace (vz r) (15 / 10 * vz r) nz) /\ p = V3 (vx (centre tg) + x) (vy (centre tg) + y) z).
    { intros p. unfold nbv_positions. rewrite Ec.
      replace (- (vx r * 2 / 2) * (16 / 10))%R with (- a)%R by (unfold a, r, candidate; cbn [vx]; field).
      replace ((vx r * 2 / 2) * (16 / 10))%R with a by (unfold a, r, candidate; cbn [vx]; field).
      replace (- (vy r * 2 / 2) * (16 / 10))%R with (- b)%R by (unfold b, r, candidate; cbn [vy]; field).
      replace ((vy r * 2 / 2) * (16 / 10))%R with b by (unfold b, r, candidate; cbn [vy]; field).
      replace (vz r * (15 / 10))%R with (15 / 10 * vz r)%R by ring.
      rewrite in_flat_map. split.
      - intros (x & Hxi & H). apply in_flat_map in H. destruct H as (y & Hyi & H). apply in_map_iff in H.
        destruct H as (z & <- & Hzi). exists x, y, z. repeat (split; auto). unfold vadd, centre. cbn [vx vy vz]. f_equal; ring.
      - intros (x & y & z & Hxi & Hyi & Hzi & ->). exists x. split; auto. apply in_flat_map. exists y. split; auto.
        apply in_map_iff. exists z. split; auto. unfold vadd, centre. cbn [vx vy vz]. f_equal; ring. }
    assert (Ha : (0 < a)%R) by (unfold a; lra). assert (Hb : (0 < b)%R) by (unfold b; lra).
    assert (Hbd : forall p, In p (nbv_positions r nx ny nz) ->
      (Rabs (vx p - vx (centre tg)) <= a /\ Rabs (vy p - vy (centre tg)) <= b /\ vz r <= vz p <= 15 / 10 * vz r)%R).
    { intros p Hp. apply Hin in Hp. destruct Hp as (x & y & z & Hxi & Hyi & Hzi & ->). cbn [vx vy vz].
      apply linspace_bounds in Hxi; [|lra]. apply linspace_bounds in Hyi; [|lra]. apply linspace_bounds in Hzi; [|lra].
      split; [|split]; auto; apply Rabs_le; unfold centre; cbn [vx vy]; lra. }
    destruct (lookats_spec (centre tg) (nbv_positions r nx ny nz) eq_refl) as [HE HA].
    { intros p Hp. apply Hbd in Hp. lra. }
    rewrite Ec. split; [destruct HE as [Ts HE]; exists 0, Ts; auto|].
    intros code poses [-> HL]. left. split; auto. apply HA in HL. split.
    + rewrite <- (Forall2_length _ _ _ HL). unfold nbv_positions.
      rewrite (flat_map_const_length _ _ (Z.to_nat ny * Z.to_nat nz)%nat).
      * rewrite <- (Nat2Z.id (length _)), linspace_length by auto. rewrite Nat2Z.inj_mul, Nat2Z.inj_mul, !Z2Nat.id by auto. ring.
      * intros x. rewrite (flat_map_const_length _ _ (Z.to_nat nz)).
        -- f_equal. rewrite <- (Nat2Z.id (length _)), linspace_length by auto. reflexivity.
        -- intros y. rewrite map_length, <- (Nat2Z.id (length _)), linspace_length by auto. reflexivity.
    + exists k, (nbv_positions r nx ny nz). repeat (split; auto); cbv zeta; intros; apply Hbd; auto.
  - split; [exists (-1), poses0; auto|]. intros code poses [-> ->]. right. auto.
Qed.
End Cam3.

(** Several cameras: on success every camera has its own grid, with the poses expressed for camera
    0: composing with the extrinsics of the camera gives a camera looking at the target centre. *)
Theorem C58_nbv_poses_all : forall tg nx ny nz cams m, 0 < nx -> 0 < ny -> 0 < nz ->
  (forall i c, In (i, c) cams -> sane tg (cm_width c) (cm_fx c)) ->
  nbv_poses_all tg nx ny nz cams 0 m ->
  map fst m = map fst cams /\
  forall i c, In (i, c) cams -> exists poses ps, In (i, poses) m /\
    Z.of_nat (length poses) = nx * ny * nz /\
    forall T_C0Ci, Inverse4 T_C0Ci (cm_T_CiC0 c) ->
      Forall2 (fun p T => looks_at p (centre tg) (mmul4 T T_C0Ci)) ps poses.
Proof.
  intros tg nx ny nz cams m Hx Hy Hz Hs H.
  enough (G : forall code, nbv_poses_all tg nx ny nz cams code m -> code = 0 -> map fst m = map fst cams /\
    forall i c, In (i, c) cams -> exists poses ps, In (i, poses) m /\
    Z.of_nat (length poses) = nx * ny * nz /\
    forall T_C0Ci, Inverse4 T_C0Ci (cm_T_CiC0 c) ->
      Forall2 (fun p T => looks_at p (centre tg) (mmul4 T T_C0Ci)) ps poses) by (eapply G; eauto).
  clear H. intros code0 H Ecode.
  induction H as [|i c rest code poses H1 H2|i c rest poses code m H1 H2 IH]; [split; [reflexivity|intros ? ? []]|discriminate|].
  destruct IH as [Ek IH]; [intros i' c' X; exact (Hs i' c' (or_intror X))|auto|].
  destruct (C58_nbv_poses (cm_project c) tg (cm_width c) (cm_fx c) nx ny nz []) as [_ HP]; try lia.
  { eapply Hs. now left. }
  destruct (HP _ _ H1) as [(_ & HL & k & ps & _ & _ & HF & _)|(X & _)]; [|discriminate].
  assert (Hne : exists T Ts, poses = T :: Ts).
  { destruct poses as [|T Ts]; [|eauto]. exfalso. simpl in HL. nia. }
  destruct Hne as (T0 & Ts & E0). rewrite E0 in HL, HF |- *. clear E0 poses H1 HP.
  split; [cbn [map fst]; now rewrite Ek|].
  intros i' c' [X|X].
  - injection X as <- <-. exists (map (fun T => mmul4 T (cm_T_CiC0 c)) (T0 :: Ts)), ps. split; [now left|].
    split; [now rewrite map_length|]. intros T_C0Ci [HI1 HI2].
    clear -HF HI2. induction HF as [|p T ps' Ts' H HF IH]; constructor; auto.
    rewrite mmul4_assoc, HI2, mmul4_I_r. exact H.
  - destruct (IH i' c' X) as (poses & ps' & A & B). exists poses, ps'. split; [now right|exact B].
Qed.

(** non-vacuity: a 1 x 1 target of one metre and an undistorted 640 x 480 camera *)
Definition ex_tg : target := mkTarget 1 1 1 (3 / 10).
Definition ex_project (p : vec3) : option vec2 :=
  let r := CameraModel.pinhole_project (640, 480) (CameraModel.Cam 640 640 320 240 0 0 0 0) p in
  if CameraModel.code r =? 0 then CameraModel.zhat r else None.
Example C58_ex : sane ex_tg 640 640 /\ sees_all ex_project ex_tg (candidate ex_tg 640 640 (5 / 10) 0).
Proof.
  split; [repeat split; cbn; lia || lra|].
  intros t c [Ht Hc]. cbn in Ht. assert (t = 0) by lia. subst t.
  set (p := corner_of ex_tg 0 c). set (r := candidate _ _ _ _ _).
  assert (Er : r = V3 (1 / 2) (1 / 2) 2).
  { unfold r, candidate, target_width, target_height. cbn [ex_tg tg_cols tg_rows tg_size tg_spacing]. simpl INR. f_equal; field. }
  assert (Ep : exists x y, p = V3 x y 0 /\ (x = 0 \/ x = 1)%R /\ (y = 0 \/ y = 1)%R).
  { unfold p, corner_of, corner_point, pt_of. cbn [ex_tg tg_cols tg_size tg_spacing fst snd].
    change (0 mod 1) with 0. change (0 / 1) with 0.
    exists (0 * (1 * (1 + 3 / 10)) + (if (c =? 1) || (c =? 2) then 1 else 0))%R,
           (0 * (1 * (1 + 3 / 10)) + (if (c =? 2) || (c =? 3) then 1 else 0))%R.
    split; auto. split; [destruct ((c =? 1) || (c =? 2))|destruct ((c =? 2) || (c =? 3))]; [right|left|right|left]; ring. }
  destruct Ep as (x & y & Ep & Hx & Hy).
  assert (TP : forall C r q, tf_point (tf C r) q = vadd (mapp C q) r) by (intros; unfold tf_point; mat_eq; ring).
  exists (V2 (640 * ((x - 1 / 2) / 2) + 320) (640 * ((1 / 2 - y) / 2) + 240)), (V3 (x - 1 / 2) (1 / 2 - y) 2). split.
  - rewrite TP, Er, Ep. unfold vadd, mapp. cbn [vx vy vz m00 m01 m02 m10 m11 m12 m20 m21 m22]. f_equal; ring.
  - unfold ex_project, CameraModel.pinhole_project, CameraModel.project_point. cbn [vx vy vz].
    destruct (Req_EM_T 2 0) as [X|_]; [lra|].
    cbn [CameraModel.fx CameraModel.fy CameraModel.cx CameraModel.cy v2x v2y fst snd]. unfold CameraModel.rleb, CameraModel.rltb.
    repeat match goal with |- context [Rle_dec ?a ?b] => destruct (Rle_dec a b); [|exfalso; destruct Hx, Hy; subst; lra] end.
    destruct (Rlt_dec 0 2); [|exfalso; lra]. cbn. f_equal.
Qed.
Print Assumptions C58_fully_observable.
Print Assumptions C58_target_grid.
Print Assumptions C58_origin.
Print Assumptions C58_candidate_fills.
Print Assumptions C58_init_poses.
Print Assumptions C58_nbv_poses.
Print Assumptions C58_nbv_poses_all.
