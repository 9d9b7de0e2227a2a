(** * C111: the simulated frames of a trajectory show what cameras mounted as given would see from its poses *)
From Verif Require Import Base AprilGridModel AprilGridSpec AprilGridProofs AprilGridProofs2 AprilGridProofs3 AprilGridProofs4
  GeomModel GeomSpec GeomProofs PlanarModel Prop_Planar Prop_Geom NbvModel Prop_Nbv SimGridModel.
From Verif Require Prop_Vi5 ContainersModel Prop_Containers.
From Coq Require Import Reals Lra.
Local Open Scope Z_scope.

Lemma add_corners_count project tg T_CF : tg_ok tg ->
  forall l, (forall tc, In tc l -> corner_in (tg_rows tg) (tg_cols tg) (fst tc) (snd tc)) ->
  forall g m g' st, Rep (tg_rows tg) (tg_cols tg) (tg_size tg) (tg_spacing tg) g m -> add_corners project g T_CF l = (st, g') ->
  let vis := filter (fun tc => match project (tf_point T_CF (corner_of tg (fst tc) (snd tc))) with Some _ => true | None => false end) l in
  g_nb g' = g_nb g + Z.of_nat (length vis) /\ (g_detected g' = true <-> g_detected g = true \/ vis <> []).
Proof.
  intros [Hr Hc]. induction l as [|[t c] l IH]; intros Hin g m g' st HR H vis.
  - cbn in H. injection H as _ <-. subst vis. cbn. split; [lia|]. split; [auto|]. intros [K|K]; [exact K|congruence].
  - pose proof (Hin (t, c) ltac:(now left)) as Htc. cbn [fst snd] in Htc.
    assert (Hin' : forall tc, In tc l -> corner_in (tg_rows tg) (tg_cols tg) (fst tc) (snd tc)) by (intros; apply Hin; now right).
    cbn [add_corners] in H. rewrite (object_point_in _ _ _ _ Hc _ _ _ _ HR Htc) in H. fold (corner_of tg t c) in H.
    subst vis. cbn [filter fst snd]. destruct (project (tf_point T_CF (corner_of tg t c))) as [z|].
    + destruct (add_Rep _ _ _ _ Hc g m t c (kp_of z) HR Htc) as (g1 & E1 & R1 & N1 & D1 & _). rewrite E1 in H.
      destruct (IH Hin' _ _ _ _ R1 H) as [A B]. cbn [length]. rewrite A, B, N1. split; [lia|]. split; [intros _; right; discriminate|intros _; left; exact D1].
    + exact (IH Hin' _ _ _ _ HR H).
Qed.

(** point [p] of the target, the target at [T_WF], is seen at [z] by a camera whose pose in the world is [T_WC] *)
Definition seen_at (project : vec3 -> option vec2) (T_WC T_WF : mat4) (p : vec3) (z : option vec2) : Prop :=
  exists r, tf_point T_WC r = tf_point T_WF p /\ project r = z.

Lemma mul_point A B p : Rigid A -> Rigid B -> tf_point (mmul4 A B) p = tf_point A (tf_point B p).
Proof. intros (C & r & _ & ->) (D & s & HD & ->). apply (C46_tf_point D s C r p p HD). Qed.
Lemma inv_point A p : Rigid A -> tf_point (tf_inv A) (tf_point A p) = p /\ tf_point A (tf_point (tf_inv A) p) = p.
Proof.
  intros HA. pose proof (Prop_Vi5.rigid_inv A HA) as HI. destruct (C46_tf_inv_two_sided A HA) as [I _].
  pose proof (tf_point_inv A (tf_inv A) HA I) as X. split.
  - symmetry. apply X. reflexivity.
  - apply X. reflexivity.
Qed.

Lemma grid_spec project ts tg T T_WF E : tg_ok tg -> Rigid T -> Rigid T_WF -> Rigid E ->
  exists g, simulate_aprilgrid ts tg (tf_inv (mmul4 (tf_inv T) T_WF)) project E = (Done, g) /\ g_ts g = ts /\
    (forall t c, corner_in (tg_rows tg) (tg_cols tg) t c ->
      (forall z, keypoint g t c = Ret z <-> exists px, seen_at project (mmul4 T E) T_WF (corner_of tg t c) (Some px) /\ z = (v2x px, v2y px)) /\
      (has g t c = Ret false <-> seen_at project (mmul4 T E) T_WF (corner_of tg t c) None)) /\
    exists l, NoDup l /\ (forall t c, In (t, c) l <-> corner_in (tg_rows tg) (tg_cols tg) t c /\ exists px, seen_at project (mmul4 T E) T_WF (corner_of tg t c) (Some px)) /\
      g_nb g = Z.of_nat (length l) /\ (g_detected g = true <-> l <> []).
Proof.
  intros Hok RT RF RE. unfold simulate_aprilgrid.
  pose proof (Prop_Vi5.rigid_inv T RT) as RT'. pose proof (Prop_Vi5.rigid_mul _ _ RT' RF) as RM. pose proof (Prop_Vi5.rigid_inv E RE) as RE'.
  assert (EI : tf_inv (tf_inv (mmul4 (tf_inv T) T_WF)) = mmul4 (tf_inv T) T_WF) by (apply (C46_rigid_group _ _ RM RM)). rewrite EI.
  set (pr := fun r => project (tf_point (tf_inv E) r)). set (M := mmul4 (tf_inv T) T_WF).
  assert (SA : forall p o, seen_at project (mmul4 T E) T_WF p o <-> pr (tf_point M p) = o).
  { intros p o. unfold pr, M. rewrite mul_point by assumption. unfold seen_at. split.
    - intros (r & H & <-). f_equal. rewrite <- H, mul_point by assumption. rewrite (proj1 (inv_point T _ RT)). apply inv_point, RE.
    - intros <-. eexists. split; [|reflexivity]. rewrite mul_point by assumption. rewrite (proj2 (inv_point E _ RE)). apply inv_point, RT. }
  rewrite corner_loop_all.
  destruct (add_corners_spec pr tg M Hok (all_corners (tg_rows tg) (tg_cols tg)) (all_corners_NoDup _ _)
    ltac:(intros [t c] H; now apply all_corners_In) _ nothing (Rep_new _ _ (tg_size tg) (tg_spacing tg) ts))
    as (g & m & Eg & HRp & Hts & A & _).
  exists g. split; [exact Eg|]. split; [exact Hts|]. split.
  - intros t c Htc. rewrite (has_Rep _ _ _ _ _ _ _ _ HRp Htc), (keypoint_Rep _ _ _ _ _ _ _ _ HRp Htc). unfold present. cbn [fst snd].
    rewrite (A t c ltac:(now apply all_corners_In)). unfold nothing. cbn beta. setoid_rewrite SA. split.
    + intros z. split.
      * destruct (pr (tf_point M (corner_of tg t c))) as [px|]; [|discriminate]. intros H. injection H as <-. exists px. auto.
      * intros (px & H & ->). rewrite H. reflexivity.
    + destruct (pr (tf_point M (corner_of tg t c))); split; congruence.
  - destruct (add_corners_count pr tg M Hok (all_corners (tg_rows tg) (tg_cols tg)) ltac:(intros [t c] H; now apply all_corners_In) _ nothing _ _ (Rep_new _ _ (tg_size tg) (tg_spacing tg) ts) Eg) as [N D].
    eexists. split; [apply NoDup_filter, all_corners_NoDup|]. split; [|split; [exact N|]].
    + intros t c. rewrite filter_In, all_corners_In. cbn [fst snd]. setoid_rewrite SA. destruct (pr (tf_point M (corner_of tg t c))) as [px|]; split; intros [H1 H2]; (split; [exact H1|]); eauto; try discriminate.
      destruct H2 as [px H2]. discriminate.
    + rewrite D. cbn. split; [intros [K|K]; [discriminate|exact K]|auto].
Qed.

(** every simulated frame has one grid per camera, which holds exactly the corners a camera at T_WC0 T_C0Ci sees *)
Theorem C111_frames : forall project ext tg T_WF pose cams dt ts_end ts0 l r, tg_ok tg -> Rigid T_WF ->
  (forall ts T, pose ts = Some T -> Rigid T) -> (forall c E, ext c = Some E -> Rigid E) ->
  simulate_cameras project ext tg T_WF pose cams dt ts_end ts0 l r ->
  forall ts T gs, In (ts, T, gs) l -> pose ts = Some T /\ ts <= ts_end /\ map fst gs = cams /\
    forall c g, In (c, g) gs -> exists pr E, project c = Some pr /\ ext c = Some E /\ g_ts g = ts /\
      (forall t k, corner_in (tg_rows tg) (tg_cols tg) t k ->
        (forall z, keypoint g t k = Ret z <-> exists px, seen_at pr (mmul4 T E) T_WF (corner_of tg t k) (Some px) /\ z = (v2x px, v2y px)) /\
        (has g t k = Ret false <-> seen_at pr (mmul4 T E) T_WF (corner_of tg t k) None)) /\
      exists v, NoDup v /\ (forall t k, In (t, k) v <-> corner_in (tg_rows tg) (tg_cols tg) t k /\ exists px, seen_at pr (mmul4 T E) T_WF (corner_of tg t k) (Some px)) /\
        g_nb g = Z.of_nat (length v) /\ (g_detected g = true <-> v <> []).
Proof.
  intros project ext tg T_WF pose cams dt ts_end ts0 l r Hok RF RP RE H.
  induction H as [ts H|ts H Hp|ts T e H Hp Hf|ts T gs l r H Hp Hf Hs IH]; intros ts' T' gs' Hin; try (destruct Hin; fail).
  destruct Hin as [Hin|Hin]; [|exact (IH _ _ _ Hin)]. injection Hin as <- <- <-. split; [exact Hp|]. split; [exact H|].
  clear IH Hs. revert gs Hf. induction cams as [|c cams IH]; intros gs Hf; cbn [simulate_frame] in Hf.
  - injection Hf as <-. split; [reflexivity|]. intros c g [].
  - destruct (project c) as [pr|] eqn:Epr; [|discriminate Hf]. destruct (ext c) as [E|] eqn:Ee; [|discriminate Hf].
    destruct (grid_spec pr ts tg T T_WF E Hok (RP _ _ Hp) RF (RE _ _ Ee)) as (g0 & Eg & G). rewrite Eg in Hf.
    destruct (simulate_frame project ext tg cams ts _) as [gs0|e|] eqn:Es; try discriminate Hf. cbn in Hf. injection Hf as <-.
    destruct (IH _ eq_refl) as [I1 I2]. split; [cbn; rewrite I1; reflexivity|]. intros c' g' [K|K]; [injection K as <- <-; exists pr, E; split; [exact Epr|]; split; [exact Ee|]; exact G|exact (I2 _ _ K)].
Qed.

(** if all cameras are complete and all poses exist, the loop ends and the frames are at ts_start, ts_start + dt, ... up to the end *)
Theorem C111_times : forall project ext tg T_WF pose cams dt ts_end ts0, tg_ok tg -> Rigid T_WF ->
  (forall ts T, pose ts = Some T -> Rigid T) -> (forall c E, ext c = Some E -> Rigid E) ->
  (forall c, In c cams -> project c <> None /\ ext c <> None) -> 0 < dt -> (forall ts, ts0 <= ts <= ts_end -> pose ts <> None) ->
  exists l, simulate_cameras project ext tg T_WF pose cams dt ts_end ts0 l (Ret tt) /\
    forall ts, In ts (map (fun f => fst (fst f)) l) <-> exists k, 0 <= k /\ ts = ts0 + k * dt /\ ts <= ts_end.
Proof.
  intros project ext tg T_WF pose cams dt ts_end ts0 Hok RF RP RE Hc Hdt Hp.
  assert (FR : forall ts T, Rigid T -> exists gs, simulate_frame project ext tg cams ts (tf_inv (mmul4 (tf_inv T) T_WF)) = Ret gs).
  { intros ts T RT. clear Hp. induction cams as [|c cs IH]; [eexists; reflexivity|]. cbn [simulate_frame].
    destruct (Hc c ltac:(now left)) as [P1 P2]. destruct (project c) as [pr|]; [|congruence]. destruct (ext c) as [E|] eqn:Ee; [|congruence].
    destruct (grid_spec pr ts tg T T_WF E Hok RT RF (RE _ _ Ee)) as (g & Eg & _). rewrite Eg.
    destruct IH as [gs ->]; [intros c' K; apply Hc; now right|]. eexists. reflexivity. }
  remember (Z.to_nat (ts_end + 1 - ts0)) as n eqn:En. revert ts0 En Hp. induction n as [n IH] using lt_wf_ind. intros ts0 En Hp.
  destruct (Z_lt_le_dec ts_end ts0) as [L|L].
  - exists []. split; [constructor; exact L|]. intros ts. split; [intros []|]. intros (k & K0 & K1 & K2). nia.
  - destruct (pose ts0) as [T|] eqn:Ep; [|destruct (Hp ts0 ltac:(lia) Ep)]. destruct (FR ts0 T (RP _ _ Ep)) as [gs Hgs].
    destruct (IH (Z.to_nat (ts_end + 1 - (ts0 + dt)))) with (ts0 := ts0 + dt) as (l & S1 & S2); [lia|reflexivity|intros ts Hts; apply Hp; lia|].
    exists ((ts0, T, gs) :: l). split; [eapply sc_step; eassumption|]. intros ts. cbn [map In fst]. rewrite S2. split.
    + intros [<-|(k & K0 & K1 & K2)]; [exists 0; lia|]. exists (k + 1). lia.
    + intros (k & K0 & K1 & K2). destruct (Z.eq_dec k 0) as [->|Nk]; [left; lia|]. right. exists (k - 1). lia.
Qed.

(** with complete cameras the loop stops early only at a time for which the trajectory has no pose, with an exception, after all
    frames before it *)
Theorem C111_ends : forall project ext tg T_WF pose cams dt ts_end ts0 l r, tg_ok tg -> Rigid T_WF ->
  (forall ts T, pose ts = Some T -> Rigid T) -> (forall c E, ext c = Some E -> Rigid E) ->
  (forall c, In c cams -> project c <> None /\ ext c <> None) ->
  simulate_cameras project ext tg T_WF pose cams dt ts_end ts0 l r ->
  let next := ts0 + Z.of_nat (length l) * dt in
  (forall k, 0 <= k < Z.of_nat (length l) -> exists T gs, nth_error l (Z.to_nat k) = Some (ts0 + k * dt, T, gs)) /\
  (r = Ret tt /\ ts_end < next \/ r = Throw Fatal /\ next <= ts_end /\ pose next = None).
Proof.
  intros project ext tg T_WF pose cams dt ts_end ts0 l r Hok RF RP RE Hc H.
  induction H as [ts H|ts H Hp|ts T e H Hp Hf|ts T gs l r H Hp Hf Hs IH]; intros next; subst next; cbn [length].
  - split; [intros k K; lia|]. left. split; [reflexivity|]. lia.
  - split; [intros k K; lia|]. right. replace (ts + Z.of_nat 0 * dt) with ts by lia. auto.
  - exfalso. clear - Hok RF RP RE Hc Hp Hf. assert (RT := RP _ _ Hp). revert Hf. induction cams as [|c cs IH]; [discriminate|]. cbn [simulate_frame].
    destruct (Hc c ltac:(now left)) as [P1 P2]. destruct (project c) as [pr|]; [|congruence]. destruct (ext c) as [E|] eqn:Ee; [|congruence].
    destruct (grid_spec pr ts tg T T_WF E Hok RT RF (RE _ _ Ee)) as (g & Eg & _). rewrite Eg.
    specialize (IH ltac:(intros c' K; apply Hc; now right)). destruct (simulate_frame project ext tg cs ts _) as [gs|e'|]; cbn; try discriminate. intros K. injection K as ->. apply IH. reflexivity.
  - destruct IH as [I1 I2]. split.
    + intros k K. destruct (Z.eq_dec k 0) as [->|N]; [exists T, gs; replace (ts + 0 * dt) with ts by ring; reflexivity|].
      destruct (I1 (k - 1) ltac:(lia)) as (T' & gs' & E). exists T', gs'. replace (Z.to_nat k) with (S (Z.to_nat (k - 1))) by lia. cbn [nth_error]. rewrite E. replace (ts + k * dt) with (ts + dt + (k - 1) * dt) by ring. reflexivity.
    + replace (ts + Z.of_nat (S (length l)) * dt) with (ts + dt + Z.of_nat (length l) * dt) by (rewrite Nat2Z.inj_succ; ring). exact I2.
Qed.
(** a camera without parameters or extrinsics: std::map::at throws in the first frame *)
Theorem C111_incomplete : forall project ext tg T_WF pose cams dt ts_end ts0 l r, tg_ok tg -> Rigid T_WF ->
  (forall ts T, pose ts = Some T -> Rigid T) -> (forall c E, ext c = Some E -> Rigid E) ->
  (exists c, In c cams /\ (project c = None \/ ext c = None)) -> ts0 <= ts_end -> pose ts0 <> None ->
  simulate_cameras project ext tg T_WF pose cams dt ts_end ts0 l r -> l = [] /\ r = Throw OutOfRange.
Proof.
  intros project ext tg T_WF pose cams dt ts_end ts0 l r Hok RF RP RE Hc L Hp H.
  assert (FR : forall T, Rigid T -> simulate_frame project ext tg cams ts0 (tf_inv (mmul4 (tf_inv T) T_WF)) = Throw OutOfRange).
  { intros T RT. clear H. induction cams as [|c cs IH]; [destruct Hc as (c & [] & _)|]. cbn [simulate_frame].
    destruct (project c) as [pr|] eqn:Epr; [|reflexivity]. destruct (ext c) as [E|] eqn:Ee; [|reflexivity].
    destruct (grid_spec pr ts0 tg T T_WF E Hok RT RF (RE _ _ Ee)) as (g & Eg & _). rewrite Eg. rewrite IH; [reflexivity|].
    destruct Hc as (c' & [<-|K] & D); [destruct D; congruence|eauto]. }
  inversion H as [? K|? K K1|? T e K K1 K2|? T gs l' r' K K1 K2 K3]; subst; try lia; try congruence.
  - rewrite FR in K2 by (eapply RP; eauto). injection K2 as <-. auto.
  - rewrite FR in K2 by (eapply RP; eauto). discriminate K2.
Qed.

(** nbt_eval gives the trajectory's pose both to simulate_imu, as the pose of the IMU, and to simulate_cameras, as the pose of the
    body (camera 0). The calibrator's cameras (C84) see what was simulated only if the IMU is mounted at the origin of the body. *)
Theorem C111_rig : forall T T_BS T_BC T_WF, Rigid T -> Rigid T_BS -> Rigid T_BC -> Rigid T_WF ->
  Prop_Vi5.sees T T_BS T_BC T_WF = mmul4 (mmul4 (tf_inv T_BC) (tf_inv T)) T_WF <-> T_BS = I4.
Proof.
  intros T S C F RT RS RC RF. unfold Prop_Vi5.sees.
  destruct (C46_tf_inv_two_sided F RF) as [[F1 _] _]. destruct (C46_tf_inv_two_sided T RT) as [[_ T2] _]. destruct (C46_tf_inv_two_sided C RC) as [[C1 _] _].
  split.
  - intros H. apply (f_equal (fun X => mmul4 X (tf_inv F))) in H. rewrite !mmul4_assoc, F1, !mmul4_I_r in H.
    apply (f_equal (fun X => mmul4 X T)) in H. rewrite !mmul4_assoc, T2, !mmul4_I_r in H.
    apply (f_equal (mmul4 C)) in H. rewrite <- mmul4_assoc, C1, mmul4_I_l in H. exact H.
  - intros ->. rewrite mmul4_I_r. reflexivity.
Qed.

(** the timeline: at every time the IMU sample if there is one, then the grids that were detected, camera by camera *)
Lemma imu_events_spec ts : forall acc gyr, length acc = length ts -> length gyr = length ts -> NoDup ts ->
  exists l, imu_events ts acc gyr = Ret l /\ (forall t, In t (map fst l) <-> In t ts) /\
    forall t, (exists i a w, nth_error ts i = Some t /\ nth_error acc i = Some a /\ nth_error gyr i = Some w /\ map snd (filter (fun x => fst x =? t) l) = [EvImu t a w]) \/
      (~ In t ts /\ map snd (filter (fun x => fst x =? t) l) = []).
Proof.
  induction ts as [|t0 ts IH]; intros acc gyr La Lg N.
  - exists []. split; [reflexivity|]. split; [reflexivity|]. intros t. right. split; [intros []|reflexivity].
  - destruct acc as [|a acc]; [discriminate|]. destruct gyr as [|w gyr]; [discriminate|]. inversion_clear N as [|? ? N0 N1].
    destruct (IH acc gyr ltac:(cbn in La; lia) ltac:(cbn in Lg; lia) N1) as (l & E & D & F). cbn [imu_events]. rewrite E. cbn [Base.omap obind].
    eexists. split; [reflexivity|]. split; [intros t; cbn [map fst In]; rewrite D; reflexivity|]. intros t. cbn [filter fst].
    destruct (Z.eqb_spec t0 t) as [->|Nt].
    + left. exists 0%nat, a, w. repeat split. cbn [map snd]. f_equal. destruct (F t) as [(i & _ & _ & K & _)|[_ K]]; [apply nth_error_In in K; contradiction|exact K].
    + destruct (F t) as [(i & a' & w' & K)|[K K']]; [left; exists (S i), a', w'; exact K|right]. split; [|exact K']. intros [J|J]; [congruence|contradiction].
Qed.
Lemma frame_events_filter (f0 : Z) (gs : list (Z * grid)) t :
  map snd (filter (fun x : Z * nbt_event => fst x =? t) (flat_map (fun cg => if g_detected (snd cg) then [(f0, EvGrid f0 (fst cg) (snd cg))] else []) gs)) =
  if f0 =? t then map (fun cg => EvGrid t (fst cg) (snd cg)) (filter (fun cg => g_detected (snd cg)) gs) else [].
Proof.
  induction gs as [|[c g] gs IH]; cbn [flat_map filter fst snd]; [destruct (f0 =? t); reflexivity|]. destruct (g_detected g); cbn [app filter fst]; [|exact IH].
  destruct (Z.eqb_spec f0 t) as [->|N]; [cbn [map snd fst]; rewrite IH; reflexivity|exact IH].
Qed.
Lemma grid_events_spec frames t : NoDup (map fst frames) ->
  (exists gs, In (t, gs) frames /\ map snd (filter (fun x => fst x =? t) (grid_events frames)) = map (fun cg => EvGrid t (fst cg) (snd cg)) (filter (fun cg => g_detected (snd cg)) gs)) \/
  (~ In t (map fst frames) /\ map snd (filter (fun x => fst x =? t) (grid_events frames)) = []).
Proof.
  unfold grid_events. induction frames as [|[f0 gs] frames IH]; intros N; [right; split; [intros []|reflexivity]|].
  inversion_clear N as [|? ? N0 N1]. cbn [flat_map fst snd]. rewrite filter_app, map_app, frame_events_filter. cbn [map fst In] in *.
  destruct (Z.eqb_spec f0 t) as [->|Nt].
  - left. exists gs. split; [now left|]. destruct (IH N1) as [(gs' & K & _)|[_ ->]]; [exfalso; apply N0, in_map_iff; exists (t, gs'); auto|apply app_nil_r].
  - destruct (IH N1) as [(gs' & K & K')|[K K']]; [left; exists gs'; auto|right]. split; [|exact K']. intros [J|J]; [congruence|contradiction].
Qed.
Theorem C111_timeline : forall frames ts acc gyr, length acc = length ts -> length gyr = length ts -> NoDup ts -> NoDup (map fst frames) ->
  exists tl, nbt_create_timeline frames ts acc gyr = Ret tl /\
    Sorted.StronglySorted Z.lt (ContainersModel.tl_ts tl) /\
    (forall t, In t (ContainersModel.tl_ts tl) <-> In t ts \/ exists gs c g, In (t, gs) frames /\ In (c, g) gs /\ g_detected g = true) /\
    forall t, exists imu grids, ContainersModel.get_events tl t = imu ++ grids /\
      ((exists i a w, nth_error ts i = Some t /\ nth_error acc i = Some a /\ nth_error gyr i = Some w /\ imu = [EvImu t a w]) \/ (~ In t ts /\ imu = [])) /\
      ((exists gs, In (t, gs) frames /\ grids = map (fun cg => EvGrid t (fst cg) (snd cg)) (filter (fun cg => g_detected (snd cg)) gs)) \/
       (~ In t (map fst frames) /\ grids = [])).
Proof.
  intros frames ts acc gyr La Lg N1 N2. unfold nbt_create_timeline. destruct (imu_events_spec ts acc gyr La Lg N1) as (l & -> & D & F). cbn [Base.omap obind].
  destruct (Prop_Containers.C16_timeline _ (l ++ grid_events frames)) as (A & B & C & _). eexists. split; [reflexivity|]. split; [exact B|]. split.
  - intros t. rewrite C. setoid_rewrite in_app_iff. split.
    + intros (e & [K|K]); [left; apply D, in_map_iff; exists (t, e); auto|]. right. unfold grid_events in K. apply in_flat_map in K as ([f0 gs] & K1 & K2). cbn [fst snd] in K2.
      apply in_flat_map in K2 as ([c g] & K2 & K3). cbn [fst snd] in K3. destruct (g_detected g) eqn:Dg; [|destruct K3]. destruct K3 as [K3|[]]. injection K3 as -> _. exists gs, c, g. auto.
    + intros [K|(gs & c & g & K1 & K2 & K3)].
      * apply D, in_map_iff in K as ([t' e] & K & K'). cbn in K. subst t'. exists e. auto.
      * exists (EvGrid t c g). right. unfold grid_events. apply in_flat_map. exists (t, gs). split; [exact K1|]. apply in_flat_map. exists (c, g). split; [exact K2|]. cbn [fst snd]. rewrite K3. now left.
  - intros t. destruct (A t) as [A1 _]. rewrite A1, filter_app, map_app. eexists _, _. split; [reflexivity|]. split; [exact (F t)|]. apply grid_events_spec, N2.
Qed.
Example C111_timeline_ex : let g b := mkGrid true 5 0 0 0%R 0%R b 0 [] in exists tl,
  nbt_create_timeline [(5, [(0, g true); (1, g false); (2, g true)]); (10, [(0, g false)])] [0; 5] [V3 0 0 0; V3 0 0 1]%R [V3 0 0 2; V3 0 0 3]%R = Ret tl /\
  ContainersModel.tl_ts tl = [0; 5] /\ ContainersModel.get_events tl 5 = [EvImu 5 (V3 0 0 1)%R (V3 0 0 3)%R; EvGrid 5 0 (g true); EvGrid 5 2 (g true)].
Proof. eexists. split; [reflexivity|]. split; reflexivity. Qed.

(** the hypotheses of C111_frames and C111_times hold: one tag, a camera at distance 2, one frame every 5 up to 12 *)
Definition gx_project (r : vec3) : option vec2 := if Rlt_dec (vz r) 0 then None else Some (V2 (vx r) (vy r)).
Definition gx_pose (ts : Z) : option mat4 := if (0 <=? ts) && (ts <=? 12) then Some (tf I3 (V3 0 0 (-2))) else None.
Lemma I3_rot : IsRot I3.
Proof. split; [unfold mmul, mtr, I3; cbn; f_equal; ring|unfold mdet; cbn; ring]. Qed.
Example C111_ex : exists l, simulate_cameras (fun _ => Some gx_project) (fun _ => Some I4) (mkTarget 1 1 1 (1/2)) I4 gx_pose [0] 5 12 0 l (Ret tt) /\
  (forall ts, In ts (map (fun f => fst (fst f)) l) <-> ts = 0 \/ ts = 5 \/ ts = 10) /\
  forall ts T gs, In (ts, T, gs) l -> forall g, In (0, g) gs -> g_detected g = true /\ keypoint g 0 2 = Ret (1, 1)%R.
Proof.
  assert (Hok : tg_ok (mkTarget 1 1 1 (1/2))) by (split; cbn; lia).
  assert (RI : Rigid I4) by (exists I3, (V3 0 0 0); split; [exact I3_rot|reflexivity]).
  assert (RP : forall ts T, gx_pose ts = Some T -> Rigid T).
  { intros ts T. unfold gx_pose. destruct (_ && _); [|discriminate]. intros E. injection E as <-. exists I3, (V3 0 0 (-2)). split; [exact I3_rot|reflexivity]. }
  assert (RE : forall (c : Z) E, Some I4 = Some E -> Rigid E) by (intros c E K; injection K as <-; exact RI).
  destruct (C111_times (fun _ => Some gx_project) (fun _ => Some I4) (mkTarget 1 1 1 (1/2)) I4 gx_pose [0] 5 12 0 Hok RI RP RE) as (l & S1 & S2).
  { intros c _. split; discriminate. } { lia. } { intros ts Hts. unfold gx_pose. destruct (Z.leb_spec 0 ts), (Z.leb_spec ts 12); cbn; try lia; discriminate. }
  exists l. split; [exact S1|]. split.
  - intros ts. rewrite S2. split; [intros (k & K0 & K1 & K2)|intros [->|[->| ->]]; [exists 0|exists 1|exists 2]; lia]. assert (k = 0 \/ k = 1 \/ k = 2) by lia. lia.
  - intros ts T gs Hin g Hg. destruct (C111_frames _ _ _ _ _ _ _ _ _ _ _ Hok RI RP RE S1 _ _ _ Hin) as (Ep & _ & _ & G).
    destruct (G _ _ Hg) as (pr & E & E1 & E2 & _ & K & v & _ & V2' & _ & V4). injection E1 as <-. injection E2 as <-.
    assert (T = tf I3 (V3 0 0 (-2))) as ->. { unfold gx_pose in Ep. destruct (_ && _); [congruence|discriminate]. }
    assert (SA : seen_at gx_project (mmul4 (tf I3 (V3 0 0 (-2))) I4) I4 (corner_of (mkTarget 1 1 1 (1/2)) 0 2) (Some (V2 1 1))).
    { exists (V3 1 1 2). split; [unfold corner_of, pt_of, corner_point, tf_point, I4; cbn; f_equal; lra|]. unfold gx_project. cbn. destruct (Rlt_dec 2 0); [lra|reflexivity]. }
    assert (CI : corner_in (tg_rows (mkTarget 1 1 1 (1/2))) (tg_cols (mkTarget 1 1 1 (1/2))) 0 2) by (split; cbn; lia).
    split.
    + apply V4. intros ->. assert (X : In (0, 2) (@nil (Z * Z))) by (apply V2'; eauto). destruct X.
    + apply (proj1 (K 0 2 CI)). exists (V2 1 1). auto.
Qed.
