(** * C86 (continued): a recorded data set is replayed in chronological order; C85: frames of several cameras *)
From Verif Require Import Base GeomModel EulerModel StatsModel ImuModel ImuSpec ContainersModel Prop_Containers ViModel ViSpec ViProofs Prop_Vi3 Prop_Vi4 ViReplayModel.
From Coq Require Import Reals Sorted Permutation.
Local Open Scope Z_scope.

Lemma group_cons {E} (x : Z * E) h ks : NoDup ks -> In (fst x) ks ->
  Permutation (flat_map (fun k => filter (fun y => fst y =? k) (x :: h)) ks) (x :: flat_map (fun k => filter (fun y => fst y =? k) h) ks).
Proof.
  induction ks as [|k ks IH]; intros N Hx; [destruct Hx|]. inversion N; subst. cbn [flat_map]. cbn [filter].
  destruct (Z.eqb_spec (fst x) k) as [Ek|Ek].
  - cbn [app]. constructor. apply Permutation_app_head.
    rewrite (flat_map_ext_in (fun k0 => filter (fun y => fst y =? k0) (x :: h)) (fun k0 => filter (fun y => fst y =? k0) h)); [reflexivity|].
    intros j Hj. cbn [filter]. destruct (Z.eqb_spec (fst x) j) as [Ej|]; [|reflexivity]. exfalso. congruence.
  - destruct Hx as [Hx|Hx]; [congruence|]. etransitivity; [apply Permutation_app_head, IH; auto|].
    apply Permutation_sym, Permutation_middle.
Qed.
Lemma group_all {E} (h : list (Z * E)) ks : NoDup ks -> (forall x, In x h -> In (fst x) ks) ->
  Permutation (flat_map (fun k => filter (fun y => fst y =? k) h) ks) h.
Proof.
  intros N. induction h as [|x h IH]; intros H.
  - assert (K : flat_map (fun k : Z => filter (fun y : Z * E => fst y =? k) []) ks = []) by (clear; induction ks; auto). rewrite K. constructor.
  - etransitivity; [apply group_cons; auto; apply H; left; auto|]. constructor. apply IH. intros y Hy. apply H. right; auto.
Qed.
Lemma nodup_tail {A} (l l' : list A) : NoDup (l ++ l') -> NoDup l'.
Proof. induction l; cbn; intros H; auto. inversion H; auto. Qed.
Lemma sorted_nodup (l : list Z) : StronglySorted Z.lt l -> NoDup l.
Proof.
  induction 1 as [|x l S IH F]; constructor; auto. intros H. rewrite Forall_forall in F. apply F in H. lia.
Qed.

(** stamps, IMU samples after grids of the same stamp *)
Definition rank (e : event) : Z := match e with EGrid _ g => 2 * g_ts g | EImu t _ _ => 2 * t + 1 | _ => 0 end.
Lemma sorted_app (l1 l2 : list Z) : StronglySorted Z.le l1 -> StronglySorted Z.le l2 -> (forall x y, In x l1 -> In y l2 -> x <= y) -> StronglySorted Z.le (l1 ++ l2).
Proof.
  induction l1 as [|x l1 IH]; intros S1 S2 H; cbn; auto. apply StronglySorted_inv in S1 as (S1 & F). constructor.
  - apply IH; auto. intros; apply H; cbn; auto.
  - rewrite Forall_forall in *. intros y Hy. apply in_app_iff in Hy as [Hy|Hy]; [auto|]. apply H; cbn; auto.
Qed.
Lemma sorted_const (l : list Z) c : (forall x, In x l -> x = c) -> StronglySorted Z.le l.
Proof.
  induction l as [|x l IH]; intros H; constructor; [apply IH; intros; apply H; cbn; auto|].
  rewrite Forall_forall. intros y Hy. rewrite (H x), (H y); cbn; auto; lia.
Qed.
Lemma replay_eq cams imu : replay cams imu = flat_map (fun k => map snd (filter (fun y => fst y =? k) (recorded cams imu))) (tl_ts (tl_run (recorded cams imu))).
Proof.
  unfold replay. apply flat_map_ext_in. intros k _. apply (C16_timeline event (recorded cams imu)).
Qed.
Lemma recorded_in cams imu k e : In (k, e) (recorded cams imu) ->
  (exists c gs g, In (c, gs) cams /\ In g gs /\ e = EGrid c g /\ k = g_ts g) \/ (exists a w, In (k, (a, w)) imu /\ e = EImu k a w).
Proof.
  unfold recorded. rewrite in_app_iff. intros [H|H].
  - left. apply in_flat_map in H as ([c gs] & H1 & H2). apply in_map_iff in H2 as (g & H2 & H3). inversion H2; subst. exists c, gs, g. auto.
  - right. apply in_map_iff in H as ([t [a w]] & H1 & H2). inversion H1; subst. eauto.
Qed.
Lemma replay_sorted cams imu : StronglySorted Z.le (map rank (replay cams imu)).
Proof.
  rewrite replay_eq. destruct (C16_timeline event (recorded cams imu)) as (_ & S & _).
  set (ks := tl_ts _) in *. clearbody ks.
  assert (R : forall k e, In e (map snd (filter (fun y => fst y =? k) (recorded cams imu))) -> 2 * k <= rank e <= 2 * k + 1).
  { intros k e He. apply in_map_iff in He as ([k' e'] & <- & He). apply filter_In in He as (He & Ek). cbn [fst snd] in *. apply Z.eqb_eq in Ek. subst k'.
    destruct (recorded_in _ _ _ _ He) as [(c & gs & g & _ & _ & -> & -> )|(a & w & _ & -> )]; cbn [rank]; lia. }
  induction S as [|k ks S IH F]; cbn [flat_map map]; [constructor|]. rewrite map_app. apply sorted_app; auto.
  - unfold recorded. rewrite filter_app, !map_app. apply sorted_app.
    + apply (sorted_const _ (2 * k)). intros x Hx. apply in_map_iff in Hx as (e & <- & Hx). apply in_map_iff in Hx as ([k' e'] & <- & Hx).
      apply filter_In in Hx as (Hx & Ek). cbn [fst snd] in *. apply Z.eqb_eq in Ek. subst k'.
      apply in_flat_map in Hx as ([c gs] & _ & Hx). apply in_map_iff in Hx as (g & Hx & _). inversion Hx; subst. reflexivity.
    + apply (sorted_const _ (2 * k + 1)). intros x Hx. apply in_map_iff in Hx as (e & <- & Hx). apply in_map_iff in Hx as ([k' e'] & <- & Hx).
      apply filter_In in Hx as (Hx & Ek). cbn [fst snd] in *. apply Z.eqb_eq in Ek. subst k'.
      apply in_map_iff in Hx as ([t [a w]] & Hx & _). inversion Hx; subst. reflexivity.
    + intros x y Hx Hy. apply in_map_iff in Hx as (e & <- & Hx). apply in_map_iff in Hx as ([k' e'] & <- & Hx).
      apply filter_In in Hx as (Hx & Ek). cbn [fst snd] in *. apply Z.eqb_eq in Ek. subst k'.
      apply in_flat_map in Hx as ([c gs] & _ & Hx). apply in_map_iff in Hx as (g & Hx & _). inversion Hx; subst.
      apply in_map_iff in Hy as (e & <- & Hy). apply in_map_iff in Hy as ([k' e'] & <- & Hy).
      apply filter_In in Hy as (Hy & Ek). cbn [fst snd] in *. apply Z.eqb_eq in Ek. subst k'.
      apply in_map_iff in Hy as ([t [a w]] & Hy & _). inversion Hy; subst. cbn [rank]. lia.
  - intros x y Hx Hy. apply in_map_iff in Hx as (e & <- & Hx). apply in_map_iff in Hy as (e' & <- & Hy).
    apply in_flat_map in Hy as (k' & Hk & Hy). rewrite Forall_forall in F. apply F in Hk. apply R in Hx, Hy. lia.
Qed.
Lemma sorted_split (l1 l2 l3 : list Z) x y : StronglySorted Z.le (l1 ++ x :: l2 ++ y :: l3) -> x <= y /\ forall z, In z l2 -> x <= z <= y.
Proof.
  induction l1 as [|u l1 IH]; cbn [app]; intros H; apply StronglySorted_inv in H as (H & F); [|auto].
  rewrite Forall_forall in F. split; [apply F; apply in_elt|]. intros z Hz. split; [apply F; apply in_or_app; auto|].
  clear F. induction l2 as [|u l2 IH2]; [destruct Hz|]. cbn [app] in H. apply StronglySorted_inv in H as (H & F).
  destruct Hz as [ -> |Hz]; [|auto]. rewrite Forall_forall in F. apply F. apply in_elt.
Qed.
(** *** C86 *)
(** Replaying a recording with distinct IMU stamps hands every measurement over exactly once and in chronological order,
    whatever the order in which the files list the grids of the cameras and the IMU samples. *)
Theorem C86_load_data : forall cams imu, NoDup (map fst imu) ->
  chronological (replay cams imu) /\ never is_reset (replay cams imu) /\
  Permutation (replay cams imu)
    (flat_map (fun cg => map (EGrid (fst cg)) (snd cg)) cams ++ map (fun s => EImu (fst s) (fst (snd s)) (snd (snd s))) imu).
Proof.
  intros cams imu N.
  assert (P : Permutation (replay cams imu) (map snd (recorded cams imu))).
  { rewrite replay_eq. destruct (C16_timeline event (recorded cams imu)) as (_ & S & I & _).
    rewrite <- (map_flat_map snd (fun k => filter (fun y => fst y =? k) (recorded cams imu))).
    apply Permutation_map, group_all; [apply sorted_nodup; auto|]. intros [k e] H. apply I. eauto. }
  assert (P' : Permutation (replay cams imu) (flat_map (fun cg => map (EGrid (fst cg)) (snd cg)) cams ++ map (fun s => EImu (fst s) (fst (snd s)) (snd (snd s))) imu)).
  { etransitivity; [exact P|]. unfold recorded. rewrite map_app, map_flat_map, map_map. cbn [snd].
    rewrite (flat_map_ext_in _ (fun cg => map (EGrid (fst cg)) (snd cg))); [reflexivity|].
    intros [c gs] _. cbn [fst snd]. rewrite map_map. reflexivity. }
  split; [|split; [|exact P']].
  - intros pre x mid y post E. pose proof (replay_sorted cams imu) as S. rewrite E in S. rewrite map_app in S. cbn [map] in S. rewrite map_app in S. cbn [map] in S.
    apply sorted_split in S as (Hxy & Hm).
    destruct x as [c g|t a w| |], y as [c' g'|u b v| |]; auto; cbn [rank] in *; try lia.
    + intros (t & a & w & Hin). assert (K := Hm (rank (EImu t a w)) (in_map rank _ _ Hin)). cbn [rank] in K. lia.
    + assert (t <> u); [|lia]. intros <- .
      assert (Q : Permutation (flat_map (fun e => match e with EImu t _ _ => [t] | _ => [] end) (replay cams imu)) (map fst imu)).
      { etransitivity; [apply Permutation_flat_map; exact P'|]. rewrite flat_map_app.
        assert (E1 : flat_map (fun e => match e with EImu t _ _ => [t] | _ => [] end) (flat_map (fun cg => map (EGrid (fst cg)) (snd cg)) cams) = []).
        { clear. induction cams as [|[c gs] cams IH]; auto. cbn [flat_map fst snd]. rewrite flat_map_app, IH, app_nil_r. induction gs; auto. }
        rewrite E1. cbn [app]. clear. induction imu as [|s imu IH]; cbn; auto. }
      rewrite E in Q. apply Permutation_sym in Q. apply (Permutation_NoDup Q) in N.
      rewrite flat_map_app in N. cbn [flat_map] in N. rewrite flat_map_app in N. cbn [flat_map app] in N.
      apply nodup_tail in N. inversion N as [|? ? Nt _]; subst. apply Nt, in_elt.
  - intros e He. apply (Permutation_in _ P'), in_app_iff in He as [He|He].
    + apply in_flat_map in He as (cg & _ & He). apply in_map_iff in He as (g & <- & _). reflexivity.
    + apply in_map_iff in He as (s & <- & _). reflexivity.
Qed.

(** one camera with two frames, the second listed first, and eleven IMU samples *)
Example C86_load_data_example :
  let imu := map (fun k => (10 * k, (vzero, vzero))) [0; 1; 2; 3; 4; 5; 6; 7; 8; 9; 10] in
  NoDup (map fst imu) /\ summary (ex_run true 5 (replay [(0, [frame 95; frame 45])] imu)) = summary (ex_run true 5 (ex_h 2)).
Proof. split; [repeat constructor; cbn; intuition lia|vm_compute; reflexivity]. Qed.

(** *** C85 *)
(** Two cameras that are not triggered together: the calibrator waits for a frame of each, whatever their stamps, and makes
    one view of them. The corners of the second camera, detected 50 ns (any time) later, are tied to the pose at the stamp
    of the first camera's frame. *)
Definition pt2 : corner := (1, 1, (2%R, 2%R)).
Theorem C85_mixed_frames_refuted : exists h g s v, chronological h /\ never is_reset h /\
  vrun 0 0 ex_pnp ex_pick ex_slv ex_reproj (ex_cfg false 2) h (configure 0 0 ex_os2) = Ret s /\
  In (EGrid 1 g) h /\ (forall c g', In (EGrid c g') h -> In pt2 (g_pts g') -> g' = g) /\
  In v (s_views s) /\ (exists rs r, In (1, rs) (v_fid v) /\ In (r, pt2) rs) /\ v_ts v + 50 = g_ts g.
Proof.
  set (g := VGrid 95 true [pt2]).
  set (h := map imu_at [0; 10; 20; 30; 40] ++ [EGrid 0 (frame 45)] ++ map imu_at [50; 60; 70; 80; 90] ++ [EGrid 1 g; imu_at 100]).
  assert (K : match vrun 0 0 ex_pnp ex_pick ex_slv ex_reproj (ex_cfg false 2) h (configure 0 0 ex_os2) with
              | Ret s => Some (map (fun v => (v_ts v, v_fid v)) (s_views s)) | _ => None end =
              Some [(45, [(0, [(RCorner 0 0 0, pt); (RCorner 0 0 1, pt)]); (1, [(RCorner 0 1 0, pt2)])])]) by (vm_compute; reflexivity).
  assert (Hc : chronological h) by (apply check_sound; vm_compute; reflexivity).
  destruct (vrun 0 0 ex_pnp ex_pick ex_slv ex_reproj (ex_cfg false 2) h (configure 0 0 ex_os2)) as [s| |] eqn:E; [|discriminate K|discriminate K].
  assert (K' : map (fun v => (v_ts v, v_fid v)) (s_views s) = [(45, [(0, [(RCorner 0 0 0, pt); (RCorner 0 0 1, pt)]); (1, [(RCorner 0 1 0, pt2)])])]) by (injection K; auto).
  destruct (s_views s) as [|v [|? ?]] eqn:Ev; cbn [map] in K'; try discriminate K'. injection K' as K1 K2.
  exists h, g, s, v. split; [exact Hc|]. split.
  { intros e H. cbn in H. repeat destruct H as [ <- |H]; try reflexivity. destruct H. }
  split; [exact E|]. split; [cbn; auto 20|]. split.
  { intros c g' H Hp. cbn in H. repeat (destruct H as [H|H]; [try discriminate H|]); [| |destruct H].
    - injection H as <- <- . cbn in Hp. exfalso. destruct Hp as [Hp|[Hp|[]]]; discriminate Hp.
    - injection H as _ <- . reflexivity. }
  rewrite Ev. split; [left; reflexivity|]. split; [|rewrite K1; reflexivity].
  exists [(RCorner 0 1 0, pt2)], (RCorner 0 1 0). rewrite K2. split; [right; left; reflexivity|left; reflexivity].
Qed.
Print Assumptions C86_load_data.
Print Assumptions C85_mixed_frames_refuted.
