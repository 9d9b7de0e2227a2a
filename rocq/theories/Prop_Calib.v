(** * Property theorems C28, C29 (calibration views) *)
From Coq Require Import Reals Lra.
From Verif Require Import Base.
From stdpp Require Import gmap sets list.
From Verif Require Import AprilGridModel AprilGridSpec AprilGridProofs AprilGridIOModel SolverModel SolverProofs CalibModel CalibSpec CalibProofs CalibProofs2 CalibProofs3 CalibProofs4 CalibProofs5 CalibExample.
Local Open Scope Z_scope.
Local Ltac by_dec := refine (bool_decide_unpack _ _); vm_compute; exact I.

(** ** Specification of an outlier: the residual can be evaluated, and one of its components is
    larger than the threshold for that component *)
Definition violates (err : Z -> option (R * R)) (th : R * R) (r : vres) : Prop :=
  exists x y, err (vr_id r) = Some (x, y) /\ (fst th < x \/ snd th < y)%R.
Lemma outlier_violates err th r : outlier err (fst th) (snd th) r = true <-> violates err th r.
Proof.
  unfold outlier, violates. destruct (err (vr_id r)) as [[x y]|].
  - unfold rgt. destruct (Rlt_dec (fst th) x), (Rlt_dec (snd th) y); cbn; split; intros H; auto; try discriminate.
    1-3: exists x, y; auto. destruct H as (? & ? & E & [|]); injection E as <- <-; contradiction.
  - split; [discriminate|]. intros (? & ? & E & _). discriminate.
Qed.

(** ** C28: filtering a view of any reachable calibrator *)
Theorem C28_filter_view_partial : forall (blocks : Z -> list Z) rows cols size sp (V : Type) ext_addr cam_addr base (k : calib V) ts v err th,
  0 <= rows -> 0 <= cols -> reach blocks rows cols size sp ext_addr cam_addr base k -> k_views k !! ts = Some v ->
  let cams := keys (k_cams k) in
  exists v' s' out, filter_view blocks cams err th v (k_solver k) = Ret (v', s', Z.of_nat (length out)) /\
    (* the removed residuals are exactly the violators, each counted once *)
    base.NoDup out /\ (forall c r, In (c, r) out <-> In r (v_res v c) /\ violates err th r) /\
    (* the other residuals stay, in their order *)
    (forall c, exists keep, v_res v' c = List.filter keep (v_res v c) /\ forall r, keep r = false <-> violates err th r) /\
    (* the solver loses exactly those residuals and no parameter *)
    (forall id, id ∈ s_res (c_base s') <-> id ∈ s_res (c_base (k_solver k)) /\ ~ exists c r, In (c, r) out /\ vr_id r = id) /\
    s_params (c_base s') = s_params (c_base (k_solver k)) /\
    (* the camera's grid loses exactly those corners *)
    (forall c t i, v_res v c <> [] -> corner_in rows cols t i ->
       exists b, has (v_grids v c) t i = Ret b /\
         has (v_grids v' c) t i = Ret (b && negb (existsb (fun cr => (fst cr =? c) && (vr_tag (snd cr) =? t) && (vr_corner (snd cr) =? i)) out)) /\
         (forall kp, keypoint (v_grids v' c) t i = Ret kp -> keypoint (v_grids v c) t i = Ret kp)) /\
    (forall c, v_res v c = [] -> v_grids v' c = v_grids v c) /\
    v_ts v' = v_ts v /\ v_pose v' = v_pose v.
Proof.
  intros blocks rows cols size sp V ext_addr cam_addr base k ts v err th Hr Hc Hreach Hv cams.
  pose proof (reach_KInv blocks rows cols size sp Hr Hc ext_addr cam_addr base k Hreach) as K.
  destruct (ki_view K ts v Hv) as (Hts & (val & Hp) & Hok & Hb).
  assert (Hkeys : base.NoDup cams) by apply keys_NoDup.
  destruct (filter_cams_ok blocks rows cols size sp Hr Hc err (fst th) (snd th) cams v (k_solver k))
    as (v' & s' & E & I & Hw & T1 & T2 & R1 & P1 & P2 & G1 & G2 & G3 & G4); [apply K|auto|auto|].
  assert (Hin : forall c r, In r (v_res v c) -> In c cams) by (intros c r H; apply (Hb c r H)).
  set (out := flat_map (fun c => map (pair c) (List.filter (outlier err (fst th) (snd th)) (v_res v c))) cams).
  assert (Hout : forall c r, In (c, r) out <-> In r (v_res v c) /\ violates err th r).
  { intros c r. unfold out. rewrite in_flat_map. split.
    - intros (c' & Hc' & H). apply in_map_iff in H. destruct H as (r' & E' & H). injection E' as -> ->.
      apply filter_In in H. rewrite outlier_violates in H. auto.
    - intros [H1 H2]. exists c. split; [eauto|]. apply in_map. apply filter_In. rewrite outlier_violates. auto. }
  assert (Hsnd : map snd out = flat_map (fun c => List.filter (outlier err (fst th) (snd th)) (v_res v c)) cams).
  { unfold out. clear. induction cams as [|c l IH]; simpl; auto. rewrite map_app, IH, map_map. simpl. now rewrite map_id. }
  exists v', s', out.
  split; [unfold filter_view; rewrite E, <- Hsnd, map_length; reflexivity|].
  split.
  { unfold out. clear -Hkeys Hok. induction Hkeys as [|c l Hn Hd IH]; simpl; [constructor|].
    apply NoDup_app. split; [|split; auto].
    - apply NoDup_fmap_2; [intros a b Eab; now injection Eab|].
      destruct (v_res v c) as [|r0 l0] eqn:El; [constructor|]. rewrite <- El.
      destruct (vo_cam _ _ _ _ _ _ Hok c) as (m & Hm); [congruence|].
      pose proof (cam_ok_ids rows cols size sp _ _ _ _ Hok Hm) as Hids.
      apply NoDup_ListNoDup, List.NoDup_filter, NoDup_ListNoDup. apply (NoDup_fmap_1 vr_id). exact Hids.
    - intros [c' r] H1 H2. apply elem_of_list_In, in_map_iff in H1. destruct H1 as (r' & E' & _). injection E' as <- <-.
      apply elem_of_list_In, in_flat_map in H2. destruct H2 as (c' & Hc' & H2). apply in_map_iff in H2.
      destruct H2 as (? & E' & _). injection E' as -> _. apply Hn, elem_of_list_In. auto. }
  split; [exact Hout|]. split.
  { intros c. exists (fun r => negb (outlier err (fst th) (snd th) r)). split.
    - destruct (in_dec Z.eq_dec c cams) as [Hi|Hi]; [apply G1; auto|].
      destruct (G2 c Hi) as [-> _]. destruct (v_res v c) as [|r l] eqn:El; auto. exfalso. apply Hi, (Hin c r). rewrite El. simpl. auto.
    - intros r. rewrite negb_false_iff. apply outlier_violates. }
  split.
  { intros id. rewrite R1, elem_of_difference, elem_of_list_to_set, elem_of_list_In, <- Hsnd. rewrite in_map_iff.
    split; intros [A B]; split; auto; intros X; apply B.
    - destruct X as (c & r & H & <-). exists r. split; auto. apply in_map_iff. exists (c, r). auto.
    - destruct X as (r & <- & H). apply in_map_iff in H. destruct H as ([c r'] & E' & H). simpl in E'. subst r'. exists c, r. auto. }
  split; [auto|]. split; [|auto].
  intros c t i Hne Hci. destruct (vo_cam _ _ _ _ _ _ Hok c Hne) as (m & Hm).
  assert (Hcc : In c cams) by (destruct (v_res v c) as [|r l] eqn:El; [congruence|]; apply (Hin c r); rewrite El; simpl; auto).
  destruct (G3 c m Hcc Hne Hm) as (HR & _). pose proof Hm as (HR0 & _).
  exists (present m (t, i)). rewrite (has_Rep _ _ _ _ _ _ _ _ HR0 Hci), (has_Rep _ _ _ _ _ _ _ _ HR Hci).
  assert (Hex : existsb (fun cr : Z * vres => (fst cr =? c) && (vr_tag (snd cr) =? t) && (vr_corner (snd cr) =? i)) out =
    existsb (fun r => (vr_tag r =? t) && (vr_corner r =? i)) (List.filter (outlier err (fst th) (snd th)) (v_res v c))).
  { apply eq_iff_eq_true. rewrite !existsb_exists. split.
    - intros ([c' r] & H1 & H2). simpl in H2. assert (c' = c) as -> by lia. exists r. split; [|lia].
      apply filter_In. rewrite outlier_violates. now apply Hout.
    - intros (r & H1 & H2). apply filter_In in H1. rewrite outlier_violates in H1. exists (c, r). simpl. rewrite Z.eqb_refl.
      split; [now apply Hout|auto]. }
  rewrite Hex. split; [auto|]. split.
  - f_equal. unfold present, without; cbn [fst snd].
    destruct (existsb (fun r => (vr_tag r =? t) && (vr_corner r =? i)) _); destruct (m t i); reflexivity.
  - intros kp. rewrite (keypoint_Rep _ _ _ _ _ _ _ _ HR Hci), (keypoint_Rep _ _ _ _ _ _ _ _ HR0 Hci).
    unfold without. destruct (existsb (fun r => (vr_tag r =? t) && (vr_corner r =? i)) _); [intros H; discriminate H|auto].
Qed.
Print Assumptions C28_filter_view_partial.
Example C28_ex : exists v, k_views ex_k1 !! 7 = Some v /\ v_res v 0 = [mkVres (ex_id 1 0 0 0) 0 0; mkVres (ex_id 1 0 0 3) 0 3] /\
  let err := fun id => if id =? ex_id 1 0 0 0 then Some (3, 0)%R else Some (0, 0)%R in
  violates err (2, 2)%R (mkVres (ex_id 1 0 0 0) 0 0) /\ ~ violates err (2, 2)%R (mkVres (ex_id 1 0 0 3) 0 3).
Proof.
  eexists. split; [vm_compute; reflexivity|]. split; [vm_compute; reflexivity|]. cbv zeta. split.
  - exists 3%R, 0%R. split; [vm_compute; reflexivity|]. cbn. lra.
  - intros (x & y & E & H). assert (E' : Some (0, 0)%R = Some (x, y)) by (rewrite <- E; vm_compute; reflexivity).
    injection E' as <- <-. cbn in H. lra.
Qed.

(** The other overload, filter_view(thresholds), applies the threshold of every camera to the
    residuals of all cameras: a residual survives iff it violates none of them. *)
Theorem C28_map_overload : forall (blocks : Z -> list Z) rows cols size sp (V : Type) ext_addr cam_addr base ths (k : calib V) ts v err,
  0 <= rows -> 0 <= cols -> reach blocks rows cols size sp ext_addr cam_addr base k -> k_views k !! ts = Some v ->
  exists v' s' n, filter_view_map blocks (keys (k_cams k)) err ths v (k_solver k) = Ret (v', s', n) /\
    forall c r, In r (v_res v' c) <-> In r (v_res v c) /\ forall j th, In (j, th) ths -> ~ violates err th r.
Proof.
  intros blocks rows cols size sp V ext_addr cam_addr base ths. induction ths as [|[j th] ths IH]; intros k ts v err Hr Hc Hk Hv; cbn [filter_view_map].
  - exists v, (k_solver k), 0. split; [reflexivity|]. intros c r. split; [|tauto]. intros H. split; auto; intros ? ? [].
  - destruct (C28_filter_view_partial blocks rows cols size sp V ext_addr cam_addr base k ts v err th Hr Hc Hk Hv)
      as (v1 & s1 & out & E1 & _ & _ & Hkeep & _).
    rewrite E1. cbn [obind]. pose proof (R_filter _ _ _ _ _ _ _ _ k err th ts v v1 s1 _ Hk Hv E1) as Hk1.
    destruct (IH _ ts v1 err Hr Hc Hk1) as (v2 & s2 & n & E2 & Hv2); [cbn; apply lookup_insert|].
    cbn [k_cams k_solver] in E2. rewrite E2. cbn [obind]. exists v2, s2. eexists. split; [reflexivity|].
    intros c r. rewrite Hv2. destruct (Hkeep c) as (keep & -> & Hkp). rewrite filter_In. split.
    + intros [[H1 H2] H3]. split; auto. intros j' th' [E|H]; [|eauto]. injection E as <- <-. rewrite <- Hkp. congruence.
    + intros [H1 H2]. split; [split; auto|]; [|intros j' th' H; eapply H2; right; eauto].
      destruct (keep r) eqn:E; auto. exfalso. apply Hkp in E. revert E. eapply H2. left; reflexivity.
Qed.
Print Assumptions C28_map_overload.

(** ** C28 as stated ("error exceeds the threshold") is false in two ways: the test is one sided,
    so a residual of -1000 pixels passes a threshold of 1 pixel; and in the per-camera overload a
    residual within its own camera's threshold is removed because of another camera's. *)
Theorem C28_one_sided_refuted : exists (k : calib Z) ts v err th r v' s',
  ex_reach k /\ k_views k !! ts = Some v /\ In r (v_res v 0) /\
  err (vr_id r) = Some (-1000, 0)%R /\ th = (1, 1)%R /\
  filter_view ex_blocks (keys (k_cams k)) err th v (k_solver k) = Ret (v', s', 0) /\ In r (v_res v' 0).
Proof.
  destruct C28_ex as (v & Hv & Hr & _).
  assert (Hn : forall r, ~ violates (fun _ => Some (-1000, 0)%R) (1, 1)%R r).
  { intros r (x & y & E & H). injection E as <- <-. cbn in H. lra. }
  destruct (C28_filter_view_partial ex_blocks 1 1 1%R 0%R Z ex_ext ex_cam (list_to_set [0; 1]) ex_k1 7 v (fun _ => Some (-1000, 0)%R) (1, 1)%R)
    as (v' & s' & out & E & _ & Hout & Hkeep & _); [lia|lia|apply ex_reach1|exact Hv|].
  exists ex_k1, 7, v, (fun _ => Some (-1000, 0)%R), (1, 1)%R, (mkVres (ex_id 1 0 0 0) 0 0), v', s'.
  split; [apply ex_reach1|]. split; [exact Hv|]. split; [rewrite Hr; simpl; auto|]. split; [auto|]. split; [auto|]. split.
  - assert (out = []) as Eo.
    { destruct out as [|[c r] o]; auto. exfalso. apply (Hn r). apply (Hout c r). simpl. auto. }
    rewrite E, Eo. reflexivity.
  - destruct (Hkeep 0) as (keep & -> & Hkp). apply filter_In. split; [rewrite Hr; simpl; auto|].
    destruct (keep _) eqn:Ek; auto. exfalso. apply Hkp in Ek. eapply Hn; eauto.
Qed.
Print Assumptions C28_one_sided_refuted.
Theorem C28_map_overload_refuted : exists (k : calib Z) ts v err ths r v' s' n,
  ex_reach k /\ k_views k !! ts = Some v /\ In r (v_res v 0) /\
  (forall th, In (0, th) ths -> ~ violates err th r) /\
  filter_view_map ex_blocks (keys (k_cams k)) err ths v (k_solver k) = Ret (v', s', n) /\ ~ In r (v_res v' 0).
Proof.
  destruct C28_ex as (v & Hv & Hr & _).
  set (err := fun _ : Z => Some (3, 0)%R). set (ths := [(0, (5, 5)%R); (1, (1, 1)%R)]).
  destruct (C28_map_overload ex_blocks 1 1 1%R 0%R Z ex_ext ex_cam (list_to_set [0; 1]) ths ex_k1 7 v err)
    as (v' & s' & n & E & H); [lia|lia|apply ex_reach1|exact Hv|].
  exists ex_k1, 7, v, err, ths, (mkVres (ex_id 1 0 0 0) 0 0), v', s', n.
  split; [apply ex_reach1|]. split; [exact Hv|]. split; [rewrite Hr; simpl; auto|]. split.
  { intros th [Eth|[Eth|[]]]; injection Eth; [intros <- (x & y & Exy & Hxy)|discriminate].
    injection Exy as <- <-. cbn in Hxy. lra. }
  split; [exact E|]. rewrite H. intros [_ Hc]. apply (Hc 1 (1, 1)%R); [simpl; auto|]. exists 3%R, 0%R. split; auto. cbn. lra.
Qed.
Print Assumptions C28_map_overload_refuted.

(** ** C29: views, poses and the solver's contents correspond in every reachable state *)
Theorem C29_correspondence : forall (blocks : Z -> list Z) rows cols size sp (V : Type) ext_addr cam_addr base (k : calib V),
  0 <= rows -> 0 <= cols -> reach blocks rows cols size sp ext_addr cam_addr base k ->
  (* one timestamp, one pose per view *)
  base.NoDup (k_vts k) /\ (forall ts, In ts (k_vts k) <-> is_Some (k_views k !! ts)) /\
  (forall ts, is_Some (k_poses k !! ts) <-> is_Some (k_views k !! ts)) /\
  (* the solver's parameters: those of the cameras and the views' poses, which are distinct *)
  (forall p, p ∈ s_params (c_base (k_solver k)) <-> p ∈ base \/ exists ts val, k_poses k !! ts = Some (p, val)) /\
  (forall ts p val, k_poses k !! ts = Some (p, val) -> p ∉ base) /\
  (forall ts ts' p val val', k_poses k !! ts = Some (p, val) -> k_poses k !! ts' = Some (p, val') -> ts = ts') /\
  (* the solver's residuals: those of the views, no two views share one *)
  (forall r, r ∈ s_res (c_base (k_solver k)) <-> exists ts v, k_views k !! ts = Some v /\ holds v r) /\
  (forall ts ts' v v' r, k_views k !! ts = Some v -> k_views k !! ts' = Some v' -> holds v r -> holds v' r -> ts = ts') /\
  (* a view knows its timestamp and its pose; its residuals connect its pose with the camera they belong to *)
  (forall ts v, k_views k !! ts = Some v -> v_ts v = ts /\ (exists val, k_poses k !! ts = Some (v_pose v, val)) /\
     forall cam x, In x (v_res v cam) -> is_Some (k_cams k !! cam) /\ blocks (vr_id x) = [ext_addr cam; v_pose v; cam_addr cam]) /\
  (* ceres holds the same parameters and residuals *)
  c_pparams (k_solver k) = s_params (c_base (k_solver k)) /\ c_pres (k_solver k) = s_res (c_base (k_solver k)).
Proof.
  intros blocks rows cols size sp V ext_addr cam_addr base k Hr Hc Hk.
  pose proof (reach_KInv blocks rows cols size sp Hr Hc ext_addr cam_addr base k Hk) as K.
  split; [apply K|]. split; [apply K|]. split; [apply K|]. split; [apply K|]. split; [apply K|]. split; [apply K|].
  split.
  { intros r. rewrite (ki_res K). split.
    - intros (ts & v & cam & x & H1 & H2 & H3). exists ts, v. split; auto. exists cam, x. auto.
    - intros (ts & v & H1 & cam & x & H2 & H3). exists ts, v, cam, x. auto. }
  split; [intros; eapply (views_disjoint blocks rows cols size sp ext_addr cam_addr base k ts ts' v v' r); eauto|].
  split.
  { intros ts v Hv. destruct (ki_view K ts v Hv) as (A & B & _ & D). split; auto. split; auto.
    intros cam x Hx. destruct (D cam x Hx) as (D1 & D2 & _). split; auto. now apply keys_lookup. }
  split; [apply K|]. apply (ki_c K).
Qed.
Print Assumptions C29_correspondence.

(** add_view of a new timestamp adds one view, its pose and one residual per stored corner of
    each detected grid of a calibrated camera; nothing else changes *)
Theorem C29_add_view : forall (blocks : Z -> list Z) rows cols size sp (V : Type) ext_addr cam_addr base (k k' : calib V) e hs gs b,
  0 <= rows -> 0 <= cols -> reach blocks rows cols size sp ext_addr cam_addr base k ->
  fresh_env blocks ext_addr cam_addr e k -> recorded rows cols size sp hs gs -> new_ts k gs ->
  add_view blocks (fiducial_corners rows cols size sp) e k gs = Ret (b, k') ->
  (b = false -> first_detected gs = None /\ k' = k) /\
  (b = true -> exists ts v T, first_detected gs = Some ts /\
     k_cams k' = k_cams k /\ k_exts k' = k_exts k /\ k_info k' = k_info k /\ k_vts k' = k_vts k ++ [ts] /\
     k_views k' = <[ts := v]> (k_views k) /\ k_poses k' = <[ts := (e_pose e, T)]> (k_poses k) /\
     (forall cam t i, (exists x, In x (v_res v cam) /\ vr_tag x = t /\ vr_corner x = i) <->
        is_Some (k_cams k !! cam) /\ (exists g, In (cam, g) gs /\ g_detected g = true) /\
        corner_in rows cols t i /\ content_of hs cam t i <> None) /\
     (forall cam, base.NoDup (map (fun x => (vr_tag x, vr_corner x)) (v_res v cam))) /\
     s_params (c_base (k_solver k')) = {[e_pose e]} ∪ s_params (c_base (k_solver k)) /\
     (forall r, r ∈ s_res (c_base (k_solver k')) <-> r ∈ s_res (c_base (k_solver k)) \/ holds v r)).
Proof.
  intros blocks rows cols size sp V ext_addr cam_addr base k k' e hs gs b Hr Hc Hk F G N E.
  pose proof (reach_KInv blocks rows cols size sp Hr Hc ext_addr cam_addr base k Hk) as K.
  pose proof (recorded_ok blocks rows cols size sp Hr Hc ext_addr cam_addr hs gs G) as GO.
  destruct (first_detected gs) as [ts|] eqn:Hfd.
  2: { rewrite add_view_undetected in E by auto. injection E as <- <-. split; [auto|discriminate]. }
  destruct (estimate_ret blocks rows cols size sp ext_addr cam_addr base k e gs ts _ K Hfd (N ts Hfd) E) as [T HT].
  destruct (add_view_new blocks rows cols size sp Hr Hc ext_addr cam_addr base k e gs (content_of hs) ts T K F GO Hfd (N ts Hfd) HT)
    as (k1 & v & E1 & K1 & A1 & A2 & A3 & A4 & A5 & A6 & A7 & A8 & _ & A9 & A10 & A11).
  rewrite E in E1. injection E1 as -> <-. split; [discriminate|]. intros _. exists ts, v, T.
  split; [auto|]. split; [auto|]. split; [auto|]. split; [auto|]. split; [auto|]. split; [auto|]. split; [auto|].
  split; [|split; [|split; [auto|]]].
  - intros cam t i. rewrite A8. split.
    + intros (x & Hx & <- & <-). apply (want_In blocks rows cols ext_addr cam_addr) in Hx.
      destruct Hx as (H1 & H2 & t' & i' & -> & H3 & H4). cbn. split; [now apply keys_lookup|]. auto.
    + intros (H1 & (g & Hg & Hd) & H2 & H3). exists (mkVres (e_alloc e cam t i) t i). cbn. split; [|auto].
      unfold want. assert (existsb (fun cg => (fst cg =? cam) && g_detected (snd cg)) gs = true) as ->.
      { apply existsb_exists. exists (cam, g). split; auto. cbn. now rewrite Z.eqb_refl, Hd. }
      assert (existsb (Z.eqb cam) (keys (k_cams k)) = true) as ->.
      { apply existsb_exists. exists cam. split; [now apply keys_lookup|apply Z.eqb_refl]. }
      cbn [andb]. apply in_map_iff. exists (t, i). split; [reflexivity|]. apply seen_In. auto.
  - intros cam. rewrite A8. unfold want. destruct (_ && _); [|constructor]. rewrite map_map. cbn.
    rewrite (map_ext _ (fun tc => tc)) by (intros []; reflexivity). rewrite map_id. apply (seen_NoDup blocks).
  - intros r. rewrite A11. unfold holds. setoid_rewrite A8. reflexivity.
Qed.
Print Assumptions C29_add_view.

(** removing the view again restores everything but the remembered input data *)
Theorem C29_add_then_remove : forall (blocks : Z -> list Z) rows cols size sp (V : Type) ext_addr cam_addr base (k k1 : calib V) e hs gs ts,
  0 <= rows -> 0 <= cols -> reach blocks rows cols size sp ext_addr cam_addr base k ->
  fresh_env blocks ext_addr cam_addr e k -> recorded rows cols size sp hs gs -> new_ts k gs ->
  first_detected gs = Some ts ->
  add_view blocks (fiducial_corners rows cols size sp) e k gs = Ret (true, k1) ->
  exists k2, remove_view blocks k1 ts = Ret k2 /\
    k_cams k2 = k_cams k /\ k_exts k2 = k_exts k /\ k_info k2 = k_info k /\
    k_poses k2 = k_poses k /\ k_views k2 = k_views k /\ k_vts k2 = k_vts k /\
    s_params (c_base (k_solver k2)) = s_params (c_base (k_solver k)) /\
    s_res (c_base (k_solver k2)) = s_res (c_base (k_solver k)) /\
    c_pparams (k_solver k2) = c_pparams (k_solver k) /\ c_pres (k_solver k2) = c_pres (k_solver k) /\
    k_data k2 = {[ts]} ∪ k_data k.
Proof.
  intros blocks rows cols size sp V ext_addr cam_addr base k k1 e hs gs ts Hr Hc Hk F G N Hfd E.
  pose proof (reach_KInv blocks rows cols size sp Hr Hc ext_addr cam_addr base k Hk) as K.
  pose proof (recorded_ok blocks rows cols size sp Hr Hc ext_addr cam_addr hs gs G) as GO.
  destruct (add_remove blocks rows cols size sp Hr Hc ext_addr cam_addr base k e gs (content_of hs) ts k1 K F GO Hfd (N ts Hfd) E)
    as (k2 & H1 & H2 & H3 & H4 & H5 & H6 & H7 & H8 & H9 & H10 & H11 & H12 & H13).
  exists k2. repeat (split; [auto; fail|]). auto.
Qed.
Print Assumptions C29_add_then_remove.

(** remove_view always succeeds, removes that view, its pose and its residuals, and only those *)
Theorem C29_remove_view : forall (blocks : Z -> list Z) rows cols size sp (V : Type) ext_addr cam_addr base (k : calib V) ts,
  0 <= rows -> 0 <= cols -> reach blocks rows cols size sp ext_addr cam_addr base k ->
  exists k', remove_view blocks k ts = Ret k' /\
    k_cams k' = k_cams k /\ k_exts k' = k_exts k /\
    k_poses k' = delete ts (k_poses k) /\ k_views k' = delete ts (k_views k) /\
    k_vts k' = List.filter (fun x => negb (x =? ts)) (k_vts k) /\
    (forall p, p ∈ s_params (c_base (k_solver k')) <-> p ∈ s_params (c_base (k_solver k)) /\
       forall val, k_poses k !! ts <> Some (p, val)) /\
    (forall r, r ∈ s_res (c_base (k_solver k')) <-> r ∈ s_res (c_base (k_solver k)) /\
       forall v, k_views k !! ts = Some v -> ~ holds v r).
Proof.
  intros blocks rows cols size sp V ext_addr cam_addr base k ts Hr Hc Hk.
  pose proof (reach_KInv blocks rows cols size sp Hr Hc ext_addr cam_addr base k Hk) as K.
  destruct (remove_view_ok blocks rows cols size sp Hr Hc ext_addr cam_addr base k ts K)
    as (k' & E & _ & H1 & H2 & _ & _ & H3 & H4 & H5 & H6 & H7).
  exists k'. auto 10.
Qed.
Print Assumptions C29_remove_view.
Theorem C29_remove_all_views : forall (blocks : Z -> list Z) rows cols size sp (V : Type) ext_addr cam_addr base (k : calib V),
  0 <= rows -> 0 <= cols -> reach blocks rows cols size sp ext_addr cam_addr base k ->
  exists k', remove_all_views blocks k = Ret k' /\
    k_cams k' = k_cams k /\ k_exts k' = k_exts k /\ k_views k' = ∅ /\ k_poses k' = ∅ /\ k_vts k' = [] /\
    s_res (c_base (k_solver k')) = ∅ /\ s_params (c_base (k_solver k')) = base.
Proof.
  intros blocks rows cols size sp V ext_addr cam_addr base k Hr Hc Hk.
  pose proof (reach_KInv blocks rows cols size sp Hr Hc ext_addr cam_addr base k Hk) as K.
  destruct (remove_all_views_ok blocks rows cols size sp Hr Hc ext_addr cam_addr base k K)
    as (k' & E & _ & H1 & H2 & _ & _ & H3 & H4 & H5 & H6 & H7).
  exists k'. auto 10.
Qed.
Print Assumptions C29_remove_all_views.
Example C29_ex : ex_reach ex_k1 /\ k_vts ex_k1 = [7] /\ size (s_res (c_base (k_solver ex_k1))) = 2%nat /\
  remove_view ex_blocks ex_k1 7 = Ret ex_k1r /\ k_vts ex_k1r = [] /\ size (s_res (c_base (k_solver ex_k1r))) = 0%nat /\
  fresh_env ex_blocks ex_ext ex_cam (ex_env 1 50) ex_k0 /\ recorded 1 1 1%R 0%R (ex_hist 7) (ex_gs 7) /\
  new_ts ex_k0 (ex_gs 7) /\ first_detected (ex_gs 7) = Some 7.
Proof.
  split; [apply ex_reach1|]. split; [vm_compute; reflexivity|]. split; [vm_compute; reflexivity|].
  split; [apply ex_remove1|]. split; [vm_compute; reflexivity|]. split; [vm_compute; reflexivity|].
  split; [apply ex_fresh0; lia|]. split; [apply ex_recorded|]. split; [intros ts _; reflexivity|vm_compute; reflexivity].
Qed.

(** Without the "new timestamp" condition the claim is false: a second view with the timestamp of
    an existing one leaves the first view's residuals in the solver without any view holding them,
    and its timestamp twice in the list; after remove_view a timestamp without a view remains. *)
Theorem C29_repeated_timestamp_refuted : exists k2 k3 : calib Z,
  fresh_env ex_blocks ex_ext ex_cam (ex_env 2 60) ex_k1 /\
  add_view ex_blocks ex_corners (ex_env 2 60) ex_k1 (ex_gs 7) = Ret (true, k2) /\
  k_vts k2 = [7; 7] /\
  (exists r, r ∈ s_res (c_base (k_solver k2)) /\ forall ts v, k_views k2 !! ts = Some v -> ~ holds v r) /\
  remove_view ex_blocks k2 7 = Ret k3 /\ k_vts k3 = [7] /\ k_views k3 !! 7 = None.
Proof.
  exists ex_k2, ex_k2r. split; [apply ex_fresh2|]. split; [apply ex_add2|].
  split; [vm_compute; reflexivity|]. split.
  { exists (ex_id 1 0 0 0). split; [by_dec|]. intros ts v Hv (cam & x & Hx & E).
    assert (Hl : (map_to_list (k_views ex_k2)).*1 = [7]) by (vm_compute; reflexivity).
    assert (Ht : ts = 7).
    { apply elem_of_map_to_list in Hv. apply (elem_of_list_fmap_1 fst) in Hv. rewrite Hl in Hv. now apply elem_of_list_singleton in Hv. }
    subst ts.
    assert (H7 : exists f, fmap v_res (k_views ex_k2 !! 7) = Some f /\ forall c,
      f c = if c =? 0 then [mkVres (ex_id 2 0 0 0) 0 0; mkVres (ex_id 2 0 0 3) 0 3] else []).
    { eexists. split; [vm_compute; reflexivity|]. intros [|p|p]; vm_compute; reflexivity. }
    destruct H7 as (f & Hf & Hc). rewrite Hv in Hf. injection Hf as <-. rewrite Hc in Hx.
    destruct (cam =? 0); [|destruct Hx]. destruct Hx as [<-|[<-|[]]]; apply ex_id_inj in E; lia. }
  split; [apply ex_remove2|]. split; [vm_compute; reflexivity|].
  assert (H : bool_decide (7 ∈ dom (k_views ex_k2r)) = false) by (vm_compute; reflexivity).
  apply bool_decide_eq_false in H. now apply not_elem_of_dom in H.
Qed.
Print Assumptions C29_repeated_timestamp_refuted.
