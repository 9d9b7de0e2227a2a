From Coq Require Import Reals.
From Verif Require Import Base.
From stdpp Require Import gmap sets list sorting.
From Verif Require Import AprilGridModel AprilGridSpec AprilGridProofs AprilGridIOModel SolverModel SolverProofs CalibModel CalibSpec CalibProofs CalibProofs2 CalibProofs3 CalibProofs4 CalibProofs5 Prop_Calib OutlierModel.
Local Open Scope Z_scope.

Lemma run_app g o1 o2 g1 : run g o1 = (Done, g1) -> run g (o1 ++ o2) = run g1 o2.
Proof.
  revert g. induction o1 as [|o o1 IH]; intros g; cbn [run app]; [intros H; injection H as ->; reflexivity|].
  destruct (step g o) as [[| |] g'] eqn:E; intros H; try discriminate H. auto.
Qed.
Section P.
Context (blocks : Z -> list Z) (rows cols : Z) (size sp : R).
Context (Hrows : 0 <= rows) (Hcols : 0 <= cols).
Context {V : Type}.
Context (ext_addr cam_addr : Z -> Z).
Notation corners := (fiducial_corners rows cols size sp).
Notation KInvD := (KInv blocks rows cols size sp ext_addr cam_addr).
Notation reachD := (reach blocks rows cols size sp ext_addr cam_addr).
Notation fresh_envD := (fresh_env blocks ext_addr cam_addr).
Notation recordedD := (recorded rows cols size sp).

(** the filtered grid is obtained from the grid by removing corners *)
Definition later (g g' : grid) : Prop := exists ops, Forall (op_in rows cols) ops /\ run g ops = (Done, g').
Lemma later_refl g : later g g.
Proof. exists []. split; [constructor|reflexivity]. Qed.
Lemma later_trans g1 g2 g3 : later g1 g2 -> later g2 g3 -> later g1 g3.
Proof.
  intros (o1 & F1 & E1) (o2 & F2 & E2). exists (o1 ++ o2). split; [apply Forall_app; auto|]. rewrite (run_app _ _ _ _ E1). exact E2.
Qed.
Lemma later_filter_loop err thx thy l : forall g s l' g' s' n, (forall r, In r l -> corner_in rows cols (vr_tag r) (vr_corner r)) ->
  filter_loop blocks err thx thy l g s = Ret (l', g', s', n) -> later g g'.
Proof.
  induction l as [|r l IH]; intros g s l' g' s' n Hin; cbn [filter_loop].
  - intros H. injection H as _ <- _ _. apply later_refl.
  - destruct (outlier err thx thy r).
    + destruct (remove g (vr_tag r) (vr_corner r)) as [[| |] g1] eqn:E; try (intros H; discriminate H).
      destruct (has g1 _ _) as [[|]| |]; cbn [obind]; try (intros H; discriminate H). destruct (_ =? _); try (intros H; discriminate H).
      destruct (c_remove_residual blocks s (vr_id r)) as [s1| |]; cbn [obind]; try (intros H; discriminate H).
      destruct (filter_loop blocks err thx thy l g1 s1) as [[[[a b] c] d]| |] eqn:E2; cbn [obind]; try (intros H; discriminate H).
      intros H. injection H as <- <- <- <-. eapply later_trans; [|eapply IH; [|exact E2]; intros; apply Hin; right; auto].
      exists [OpRemove (vr_tag r) (vr_corner r)]. split; [constructor; [apply Hin; left; reflexivity|constructor]|]. cbn [run step]. rewrite E. reflexivity.
    + destruct (filter_loop blocks err thx thy l g s) as [[[[a b] c] d]| |] eqn:E2; cbn [obind]; try (intros H; discriminate H).
      intros H. injection H as <- <- <- <-. eapply IH; [|exact E2]. intros; apply Hin; right; auto.
Qed.
Lemma filter_loop_In err thx thy l : forall g s l' g' s' n r, filter_loop blocks err thx thy l g s = Ret (l', g', s', n) -> In r l' -> In r l.
Proof.
  induction l as [|r0 l IH]; intros g s l' g' s' n r; cbn [filter_loop].
  - intros H. injection H as <- _ _ _. auto.
  - destruct (outlier err thx thy r0).
    + destruct (remove g (vr_tag r0) (vr_corner r0)) as [[| |] g1] eqn:E; try (intros H; discriminate H).
      destruct (has g1 _ _) as [[|]| |]; cbn [obind]; try (intros H; discriminate H). destruct (_ =? _); try (intros H; discriminate H).
      destruct (c_remove_residual blocks s (vr_id r0)) as [s1| |]; cbn [obind]; try (intros H; discriminate H).
      destruct (filter_loop blocks err thx thy l g1 s1) as [[[[a b] c] d]| |] eqn:E2; cbn [obind]; try (intros H; discriminate H).
      intros H. injection H as <- <- <- <-. right. eapply IH; eauto.
    + destruct (filter_loop blocks err thx thy l g s) as [[[[a b] c] d]| |] eqn:E2; cbn [obind]; try (intros H; discriminate H).
      intros H. injection H as <- <- <- <-. intros [Hr|Hr]; [left; auto|right; eapply IH; eauto].
Qed.
Lemma later_filter_cams err thx thy cs : forall v s v' s' n, (forall c r, In r (v_res v c) -> corner_in rows cols (vr_tag r) (vr_corner r)) ->
  filter_cams blocks err thx thy cs v s = Ret (v', s', n) -> forall c, later (v_grids v c) (v_grids v' c).
Proof.
  induction cs as [|c0 cs IH]; intros v s v' s' n Hin; cbn [filter_cams].
  - intros H c. injection H as <- _ _. apply later_refl.
  - destruct (filter_loop blocks err thx thy (v_res v c0) (v_grids v c0) s) as [[[[a b] d] e]| |] eqn:E; cbn [obind]; try (intros H; discriminate H).
    destruct (filter_cams blocks err thx thy cs _ _) as [[[v1 s1] n1]| |] eqn:E2; cbn [obind]; try (intros H; discriminate H).
    intros H c. injection H as <- <- <-. eapply later_trans; [|eapply (IH _ _ _ _ _); [|exact E2]].
    + cbn [v_grids]. unfold fset. destruct (Z.eqb_spec c c0) as [->|]; [eapply later_filter_loop; [|exact E]; eauto|apply later_refl].
    + cbn [v_res]. intros c1 r Hr. unfold fset in Hr. destruct (Z.eqb_spec c1 c0) as [->|]; [|eauto].
      eapply Hin. eapply (filter_loop_In err thx thy); eauto.
Qed.

(** ** Views whose grids are known *)
(** [ks]: the cameras of the view's grids; each is the outcome of a history of calls; every corner of a calibrated camera's
    grid has its residual. *)
Definition complete (k : calib V) (ks : list Z) (ts : Z) (v : cview) : Prop :=
  (exists hist, recordedD hist (grids_of ks v)) /\
  (forall c, In c ks -> g_ts (v_grids v c) = ts) /\
  (forall c t i, In c ks -> is_Some (k_cams k !! c) -> corner_in rows cols t i -> has (v_grids v c) t i = Ret true ->
     exists r, In r (v_res v c) /\ corner_of r = (t, i)) /\
  (forall c r, In r (v_res v c) -> In c ks).

Lemma later_ts g g' m : Rep rows cols size sp g m -> later g g' -> g_ts g' = g_ts g.
Proof.
  intros H (ops & F & E). revert g m H E. induction ops as [|o ops IH]; intros g m H E; cbn [run] in E; [injection E as <-; reflexivity|].
  inversion F as [|? ? F1 F2]; subst.
  destruct (run_books rows cols size sp Hrows Hcols [o] g m) as (g1 & E1 & R1 & T1 & _); [exact H|constructor; auto|].
  cbn [run] in E1. destruct (step g o) as [[| |] g1'] eqn:Es; try discriminate E1. injection E1 as ->.
  rewrite (IH F2 g1 _ R1 E). exact T1.
Qed.
Lemma recorded_rep hist ks v c : recordedD hist (grids_of ks v) -> In c ks ->
  exists m, Rep rows cols size sp (v_grids v c) m /\ BookGe rows cols (v_grids v c) m.
Proof.
  intros Hr Hc. pose proof (recorded_ok blocks rows cols size sp Hrows Hcols ext_addr cam_addr hist _ Hr) as [_ G].
  exists (content_of hist c). apply G. apply in_map_iff. exists c. auto.
Qed.
Lemma recorded_later hist ks v v' : recordedD hist (grids_of ks v) -> (forall c, later (v_grids v c) (v_grids v' c)) ->
  exists hist', recordedD hist' (grids_of ks v').
Proof.
  intros [Hnd HF] HL.
  assert (H : exists hist', map fst hist' = map fst hist /\ Forall2 (fun h cg => fst cg = fst h /\ Forall (op_in rows cols) (snd (snd h)) /\
     run (new_grid (fst (snd h)) rows cols size sp) (snd (snd h)) = (Done, snd cg)) hist' (grids_of ks v')).
  { clear Hnd. unfold grids_of in *. revert hist HF. induction ks as [|c ks IH]; intros hist HF; cbn [map] in *; inversion HF as [|h cg hs gs (E1 & E2 & E3) HF']; subst.
    - exists []. split; [reflexivity|constructor].
    - destruct (IH _ HF') as (hist' & E & F). destruct (HL c) as (ops & Fo & Eo). exists ((fst h, (fst (snd h), snd (snd h) ++ ops)) :: hist').
      split; [cbn [map fst]; congruence|]. constructor; [|exact F]. cbn [fst snd] in *. split; [exact E1|]. split; [apply Forall_app; auto|]. rewrite (run_app _ _ _ _ E3). exact Eo. }
  destruct H as (hist' & E & F). exists hist'. split; [rewrite E; exact Hnd|exact F].
Qed.

(** one threshold after the other *)
Definition survives (e : Z -> option (R * R)) (ths : list (Z * (R * R))) (r : vres) : Prop := forall j th, In (j, th) ths -> ~ violates e th r.
Definition count (cams : list Z) (v : cview) : Z := Z.of_nat (length (flat_map (v_res v) cams)).
Lemma filter_map_ok base e ths : forall (k : calib V) ts v ks, reachD base k -> k_views k !! ts = Some v -> complete k ks ts v ->
  exists v' s' n, filter_view_map blocks (keys (k_cams k)) e ths v (k_solver k) = Ret (v', s', n) /\
    reachD base (put_view k ts v' s') /\ complete k ks ts v' /\ v_pose v' = v_pose v /\
    (forall c r, In r (v_res v' c) <-> In r (v_res v c) /\ survives e ths r) /\
    n = count (keys (k_cams k)) v - count (keys (k_cams k)) v' /\
    (forall r, r ∈ s_res (c_base s') -> r ∈ s_res (c_base (k_solver k))) /\ c_pparams s' = c_pparams (k_solver k).
Proof.
  induction ths as [|[j th] ths IH]; intros k ts v ks Hk Hv HC; cbn [filter_view_map].
  - exists v, (k_solver k), 0. split; [reflexivity|]. split.
    { unfold put_view. rewrite insert_id by exact Hv. destruct k; exact Hk. }
    split; [exact HC|]. split; [reflexivity|]. split; [intros c r; split; [intros H; split; [exact H|intros ? ? []]|tauto]|]. split; [lia|]. auto.
  - pose proof (reach_KInv blocks rows cols size sp Hrows Hcols ext_addr cam_addr base k Hk) as K.
    destruct (C28_filter_view_partial blocks rows cols size sp V ext_addr cam_addr base k ts v e th Hrows Hcols Hk Hv)
      as (v1 & s1 & out & E1 & Hnd & Hout & Hkeep & Hres & Hpar & Hgr & Hgr0 & Hts & Hpose).
    rewrite E1. cbn [obind].
    pose proof (R_filter _ _ _ _ _ _ _ _ k e th ts v v1 s1 _ Hk Hv E1) as Hk1.
    change (reachD base (put_view k ts v1 s1)) in Hk1.
    destruct (ki_view K ts v Hv) as (_ & _ & Hok & Hb).
    assert (Hcor : forall c r, In r (v_res v c) -> corner_in rows cols (vr_tag r) (vr_corner r)).
    { intros c r Hr. destruct (vo_cam _ _ _ _ _ _ Hok c) as (m & _ & _ & _ & H); [intros E; rewrite E in Hr; destruct Hr|]. apply (H r Hr). }
    assert (HC1 : complete k ks ts v1).
    { destruct HC as ((hist & Hrec) & C2 & C3 & C4).
      assert (HL : forall c, later (v_grids v c) (v_grids v1 c)) by (intros c; unfold filter_view in E1; eapply later_filter_cams; eauto).
      split; [eapply recorded_later; eauto|]. split; [|split].
      - intros c Hc. destruct (recorded_rep _ _ _ _ Hrec Hc) as (m & Rm & _). rewrite (later_ts _ _ m Rm (HL c)). auto.
      - intros c t i Hc Hcc Hci Hh. destruct (Hkeep c) as (keep & Ek & Hkp). destruct (v_res v c) as [|r0 l0] eqn:El.
        + rewrite (Hgr0 c El) in Hh. destruct (C3 c t i Hc Hcc Hci Hh) as (r & Hr & _). rewrite El in Hr. destruct Hr.
        + destruct (Hgr c t i) as (b & B1 & B2 & _); [congruence|exact Hci|]. rewrite B2 in Hh. injection Hh as Hh. apply andb_true_iff in Hh as [-> Hh].
          destruct (C3 c t i Hc Hcc Hci B1) as (r & Hr & Er). exists r. split; [|exact Er]. rewrite Ek, <- El. apply filter_In. split; [exact Hr|].
          destruct (keep r) eqn:Ekr; [reflexivity|]. exfalso. apply Hkp in Ekr. apply negb_true_iff, not_true_iff_false in Hh. apply Hh. apply existsb_exists.
          exists (c, r). split; [apply Hout; auto|]. unfold corner_of in Er. injection Er as <- <-. cbn. rewrite !Z.eqb_refl. reflexivity.
      - intros c r Hr. destruct (Hkeep c) as (keep & Ek & _). rewrite Ek in Hr. apply filter_In in Hr. eapply C4. apply Hr. }
    destruct (IH (put_view k ts v1 s1) ts v1 ks Hk1) as (v2 & s2 & n & E2 & Hk2 & HC2 & Hp2 & Hr2 & Hn2 & Hs2 & Hq2); [apply lookup_insert|exact HC1|].
    cbn [put_view k_cams k_solver] in *. rewrite E2. cbn [obind]. exists v2, s2. eexists. split; [reflexivity|].
    split. { revert Hk2. unfold put_view. cbn [k_cams k_exts k_data k_poses k_views k_vts k_info]. rewrite insert_insert. auto. }
    split; [exact HC2|]. split; [congruence|]. split.
    { intros c r. rewrite Hr2. destruct (Hkeep c) as (keep & -> & Hkp). rewrite filter_In. split.
      + intros [[H1 H2] H3]. split; [exact H1|]. intros j' th' [E|H]; [|eapply H3; eauto]. injection E as <- <-. rewrite <- Hkp. congruence.
      + intros [H1 H2]. split; [split; [exact H1|]|intros j' th' H; eapply H2; right; eauto].
        destruct (keep r) eqn:E; [reflexivity|]. exfalso. apply Hkp in E. revert E. eapply H2. left; reflexivity. }
    split; [|split; [|]].
    { rewrite Hn2. assert (Hc : count (keys (k_cams k)) v = count (keys (k_cams k)) v1 + Z.of_nat (length out)); [|lia].
      assert (Hlen : length out = length (flat_map (fun c => List.filter (outlier e (fst th) (snd th)) (v_res v c)) (keys (k_cams k)))).
      { unfold filter_view in E1.
        destruct (filter_cams_ok blocks rows cols size sp Hrows Hcols e (fst th) (snd th) (keys (k_cams k)) v (k_solver k)) as (w & s & E & _); [apply K|auto|apply keys_NoDup|].
        rewrite E in E1. injection E1 as _ _ E1. apply Nat2Z.inj. auto. }
      unfold count. rewrite Hlen. clear -Hkeep. induction (keys (k_cams k)) as [|c cs IHc]; [reflexivity|]. cbn [flat_map]. rewrite !app_length.
      destruct (Hkeep c) as (keep & -> & Hkp).
      assert (length (v_res v c) = length (List.filter keep (v_res v c)) + length (List.filter (outlier e (fst th) (snd th)) (v_res v c)))%nat; [|lia].
      clear -Hkp. induction (v_res v c) as [|r l IHl]; [reflexivity|]. cbn [List.filter]. destruct (keep r) eqn:Ekr; destruct (outlier e (fst th) (snd th) r) eqn:Eo; cbn [length]; try lia.
      - apply outlier_violates, Hkp in Eo. congruence.
      - apply Hkp in Ekr. apply outlier_violates in Ekr. congruence. }
    { intros r Hr. apply Hs2 in Hr. apply Hres in Hr. apply Hr. }
    { rewrite Hq2. pose proof (reach_KInv blocks rows cols size sp Hrows Hcols ext_addr cam_addr base _ Hk1) as K1.
      pose proof (ki_pp K1) as P1. cbn [put_view k_solver] in P1. rewrite P1, (ki_pp K). exact Hpar. }
Qed.

(** ** Restoring the estimates *)
Lemma restore_is_solved (x : V) h (k : calib V) : exists n, restore_estimates h k = solved n k.
Proof.
  exists (mkValues (fun c => default (default x (k_cams k !! c)) (ch_cam h !! c))
    (fun c => if bool_decide (c ∈ keys (k_cams k)) then default (default x (k_exts k !! c)) (ch_ext h !! c) else default x (k_exts k !! c))
    (fun t => default (default x (snd <$> k_poses k !! t)) (ch_pose h !! t))).
  unfold restore_estimates, solved. f_equal; apply map_eq; intros c; rewrite !map_lookup_imap; cbn [n_cam n_ext n_pose].
  - destruct (k_cams k !! c) as [v|]; reflexivity.
  - destruct (k_exts k !! c) as [v|]; reflexivity.
  - destruct (k_poses k !! c) as [v|]; reflexivity.
Qed.
Lemma solved_keys n (k : calib V) c : is_Some (k_cams (solved n k) !! c) <-> is_Some (k_cams k !! c).
Proof. cbn. rewrite map_lookup_imap. destruct (k_cams k !! c); cbn; split; intros [? H]; eauto; discriminate H. Qed.
Lemma solved_exts n (k : calib V) c : is_Some (k_exts (solved n k) !! c) <-> is_Some (k_exts k !! c).
Proof. cbn. rewrite map_lookup_imap. destruct (k_exts k !! c); cbn; split; intros [? H]; eauto; discriminate H. Qed.
Lemma solved_pose n (k : calib V) t p v : k_poses k !! t = Some (p, v) -> k_poses (solved n k) !! t = Some (p, n_pose n t).
Proof. cbn. rewrite map_lookup_imap. intros ->. reflexivity. Qed.
Lemma restored_cams (k k4 : calib V) h : cache_estimates k = Ret h -> (forall c, is_Some (k_cams k4 !! c) <-> is_Some (k_cams k !! c)) ->
  k_cams (restore_estimates h k4) = k_cams k.
Proof.
  unfold cache_estimates. destruct (forallb _ _); [|discriminate]. intros H Hd. injection H as <-. apply map_eq. intros c. cbn. rewrite map_lookup_imap.
  destruct (k_cams k4 !! c) as [v|] eqn:E; destruct (k_cams k !! c) as [w|] eqn:E2; cbn; auto; exfalso.
  - destruct (proj1 (Hd c)) as [? X]; [rewrite E; eauto|]. rewrite E2 in X. discriminate X.
  - destruct (proj2 (Hd c)) as [? X]; [rewrite E2; eauto|]. rewrite E in X. discriminate X.
Qed.
Lemma restored_exts (k k4 : calib V) h c : cache_estimates k = Ret h -> is_Some (k_cams k4 !! c) -> is_Some (k_cams k !! c) ->
  is_Some (k_exts k4 !! c) -> k_exts (restore_estimates h k4) !! c = k_exts k !! c.
Proof.
  unfold cache_estimates. destruct (forallb _ _) eqn:Ef; [|discriminate]. intros H H4 H1 [v Hv]. injection H as <-. cbn. rewrite map_lookup_imap, Hv. cbn.
  rewrite bool_decide_eq_true_2; [|apply elem_of_list_In, keys_lookup; exact H4].
  assert (H5 : is_Some (k_exts k !! c)).
  { rewrite forallb_forall in Ef. specialize (Ef c (proj2 (keys_lookup _ _) H1)). apply bool_decide_eq_true in Ef. exact Ef. }
  destruct H5 as [w Hw]. rewrite Hw. f_equal. erewrite map_filter_lookup_Some_2; [reflexivity|exact Hw|]. cbn. apply elem_of_list_In, keys_lookup; exact H1.
Qed.
Lemma restored_pose (k k4 : calib V) h t p v q w : cache_estimates k = Ret h -> k_poses k4 !! t = Some (p, v) -> k_poses k !! t = Some (q, w) ->
  k_poses (restore_estimates h k4) !! t = Some (p, w).
Proof.
  unfold cache_estimates. destruct (forallb _ _); [|discriminate]. intros H H4 H1. injection H as <-. cbn. rewrite map_lookup_imap, H4. cbn. rewrite lookup_fmap, H1. reflexivity.
Qed.
Lemma restored_none (k4 : calib V) h t : k_poses k4 !! t = None -> k_poses (restore_estimates h k4) !! t = None.
Proof. intros H. cbn. rewrite map_lookup_imap, H. reflexivity. Qed.

(** ** Adding a view again *)
Definition seen_again (src v : cview) : Prop := forall c t i,
  (exists r, In r (v_res v c) /\ corner_of r = (t, i)) <-> (exists r, In r (v_res src c) /\ corner_of r = (t, i)).
Definition detected (ks : list Z) (v : cview) : Prop := exists c, In c ks /\ g_detected (v_grids v c) = true.
Lemma readd base (k : calib V) e ks ts src : reachD base k -> k_views k !! ts = None -> fresh_envD e k ->
  (forall k0 gs, exists T, e_estimate e k0 gs = Ret T) -> complete k ks ts src ->
  (forall c r, In r (v_res src c) -> is_Some (k_cams k !! c) /\ corner_in rows cols (vr_tag r) (vr_corner r) /\ has (v_grids src c) (vr_tag r) (vr_corner r) = Ret true) ->
  exists b k', add_view blocks corners e k (grids_of ks src) = Ret (b, k') /\ reachD base k' /\
    k_cams k' = k_cams k /\ k_exts k' = k_exts k /\ k_info k' = k_info k /\
    (forall t, t <> ts -> k_views k' !! t = k_views k !! t /\ k_poses k' !! t = k_poses k !! t) /\
    (detected ks src -> exists v T, k_views k' !! ts = Some v /\ k_poses k' !! ts = Some (e_pose e, T) /\ seen_again src v /\ complete k' ks ts v /\
       forall c, In c ks -> v_grids v c = v_grids src c) /\
    (~ detected ks src -> k_views k' !! ts = None) /\
    (forall p, p ∈ c_pparams (k_solver k') -> p ∈ c_pparams (k_solver k) \/ p = e_pose e) /\
    (forall r, r ∈ s_res (c_base (k_solver k')) -> r ∈ s_res (c_base (k_solver k)) \/ exists c t i, r = e_alloc e c t i).
Proof.
  intros Hk Hno F HT ((hist & Hrec) & C2 & C3 & C4) Hsrc.
  pose proof (reach_KInv blocks rows cols size sp Hrows Hcols ext_addr cam_addr base k Hk) as K.
  pose proof (recorded_ok blocks rows cols size sp Hrows Hcols ext_addr cam_addr hist _ Hrec) as G.
  destruct (first_detected (grids_of ks src)) as [ts'|] eqn:Hfd.
  - assert (ts' = ts) as ->.
    { destruct (first_detected_In _ _ Hfd) as (c & g & Hin & _ & <-). unfold grids_of in Hin. apply in_map_iff in Hin as (c' & E & Hin). injection E as <- <-. auto. }
    assert (Hdet : detected ks src).
    { destruct (first_detected_In _ _ Hfd) as (c & g & Hin & Hg & _). unfold grids_of in Hin. apply in_map_iff in Hin as (c' & E & Hin). injection E as <- <-. exists c'. auto. }
    destruct (HT (mkCalib (k_cams k) (k_exts k) ({[ts]} ∪ k_data k) (k_poses k) (k_views k) (k_vts k) (k_solver k) (k_info k)) (grids_of ks src)) as [T ET].
    destruct (add_view_new blocks rows cols size sp Hrows Hcols ext_addr cam_addr base k e (grids_of ks src) (content_of hist) ts T K F G Hfd Hno ET)
      as (k1 & v & E1 & K1 & A1 & A2 & A3 & A4 & A5 & A6 & A7 & A8 & A8b & A9 & A10 & A11).
    assert (Hr1 : reachD base k1).
    { eapply (R_add _ _ _ _ _ _ _ _ k e hist (grids_of ks src)); eauto. intros t Ht. rewrite Hfd in Ht. injection Ht as <-. exact Hno. }
    assert (Hgrid : forall c, In c ks -> v_grids v c = v_grids src c).
    { intros c Hc. rewrite A8b. apply (grid_of_In blocks rows ext_addr cam_addr); [exact (proj1 G)|]. apply in_map_iff. exists c. auto. }
    assert (Hw : forall c t i, (exists r, In r (v_res v c) /\ corner_of r = (t, i)) <->
       In c ks /\ g_detected (v_grids src c) = true /\ is_Some (k_cams k !! c) /\ corner_in rows cols t i /\ content_of hist c t i <> None).
    { intros c t i. split.
      - intros (r & Hr & Er). rewrite A8 in Hr. apply (want_In blocks rows cols ext_addr cam_addr) in Hr as (H1 & (g & H2 & H3) & t' & i' & -> & H4 & H5). unfold corner_of in Er. cbn in Er. injection Er as <- <-.
        apply in_map_iff in H2 as (c' & E & H2). injection E as <- <-. apply keys_lookup in H1. auto.
      - intros (H1 & H2 & H3 & H4 & H5). exists (mkVres (e_alloc e c t i) t i). split; [|reflexivity]. rewrite A8. unfold want.
        assert (E : existsb (fun cg => (fst cg =? c) && g_detected (snd cg)) (grids_of ks src) && existsb (Z.eqb c) (keys (k_cams k)) = true).
        { apply andb_true_iff. split; apply existsb_exists; [exists (c, v_grids src c); split; [apply in_map_iff; exists c; auto|cbn; rewrite Z.eqb_refl, H2; reflexivity]|].
          exists c. split; [apply keys_lookup, H3|apply Z.eqb_refl]. }
        rewrite E. apply in_map_iff. exists (t, i). split; [reflexivity|]. apply seen_In. auto. }
    assert (Hc : forall c t i, In c ks -> corner_in rows cols t i -> (has (v_grids src c) t i = Ret true <-> content_of hist c t i <> None)).
    { intros c t i Hin Hci. destruct (proj2 G c (v_grids src c)) as [HR _]; [apply in_map_iff; exists c; auto|]. rewrite (has_Rep _ _ _ _ _ _ _ _ HR Hci). unfold present. cbn.
      destruct (content_of hist c t i); split; intros H; auto; try congruence. }
    assert (Hd : forall c t i, In c ks -> corner_in rows cols t i -> content_of hist c t i <> None -> g_detected (v_grids src c) = true).
    { intros c t i Hin Hci Hm. destruct (proj2 G c (v_grids src c)) as [_ [B1 B2]]; [apply in_map_iff; exists c; auto|].
      pose proof (icount_pos rows cols _ _ _ Hci Hm). destruct (g_detected (v_grids src c)); [reflexivity|]. specialize (B2 eq_refl). lia. }
    assert (HS : seen_again src v).
    { intros c t i. rewrite Hw. split.
      - intros (H1 & H2 & H3 & H4 & H5). apply C3; auto. apply Hc; auto.
      - intros (r & Hr & Er). destruct (Hsrc c r Hr) as (H1 & H2 & H3). unfold corner_of in Er. injection Er as <- <-.
        assert (Hin : In c ks) by eauto. apply Hc in H3; auto. split; [exact Hin|]. split; [eapply Hd; eauto|]. auto. }
    exists true, k1. split; [exact E1|]. split; [exact Hr1|]. split; [exact A1|]. split; [exact A2|]. split; [exact A4|]. split.
    { intros t Ht. rewrite A5, A6, !lookup_insert_ne by auto. auto. }
    split; [|split; [|split]].
    + intros _. exists v, T. split; [rewrite A6; apply lookup_insert|]. split; [rewrite A5; apply lookup_insert|]. split; [exact HS|]. split; [|exact Hgrid].
      split; [|split; [|split]].
      * exists hist. replace (grids_of ks v) with (grids_of ks src); [exact Hrec|]. apply map_ext_in. intros c Hin. rewrite Hgrid; auto.
      * intros c Hin. rewrite Hgrid by exact Hin. auto.
      * intros c t i Hin H1 H2 H3. rewrite Hgrid in H3 by exact Hin. apply HS. rewrite A1 in H1. apply C3; auto.
      * intros c r Hr. destruct (proj1 (Hw c (vr_tag r) (vr_corner r))) as [Hin _]; [exists r; auto|exact Hin].
    + intros Hn. contradiction.
    + intros p. rewrite (ki_pp K1), A10, (ki_pp K), elem_of_union, elem_of_singleton. tauto.
    + intros r. rewrite A11. intros [H|(c & x & H & <-)]; [auto|]. right. apply (want_In blocks rows cols ext_addr cam_addr) in H as (_ & _ & t & i & -> & _). cbn. eauto.
  - assert (Hnd : ~ detected ks src).
    { intros (c & Hc & Hd). assert (X : forall gs, first_detected gs = None -> forall c g, In (c, g) gs -> g_detected g = false).
      { clear. induction gs as [|[c g] gs IH]; cbn; [intros _ ? ? []|]. destruct (g_detected g) eqn:E; [discriminate|]. intros H cam g' [Hh|Hh]; [injection Hh as <- <-; exact E|eauto]. }
      rewrite (X _ Hfd c (v_grids src c)) in Hd; [discriminate|]. apply in_map_iff. exists c. auto. }
    exists false, k. rewrite add_view_undetected by exact Hfd. split; [reflexivity|]. split; [exact Hk|].
    split; [auto|]. split; [auto|]. split; [auto|]. split; [auto|]. split; [intros; contradiction|]. split; [auto|]. split; auto.
Qed.
End P.
