(** * C85 (what a sample does), C87 (fixed parameters), C89 (reset) *)
From Verif Require Import Base GeomModel EulerModel StatsModel ImuModel ImuSpec ViModel ViSpec ViProofs ViProofs2 ViProofs3 ViProofs4 ViProofs5 Prop_Vi Prop_Vi2.
From Coq Require Import Reals Sorted Permutation.
Local Open Scope Z_scope.

Section T.
Context (z1 z3 : R) (pnp : list R -> list corner -> option mat4) (pick : nat -> Z -> list corner -> list corner)
        (slv : problem -> (pid -> list R) -> pid -> list R) (reproj : rid -> corner -> (pid -> list R) -> option (R * R))
        (cfg : settings).
Notation run := (vrun z1 z3 pnp pick slv reproj cfg).
Notation step := (vstep z1 z3 pnp pick slv reproj cfg).
Notation conf := (configure z1 z3).

(** the corners a new view keeps of a grid: all, or with marginalisation the sampled ones *)
Definition keeps (n : nat) (cam : Z) (grid : vgrid) : list corner := if c_marg cfg then pick n cam (g_pts grid) else g_pts grid.
Definition has_corners (new : view) (gs : gmap) : Prop := forall cam pts, pts <> [] ->
  ((exists rs, In (cam, rs) (v_fid new) /\ map snd rs = pts) <-> exists grid, In (cam, grid) gs /\ pts = keeps (v_id new) cam grid).
Lemma grids_corners s n gs q fid q' : add_grids pick cfg s n gs q = Ret (fid, q') -> forall ts l, has_corners (View n ts fid l) gs.
Proof.
  intros E ts l cam pts Hn. destruct (grids_spec _ _ _ _ _ _ _ _ E) as (_ & _ & _ & _ & _ & _ & _ & H). cbn [v_id v_fid].
  assert (K : forall g, map snd (map (fun k : nat * corner => (RCorner n cam (fst k), snd k)) (combine (seq 0 (length (view_pts pick cfg n cam g))) (view_pts pick cfg n cam g))) = keeps n cam g).
  { intros g. rewrite map_map. cbn [snd]. rewrite combine_snd; [reflexivity|apply seq_length]. }
  split.
  - intros (rs & H1 & H2). apply H in H1 as (N & g & Hg & -> ). exists g. split; auto. rewrite <- H2. apply K.
  - intros (g & Hg & -> ). eexists. split; [apply H; split; [|exists g; split; [exact Hg|reflexivity]]|apply K].
    intros K0. apply (f_equal (map snd)) in K0. rewrite K in K0. auto.
Qed.

(** A complete frame in which some camera saw the target, after the start: a view at the stamp of the first such camera
    with all their corners, tied to the previous one by all the IMU samples buffered; then the oldest view leaves if
    the window is full. *)
Theorem C85_view_added : forall os h s ts a w s' c g, run h (conf os) = Ret s -> c_marg cfg = false \/ never is_reset h ->
  step (EImu ts a w) s = Ret s' -> length (s_gbuf s) = length (s_cams s) -> s_init s = true -> first_detected (s_gbuf s) = Some (c, g) ->
  exists old v new, s_views s = old ++ [v] /\ v_ts new = g_ts g /\ v_imu new = None /\ has_corners new (s_gbuf s) /\
    (let l := Link (imu_add (s_imu s) ts a w) (v_id v) (v_id new) (v_ts v) (g_ts g) in
     let vs := old ++ [View (v_id v) (v_ts v) (v_fid v) (Some l); new] in
     s_views s' = if c_marg cfg && (Z.of_nat (length vs) >? c_window cfg) && (0 <=? c_window cfg) then tl vs else vs) /\
    s_gbuf s' = [].
Proof.
  intros os h s ts a w s' c g E Hr Es El Ei Ed. pose proof (run_inv _ _ _ _ _ _ _ _ _ _ E Hr (configure_inv z1 z3 cfg os)) as I.
  assert (Is : inv cfg (sampled ts a w [] s)) by (apply (inv_ext cfg s); auto; constructor).
  assert (V : forall s1, view_step z1 z3 pnp pick cfg (s_gbuf s) (sampled ts a w [] s) s1 ->
     exists old v new, s_views s = old ++ [v] /\ v_ts new = g_ts g /\ v_imu new = None /\ has_corners new (s_gbuf s) /\
       s_views s1 = old ++ [View (v_id v) (v_ts v) (v_fid v) (Some (Link (imu_add (s_imu s) ts a w) (v_id v) (v_id new) (v_ts v) (g_ts g))); new] /\ s_gbuf s1 = []).
  { intros s1 Hv. destruct Hv as [c0 g0 Hd Hi T F He old v Hv f q Hg Hm b Hb -> ]. rewrite Ed in Hd. inversion Hd; subst c0 g0. cbn [sampled s_views s_next s_imu s_gbuf] in *.
    exists old, v, (View (s_next s) (g_ts g) f None). repeat split; auto; try (apply (grids_corners _ _ _ _ _ _ Hg)); auto.
    rewrite Hv, <- app_assoc. cbn [app]. apply set_link_app.
    pose proof (i_ids _ _ _ _ _ (v_core cfg s I)) as B. rewrite Hv, map_app in B. cbn [map] in B. apply sorted_not_in in B. exact B. }
  cbn [vstep] in Es. apply sample_spec in Es. destruct Es as [Hl|_ Hi| _ Hd|_ Hv Hw|s1 s2 _ H1 Hm Hw H2 -> ]; try congruence.
  - destruct Hd as [(Hd & _)|Hd]; congruence.
  - destruct (V _ Hv) as (old & v & new & A1 & A2 & A3 & A4 & A5 & A6). exists old, v, new. repeat split; auto; try apply A4; auto.
    cbv zeta. rewrite A5. unfold over_window in Hw. rewrite A5, andb_assoc in Hw. rewrite Hw. reflexivity.
  - destruct H1 as [ -> |Hv].
    { exfalso. cbn [sampled] in Hw. unfold over_window in Hw. cbn [s_views sampled] in Hw. apply andb_true_iff in Hw as (W1 & W2).
      rewrite Z.gtb_ltb in W1. apply Z.ltb_lt in W1. apply Z.leb_le in W2.
      destruct (Z.eq_dec (c_window cfg) 0) as [W0|W0].
      - (* window 0: marginalising fails *)
        pose proof (v_chain cfg s I) as Ch. unfold marginalize in H2. cbn [with_x s_views sampled s_prior s_prob] in H2.
        destruct (s_views s) as [|v rest] eqn:Ev; [discriminate|]. apply bind_ret in H2 as (r & _ & H2).
        assert (Hl : v_imu v <> None) by (intros Hl; rewrite Hl in H2; discriminate).
        pose proof (v_window cfg s I Hm W2) as Z0. rewrite Ev in Z0. cbn in Z0. destruct rest; [|cbn in Z0; lia]. cbn in Ch. destruct Ch. congruence.
      - pose proof (v_window cfg s I Hm W2). lia. }
    destruct (V _ Hv) as (old & v & new & A1 & A2 & A3 & A4 & A5 & A6).
    destruct (view_step_inv _ _ _ _ _ _ _ _ Hv Is (v_gbuf cfg s I)) as (C & Ch & _ & _ & _ & _ & _ & Hf & _).
    assert (Hf' : forall p, In p (s_fixed s1) -> ~ per_view p) by (rewrite Hf; apply I).
    exists old, v, new. split; [auto|]. split; [auto|]. split; [auto|]. split; [auto|].
    unfold marginalize in H2. cbn [with_x s_views s_prior s_prob s_gbuf] in H2. rewrite A5 in H2. 
    unfold over_window in Hw. rewrite A5 in Hw. cbv zeta. rewrite Hm. cbn [andb]. rewrite Hw.
    destruct (old ++ _) as [|v0 r0] eqn:Eo; [discriminate|]. apply bind_ret in H2 as (r & _ & H2).
    destruct (v_imu v0); [|discriminate]. inversion H2; subst. cbn. auto.
Qed.
(** An incomplete frame: only the IMU buffer grows. *)
Theorem C85_waits : forall s ts a w, length (s_gbuf s) <> length (s_cams s) -> exists s',
  step (EImu ts a w) s = Ret s' /\ s_imu s' = imu_add (s_imu s) ts a w /\ s_gbuf s' = s_gbuf s /\ s_views s' = s_views s /\ s_prior s' = s_prior s /\
  s_prob s' = s_prob s /\ s_x s' = s_x s /\ s_init s' = s_init s.
Proof.
  intros s ts a w H. cbn [vstep]. unfold add_imu_sample. cbn [s_gbuf s_cams].
  destruct (Nat.eqb_spec (length (s_gbuf s)) (length (s_cams s))) as [El|El]; [contradiction|]. cbn [negb]. eexists. split; [reflexivity|]. cbn. auto 10.
Qed.
(** A complete frame that no camera saw, or that comes before the third IMU sample, is dropped. *)
Theorem C85_drops : forall os h s ts a w s', run h (conf os) = Ret s -> c_marg cfg = false \/ never is_reset h ->
  step (EImu ts a w) s = Ret s' -> length (s_gbuf s) = length (s_cams s) ->
  first_detected (s_gbuf s) = None \/ (s_init s = false /\ imu_size (s_imu s) < 2) ->
  s_imu s' = imu_add (s_imu s) ts a w /\ s_gbuf s' = [] /\ s_views s' = s_views s /\ s_prob s' = s_prob s /\ s_x s' = s_x s /\ s_init s' = s_init s.
Proof.
  intros os h s ts a w s' E Hr Es El Hd. pose proof (run_inv _ _ _ _ _ _ _ _ _ _ E Hr (configure_inv z1 z3 cfg os)) as I.
  assert (Sz : imu_size (imu_add (s_imu s) ts a w) = imu_size (s_imu s) + 1).
  { unfold imu_size, imu_add. cbn. rewrite app_length. cbn. lia. }
  assert (Nv : forall s1, ~ view_step z1 z3 pnp pick cfg (s_gbuf s) (sampled ts a w [] s) s1).
  { intros s1 [c0 g0 Hd0 Hi]. cbn in Hi. destruct Hd as [Hd|(Hd & _)]; congruence. }
  cbn [vstep] in Es. apply sample_spec in Es. destruct Es as [Hl|_ Hi Hs Hn|_ _ _ -> |_ Hv Hw|s1 s2 _ H1 Hm Hw H2 -> ]; try congruence.
  - exfalso. destruct Hd as [Hd|(_ & Hd)]; [congruence|lia].
  - cbn. auto 10.
  - exfalso. eapply Nv; eauto.
  - destruct H1 as [ -> |Hv]; [|exfalso; eapply Nv; eauto]. exfalso.
    unfold over_window in Hw. cbn [s_views sampled] in Hw. apply andb_true_iff in Hw as (W1 & W2).
    rewrite Z.gtb_ltb in W1. apply Z.ltb_lt in W1. apply Z.leb_le in W2. pose proof (v_window cfg s I Hm W2) as Z0.
    pose proof (v_chain cfg s I) as Ch. unfold marginalize in H2. cbn [with_x s_views sampled s_prior s_prob] in H2.
    destruct (s_views s) as [|v rest] eqn:Ev; [discriminate|]. apply bind_ret in H2 as (r & _ & H2).
    assert (Hl : v_imu v <> None) by (intros Hl; rewrite Hl in H2; discriminate).
    destruct rest; [cbn in Ch; destruct Ch; congruence|]. cbn [length] in *. lia.
Qed.
(** The start: the first frame that is complete after the third IMU sample and that some camera saw. *)
Theorem C85_first_view : forall os h s ts a w s', run h (conf os) = Ret s -> c_marg cfg = false \/ never is_reset h ->
  step (EImu ts a w) s = Ret s' -> length (s_gbuf s) = length (s_cams s) -> s_init s = false -> 2 <= imu_size (s_imu s) ->
  first_detected (s_gbuf s) <> None ->
  exists g v, In (0, g) (s_gbuf s) /\ s_views s' = [v] /\ v_ts v = g_ts g /\ v_imu v = None /\ has_corners v (s_gbuf s) /\ s_init s' = true /\ s_gbuf s' = [].
Proof.
  intros os h s ts a w s' E Hr Es El Ei Hz Hd. pose proof (run_inv _ _ _ _ _ _ _ _ _ _ E Hr (configure_inv z1 z3 cfg os)) as I.
  assert (Sz : imu_size (imu_add (s_imu s) ts a w) = imu_size (s_imu s) + 1).
  { unfold imu_size, imu_add. cbn. rewrite app_length. cbn. lia. }
  assert (Nv : forall s1, ~ view_step z1 z3 pnp pick cfg (s_gbuf s) (sampled ts a w [] s) s1).
  { intros s1 [c0 g0 Hd0 Hi]. cbn in Hi. congruence. }
  cbn [vstep] in Es. apply sample_spec in Es. destruct Es as [Hl|_ Hi Hs Hn Hst|_ Hx _ _|_ Hv Hw|s1 s2 _ H1 Hm Hw H2 _]; try congruence.
  - destruct Hst as [g Hg Hk T He s0 W Hc f q Hq -> ]. cbn [s_views s_gbuf s_init sampled s_next] in *. rewrite (v_uninit cfg s I Ei).
    exists g, (View (s_next s) (g_ts g) f None). split; [apply gm_get_in; auto|]. repeat split; auto; apply (grids_corners _ _ _ _ _ _ Hq); auto.
  - exfalso. destruct Hx as [(_ & Hx)|Hx]; [lia|congruence].
  - exfalso. eapply Nv; eauto.
  - destruct H1 as [ -> |Hv]; [|exfalso; eapply Nv; eauto]. exfalso. unfold marginalize in H2. cbn [with_x s_views sampled] in H2.
    rewrite (v_uninit cfg s I Ei) in H2. discriminate.
Qed.

(** ** C87: fixed parameters stay fixed *)
(** a solver that leaves constant blocks alone *)
Definition respects : Prop := forall q x p, In p (q_const q) -> slv q x p = x p.
Definition static (p : pid) : Prop := match p with PImuExt | PCamExt _ | PCam _ => True | _ => False end.

Lemma setx_other p p' v x : p <> p' -> set_x p v x p' = x p'.
Proof. intros H. unfold set_x. destruct (pid_eq p p'); congruence. Qed.
Lemma add_grids_const s n gs q f q' : add_grids pick cfg s n gs q = Ret (f, q') -> q_const q' = q_const q.
Proof. intros E. apply (grids_spec _ _ _ _ _ _ _ _ E). Qed.
(** calls other than solve *)
Lemma sample_fixed p ts a w s s' : respects -> ~ per_view p -> p <> PFid -> add_imu_sample z1 z3 pnp pick slv cfg ts a w s = Ret s' ->
  In p (q_const (s_prob s)) -> In p (q_const (s_prob s')) /\ s_x s' p = s_x s p.
Proof.
  intros Hs Hp Hf E Hc. apply sample_spec in E.
  assert (Ne : forall n, PPose n <> p /\ PSb n <> p) by (intros n; split; intros <- ; apply Hp; exact I).
  assert (V : forall gs s1 s2, view_step z1 z3 pnp pick cfg gs s1 s2 -> In p (q_const (s_prob s1)) -> In p (q_const (s_prob s2)) /\ s_x s2 p = s_x s1 p).
  { intros gs s1 s2 [] H; subst. cbn [s_prob s_x]. split.
    - destruct (add_res_spec (RImu (v_id vs_v)) (imu_params_of (v_id vs_v) (s_next s1)) vs_q) as (_ & -> & _).
      rewrite (add_grids_const _ _ _ _ _ _ vs_grids), !add_const_same. auto.
    - rewrite !setx_other; auto; apply Ne. }
  destruct E as [_ -> |_ Hi _ _ Hst|_ _ _ -> |_ Hv Hw|s1 s2 _ H1 Hm Hw H2 -> ]; auto.
  - destruct Hst as [g Hg Hk T He s0 W Hcs f q Hq -> ]. cbn [s_prob s_x]. rewrite (add_grids_const _ _ _ _ _ _ Hq), !add_const_same.
    rewrite (setx_other (PSb _)), (setx_other (PPose _)) by apply Ne.
    destruct Hcs as [(_ & _ & -> )|(T0 & _ & ff & _ & _ & -> )]; cbn [set_fiducial set_fid s_prob s_x sampled]; [|auto].
    rewrite add_const_same. split; auto. apply setx_other. auto.
  - apply V in Hv; auto.
  - assert (H3 : In p (q_const (s_prob s1)) /\ s_x s1 p = s_x s p) by (destruct H1 as [ -> |H1]; [auto|apply V in H1; auto]).
    destruct H3 as (H3 & H4). unfold marginalize in H2. cbn [with_x s_views s_prior s_prob] in H2. destruct (s_views s1) as [|v rest]; [discriminate|].
    apply bind_ret in H2 as ((ps & q1) & E1 & H2). destruct (v_imu v) as [l|]; [|discriminate]. inversion H2; subst s2. clear H2.
    cbn [set_running s_prob s_x fst snd with_x]. split; [|rewrite (Hs _ _ _ H3); exact H4].
    destruct (add_res_spec (RPrior (s_nprior s1)) (remaining (s_fixed s1) [PPose (v_id v); PSb (v_id v)] (ps ++ handed_over v l)) (q_drop (PSb (v_id v)) (q_drop (PPose (v_id v)) q1))) as (_ & E3 & _).
    cbn [with_x s_nprior s_fixed]. rewrite E3. apply drop_const; [apply drop_const|]; [|intros Hx; apply (proj1 (Ne (v_id v))); auto|intros Hx; apply (proj2 (Ne (v_id v))); auto].
    destruct (s_prior s1) as [[k qs]|].
    + apply bind_ret in E1 as (q2 & E1 & E2). inversion E2; subst. destruct (remove_res_spec _ _ _ E1) as (_ & _ & _ & -> ). auto.
    + inversion E1; subst. auto.
Qed.
Lemma drop_fixed p s : ~ per_view p -> In p (q_const (s_prob s)) -> In p (q_const (s_prob (reset s))).
Proof. intros Hp Hc. cbn [reset s_prob]. apply (drop_views (s_views s) (s_prob s) _ eq_refl); auto. Qed.
Lemma step_fixed p e s s' : respects -> static p -> step e s = Ret s' -> In p (q_const (s_prob s)) -> In p (q_const (s_prob s')) /\ s_x s' p = s_x s p.
Proof.
  intros Hs Hp E Hc. destruct e as [c g|ts a w| |]; cbn [vstep] in E.
  - inversion E. unfold add_grid. destruct (s_started s); auto.
  - apply (sample_fixed p ts a w); auto; destruct p; cbn in *; try contradiction; auto; discriminate.
  - unfold solve in E. set (q1 := q_fix PDelay (s_prob s)) in *. set (q2 := q_free PDelay q1) in *.
    assert (H1 : In p (q_const q1)) by (apply fix_const; auto).
    assert (H2 : In p (q_const q2)) by (cbn; apply in_in_remove; auto; destruct p; cbn in Hp; try contradiction; discriminate).
    destruct (c_reject cfg).
    + apply bind_ret in E as ((vs & q3) & E1 & E). inversion E; subst. cbn [with_x with_views s_prob s_x fst snd].
      assert (H3 : q_const q3 = q_const q2).
      { clear -E1. revert q3 vs E1. generalize (slv q2 (slv q1 (s_x s))) as y. intros y. generalize q2. induction (s_views s) as [|v l IH]; intros q q3 vs E1; cbn [filter_views] in E1.
        - inversion E1; auto.
        - apply bind_ret in E1 as ((v1 & qa) & Ea & E1). apply bind_ret in E1 as ((vs1 & qb) & Eb & E1). inversion E1; subst. cbn [fst snd] in *.
          rewrite (IH _ _ _ Eb). apply filter_view_spec in Ea as (es & _ & [(_ & _ & -> )|(sd & _ & _ & Ea)]); auto.
          apply (remove_all_spec _ _ _ Ea). }
      rewrite H3. split; auto. rewrite !Hs; auto. rewrite H3; auto.
    + inversion E; subst. cbn [with_x with_views s_prob s_x]. split; auto. rewrite !Hs; auto.
  - inversion E; subst. split; [|reflexivity]. apply drop_fixed; auto. destruct p; cbn in *; auto.
Qed.
(** Extrinsics and camera parameters declared fixed keep the configured value, whatever is fed in and however often
    solve or reset is called. *)
Theorem C87_fixed_partial : forall os h s p, respects -> static p -> In p (q_const (s_prob (conf os))) -> run h (conf os) = Ret s ->
  s_x s p = s_x (conf os) p /\ In p (q_const (s_prob s)).
Proof.
  intros os h s p Hs Hp. generalize (conf os) as s0. induction h as [|e h IH]; intros s0 Hc E; cbn [vrun] in E.
  - inversion E; subst; auto.
  - apply bind_ret in E as (s1 & E1 & E). destruct (step_fixed p e s0 s1 Hs Hp E1 Hc) as (H1 & H2). rewrite <- H2. apply IH; auto.
Qed.
(** The time delay, too, as long as solve is not called ... *)
Theorem C87_delay_partial : forall os h s, respects -> In PDelay (q_const (s_prob (conf os))) -> never is_solve h -> run h (conf os) = Ret s ->
  s_x s PDelay = s_x (conf os) PDelay.
Proof.
  intros os h s Hs. generalize (conf os) as s0. induction h as [|e h IH]; intros s0 Hc Hn E; cbn [vrun] in E.
  - inversion E; subst; auto.
  - apply bind_ret in E as (s1 & E1 & E). assert (K : In PDelay (q_const (s_prob s1)) /\ s_x s1 PDelay = s_x s0 PDelay).
    { destruct e as [c g|ts a w| |]; cbn [vstep] in E1.
      - inversion E1. unfold add_grid. destruct (s_started s0); auto.
      - apply (sample_fixed PDelay ts a w s0 s1); auto; discriminate.
      - specialize (Hn ESolve (or_introl eq_refl)). discriminate.
      - inversion E1; subst. split; [|reflexivity]. apply drop_fixed; auto. }
    destruct K as (K1 & K2). rewrite <- K2. apply IH; auto. intros x Hx. apply Hn. cbn; auto.
Qed.
(** ... what the caller declared fixed is constant in the problem from the start *)
Theorem C87_declared : forall os,
  (forall T td ft, In (SImu T td true ft) os -> In PImuExt (q_const (s_prob (conf os)))) /\
  (forall T td fe, In (SImu T td fe true) os -> In PDelay (q_const (s_prob (conf os)))) /\
  (forall c ps T fe, In (SCam c ps T true fe) os -> In (PCam c) (q_const (s_prob (conf os)))) /\
  (forall c ps T fp, In (SCam c ps T fp true) os -> In (PCamExt c) (q_const (s_prob (conf os)))).
Proof.
  intros os. unfold configure. generalize vi_empty as s0.
  assert (Kf : forall (b : bool) p q x, In x (q_const (if b then q_fix p q else q)) <-> In x (q_const q) \/ (b = true /\ x = p)).
  { intros [|] p q x; [rewrite fix_const; intuition|intuition congruence]. }
  assert (M : forall o s p, In p (q_const (s_prob s)) -> In p (q_const (s_prob (sstep z1 z3 s o)))).
  { intros o s p H. destruct o; cbn [sstep add_imu add_camera set_fiducial s_prob].
    - apply Kf. left. rewrite add_const_same. apply Kf. left. rewrite add_const_same. auto.
    - apply Kf. left. rewrite add_const_same. destruct fix_params; auto. apply fix_const. left. rewrite add_const_same. auto.
    - rewrite add_const_same. auto. }
  assert (Mf : forall os s p, In p (q_const (s_prob s)) -> In p (q_const (s_prob (fold_left (sstep z1 z3) os s)))).
  { induction os0 as [|o os0 IH]; intros s p H; cbn; auto. }
  assert (G : forall p o os s, (forall s, In p (q_const (s_prob (sstep z1 z3 s o)))) -> In o os -> In p (q_const (s_prob (fold_left (sstep z1 z3) os s)))).
  { intros p o os0. induction os0 as [|o0 os0 IH]; intros s Ho Hi; [contradiction|]. cbn [fold_left]. destruct Hi as [ -> |Hi]; auto. }
  intros s0. repeat split; intros; (eapply G; [|eassumption]); intros s; cbn [sstep add_imu add_camera set_fiducial s_prob].
  - apply Kf. left. rewrite add_const_same. apply fix_const. auto.
  - apply fix_const. auto.
  - apply Kf. left. rewrite add_const_same. apply fix_const. auto.
  - apply fix_const. auto.
Qed.
(** But solve frees a fixed time delay ... *)
Theorem C87_delay_freed_refuted : forall os s, c_reject cfg = false -> step ESolve (conf os) = Ret s -> ~ In PDelay (q_const (s_prob s)).
Proof.
  intros os s Hr E. cbn [vstep] in E. unfold solve in E. rewrite Hr in E. inversion E; subst. cbn [with_x with_views s_prob q_free q_const].
  apply remove_In.
Qed.

(** ** C89: reset *)
(** After reset no view, no residual and no block of a view is left. *)
Theorem C89_reset : forall os h s, run h (conf os) = Ret s -> c_marg cfg = false \/ never is_reset h ->
  let s' := reset s in s_views s' = [] /\ s_gbuf s' = [] /\ s_imu s' = imu_empty /\ s_init s' = false /\ s_started s' = false /\
  (forall p, per_view p -> ~ In p (q_params (s_prob s'))) /\ q_res (s_prob s') = [].
Proof.
  intros os h s E Hr s'. pose proof (run_inv _ _ _ _ _ _ _ _ _ _ E Hr (configure_inv z1 z3 cfg os)) as I. subst s'.
  assert (C := v_core cfg s I). assert (Ch := v_chain cfg s I).
  destruct (drop_views (s_views s) (s_prob s) _ eq_refl) as (A & _ & B & D).
  assert (Np : forall p, per_view p -> ~ In p (q_params (s_prob (reset s)))).
  { intros p Pp Hp. cbn [reset s_prob] in Hp. apply A in Hp as (H1 & H2). apply (i_par _ _ _ _ _ C) in H1 as (v & Hv & Hb); auto. eapply H2; eauto. }
  assert (Nr : forall r ps v, In (r, ps) (q_res (s_prob (reset s))) -> In v (s_views s) -> In (PPose (v_id v)) ps -> False).
  { intros r ps v H Hv Hp. apply (D v r ps Hv); auto. apply (i_par _ _ _ _ _ C); [exact Logic.I|]. exists v. split; auto. left; reflexivity. }
  assert (Ne : forall r ps, In (r, ps) (q_res (s_prob (reset s))) -> False).
  { intros r ps H. pose proof (B _ H) as H'. apply (Permutation_in _ (i_res _ _ _ _ _ C)) in H'. unfold all_res in H'. apply in_app_iff in H' as [H'|H'].
    - apply in_flat_map in H' as (v & Hv & H'). apply (Nr r ps v H Hv). apply (of_view_pose v r ps); auto. intros l Hl. eapply chained_link; eauto.
    - destruct (s_prior s) as [[k qs]|] eqn:Ep; [|contradiction]. destruct H' as [H'|[]]. inversion H'; subst.
      destruct (i_prior _ _ _ _ _ C k ps eq_refl) as (_ & v & rest & Ev & Hv & _). apply (Nr _ _ v H); auto. rewrite Ev. cbn; auto. }
  split; [reflexivity|]. split; [reflexivity|]. split; [reflexivity|]. split; [reflexivity|]. split; [reflexivity|]. split; [auto|].
  revert Ne. generalize (q_res (s_prob (reset s))). intros [|[r ps] l] Ne; auto. exfalso. apply (Ne r ps). cbn; auto.
Qed.
(** Without marginalisation a calibrator that has been reset works like one that has not (C85 holds for histories
    with resets). With it, the object keeps the prior it has removed from the problem: the next marginalisation
    removes a residual block that is not there. *)
Theorem C89_prior_kept_refuted : forall os h s k ps, run h (conf os) = Ret s -> never is_reset h -> s_prior s = Some (k, ps) ->
  s_prior (reset s) = Some (k, ps) /\ ~ In (RPrior k) (map fst (q_res (s_prob (reset s)))) /\
  forall s2, s_prior s2 = Some (k, ps) -> s_views s2 <> [] -> ~ In (RPrior k) (map fst (q_res (s_prob s2))) -> marginalize s2 = Undef.
Proof.
  intros os h s k ps E Hr Hp. split; [exact Hp|].
  destruct (C89_reset os h s E (or_intror Hr)) as (_ & _ & _ & _ & _ & _ & N).
  split.
  - rewrite N. intros [].
  - intros s2 H1 H2 H3. unfold marginalize. destruct (s_views s2) as [|v rest]; [congruence|]. rewrite H1. unfold q_remove_res.
    destruct (in_dec rid_eq (RPrior k) (map fst (q_res (s_prob s2)))); [contradiction|]. reflexivity.
Qed.
End T.

(** ** A concrete calibrator: one camera, window of two views *)
Definition pt : corner := (0, 0, (1%R, 1%R)).
Definition frame (ts : Z) : vgrid := VGrid ts true [pt; pt].
Definition ex_pnp : list R -> list corner -> option mat4 := fun _ _ => Some (I4).
Definition ex_pick : nat -> Z -> list corner -> list corner := fun _ _ l => firstn 1 l.
Definition ex_slv : problem -> (pid -> list R) -> pid -> list R := fun _ x => x.
Definition ex_reproj : rid -> corner -> (pid -> list R) -> option (R * R) := fun _ _ _ => Some (0%R, 0%R).
Definition ex_cfg (m : bool) (w : Z) : settings := Settings m w false 3%R.
Definition ex_os : list setup := [SImu (I4) 0%R true true; SCam 0 [] (I4) true true].
Definition imu_at (ts : Z) : event := EImu ts vzero vzero.
(** five IMU samples, then a frame *)
Definition lap (t : Z) : list event := map (fun k => imu_at (t + 10 * k)) [0; 1; 2; 3; 4] ++ [EGrid 0 (frame (t + 45))].
Definition ex_h (n : nat) : list event := flat_map (fun k => lap (50 * Z.of_nat k)) (seq 0 n) ++ [imu_at (50 * Z.of_nat n)].
Definition ex_run (m : bool) (w : Z) (h : list event) : outcome vi :=
  vrun 0 0 ex_pnp ex_pick ex_slv ex_reproj (ex_cfg m w) h (configure 0 0 ex_os).
Definition summary (o : outcome vi) : option (list Z * list rid * option (list pid)) :=
  match o with Ret s => Some (map v_ts (s_views s), map fst (q_res (s_prob s)), option_map snd (s_prior s)) | _ => None end.
Example C85_example : summary (ex_run true 2 (ex_h 5)) =
  Some ([195; 245], [RCorner 3 0 0; RCorner 4 0 0; RImu 3; RPrior 2], Some [PPose 3; PSb 3; PFid]) /\
  summary (ex_run false 2 (ex_h 3)) =
  Some ([45; 95; 145], [RCorner 0 0 0; RCorner 0 0 1; RCorner 1 0 0; RCorner 1 0 1; RImu 0; RCorner 2 0 0; RCorner 2 0 1; RImu 1], None).
Proof. split; vm_compute; reflexivity. Qed.
(** The time delay, even when it is to be estimated, is part of every IMU residual that is dropped but never of the
    prior that replaces it. *)
Theorem C85_delay_forgotten_refuted : forall z1 z3 pnp pick slv reproj cfg os h s s',
  vrun z1 z3 pnp pick slv reproj cfg h (configure z1 z3 os) = Ret s -> c_marg cfg = false \/ never is_reset h -> marginalize s = Ret s' ->
  exists v r qs k ps, s_views s = v :: s_views s' /\ In (r, qs) (q_res (s_prob s)) /\ involves v (r, qs) = true /\ In PDelay qs /\
    s_prior s' = Some (k, ps) /\ ~ In PDelay ps.
Proof.
  intros z1 z3 pnp pick slv reproj cfg os h s s' E Hr Em.
  destruct (C85_marginalize _ _ _ _ _ _ _ os h s s' E Hr Em) as (v & k & ps & A & B & _ & D).
  destruct (C85_window _ _ _ _ _ _ _ os h s E Hr) as (P & _ & Ch & _).
  assert (Hl : exists l, v_imu v = Some l).
  { unfold marginalize in Em. rewrite A in Em. apply bind_ret in Em as (x & _ & Em). destruct (v_imu v); eauto. discriminate. }
  destruct Hl as (l & Hl). rewrite A in Ch. destruct (chained_link _ Ch v l (or_introl eq_refl) Hl) as (Li & _).
  exists v, (RImu (v_id v)), [PPose (l_i l); PSb (l_i l); PPose (l_j l); PSb (l_j l); PDelay], k, ps.
  split; [auto|]. split.
  { apply (Permutation_in _ (Permutation_sym P)). unfold expected. rewrite A. cbn [flat_map]. rewrite !in_app_iff. left. left.
    unfold of_view. rewrite Hl, in_app_iff. right. cbn; auto. }
  split; [unfold involves; cbn [snd]; rewrite Li; apply orb_true_iff; left; apply pid_in_iff; cbn; auto|].
  split; [cbn; auto 10|]. split; [auto|]. intros H. apply D in H as (_ & _ & _ & H). congruence.
Qed.

(** a solver that moves what is not constant *)
Definition moving : problem -> (pid -> list R) -> pid -> list R := fun q x p => if pid_in p (q_const q) then x p else (1%R :: x p).
(** A time delay declared fixed moves when solve is called. *)
Theorem C87_delay_moves_refuted : respects moving /\ In PDelay (q_const (s_prob (configure 0 0 ex_os))) /\
  exists s, vrun 0 0 ex_pnp ex_pick moving ex_reproj (ex_cfg false 2) [ESolve] (configure 0 0 ex_os) = Ret s /\
    s_x s PDelay <> s_x (configure 0 0 ex_os) PDelay.
Proof.
  split; [|split].
  - intros q x p H. unfold moving. apply pid_in_iff in H. rewrite H. reflexivity.
  - vm_compute. auto.
  - set (s0 := configure 0 0 ex_os). cbn [vrun vstep obind]. unfold solve. cbn [c_reject ex_cfg obind].
    eexists. split; [reflexivity|]. unfold with_x, with_views. cbn [s_x s_prob].
    assert (H0 : pid_in PDelay (q_const (q_fix PDelay (s_prob s0))) = true).
    { apply pid_in_iff. unfold q_fix. destruct (pid_in PDelay (q_const (s_prob s0))) eqn:E; [apply pid_in_iff; auto|]. cbn [q_const]. apply in_or_app. right. left. reflexivity. }
    unfold moving at 1. cbn [q_const q_free].
    assert (H1 : pid_in PDelay (remove pid_eq PDelay (q_const (q_fix PDelay (s_prob s0)))) = false).
    { apply not_true_is_false. intros E. apply pid_in_iff in E. apply remove_In in E. contradiction. }
    rewrite H1. unfold moving. rewrite H0. intros H. apply (f_equal (@length R)) in H. cbn [length] in H. lia.
Qed.
(** Marginalising, reset, and starting again: the calibrator removes a residual block that does not exist. *)
Theorem C89_restart_refuted : summary (ex_run true 2 (ex_h 3)) <> None /\
  ex_run true 2 (ex_h 3 ++ [EReset] ++ ex_h 3) = Undef.
Proof. split; vm_compute; [discriminate|reflexivity]. Qed.
(** ... while without marginalisation the second run is as good as the first. *)
Example C89_batch_example : summary (ex_run false 2 (ex_h 2 ++ [EReset] ++ ex_h 3)) =
  Some ([45; 95; 145], [RCorner 2 0 0; RCorner 2 0 1; RCorner 3 0 0; RCorner 3 0 1; RImu 2; RCorner 4 0 0; RCorner 4 0 1; RImu 3], None).
Proof. vm_compute. reflexivity. Qed.
