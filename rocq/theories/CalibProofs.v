From Coq Require Import Reals.
From Verif Require Import Base.
From stdpp Require Import gmap sets list.
From Verif Require Import AprilGridModel AprilGridSpec AprilGridProofs AprilGridIOModel AprilGridProofs4 SolverModel SolverProofs CalibModel.
Local Open Scope Z_scope.

Section P.
Context (blocks : Z -> list Z) (rows cols : Z) (size sp : R).
Context (Hrows : 0 <= rows) (Hcols : 0 <= cols).
Notation RepD := (Rep rows cols size sp).
Notation BookGeD := (BookGe rows cols).
Notation CInv := (CInv blocks).

Definition corner_of (r : vres) : Z * Z := (vr_tag r, vr_corner r).
(** the residuals [l] of a camera and its grid: one residual per distinct corner the grid has *)
Definition cam_ok (l : list vres) (g : grid) (m : content) : Prop :=
  RepD g m /\ BookGeD g m /\ base.NoDup (map corner_of l) /\
  forall r, In r l -> corner_in rows cols (vr_tag r) (vr_corner r) /\ m (vr_tag r) (vr_corner r) <> None.
(** content without the corners of the residuals in [l] *)
Definition without (l : list vres) (m : content) : content :=
  fun t c => if existsb (fun r => (vr_tag r =? t) && (vr_corner r =? c)) l then None else m t c.

Lemma without_cons r l m t c :
  without l (spec_step m (OpRemove (vr_tag r) (vr_corner r))) t c = without (r :: l) m t c.
Proof.
  unfold without; simpl. rewrite (Z.eqb_sym t), (Z.eqb_sym c).
  destruct (existsb _ l); [now rewrite orb_true_r|]. rewrite orb_false_r. reflexivity.
Qed.

Lemma filter_loop_ok err thx thy l : forall g m s, CInv s -> cam_ok l g m ->
  base.NoDup (map vr_id l) -> (forall r, In r l -> vr_id r ∈ s_res (c_base s)) ->
  let out := List.filter (outlier err thx thy) l in
  exists g' s', filter_loop blocks err thx thy l g s =
      Ret (List.filter (fun r => negb (outlier err thx thy r)) l, g', s', Z.of_nat (length out)) /\
    CInv s' /\ s_res (c_base s') = s_res (c_base s) ∖ list_to_set (map vr_id out) /\
    s_params (c_base s') = s_params (c_base s) /\ c_pparams s' = c_pparams s /\
    RepD g' (without out m) /\ BookGeD g' (without out m) /\ g_ts g' = g_ts g.
Proof.
  induction l as [|r l IH]; intros g m s I (HR & HB & Hnd & Hin) Hid Hres; simpl.
  - exists g, s. split; [reflexivity|]. split; auto. split; [set_solver|]. repeat split; auto; apply HR || apply HB.
  - inversion Hnd as [|? ? Hn1 Hnd1]; inversion Hid as [|? ? Hi1 Hid1]; subst.
    destruct (Hin r (or_introl eq_refl)) as [Hc Hm].
    destruct (outlier err thx thy r) eqn:Eo; cbn [negb].
    + destruct (remove_Rep rows cols size sp Hrows Hcols g m _ _ HR Hc) as (g1 & Hrun & HR1 & Hts & _ & Hyes).
      destruct (remove_books rows cols size sp Hrows Hcols g m _ _ HR Hc) as (g1' & Hrun' & _ & _ & HB1 & _ & _).
      rewrite Hrun in Hrun'. injection Hrun' as <-. specialize (HB1 HB). destruct (Hyes Hm) as [Hnb _].
      rewrite Hrun. rewrite (has_Rep rows cols size sp g1 _ _ _ HR1 Hc). cbn [obind].
      assert (present (spec_step m (OpRemove (vr_tag r) (vr_corner r))) (vr_tag r, vr_corner r) = false) as ->.
      { unfold present; simpl. now rewrite !Z.eqb_refl. }
      assert (1 <= g_nb g) by (destruct HB as [HB _]; pose proof (icount_pos rows cols m _ _ Hc Hm); lia).
      destruct (Z.eqb_spec (g_nb g) (g_nb g1)) as [E|_]; [lia|].
      destruct (c_remove_residual_effect blocks s (vr_id r) I (Hres r (or_introl eq_refl)))
        as (s1 & E1 & F1 & F2 & _ & _ & F5 & _ & _).
      rewrite E1. cbn [obind].
      destruct (IH g1 (spec_step m (OpRemove (vr_tag r) (vr_corner r))) s1) as (g2 & s2 & E2 & I2 & G1 & G2 & G2b & G3 & G4 & G5).
      * eapply CInv_c_remove_residual; eauto.
      * split; [auto|]. split; [auto|]. split; [auto|]. intros r' Hr'. split; [apply Hin; simpl; auto|].
        simpl. destruct (Z.eqb_spec (vr_tag r') (vr_tag r)) as [Ea|]; destruct (Z.eqb_spec (vr_corner r') (vr_corner r)) as [Eb|];
          simpl; try (apply Hin; simpl; auto). exfalso. apply Hn1.
        apply elem_of_list_In. apply in_map_iff. exists r'. split; auto. unfold corner_of. now rewrite Ea, Eb.
      * auto.
      * intros r' Hr'. rewrite F1. apply elem_of_difference. split; [apply Hres; simpl; auto|].
        rewrite elem_of_singleton. intros Eq. apply Hi1. rewrite <- Eq. apply elem_of_list_In, in_map; auto.
      * rewrite E2. cbn [obind]. exists g2, s2. split; [f_equal; f_equal; simpl length; lia|]. split; [auto|].
        split; [rewrite G1, F1; cbn [map list_to_set]; set_solver|]. split; [congruence|]. split; [congruence|].
        split; [eapply Rep_ext; [exact G3|]; intros; apply without_cons|].
        split; [|congruence]. unfold BookGe in *. destruct G4 as [G4 G4']. split; [|auto].
        erewrite <- icount_ext; [exact G4|]. intros t c _. unfold present. cbn [fst snd]. now rewrite without_cons.
    + destruct (IH g m s) as (g2 & s2 & E2 & I2 & G1 & G2 & G2b & G3 & G4 & G5); auto.
      * split; [auto|]. split; [auto|]. split; [auto|]. intros; apply Hin; simpl; auto.
      * intros; apply Hres; simpl; auto.
      * rewrite E2. cbn [obind]. exists g2, s2. split; [reflexivity|]. auto 10.
Qed.

(** a view of the calibrator: every camera's residuals are attached to distinct corners that its
    grid has, residual objects are distinct and registered *)
Record view_ok (v : cview) (s : csolver) : Prop := mkViewOk {
  vo_cam : forall c, v_res v c <> [] -> exists m, cam_ok (v_res v c) (v_grids v c) m;
  vo_ids : forall c c' r r', In r (v_res v c) -> In r' (v_res v c') -> vr_id r = vr_id r' -> c = c' /\ r = r';
  vo_reg : forall c r, In r (v_res v c) -> vr_id r ∈ s_res (c_base s) }.

Lemma NoDup_map_inj {A B C} (f : A -> B) (g : A -> C) l : base.NoDup (map f l) ->
  (forall a b, In a l -> In b l -> g a = g b -> f a = f b) -> base.NoDup (map g l).
Proof.
  induction l as [|a l IH]; simpl; intros H Hi; [constructor|].
  inversion H as [|? ? H1 H2]; subst. constructor; [|apply IH; auto].
  intros Hc. apply elem_of_list_In, in_map_iff in Hc. destruct Hc as (b & E & Hb). apply H1.
  apply elem_of_list_In, in_map_iff. exists b. split; auto.
Qed.
Lemma cam_ok_ids v s c m : view_ok v s -> cam_ok (v_res v c) (v_grids v c) m -> base.NoDup (map vr_id (v_res v c)).
Proof.
  intros Hv (_ & _ & Hn & _). eapply NoDup_map_inj; [exact Hn|]. intros a b Ha Hb E.
  destruct (vo_ids _ _ Hv c c a b Ha Hb E) as [_ ->]. reflexivity.
Qed.
Lemma cam_ok_filter f l g g' m : cam_ok l g m ->
  RepD g' (without (List.filter f l) m) -> BookGeD g' (without (List.filter f l) m) ->
  cam_ok (List.filter (fun r => negb (f r)) l) g' (without (List.filter f l) m).
Proof.
  intros (H1 & H2 & H3 & H4) HR HB. split; [auto|]. split; [auto|]. split.
  - clear -H3. induction l as [|a l IH]; simpl in *; [constructor|]. inversion H3 as [|? ? Hn Hd]; subst.
    destruct (f a); simpl; auto. constructor; auto. intros Hc. apply Hn.
    apply elem_of_list_In, in_map_iff in Hc. destruct Hc as (b & E & Hb). apply filter_In in Hb.
    apply elem_of_list_In, in_map_iff. exists b. tauto.
  - intros r Hr. apply filter_In in Hr. destruct Hr as [Hr Hf]. split; [apply H4; auto|].
    unfold without. destruct (existsb _ _) eqn:E; [|apply H4; auto].
    exfalso. apply existsb_exists in E. destruct E as (r' & Hr' & E). apply filter_In in Hr'. destruct Hr' as [Hr' Hf'].
    assert (corner_of r = corner_of r') as Ec by (unfold corner_of; f_equal; lia).
    assert (r = r') as ->; [|rewrite Hf' in Hf; discriminate].
    clear -H3 Hr Hr' Ec. induction l as [|a l IH]; simpl in *; [tauto|]. inversion H3 as [|? ? Hn Hd]; subst.
    destruct Hr as [->|Hr]; destruct Hr' as [->|Hr']; auto; exfalso; apply Hn; apply elem_of_list_In, in_map_iff; eauto.
Qed.

Lemma filter_cams_ok err thx thy cs : forall v s, CInv s -> view_ok v s -> base.NoDup cs ->
  let out := fun c => List.filter (outlier err thx thy) (v_res v c) in
  exists v' s', filter_cams blocks err thx thy cs v s =
      Ret (v', s', Z.of_nat (length (flat_map out cs))) /\
    CInv s' /\ view_ok v' s' /\ v_ts v' = v_ts v /\ v_pose v' = v_pose v /\
    s_res (c_base s') = s_res (c_base s) ∖ list_to_set (map vr_id (flat_map out cs)) /\
    s_params (c_base s') = s_params (c_base s) /\ c_pparams s' = c_pparams s /\
    (forall c, In c cs -> v_res v' c = List.filter (fun r => negb (outlier err thx thy r)) (v_res v c)) /\
    (forall c, ~ In c cs -> v_res v' c = v_res v c /\ v_grids v' c = v_grids v c) /\
    (forall c m, In c cs -> v_res v c <> [] -> cam_ok (v_res v c) (v_grids v c) m ->
       RepD (v_grids v' c) (without (out c) m) /\ BookGeD (v_grids v' c) (without (out c) m) /\
       g_ts (v_grids v' c) = g_ts (v_grids v c)) /\
    (forall c, v_res v c = [] -> v_grids v' c = v_grids v c).
Proof.
  induction cs as [|c0 cs IH]; intros v s I Hv Hnd; simpl.
  - exists v, s. split; [reflexivity|]. split; auto. split; auto. repeat split; auto; try (simpl in *; tauto). set_solver.
  - inversion Hnd as [|? ? Hn Hd]; subst.
    set (l := v_res v c0) in *. set (out0 := List.filter (outlier err thx thy) l).
    assert (exists g' s', filter_loop blocks err thx thy l (v_grids v c0) s =
      Ret (List.filter (fun r => negb (outlier err thx thy r)) l, g', s', Z.of_nat (length out0)) /\
      CInv s' /\ s_res (c_base s') = s_res (c_base s) ∖ list_to_set (map vr_id out0) /\
      s_params (c_base s') = s_params (c_base s) /\ c_pparams s' = c_pparams s /\
      (l = [] -> g' = v_grids v c0) /\
      (forall m, cam_ok l (v_grids v c0) m -> RepD g' (without out0 m) /\ BookGeD g' (without out0 m) /\
          g_ts g' = g_ts (v_grids v c0))) as (g' & s1 & E1 & I1 & F1 & F2 & F2b & Fn & F3).
    { assert (l = [] \/ l <> []) as [El|El] by (destruct l; [left|right]; congruence).
      - exists (v_grids v c0), s. unfold out0. rewrite El. simpl. split; [reflexivity|]. split; auto. split; [set_solver|].
        split; [auto|]. split; [auto|]. split; [auto|]. intros m (A & B & _). auto.
      - destruct (vo_cam _ _ Hv c0 El) as (m & Hm).
        destruct (filter_loop_ok err thx thy l (v_grids v c0) m s I Hm) as (g' & s1 & E1 & I1 & F1 & F2 & F2b & F3 & F4 & F5).
        + eapply cam_ok_ids; eauto.
        + intros r Hr. eapply vo_reg; eauto.
        + exists g', s1. split; [exact E1|]. split; [auto|]. split; [auto|]. split; [auto|]. split; [auto|].
          split; [intros E; contradiction|].
          intros m2 Hm2.
          destruct (filter_loop_ok err thx thy l (v_grids v c0) m2 s I Hm2) as (g2 & s2 & E2 & _ & _ & _ & _ & G3 & G4 & G5).
          * eapply cam_ok_ids; eauto.
          * intros r Hr. eapply vo_reg; eauto.
          * rewrite E1 in E2. injection E2 as -> ->. auto. }
    rewrite E1. cbn [obind].
    set (v1 := mkCview _ _ _ _).
    assert (Hv1 : view_ok v1 s1).
    { assert (Hsub : forall c r, In r (v_res v1 c) -> In r (v_res v c) /\ (c = c0 -> outlier err thx thy r = false)).
      { intros c r. unfold v1; simpl. unfold fset. destruct (Z.eqb_spec c c0) as [->|Hne].
        - intros Hr. apply filter_In in Hr. fold l. split; [tauto|]. intros _. destruct Hr as [_ Hr].
          destruct (outlier err thx thy r); auto; discriminate.
        - split; auto; congruence. }
      split.
      - intros c. unfold v1; simpl. unfold fset. destruct (Z.eqb_spec c c0) as [->|Hne].
        + intros Hne. assert (l <> []) as Hl by (intros E; rewrite E in Hne; apply Hne; reflexivity).
          destruct (vo_cam _ _ Hv c0 Hl) as (m & Hm). destruct (F3 m Hm) as (A & B & _).
          exists (without out0 m). apply (cam_ok_filter _ l (v_grids v c0)); auto.
        + apply (vo_cam _ _ Hv).
      - intros c c' r r' Hr Hr' E. apply (vo_ids _ _ Hv); auto; apply Hsub; auto.
      - intros c r Hr. destruct (Hsub c r Hr) as [Hr0 Ho]. rewrite F1. apply elem_of_difference.
        split; [eapply vo_reg; eauto|]. rewrite elem_of_list_to_set, elem_of_list_In, in_map_iff.
        intros (r' & E & Hr'). apply filter_In in Hr'. destruct Hr' as [Hr' Ho'].
        destruct (vo_ids _ _ Hv c0 c r' r Hr' Hr0 E) as [Ec Er]. rewrite <- Er, Ho' in Ho. specialize (Ho (eq_sym Ec)). discriminate. }
    destruct (IH v1 s1 I1 Hv1 Hd) as (v2 & s2 & E2 & I2 & Hv2 & T1 & T2 & G1 & G2 & G2b & G3 & G4 & G5 & G6).
    assert (Hout : forall c, In c cs -> v_res v1 c = v_res v c).
    { intros c Hc. unfold v1; simpl. unfold fset. destruct (Z.eqb_spec c c0) as [->|]; auto.
      exfalso. apply Hn. apply elem_of_list_In; auto. }
    assert (Hout2 : flat_map (fun c => List.filter (outlier err thx thy) (v_res v1 c)) cs =
                    flat_map (fun c => List.filter (outlier err thx thy) (v_res v c)) cs).
    { apply flat_map_ext_in. intros c Hc. now rewrite Hout. }
    rewrite Hout2 in *. rewrite E2. cbn [obind]. exists v2, s2.
    assert (Hc0 : ~ In c0 cs) by (intros Hc; apply Hn; apply elem_of_list_In; auto).
    split; [f_equal; f_equal; fold out0; rewrite app_length; lia|].
    split; [auto|]. split; [auto|]. split; [rewrite T1; reflexivity|]. split; [rewrite T2; reflexivity|].
    split; [rewrite G1, F1; fold out0; rewrite map_app, list_to_set_app_L; set_solver|].
    split; [congruence|]. split; [congruence|].
    split; [intros c [<-|Hc]|split; [|split]].
    + destruct (G4 c0 Hc0) as [-> _]. unfold v1; simpl. unfold fset. rewrite Z.eqb_refl. reflexivity.
    + rewrite (G3 c Hc), (Hout c Hc). reflexivity.
    + intros c Hc. assert (c <> c0 /\ ~ In c cs) as [Hne Hc'] by (split; [intros ->; apply Hc; auto|tauto]).
      destruct (G4 c Hc') as [-> ->]. unfold v1; simpl. unfold fset.
      destruct (Z.eqb_spec c c0); [contradiction|auto].
    + intros c m [<-|Hc] Hne Hm.
      * destruct (G4 c0 Hc0) as [_ ->]. unfold v1; simpl. unfold fset. rewrite Z.eqb_refl. apply F3. exact Hm.
      * assert (Hg : v_grids v1 c = v_grids v c).
        { unfold v1; simpl. unfold fset. destruct (Z.eqb_spec c c0) as [->|]; auto. contradiction. }
        specialize (G5 c m Hc). rewrite (Hout c Hc), Hg in G5. auto.
    + intros c Hl. destruct (Z.eqb_spec c c0) as [->|Hne].
      * destruct (G4 c0 Hc0) as [_ ->]. unfold v1; simpl. unfold fset. rewrite Z.eqb_refl. apply Fn. exact Hl.
      * rewrite G6; unfold v1; simpl; unfold fset; destruct (Z.eqb_spec c c0); auto; contradiction.
Qed.

(** ** constructor *)
Lemma CInv_add_residual s r : CInv s -> r ∉ s_res (c_base s) -> base.NoDup (blocks r) ->
  exists s', c_add_residual blocks s r = Ret s' /\ CInv s' /\ s_res (c_base s') = {[r]} ∪ s_res (c_base s) /\
    s_params (c_base s') = s_params (c_base s) /\ c_pparams s' = list_to_set (blocks r) ∪ c_pparams s.
Proof.
  intros I Hr Hnd. unfold c_add_residual.
  destruct (add_residual blocks (c_base s) r) as [b| |] eqn:Eb.
  2,3: unfold add_residual in Eb; destruct (decide (r ∈ s_res (c_base s))); [contradiction|discriminate].
  cbn [obind]. rewrite decide_True by auto. eexists. split; [reflexivity|].
  destruct I as [I1 I2 I3 I4 I5 I6].
  assert (Ib : SInv blocks b) by (eapply SInv_add_residual; eauto).
  unfold add_residual in Eb. destruct (decide (r ∈ s_res (c_base s))) as [|Hin]; [discriminate|].
  injection Eb as <-. split; [|auto]. split; cbn; auto.
  + intros r0 p. rewrite mget_lookup, (add_fold blocks). destruct (decide (p ∈ blocks r)) as [Hp|Hp]; cbn.
    -- rewrite !elem_of_union, !elem_of_singleton, I2. split; [intros [->|]; tauto|tauto].
    -- fold (mget (s_p2r (c_base s)) p). rewrite I2, elem_of_union, elem_of_singleton. split; [tauto|].
       intros [[->|] ?]; tauto.
  + now rewrite I3.
  + now rewrite I4.
  + set_solver.
  + intros r0 p. rewrite !elem_of_union, elem_of_singleton, elem_of_list_to_set. intros [->|Hx] Hb; eauto.
Qed.
Lemma CInv_add_param s p : CInv s -> CInv (c_add_param s p).
Proof.
  intros [I1 I2 I3 I4 I5 I6]. split; cbn; auto; [now apply SInv_add_param|set_solver|set_solver].
Qed.

Definition seen (m : content) : list (Z * Z) := List.filter (present m) (all_corners rows cols).
Lemma combine_map {A B C} (f : A -> B) (g : A -> C) l : combine (map f l) (map g l) = map (fun x => (f x, g x)) l.
Proof. induction l; simpl; f_equal; auto. Qed.
Lemma meas_seen m : combine (m_tags (meas_of rows cols size sp m)) (m_corners (meas_of rows cols size sp m)) = seen m.
Proof.
  unfold meas_of. cbn [m_tags m_corners]. rewrite combine_map. unfold seen, spec_meas.
  induction (all_corners rows cols) as [|[t c] l IH]; simpl; auto. unfold present at 1; cbn [fst snd].
  destruct (m t c); simpl; [f_equal|]; auto.
Qed.
Lemma seen_In m t c : In (t, c) (seen m) <-> corner_in rows cols t c /\ m t c <> None.
Proof.
  unfold seen. rewrite filter_In, all_corners_In. unfold present; cbn [fst snd].
  destruct (m t c); split; intros [A B]; split; auto; congruence.
Qed.
Lemma seen_NoDup m : base.NoDup (seen m).
Proof.
  unfold seen. apply NoDup_ListNoDup, List.NoDup_filter. rewrite all_corners_rows.
  apply FinFun.Injective_map_NoDup; [|apply zrange_NoDup].
  intros a b E. injection E as E1 E2. rewrite (Z.div_mod a 4), (Z.div_mod b 4) by lia. congruence.
Qed.

Section Ctor.
Context (exts cams : list Z).
Notation corners := (fiducial_corners rows cols size sp).
Context (alloc : Z -> Z -> Z -> Z).
Hypothesis alloc_inj : forall c t k c' t' k', alloc c t k = alloc c' t' k' -> c = c' /\ t = t' /\ k = k'.
Hypothesis alloc_blocks : forall c t k, base.NoDup (blocks (alloc c t k)).

Definition res_at (cam : Z) (tc : Z * Z) : vres := mkVres (alloc cam (fst tc) (snd tc)) (fst tc) (snd tc).
Lemma mk_residuals_ok cam tcs : forall s, CInv s -> base.NoDup tcs ->
  (forall t c, In (t, c) tcs -> corner_in rows cols t c) -> In cam exts ->
  (forall t c, In (t, c) tcs -> alloc cam t c ∉ s_res (c_base s)) ->
  exists s', mk_residuals blocks exts corners alloc cam tcs s = Ret (map (res_at cam) tcs, s') /\ CInv s' /\
    s_params (c_base s') = s_params (c_base s) /\
    (forall r, r ∈ s_res (c_base s') <-> r ∈ s_res (c_base s) \/ exists x, In x (map (res_at cam) tcs) /\ vr_id x = r) /\
    (forall p, p ∈ c_pparams s' <-> p ∈ c_pparams s \/ exists x, In x (map (res_at cam) tcs) /\ p ∈ blocks (vr_id x)).
Proof.
  induction tcs as [|[t c] tcs IH]; intros s I Hnd Hin He Hf; simpl.
  - exists s. split; [reflexivity|]. split; auto. split; auto. split; intros; split; auto; intros [|(? & [] & _)]; auto.
  - inversion Hnd as [|? ? Hn Hd]; subst.
    rewrite get_corner_eq by auto. destruct (Hin t c (or_introl eq_refl)) as [Ht Hc].
    replace ((0 <=? t) && (t <? rows * cols) && (0 <=? c) && (c <? 4)) with true by lia. cbn [obind].
    replace (existsb (Z.eqb cam) exts) with true by (symmetry; now apply existsb_eqb_In).
    destruct (CInv_add_residual s (alloc cam t c) I) as (s1 & E1 & I1 & F1 & F2 & F3); auto.
    { apply Hf; simpl; auto. }
    rewrite E1. cbn [obind].
    destruct (IH s1 I1 Hd) as (s2 & E2 & I2 & G1 & G2 & G3); auto.
    { intros; apply Hin; simpl; auto. }
    { intros t' c' H'. rewrite F1, elem_of_union, elem_of_singleton. intros [E|E].
      - apply alloc_inj in E. destruct E as (_ & -> & ->). apply Hn. apply elem_of_list_In; auto.
      - revert E. apply Hf; simpl; auto. }
    rewrite E2. cbn [obind fst snd]. exists s2. split; [reflexivity|]. split; auto. split; [congruence|]. split.
    + intros r. rewrite G2, F1, elem_of_union, elem_of_singleton. split.
      * intros [[->|H]|(x & Hx & <-)]; auto; right; [exists (res_at cam (t, c))|exists x]; split; auto.
      * intros [H|(x & [<-|Hx] & <-)]; auto. right; eauto.
    + intros p. rewrite G3, F3, elem_of_union, elem_of_list_to_set. split.
      * intros [[H|H]|(x & Hx & H)]; auto; right; [exists (res_at cam (t, c))|exists x]; split; auto.
      * intros [H|(x & [<-|Hx] & H)]; auto. right; eauto.
Qed.

(** what the constructor should build for a camera: one residual per corner seen *)
Definition want (gs : list (Z * grid)) (ms : Z -> content) (cam : Z) : list vres :=
  if existsb (fun cg => (fst cg =? cam) && g_detected (snd cg)) gs && existsb (Z.eqb cam) cams
  then map (res_at cam) (seen (ms cam)) else [].

Lemma view_residuals_ok ms gs : forall f s, CInv s -> base.NoDup (map fst gs) ->
  (forall cam g, In (cam, g) gs -> In cam cams -> g_detected g = true -> RepD g (ms cam) /\ In cam exts) ->
  (forall cam, In cam (map fst gs) -> f cam = []) ->
  (forall cam t c, In cam (map fst gs) -> alloc cam t c ∉ s_res (c_base s)) ->
  exists s' f', view_residuals blocks cams exts corners alloc gs f s = Ret (f', s') /\ CInv s' /\
    (forall cam, f' cam = f cam ++ want gs ms cam) /\
    s_params (c_base s') = s_params (c_base s) /\
    (forall r, r ∈ s_res (c_base s') <-> r ∈ s_res (c_base s) \/ exists cam x, In x (want gs ms cam) /\ vr_id x = r) /\
    (forall p, p ∈ c_pparams s' <-> p ∈ c_pparams s \/ exists cam x, In x (want gs ms cam) /\ p ∈ blocks (vr_id x)).
Proof.
  induction gs as [|[cam g] gs IH]; intros f s I Hnd Hg Hf0 Hfr; simpl.
  - exists s, f. split; [reflexivity|]. split; auto. split; [intros; unfold want; simpl; now rewrite app_nil_r|].
    split; auto. split; intros; split; auto; intros [|(? & ? & [] & _)]; auto.
  - simpl in Hnd. inversion Hnd as [|? ? Hn Hd]; subst.
    assert (Hnin : ~ In cam (map fst gs)) by (intros H; apply Hn, elem_of_list_In; auto).
    assert (Hwcam : want gs ms cam = []).
    { unfold want. destruct (existsb (fun cg => (fst cg =? cam) && g_detected (snd cg)) gs) eqn:E; auto.
      exfalso. apply existsb_exists in E. destruct E as ([c' g'] & H1 & H2). simpl in H2.
      apply Hnin. apply in_map_iff. exists (c', g'). split; auto. simpl. lia. }
    assert (Hother : forall c, c <> cam -> want ((cam, g) :: gs) ms c = want gs ms c).
    { intros c Hc. unfold want. simpl. destruct (Z.eqb_spec cam c); [congruence|]. reflexivity. }
    assert (Hskip : want ((cam, g) :: gs) ms cam = [] ->
       exists s' f', view_residuals blocks cams exts corners alloc gs f s = Ret (f', s') /\ CInv s' /\
    (forall c, f' c = f c ++ want ((cam, g) :: gs) ms c) /\
    s_params (c_base s') = s_params (c_base s) /\
    (forall r, r ∈ s_res (c_base s') <-> r ∈ s_res (c_base s) \/ exists c x, In x (want ((cam, g) :: gs) ms c) /\ vr_id x = r) /\
    (forall p, p ∈ c_pparams s' <-> p ∈ c_pparams s \/ exists c x, In x (want ((cam, g) :: gs) ms c) /\ p ∈ blocks (vr_id x))).
    { intros H0. destruct (IH f s I Hd) as (s' & f' & E & I' & G1 & G2 & G3 & G4).
      - intros; apply Hg; simpl; auto.
      - intros; apply Hf0; simpl; auto.
      - intros; apply Hfr; simpl; auto.
      - assert (Hw : forall c, want ((cam, g) :: gs) ms c = want gs ms c).
        { intros c. destruct (Z.eq_dec c cam) as [->|]; [congruence|auto]. }
        exists s', f'. split; auto. split; auto. split; [intros; rewrite Hw; auto|]. split; auto.
        setoid_rewrite Hw. auto. }
    destruct (existsb (Z.eqb cam) cams) eqn:Ec; cbn [negb].
    2: { apply Hskip. unfold want. now rewrite Ec, andb_false_r. }
    destruct (g_detected g) eqn:Ed; cbn [negb].
    2: { apply Hskip. unfold want in *. simpl. now rewrite Ed, andb_false_r. }
    apply existsb_eqb_In in Ec.
    destruct (Hg cam g (or_introl eq_refl) Ec Ed) as [HR He].
    rewrite (get_measurements_Rep rows cols size sp g (ms cam) meas_nil HR Ed).
    cbn [obind m_tags m_corners meas_nil app]. rewrite meas_seen.
    destruct (mk_residuals_ok cam (seen (ms cam)) s I) as (s1 & E1 & I1 & F1 & F2 & F3); auto.
    { apply seen_NoDup. }
    { intros t c H. now apply seen_In in H. }
    { intros; apply Hfr; simpl; auto. }
    rewrite E1. cbn [obind fst snd].
    assert (Hw : want ((cam, g) :: gs) ms cam = map (res_at cam) (seen (ms cam))).
    { unfold want. simpl. rewrite Z.eqb_refl, Ed. simpl.
      replace (existsb (Z.eqb cam) cams) with true by (symmetry; now apply existsb_eqb_In). reflexivity. }
    destruct (IH (fun c => if c =? cam then f c ++ map (res_at cam) (seen (ms cam)) else f c) s1 I1 Hd)
      as (s2 & f2 & E2 & I2 & G1 & G2 & G3 & G4).
    { intros; apply Hg; simpl; auto. }
    { intros c Hc. destruct (Z.eqb_spec c cam) as [->|]; [contradiction|]. apply Hf0; simpl; auto. }
    { intros c t k Hc. rewrite F2. intros [H|(x & Hx & E)].
      - revert H. apply Hfr; simpl; auto.
      - apply in_map_iff in Hx. destruct Hx as (tc & <- & _). simpl in E. apply alloc_inj in E.
        destruct E as (-> & _). contradiction. }
    exists s2, f2. split; auto. split; auto. split; [|split; [congruence|]].
    + intros c. rewrite G1. destruct (Z.eqb_spec c cam) as [->|Hne].
      * rewrite Hwcam, app_nil_r, Hw. reflexivity.
      * rewrite Hother by auto. reflexivity.
    + split.
      * intros r. rewrite G3, F2. split.
        -- intros [[H|(x & Hx & E)]|(c & x & Hx & E)]; auto; right.
           ++ exists cam, x. rewrite Hw. auto.
           ++ exists c, x. split; auto. rewrite Hother; auto. intros ->. rewrite Hwcam in Hx. destruct Hx.
        -- intros [H|(c & x & Hx & E)]; auto. destruct (Z.eq_dec c cam) as [->|Hne].
           ++ rewrite Hw in Hx. left; right; eauto.
           ++ rewrite Hother in Hx by auto. right; eauto.
      * intros r. rewrite G4, F3. split.
        -- intros [[H|(x & Hx & E)]|(c & x & Hx & E)]; auto; right.
           ++ exists cam, x. rewrite Hw. auto.
           ++ exists c, x. split; auto. rewrite Hother; auto. intros ->. rewrite Hwcam in Hx. destruct Hx.
        -- intros [H|(c & x & Hx & E)]; auto. destruct (Z.eq_dec c cam) as [->|Hne].
           ++ rewrite Hw in Hx. left; right; eauto.
           ++ rewrite Hother in Hx by auto. right; eauto.
Qed.
End Ctor.
End P.
