(** * C85 (continued): failures, and what an IMU sample does *)
From Verif Require Import Base GeomModel EulerModel StatsModel ImuModel ImuSpec Prop_Imu ViModel ViSpec ViProofs ViProofs2 ViProofs3 ViProofs4 ViProofs5.
From Coq Require Import Reals Sorted Permutation.
Local Open Scope Z_scope.

Section T.
Context (z1 z3 : R) (pnp : list R -> list corner -> option mat4) (pick : nat -> Z -> list corner -> list corner)
        (slv : problem -> (pid -> list R) -> pid -> list R) (reproj : rid -> corner -> (pid -> list R) -> option (R * R))
        (cfg : settings).
Notation run := (vrun z1 z3 pnp pick slv reproj cfg).
Notation step := (vstep z1 z3 pnp pick slv reproj cfg).
Notation conf := (configure z1 z3).

Record safe (s : vi) : Prop := Safe { f_inv : inv cfg s; f_known : forall c g, In (c, g) (s_gbuf s) -> known s c = true; f_al : aligned (s_imu s) }.

Lemma aligned_add b t a w : aligned b -> aligned (imu_add b t a w).
Proof. unfold aligned, imu_add. cbn. rewrite !app_length. cbn. lia. Qed.
Lemma trim_aligned b t : aligned b -> exists b', imu_trim b t = Ret b' /\ aligned b'.
Proof.
  assert (K : forall ts acc gyr prev nw, length acc = length ts -> length gyr = length ts -> aligned nw ->
     exists b', trim_loop t prev ts acc gyr nw = Ret b' /\ aligned b').
  { induction ts as [|x ts IH]; intros [|a acc] [|g gyr] prev nw H1 H2 H3; cbn in H1, H2; try discriminate; cbn [trim_loop].
    - eauto.
    - destruct (t <=? x).
      + apply IH; auto. unfold imu_push. apply aligned_add. destruct prev as [p|]; auto. destruct (imu_size nw =? 0); auto. apply aligned_add; auto.
      + apply IH; auto. }
  intros (A1 & A2). unfold imu_trim. destruct (i_ts b) as [|t0 ts] eqn:E; [eexists; split; eauto; split; rewrite ?E; auto|].
  destruct (t <? t0).
  - eexists. split; eauto. split; rewrite E; auto.
  - rewrite <- E in *. apply K; auto. split; reflexivity.
Qed.
Lemma grids_ok s n gs : (forall c g, In (c, g) gs -> known s c = true) -> forall q, exists r, add_grids pick cfg s n gs q = Ret r.
Proof.
  induction gs as [|[c g] gs IH]; intros Hk q; cbn [add_grids]; eauto.
  assert (Hk' : forall c g, In (c, g) gs -> known s c = true) by (intros; eapply Hk; right; eauto).
  destruct (view_pts pick cfg n c g) as [|p pts]; eauto. rewrite (Hk c g (or_introl eq_refl)).
  destruct (add_corners n c 0 (p :: pts) q) as [rs q1]. destruct (IH Hk' q1) as ([f q2] & -> ). cbn. eauto.
Qed.
Lemma remove_prior_ok s k ps : inv cfg s -> s_prior s = Some (k, ps) -> exists q, q_remove_res (RPrior k) (s_prob s) = Ret q.
Proof.
  intros I E. unfold q_remove_res. destruct (in_dec rid_eq (RPrior k) (map fst (q_res (s_prob s)))) as [H|H]; eauto.
  exfalso. apply H. apply (Permutation_in (l := map fst (all_res (s_views s) (s_prior s)))).
  - apply Permutation_map, Permutation_sym. apply (i_res _ _ _ _ _ (v_core cfg s I)).
  - rewrite E. unfold all_res. rewrite map_app. apply in_app_iff. right. cbn; auto.
Qed.
Lemma filter_ok x vs : (forall r c, reproj r c x <> None) -> forall q tl, StronglySorted lt (map v_id vs) ->
  (forall v, In v vs -> shaped (v_id v) (v_fid v)) -> (forall v, In v vs -> NoDup (map fst (of_view v))) ->
  (forall v r, In v vs -> In r (map fst tl) -> ~ owned r (v_id v)) ->
  Permutation (q_res q) (flat_map of_view vs ++ tl) -> exists r, filter_views reproj cfg x vs q = Ret r.
Proof.
  intros Hr. induction vs as [|v vs IH]; intros q tl Ss Sh Nd Ht P; cbn [filter_views]; eauto.
  assert (E : exists r, filter_view reproj cfg x v q = Ret r).
  { unfold filter_view. assert (Ha : exists es, all_errors reproj x v = Some es).
    { unfold all_errors. induction (flat_map snd (v_fid v)) as [|rc l IHl]; cbn [fold_right]; eauto. destruct IHl as (es & -> ).
      specialize (Hr (fst rc) (snd rc)). destruct (reproj (fst rc) (snd rc) x); eauto; congruence. }
    destruct Ha as (es & -> ). destruct (stddev es) as [sd|]; eauto. fold (bad_ones reproj cfg x sd v).
    destruct (remove_all_ok (bad_ones reproj cfg x sd v) q) as (q' & -> ); cbn; eauto.
    - assert (Nv := Nd v (or_introl eq_refl)). rewrite of_view_eq, map_app in Nv. apply nodup_app_l in Nv. rewrite fid_res_fst in Nv. unfold bad_ones.
      assert (Eb : flat_map (fun cl => map fst (filter (is_outlier reproj x (c_thresh cfg * sd)%R) (snd cl))) (v_fid v) =
                   map fst (filter (is_outlier reproj x (c_thresh cfg * sd)%R) (flat_map snd (v_fid v)))).
      { rewrite filter_flat_map, map_flat_map. reflexivity. }
      rewrite Eb. apply nodup_map_filter. auto.
    - intros r Hb. apply bad_in in Hb. apply (Permutation_in (l := map fst (flat_map of_view (v :: vs) ++ tl))).
      + apply Permutation_map, Permutation_sym. auto.
      + cbn [flat_map]. rewrite !map_app, !in_app_iff. left. left. rewrite of_view_eq, map_app, in_app_iff. left. rewrite fid_res_fst. auto. }
  destruct E as ([v1 q1] & E1). rewrite E1. cbn [obind fst snd].
  cbn [map] in Ss. apply StronglySorted_inv in Ss as (S1 & S2). rewrite Forall_forall in S2.
  cbn [flat_map] in P. rewrite <- app_assoc in P.
  assert (Hv : In v (v :: vs)) by (cbn; auto).
  destruct (filter_view_core reproj cfg x v q v1 q1 (flat_map of_view vs ++ tl) E1 (Sh v Hv) (Nd v Hv)) as (A1 & A2 & A3 & A4 & A5 & A6 & A7 & A8); auto.
  { intros r Hr' Ho. rewrite map_app, in_app_iff in Hr'. destruct Hr' as [Hr'|Hr']; [|apply (Ht v r Hv Hr' Ho)].
    rewrite map_flat_map in Hr'. apply in_flat_map in Hr' as (w & Hw & Hr'). apply of_view_owned_fst in Hr'; [|apply Sh; cbn; auto].
    specialize (S2 (v_id w) (in_map _ _ _ Hw)). destruct r; cbn in *; subst; try lia; contradiction. }
  destruct (IH q1 (of_view v1 ++ tl)) as ([vs2 q2] & -> ); cbn; eauto.
  - intros; apply Sh; cbn; auto.
  - intros; apply Nd; cbn; auto.
  - intros w r Hw Hr' Ho. rewrite map_app, in_app_iff in Hr'. destruct Hr' as [Hr'|Hr']; [|apply (Ht w r (or_intror Hw) Hr' Ho)].
    apply of_view_owned_fst in Hr'; auto. rewrite A4 in Hr'.
    specialize (S2 (v_id w) (in_map _ _ _ Hw)). destruct r; cbn in *; subst; try lia; contradiction.
  - rewrite A1. rewrite !app_assoc. apply Permutation_app_tail, Permutation_app_comm.
Qed.

(** why the calibrator stops: what may have gone wrong when an IMU sample [ts] is handed over *)
Inductive complaint (ts : Z) (a w : vec3) (s : vi) : Prop :=
| no_cam0 : s_init s = false -> (forall g, In (0, g) (s_gbuf s) -> known s 0 = false \/ estimate pnp s 0 g = None) -> complaint ts a w s
| no_pose c g : s_init s = true -> first_detected (s_gbuf s) = Some (c, g) -> estimate pnp s c g = None -> complaint ts a w s
| few_samples : s_init s = true -> first_detected (s_gbuf s) <> None -> imu_size (s_imu s) + 1 < 5 -> complaint ts a w s
| no_window : c_marg cfg = true -> c_window cfg = 0 -> complaint ts a w s.

Lemma gm_get_in c m : forall g, gm_get c m = Some g -> In (c, g) m.
Proof. induction m as [|[d h] m IH]; cbn; intros g E; [discriminate|]. destruct (Z.eqb_spec d c); [inversion E; subst; auto|auto]. Qed.
Lemma gm_get_sorted c g m : StronglySorted Z.lt (map fst m) -> In (c, g) m -> gm_get c m = Some g.
Proof.
  induction m as [|[d h] m IH]; cbn; intros Ss H; [contradiction|]. apply StronglySorted_inv in Ss as (S1 & S2). destruct H as [E|H].
  - inversion E; subst. rewrite Z.eqb_refl. auto.
  - destruct (Z.eqb_spec d c); [|auto]. subst. rewrite Forall_forall in S2. apply (in_map fst) in H. apply S2 in H. cbn in H. lia.
Qed.
Lemma detected_in gs c g : first_detected gs = Some (c, g) -> In (c, g) gs /\ g_det g = true.
Proof. unfold first_detected. intros H. apply find_some in H. exact H. Qed.

Lemma sample_outcome ts a w s : safe s ->
  match add_imu_sample z1 z3 pnp pick slv cfg ts a w s with
  | Ret _ => True
  | Throw _ => length (s_gbuf s) = length (s_cams s) /\ complaint ts a w s
  | Undef => False
  end.
Proof.
  intros [I Hk Ha]. unfold add_imu_sample. cbn [s_gbuf s_cams s_init s_imu s_views s_prior s_nprior s_prob s_x s_fid s_started s_running s_fixed s_next].
  fold (sampled ts a w (s_gbuf s) s). fold (sampled ts a w [] s).
  destruct (Nat.eqb_spec (length (s_gbuf s)) (length (s_cams s))) as [El|El]; cbn [negb]; [|exact Logic.I].
  assert (Is : inv cfg (sampled ts a w [] s)) by (apply (inv_ext cfg s); auto; constructor).
  assert (Sz : imu_size (imu_add (s_imu s) ts a w) = imu_size (s_imu s) + 1).
  { unfold imu_size, imu_add. cbn. rewrite app_length. cbn. lia. }
  destruct (negb (s_init s) && (imu_size (imu_add (s_imu s) ts a w) >? 2)) eqn:Eb.
  - apply andb_true_iff in Eb as (Eb1 & Eb2). apply negb_true_iff in Eb1.
    destruct (first_detected (s_gbuf s)) as [[c g]|] eqn:Ed.
    + (* initialize *)
      unfold initialize. destruct (gm_get 0 (s_gbuf s)) as [g0|] eqn:Eg.
      2:{ split; auto. apply no_cam0; auto. intros g0 Hg0. exfalso.
          apply (gm_get_sorted _ _ _ (v_gbuf cfg s I)) in Hg0. congruence. }
      change (known (sampled ts a w [] s) 0) with (known s 0). change (estimate pnp (sampled ts a w [] s) 0 g0) with (estimate pnp s 0 g0).
      assert (Uq : forall g', In (0, g') (s_gbuf s) -> g' = g0) by (intros g' H; apply (gm_get_sorted _ _ _ (v_gbuf cfg s I)) in H; congruence).
      destruct (known s 0) eqn:Ek; [|split; auto; apply no_cam0; auto].
      destruct (estimate pnp s 0 g0) as [T|] eqn:Ee; [|split; auto; apply no_cam0; auto; intros g' H; rewrite (Uq g' H); auto].
      cbn [s_fid sampled]. assert (Kc : forall s0, s_cams s0 = s_cams s -> forall c g, In (c, g) (s_gbuf s) -> known s0 c = true).
      { intros s0 H0 c0 g1 H1. unfold known. rewrite H0. apply (Hk c0 g1); auto. }
      destruct (s_fid s) as [TF|] eqn:Ef.
      * unfold fiducial_pose. cbn [s_fid sampled]. rewrite Ef. cbn [obind]. unfold new_view. cbn [fst snd].
        match goal with |- context [add_grids pick cfg ?s0 ?n ?gs ?q] => destruct (grids_ok s0 n gs (Kc s0 eq_refl) q) as (r & -> ) end. cbn. exact Logic.I.
      * cbn [obind]. unfold new_view. cbn [fst snd].
        match goal with |- context [add_grids pick cfg ?s0 ?n ?gs ?q] => destruct (grids_ok s0 n gs (Kc s0 eq_refl) q) as (r & -> ) end. cbn. exact Logic.I.
    + assert (Ev : add_view z1 z3 pnp pick cfg (s_gbuf s) (sampled ts a w [] s) = Ret (sampled ts a w [] s)).
      { unfold add_view. cbn [s_init sampled]. rewrite Eb1. reflexivity. }
      rewrite Ev. cbn [obind]. destruct (c_marg cfg && over_window cfg (sampled ts a w [] s)) eqn:Ew; [|exact Logic.I].
      exfalso. apply andb_true_iff in Ew as (_ & Ew). unfold over_window in Ew. cbn [sampled s_views] in Ew. rewrite (v_uninit cfg s I Eb1) in Ew. cbn [length] in Ew.
      apply andb_true_iff in Ew as (W1 & W2). rewrite Z.gtb_ltb in W1. apply Z.ltb_lt in W1. apply Z.leb_le in W2. lia.
  - assert (Marg : forall s3, core (s_views s3) (s_prior s3) (s_nprior s3) (s_next s3) (s_prob s3) -> chained (s_views s3) ->
       match (if c_marg cfg && over_window cfg s3 then obind (marginalize (with_x (slv (s_prob s3) (s_x s3)) s3)) (fun s4 => Ret (set_running s4)) else Ret s3) with
       | Ret _ => True | Throw _ => length (s_gbuf s) = length (s_cams s) /\ complaint ts a w s | Undef => False end).
    { intros s3 C Ch. destruct (c_marg cfg && over_window cfg s3) eqn:Ew; [|exact Logic.I]. apply andb_true_iff in Ew as (Em & Ew).
      unfold over_window in Ew. apply andb_true_iff in Ew as (W1 & W2). rewrite Z.gtb_ltb in W1. apply Z.ltb_lt in W1. apply Z.leb_le in W2.
      unfold marginalize. cbn [with_x s_views s_prior s_prob]. destruct (s_views s3) as [|v rest] eqn:Ev; [cbn in W1; lia|].
      assert (Er : exists r, match s_prior s3 with None => Ret ([], s_prob s3) | Some (k, ps) => obind (q_remove_res (RPrior k) (s_prob s3)) (fun q => Ret (ps, q)) end = Ret r).
      { destruct (s_prior s3) as [[k ps]|] eqn:Ep; eauto. unfold q_remove_res.
        destruct (in_dec rid_eq (RPrior k) (map fst (q_res (s_prob s3)))) as [H|H]; cbn; eauto.
        exfalso. apply H. apply (Permutation_in (l := map fst (all_res (v :: rest) (Some (k, ps))))).
        - apply Permutation_map, Permutation_sym. apply C.
        - unfold all_res. rewrite map_app. apply in_app_iff. right. cbn; auto. }
      destruct Er as ((ps & q) & -> ). cbn [obind fst snd]. destruct (v_imu v) as [l|] eqn:Hl; [exact Logic.I|].
      split; auto. apply no_window; auto. destruct rest as [|y rest]; [cbn in W1; lia|]. exfalso. cbn [chained] in Ch. destruct Ch as ((b & Ch) & _). congruence. }
    assert (Add : match add_view z1 z3 pnp pick cfg (s_gbuf s) (sampled ts a w [] s) with
       | Ret s3 => core (s_views s3) (s_prior s3) (s_nprior s3) (s_next s3) (s_prob s3) /\ chained (s_views s3)
       | Throw _ => complaint ts a w s | Undef => False end).
    { destruct (add_view z1 z3 pnp pick cfg (s_gbuf s) (sampled ts a w [] s)) as [s3| |] eqn:Ea.
      - apply add_view_spec in Ea as [( -> & _)|Ev].
        + split; apply Is.
        + destruct (view_step_inv _ _ _ _ _ _ _ _ Ev Is (v_gbuf cfg s I)) as (A & B & _). auto.
      - unfold add_view in Ea. cbn [s_init sampled] in Ea. destruct (s_init s) eqn:Ei; [|discriminate]. cbn [negb] in Ea.
        destruct (first_detected (s_gbuf s)) as [[c g]|] eqn:Ed; [|discriminate].
        unfold estimate_sensor_pose in Ea. rewrite Ed in Ea. change (known (sampled ts a w [] s) c) with (known s c) in Ea.
        change (estimate pnp (sampled ts a w [] s) c g) with (estimate pnp s c g) in Ea.
        rewrite (Hk c g) in Ea by apply (detected_in _ _ _ Ed).
        destruct (estimate pnp s c g) as [T|] eqn:Ee; [|eapply no_pose; eauto].
        destruct (v_init cfg s I Ei) as (Nv & Nf). unfold fiducial_pose in Ea. cbn [s_fid sampled] in Ea.
        destruct (s_fid s) as [TF|] eqn:Ef; [|congruence]. cbn [obind fst snd] in Ea.
        match type of Ea with match last_view ?s0 with _ => _ end = _ => destruct (last_view s0) as [v|] eqn:Elv; [|discriminate] end.
        unfold new_view in Ea.
        match type of Ea with context [add_grids pick cfg ?s0 ?n ?gs ?q] => destruct (grids_ok s0 n gs Hk q) as ((f & q0) & Eg); rewrite Eg in Ea end.
        cbn [obind fst snd set_fid s_imu sampled] in Ea.
        destruct (Z.ltb_spec (imu_size (imu_add (s_imu s) ts a w)) 5) as [H5|H5].
        + apply few_samples; auto; [congruence|lia].
        + exfalso. unfold with_views, with_imu in Ea. cbn [s_imu] in Ea. destruct (c_marg cfg); [|discriminate].
          destruct (trim_aligned (imu_add (s_imu s) ts a w) (g_ts g) (aligned_add _ _ _ _ Ha)) as (b & Eb' & _). rewrite Eb' in Ea. discriminate.
      - unfold add_view in Ea. cbn [s_init sampled] in Ea. destruct (s_init s) eqn:Ei; [|discriminate]. cbn [negb] in Ea.
        destruct (first_detected (s_gbuf s)) as [[c g]|] eqn:Ed; [|discriminate].
        unfold estimate_sensor_pose in Ea. rewrite Ed in Ea. change (known (sampled ts a w [] s) c) with (known s c) in Ea.
        change (estimate pnp (sampled ts a w [] s) c g) with (estimate pnp s c g) in Ea.
        rewrite (Hk c g) in Ea by apply (detected_in _ _ _ Ed).
        destruct (estimate pnp s c g) as [T|] eqn:Ee; [|discriminate].
        destruct (v_init cfg s I Ei) as (Nv & Nf). unfold fiducial_pose in Ea. cbn [s_fid sampled] in Ea.
        destruct (s_fid s) as [TF|] eqn:Ef; [|congruence]. cbn [obind fst snd] in Ea.
        match type of Ea with match last_view ?s0 with _ => _ end = _ => destruct (last_view s0) as [v|] eqn:Elv end.
        2:{ apply last_view_none in Elv. cbn in Elv. congruence. }
        unfold new_view in Ea.
        match type of Ea with context [add_grids pick cfg ?s0 ?n ?gs ?q] => destruct (grids_ok s0 n gs Hk q) as ((f & q0) & Eg); rewrite Eg in Ea end.
        cbn [obind fst snd set_fid s_imu sampled] in Ea.
        destruct (Z.ltb_spec (imu_size (imu_add (s_imu s) ts a w)) 5) as [H5|H5]; [discriminate|].
        unfold with_views, with_imu in Ea. cbn [s_imu] in Ea. destruct (c_marg cfg); [|discriminate].
        destruct (trim_aligned (imu_add (s_imu s) ts a w) (g_ts g) (aligned_add _ _ _ _ Ha)) as (b & Eb' & _). rewrite Eb' in Ea. discriminate. }
    destruct (add_view z1 z3 pnp pick cfg (s_gbuf s) (sampled ts a w [] s)) as [s3|ex|]; cbn [obind]; auto.
    apply Marg; apply Add.
Qed.

Lemma step_cams e s s' : step e s = Ret s' -> s_cams s' = s_cams s /\ s_fixed s' = s_fixed s.
Proof.
  destruct e as [c g|ts a w| |]; cbn [vstep]; intros E.
  - inversion E. unfold add_grid. destruct (s_started s); auto.
  - apply sample_spec in E. 
    assert (V : forall gs s1 s2, view_step z1 z3 pnp pick cfg gs s1 s2 -> s_cams s2 = s_cams s1 /\ s_fixed s2 = s_fixed s1) by (intros gs s1 s2 []; subst; auto).
    destruct E as [_ -> |_ Hi _ _ []|_ _ _ -> |_ Hv Hw|s1 s2 _ H1 Hm Hw H2 -> ]; auto.
    + subst; auto.
    + apply V in Hv. auto.
    + assert (M : s_cams s2 = s_cams s1 /\ s_fixed s2 = s_fixed s1).
      { unfold marginalize in H2. cbn [with_x s_views s_prior s_prob] in H2. destruct (s_views s1) as [|v rest]; [discriminate|]. apply bind_ret in H2 as (r & _ & H2).
        destruct (v_imu v); [|discriminate]. inversion H2; auto. }
      cbn. destruct M as ( -> & -> ). destruct H1 as [ -> |H1]; auto. apply V in H1. auto.
  - unfold solve in E. destruct (c_reject cfg).
    + apply bind_ret in E as (r & _ & E). inversion E; auto.
    + inversion E; auto.
  - inversion E; auto.
Qed.
Lemma step_al e s s' : step e s = Ret s' -> aligned (s_imu s) -> aligned (s_imu s').
Proof.
  destruct e as [c g|ts a w| |]; cbn [vstep]; intros E Ha.
  - inversion E. unfold add_grid. destruct (s_started s); auto.
  - apply sample_spec in E.
    assert (V : forall gs s1 s2, view_step z1 z3 pnp pick cfg gs s1 s2 -> aligned (s_imu s1) -> aligned (s_imu s2)).
    { intros gs s1 s2 [] Hs; subst. cbn. destruct (c_marg cfg); [|congruence]. destruct (trim_aligned (s_imu s1) (g_ts vs_g) Hs) as (b & Eb & Hb). congruence. }
    assert (H0 : forall gb, aligned (s_imu (sampled ts a w gb s))) by (intros; apply aligned_add; auto).
    destruct E as [_ -> |_ Hi _ _ []|_ _ _ -> |_ Hv Hw|s1 s2 _ H1 Hm Hw H2 -> ]; auto.
    + subst s'. apply (H0 []).
    + apply V in Hv; auto.
    + assert (M : s_imu s2 = s_imu s1).
      { unfold marginalize in H2. cbn [with_x s_views s_prior s_prob] in H2. destruct (s_views s1) as [|v rest]; [discriminate|]. apply bind_ret in H2 as (r & _ & H2).
        destruct (v_imu v); [|discriminate]. inversion H2; auto. }
      cbn. rewrite M. destruct H1 as [ -> |H1]; auto. apply V in H1; auto.
  - unfold solve in E. destruct (c_reject cfg).
    + apply bind_ret in E as (r & _ & E). inversion E; auto.
    + inversion E; auto.
  - inversion E. split; reflexivity.
Qed.
Lemma step_gbuf e s s' : step e s = Ret s' -> forall c g, In (c, g) (s_gbuf s') -> In (c, g) (s_gbuf s) \/ e = EGrid c g.
Proof.
  destruct e as [c0 g0|ts a w| |]; cbn [vstep]; intros E c g H.
  - inversion E; subst. unfold add_grid in H. destruct (s_started s); auto. cbn in H. clear -H.
    induction (s_gbuf s) as [|[d h] m IH]; cbn [gm_set] in H.
    + destruct H as [H|[]]. inversion H; auto.
    + destruct (c0 <? d); [destruct H as [H|H]; [inversion H; auto|auto]|]. destruct (c0 =? d).
      * destruct H as [H|H]; [inversion H; auto|]. left; right; auto.
      * destruct H as [H|H]; [left; left; auto|]. destruct (IH H); auto. left; right; auto.
  - apply sample_spec in E.
    assert (V : forall gs s1 s2, view_step z1 z3 pnp pick cfg gs s1 s2 -> s_gbuf s2 = s_gbuf s1) by (intros gs s1 s2 []; subst; auto).
    destruct E as [_ -> |_ Hi _ _ []|_ _ _ -> |_ Hv Hw|s1 s2 _ H1 Hm Hw H2 -> ]; auto.
    + subst; auto. contradiction.
    + contradiction.
    + apply V in Hv. rewrite Hv in H. contradiction.
    + assert (M : s_gbuf s2 = s_gbuf s1).
      { unfold marginalize in H2. cbn [with_x s_views s_prior s_prob] in H2. destruct (s_views s1) as [|v rest]; [discriminate|]. apply bind_ret in H2 as (r & _ & H2).
        destruct (v_imu v); [|discriminate]. inversion H2; auto. }
      cbn in H. rewrite M in H. destruct H1 as [ -> |H1]; [contradiction|]. apply V in H1. rewrite H1 in H. contradiction.
  - unfold solve in E. destruct (c_reject cfg).
    + apply bind_ret in E as (r & _ & E). inversion E; subst; auto.
    + inversion E; subst; auto.
  - inversion E; subst. contradiction.
Qed.
Lemma step_safe e s s' : step e s = Ret s' -> (c_marg cfg = false \/ is_reset e = false) -> (forall c g, e = EGrid c g -> known s c = true) -> safe s -> safe s'.
Proof.
  intros E Hr Hk [I K A]. constructor.
  - eapply step_inv; eauto.
  - intros c g H. destruct (step_cams _ _ _ E) as (Ec & _). unfold known. rewrite Ec. destruct (step_gbuf _ _ _ E c g H) as [H'|H']; [apply (K c g H')|apply (Hk c g H')].
  - eapply step_al; eauto.
Qed.
Definition of_camera (s : vi) (e : event) : Prop := match e with EGrid c _ => In c (s_cams s) | _ => True end.
Lemma known_in s c : known s c = true <-> In c (s_cams s).
Proof. unfold known. rewrite existsb_exists. split; [intros (x & H & E); apply Z.eqb_eq in E; subst; auto|intros H; exists c; split; auto; apply Z.eqb_refl]. Qed.
Lemma run_safe h : forall s s', run h s = Ret s' -> (c_marg cfg = false \/ never is_reset h) -> (forall e, In e h -> of_camera s e) -> safe s -> safe s' /\ s_cams s' = s_cams s /\ s_fixed s' = s_fixed s.
Proof.
  induction h as [|e h IH]; intros s s' E Hr Hc Hs; cbn [vrun] in E; [inversion E; subst; auto|].
  apply bind_ret in E as (s1 & E1 & E). destruct (step_cams _ _ _ E1) as (Ec & Ef). rewrite <- Ec, <- Ef.
  apply (IH s1); auto.
  - destruct Hr as [Hr|Hr]; auto. right. intros x Hx. apply Hr. cbn; auto.
  - intros x Hx. specialize (Hc x (or_intror Hx)). destruct x; cbn in *; auto. rewrite Ec. auto.
  - eapply step_safe; eauto.
    + destruct Hr as [Hr|Hr]; auto. right. apply Hr. cbn; auto.
    + intros c g -> . apply known_in. apply (Hc (EGrid c g)). cbn; auto.
Qed.
Lemma conf_cams os : (forall c ps T fp fe, In (SCam c ps T fp fe) os -> In c (s_cams (conf os))) /\ s_gbuf (conf os) = [] /\ s_imu (conf os) = imu_empty /\ s_started (conf os) = false.
Proof.
  unfold configure. assert (K : forall os s, s_gbuf s = [] -> s_imu s = imu_empty -> s_started s = false -> let s' := fold_left (sstep z1 z3) os s in
    (forall c, In c (s_cams s) -> In c (s_cams s')) /\ (forall c ps T fp fe, In (SCam c ps T fp fe) os -> In c (s_cams s')) /\ s_gbuf s' = [] /\ s_imu s' = imu_empty /\ s_started s' = false).
  { clear. induction os as [|o os IH]; intros s H1 H2 H3; cbn [fold_left].
    - repeat split; auto. intros c ps T fp fe [].
    - destruct (IH (sstep z1 z3 s o)) as (A & B & C & D & E); [destruct o; auto|destruct o; auto|destruct o; auto|].
      assert (M : forall c, In c (s_cams s) -> In c (s_cams (sstep z1 z3 s o))).
      { intros c Hc. destruct o as [| c0 ps T fp fe|]; cbn; auto. destruct (existsb (Z.eqb c0) (s_cams s)); auto. apply in_app_iff; auto. }
      split; [auto|]. split; [|auto]. intros c ps T fp fe [ -> |H]; [|eapply B; eauto]. apply A. cbn.
      destruct (existsb (Z.eqb c) (s_cams s)) eqn:Ex; [|apply in_app_iff; cbn; auto].
      apply existsb_exists in Ex as (x & Hx & Ex). apply Z.eqb_eq in Ex. subst; auto. }
  destruct (K os vi_empty) as (_ & A); auto.
Qed.
Lemma conf_safe os : safe (conf os).
Proof.
  destruct (conf_cams os) as (_ & A & B & _). constructor.
  - apply configure_inv.
  - rewrite A. intros c g [].
  - rewrite B. split; reflexivity.
Qed.

(** Grids only of cameras that were added, projections that do not fail: no call reads or removes what is not there. *)
Theorem C85_no_undefined : forall os h, c_marg cfg = false \/ never is_reset h ->
  (forall c g, In (EGrid c g) h -> exists ps T fp fe, In (SCam c ps T fp fe) os) -> (forall r c x, reproj r c x <> None) ->
  run h (conf os) <> Undef.
Proof.
  intros os h Hr Hc Hp. assert (Hc' : forall e, In e h -> of_camera (conf os) e).
  { intros [c g| | |] He; cbn; auto. destruct (Hc c g He) as (ps & T & fp & fe & H). eapply conf_cams; eauto. }
  clear Hc. generalize (conf_safe os) Hc' Hr. generalize (conf os) as s. clear Hc' Hr.
  induction h as [|e h IH]; intros s Hs Hc Hr; cbn [vrun]; [discriminate|].
  destruct (step e s) as [s1| |] eqn:E; cbn [obind]; try discriminate.
  - apply IH.
    + eapply step_safe; eauto.
      * destruct Hr as [Hr|Hr]; auto. right. apply Hr. cbn; auto.
      * intros c g -> . apply known_in. apply (Hc (EGrid c g)). cbn; auto.
    + intros x Hx. specialize (Hc x (or_intror Hx)). destruct (step_cams _ _ _ E) as (Ec & _). destruct x; cbn in *; auto. rewrite Ec. auto.
    + destruct Hr as [Hr|Hr]; auto. right. intros x Hx. apply Hr. cbn; auto.
  - exfalso. destruct e as [c g|ts a w| |]; cbn [vstep] in E; try discriminate.
    + pose proof (sample_outcome ts a w s Hs) as H. rewrite E in H. exact H.
    + unfold solve in E. destruct (c_reject cfg); [|discriminate].
      set (q2 := q_free PDelay (q_fix PDelay (s_prob s))) in *.
      assert (K1 : q_res q2 = q_res (s_prob s)) by (unfold q2; cbn; apply fix_res).
      destruct Hs as [[[A B _ D F _ _] _ _ _ _ _ _ _] _ _].
      destruct (filter_ok (slv q2 (slv (q_fix PDelay (s_prob s)) (s_x s))) (s_views s) (fun r c => Hp r c _) q2 (match s_prior s with Some (k, ps) => [(RPrior k, ps)] | None => [] end) B D F) as (r & Er).
      * intros v r0 Hv Hr0 Ho. destruct (s_prior s) as [[k ps]|]; [|contradiction]. destruct Hr0 as [ <- |[]]. exact Ho.
      * rewrite K1. exact A.
      * rewrite Er in E. discriminate.
Qed.
(** The only exceptions: when an IMU sample completes a frame and, at the start, camera 0 gives no pose; later, the
    first camera that saw the target gives no pose; fewer than five IMU samples lie between two views; or the window
    is empty. *)
Theorem C85_failures : forall os h s e x, run h (conf os) = Ret s -> c_marg cfg = false \/ never is_reset h ->
  (forall c g, In (EGrid c g) h -> exists ps T fp fe, In (SCam c ps T fp fe) os) -> step e s = Throw x ->
  (exists ts a w, e = EImu ts a w /\ length (s_gbuf s) = length (s_cams s) /\ complaint ts a w s).
Proof.
  intros os h s e x E Hr Hc Et. assert (Hc' : forall e, In e h -> of_camera (conf os) e).
  { intros [c g| | |] He; cbn; auto. destruct (Hc c g He) as (ps & T & fp & fe & H). eapply conf_cams; eauto. }
  destruct (run_safe h _ _ E Hr Hc' (conf_safe os)) as (Hs & _).
  destruct e as [c g|ts a w| |]; cbn [vstep] in Et; try discriminate.
  - exists ts, a, w. split; auto. pose proof (sample_outcome ts a w s Hs) as H. rewrite Et in H. exact H.
  - exfalso. unfold solve in Et. destruct (c_reject cfg); [|discriminate].
    assert (K : forall y vs q, filter_views reproj cfg y vs q <> Throw x).
    { clear. intros y vs. induction vs as [|v vs IH]; intros q; cbn [filter_views]; [discriminate|].
      assert (Kv : filter_view reproj cfg y v q <> Throw x).
      { unfold filter_view. destruct (all_errors reproj y v); [|discriminate]. destruct (stddev l); [|discriminate]. fold (bad_ones reproj cfg y r v).
        assert (Ka : forall bad q, q_remove_all bad q <> Throw x).
        { induction bad as [|b bad IHb]; intros q0; cbn [q_remove_all]; [discriminate|]. unfold q_remove_res. destruct (in_dec rid_eq b (map fst (q_res q0))); cbn; [apply IHb|discriminate]. }
        specialize (Ka (bad_ones reproj cfg y r v) q). destruct (q_remove_all (bad_ones reproj cfg y r v) q); cbn; congruence. }
      destruct (filter_view reproj cfg y v q) as [a| |]; cbn [obind]; try congruence.
      specialize (IH (snd a)). destruct (filter_views reproj cfg y vs (snd a)); cbn; congruence. }
    match type of Et with obind ?f _ = _ => destruct f eqn:Ef; cbn in Et; try discriminate end. inversion Et; subst. eapply K; eauto.
Qed.
End T.
