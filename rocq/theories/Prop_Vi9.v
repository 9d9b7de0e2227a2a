(** * C92: outlier rejection of the visual-inertial calibrator *)
From Verif Require Import Base GeomModel EulerModel StatsModel ImuModel ImuSpec ViModel ViSpec ViProofs ViProofs2 ViProofs3 ViProofs4 ViProofs5 Prop_Vi2 Prop_Vi3 ViProofs6.
From Verif Require Import Prop_Stats.
From Coq Require Import Reals Lra Sorted Permutation.
Local Open Scope Z_scope.

(** ** Specification *)
(** [es] are the reprojection errors (pixels) of the corners of a view, in their order *)
Definition errors (reproj : rid -> corner -> (pid -> list R) -> option (R * R)) (x : pid -> list R) (v : view) (es : list R) : Prop :=
  Forall2 (fun rc e => exists r, reproj (fst rc) (snd rc) x = Some r /\ e = sqrt (fst r * fst r + snd r * snd r)%R) (flat_map snd (v_fid v)) es.
(** [sd] is their standard deviation *)
Definition deviation (es : list R) (sd : R) : Prop :=
  (2 <= length es)%nat /\ (0 <= sd)%R /\
  exists m, (Prop_Stats.N es * m = Sum (fun a => a) es)%R /\ ((Prop_Stats.N es - 1) * sd ^ 2 = Sum (fun a => (a - m) ^ 2) es)%R.
(** the corners the calibrator takes for outliers: a component of the residual is larger than so many standard deviations *)
Definition rejected (reproj : rid -> corner -> (pid -> list R) -> option (R * R)) (k : R) (x : pid -> list R) (v : view) (rc : rid * corner) : Prop :=
  exists es sd r, errors reproj x v es /\ deviation es sd /\ reproj (fst rc) (snd rc) x = Some r /\ (k * sd < fst r \/ k * sd < snd r)%R.

(** ** Lemmas *)
Lemma dev_unique es sd sd' : deviation es sd -> deviation es sd' -> sd = sd'.
Proof.
  intros (L & P & m & Em & Es) (_ & P' & m' & Em' & Es').
  assert (Np : (2 <= Prop_Stats.N es)%R) by (unfold Prop_Stats.N; change 2%R with (INR 2); apply le_INR; exact L).
  assert (m = m') by (apply (Rmult_eq_reg_l (Prop_Stats.N es)); lra). subst m'.
  assert (Sq : (sd ^ 2 = sd' ^ 2)%R) by (apply (Rmult_eq_reg_l (Prop_Stats.N es - 1)); lra).
  nra.
Qed.
Lemma stddev_dev es sd : stddev es = Some sd -> deviation es sd.
Proof.
  intros E. destruct es as [|a [|b es]].
  - unfold stddev in E. rewrite (proj2 (proj2 (proj2 C51_degenerate))) in E. discriminate E.
  - unfold stddev in E. rewrite (proj1 (proj2 (proj2 C51_degenerate))) in E. discriminate E.
  - destruct (C51_var (a :: b :: es)) as (m & v & Em & Ev & Pv & H1 & _ & H2 & H3); [cbn; lia|].
    rewrite E in H2. injection H2 as -> . split; [cbn; lia|]. split; [apply sqrt_pos|]. exists m. rewrite H3. split; [|exact H1].
    destruct (C51_mean (a :: b :: es)) as (_ & m' & Em' & Hm & _); [discriminate|]. rewrite Em in Em'. injection Em' as <- . exact Hm.
Qed.
Lemma dev_stddev es sd : deviation es sd -> stddev es = Some sd.
Proof.
  intros D. destruct (C51_var es (proj1 D)) as (m & v & _ & _ & _ & _ & _ & E & _). rewrite E. f_equal. apply (dev_unique es); auto. apply stddev_dev; auto.
Qed.

Lemma forall2_len {A B} (P : A -> B -> Prop) l l' : Forall2 P l l' -> length l = length l'.
Proof. induction 1; cbn; congruence. Qed.
Section F.
Context (reproj : rid -> corner -> (pid -> list R) -> option (R * R)) (cfg : settings).
Lemma errors_all x v es : errors reproj x v es <-> all_errors reproj x v = Some es.
Proof.
  unfold errors, all_errors. generalize (flat_map snd (v_fid v)). intros l. revert es. induction l as [|rc l IH]; intros es; cbn [fold_right].
  - split; intros H; [inversion H; auto|]. injection H as <- . constructor.
  - split.
    + intros H. inversion H as [|? e ? es' (r & Er & Ee) He]; subst. apply IH in He. rewrite He, Er. reflexivity.
    + destruct (fold_right _ _ l) as [es'|] eqn:El; [|discriminate]. destruct (reproj (fst rc) (snd rc) x) as [r|] eqn:Er; [|discriminate].
      intros H. injection H as <- . constructor; [eauto|]. apply IH; auto.
Qed.
Lemma outlier_iff x v es sd rc : errors reproj x v es -> deviation es sd ->
  (is_outlier reproj x (c_thresh cfg * sd)%R rc = true <-> rejected reproj (c_thresh cfg) x v rc).
Proof.
  intros He Hd. unfold is_outlier. split.
  - destruct (reproj (fst rc) (snd rc) x) as [r|] eqn:Er; [|discriminate]. intros H. exists es, sd, r. split; [auto|]. split; [auto|]. split; [auto|].
    destruct (Rlt_dec _ (fst r)); [left; auto|]. destruct (Rlt_dec _ (snd r)); [right; auto|discriminate].
  - intros (es' & sd' & r & He' & Hd' & Er & H). rewrite Er. apply errors_all in He, He'. rewrite He in He'. injection He' as <- .
    rewrite <- (dev_unique _ _ _ Hd Hd') in H. destruct (Rlt_dec _ (fst r)); auto. destruct (Rlt_dec _ (snd r)); auto. lra.
Qed.
(** one view before and after *)
Definition thinned (x : pid -> list R) (v v' : view) : Prop :=
  v_id v' = v_id v /\ v_ts v' = v_ts v /\ v_imu v' = v_imu v /\
  exists out, (forall rc, out rc = true <-> rejected reproj (c_thresh cfg) x v rc) /\
    v_fid v' = map (fun cl => (fst cl, filter (fun rc => negb (out rc)) (snd cl))) (v_fid v).
Lemma filter_all_true {A} (l : list A) : filter (fun _ => negb false) l = l.
Proof. induction l; cbn in *; congruence. Qed.
Lemma filter_view_thinned x v q v' q' : filter_view reproj cfg x v q = Ret (v', q') ->
  thinned x v v' /\ (exists es, errors reproj x v es) /\
  exists bad, (forall r, In r bad <-> exists rc, In rc (flat_map snd (v_fid v)) /\ rejected reproj (c_thresh cfg) x v rc /\ fst rc = r) /\
    q_res q' = filter (fun y => negb (rin (fst y) bad)) (q_res q).
Proof.
  intros E. apply filter_view_spec in E as (es & Ee & [(Es & -> & -> )|(sd & Es & -> & E)]); apply errors_all in Ee.
  - assert (No : forall rc, ~ rejected reproj (c_thresh cfg) x v rc).
    { intros rc (es' & sd & r & He & Hd & _). apply errors_all in He, Ee. rewrite Ee in He. injection He as <- . apply dev_stddev in Hd. congruence. }
    split; [|split; [eauto|]].
    + repeat split. exists (fun _ => false). split; [intros rc; split; [discriminate|intros H; destruct (No _ H)]|].
      rewrite <- (map_id (v_fid v)) at 1. apply map_ext. intros [c rs]. cbn [fst snd]. rewrite filter_all_true. reflexivity.
    + exists nil. split; [intros r; split; [intros []|intros (rc & _ & H & _); destruct (No _ H)]|].
      symmetry. rewrite (filter_ext _ (fun _ => negb false)); [apply filter_all_true|]. intros y. reflexivity.
  - apply stddev_dev in Es. split; [|split; [eauto|]].
    + repeat split. exists (is_outlier reproj x (c_thresh cfg * sd)%R). split; [|reflexivity]. intros rc. apply (outlier_iff x v es sd); auto.
    + exists (bad_ones reproj cfg x sd v). split.
      * intros r. unfold bad_ones. rewrite in_flat_map. split.
        -- intros (cl & H1 & H2). apply in_map_iff in H2 as (rc & H3 & H2). apply filter_In in H2 as (H2 & H4). exists rc.
           split; [apply in_flat_map; eauto|]. split; [|auto]. apply (outlier_iff x v es sd); auto.
        -- intros (rc & H1 & H2 & H3). apply in_flat_map in H1 as (cl & H1 & H4). exists cl. split; auto. apply in_map_iff. exists rc. split; auto.
           apply filter_In. split; auto. apply (outlier_iff x v es sd rc); auto.
      * apply (remove_all_spec _ _ _ E).
Qed.
Lemma filter_views_thinned x vs : forall q vs' q', filter_views reproj cfg x vs q = Ret (vs', q') ->
  Forall2 (thinned x) vs vs' /\ (forall v, In v vs -> exists es, errors reproj x v es) /\
  exists bad, (forall r, In r bad <-> exists v rc, In v vs /\ In rc (flat_map snd (v_fid v)) /\ rejected reproj (c_thresh cfg) x v rc /\ fst rc = r) /\
    q_res q' = filter (fun y => negb (rin (fst y) bad)) (q_res q).
Proof.
  induction vs as [|v vs IH]; intros q vs' q' E; cbn [filter_views] in E.
  - injection E as <- <- . split; [constructor|]. split; [intros v []|]. exists nil. split; [intros r; split; [intros []|intros (v & rc & [] & _)]|].
    symmetry. rewrite (filter_ext _ (fun _ => negb false)); [apply filter_all_true|]. intros y. reflexivity.
  - apply bind_ret in E as ([v1 q1] & E1 & E). apply bind_ret in E as ([vs1 q2] & E2 & E). cbn [fst snd] in *. injection E as <- <- .
    destruct (filter_view_thinned _ _ _ _ _ E1) as (A1 & A2 & bad & A3 & A4). destruct (IH _ _ _ E2) as (B1 & B2 & bad' & B3 & B4).
    split; [constructor; auto|]. split; [intros w [ <- |Hw]; auto|].
    exists (bad ++ bad'). split.
    + intros r. rewrite in_app_iff, A3, B3. split.
      * intros [(rc & H)|(w & rc & H1 & H)]; [exists v, rc|exists w, rc]; cbn; tauto.
      * intros (w & rc & [ <- |H1] & H); [left; eauto|right; eauto].
    + rewrite B4, A4, filter_filter. apply filter_ext. intros y. rewrite <- negb_orb. f_equal.
      apply eq_true_iff_eq. rewrite orb_true_iff, !rin_iff, in_app_iff. tauto.
Qed.
Lemma filter_views_no_throw x vs : forall q e, filter_views reproj cfg x vs q <> Throw e.
Proof.
  induction vs as [|v vs IH]; intros q e; cbn [filter_views]; [discriminate|].
  assert (Kv : forall e, filter_view reproj cfg x v q <> Throw e).
  { intros e0. unfold filter_view. destruct (all_errors reproj x v); [|discriminate]. destruct (stddev l); [|discriminate]. fold (bad_ones reproj cfg x r v).
    assert (Ka : forall bad q, q_remove_all bad q <> Throw e0).
    { induction bad as [|b bad IHb]; intros q0; cbn [q_remove_all]; [discriminate|]. unfold q_remove_res. destruct (in_dec rid_eq b (map fst (q_res q0))); cbn; [apply IHb|discriminate]. }
    specialize (Ka (bad_ones reproj cfg x r v) q). destruct (q_remove_all (bad_ones reproj cfg x r v) q); cbn; congruence. }
  destruct (filter_view reproj cfg x v q) as [a|e1|] eqn:E; cbn [obind]; try congruence.
  specialize (IH (snd a)). destruct (filter_views reproj cfg x vs (snd a)); cbn; congruence.
Qed.
End F.

Section T.
Context (z1 z3 : R) (pnp : list R -> list corner -> option mat4) (pick : nat -> Z -> list corner -> list corner)
        (slv : problem -> (pid -> list R) -> pid -> list R) (reproj : rid -> corner -> (pid -> list R) -> option (R * R))
        (cfg : settings).
Notation run := (vrun z1 z3 pnp pick slv reproj cfg).
Notation step := (vstep z1 z3 pnp pick slv reproj cfg).
Notation conf := (configure z1 z3).
(** the estimate after the two passes that precede the rejection: delay held, then free *)
Definition before_rejection (s : vi) : pid -> list R :=
  let q := q_fix PDelay (s_prob s) in slv (q_free PDelay q) (slv q (s_x s)).

(** *** C92 *)
(** Solving with rejection enabled: in every view exactly the rejected corners are lost, in every camera and with the
    order of the others kept; exactly their residuals leave the problem; the last pass solves the problem that is left. *)
Theorem C92_rejects_partial : forall os h s s', run h (conf os) = Ret s -> c_marg cfg = false \/ never is_reset h ->
  c_reject cfg = true -> step ESolve s = Ret s' ->
  let x := before_rejection s in
  Forall2 (thinned reproj cfg x) (s_views s) (s_views s') /\
  (forall v, In v (s_views s) -> exists es, errors reproj x v es) /\
  (forall y, In y (q_res (s_prob s')) <-> In y (q_res (s_prob s)) /\
     ~ exists v rc, In v (s_views s) /\ In rc (flat_map snd (v_fid v)) /\ rejected reproj (c_thresh cfg) x v rc /\ fst rc = fst y) /\
  s_x s' = slv (s_prob s') x.
Proof.
  intros os h s s' E Hr Hj Es x. cbn [vstep] in Es. unfold solve in Es. rewrite Hj in Es.
  apply bind_ret in Es as ([vs q3] & E1 & Es). injection Es as <- .
  cbn [with_x with_views s_views s_prob s_x fst snd].
  destruct (filter_views_thinned reproj cfg _ _ _ _ _ E1) as (A1 & A2 & bad & A3 & A4). split; [exact A1|]. split; [exact A2|]. split; [|reflexivity].
  intros y. rewrite A4, filter_In. cbn [q_free q_res]. rewrite (proj1 (fix_res PDelay (s_prob s))), negb_true_iff, rin_false, A3. reflexivity.
Qed.
(** Rejection only looks at one side: a corner both of whose residual components are negative or zero is kept, however
    large its error. *)
Theorem C92_one_sided_refuted : forall os h s s' i v v' c rs rc r, run h (conf os) = Ret s -> c_marg cfg = false \/ never is_reset h ->
  c_reject cfg = true -> (0 <= c_thresh cfg)%R -> step ESolve s = Ret s' ->
  nth_error (s_views s) i = Some v -> nth_error (s_views s') i = Some v' -> In (c, rs) (v_fid v) -> In rc rs ->
  reproj (fst rc) (snd rc) (before_rejection s) = Some r -> (fst r <= 0)%R -> (snd r <= 0)%R ->
  exists rs', In (c, rs') (v_fid v') /\ In rc rs'.
Proof.
  intros os h s s' i v v' c rs rc r E Hr Hj Ht Es Hv Hv' Hc Hrc Er R1 R2.
  destruct (C92_rejects_partial os h s s' E Hr Hj Es) as (F & _). revert i Hv Hv'.
  induction F as [|w w' ws ws' Hw F IH]; intros [|i] Hv Hv'; cbn [nth_error] in *; try discriminate; [|eauto].
  injection Hv as -> . injection Hv' as -> . destruct Hw as (_ & _ & _ & out & Ho & Ef). rewrite Ef.
  exists (filter (fun rc => negb (out rc)) rs). split; [apply in_map_iff; exists (c, rs); auto|].
  apply filter_In. split; auto. apply negb_true_iff, not_true_iff_false. rewrite Ho. intros (es & sd & r' & _ & (_ & Psd & _) & Er' & H).
  rewrite Er in Er'. injection Er' as <- . nra.
Qed.
(** The threshold measures the spread of the errors, not their size: when all errors of a view are equal, however
    small, every corner with a positive residual component is rejected. *)
Theorem C92_uniform_refuted : forall os h s s' i v v' e c rs rc r, run h (conf os) = Ret s -> c_marg cfg = false \/ never is_reset h ->
  c_reject cfg = true -> step ESolve s = Ret s' ->
  nth_error (s_views s) i = Some v -> nth_error (s_views s') i = Some v' ->
  (2 <= length (flat_map snd (v_fid v)))%nat ->
  (forall rc r, In rc (flat_map snd (v_fid v)) -> reproj (fst rc) (snd rc) (before_rejection s) = Some r -> sqrt (fst r * fst r + snd r * snd r)%R = e) ->
  In (c, rs) (v_fid v') -> reproj (fst rc) (snd rc) (before_rejection s) = Some r -> (0 < fst r \/ 0 < snd r)%R ->
  ~ In rc rs.
Proof.
  intros os h s s' i v v' e c rs rc r E Hr Hj Es Hv Hv' Hl He Hc Er Rp.
  destruct (C92_rejects_partial os h s s' E Hr Hj Es) as (F & Fe & _).
  destruct (Fe v) as (es & Hes); [eapply nth_error_In; eauto|].
  assert (D : deviation es 0).
  { assert (Le : length es = length (flat_map snd (v_fid v))) by (symmetry; eapply forall2_len; eauto).
    assert (Ae : forall a, In a es -> a = e).
    { unfold errors in Hes. revert Hes He. clear. generalize (flat_map snd (v_fid v)). intros l H. induction H as [|y a l es (r & E1 & E2) H IH]; intros He b Hb; [destruct Hb|destruct Hb as [ <- |Hb]].
      - rewrite E2. apply (He y); [left; auto|auto].
      - apply IH; auto. intros. eapply He; eauto. right; auto. }
    split; [lia|]. split; [lra|]. exists e.
    assert (Ks : forall f, (Sum f es = Prop_Stats.N es * f e)%R).
    { intros f. clear -Ae. unfold Prop_Stats.N, Sum. induction es as [|a es IH]; [cbn; lra|]. cbn [fold_right length]. rewrite IH by (intros; apply Ae; right; auto).
      rewrite (Ae a) by (left; auto). rewrite S_INR. lra. }
    rewrite !Ks. split; lra. }
  revert i Hv Hv'. clear Fe. induction F as [|w w' ws ws' Hw F IH]; intros [|i] Hv Hv'; cbn [nth_error] in *; try discriminate; [|eauto].
  injection Hv as -> . injection Hv' as -> . destruct Hw as (_ & _ & _ & out & Ho & Ef). rewrite Ef in Hc.
  apply in_map_iff in Hc as ([c0 rs0] & Hc & _). cbn [fst snd] in Hc. injection Hc as <- <- . intros H. apply filter_In in H as (_ & H).
  apply negb_true_iff, not_true_iff_false in H. apply H, Ho. exists es, 0%R, r. split; [auto|]. split; [auto|]. split; [auto|]. lra.
Qed.
(** A single corner is never rejected. *)
Theorem C92_single : forall os h s s' i v v', run h (conf os) = Ret s -> c_marg cfg = false \/ never is_reset h ->
  c_reject cfg = true -> step ESolve s = Ret s' ->
  nth_error (s_views s) i = Some v -> nth_error (s_views s') i = Some v' -> (length (flat_map snd (v_fid v)) <= 1)%nat -> v_fid v' = v_fid v.
Proof.
  intros os h s s' i v v' E Hr Hj Es Hv Hv' Hl.
  destruct (C92_rejects_partial os h s s' E Hr Hj Es) as (F & _). revert i Hv Hv'.
  induction F as [|w w' ws ws' Hw F IH]; intros [|i] Hv Hv'; cbn [nth_error] in *; try discriminate; [|eauto].
  injection Hv as -> . injection Hv' as -> . destruct Hw as (_ & _ & _ & out & Ho & Ef). rewrite Ef.
  rewrite <- (map_id (v_fid v)) at 2. apply map_ext. intros [c rs]. cbn [fst snd]. f_equal.
  rewrite (filter_ext _ (fun _ => negb false)); [apply filter_all_true|]. intros rc. f_equal. apply not_true_iff_false. rewrite Ho.
  intros (es & sd & r & He & (L & _) & _). apply forall2_len in He. lia.
Qed.
(** A corner that cannot be projected with the current estimate is not skipped: its error is read uninitialised. *)
Theorem C92_unprojectable_refuted : forall os h s v rc, run h (conf os) = Ret s -> c_marg cfg = false \/ never is_reset h ->
  c_reject cfg = true -> In v (s_views s) -> In rc (flat_map snd (v_fid v)) -> reproj (fst rc) (snd rc) (before_rejection s) = None ->
  step ESolve s = Undef.
Proof.
  intros os h s v rc E Hr Hj Hv Hrc Er. cbn [vstep]. unfold solve. rewrite Hj. fold (before_rejection s).
  match goal with |- obind ?f _ = _ => destruct f as [[vs q]|e|] eqn:Ef end; [|destruct (filter_views_no_throw _ _ _ _ _ _ Ef)|reflexivity].
  destruct (filter_views_thinned reproj cfg _ _ _ _ _ Ef) as (_ & A & _). destruct (A v Hv) as (es & He). exfalso. revert He Hrc Er. clear.
  unfold errors. generalize (flat_map snd (v_fid v)). intros l H. fold (before_rejection s) in H. induction H as [|y a l es (r & E1 & _) H IH]; intros Hin Er; [destruct Hin|destruct Hin as [ <- |Hin]; [congruence|auto]].
Qed.
End T.

(** ** Concrete cases: one view of two corners, rejection beyond one standard deviation, the first corner off by [a] pixels *)
Definition off (a : R) (r : rid) (_ : corner) (_ : pid -> list R) : option (R * R) :=
  match r with RCorner _ _ 0%nat => Some (a, 0%R) | _ => Some (0%R, 0%R) end.
Definition ex_rej : settings := Settings false 5 true 1%R.
Definition ex_outlier (a : R) (left : list rid) : Prop := exists s s',
  vrun 0 0 ex_pnp ex_pick ex_slv (off a) ex_rej (ex_h 1) (configure 0 0 ex_os) = Ret s /\ map fst (q_res (s_prob s)) = [RCorner 0 0 0; RCorner 0 0 1] /\
  vstep 0 0 ex_pnp ex_pick ex_slv (off a) ex_rej ESolve s = Ret s' /\ map fst (q_res (s_prob s')) = left /\
  map (fun v => map (fun cl => map fst (snd cl)) (v_fid v)) (s_views s') = [[left]].
Lemma ex_start a : exists s, vrun 0 0 ex_pnp ex_pick ex_slv (off a) ex_rej (ex_h 1) (configure 0 0 ex_os) = Ret s /\
  map fst (q_res (s_prob s)) = [RCorner 0 0 0; RCorner 0 0 1] /\ map v_fid (s_views s) = [[(0, [(RCorner 0 0 0, pt); (RCorner 0 0 1, pt)])]].
Proof.
  assert (K : match vrun 0 0 ex_pnp ex_pick ex_slv (off a) ex_rej (ex_h 1) (configure 0 0 ex_os) with
              | Ret s => Some (map fst (q_res (s_prob s)), map v_fid (s_views s)) | _ => None end =
              Some ([RCorner 0 0 0; RCorner 0 0 1], [[(0, [(RCorner 0 0 0, pt); (RCorner 0 0 1, pt)])]])) by (vm_compute; reflexivity).
  destruct (vrun 0 0 ex_pnp ex_pick ex_slv (off a) ex_rej (ex_h 1) (configure 0 0 ex_os)) as [s| |]; [|discriminate K|discriminate K].
  exists s. injection K as K1 K2. auto.
Qed.
Lemma dev_two a : deviation [Rabs a; 0%R] (Rabs a / sqrt 2).
Proof.
  assert (S2 : (0 < sqrt 2)%R) by (apply sqrt_lt_R0; lra). assert (Q2 : (sqrt 2 * sqrt 2 = 2)%R) by (apply sqrt_sqrt; lra).
  split; [cbn; lia|]. split.
  - apply Rmult_le_pos; [apply Rabs_pos|]. left. apply Rinv_0_lt_compat. auto.
  - exists (Rabs a / 2)%R. unfold Prop_Stats.N, Sum. cbn [length fold_right INR]. split; [field|].
    assert (E : ((Rabs a / sqrt 2) ^ 2 = Rabs a ^ 2 / 2)%R).
    { rewrite <- Q2 at 2. field. lra. }
    rewrite E. field.
Qed.
Lemma ex_solve a : exists s', (exists s, vrun 0 0 ex_pnp ex_pick ex_slv (off a) ex_rej (ex_h 1) (configure 0 0 ex_os) = Ret s /\
    map fst (q_res (s_prob s)) = [RCorner 0 0 0; RCorner 0 0 1] /\ vstep 0 0 ex_pnp ex_pick ex_slv (off a) ex_rej ESolve s = Ret s') /\
  let left := if Rlt_dec (Rabs a / sqrt 2) a then [RCorner 0 0 1] else [RCorner 0 0 0; RCorner 0 0 1] in
  map fst (q_res (s_prob s')) = left /\ map (fun v => map (fun cl => map fst (snd cl)) (v_fid v)) (s_views s') = [[left]].
Proof.
  destruct (ex_start a) as (s & E & Er & Ef). destruct (s_views s) as [|v [|? ?]] eqn:Ev; cbn [map] in Ef; try discriminate Ef. injection Ef as Ef.
  set (x := before_rejection ex_slv s). set (q2 := q_free PDelay (q_fix PDelay (s_prob s))).
  assert (K1 : q_res q2 = q_res (s_prob s)) by (unfold q2; cbn [q_free q_res]; apply fix_res).
  assert (Ea : all_errors (off a) x v = Some [Rabs a; 0%R]).
  { unfold all_errors. rewrite Ef. cbn [flat_map snd app fold_right fst off]. rewrite Rmult_0_l, !Rplus_0_r, sqrt_0. fold (Rsqr a). rewrite sqrt_Rsqr_abs. reflexivity. }
  assert (Es : stddev [Rabs a; 0%R] = Some (Rabs a / sqrt 2)%R) by (apply dev_stddev, dev_two).
  assert (S2 : (0 < sqrt 2)%R) by (apply sqrt_lt_R0; lra).
  assert (Pos : ~ (1 * (Rabs a / sqrt 2) < 0)%R).
  { apply Rle_not_lt. rewrite Rmult_1_l. apply Rmult_le_pos; [apply Rabs_pos|]. left. apply Rinv_0_lt_compat; auto. }
  assert (O1 : forall rc, is_outlier (off a) x (1 * (Rabs a / sqrt 2))%R (RCorner 0 0 1, rc) = false).
  { intros rc. unfold is_outlier. cbn [fst snd off]. destruct (Rlt_dec _ 0%R); tauto. }
  assert (O0 : forall rc, is_outlier (off a) x (1 * (Rabs a / sqrt 2))%R (RCorner 0 0 0, rc) = if Rlt_dec (Rabs a / sqrt 2) a then true else false).
  { intros rc. unfold is_outlier. cbn [fst snd off]. destruct (Rlt_dec _ 0%R); [tauto|]. rewrite Rmult_1_l. destruct (Rlt_dec _ a); auto. }
  assert (Ev' : exists v' q', filter_view (off a) ex_rej x v q2 = Ret (v', q') /\
     let left := if Rlt_dec (Rabs a / sqrt 2) a then [RCorner 0 0 1] else [RCorner 0 0 0; RCorner 0 0 1] in
     map fst (q_res q') = left /\ map (fun cl => map fst (snd cl)) (v_fid v') = [left]).
  { unfold filter_view. rewrite Ea, Es. change (c_thresh ex_rej) with 1%R. rewrite Ef. cbn [flat_map snd fst app map filter]. rewrite !O0, !O1.
    destruct (Rlt_dec _ a); cbn [negb map fst app q_remove_all].
    - unfold q_remove_res. rewrite K1, Er. destruct (in_dec rid_eq _ _) as [|Hn]; [|exfalso; apply Hn; left; reflexivity].
      eexists _, _. split; [reflexivity|]. cbn [q_res v_fid map snd fst]. split; [|reflexivity].
      destruct (q_res (s_prob s)) as [|[r0 p0] [|[r1 p1] [|? ?]]]; cbn [map fst] in Er; try discriminate Er. injection Er as -> -> . cbn. reflexivity.
    - eexists _, _. split; [reflexivity|]. rewrite K1, Er. auto. }
  destruct Ev' as (v' & q' & Efv & H1 & H2).
  eexists. split.
  - exists s. split; [exact E|]. split; [exact Er|]. cbn [vstep]. unfold solve. change (c_reject ex_rej) with true. rewrite Ev. cbn [filter_views].
    fold q2. change (ex_slv q2 (ex_slv (q_fix PDelay (s_prob s)) (s_x s))) with x. rewrite Efv. cbn [obind fst snd]. reflexivity.
  - cbn [with_x with_views s_prob s_views fst snd]. split; [exact H1|]. cbn [map]. rewrite H2. reflexivity.
Qed.
(** an outlier to the right is rejected, the same outlier to the left is not *)
Example C92_example : ex_outlier 100 [RCorner 0 0 1] /\ ex_outlier (-100) [RCorner 0 0 0; RCorner 0 0 1].
Proof.
  assert (S2 : (1 < sqrt 2)%R) by (rewrite <- sqrt_1 at 1; apply sqrt_lt_1; lra).
  assert (D : (100 / sqrt 2 < 100)%R) by (apply (Rmult_lt_reg_r (sqrt 2)); [lra|]; replace (100 / sqrt 2 * sqrt 2)%R with 100%R by (field; lra); lra).
  assert (D0 : (0 <= 100 / sqrt 2)%R) by (apply Rmult_le_pos; [lra|]; left; apply Rinv_0_lt_compat; lra).
  split.
  - destruct (ex_solve 100) as (s' & (s & A & B & C) & H). rewrite (Rabs_right 100) in H by lra. destruct (Rlt_dec (100 / sqrt 2) 100) as [_|n]; [|lra].
    exists s, s'. tauto.
  - destruct (ex_solve (-100)) as (s' & (s & A & B & C) & H). rewrite (Rabs_left (-100)) in H by lra.
    replace (- -100 / sqrt 2)%R with (100 / sqrt 2)%R in H by (f_equal; lra). destruct (Rlt_dec (100 / sqrt 2) (-100)) as [n|_]; [lra|].
    exists s, s'. tauto.
Qed.
