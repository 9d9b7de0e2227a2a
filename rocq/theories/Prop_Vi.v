(** * C85, C87: the visual-inertial calibrator's window and problem *)
From Verif Require Import Base GeomModel EulerModel StatsModel ImuModel ImuSpec ViModel ViSpec ViProofs ViProofs2 ViProofs3 ViProofs4 ViProofs5.
From Coq Require Import Reals Sorted Permutation.
Local Open Scope Z_scope.

Section T.
Context (z1 z3 : R) (pnp : list R -> list corner -> option mat4) (pick : nat -> Z -> list corner -> list corner)
        (slv : problem -> (pid -> list R) -> pid -> list R) (reproj : rid -> corner -> (pid -> list R) -> option (R * R))
        (cfg : settings).
Notation run := (vrun z1 z3 pnp pick slv reproj cfg).
Notation step := (vstep z1 z3 pnp pick slv reproj cfg).
Notation conf := (configure z1 z3).

(** ** C85: for every configuration and every history of grids, IMU samples and solves *)
(** The problem holds exactly a residual per corner of the views in the window, an IMU residual between consecutive
    views, and the prior; no block twice; and the pose and speed blocks are exactly those of these views. *)
Theorem C85_window : forall os h s, run h (conf os) = Ret s -> c_marg cfg = false \/ never is_reset h ->
  Permutation (q_res (s_prob s)) (expected s) /\ NoDup (map fst (q_res (s_prob s))) /\
  chained (s_views s) /\ NoDup (map v_id (s_views s)) /\
  (forall p, per_view p -> (In p (q_params (s_prob s)) <-> exists v, In v (s_views s) /\ block_of v p)).
Proof.
  intros os h s E Hr. destruct (run_inv _ _ _ _ _ _ _ _ _ _ E Hr (configure_inv z1 z3 cfg os)) as [C Ch _ _ _ _ _ _].
  pose proof (nodup_all _ _ _ _ _ C) as N. destruct C as [A B _ _ _ F _].
  split; [exact A|]. split; [|split; [auto|split; [|auto]]].
  - apply (Permutation_NoDup (Permutation_sym (Permutation_map fst A))). exact N.
  - clear -B. induction (map v_id (s_views s)) as [|n l IH]; constructor; apply StronglySorted_inv in B as (B1 & B2); auto.
    rewrite Forall_forall in B2. intros H. apply B2 in H. lia.
Qed.
(** Never more than [window_size] views. *)
Theorem C85_bounded : forall os h s, c_marg cfg = true -> 1 <= c_window cfg -> run h (conf os) = Ret s -> never is_reset h ->
  Z.of_nat (length (s_views s)) <= c_window cfg.
Proof.
  intros os h s Hm Hw E Hr. assert (K : Z.of_nat (length (s_views s)) <= Z.max 1 (c_window cfg)); [|lia]. apply (v_window cfg s); [|auto|lia].
  apply (run_inv _ _ _ _ _ _ _ _ _ _ E (or_intror Hr) (configure_inv z1 z3 cfg os)).
Qed.
(** The prior constrains the oldest view in the window, and no view that has left it. *)
Theorem C85_prior : forall os h s k ps, run h (conf os) = Ret s -> never is_reset h -> s_prior s = Some (k, ps) ->
  exists v rest, s_views s = v :: rest /\ In (PPose (v_id v)) ps /\ In (PSb (v_id v)) ps /\
    forall p, In p ps -> per_view p -> block_of v p.
Proof.
  intros os h s k ps E Hr Hp.
  destruct (run_inv _ _ _ _ _ _ _ _ _ _ E (or_intror Hr) (configure_inv z1 z3 cfg os)) as [C _ _ _ _ _ _ _].
  destruct (i_prior _ _ _ _ _ C k ps Hp) as (_ & H). exact H.
Qed.
(** Marginalising replaces every residual that involves the oldest view by a prior on the other blocks of these
    residuals, those that are fixed and the time delay excepted; the rest of the problem is untouched. *)
Theorem C85_marginalize : forall os h s s', run h (conf os) = Ret s -> c_marg cfg = false \/ never is_reset h -> marginalize s = Ret s' ->
  exists v k ps, s_views s = v :: s_views s' /\ s_prior s' = Some (k, ps) /\
  Permutation (q_res (s_prob s')) ((RPrior k, ps) ::
    filter (fun x => negb (involves v x)) (q_res (s_prob s))) /\
  (forall p, In p ps <-> (exists r qs, In (r, qs) (q_res (s_prob s)) /\ involves v (r, qs) = true /\ In p qs) /\
     ~ block_of v p /\ ~ In p (s_fixed s) /\ p <> PDelay).
Proof.
  intros os h s s' E Hr Em.
  destruct (run_inv _ _ _ _ _ _ _ _ _ _ E Hr (configure_inv z1 z3 cfg os)) as [C Ch _ _ _ _ Hf _].
  pose proof (nodup_all _ _ _ _ _ C) as Na.
  destruct (marg_inv _ _ Em C Ch Hf) as (C' & Ch' & N' & _ & _ & _ & _ & L & _).
  assert (Lk := chained_link _ Ch). assert (Lt := chained_link_lt _ Ch).
  unfold marginalize in Em. destruct (s_views s) as [|v rest] eqn:Ev; [discriminate|].
  apply bind_ret in Em as ((ps0 & q1) & E1 & Em). destruct (v_imu v) as [l|] eqn:El; [|discriminate].
  assert (Es := Em). inversion Es. clear Es. subst s'. cbn [s_views s_prior s_prob fst snd] in *.
  set (ps := remaining (s_fixed s) [PPose (v_id v); PSb (v_id v)] (ps0 ++ handed_over v l)) in *.
  exists v, (s_nprior s), ps. split; [auto|]. split; [auto|].
  assert (Ka : forall p, In p ps0 <-> exists k, In (RPrior k, ps0) (q_res (s_prob s)) /\ In p ps0).
  { intros p. destruct (s_prior s) as [[k qs]|] eqn:Ep.
    - apply bind_ret in E1 as (q2 & E1 & E2). inversion E2; subst qs q2. split; [|intros (k0 & _ & H); auto]. intros H. exists k. split; auto.
      apply (Permutation_in _ (Permutation_sym (i_res _ _ _ _ _ C))). unfold all_res. apply in_app_iff. right. cbn; auto.
    - inversion E1; subst. split; [intros []|intros (k & _ & [])]. }
  assert (Sp : forall r qs, In (r, qs) (q_res (s_prob s)) -> (In (r, qs) (of_view v)) \/ (exists w, In w rest /\ In (r, qs) (of_view w)) \/ (exists k, s_prior s = Some (k, qs))).
  { intros r qs H. apply (Permutation_in _ (i_res _ _ _ _ _ C)) in H. unfold all_res in H. cbn [flat_map] in H. rewrite <- app_assoc in H.
    apply in_app_iff in H as [H|H]; auto. apply in_app_iff in H as [H|H].
    - apply in_flat_map in H as (w & Hw & H). right; left; eauto.
    - destruct (s_prior s) as [[k qs0]|]; [|contradiction]. destruct H as [H|[]]. inversion H; subst. right; right; eauto. }
  assert (Ids := i_ids _ _ _ _ _ C). cbn [map] in Ids. apply StronglySorted_inv in Ids as (Ids1 & Ids2). rewrite Forall_forall in Ids2.
  assert (Ot : forall w r qs p, In w rest -> In (r, qs) (of_view w) -> block_of v p -> ~ In p qs).
  { intros w r qs p Hw H Hb Hp. assert (Pp : per_view p) by (destruct Hb; subst; exact I).
    specialize (Ids2 _ (in_map v_id _ _ Hw)).
    destruct (of_view_blocks w r qs p (fun l0 => fun H0 => proj1 (Lk w l0 (or_intror Hw) H0)) H Hp Pp) as [Hb'|(l0 & Hl0 & Hb')].
    - unfold block_of in *. destruct Hb as [ -> | -> ], Hb' as [Hb|Hb]; inversion Hb; lia.
    - specialize (Lt (i_ids _ _ _ _ _ C) w l0 (or_intror Hw) Hl0). unfold block_of in *. destruct Hb as [ -> | -> ], Hb' as [Hb|Hb]; inversion Hb; lia. }
  assert (Po : forall r qs, In (r, qs) (of_view v) -> In (PPose (v_id v)) qs).
  { intros r qs H. apply (of_view_pose v r qs); auto. intros l0 Hl0. apply (Lk v l0); cbn; auto. }
  assert (Pp : forall k qs, s_prior s = Some (k, qs) -> In (PPose (v_id v)) qs).
  { intros k qs H. destruct (i_prior _ _ _ _ _ C k qs H) as (_ & v0 & r0 & E0 & H0 & _). inversion E0; subst. auto. }
  split.
  - assert (A' := i_res _ _ _ _ _ C'). cbn [s_views] in A'. rewrite A'. unfold all_res. rewrite (perm_filter _ _ _ (i_res _ _ _ _ _ C)).
    unfold all_res. cbn [flat_map]. rewrite !filter_app.
    assert (Fn : forall x : rid * list pid, In (PPose (v_id v)) (snd x) -> negb (involves v x) = false).
    { intros x Hx. unfold involves. apply pid_in_iff in Hx. rewrite Hx. reflexivity. }
    rewrite (filter_none _ (of_view v)) by (intros (r & qs) H; apply Fn; apply (Po r qs); auto).
    rewrite (filter_id _ (flat_map of_view rest)).
    + assert (Ef : forall l0, l0 = match s_prior s with Some (k, qs) => [(RPrior k, qs)] | None => [] end -> 
        filter (fun x => negb (involves v x)) l0 = []).
      { intros l0 -> . apply filter_none. intros (r & qs) H. apply Fn. destruct (s_prior s) as [[k qs0]|] eqn:Ep; [|contradiction].
        destruct H as [H|[]]. inversion H; subst. apply (Pp k); auto. }
      rewrite (Ef _ eq_refl). rewrite app_nil_r. cbn [app]. apply Permutation_sym, Permutation_cons_append.
    + intros (r & qs) H. apply in_flat_map in H as (w & Hw & H). unfold involves. cbn [snd].
      rewrite (proj2 (pid_in_false _ qs) (Ot w r qs _ Hw H (or_introl eq_refl))), (proj2 (pid_in_false _ qs) (Ot w r qs _ Hw H (or_intror eq_refl))). reflexivity.
  - intros p. unfold ps. rewrite remaining_in. split.
    + intros (H1 & H2 & H3 & H4). split; [|split; [|auto]].
      2:{ intros Hb. apply H2. cbn. destruct Hb; subst; auto. }
      apply in_app_iff in H1 as [H1|H1].
      * destruct (s_prior s) as [[k qs]|] eqn:Ep.
        -- apply bind_ret in E1 as (q2 & E1 & E2). inversion E2; subst qs q2. exists (RPrior k), ps0. split; [|split; [unfold involves; cbn [snd]; rewrite (proj2 (pid_in_iff _ _) (Pp _ _ eq_refl)); reflexivity|auto]].
           apply (Permutation_in _ (Permutation_sym (i_res _ _ _ _ _ C))). unfold all_res. apply in_app_iff. right. cbn; auto.
        -- inversion E1; subst. contradiction.
      * apply (handed_over_in v l p El) in H1 as (r & qs & Hr1 & Hr2). exists r, qs. split; [|split; [unfold involves; cbn [snd]; rewrite (proj2 (pid_in_iff _ _) (Po _ _ Hr1)); reflexivity|auto]].
        apply (Permutation_in _ (Permutation_sym (i_res _ _ _ _ _ C))). unfold all_res. cbn [flat_map]. rewrite <- app_assoc. apply in_app_iff. auto.
    + intros ((r & qs & H1 & H2 & H3) & H4 & H5 & H6). split; [|split; [|auto]].
      * apply in_app_iff. destruct (Sp _ _ H1) as [K|[(w & Hw & K)|(k & K)]].
        -- right. apply (handed_over_in v l p El). eauto.
        -- exfalso. unfold involves in H2. cbn [snd] in H2. apply orb_true_iff in H2. rewrite !pid_in_iff in H2. destruct H2 as [H2|H2]; [apply (Ot w r qs _ Hw K (or_introl eq_refl) H2)|apply (Ot w r qs _ Hw K (or_intror eq_refl) H2)].
        -- left. rewrite K in E1. apply bind_ret in E1 as (q2 & E1 & E2). inversion E2; subst; auto.
      * intros [K|[K|[]]]; apply H4; [left|right]; auto.
Qed.
End T.
