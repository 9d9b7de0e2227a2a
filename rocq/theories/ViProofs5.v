(** The invariant of whole histories (C85). *)
From Verif Require Import Base GeomModel EulerModel StatsModel ImuModel ViModel ViSpec ViProofs ViProofs2 ViProofs3 ViProofs4.
From Coq Require Import Reals Sorted Permutation.
Local Open Scope Z_scope.

Section S.
Context (z1 z3 : R) (pnp : list R -> list corner -> option mat4) (pick : nat -> Z -> list corner -> list corner)
        (slv : problem -> (pid -> list R) -> pid -> list R) (reproj : rid -> corner -> (pid -> list R) -> option (R * R))
        (cfg : settings).

Record inv (s : vi) : Prop := Inv {
  v_core : core (s_views s) (s_prior s) (s_nprior s) (s_next s) (s_prob s);
  v_chain : chained (s_views s);
  v_batch : c_marg cfg = false -> s_prior s = None;
  v_gbuf : StronglySorted Z.lt (map fst (s_gbuf s));
  v_init : s_init s = true -> s_views s <> [] /\ s_fid s <> None;
  v_uninit : s_init s = false -> s_views s = [];
  v_fixed : forall p, In p (s_fixed s) -> ~ per_view p;
  v_window : c_marg cfg = true -> 0 <= c_window cfg -> Z.of_nat (length (s_views s)) <= Z.max 1 (c_window cfg) }.

Lemma core_empty q : q_res q = [] -> (forall p, In p (q_params q) -> ~ per_view p) -> forall np nx, core [] None np nx q.
Proof.
  intros A B np nx. constructor; cbn; try contradiction; try constructor; try discriminate.
  - rewrite A. constructor.
  - intros H0. exfalso. eapply B; eauto.
  - intros (v & [] & _).
Qed.
Lemma setup_inv os : forall s, s_views s = [] -> s_prior s = None -> q_res (s_prob s) = [] -> s_init s = false -> s_gbuf s = [] ->
  (forall p, In p (q_params (s_prob s)) -> ~ per_view p) -> (forall p, In p (s_fixed s) -> ~ per_view p) ->
  let s' := fold_left (sstep z1 z3) os s in
  s_views s' = [] /\ s_prior s' = None /\ q_res (s_prob s') = [] /\ s_init s' = false /\ s_gbuf s' = [] /\
  (forall p, In p (q_params (s_prob s')) -> ~ per_view p) /\ (forall p, In p (s_fixed s') -> ~ per_view p).
Proof.
  induction os as [|o os IH]; intros s H1 H2 H3 H4 H5 H6 H7; cbn [fold_left]; [tauto|].
  assert (Ka : forall p q, ~ per_view p -> (forall x, In x (q_params q) -> ~ per_view x) -> forall x, In x (q_params (q_add p q)) -> ~ per_view x).
  { intros p q Np Nq x Hx. apply add_in in Hx as [Hx| -> ]; auto. }
  assert (Kf : forall (b : bool) p q, q_res (if b then q_fix p q else q) = q_res q /\ q_params (if b then q_fix p q else q) = q_params q).
  { intros [|] p q; [apply fix_res|auto]. }
  apply IH; destruct o; cbn [sstep add_imu add_camera set_fiducial s_views s_prior s_prob s_init s_gbuf s_fixed]; auto.
  - rewrite (proj1 (Kf _ _ _)), add_res_same, (proj1 (Kf _ _ _)), add_res_same. auto.
  - rewrite (proj1 (Kf _ _ _)), add_res_same. destruct fix_params; auto. rewrite (proj1 (fix_res _ _)), add_res_same. auto.
  - rewrite add_res_same. auto.
  - rewrite (proj2 (Kf _ _ _)). apply Ka; [cbn; auto|]. rewrite (proj2 (Kf _ _ _)). apply Ka; [cbn; auto|auto].
  - rewrite (proj2 (Kf _ _ _)). apply Ka; [cbn; auto|]. destruct fix_params; auto. rewrite (proj2 (fix_res _ _)). apply Ka; [cbn; auto|auto].
  - apply Ka; [cbn; auto|auto].
  - intros p Hp. rewrite !in_app_iff in Hp. destruct Hp as [Hp|[Hp|Hp]]; auto; [destruct fix_ext|destruct fix_td]; cbn in Hp; try contradiction; destruct Hp as [ <- |[]]; cbn; auto.
  - intros p Hp. rewrite !in_app_iff in Hp. destruct Hp as [Hp|[Hp|Hp]]; auto; [destruct fix_params|destruct fix_ext]; cbn in Hp; try contradiction; destruct Hp as [ <- |[]]; cbn; auto.
Qed.
Lemma configure_inv os : inv (configure z1 z3 os).
Proof.
  unfold configure.
  destruct (setup_inv os vi_empty) as (A & B & C & D & E & F & G); cbn; auto.
  constructor.
  - rewrite A, B. apply core_empty; auto.
  - rewrite A. exact I.
  - auto.
  - rewrite E. constructor.
  - congruence.
  - auto.
  - auto.
  - intros. rewrite A. cbn. lia.
Qed.

Lemma inv_ext s s' : s_views s' = s_views s -> s_prior s' = s_prior s -> s_nprior s' = s_nprior s -> s_next s' = s_next s ->
  s_prob s' = s_prob s -> s_init s' = s_init s -> (s_fid s <> None -> s_fid s' <> None) -> s_fixed s' = s_fixed s ->
  StronglySorted Z.lt (map fst (s_gbuf s')) -> inv s -> inv s'.
Proof. intros A B C D E F G H I []. constructor; rewrite ?A, ?B, ?C, ?D, ?E, ?F, ?H; auto. intros Hi. specialize (v_init0 Hi). tauto. Qed.

Lemma view_step_inv gs s s' : view_step z1 z3 pnp pick cfg gs s s' -> inv s -> StronglySorted Z.lt (map fst gs) ->
  core (s_views s') (s_prior s') (s_nprior s') (s_next s') (s_prob s') /\ chained (s_views s') /\
  s_prior s' = s_prior s /\ s_gbuf s' = s_gbuf s /\ s_init s' = true /\ s_views s' <> [] /\ s_fid s' <> None /\ s_fixed s' = s_fixed s /\
  length (s_views s') = S (length (s_views s)).
Proof.
  intros [c g Hd Hi T F He old v Hv f q Hg Hm b Hb -> ] [] Sg.
  cbn [s_views s_prior s_nprior s_next s_prob s_gbuf s_init s_fid s_fixed].
  set (w := View (s_next s) (g_ts g) f None).
  assert (C1 := core_new pick cfg s _ _ _ _ _ gs f q (g_ts g) v_core0 Sg Hg). fold w in C1.
  rewrite Hv in C1, v_chain0. rewrite <- app_assoc in C1. cbn [app] in C1.
  assert (Nv := chained_last_none _ _ v_chain0).
  assert (El : set_link (v_id v) (Link (s_imu s) (v_id v) (s_next s) (v_ts v) (g_ts g)) (s_views s ++ [w])
             = old ++ [View (v_id v) (v_ts v) (v_fid v) (Some (Link (s_imu s) (v_id v) (v_id w) (v_ts v) (v_ts w))); w]).
  { rewrite Hv, <- app_assoc. cbn [app]. apply set_link_app. destruct C1 as [_ B _ _ _ _ _]. rewrite map_app in B. cbn [map] in B.
    apply sorted_not_in in B. exact B. }
  rewrite El. split; [|split].
  - apply core_link; auto.
  - apply chained_app; auto.
  - split; [auto|]. split; [auto|]. split; [auto|]. split; [intros K; apply app_eq_nil in K; destruct K; discriminate|].
    split; [discriminate|]. split; [auto|]. rewrite Hv, !app_length. cbn. lia.
Qed.

Lemma init_step_inv gs s s' : init_step z1 z3 pnp pick cfg gs s s' -> inv s -> s_init s = false -> StronglySorted Z.lt (map fst gs) -> s_gbuf s = [] -> inv s'.
Proof.
  intros [g Hg Hk T He s0 W Hc f q Hq -> ] I Hi Sg Hb. pose proof (v_uninit s I Hi) as Hv. destruct I.
  assert (K : q_res (s_prob s0) = q_res (s_prob s) /\ (forall p, per_view p -> (In p (q_params (s_prob s0)) <-> In p (q_params (s_prob s)))) /\ s_fid s0 <> None).
  { destruct Hc as [(_ & _ & -> )|(T0 & _ & ff & _ & _ & -> )]; cbn; [|split; [auto|split; [tauto|congruence]]].
    rewrite add_res_same. split; [auto|]. split; [|congruence]. intros p Pp. rewrite add_in. split; auto. intros [H| -> ]; auto. contradiction. }
  destruct K as (K1 & K2 & K3).
  assert (C0 := core_same _ _ _ _ _ _ K1 K2 v_core0).
  assert (C1 := core_new pick cfg s0 _ _ _ _ _ gs f q (g_ts g) C0 Sg Hq).
  rewrite Hv in *. cbn [app] in *. constructor; cbn [s_views s_prior s_nprior s_next s_prob s_gbuf s_init s_fid s_fixed]; auto; try congruence.
  - cbn. auto.
  - intros _. split; [discriminate|auto].
  - intros. cbn. lia.
Qed.

Lemma marg_inv s s' : marginalize s = Ret s' -> core (s_views s) (s_prior s) (s_nprior s) (s_next s) (s_prob s) -> chained (s_views s) ->
  (forall p, In p (s_fixed s) -> ~ per_view p) ->
  core (s_views s') (s_prior s') (s_nprior s') (s_next s') (s_prob s') /\ chained (s_views s') /\ s_views s' <> [] /\
  s_gbuf s' = s_gbuf s /\ s_init s' = s_init s /\ s_fid s' = s_fid s /\ s_fixed s' = s_fixed s /\
  length (s_views s) = S (length (s_views s')) /\ s_imu s' = s_imu s /\ s_x s' = s_x s.
Proof.
  intros E C Ch Hf. unfold marginalize in E. destruct (s_views s) as [|v rest] eqn:Ev; [discriminate|].
  apply bind_ret in E as ((ps & q1) & E1 & E). destruct (v_imu v) as [l|] eqn:El; [|discriminate]. inversion E; subst s'. clear E.
  cbn [s_views s_prior s_nprior s_next s_prob s_gbuf s_init s_fid s_fixed fst snd s_imu s_x].
  destruct rest as [|w rest].
  { exfalso. cbn [chained] in Ch. destruct Ch. congruence. }
  split; [|split; [exact (proj2 Ch)|]]. 2:{ repeat split; auto. discriminate. }
  destruct (s_prior s) as [[k ps0]|] eqn:Ep.
  - apply bind_ret in E1 as (q2 & E1 & E2). inversion E2; subst ps0 q2.
    apply (core_marg v w rest l (Some (k, ps)) _ _ _ _ _ C); auto.
  - inversion E1; subst. apply (core_marg v w rest l None _ _ _ _ _ C); auto.
Qed.

Lemma solve_inv s s' : solve slv reproj cfg s = Ret s' -> inv s -> inv s' /\ map key (s_views s') = map key (s_views s) /\ s_imu s' = s_imu s /\ s_gbuf s' = s_gbuf s /\
  s_init s' = s_init s /\ s_started s' = s_started s /\ s_next s' = s_next s.
Proof.
  intros E I. unfold solve in E.
  set (q2 := q_free PDelay (q_fix PDelay (s_prob s))) in *.
  assert (K1 : q_res q2 = q_res (s_prob s)) by (unfold q2; cbn; apply fix_res).
  assert (K2 : q_params q2 = q_params (s_prob s)) by (unfold q2; cbn; apply fix_res).
  destruct I. assert (C := core_same _ _ _ _ (s_prob s) q2 K1 ltac:(intros; rewrite K2; tauto) v_core0).
  destruct (c_reject cfg).
  - apply bind_ret in E as ((vs & q3) & E1 & E). inversion E; subst s'. clear E.
    destruct (core_filter _ _ _ _ _ _ _ _ _ _ C E1) as (C1 & C2 & _).
    cbn [with_x with_views s_views s_prior s_nprior s_next s_prob s_gbuf s_init s_fid s_fixed fst snd s_imu s_x s_started].
    split; [|auto 10].
    assert (L : length vs = length (s_views s)) by (apply (f_equal (@length _)) in C2; rewrite !map_length in C2; exact C2).
    constructor; cbn [with_x with_views s_views s_prior s_nprior s_next s_prob s_gbuf s_init s_fid s_fixed fst snd]; auto.
    + apply (chained_key (s_views s)); auto.
    + intros Hi. destruct (v_init0 Hi) as (N1 & N2). split; auto. intros -> . destruct (s_views s); [congruence|discriminate].
    + intros Hi. rewrite (v_uninit0 Hi) in L. destruct vs; [auto|discriminate].
    + intros. rewrite L. auto.
  - inversion E; subst s'. clear E.
    cbn [with_x with_views s_views s_prior s_nprior s_next s_prob s_gbuf s_init s_fid s_fixed fst snd s_imu s_x s_started].
    split; [|auto 10].
    constructor; cbn [with_x with_views s_views s_prior s_nprior s_next s_prob s_gbuf s_init s_fid s_fixed fst snd]; auto.
Qed.

Lemma reset_inv s : inv s -> s_prior s = None -> inv (reset s).
Proof.
  intros [] Hp. unfold reset. destruct (drop_views (s_views s) (s_prob s) _ eq_refl) as (A & _ & B & D). destruct v_core0 as [C1 _ _ _ _ C2 _].
  constructor; cbn [s_views s_prior s_nprior s_next s_prob s_gbuf s_init s_fid s_fixed]; auto; try discriminate.
  - rewrite Hp in *. apply core_empty.
    + assert (Hn : forall x, ~ In x (q_res (fold_left (fun q v => q_drop (PSb (v_id v)) (q_drop (PPose (v_id v)) q)) (s_views s) (s_prob s)))).
      { intros (r & ps) Hr. pose proof (B _ Hr) as Hr'. apply (Permutation_in _ C1) in Hr'. unfold all_res in Hr'. rewrite app_nil_r in Hr'.
        apply in_flat_map in Hr' as (v & Hv & Hr'). apply (D v r ps Hv); auto.
        - apply C2; [exact I|]. exists v. split; auto. left; reflexivity.
        - apply (of_view_pose v r ps); auto. intros l Hl. eapply chained_link; eauto. }
      revert Hn. match goal with |- _ -> ?l = [] => generalize l end. intros [|x l] Hn; auto. exfalso. apply (Hn x). cbn; auto.
    + intros p Hpp Pp. apply A in Hpp as (H1 & H2). apply C2 in H1 as (v & Hv & Hb); auto. eapply H2; eauto.
  - exact I.
  - constructor.
  - intros. cbn. lia.
Qed.

Lemma step_inv e s s' : vstep z1 z3 pnp pick slv reproj cfg e s = Ret s' -> (c_marg cfg = false \/ is_reset e = false) -> inv s -> inv s'.
Proof.
  intros E Hr I. destruct e as [c g|ts a w| |]; cbn [vstep] in E.
  - inversion E; subst s'. unfold add_grid. destruct (s_started s); auto. apply inv_ext with (s := s); auto. apply gm_set_keys, I.
  - apply sample_spec in E. pose proof (v_gbuf s I) as Sg.
    assert (Is : forall gb, StronglySorted Z.lt (map fst gb) -> inv (sampled ts a w gb s)) by (intros gb Hgb; apply inv_ext with (s := s); auto).
    assert (In_ : inv (sampled ts a w [] s)) by (apply Is; constructor).
    destruct E as [_ -> |_ Hi _ _ Hs|_ _ _ -> |_ Hv Hw|s1 s2 _ H1 Hm Hw H2 -> ].
    + apply Is; auto.
    + apply (init_step_inv _ _ _ Hs); auto.
    + auto.
    + destruct (view_step_inv _ _ _ Hv In_ Sg) as (A & B & C & D & F & G & H & J & K). constructor; auto.
      * intros M. rewrite C. apply In_; auto.
      * rewrite D. constructor.
      * congruence.
      * rewrite J. apply In_.
      * intros M W. rewrite M in Hw. cbn [andb] in Hw. unfold over_window in Hw. apply andb_false_iff in Hw as [Hw|Hw].
        -- rewrite Z.gtb_ltb in Hw. apply Z.ltb_ge in Hw. lia.
        -- apply Z.leb_gt in Hw. lia.
    + assert (K1 : core (s_views s1) (s_prior s1) (s_nprior s1) (s_next s1) (s_prob s1) /\ chained (s_views s1) /\ s_gbuf s1 = [] /\
                (forall p, In p (s_fixed s1) -> ~ per_view p) /\ (s_init s1 = true -> s_fid s1 <> None) /\ (s_init s1 = false -> s_views s1 = []) /\
                (0 <= c_window cfg -> Z.of_nat (length (s_views s1)) <= Z.max 1 (c_window cfg) + 1)).
      { destruct H1 as [ -> |H1].
        - destruct In_. split; [auto|split; [auto|split; [auto|split; [auto|split; [|split]]]]].
          + intros Hi. apply v_init0; auto.
          + intros Hi. auto.
          + intros W. specialize (v_window0 Hm W). lia.
        - destruct (view_step_inv _ _ _ H1 In_ Sg) as (A & B & C & D & F & G & H & J & K). split; [auto|split; [auto|split; [auto|split; [|split; [auto|split]]]]].
          + rewrite J. apply In_.
          + congruence.
          + intros W. rewrite K. cbn [sampled s_views]. pose proof (v_window s I Hm W). lia. }
      destruct K1 as (K1 & K2 & K3 & K4 & K5 & K6 & K7).
      destruct (marg_inv _ _ H2) as (M1 & M2 & M3 & M4 & M5 & M6 & M7 & M8 & _); auto.
      cbn [with_x s_views s_gbuf s_init s_fid s_fixed] in *.
      constructor; cbn [set_running s_views s_prior s_nprior s_next s_prob s_gbuf s_init s_fid s_fixed]; auto.
      * congruence.
      * rewrite M4, K3. constructor.
      * rewrite M5, M6. auto.
      * intros Hi. rewrite M5 in Hi. apply K6 in Hi. rewrite Hi in M8. discriminate.
      * rewrite M7. auto.
      * intros _ W. specialize (K7 W). rewrite M8 in K7. lia.
  - apply solve_inv in E; auto. tauto.
  - inversion E; subst s'. destruct Hr as [Hr|Hr]; [|discriminate]. apply reset_inv; auto. apply I; auto.
Qed.
Lemma run_inv h : forall s s', vrun z1 z3 pnp pick slv reproj cfg h s = Ret s' -> (c_marg cfg = false \/ never is_reset h) -> inv s -> inv s'.
Proof.
  induction h as [|e h IH]; intros s s' E Hr I; cbn [vrun] in E.
  - inversion E; subst; auto.
  - apply bind_ret in E as (s1 & E1 & E). apply (IH s1); auto.
    + destruct Hr as [Hr|Hr]; auto. right. intros x Hx. apply Hr. cbn; auto.
    + apply (step_inv e s); auto. destruct Hr as [Hr|Hr]; auto. right. apply Hr. cbn; auto.
Qed.
End S.
