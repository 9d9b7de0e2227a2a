(** * Chronological feeds: where the IMU samples of the calibrator's residuals come from *)
From Verif Require Import Base GeomModel EulerModel StatsModel ImuModel ImuSpec Prop_Imu ViModel ViSpec ViProofs ViProofs2 ViProofs3 ViProofs4 ViProofs5 Prop_Vi2.
From Coq Require Import Reals Sorted Permutation.
Local Open Scope Z_scope.

(** [imu_trim] on a buffer around the stamp *)
Lemma cut_at (l : list sample) t x : fst x < t -> forall r, l = x :: r -> (exists y, In y l /\ t <= fst y) ->
  exists pre x' y' post, l = pre ++ x' :: y' :: post /\ fst x' < t <= fst y'.
Proof.
  revert x. induction l as [|x0 l IH]; intros x Hx r E (y & Hy & Ht); [discriminate|]. inversion E; subst x0 l. clear E.
  destruct Hy as [ -> |Hy]; [lia|]. destruct r as [|z r]; [contradiction|].
  destruct (Z.lt_ge_cases (fst z) t) as [Hz|Hz].
  - destruct (IH z Hz r eq_refl) as (pre & x' & y' & post & E & H).
    { exists y. auto. }
    exists (x :: pre), x', y', post. rewrite E. auto.
  - exists [], x, z, r. split; auto.
Qed.
Lemma trim_spec b t x r : aligned b -> in_order b -> samples b = x :: r -> fst x <= t -> (exists y, In y (samples b) /\ t <= fst y) ->
  exists b' pre x' r', imu_trim b t = Ret b' /\ aligned b' /\ samples b = pre ++ x' :: r' /\ samples b' = x' :: r' /\ fst x' <= t /\
    forall z, In z (samples b) -> t <= fst z -> In z (samples b').
Proof.
  intros A O E Hx Hy. destruct (Z.lt_ge_cases (fst x) t) as [Hl|Hl].
  - destruct (cut_at _ t x Hl r E Hy) as (pre & x' & y' & post & E' & Ht).
    destruct (C37_trim_keeps_one_before b t pre x' y' post A O E' Ht) as (b' & T & A' & S').
    exists b', pre, x', (y' :: post). split; [auto|]. split; [auto|]. split; [auto|]. split; [auto|]. split; [lia|].
    intros z Hz Hzt. rewrite S'. rewrite E' in Hz. apply in_app_or in Hz as [Hz|Hz]; auto.
    exfalso. unfold in_order in O. rewrite E' in O. apply ss_app in O as (_ & _ & O). specialize (O z x' Hz (or_introl eq_refl)). lia.
  - destruct (C37_trim_nothing_before b t x r A O E) as (b' & T & A' & S'); [lia|].
    exists b', [], x, r. rewrite S'. split; [auto|]. split; [auto|]. split; [auto|]. split; [auto|]. split; [lia|auto].
Qed.
Lemma samples_add b t a w : aligned b -> samples (imu_add b t a w) = samples b ++ [(t, (a, w))].
Proof. intros A. rewrite (ofs_samples b A) at 1. rewrite add_ofs, samples_ofs. reflexivity. Qed.
Lemma ss_snoc {A} (Q : A -> A -> Prop) l x : StronglySorted Q l -> (forall y, In y l -> Q y x) -> StronglySorted Q (l ++ [x]).
Proof.
  induction l as [|y l IH]; intros H1 H2; cbn; [repeat constructor|]. apply StronglySorted_inv in H1 as (H1 & H3). constructor.
  - apply IH; auto. intros z Hz. apply H2. cbn; auto.
  - apply Forall_app. split; auto. constructor; auto. apply H2. cbn; auto.
Qed.
Lemma split_snoc {A} (h : list A) e pre x mid : h ++ [e] = pre ++ x :: mid -> (mid = [] /\ x = e /\ pre = h) \/ exists mid', mid = mid' ++ [e] /\ h = pre ++ x :: mid'.
Proof.
  destruct mid as [|m mid] using rev_ind.
  - intros H. apply app_inj_tail in H as (H1 & H2). auto.
  - clear IHmid. intros H. rewrite app_comm_cons, app_assoc in H. apply app_inj_tail in H as (H1 & H2). subst m. right. exists mid. auto.
Qed.
Lemma chron_last h e : chronological (h ++ [e]) -> forall pre x mid, h = pre ++ x :: mid ->
  match x, e with
  | EImu t _ _, EImu u _ _ => t < u
  | EImu t _ _, EGrid _ g => t <= g_ts g
  | EGrid _ g, EImu u _ _ => g_ts g <= u
  | EGrid _ g, EGrid _ g' => (exists t a w, In (EImu t a w) mid) -> g_ts g < g_ts g'
  | _, _ => True
  end.
Proof. intros C pre x mid E. apply (C pre x mid e []). rewrite E, <- app_assoc. reflexivity. Qed.
Lemma chron_prefix h e : chronological (h ++ [e]) -> chronological h.
Proof. intros C pre x mid y post E. apply (C pre x mid y (post ++ [e])). rewrite E, <- !app_assoc. cbn. rewrite <- app_assoc. reflexivity. Qed.

(** what an IMU residual needs of its buffer *)
Record link_ok (h : list event) (lk : link) : Prop := LinkOk {
  k_al : aligned (l_buf lk); k_ord : in_order (l_buf lk); k_lt : l_ti lk < l_tj lk;
  k_len : 5 <= imu_size (l_buf lk);
  k_front : exists x r, samples (l_buf lk) = x :: r /\ fst x <= l_ti lk;
  k_back : exists x r, samples (l_buf lk) = r ++ [x] /\ l_tj lk <= fst x;
  k_from : forall t a w, In (t, (a, w)) (samples (l_buf lk)) -> In (EImu t a w) h;
  k_all : never is_reset h -> forall t a w, In (EImu t a w) h -> l_ti lk <= t <= l_tj lk -> In (t, (a, w)) (samples (l_buf lk)) }.
Record flow (h : list event) (s : vi) : Prop := Flow {
  f_al : aligned (s_imu s);
  f_ord : in_order (s_imu s);
  f_from : forall t a w, In (t, (a, w)) (samples (s_imu s)) -> In (EImu t a w) h;
  f_grid : forall c g, In (c, g) (s_gbuf s) -> In (EGrid c g) h;
  f_after : forall v, In v (s_views s) -> exists pre c g mid, h = pre ++ EGrid c g :: mid /\ g_ts g = v_ts v /\ exists t a w, In (EImu t a w) mid;
  f_new : forall v c g, In v (s_views s) -> In (c, g) (s_gbuf s) -> v_ts v < g_ts g;
  f_sorted : StronglySorted Z.lt (map v_ts (s_views s));
  f_start : s_started s = false -> samples (s_imu s) = [] /\ s_gbuf s = [] /\ s_views s = [];
  f_front : s_started s = true -> exists x r, samples (s_imu s) = x :: r /\ (forall c g, In (c, g) (s_gbuf s) -> fst x <= g_ts g) /\
     (forall old v, s_views s = old ++ [v] -> fst x <= v_ts v);
  f_links : forall v lk, In v (s_views s) -> v_imu v = Some lk -> link_ok h lk;
  f_all : never is_reset h -> forall t a w, In (EImu t a w) h -> (forall v, In v (s_views s) -> v_ts v <= t) -> In (t, (a, w)) (samples (s_imu s)) }.

Lemma key_in vs vs' v : map key vs' = map key vs -> In v vs' -> exists v0, In v0 vs /\ key v0 = key v.
Proof. intros E H. apply (in_map key) in H. rewrite E in H. apply in_map_iff in H as (v0 & A & B). eauto. Qed.
Lemma key_ts v v0 : key v0 = key v -> v_ts v0 = v_ts v /\ v_imu v0 = v_imu v.
Proof. unfold key. intros E. inversion E. auto. Qed.
Lemma map_ts vs vs' : map key vs' = map key vs -> map v_ts vs' = map v_ts vs.
Proof.
  intros E. transitivity (map (fun k : nat * Z * option link => snd (fst k)) (map key vs')); [rewrite map_map; reflexivity|].
  rewrite E, map_map. reflexivity.
Qed.
Lemma flow_ext h s s' : s_imu s' = s_imu s -> s_gbuf s' = s_gbuf s -> s_started s' = s_started s -> map key (s_views s') = map key (s_views s) ->
  flow h s -> flow h s'.
Proof.
  intros A B C D []. constructor; rewrite ?A, ?B, ?C; auto.
  - intros v Hv. apply (key_in _ _ _ D) in Hv as (v0 & H0 & K). apply key_ts in K as (K & _). rewrite <- K. auto.
  - intros v c g Hv Hg. apply (key_in _ _ _ D) in Hv as (v0 & H0 & K). apply key_ts in K as (K & _). rewrite <- K. eauto.
  - rewrite (map_ts _ _ D). auto.
  - intros Hs. destruct (f_start0 Hs) as (H1 & H2 & H3). split; [auto|]. split; [auto|]. rewrite H3 in D. destruct (s_views s'); [auto|discriminate].
  - intros Hs. destruct (f_front0 Hs) as (x & r & H1 & H2 & H3). exists x, r. split; [auto|]. split; [auto|]. intros old v E.
    rewrite E, map_app in D. symmetry in D. cbn [map] in D. apply map_eq_app in D as (l1 & l2 & E1 & _ & E2).
    apply map_eq_cons in E2 as (v0 & l3 & E2 & K & E3). apply map_eq_nil in E3. subst l3 l2. apply key_ts in K as (K & _). rewrite <- K. eauto.
  - intros v lk Hv Hl. apply (key_in _ _ _ D) in Hv as (v0 & H0 & K). apply key_ts in K as (_ & K). rewrite <- K in Hl. eauto.
  - intros Hn t a w Ht Hv. apply f_all0; auto. intros v H0. symmetry in D. apply (key_in _ _ _ D) in H0 as (v1 & H1 & K). apply key_ts in K as (K & _). rewrite <- K. auto.
Qed.
Lemma never_snoc f h e : never f (h ++ [e]) -> never f h /\ f e = false.
Proof. intros H. split; [intros x Hx; apply H; apply in_or_app; auto|apply H; apply in_or_app; cbn; auto]. Qed.
Lemma link_ok_snoc h e lk : link_ok h lk -> chronological (h ++ [e]) -> link_ok (h ++ [e]) lk.
Proof.
  intros [] C. constructor; auto.
  - intros. apply in_or_app. left. auto.
  - intros Hn t a w Ht Hr. apply never_snoc in Hn as (Hn & _). apply in_app_or in Ht as [Ht|[ -> |[]]]; auto.
    exfalso. destruct k_back0 as ((u & (a' & w')) & r & E & Hu). cbn in Hu.
    assert (Hin : In (EImu u a' w') h) by (apply k_from0; rewrite E; apply in_or_app; cbn; auto).
    apply in_split in Hin as (l1 & l2 & Hin). pose proof (chron_last _ _ C _ _ _ Hin) as K. cbn in K. lia.
Qed.
Lemma after_snoc h (e : event) (v : view) : (exists pre c g mid, h = pre ++ EGrid c g :: mid /\ g_ts g = v_ts v /\ exists t a w, In (EImu t a w) mid) ->
  exists pre c g mid, h ++ [e] = pre ++ EGrid c g :: mid /\ g_ts g = v_ts v /\ exists t a w, In (EImu t a w) mid.
Proof.
  intros (pre & c & g & mid & E & Eg & t & a & w & H). exists pre, c, g, (mid ++ [e]). split; [rewrite E, <- app_assoc; reflexivity|].
  split; [auto|]. exists t, a, w. apply in_or_app. auto.
Qed.

Section S.
Context (z1 z3 : R) (pnp : list R -> list corner -> option mat4) (pick : nat -> Z -> list corner -> list corner)
        (slv : problem -> (pid -> list R) -> pid -> list R) (reproj : rid -> corner -> (pid -> list R) -> option (R * R))
        (cfg : settings).
Notation run := (vrun z1 z3 pnp pick slv reproj cfg).
Notation step := (vstep z1 z3 pnp pick slv reproj cfg).
Notation conf := (configure z1 z3).

Lemma gm_set_in c g m : forall c' g', In (c', g') (gm_set c g m) -> In (c', g') m \/ (c', g') = (c, g).
Proof.
  induction m as [|(d & h) m IH]; intros c' g' H; cbn [gm_set] in H.
  - destruct H as [H|[]]; auto.
  - destruct (c <? d); [destruct H as [H|H]; auto|]. destruct (c =? d); destruct H as [H|H]; cbn; auto.
    apply IH in H as [H|H]; auto.
Qed.
Lemma flow_grid h s c g : flow h s -> chronological (h ++ [EGrid c g]) -> flow (h ++ [EGrid c g]) (add_grid c g s).
Proof.
  intros F C. unfold add_grid. destruct F.
  assert (Kt : forall t a w, In (EImu t a w) (h ++ [EGrid c g]) -> In (EImu t a w) h).
  { intros t a w H. apply in_app_or in H as [H|[H|[]]]; auto. discriminate. }
  destruct (s_started s) eqn:Es.
  2:{ constructor; auto.
    - intros. apply in_or_app. left. auto.
    - intros. apply in_or_app. left. auto.
    - intros v Hv. apply after_snoc. auto.
    - intros Hs. congruence.
    - intros v lk Hv Hl. apply link_ok_snoc; eauto.
    - intros Hn t a w Ht. apply never_snoc in Hn as (Hn & _). eauto. }
  constructor; cbn [s_imu s_gbuf s_views s_started]; auto.
  - intros. apply in_or_app. left. auto.
  - intros c' g' H. apply gm_set_in in H as [H|H]; apply in_or_app; [left; auto|right; left; inversion H; auto].
  - intros v Hv. apply after_snoc. auto.
  - intros v c' g' Hv H. apply gm_set_in in H as [H|H]; [eauto|]. inversion H; subst c' g'.
    destruct (f_after0 v Hv) as (pre & c1 & g1 & mid & E & Eg & Hi). rewrite <- Eg. exact (chron_last _ _ C _ _ _ E Hi).
  - intros. congruence.
  - intros _. destruct (f_front0 eq_refl) as (x & r & H1 & H2 & H3). exists x, r. split; [auto|]. split; [|auto].
    intros c' g' H. apply gm_set_in in H as [H|H]; [eauto|]. inversion H; subst c' g'. destruct x as (t & (a & w)). cbn.
    assert (Hin : In (EImu t a w) h) by (apply f_from0; rewrite H1; cbn; auto).
    apply in_split in Hin as (l1 & l2 & Hin). exact (chron_last _ _ C _ _ _ Hin).
  - intros v lk Hv Hl. apply link_ok_snoc; eauto.
  - intros Hn t a w Ht. apply never_snoc in Hn as (Hn & _). eauto.
Qed.

Lemma flow_sampled h s ts a w : flow h s -> chronological (h ++ [EImu ts a w]) -> flow (h ++ [EImu ts a w]) (sampled ts a w (s_gbuf s) s).
Proof.
  intros F C. destruct F.
  assert (Lt : forall t a0 w0, In (EImu t a0 w0) h -> t < ts).
  { intros t a0 w0 H. apply in_split in H as (l1 & l2 & H). exact (chron_last _ _ C _ _ _ H). }
  constructor; cbn [sampled s_imu s_gbuf s_views s_started]; auto.
  - apply aligned_add; auto.
  - unfold in_order. rewrite samples_add by auto. apply ss_snoc; auto. intros (t & (a0 & w0)) Hy. cbn. eauto.
  - intros t a0 w0. rewrite samples_add by auto. rewrite !in_app_iff. intros [H|[H|[]]]; [left; auto|right; left; inversion H; auto].
  - intros. apply in_or_app. left. auto.
  - intros v Hv. apply after_snoc. auto.
  - intros; discriminate.
  - intros _. rewrite samples_add by auto. destruct (s_started s) eqn:Es.
    + destruct (f_front0 eq_refl) as (x & r & H1 & H2 & H3). exists x, (r ++ [(ts, (a, w))]). rewrite H1. auto.
    + destruct (f_start0 eq_refl) as (H1 & H2 & H3). rewrite H1, H2, H3. exists (ts, (a, w)), []. split; [auto|]. split; [intros c g []|].
      intros old v E. destruct old; discriminate.
  - intros v lk Hv Hl. apply link_ok_snoc; eauto.
  - intros Hn t a0 w0 Ht Hv. apply never_snoc in Hn as (Hn & _). rewrite samples_add by auto. apply in_or_app.
    apply in_app_or in Ht as [Ht|[Ht|[]]]; [left; auto|right; left; inversion Ht; auto].
Qed.
Lemma flow_drop h s gb : flow h s -> (forall x, In x gb -> In x (s_gbuf s)) -> forall s', s_imu s' = s_imu s -> s_gbuf s' = gb -> s_started s' = s_started s -> s_views s' = s_views s -> flow h s'.
Proof.
  intros [] Hg s' A B C D. constructor; rewrite ?A, ?B, ?C, ?D; eauto.
  - intros Hs. destruct (f_start0 Hs) as (H1 & H2 & H3). split; [auto|]. split; [|auto]. destruct gb as [|x gb]; auto.
    exfalso. specialize (Hg x (or_introl eq_refl)). rewrite H2 in Hg. contradiction.
  - intros Hs. destruct (f_front0 Hs) as (x & r & H1 & H2 & H3). exists x, r. split; [auto|]. split; [|auto]. eauto.
Qed.
(** a first view *)
Lemma flow_first h ts a w s c g f n s' : flow (h ++ [EImu ts a w]) s -> s_views s = [] -> In (c, g) (s_gbuf s) -> In (EGrid c g) h ->
  s_imu s' = s_imu s -> s_gbuf s' = [] -> s_started s' = true -> s_started s = true -> s_views s' = [View n (g_ts g) f None] -> flow (h ++ [EImu ts a w]) s'.
Proof.
  intros [] V G Gh A B C C0 D. constructor; rewrite ?A, ?B, ?C, ?D; auto.
  - intros ? ? [].
  - intros v [ <- |[]]. apply in_split in Gh as (l1 & l2 & -> ). exists l1, c, g, (l2 ++ [EImu ts a w]). split; [rewrite <- app_assoc; reflexivity|].
    split; [reflexivity|]. exists ts, a, w. apply in_or_app. cbn; auto.
  - intros ? ? ? ? [].
  - cbn. repeat constructor.
  - intros; discriminate.
  - intros _. destruct (f_front0 C0) as (x & r & H1 & H2 & H3). exists x, r. split; [auto|]. split; [intros ? ? []|].
    intros old v E. destruct old as [|? [|]]; inversion E. cbn. eauto.
  - intros v lk [ <- |[]] E. discriminate.
  - intros Hn t a0 w0 Ht Hv. apply f_all0; auto. rewrite V. intros ? [].
Qed.
Lemma ts_le (l : list Z) : forall old x, l = old ++ [x] -> StronglySorted Z.lt l -> forall y, In y l -> y <= x.
Proof.
  intros old x -> H y Hy. apply ss_app in H as (_ & _ & H). apply in_app_or in Hy as [Hy|[ -> |[]]]; [|lia].
  specialize (H y x Hy (or_introl eq_refl)). lia.
Qed.
(** a further view *)
Lemma flow_view h ts a w s s' : inv cfg s -> view_step z1 z3 pnp pick cfg (s_gbuf s) (sampled ts a w [] s) s' -> flow h s ->
  chronological (h ++ [EImu ts a w]) -> flow (h ++ [EImu ts a w]) s'.
Proof.
  intros I V F0 C. pose proof (flow_sampled _ _ _ _ _ F0 C) as F.
  assert (Gh := f_grid _ _ F0).
  destruct V as [c g Hd Hi T W He old v Hv f q Hg Hm b Hb -> ].
  cbn [sampled s_views s_prior s_nprior s_next s_prob s_gbuf s_init s_fid s_fixed s_imu s_started] in *.
  apply detected_in in Hd as (Hd & _).
  assert (El : set_link (v_id v) (Link (imu_add (s_imu s) ts a w) (v_id v) (s_next s) (v_ts v) (g_ts g)) (s_views s ++ [View (s_next s) (g_ts g) f None])
             = old ++ [View (v_id v) (v_ts v) (v_fid v) (Some (Link (imu_add (s_imu s) ts a w) (v_id v) (s_next s) (v_ts v) (g_ts g))); View (s_next s) (g_ts g) f None]).
  { rewrite Hv, <- app_assoc. cbn [app]. apply set_link_app. pose proof (i_ids _ _ _ _ _ (v_core _ _ I)) as B. rewrite Hv, map_app in B. cbn [map] in B.
    apply sorted_not_in in B. exact B. }
  set (lk := Link (imu_add (s_imu s) ts a w) (v_id v) (s_next s) (v_ts v) (g_ts g)) in *. rewrite El.
  destruct F. cbn [sampled s_imu s_gbuf s_views s_started] in *.
  assert (Gt : g_ts g <= ts).
  { specialize (Gh _ _ Hd). apply in_split in Gh as (l1 & l2 & Gh). exact (chron_last _ _ C _ _ _ Gh). }
  assert (Vt : v_ts v < g_ts g) by (apply (f_new0 v c g); auto; rewrite Hv; apply in_or_app; cbn; auto).
  assert (Al : aligned (s_imu s)) by apply (f_al _ _ F0).
  destruct (f_front0 eq_refl) as (x & r & H1 & H2 & H3).
  assert (Hx : fst x <= v_ts v) by (apply (H3 old v); auto).
  assert (Sm := samples_add (s_imu s) ts a w Al).
  assert (Ok : link_ok (h ++ [EImu ts a w]) lk).
  { subst lk. constructor; cbn [l_buf l_ti l_tj]; auto.
    - eauto.
    - exists (ts, (a, w)), (samples (s_imu s)). auto.
    - intros Hn t a0 w0 Ht Hr. apply f_all0; auto. intros v0 H0. apply Z.le_trans with (v_ts v); [|lia].
      apply (ts_le (map v_ts (s_views s)) (map v_ts old) (v_ts v)); auto; [rewrite Hv, map_app; reflexivity|apply in_map; auto]. }
  assert (Tr : aligned b /\ in_order b /\ (forall z, In z (samples b) -> In z (samples (imu_add (s_imu s) ts a w))) /\
             (forall z, In z (samples (imu_add (s_imu s) ts a w)) -> g_ts g <= fst z -> In z (samples b)) /\
             (exists x' r', samples b = x' :: r' /\ fst x' <= g_ts g)).
  { destruct (c_marg cfg).
    - destruct (trim_spec (imu_add (s_imu s) ts a w) (g_ts g) x r f_al0 f_ord0 H1) as (b' & pre & x' & r' & T1 & T2 & T3 & T4 & T5 & T6); [lia| |].
      { exists (ts, (a, w)). split; [rewrite Sm; apply in_or_app; cbn; auto|cbn; auto]. }
      rewrite T1 in Hb. inversion Hb; subst b'. split; [auto|]. split.
      { unfold in_order. unfold in_order in f_ord0. rewrite T3 in f_ord0. rewrite T4. apply ss_app in f_ord0 as (_ & f_ord0 & _). auto. }
      split; [intros z Hz; rewrite T4 in Hz; rewrite T3; apply in_or_app; auto|]. split; eauto.
    - subst b. split; [auto|]. split; [auto|]. split; [auto|]. split; [auto|]. exists x, r. split; [auto|lia]. }
  destruct Tr as (B1 & B2 & B3 & B4 & B5).
  assert (Old : forall v0, In v0 (old ++ [View (v_id v) (v_ts v) (v_fid v) (Some lk); View (s_next s) (g_ts g) f None]) ->
     (exists v1, In v1 (s_views s) /\ v_ts v0 = v_ts v1 /\ (v_imu v0 = v_imu v1 \/ v_imu v0 = Some lk)) \/ (v_ts v0 = g_ts g /\ v_imu v0 = None)).
  { intros v0 H0. apply in_app_or in H0 as [H0|[ <- |[ <- |[]]]]; [left; exists v0; rewrite Hv, in_app_iff; auto|left; exists v; rewrite Hv, in_app_iff; cbn; auto|right; auto]. }
  constructor; cbn [s_imu s_gbuf s_views s_started]; auto.
  - intros ? ? [].
  - intros v0 H0. apply Old in H0 as [(v1 & K1 & K2 & _)|(K1 & _)].
    + rewrite K2. auto.
    + rewrite K1. specialize (Gh _ _ Hd). apply in_split in Gh as (l1 & l2 & -> ). exists l1, c, g, (l2 ++ [EImu ts a w]). split; [rewrite <- app_assoc; reflexivity|].
      split; [reflexivity|]. exists ts, a, w. apply in_or_app. cbn; auto.
  - intros ? ? ? ? [].
  - rewrite map_app. cbn [map v_ts]. rewrite Hv, map_app in f_sorted0. cbn [map] in f_sorted0.
    change [v_ts v; g_ts g] with ([v_ts v] ++ [g_ts g]). rewrite app_assoc. apply ss_snoc; auto. intros y Hy.
    apply (ts_le _ (map v_ts old) (v_ts v) eq_refl f_sorted0) in Hy. lia.
  - intros; discriminate.
  - intros _. destruct B5 as (x' & r' & K1 & K2). exists x', r'. split; [auto|]. split; [intros ? ? []|].
    intros old' v' E. rewrite (app_assoc old [_] [_] : old ++ [View (v_id v) (v_ts v) (v_fid v) (Some lk); View (s_next s) (g_ts g) f None] = (old ++ [_]) ++ [_]) in E.
    apply app_inj_tail in E as (_ & <- ). auto.
  - intros v0 lk0 H0 Hl. apply Old in H0 as [(v1 & K1 & _ & [K2|K2])|(_ & K1)]; [|congruence|congruence].
    rewrite K2 in Hl. eauto.
  - intros Hn t a0 w0 Ht Hv0.
    assert (Gn : g_ts g <= t) by (apply (Hv0 (View (s_next s) (g_ts g) f None)); apply in_or_app; cbn; auto).
    apply B4; [|auto]. apply f_all0; auto. intros v0 H0. apply Z.le_trans with (v_ts v); [|lia].
    apply (ts_le (map v_ts (s_views s)) (map v_ts old) (v_ts v)); auto; [rewrite Hv, map_app; reflexivity|apply in_map; auto].
Qed.
(** the oldest view leaves *)
Lemma flow_marg h s s' v rest : flow h s -> s_views s = v :: rest -> s_imu s' = s_imu s -> s_gbuf s' = s_gbuf s -> s_started s' = s_started s -> s_views s' = rest ->
  rest <> [] -> flow h s'.
Proof.
  intros [] V A B C D N. assert (Hin : forall v0, In v0 rest -> In v0 (s_views s)) by (rewrite V; cbn; auto).
  constructor; rewrite ?A, ?B, ?C, ?D; eauto.
  - rewrite V in f_sorted0. cbn [map] in f_sorted0. apply StronglySorted_inv in f_sorted0. tauto.
  - intros Hs. destruct (f_start0 Hs) as (H1 & H2 & H3). congruence.
  - intros Hs. destruct (f_front0 Hs) as (x & r & H1 & H2 & H3). exists x, r. split; [auto|]. split; [auto|].
    intros old v0 E. apply (H3 (v :: old) v0). rewrite V, E. reflexivity.
  - intros Hn t a w Ht Hv. apply f_all0; auto. rewrite V. intros v0 [ <- |H0]; auto.
    destruct rest as [|w0 rest]; [congruence|]. rewrite V in f_sorted0. cbn [map] in f_sorted0. apply StronglySorted_inv in f_sorted0 as (_ & K).
    inversion K; subst. specialize (Hv w0 (or_introl eq_refl)). lia.
Qed.
Lemma flow_step h e s s' : inv cfg s -> step e s = Ret s' -> (c_marg cfg = false \/ is_reset e = false) -> flow h s -> chronological (h ++ [e]) -> flow (h ++ [e]) s'.
Proof.
  intros I E Hr F C. destruct e as [c g|ts a w| |]; cbn [vstep] in E.
  - inversion E. apply flow_grid; auto.
  - apply sample_spec in E. pose proof (flow_sampled _ _ _ _ _ F C) as Fs.
    assert (Fd : flow (h ++ [EImu ts a w]) (sampled ts a w [] s)) by (eapply flow_drop with (gb := []); [exact Fs|intros ? []|reflexivity..]).
    assert (Mg : forall s1 s2, flow (h ++ [EImu ts a w]) s1 -> (forall v lk, In v (s_views s1) -> v_imu v = Some lk -> exists w0, In w0 (s_views s1) /\ v_ts v < v_ts w0) ->
      marginalize (with_x (slv (s_prob s1) (s_x s1)) s1) = Ret s2 -> flow (h ++ [EImu ts a w]) (set_running s2)).
    { intros s1 s2 F1 Ch Em. unfold marginalize in Em. cbn [with_x s_views s_prior s_prob s_imu s_gbuf s_started] in Em.
      destruct (s_views s1) as [|v rest] eqn:Ev; [discriminate|]. apply bind_ret in Em as (x & _ & Em). destruct (v_imu v) as [lk|] eqn:Ei; [|discriminate].
      inversion Em; subst s2. clear Em.
      apply (flow_marg _ s1 _ v rest F1 Ev); try reflexivity. destruct (Ch v lk (or_introl eq_refl) Ei) as (w0 & Hw & Hlt). destruct Hw as [ <- |Hw]; [lia|].
      intros -> . contradiction. }
    destruct E as [_ -> |_ Hi _ Hd Hs|_ _ _ -> |_ Hv Hw|s1 s2 _ H1 Hm Hw H2 -> ]; auto.
    + destruct Hs as [g Hg Hk T He s0 W Hc f q Hq -> ]. apply gm_get_in in Hg. pose proof (v_uninit _ _ I Hi) as Hv.
      eapply (flow_first h ts a w (sampled ts a w (s_gbuf s) s) 0 g f (s_next s)); cbn [sampled s_views s_imu s_gbuf s_started]; auto.
      * apply (f_grid _ _ F); auto.
      * rewrite Hv. reflexivity.
    + apply (flow_view h ts a w s s'); auto.
    + assert (Ex : inv cfg (sampled ts a w [] s)) by (apply inv_ext with (s := s); try reflexivity; auto; constructor).
      assert (Fw : flow (h ++ [EImu ts a w]) s1) by (destruct H1 as [ -> |H1]; auto; apply (flow_view h ts a w s s1); auto).
      assert (Ch1 : chained (s_views s1)).
      { destruct H1 as [ -> |H1]; [apply Ex|]. apply (view_step_inv _ _ _ _ _ _ _ _ H1 Ex (v_gbuf _ _ I)). }
      apply (Mg s1 s2); auto. intros v lk Hv Hl. destruct (in_split _ _ Hv) as (l1 & l2 & Es).
      assert (Hch : chained (v :: l2)) by (rewrite Es in Ch1; clear -Ch1; induction l1 as [|x l1 IH]; auto; apply IH; cbn [app chained] in Ch1; tauto).
      destruct l2 as [|w0 l2]; [cbn in Hch; destruct Hch; congruence|]. exists w0. rewrite Es. split; [apply in_or_app; cbn; auto|].
      pose proof (f_sorted _ _ Fw) as So. rewrite Es, map_app in So. cbn [map] in So. apply ss_app in So as (_ & So & _).
      apply StronglySorted_inv in So as (_ & So). inversion So; auto.
  - destruct (solve_inv _ _ _ _ _ E I) as (_ & K1 & K2 & K3 & _ & K4 & _).
    assert (F1 : flow (h ++ [ESolve]) s).
    { destruct F. constructor; auto.
      - intros. apply in_or_app. auto.
      - intros. apply in_or_app. auto.
      - intros v Hv. apply after_snoc. auto.
      - intros v lk Hv Hl. apply link_ok_snoc; eauto.
      - intros Hn t a w Ht. apply never_snoc in Hn as (Hn & _). apply in_app_or in Ht as [Ht|[Ht|[]]]; [eauto|discriminate]. }
    apply (flow_ext _ s); auto.
  - inversion E; subst s'. constructor; cbn; auto; try contradiction.
    + split; auto.
    + constructor.
    + constructor.
    + discriminate.
    + intros Hn. apply never_snoc in Hn as (_ & Hn). discriminate.
Qed.
Lemma run_app h1 : forall h2 s, run (h1 ++ h2) s = obind (run h1 s) (run h2).
Proof. induction h1 as [|e h1 IH]; intros h2 s; cbn [app vrun]; auto. destruct (step e s); cbn [obind]; auto. Qed.
Lemma conf_flow os : flow [] (conf os).
Proof.
  destruct (conf_cams z1 z3 os) as (_ & B & C & D).
  assert (V : s_views (conf os) = []) by (destruct (setup_inv z1 z3 os vi_empty) as (A & _); auto).
  constructor; rewrite ?B, ?C, ?D, ?V; cbn; auto; try contradiction; try discriminate.
  - split; auto.
  - constructor.
  - constructor.
Qed.
Lemma run_flow os h : forall s, run h (conf os) = Ret s -> (c_marg cfg = false \/ never is_reset h) -> chronological h -> flow h s.
Proof.
  induction h as [|e h IH] using rev_ind; intros s E Hr C.
  - inversion E. apply conf_flow.
  - rewrite run_app in E. apply bind_ret in E as (s1 & E1 & E). cbn [vrun] in E. apply bind_ret in E as (s2 & E2 & E). inversion E; subst s2.
    assert (Hr' : c_marg cfg = false \/ never is_reset h) by (destruct Hr as [Hr|Hr]; auto; apply never_snoc in Hr as (Hr & _); auto).
    assert (Hre : c_marg cfg = false \/ is_reset e = false) by (destruct Hr as [Hr|Hr]; auto; apply never_snoc in Hr as (_ & Hr); auto).
    eapply flow_step; eauto.
    + eapply run_inv; eauto. apply configure_inv.
    + apply IH; auto. eapply chron_prefix; eauto.
Qed.
End S.
