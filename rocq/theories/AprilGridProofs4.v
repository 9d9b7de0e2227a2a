(** * Detection lemmas *)
From Coq Require Import Reals Lra Sorting.Sorted Permutation.
From Verif Require Import Base AprilGridModel AprilGridSpec AprilGridProofs AprilGridIOModel
  AprilGridProofs2 AprilGridProofs3 AprilGridDetectSpec.
From Coq Require Import ZifyBool ZifyNat.
Ltac Zify.zify_post_hook ::= Z.div_mod_to_equations.
Local Open Scope Z_scope.

Lemma near_border_false w h p : near_border w h p = false <-> inside w h p.
Proof.
  unfold near_border, inside.
  destruct (Rlt_dec (fst p) 4), (Rlt_dec (w - 4) (fst p)), (Rlt_dec (snd p) 4), (Rlt_dec (h - 4) (snd p));
    cbn; split; intros; try discriminate; try reflexivity; lra.
Qed.

Lemma moved_far_false a b : moved_far a b = false <->
  (sqrt ((fst a - fst b) * (fst a - fst b) + (snd a - snd b) * (snd a - snd b)) <= sqrt (3 / 2))%R.
Proof. unfold moved_far. destruct (Rlt_dec _ _); split; intros; try discriminate; try reflexivity; lra. Qed.

Lemma tag_ok_iff rows cols w h t : tag_ok rows cols w h t = true <-> usable rows cols w h t.
Proof.
  unfold tag_ok, usable. rewrite !andb_true_iff, !negb_true_iff. split.
  - intros ((H1 & H2) & H3). repeat split; auto; try lia.
    apply Forall_forall. intros p Hp. apply near_border_false.
    destruct (near_border w h p) eqn:E; auto.
    rewrite <- not_true_iff_false in H3. exfalso. apply H3, existsb_exists. eauto.
  - intros (H1 & H2 & H3). repeat split; auto; try lia.
    rewrite <- not_true_iff_false, existsb_exists. intros (p & Hp & E).
    rewrite Forall_forall in H3. specialize (H3 _ Hp). apply near_border_false in H3. congruence.
Qed.

Lemma nth_error_combine {A B} (l1 : list A) : forall (l2 : list B) i a b,
  nth_error (combine l1 l2) i = Some (a, b) <-> nth_error l1 i = Some a /\ nth_error l2 i = Some b.
Proof.
  induction l1 as [|x l1 IH]; intros [|y l2] [|i] a b; simpl; split; intros H;
    try discriminate; try (now destruct H); try (now apply IH).
  - inversion H; auto.
  - destruct H as [H1 H2]. inversion H1; inversion H2; auto.
Qed.

Section D.
Variable subpix : list kp2 -> list kp2.
Hypothesis subpix_len : forall l, length (subpix l) = length l.
Variables (rows cols : Z) (w h : R).

Lemma refined_In t c kp b : length (t_p t) = 4%nat ->
  In (c, kp, b) (refined subpix t) <->
  0 <= c < 4 /\ exists raw, nth_error (t_p t) (Z.to_nat c) = Some raw /\
     nth_error (subpix (t_p t)) (Z.to_nat c) = Some kp /\ b = negb (moved_far raw kp).
Proof.
  intros Hl. unfold refined. rewrite in_map_iff. split.
  - intros ((i & a & k) & E & Hin). cbn in E. inversion E; subst.
    apply In_nth_error in Hin. destruct Hin as (j & Hj).
    apply nth_error_combine in Hj. destruct Hj as [Hj Hab].
    apply nth_error_combine in Hab. destruct Hab as [Ha Hk].
    assert (In c (zrange 4)) as Hc by (eapply nth_error_In; eauto). apply zrange_In in Hc.
    split; auto. exists a.
    assert (j = Z.to_nat c) as ->.
    { pose proof (nth_error_zrange 4 c Hc) as E2.
      eapply NoDup_nth_error; [apply (zrange_NoDup 4)| |now rewrite Hj, E2].
      apply nth_error_Some. congruence. }
    auto.
  - intros (Hc & raw & Hr & Hk & ->). exists (c, (raw, kp)). split; auto.
    apply (nth_error_In _ (Z.to_nat c)). apply nth_error_combine. split.
    + now apply nth_error_zrange.
    + apply nth_error_combine. auto.
Qed.

Lemma refined_keys t : length (t_p t) = 4%nat ->
  map (fun x : Z * kp2 * bool => fst (fst x)) (refined subpix t) = zrange 4.
Proof.
  intros Hl. unfold refined. rewrite map_map. cbn [fst].
  pose proof (subpix_len (t_p t)) as Hs. rewrite Hl in Hs.
  destruct (t_p t) as [|a [|b [|c [|d [|? ?]]]]] eqn:E; try discriminate.
  destruct (subpix [a; b; c; d]) as [|a' [|b' [|c' [|d' [|? ?]]]]]; try discriminate. reflexivity.
Qed.

Lemma single_In t c kp tg : length (t_p tg) = 4%nat ->
  In (t, c, kp) (tag_corners_single subpix rows cols w h tg) <->
  t = t_id tg /\ single_keeps rows cols w h subpix tg c kp.
Proof.
  intros Hl. unfold tag_corners_single, single_keeps, refined_to.
  destruct (tag_ok rows cols w h tg) eqn:E.
  - apply tag_ok_iff in E. rewrite in_flat_map. split.
    + intros ([[c' k'] b] & Hin & Hx). cbn in Hx. destruct b; [|contradiction].
      destruct Hx as [Hx|[]]. inversion Hx; subst.
      apply refined_In in Hin; auto. destruct Hin as (Hc & raw & H1 & H2 & H3).
      split; auto. split; auto. split; auto. exists raw. repeat split; auto.
      apply moved_far_false. destruct (moved_far raw kp); auto; discriminate.
    + intros (-> & Hu & Hc & raw & H1 & H2 & H3). exists (c, kp, true). split; [|simpl; auto].
      apply refined_In; auto. split; auto. exists raw. repeat split; auto.
      apply moved_far_false in H3. now rewrite H3.
  - split; [contradiction|]. intros (_ & Hu & _). apply tag_ok_iff in Hu. congruence.
Qed.

Lemma thread_In t c kp tg : length (t_p tg) = 4%nat ->
  In (t, c, kp) (tag_corners_thread subpix rows cols w h tg) <->
  t = t_id tg /\ worker_keeps rows cols w h subpix tg c kp.
Proof.
  intros Hl. unfold tag_corners_thread, worker_keeps, single_keeps, refined_to.
  destruct (tag_ok rows cols w h tg) eqn:E; cbn [andb].
  2:{ split; [contradiction|]. intros (_ & (Hu & _) & _). apply tag_ok_iff in Hu. congruence. }
  apply tag_ok_iff in E. destruct (forallb snd (refined subpix tg)) eqn:Ea.
  - rewrite forallb_forall in Ea. rewrite in_map_iff. split.
    + intros ([[c' k'] b] & Hx & Hin). cbn in Hx. inversion Hx; subst.
      pose proof (Ea _ Hin) as Hb. cbn in Hb. subst b.
      apply refined_In in Hin; auto. destruct Hin as (Hc & raw & H1 & H2 & H3).
      split; auto. split; [split; [auto|split; auto]; exists raw; repeat split; auto|].
      { apply moved_far_false. destruct (moved_far raw kp); auto; discriminate. }
      intros c' Hc'.
      assert (exists raw', nth_error (t_p tg) (Z.to_nat c') = Some raw') as [raw' Hr'].
      { destruct (nth_error (t_p tg) (Z.to_nat c')) eqn:En; eauto.
        apply nth_error_None in En. lia. }
      assert (exists kp', nth_error (subpix (t_p tg)) (Z.to_nat c') = Some kp') as [kp' Hk'].
      { destruct (nth_error (subpix (t_p tg)) (Z.to_nat c')) eqn:En; eauto.
        apply nth_error_None in En. rewrite subpix_len in En. lia. }
      exists kp', raw'. repeat split; auto. apply moved_far_false.
      assert (In (c', kp', negb (moved_far raw' kp')) (refined subpix tg)) as Hin'
        by (apply refined_In; auto; split; auto; exists raw'; auto).
      apply Ea in Hin'. cbn in Hin'. destruct (moved_far raw' kp'); auto; discriminate.
    + intros (-> & (Hu & Hc & raw & H1 & H2 & H3) & _). exists (c, kp, true). split; auto.
      apply refined_In; auto. split; auto. exists raw. repeat split; auto.
      apply moved_far_false in H3. now rewrite H3.
  - split; [contradiction|]. intros (_ & _ & Hall). exfalso.
    rewrite <- not_true_iff_false in Ea. apply Ea, forallb_forall.
    intros [[c' k'] b] Hin. cbn. apply refined_In in Hin; auto.
    destruct Hin as (Hc & raw & H1 & H2 & ->).
    destruct (Hall c' Hc) as (kp' & raw' & G1 & G2 & G3).
    rewrite G1 in H1. rewrite G2 in H2. inversion H1; inversion H2; subst.
    apply moved_far_false in G3. now rewrite G3.
Qed.

(** distinct ids give distinct corners *)
Lemma NoDup_filter_map_keys {A} (l : list (A * kp2 * bool)) (id : Z) (key : A -> Z) :
  NoDup (map (fun x => key (fst (fst x))) l) ->
  NoDup (map fst (flat_map (fun x : A * kp2 * bool => if snd x then [((id, key (fst (fst x))), snd (fst x))] else []) l)).
Proof.
  induction l as [|[[a k] b] l IH]; simpl; intros Hnd; [constructor|].
  inversion Hnd as [|? ? Hni Hnd']; subst. destruct b; simpl; auto.
  constructor; auto. intros Hx. apply in_map_iff in Hx. destruct Hx as ((kk, kp) & E & Hx). cbn in E. subst kk.
  apply in_flat_map in Hx. destruct Hx as ([[a' k'] b'] & Hin & Hx). cbn in Hx.
  destruct b'; [|contradiction]. destruct Hx as [Hx|[]]. inversion Hx; subst.
  apply Hni. apply in_map_iff. exists (a', kp, true). cbn. auto.
Qed.

Lemma single_NoDup tg : length (t_p tg) = 4%nat -> NoDup (map fst (tag_corners_single subpix rows cols w h tg)).
Proof.
  intros Hl. unfold tag_corners_single. destruct (tag_ok _ _ _ _ _); [|constructor].
  apply (NoDup_filter_map_keys (refined subpix tg) (t_id tg) (fun x => x)).
  rewrite refined_keys by auto. apply zrange_NoDup.
Qed.
Lemma thread_NoDup tg : length (t_p tg) = 4%nat -> NoDup (map fst (tag_corners_thread subpix rows cols w h tg)).
Proof.
  intros Hl. unfold tag_corners_thread. destruct (_ && _); [|constructor].
  rewrite map_map. cbn [fst].
  replace (map (fun x : Z * kp2 * bool => (t_id tg, fst (fst x))) (refined subpix tg))
    with (map (fun c => (t_id tg, c)) (zrange 4)).
  - apply FinFun.Injective_map_NoDup; [|apply zrange_NoDup]. intros a b E. congruence.
  - rewrite <- (refined_keys tg Hl), map_map. reflexivity.
Qed.

Lemma flat_NoDup (f : tag -> list (Z * Z * kp2)) tags :
  (forall tg t c kp, In tg tags -> In (t, c, kp) (f tg) -> t = t_id tg) ->
  (forall tg, In tg tags -> NoDup (map fst (f tg))) ->
  NoDup (map t_id tags) -> NoDup (map fst (flat_map f tags)).
Proof.
  induction tags as [|a l IH]; simpl; intros Hid Hnd Hids; [constructor|].
  inversion Hids as [|? ? Hni Hids']; subst. rewrite map_app.
  assert (IH' : NoDup (map fst (flat_map f l))).
  { apply IH; auto. intros; eapply Hid; eauto. }
  assert (Ha : NoDup (map fst (f a))) by auto.
  assert (Hdis : forall x, In x (map fst (f a)) -> ~ In x (map fst (flat_map f l))).
  { intros [t c] H1 H2. apply in_map_iff in H1, H2.
    destruct H1 as ([[t1 c1] k1] & E1 & H1). destruct H2 as ([[t2 c2] k2] & E2 & H2).
    cbn in E1, E2. inversion E1; inversion E2; subst.
    apply in_flat_map in H2. destruct H2 as (tg & Htg & H2).
    assert (t = t_id a) by (apply (Hid a t c k1); auto).
    assert (t = t_id tg) by (apply (Hid tg t c k2); auto).
    apply Hni. apply in_map_iff. exists tg. split; congruence. }
  clear - Ha IH' Hdis. revert Ha Hdis. generalize (map fst (f a)) as l1.
  induction l1 as [|x l1 IH]; simpl; intros Ha Hd; auto.
  inversion Ha; subst. constructor.
  - rewrite in_app_iff. intros [H|H]; auto. apply (Hd x); auto.
  - apply IH; auto.
Qed.
End D.

(** ** adding a list of corners *)
Definition content_of (l : list (Z * Z * kp2)) (m : content) : content :=
  fold_left (fun m x => spec_step m (OpAdd (fst (fst x)) (snd (fst x)) (snd x))) l m.

Lemma content_of_notin l : forall m t c, ~ In (t, c) (map fst l) -> content_of l m t c = m t c.
Proof.
  induction l as [|[[t' c'] k'] l IH]; intros m t c H; auto. simpl in H.
  change (content_of ((t', c', k') :: l) m) with (content_of l (spec_step m (OpAdd t' c' k'))).
  rewrite IH by tauto. simpl. destruct (Z.eqb_spec t t'), (Z.eqb_spec c c'); subst; simpl; auto. tauto.
Qed.
Lemma content_of_sub l : forall m t c kp, content_of l m t c = Some kp -> In (t, c, kp) l \/ m t c = Some kp.
Proof.
  induction l as [|[[t' c'] k'] l IH]; intros m t c kp H; auto.
  change (content_of ((t', c', k') :: l) m) with (content_of l (spec_step m (OpAdd t' c' k'))) in H.
  apply IH in H. destruct H as [H|H]; [simpl; auto|]. simpl in H.
  destruct (Z.eqb_spec t t'), (Z.eqb_spec c c'); subst; simpl in H; auto. inversion H; subst. simpl; auto.
Qed.
Lemma content_of_In l : NoDup (map fst l) -> forall t c kp,
  content_of l nothing t c = Some kp <-> In (t, c, kp) l.
Proof.
  intros Hnd t c kp. split.
  - intros H. apply content_of_sub in H. destruct H as [H|H]; [auto|discriminate].
  - revert Hnd. generalize nothing as m. induction l as [|[[t' c'] k'] l IH]; intros m Hnd Hin; [contradiction|].
    simpl in Hnd. inversion Hnd as [|? ? Hni Hnd']; subst.
    change (content_of ((t', c', k') :: l) m) with (content_of l (spec_step m (OpAdd t' c' k'))).
    destruct Hin as [E|Hin]; [|apply IH; auto]. inversion E; subst.
    rewrite content_of_notin by auto. simpl. now rewrite !Z.eqb_refl.
Qed.

Lemma add_all_cons g x l : add_all g (x :: l) =
  match add g (fst (fst x)) (snd (fst x)) (snd x) with
  | (Done, g') => add_all g' l
  | other => other
  end.
Proof.
  unfold add_all. simpl. destruct (add g _ _ _) as [[] g'] eqn:E; auto.
  - induction l; simpl; auto.
  - induction l; simpl; auto.
Qed.

Section Dims.
Variables (rows cols : Z) (size sp : R).
Hypothesis Hcols : 0 <= cols.
Notation RepD := (Rep rows cols size sp).

Lemma add_all_Rep l : forall g m, RepD g m ->
  (forall t c kp, In (t, c, kp) l -> corner_in rows cols t c) ->
  exists g', add_all g l = (Done, g') /\ RepD g' (content_of l m) /\
    g_nb g' = g_nb g + Z.of_nat (length l) /\
    (l <> [] -> g_detected g' = true) /\ (l = [] -> g' = g) /\ g_ts g' = g_ts g /\
    fold_left (fun g f => f g) (map (fun x g => snd (add g (fst (fst x)) (snd (fst x)) (snd x))) l) g = g'.
Proof.
  induction l as [|[[t c] kp] l IH]; intros g m HR Hin.
  - exists g. unfold add_all. simpl. repeat split; auto; try apply HR; try lia; congruence.
  - destruct (add_Rep rows cols size sp Hcols g m t c kp HR) as (g1 & E1 & HR1 & N1 & D1 & T1).
    { apply (Hin t c kp). simpl; auto. }
    destruct (IH g1 _ HR1) as (g' & E & HR' & Hnb & Hd & Hnil & Hts & Hf).
    { intros; eapply Hin; simpl; eauto. }
    exists g'. rewrite add_all_cons. cbn [fst snd]. rewrite E1. split; [auto|]. split; [auto|].
    simpl length. split; [lia|]. split.
    { intros _. destruct l; [rewrite Hnil by auto; auto|apply Hd; discriminate]. }
    split; [discriminate|]. split; [congruence|].
    simpl. rewrite E1. exact Hf.
Qed.
End Dims.

(** ** schedules *)
Definition final (t : thr) : grid := fold_left (fun g f => f g) (th_todo t) (th_grid t).
Lemma final_step t : final (thr_step t) = final t.
Proof. unfold final, thr_step. destruct (th_todo t) eqn:E; simpl; auto. now rewrite E. Qed.
Lemma map_upd {A B} (f : A -> B) l i a : map f (upd l i a) = upd (map f l) i (f a).
Proof. revert i; induction l; intros [|i]; simpl; congruence. Qed.
Lemma upd_same {A} (l : list A) i a : nth_error l i = Some a -> upd l i a = l.
Proof. revert i; induction l; intros [|i]; simpl; intros H; try congruence. f_equal. auto. Qed.
Lemma run_schedule_final sched : forall ts, map final (run_schedule sched ts) = map final ts.
Proof.
  induction sched as [|k s IH]; intros ts; simpl; auto.
  destruct (nth_error ts k) eqn:E; auto.
  rewrite IH, map_upd, final_step. apply upd_same. now rewrite nth_error_map, E.
Qed.
Lemma joined_final ts : joined ts = true -> map th_grid ts = map final ts.
Proof.
  unfold joined. rewrite forallb_forall. intros H. apply map_ext_in. intros t Ht.
  specialize (H _ Ht). unfold final. destruct (th_todo t); [reflexivity|discriminate].
Qed.

(** every schedule that lets each worker move often enough finishes *)
Lemma thr_step_todo t : th_todo (thr_step t) = tl (th_todo t).
Proof. unfold thr_step. destruct (th_todo t) eqn:E; simpl; auto. Qed.
Lemma skipn_tl {A} n (l : list A) : skipn n (tl l) = skipn (S n) l.
Proof. destruct l; simpl; auto. apply skipn_nil. Qed.
Lemma run_schedule_length sched : forall ts, length (run_schedule sched ts) = length ts.
Proof. induction sched as [|k s IH]; intros ts; simpl; auto. destruct (nth_error ts k); rewrite IH, ?upd_length; auto. Qed.
Lemma run_schedule_todo sched : forall ts k t, nth_error ts k = Some t ->
  exists t', nth_error (run_schedule sched ts) k = Some t' /\
    th_todo t' = skipn (count_occ Nat.eq_dec sched k) (th_todo t).
Proof.
  induction sched as [|j s IH]; intros ts k t H; simpl.
  - exists t. auto.
  - destruct (nth_error ts j) as [tj|] eqn:Ej.
    + destruct (Nat.eq_dec j k) as [ -> |Hne].
      * rewrite H in Ej. inversion Ej; subst tj.
        destruct (IH (upd ts k (thr_step t)) k (thr_step t)) as (t' & E' & Ht').
        { apply nth_error_upd_eq. apply nth_error_Some. congruence. }
        exists t'. split; auto. rewrite Ht', thr_step_todo, skipn_tl. reflexivity.
      * apply IH. rewrite nth_error_upd_ne; auto.
    + destruct (Nat.eq_dec j k) as [ -> |Hne]; [congruence|]. apply IH; auto.
Qed.
Lemma run_schedule_joins sched ts :
  (forall k t, nth_error ts k = Some t -> (length (th_todo t) <= count_occ Nat.eq_dec sched k)%nat) ->
  joined (run_schedule sched ts) = true.
Proof.
  intros H. unfold joined. apply forallb_forall. intros t' Ht'.
  apply In_nth_error in Ht'. destruct Ht' as (k & Hk).
  destruct (nth_error ts k) as [t|] eqn:Et.
  - destruct (run_schedule_todo sched ts k t Et) as (t2 & E2 & Ht2). rewrite Hk in E2. inversion E2; subst.
    rewrite Ht2, skipn_all2 by (eapply H; eauto). reflexivity.
  - apply nth_error_None in Et. rewrite <- (run_schedule_length sched ts) in Et.
    apply nth_error_None in Et. congruence.
Qed.

Lemma lookup_map_set {V} (m : list (Z * V)) k v k' :
  lookup k' (map_set m k v) = if k' =? k then Some v else lookup k' m.
Proof.
  induction m as [|[a b] m IH]; simpl; auto.
  destruct (Z.ltb_spec k a).
  - simpl. auto.
  - destruct (Z.eqb_spec k a).
    + subst. simpl. destruct (k' =? a); auto.
    + simpl. destruct (Z.eqb_spec k' a).
      * subst. destruct (Z.eqb_spec a k); auto. lia.
      * apply IH.
Qed.

Lemma collect_lookup cams : forall slots, NoDup cams -> length cams = length slots ->
  forall k g, lookup k (collect cams slots) = Some g <-> In (k, g) (combine cams slots) /\ g_detected g = true.
Proof.
  intros slots Hnd Hl k g. unfold collect.
  assert (Hgen : forall l m, NoDup (map fst l) ->
    (forall k, In k (map fst l) -> lookup k m = None) ->
    (lookup k (fold_left (fun m cg => if g_detected (snd cg) then map_set m (fst cg) (snd cg) else m) l m) = Some g
     <-> (In (k, g) l /\ g_detected g = true) \/ lookup k m = Some g)).
  { induction l as [|[a b] l IH]; intros m Hn Hm.
    - simpl. tauto.
    - cbn [fold_left fst snd]. simpl in Hn. inversion Hn as [|? ? Hni Hn']; subst.
      rewrite IH; auto.
      + destruct (g_detected b) eqn:Ed.
        * rewrite lookup_map_set. simpl In.
          destruct (Z.eqb_spec k a).
          -- subst. rewrite (Hm a) by (simpl; auto). split.
             ++ intros [[H _]|H]; [exfalso; apply Hni; apply in_map_iff; exists (a, g); auto|].
                inversion H; subst. left. auto.
             ++ intros [[[H|H] _]|H]; [inversion H; auto| |discriminate].
                exfalso; apply Hni; apply in_map_iff; exists (a, g); auto.
          -- split; [tauto|]. intros [[[H|H] Hd]|H]; auto. inversion H; congruence.
        * simpl In. split; [tauto|]. intros [[[H|H] Hd]|H]; auto. inversion H; congruence.
      + intros k0 Hk0. destruct (g_detected b); [|apply Hm; simpl; auto].
        rewrite lookup_map_set. destruct (Z.eqb_spec k0 a); [subst; contradiction|]. apply Hm; simpl; auto. }
  rewrite Hgen.
  - simpl. split; [intros [H|H]; [auto|discriminate]|auto].
  - replace (map fst (combine cams slots)) with cams; auto.
    clear - Hl. revert slots Hl. induction cams as [|a l IH]; intros [|b s] H; simpl in *; try discriminate; auto.
    f_equal. apply IH. lia.
  - reflexivity.
Qed.

Lemma spec_run_latest ops t c : spec_run ops nothing t c = latest (rev ops) t c.
Proof.
  induction ops as [|o ops IH] using rev_ind; auto.
  unfold spec_run. rewrite fold_left_app, rev_app_distr. simpl.
  fold (spec_run ops nothing). destruct o; simpl; rewrite ?IH; auto.
Qed.

Lemma get_corner_eq rows cols size sp t c : 0 <= cols ->
  get_corner (fiducial_corners rows cols size sp) t c =
  if (0 <=? t) && (t <? rows * cols) && (0 <=? c) && (c <? 4)
  then Ret (corner_point cols size sp t c) else Throw Fatal.
Proof.
  intros Hcols. unfold get_corner, fiducial_corners.
  assert (Ha : forall (A : Type) (f : Z -> A) l, assoc t (map (fun t => (t, f t)) l) =
                if existsb (Z.eqb t) l then Some (f t) else None).
  { intros A f. induction l as [|a l IH]; simpl; auto. destruct (Z.eqb_spec t a); subst; auto. }
  cbv zeta. rewrite Ha. clear Ha.
  destruct (existsb (Z.eqb t) (zrange (rows * cols))) eqn:E.
  - apply existsb_eqb_In, zrange_In in E.
    replace ((0 <=? t) && (t <? rows * cols)) with true by lia. cbn [andb].
    assert (Hc0 : 0 < cols) by (destruct (Z.eq_dec cols 0) as [E0|E0]; [rewrite E0, Z.mul_0_r in E|]; lia).
    rewrite Z.quot_div_nonneg, Z.rem_mod_nonneg by lia.
    cbn [assoc].
    destruct (Z.eqb_spec c 0); [subst; cbn; unfold corner_point; cbn; f_equal; f_equal; f_equal; ring|].
    destruct (Z.eqb_spec c 1); [subst; cbn; unfold corner_point; cbn; f_equal; f_equal; f_equal; ring|].
    destruct (Z.eqb_spec c 2); [subst; cbn; unfold corner_point; cbn; f_equal; f_equal; f_equal; ring|].
    destruct (Z.eqb_spec c 3); [subst; cbn; unfold corner_point; cbn; f_equal; f_equal; f_equal; ring|].
    replace ((0 <=? c) && (c <? 4)) with false by lia. reflexivity.
  - replace ((0 <=? t) && (t <? rows * cols)) with false; auto.
    destruct ((0 <=? t) && (t <? rows * cols)) eqn:E2; auto.
    rewrite <- E. apply existsb_eqb_In, zrange_In. lia.
Qed.
