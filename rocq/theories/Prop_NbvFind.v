(** * C103: the next best view is the best of the candidates *)
From Coq Require Import Reals Lra Sorted.
From Verif Require Import Base.
From stdpp Require Import gmap sets list.
From Verif Require Import AprilGridModel AprilGridSpec AprilGridProofs AprilGridIOModel SolverModel SolverProofs CalibModel CalibSpec CalibProofs CalibProofs2 CalibProofs3 CalibProofs4 CalibProofs5 CalibExample NbvFindModel NbvFindProofs.
Local Open Scope Z_scope.

(** ** Specification *)
(** candidate number [i] of camera [c] *)
Definition is_cand {X} (poses : list (Z * list X)) (c : Z) (i : nat) (x : X) : Prop :=
  exists xs, In (c, xs) poses /\ nth_error xs i = Some x.
(** The candidate with the smallest score is selected, the first one of those, if there is one with a negative score;
    otherwise the answer is candidate 0 of camera 0 with score 0. *)
Definition selected {X} (poses : list (Z * list X)) (score : X -> option xreal -> Prop) (b : Z * nat * xreal) : Prop :=
  let '(c, i, v) := b in
  ((exists c' i' x' v', is_cand poses c' i' x' /\ score x' (Some v') /\ xlt v' (XF 0) = true) ->
   exists x, is_cand poses c i x /\ score x (Some v) /\
     forall c' i' x' v', is_cand poses c' i' x' -> score x' (Some v') ->
       xlt v' v = false /\ (c' < c \/ c' = c /\ (i' < i)%nat -> xlt v v' = true)) /\
  ((forall c' i' x' v', is_cand poses c' i' x' -> score x' (Some v') -> xlt v' (XF 0) = false) -> b = (0, 0%nat, XF 0)).
(** the return code says whether the gain reaches the threshold *)
Definition code_ok (code : Z) (thr : R) (info v : xreal) : Prop :=
  (code = 0 \/ code = -2) /\ (forall a w, info = XF a -> v = XF w -> (code = 0 <-> (thr <= (a - w) / 2)%R)).
Lemma code_gain thr info v : code_ok (if gain_below info v thr then -2 else 0) thr info v.
Proof.
  split; [destruct gain_below; auto|]. intros a w -> ->. cbn. destruct (Rlt_dec _ _); split; intros; try lra; try lia.
Qed.

Lemma pick_selected {X} poses (cs : list (Z * nat * (X * option xreal))) (score : X -> option xreal -> Prop) :
  StronglySorted Z.lt (map fst poses) ->
  map (fun cx => (fst cx, fst (snd cx))) cs = candidates poses -> (forall c i x s, In (c, i, (x, s)) cs -> score x s) ->
  (forall x s s', score x s -> score x s' -> s = s') ->
  selected poses score (pick snd cs best_start).
Proof.
  intros Hs Hm Hsc Hf.
  assert (Hin : forall c i x, is_cand poses c i x <-> exists s, In (c, i, (x, s)) cs).
  { intros c i x. unfold is_cand. rewrite <- candidates_In, <- Hm, in_map_iff. split.
    - intros ([[c' i'] [x' s']] & E & H). cbn in E. injection E as -> -> ->. eauto.
    - intros [s H]. exists (c, i, (x, s)). split; [reflexivity|exact H]. }
  pose proof (candidates_sorted poses Hs) as Hsort. rewrite <- Hm in Hsort.
  destruct (pick_spec snd cs best_start) as [[E H]|(l1 & l2 & c & i & [x s] & v & El & Ex & E & Hv & H1 & H2)].
  - rewrite E. split; [|reflexivity]. intros (c' & i' & x' & v' & Hc & Hv & Hl). exfalso. apply Hin in Hc as [s Hc].
    pose proof (Hf _ _ _ (Hsc _ _ _ _ Hc) Hv) as ->. pose proof (H c' i' (x', Some v') v' Hc eq_refl) as Hl'. cbn [best_start snd] in Hl'. congruence.
  - rewrite E. cbn [snd] in Ex. subst s. split.
    + intros _. assert (Hx : In (c, i, (x, Some v)) cs) by (rewrite El; apply in_or_app; right; left; reflexivity).
      exists x. split; [apply Hin; eauto|]. split; [eapply Hsc; eauto|]. intros c' i' x' v' Hc Hv'. apply Hin in Hc as [s' Hc].
      pose proof (Hf _ _ _ (Hsc _ _ _ _ Hc) Hv') as ->.
      rewrite El in Hsort. rewrite !map_app in Hsort. cbn [map fst snd] in Hsort. apply sorted_split in Hsort as [S1 S2].
      rewrite El in Hc. apply in_app_iff in Hc as [Hc|[Hc|Hc]].
      * pose proof (H1 _ _ _ _ Hc eq_refl) as L. split; [|auto]. destruct (xlt v' v) eqn:L2; [|reflexivity].
        pose proof (xlt_trans _ _ _ L L2) as L3. rewrite xlt_irrefl in L3. discriminate.
      * injection Hc as <- <- _ <-. split; [apply xlt_irrefl|]. intros K. exfalso. lia.
      * split; [exact (H2 _ _ _ _ Hc eq_refl)|]. intros K. exfalso.
        assert (B : before (c, i) (c', i')).
        { apply S2. apply in_map_iff. exists (c', i', x'). split; [reflexivity|]. apply in_map_iff. exists (c', i', (x', Some v')). split; [reflexivity|exact Hc]. }
        unfold before in B. cbn in B. lia.
    + intros H. exfalso. assert (Hx : In (c, i, (x, Some v)) cs) by (rewrite El; apply in_or_app; right; left; reflexivity).
      pose proof (H c i x v (proj2 (Hin c i x) (ex_intro (fun s => In (c, i, (x, s)) cs) _ Hx)) (Hsc _ _ _ _ Hx)) as Hv'. cbn [best_start snd] in Hv. congruence.
Qed.

(** ** C103, find_nbv: for every calibrator reached by any history, all candidates are evaluated, each with the problem as it
    was plus that candidate and nothing else ([score_of]); the best is selected; and afterwards the calibrator is as
    before ([same]), except that its data contains a frame with the simulated detections. *)
Theorem C103_find_partial : forall (blocks : Z -> list Z) rows cols size sp (V : Type) ext_addr cam_addr base (k : calib V)
    thr stamps last_ts i0 poses (hist : @fcand V -> list (Z * (Z * list op))),
  0 <= rows -> 0 <= cols -> reach blocks rows cols size sp ext_addr cam_addr base k ->
  k_views k <> ∅ -> poses <> [] -> StronglySorted Z.lt (map fst poses) -> last stamps = Some last_ts ->
  k_views k !! (last_ts + 1) = None ->
  (forall c i x, is_cand poses c i x -> fresh_env blocks ext_addr cam_addr (f_env x) k /\
     recorded rows cols size sp (hist x) (f_grids x) /\ forall cam g, In (cam, g) (f_grids x) -> g_ts g = last_ts + 1) ->
  exists code b k', find_nbv blocks (fiducial_corners rows cols size sp) thr stamps (Some i0) poses k = Ret (code, Some b, k') /\
    selected poses (score_of rows cols k (last_ts + 1) (fun x => content_of (hist x))) b /\
    code_ok code thr i0 (snd b) /\ same k k' /\
    (forall t, t ∈ k_data k' <-> t ∈ k_data k \/ t = last_ts + 1 /\ exists c i x cam g, is_cand poses c i x /\ In (cam, g) (f_grids x) /\ g_detected g = true).
Proof.
  intros blocks rows cols size sp V ext_addr cam_addr base k thr stamps last_ts i0 poses hist Hr Hc Hk Hv Hp Hs Hl Hno HC.
  pose proof (reach_KInv blocks rows cols size sp Hr Hc ext_addr cam_addr base k Hk) as K.
  assert (HC' : forall c i x, In (c, i, x) (candidates poses) -> fresh_env blocks ext_addr cam_addr (f_env x) k /\
     grids_ok rows cols size sp (f_grids x) (content_of (hist x)) /\ forall cam g, In (cam, g) (f_grids x) -> g_ts g = last_ts + 1).
  { intros c i x H. apply candidates_In in H. destruct (HC c i x H) as (F & G & T). split; [exact F|]. split; [|exact T].
    exact (recorded_ok blocks rows cols size sp Hr Hc ext_addr cam_addr (hist x) (f_grids x) G). }
  destruct (find_loop_ok blocks rows cols size sp Hr Hc ext_addr cam_addr base k (last_ts + 1) (fun x => content_of (hist x)) (candidates poses) K Hno HC' best_start k (same_refl k) K)
    as (k2 & ss & Hss & E & S2 & K2 & D2).
  unfold find_nbv. destruct poses as [|p0 ps] eqn:Ep; [congruence|]. rewrite <- Ep in *. clear Ep Hp p0 ps.
  destruct (decide (k_views k = ∅)) as [?|_]; [contradiction|]. rewrite Hl, E. cbn [obind fst snd].
  eexists _, _, k2. split; [reflexivity|]. split; [|split; [apply code_gain|split; [exact S2|]]].
  - apply pick_selected; [exact Hs| | |intros x s s'; apply score_fun].
    + clear -Hss. rewrite map_map. cbn [fst snd]. induction Hss as [|[[c i] x] s cs ss H _ IH]; [reflexivity|]. cbn. rewrite IH. reflexivity.
    + intros c i x s H. apply in_map_iff in H as ([[[c' i'] x'] s'] & E' & H). cbn in E'. injection E' as -> -> -> ->.
      clear -Hss H. induction Hss as [|cx s0 cs ss Hh _ IH]; [destruct H|]. cbn in H. destruct H as [H|H]; [injection H as -> ->; exact Hh|auto].
  - assert (Hd : forall gs, is_detected gs = true <-> exists cam g, In (cam, g) gs /\ g_detected g = true).
    { unfold is_detected. intros gs. destruct (first_detected gs) as [t|] eqn:Hf.
      - split; [intros _|reflexivity]. destruct (first_detected_In _ _ Hf) as (c & g & H1 & H2 & _). eauto.
      - split; [discriminate|]. intros (cam & g & H1 & H2). rewrite (undetected _ Hf cam g H1) in H2. discriminate. }
    intros t. rewrite D2, elem_of_union. destruct (existsb _ _) eqn:Ee.
    + rewrite elem_of_singleton. apply existsb_exists in Ee as ([[c i] x] & H1 & H2). apply candidates_In in H1. apply Hd in H2 as (cam & g & H2 & H3).
      split; [intros [->|H]; [right; split; [reflexivity|]; exists c, i, x, cam, g; auto|auto]|]. intros [H|[-> _]]; auto.
    + split; [intros [H|H]; [set_solver|auto]|]. intros [H|(-> & c & i & x & cam & g & H1 & H2 & H3)]; [auto|]. exfalso.
      assert (existsb (fun cx => is_detected (f_grids (snd cx))) (candidates poses) = true); [|congruence].
      apply existsb_exists. exists (c, i, x). split; [apply candidates_In; exact H1|]. apply Hd. eauto.
Qed.
Print Assumptions C103_find_partial.

Lemma nth_error_lookup {A} (l : list A) i : nth_error l i = l !! i.
Proof. revert i. induction l as [|a l IH]; intros [|i]; try reflexivity. apply IH. Qed.
(** ** C103, find_nbv_fast: the same selection, if the cameras are numbered from 0 and the ones with candidates are handled
    by one thread. *)
Theorem C103_fast_partial : forall (X : Type) (score : X -> outcome (option xreal)) thread nviews thr i0 (poses : list (Z * list X)),
  poses <> [] -> nviews <> 0%nat -> map fst poses = map Z.of_nat (seq 0 (length poses)) ->
  (forall i j c c' x x' xs xs', nth_error poses i = Some (c, x :: xs) -> nth_error poses j = Some (c', x' :: xs') -> thread i = thread j) ->
  (forall c i x, is_cand poses c i x -> exists s, score x = Ret s) ->
  exists code b, find_nbv_fast score thread nviews thr (Some i0) poses = Ret (code, Some b) /\
    selected poses (fun x s => score x = Ret s) b /\ code_ok code thr i0 (snd b).
Proof.
  intros X score thread nviews thr i0 poses Hp Hn Hk Ht Hs.
  assert (Hsort : StronglySorted Z.lt (map fst poses)).
  { rewrite Hk. clear. generalize (length poses). intros n. generalize 0%nat. induction n as [|n IH]; intros m; cbn; constructor; [apply IH|]. apply List.Forall_forall. intros z Hz.
    apply in_map_iff in Hz as (q & <- & Hq). apply in_seq in Hq. lia. }
  assert (Hr : racing thread poses = false).
  { unfold racing. apply not_true_iff_false. intros H. apply existsb_exists in H as (a & Ha & H). apply existsb_exists in H as (b & Hb & H).
    apply elem_of_list_In, elem_of_list_filter in Ha as [Ha1 Ha2]. apply elem_of_list_In, elem_of_list_filter in Hb as [Hb1 Hb2].
    apply elem_of_lookup_imap in Ha2 as (i & [c xs] & -> & Ha2). apply elem_of_lookup_imap in Hb2 as (j & [c' xs'] & -> & Hb2). cbn [fst snd] in *.
    destruct xs as [|x xs]; [destruct Ha1|]. destruct xs' as [|x' xs']; [destruct Hb1|].
    rewrite (Ht i j c c' x x' xs xs'), Nat.eqb_refl in H; [discriminate| |]; rewrite nth_error_lookup; assumption. }
  assert (L : forall cs b, (forall c i x, In (c, i, x) cs -> exists s, score x = Ret s) -> exists ss, Forall2 (fun cx s => score (snd cx) = Ret s) cs ss /\
     fast_loop score cs b = Ret (pick snd (map (fun p => (fst (fst p), (snd (fst p), snd p))) (combine cs ss)) b)).
  { induction cs as [|[[c i] x] cs IH]; intros b H; [exists []; split; [constructor|reflexivity]|]. destruct (H c i x (or_introl eq_refl)) as [s Es].
    destruct (IH (better b c i s) (fun c' i' x' H' => H c' i' x' (or_intror H'))) as (ss & F & E). exists (s :: ss). split; [constructor; auto|]. cbn [fast_loop]. rewrite Es. cbn [obind]. exact E. }
  destruct (L (candidates poses) best_start) as (ss & Hss & E).
  { intros c i x H. apply candidates_In in H. exact (Hs c i x H). }
  unfold find_nbv_fast. destruct poses as [|p0 ps] eqn:Ep; [congruence|]. destruct nviews; [congruence|]. rewrite <- Ep in *. clear Ep Hp p0 ps.
  unfold keys_ok. rewrite bool_decide_eq_true_2 by exact Hk. rewrite Hr. cbn [andb negb]. rewrite E. cbn [obind].
  eexists _, _. split; [reflexivity|]. split; [|apply code_gain].
  apply pick_selected; [exact Hsort| | |intros x s s' H1 H2; congruence].
  - clear -Hss. rewrite map_map. cbn [fst snd]. induction Hss as [|[[c i] x] s cs ss H _ IH]; [reflexivity|]. cbn. rewrite IH. reflexivity.
  - intros c i x s H. apply in_map_iff in H as ([[[c' i'] x'] s'] & E' & H). cbn in E'. injection E' as -> -> -> ->.
    clear -Hss H. induction Hss as [|cx s0 cs ss Hh _ IH]; [destruct H|]. cbn in H. destruct H as [H|H]; [injection H as -> ->; exact Hh|auto].
Qed.
Print Assumptions C103_fast_partial.
(** two candidates; the second is better *)
Example C103_fast_ex : exists code, find_nbv_fast (fun x : R => Ret (Some (XF x))) (fun _ => 0%nat) 1 1 (Some (XF 0)) [(0, [-3; -8]%R); (1, [-8]%R)] = Ret (code, Some (0, 1%nat, XF (-8))).
Proof.
  unfold find_nbv_fast, keys_ok. rewrite bool_decide_eq_true_2 by reflexivity. cbn. unfold better. cbn.
  destruct (Rlt_dec (-3) 0) as [_|]; [|lra]. cbn. destruct (Rlt_dec (-8) (-3)) as [_|]; [|lra]. cbn. destruct (Rlt_dec (-8) (-8)) as [|_]; [lra|]. cbn. eauto.
Qed.

(** ** What goes wrong *)
(** If no score is negative, success and a large gain can be reported for a candidate that does not exist: the only
    candidate's score is 9, the current information 10, and the answer is candidate 0 of camera 0 with information 0. *)
Theorem C103_positive_refuted : exists (score : unit -> outcome (option xreal)),
  score tt = Ret (Some (XF 9)) /\
  find_nbv_fast score (fun _ => 0%nat) 1 1 (Some (XF 10)) [(0, []); (1, [tt])] = Ret (0, Some (0, 0%nat, XF 0)) /\
  (forall x, ~ is_cand [(0, []); (1, [tt])] 0 0 x) /\ ((10 - 9) / 2 < 1)%R.
Proof.
  exists (fun _ => Ret (Some (XF 9))). split; [reflexivity|]. split; [|split; [|lra]].
  - unfold find_nbv_fast, keys_ok. rewrite bool_decide_eq_true_2 by reflexivity. cbn. unfold better. cbn. destruct (Rlt_dec 9 0) as [|_]; [lra|]. cbn. destruct (Rlt_dec _ _); [lra|]. reflexivity.
  - intros x (xs & [H|[H|[]]] & Hx); [|discriminate H]. injection H as <-. discriminate Hx.
Qed.
(** Two cameras with candidates handled by different threads: a data race. *)
Theorem C103_race_refuted : forall (X : Type) (score : X -> outcome (option xreal)) thread nviews thr i0 (poses : list (Z * list X)) i j c c' x x' xs xs',
  nviews <> 0%nat -> nth_error poses i = Some (c, x :: xs) -> nth_error poses j = Some (c', x' :: xs') -> thread i <> thread j ->
  find_nbv_fast score thread nviews thr (Some i0) poses = Undef.
Proof.
  intros X score thread nviews thr i0 poses i j c c' x x' xs xs' Hn Hi Hj Ht.
  assert (Hr : racing thread poses = true).
  { unfold racing. apply existsb_exists. exists (i, (c, x :: xs)). split.
    - apply elem_of_list_In, elem_of_list_filter. split; [exact I|]. apply elem_of_lookup_imap. exists i, (c, x :: xs). split; [reflexivity|]. rewrite nth_error_lookup in Hi. exact Hi.
    - apply existsb_exists. exists (j, (c', x' :: xs')). split.
      + apply elem_of_list_In, elem_of_list_filter. split; [exact I|]. apply elem_of_lookup_imap. exists j, (c', x' :: xs'). split; [reflexivity|]. rewrite nth_error_lookup in Hj. exact Hj.
      + cbn [fst]. destruct (Nat.eqb_spec (thread i) (thread j)); [contradiction|reflexivity]. }
  unfold find_nbv_fast. destruct poses as [|p ps]; [destruct i; discriminate|]. destruct nviews; [congruence|]. rewrite Hr, andb_false_r. reflexivity.
Qed.
(** Cameras that are not numbered 0, 1, ...: the program is terminated, whereas find_nbv works. *)
Theorem C103_numbering_refuted : forall (X : Type) (score : X -> outcome (option xreal)) thread nviews thr i0 (poses : list (Z * list X)),
  nviews <> 0%nat -> poses <> [] -> map fst poses <> map Z.of_nat (seq 0 (length poses)) ->
  find_nbv_fast score thread nviews thr (Some i0) poses = Undef.
Proof.
  intros X score thread nviews thr i0 poses Hn Hp Hk. unfold find_nbv_fast. destruct poses as [|p ps] eqn:E; [congruence|]. destruct nviews; [congruence|]. rewrite <- E in *.
  unfold keys_ok. rewrite bool_decide_eq_false_2 by exact Hk. reflexivity.
Qed.
Definition ex_cand (ts : Z) : @fcand Z := mkFcand 70 (ex_env 2 60) (ex_gs ts) (fun _ _ _ => Some (XF (-5))).

(** The search with one candidate whose score is -5, the current information being 0 and the threshold 1. *)
Lemma find_one ts k k' : k_views k <> ∅ -> try_cand ex_blocks ex_corners (ts + 1) (ex_cand (ts + 1)) k = Ret (Some (XF (-5)), k') ->
  find_nbv ex_blocks ex_corners 1 [ts] (Some (XF 0)) [(0, [ex_cand (ts + 1)])] k = Ret (0, Some (0, 0%nat, XF (-5)), k').
Proof.
  intros Hv E. unfold find_nbv. destruct (decide (k_views k = ∅)); [contradiction|]. cbn [last]. cbn [candidates map numbered concat app fst snd find_loop].
  rewrite E. cbn [obind fst snd]. unfold better, xlt. cbn [best_start snd]. destruct (Rlt_dec _ _); [|lra]. cbn [obind fst snd find_loop]. unfold gain_below. destruct (Rlt_dec _ _); [lra|reflexivity].
Qed.
(** The simulated detections stay in the calibration data. *)
Theorem C103_data_refuted : exists k', ex_reach ex_k1 /\
  find_nbv ex_blocks ex_corners 1 [7] (Some (XF 0)) [(0, [ex_cand 8])] ex_k1 = Ret (0, Some (0, 0%nat, XF (-5)), k') /\
  8 ∉ k_data ex_k1 /\ 8 ∈ k_data k'.
Proof.
  assert (Hv : k_views ex_k1 <> ∅). { intros H. assert (X : bool_decide (k_views ex_k1 !! 7 = None) = false) by (vm_compute; reflexivity). apply bool_decide_eq_false in X. apply X. rewrite H. apply lookup_empty. }
  set (o := try_cand ex_blocks ex_corners 8 (ex_cand 8) ex_k1).
  assert (H : match o with Ret (_, k') => bool_decide (8 ∈ k_data k') | _ => false end = true) by (vm_compute; reflexivity).
  assert (E : exists k', o = Ret (Some (XF (-5)), k') /\ bool_decide (8 ∈ k_data k') = true).
  { revert H. unfold o, try_cand. destruct (add_view _ _ _ _ _) as [[b k1]| |]; cbn [obind snd]; try (intros H; discriminate H). destruct (remove_view _ _ _) as [k2| |]; cbn [obind]; try (intros H; discriminate H). eauto. }
  destruct E as (k' & E & H'). exists k'. split; [apply ex_reach1|]. split; [exact (find_one 7 ex_k1 k' Hv E)|]. split; [|apply bool_decide_eq_true in H'; exact H'].
  assert (X : bool_decide (8 ∈ k_data ex_k1) = false) by (vm_compute; reflexivity). apply bool_decide_eq_false in X. exact X.
Qed.
(** If the problem has a view one nanosecond after the last of the given timestamps, the search removes it. *)
Theorem C103_existing_view_refuted : exists k', ex_reach ex_k1 /\
  find_nbv ex_blocks ex_corners 1 [6] (Some (XF 0)) [(0, [ex_cand 7])] ex_k1 = Ret (0, Some (0, 0%nat, XF (-5)), k') /\
  7 ∈ dom (k_views ex_k1) /\ 7 ∉ dom (k_views k') /\ 7 ∉ dom (k_poses k').
Proof.
  assert (X : bool_decide (7 ∈ dom (k_views ex_k1)) = true) by (vm_compute; reflexivity). apply bool_decide_eq_true in X.
  assert (Hv : k_views ex_k1 <> ∅) by (intros H; rewrite H in X; set_solver).
  set (o := try_cand ex_blocks ex_corners 7 (ex_cand 7) ex_k1).
  assert (H : match o with Ret (_, k') => bool_decide (7 ∉ dom (k_views k') /\ 7 ∉ dom (k_poses k')) | _ => false end = true) by (vm_compute; reflexivity).
  assert (E : exists k', o = Ret (Some (XF (-5)), k') /\ bool_decide (7 ∉ dom (k_views k') /\ 7 ∉ dom (k_poses k')) = true).
  { revert H. unfold o, try_cand. destruct (add_view _ _ _ _ _) as [[b k1]| |]; cbn [obind snd]; try (intros H; discriminate H). destruct (remove_view _ _ _) as [k2| |]; cbn [obind]; try (intros H; discriminate H). eauto. }
  destruct E as (k' & E & H'). exists k'. split; [apply ex_reach1|]. split; [exact (find_one 6 ex_k1 k' Hv E)|]. split; [exact X|]. apply bool_decide_eq_true in H'. exact H'.
Qed.
Print Assumptions C103_existing_view_refuted.
(** No timestamps: the end of an empty set is dereferenced. *)
Theorem C103_no_stamps_refuted : forall (blocks : Z -> list Z) corners (V : Type) thr i0 (poses : list (Z * list (@fcand V))) (k : calib V),
  poses <> [] -> k_views k <> ∅ -> find_nbv blocks corners thr [] (Some i0) poses k = Undef.
Proof. intros blocks corners V thr i0 poses k Hp Hv. unfold find_nbv. destruct poses; [congruence|]. destruct (decide _); [contradiction|reflexivity]. Qed.
(** The preconditions of the search are checked, and a failure to compute the information changes nothing. *)
Theorem C103_checked : forall (blocks : Z -> list Z) corners (V : Type) thr stamps info (poses : list (Z * list (@fcand V))) (k : calib V),
  (poses = [] \/ k_views k = ∅ -> find_nbv blocks corners thr stamps info poses k = Throw Fatal) /\
  (poses <> [] -> k_views k <> ∅ -> find_nbv blocks corners thr stamps None poses k = Ret (-1, None, k)).
Proof.
  intros. unfold find_nbv. split.
  - intros [->|E]; [reflexivity|]. destruct poses; [reflexivity|]. destruct (decide _); [reflexivity|contradiction].
  - intros Hp Hv. destruct poses; [congruence|]. destruct (decide _); [contradiction|reflexivity].
Qed.
(** [C103_find_partial] is not vacuous: the search above for the calibrator with a view at 7. *)
Example C103_find_ex : forall c i x, is_cand [(0, [ex_cand 8])] c i x ->
  fresh_env ex_blocks ex_ext ex_cam (f_env x) ex_k1 /\ recorded 1 1 1%R 0%R (ex_hist 8) (f_grids x) /\ forall cam g, In (cam, g) (f_grids x) -> g_ts g = 7 + 1.
Proof.
  intros c i x (xs & [E|[]] & Hx). injection E as <- <-. destruct i as [|[|i]]; try discriminate Hx. injection Hx as <-. cbn [ex_cand f_env f_grids].
  split; [apply ex_fresh2|]. split; [apply ex_recorded|]. intros cam g [H|[]]. injection H as <- <-. vm_compute. reflexivity.
Qed.
