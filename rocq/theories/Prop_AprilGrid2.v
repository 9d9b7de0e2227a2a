(** * Property theorems C09 - C15 (AprilGrid sampling, geometry, guards, files, detection) *)
From Coq Require Import Reals Lra Sorting.Sorted Permutation.
From Verif Require Import Base AprilGridModel AprilGridSpec AprilGridProofs AprilGridIOModel
  AprilGridProofs2 AprilGridProofs3 AprilGridDetectSpec AprilGridProofs4.
From Coq Require Import ZifyBool ZifyNat.
Local Open Scope Z_scope.

Lemma fresh_run ts rows cols size sp ops :
  0 <= rows -> 0 <= cols -> Forall (op_in rows cols) ops -> all_fresh nothing ops ->
  exists g, run (new_grid ts rows cols size sp) ops = (Done, g) /\
    Rep rows cols size sp g (latest (rev ops)) /\
    g_nb g = icount rows cols (latest (rev ops)) /\ g_detected g = negb (g_nb g =? 0) /\ g_ts g = ts.
Proof.
  intros Hr Hc Hin Hf.
  destruct (run_books rows cols size sp Hr Hc ops _ nothing (Rep_new rows cols size sp ts) Hin)
    as (g & Hrun & HR & Hts & _ & HB).
  destruct (HB Hf (BookEq_new rows cols size sp ts)) as [B1 B2].
  exists g. split; [exact Hrun|]. split.
  { apply (Rep_ext rows cols size sp g _ _ HR). intros. apply spec_run_latest. }
  split; [|split; [exact B2|exact Hts]]. rewrite B1. apply icount_ext.
  intros t c _. unfold present. cbn. now rewrite spec_run_latest.
Qed.

(** ** C09 *)
(** Whenever sample() returns, it returns the right thing ... *)
Theorem C09_sample_result : forall ts rows cols size sp ops n rnd fuel r,
  0 <= rows -> 0 <= cols -> Forall (op_in rows cols) ops -> all_fresh nothing ops ->
  0 <= n -> (forall k, 0 <= rnd k) ->
  exists g, run (new_grid ts rows cols size sp) ops = (Done, g) /\
  (sample fuel g n rnd (mkSmp [] [] [] []) = Some r ->
   exists L : list (Z * Z * kp2),
     r = Ret (mkSmp (map (fun x => fst (fst x)) L) (map (fun x => snd (fst x)) L) (map snd L)
                    (map (fun x => corner_point cols size sp (fst (fst x)) (snd (fst x))) L)) /\
     NoDup (map fst L) /\
     (forall t c kp, In (t, c, kp) L -> corner_in rows cols t c /\ latest (rev ops) t c = Some kp) /\
     Z.of_nat (length L) = Z.min n (spec_count rows cols (latest (rev ops)))).
Proof.
  intros ts rows cols size sp ops n rnd fuel r Hr Hc Hin Hf Hn Hrnd.
  destruct (fresh_run ts rows cols size sp ops Hr Hc Hin Hf) as (g & Hrun & HR & Hnb & _).
  exists g. split; [exact Hrun|]. rewrite spec_count_icount.
  exact (sample_result rows cols size sp g _ n rnd fuel r HR Hrnd Hn Hnb).
Qed.
Print Assumptions C09_sample_result.

(** ... and it returns at the latest after K iterations once the generator has drawn
    min(n, count) different present corners within its first K draws. *)
Theorem C09_sample_stops : forall ts rows cols size sp ops n rnd K D,
  0 <= rows -> 0 <= cols -> Forall (op_in rows cols) ops -> all_fresh nothing ops ->
  0 <= n -> (forall k, 0 <= rnd k) ->
  NoDup D -> Z.of_nat (length D) = Z.min n (spec_count rows cols (latest (rev ops))) ->
  (forall t c, In (t, c) D -> latest (rev ops) t c <> None /\
     exists k, (k < K)%nat /\ draw (visible_tags rows cols (latest (rev ops))) rnd k = (t, c)) ->
  exists g, run (new_grid ts rows cols size sp) ops = (Done, g) /\
            sample (S K) g n rnd (mkSmp [] [] [] []) <> None.
Proof.
  intros ts rows cols size sp ops n rnd K D Hr Hc Hin Hf Hn Hrnd HD Hl HDr.
  destruct (fresh_run ts rows cols size sp ops Hr Hc Hin Hf) as (g & Hrun & HR & Hnb & _).
  exists g. split; [exact Hrun|]. rewrite spec_count_icount in Hl.
  exact (sample_stops rows cols size sp g _ n rnd K D HR Hrnd Hn Hnb HD Hl HDr).
Qed.
Print Assumptions C09_sample_stops.
Example C09_ex : let ops := [OpAdd 0 0 (1, 2)%R; OpAdd 1 3 (3, 4)%R] in
  let rnd := fun k => nth k [1; 3; 0; 0] 0 in
  visible_tags 1 2 (latest (rev ops)) = [0; 1] /\
  draw (visible_tags 1 2 (latest (rev ops))) rnd 0 = (1, 3) /\
  draw (visible_tags 1 2 (latest (rev ops))) rnd 1 = (0, 0) /\
  exists r, sample 3 (snd (run (new_grid 0 1 2 1 1) ops)) 5 rnd (mkSmp [] [] [] []) = Some (Ret r) /\
            s_tags r = [1; 0] /\ s_corners r = [3; 0].
Proof.
  split; [reflexivity|]. split; [reflexivity|]. split; [reflexivity|].
  eexists. split; [vm_compute; reflexivity|]. split; reflexivity.
Qed.

(** Refuted without the no-duplicate-adds guard: the loop never ends, whatever the
    generator returns. *)
Theorem C09_sample_diverges_refuted :
  exists g, run (new_grid 0 1 1 1 1) [OpAdd 0 0 (1, 2)%R; OpAdd 0 0 (1, 2)%R] = (Done, g) /\
    forall rnd fuel, (forall k, 0 <= rnd k) -> sample fuel g 2 rnd (mkSmp [] [] [] []) = None.
Proof.
  set (ops := [OpAdd 0 0 (1, 2)%R; OpAdd 0 0 (1, 2)%R]).
  destruct (run_books 1 1 1 1 ltac:(lia) ltac:(lia) ops _ nothing (Rep_new 1 1 1 1 0)) as (g & Hrun & HR & _).
  { repeat constructor; lia. }
  exists g. split; [exact Hrun|]. intros rnd fuel Hrnd.
  assert (Hc : icount 1 1 (spec_run ops nothing) = 1) by reflexivity.
  assert (Hn : g_nb g = 2) by (vm_compute in Hrun; inversion Hrun; reflexivity).
  apply (sample_diverges 1 1 1 1 g _ 2 rnd fuel HR Hrnd); lia.
Qed.
Print Assumptions C09_sample_diverges_refuted.

(** ** C10 *)
Theorem C10_object_points : forall ts rows cols size sp t c,
  0 <= rows -> 0 <= cols -> corner_in rows cols t c ->
  object_point (new_grid ts rows cols size sp) t c = Ret (corner_point cols size sp t c) /\
  get_corner (fiducial_corners rows cols size sp) t c = Ret (corner_point cols size sp t c).
Proof.
  intros ts rows cols size sp t c Hr Hc Hin. split.
  - exact (object_point_in rows cols size sp Hc _ _ t c (Rep_new rows cols size sp ts) Hin).
  - rewrite get_corner_eq by exact Hc. destruct Hin as [H1 H2].
    replace ((0 <=? t) && (t <? rows * cols) && (0 <=? c) && (c <? 4)) with true by lia. reflexivity.
Qed.
Print Assumptions C10_object_points.

Theorem C10_fiducial_corners_domain : forall rows cols size sp t c, 0 <= cols ->
  ~ corner_in rows cols t c -> get_corner (fiducial_corners rows cols size sp) t c = Throw Fatal.
Proof.
  intros rows cols size sp t c Hc Hn. rewrite get_corner_eq by exact Hc.
  destruct ((0 <=? t) && (t <? rows * cols) && (0 <=? c) && (c <? 4)) eqn:E; auto.
  exfalso. apply Hn. unfold corner_in. lia.
Qed.
Print Assumptions C10_fiducial_corners_domain.

Theorem C10_distinct_points : forall rows cols size sp t c t' c',
  0 <= rows -> 0 <= cols -> (0 < size)%R -> (0 < sp)%R -> corner_in rows cols t c -> corner_in rows cols t' c' ->
  corner_point cols size sp t c = corner_point cols size sp t' c' -> t = t' /\ c = c'.
Proof.
  intros rows cols size sp t c t' c' Hr Hc Hs Hsp H1 H2.
  exact (corner_point_inj rows cols size sp Hr Hc t c t' c' Hs Hsp H1 H2).
Qed.
Print Assumptions C10_distinct_points.

(** the center is the midpoint of the bounding box of the corners *)
Theorem C10_center : forall ts rows cols size sp,
  0 < rows -> 0 < cols -> (0 < size)%R -> (0 <= sp)%R ->
  let ctr := center (new_grid ts rows cols size sp) in
  (forall t c, corner_in rows cols t c ->
     let p := corner_point cols size sp t c in
     (0 <= fst (fst p) <= 2 * fst ctr)%R /\ (0 <= snd (fst p) <= 2 * snd ctr)%R /\ snd p = 0%R) /\
  (exists t c, corner_in rows cols t c /\ corner_point cols size sp t c = (0%R, 0%R, 0%R)) /\
  (exists t c, corner_in rows cols t c /\
     corner_point cols size sp t c = ((2 * fst ctr)%R, (2 * snd ctr)%R, 0%R)).
Proof.
  intros ts rows cols size sp Hr Hc Hs Hsp ctr.
  destruct (corner_point_extremes rows cols size sp (new_grid ts rows cols size sp)
              eq_refl eq_refl eq_refl eq_refl Hr Hc) as (E0 & E1 & E2).
  split; [|split].
  - intros t c Hin p.
    destruct (corner_point_box rows cols size sp ltac:(lia) (new_grid ts rows cols size sp) t c
                eq_refl eq_refl eq_refl eq_refl Hs Hsp Hin) as [B1 B2].
    split; [exact B1|]. split; [exact B2|]. reflexivity.
  - exists 0, 0. split; [|exact E0]. unfold corner_in. nia.
  - exists (rows * cols - 1), 2. split; [exact E1|exact E2].
Qed.
Print Assumptions C10_center.
Example C10_ex : corner_in 6 7 41 3 /\ corner_point 7 2 (1/2) 8 2 = ((1 * (2 * (1 + 1/2)) + 2)%R, (1 * (2 * (1 + 1/2)) + 2)%R, 0%R).
Proof. split; [unfold corner_in; lia|reflexivity]. Qed.

(** ** C11: refuted at tag_id = rows*cols, where the write leaves the storage *)
Theorem C11_one_past_end_refuted : forall ts rows cols size sp c kp,
  0 <= rows -> 0 < cols -> 0 <= c < 4 ->
  exists p g', object_point (new_grid ts rows cols size sp) (rows * cols) c = Ret p /\
               add (new_grid ts rows cols size sp) (rows * cols) c kp = (UB, g').
Proof.
  intros ts rows cols size sp c kp Hr Hc Hcc.
  exact (add_past_end rows cols size sp Hr _ _ c kp (Rep_new rows cols size sp ts) Hc Hcc).
Qed.
Print Assumptions C11_one_past_end_refuted.

(** every other out-of-range id is rejected and no corner is stored; but the counter and
    the flag have already been changed *)
Theorem C11_out_of_range_partial : forall g t c kp,
  0 < g_cols g -> t <> g_rows g * g_cols g -> ~ corner_in (g_rows g) (g_cols g) t c ->
  object_point g t c = Throw Fatal /\
  exists g', add g t c kp = (Thrown, g') /\ g_data g' = g_data g /\
             g_nb g' = g_nb g + 1 /\ g_detected g' = true.
Proof.
  intros g t c kp Hc Hne Hn.
  assert (H : t < 0 \/ g_rows g * g_cols g < t \/ c < 0 \/ 3 < c) by (unfold corner_in in Hn; lia).
  split; [exact (object_point_guard g t c Hc H)|].
  eexists. split; [exact (add_guard g t c kp Hc H)|]. repeat split.
Qed.
Print Assumptions C11_out_of_range_partial.

(** hence a rejected add is visible: an empty grid becomes "detected" with one detection *)
Theorem C11_rejected_add_visible_refuted :
  exists g', add (new_grid 0 6 6 1 1) 99 0 (1, 1)%R = (Thrown, g') /\ g_detected g' = true /\ g_nb g' = 1 /\
             get_measurements g' meas_nil = Ret meas_nil.
Proof. eexists. repeat split. Qed.
Print Assumptions C11_rejected_add_visible_refuted.

(** ** C12 *)
(** Round trip, for grids holding at least one corner, when the printed decimals denote
    the stored numbers. *)
Theorem C12_save_load_partial : forall ts rows cols size sp ops fmt6 fmt10,
  0 <= rows -> 0 <= cols -> Forall (op_in rows cols) ops -> all_fresh nothing ops ->
  0 < spec_count rows cols (latest (rev ops)) ->
  fmt6 size = size -> fmt6 sp = sp ->
  (forall t c kp, corner_in rows cols t c -> latest (rev ops) t c = Some kp ->
     fmt10 (fst kp) = fst kp /\ fmt10 (snd kp) = snd kp) ->
  (forall t c, corner_in rows cols t c ->
     let p := corner_point cols size sp t c in
     fmt6 (fst (fst p)) = fst (fst p) /\ fmt6 (snd (fst p)) = snd (fst p) /\ fmt6 (snd p) = snd p) ->
  exists g, run (new_grid ts rows cols size sp) ops = (Done, g) /\
            load default_grid (save fmt6 fmt10 g) = (Done, g).
Proof.
  intros ts rows cols size sp ops fmt6 fmt10 Hr Hc Hin Hf Hpos F1 F2 F3 F4.
  destruct (fresh_run ts rows cols size sp ops Hr Hc Hin Hf) as (g & Hrun & HR & Hnb & Hd & _).
  rewrite spec_count_icount in Hpos.
  exists g. split; [exact Hrun|].
  apply (load_save_exact rows cols size sp Hr Hc fmt6 fmt10 g _ HR Hnb Hpos); auto.
  rewrite Hd, Hnb. destruct (Z.eqb_spec (icount rows cols (latest (rev ops))) 0); [lia|reflexivity].
Qed.
Print Assumptions C12_save_load_partial.
Example C12_ex : let ops := [OpAdd 0 2 (1, 2)%R; OpAdd 5 1 (3, 4)%R] in
  Forall (op_in 2 3) ops /\ all_fresh nothing ops /\ spec_count 2 3 (latest (rev ops)) = 2.
Proof. cbn. repeat split; repeat constructor; lia. Qed.

(** With rounding: same corners and same counter, every number replaced by what its
    decimal text denotes. *)
Theorem C12_save_load_rounded : forall ts rows cols size sp ops fmt6 fmt10,
  0 <= rows -> 0 <= cols -> Forall (op_in rows cols) ops -> all_fresh nothing ops ->
  0 < spec_count rows cols (latest (rev ops)) ->
  exists g g', run (new_grid ts rows cols size sp) ops = (Done, g) /\
    load default_grid (save fmt6 fmt10 g) = (Done, g') /\
    g_ts g' = ts /\ g_rows g' = rows /\ g_cols g' = cols /\ g_size g' = fmt6 size /\ g_spacing g' = fmt6 sp /\
    g_nb g' = g_nb g /\ g_detected g' = g_detected g /\
    forall t c, corner_in rows cols t c ->
      has g' t c = has g t c /\
      keypoint g' t c = omap (fun kp => (fmt10 (fst kp), fmt10 (snd kp))) (keypoint g t c).
Proof.
  intros ts rows cols size sp ops fmt6 fmt10 Hr Hc Hin Hf Hpos.
  destruct (fresh_run ts rows cols size sp ops Hr Hc Hin Hf) as (g & Hrun & HR & Hnb & Hd & Hts).
  rewrite spec_count_icount in Hpos.
  assert (Hd1 : g_detected g = true)
    by (rewrite Hd, Hnb; destruct (Z.eqb_spec (icount rows cols (latest (rev ops))) 0); [lia|reflexivity]).
  destruct HR as (R1 & R2 & R3 & R4 & R5 & R6).
  assert (Hcnt : countb flag (g_data g) = icount rows cols (latest (rev ops))).
  { rewrite R6. unfold tab. rewrite countb_map. unfold icount. apply countb_ext.
    intros i _. apply flag_frow. }
  assert (Hlen : Z.of_nat (length (g_data g)) = g_rows g * g_cols g * 4).
  { rewrite R6, tab_length, R2, R3. lia. }
  exists g. eexists. split; [exact Hrun|]. split; [apply load_save; auto; lia|].
  cbn. repeat split; try congruence; try lia.
  - unfold has. cbn [g_data]. destruct H as [Ht Hcc].
    rewrite (rd_in _ _ zero_row), (rd_in _ _ zero_row) by (rewrite ?map_length, Hlen, R2, R3; nia).
    cbn. f_equal. change zero_row with (round_row fmt6 fmt10 zero_row) at 1. rewrite map_nth.
    unfold round_row. destruct (flag (nth _ (g_data g) zero_row)) eqn:E; auto.
  - unfold keypoint. cbn [g_data]. destruct H as [Ht Hcc].
    rewrite (rd_in _ _ zero_row), (rd_in _ _ zero_row) by (rewrite ?map_length, Hlen, R2, R3; nia).
    cbn [obind]. change zero_row with (round_row fmt6 fmt10 zero_row) at 1 2. rewrite map_nth.
    unfold round_row. destruct (flag (nth _ (g_data g) zero_row)) eqn:E; auto.
Qed.
Print Assumptions C12_save_load_rounded.

(** Refuted for a grid without detections: nothing is written, the dimensions and the
    timestamp are lost. *)
Theorem C12_undetected_refuted : forall ts rows cols size sp fmt6 fmt10,
  exists g', load default_grid (save fmt6 fmt10 (new_grid ts rows cols size sp)) = (Done, g') /\
             g_ts g' = 0 /\ g_rows g' = 0 /\ g_cols g' = 0.
Proof. intros. eexists. split; [reflexivity|]. repeat split. Qed.
Print Assumptions C12_undetected_refuted.

(** Loading into a grid of a smaller target writes outside its storage. *)
Theorem C12_load_smaller_refuted : forall fmt6 fmt10,
  exists g g', run (new_grid 7 2 2 1 1) [OpAdd 3 0 (1, 2)%R] = (Done, g) /\
    load (new_grid 0 1 1 1 1) (save fmt6 fmt10 g) = (UB, g').
Proof. intros. eexists. eexists. split; [reflexivity|]. reflexivity. Qed.
Print Assumptions C12_load_smaller_refuted.

(** ** C13 *)
Theorem C13_fully_observable : forall ts rows cols size sp ops,
  0 <= rows -> 0 <= cols -> Forall (op_in rows cols) ops -> all_fresh nothing ops ->
  exists g, run (new_grid ts rows cols size sp) ops = (Done, g) /\
    (fully_observable g = true <-> forall t c, corner_in rows cols t c -> latest (rev ops) t c <> None).
Proof.
  intros ts rows cols size sp ops Hr Hc Hin Hf.
  destruct (fresh_run ts rows cols size sp ops Hr Hc Hin Hf) as (g & Hrun & HR & Hnb & _).
  exists g. split; [exact Hrun|]. unfold fully_observable.
  destruct HR as (_ & -> & -> & _). rewrite Z.eqb_eq, Hnb.
  apply icount_full; assumption.
Qed.
Print Assumptions C13_fully_observable.
Example C13_ex : let ops := [OpAdd 0 0 (1, 2)%R; OpAdd 0 1 (1, 2)%R; OpAdd 0 2 (1, 2)%R; OpAdd 0 3 (1, 2)%R] in
  Forall (op_in 1 1) ops /\ all_fresh nothing ops /\ fully_observable (snd (run (new_grid 0 1 1 1 1) ops)) = true.
Proof. cbn. repeat split; repeat constructor; lia. Qed.
Theorem C13_duplicate_adds_refuted :
  exists g, run (new_grid 0 1 1 1 1) (repeat (OpAdd 0 0 (1, 2)%R) 4) = (Done, g) /\
            fully_observable g = true /\ has g 0 1 = Ret false.
Proof.
  exists (snd (run (new_grid 0 1 1 1 1) (repeat (OpAdd 0 0 (1, 2)%R) 4))).
  split; [vm_compute; reflexivity|]. split; vm_compute; reflexivity.
Qed.
Print Assumptions C13_duplicate_adds_refuted.

(** ** C14 *)
(** Both detectors: nothing, or a grid made only of corners of usable tags. *)
Theorem C14_detect_single : forall srt subpix ts rows cols size sp w h tags,
  0 <= rows -> 0 <= cols -> (forall l, Permutation (srt l) l) -> (forall l, length (subpix l) = length l) ->
  wf_tags tags ->
  exists g, detect_single srt subpix rows cols w h (new_grid ts rows cols size sp) tags = (Done, g) /\
    (g = new_grid ts rows cols size sp \/
     (g_detected g = true /\ 4 * (Z.max rows cols + 1) <= g_nb g)) /\
    (forall t c kp, corner_in rows cols t c -> keypoint g t c = Ret kp ->
       exists tg, In tg tags /\ t_id tg = t /\ single_keeps rows cols w h subpix tg c kp) /\
    (NoDup (map t_id tags) -> g <> new_grid ts rows cols size sp ->
       forall t c kp, corner_in rows cols t c ->
         (keypoint g t c = Ret kp <-> exists tg, In tg tags /\ t_id tg = t /\ single_keeps rows cols w h subpix tg c kp)).
Proof.
  intros srt subpix ts rows cols size sp w h tags Hr Hc Hs Hsub Hwf.
  set (g0 := new_grid ts rows cols size sp).
  pose proof (Rep_new rows cols size sp ts) as HR0. fold g0 in HR0.
  assert (Htriv : forall t c kp, corner_in rows cols t c -> keypoint g0 t c = Ret kp -> False).
  { intros t c kp Htc. rewrite (keypoint_Rep _ _ _ _ _ _ _ _ HR0 Htc). discriminate. }
  unfold detect_single.
  destruct (Z.of_nat (length tags) <? Z.max rows cols + 1).
  { exists g0. split; [reflexivity|]. split; [left; reflexivity|]. split; [intros; exfalso; eauto|tauto]. }
  set (l := flat_map (tag_corners_single subpix rows cols w h) (srt tags)).
  destruct (Z.ltb_spec (Z.of_nat (length l)) (4 * (Z.max rows cols + 1))) as [Hlt|Hge].
  { exists g0. split; [reflexivity|]. split; [left; reflexivity|]. split; [intros; exfalso; eauto|tauto]. }
  unfold wf_tags in Hwf. rewrite Forall_forall in Hwf.
  assert (HIn : forall t c kp, In (t, c, kp) l <->
            exists tg, In tg tags /\ t_id tg = t /\ single_keeps rows cols w h subpix tg c kp).
  { intros t c kp. unfold l. rewrite in_flat_map. split.
    - intros (tg & Hx & Hy). pose proof (Permutation_in _ (Hs tags) Hx) as Hx'.
      apply single_In in Hy; [|now apply Hwf]. destruct Hy as [ -> Hy]. exists tg. auto.
    - intros (tg & Hx & <- & Hy). exists tg. split.
      + exact (Permutation_in _ (Permutation_sym (Hs tags)) Hx).
      + apply single_In; [now apply Hwf|]. auto. }
  assert (Hrange : forall t c kp, In (t, c, kp) l -> corner_in rows cols t c).
  { intros t c kp Hx. apply HIn in Hx. destruct Hx as (tg & Htg & <- & (_ & Hid & _) & Hc4 & _).
    destruct (Hwf _ Htg). unfold corner_in. auto. }
  destruct (add_all_Rep rows cols size sp Hc l g0 nothing HR0 Hrange) as (g & E & HR & Hnb & Hd & _).
  exists g. split; [exact E|]. split.
  { right. split; [apply Hd; intros El; rewrite El in Hge; cbn [length Z.of_nat] in Hge; lia|]. rewrite Hnb. change (g_nb g0) with 0. lia. }
  split.
  - intros t c kp Htc. rewrite (keypoint_Rep _ _ _ _ _ _ _ _ HR Htc).
    destruct (content_of l nothing t c) eqn:Em; [|discriminate]. intros Hx. inversion Hx; subst.
    apply content_of_sub in Em. destruct Em as [Em|Em]; [|discriminate]. now apply HIn.
  - intros Hnd _ t c kp Htc. rewrite (keypoint_Rep _ _ _ _ _ _ _ _ HR Htc), <- HIn.
    assert (Hndl : NoDup (map fst l)).
    { apply flat_NoDup.
      - intros tg t' c' k' Hx Hy. apply single_In in Hy; [now destruct Hy|].
        apply Hwf. exact (Permutation_in _ (Hs tags) Hx).
      - intros tg Hx. apply single_NoDup; auto. apply Hwf. exact (Permutation_in _ (Hs tags) Hx).
      - refine (Permutation_NoDup _ Hnd). apply Permutation_map, Permutation_sym, Hs. }
    rewrite <- (content_of_In l Hndl). destruct (content_of l nothing t c); split; intros Hx; inversion Hx; auto.
Qed.
Print Assumptions C14_detect_single.

Theorem C14_detect_worker : forall srt subpix ts rows cols size sp w h tags,
  0 <= rows -> 0 <= cols -> (forall l, Permutation (srt l) l) -> (forall l, length (subpix l) = length l) ->
  wf_tags tags ->
  exists g, detect_worker srt subpix rows cols w h (new_grid ts rows cols size sp) tags = (Done, g) /\
    (g = new_grid ts rows cols size sp \/ (g_detected g = true /\ 16 <= g_nb g)) /\
    (forall t c kp, corner_in rows cols t c -> keypoint g t c = Ret kp ->
       exists tg, In tg tags /\ t_id tg = t /\ worker_keeps rows cols w h subpix tg c kp) /\
    (NoDup (map t_id tags) -> g <> new_grid ts rows cols size sp ->
       forall t c kp, corner_in rows cols t c ->
         (keypoint g t c = Ret kp <-> exists tg, In tg tags /\ t_id tg = t /\ worker_keeps rows cols w h subpix tg c kp)).
Proof.
  intros srt subpix ts rows cols size sp w h tags Hr Hc Hs Hsub Hwf.
  set (g0 := new_grid ts rows cols size sp).
  pose proof (Rep_new rows cols size sp ts) as HR0. fold g0 in HR0.
  assert (Htriv : forall t c kp, corner_in rows cols t c -> keypoint g0 t c = Ret kp -> False).
  { intros t c kp Htc. rewrite (keypoint_Rep _ _ _ _ _ _ _ _ HR0 Htc). discriminate. }
  unfold detect_worker.
  destruct (Z.of_nat (length tags) <? 4).
  { exists g0. split; [reflexivity|]. split; [left; reflexivity|]. split; [intros; exfalso; eauto|tauto]. }
  set (l := flat_map (tag_corners_thread subpix rows cols w h) (srt tags)).
  destruct (Z.ltb_spec (Z.of_nat (length l)) 16) as [Hlt|Hge].
  { exists g0. split; [reflexivity|]. split; [left; reflexivity|]. split; [intros; exfalso; eauto|tauto]. }
  unfold wf_tags in Hwf. rewrite Forall_forall in Hwf.
  assert (HIn : forall t c kp, In (t, c, kp) l <->
            exists tg, In tg tags /\ t_id tg = t /\ worker_keeps rows cols w h subpix tg c kp).
  { intros t c kp. unfold l. rewrite in_flat_map. split.
    - intros (tg & Hx & Hy). pose proof (Permutation_in _ (Hs tags) Hx) as Hx'.
      apply thread_In in Hy; [|exact Hsub|now apply Hwf]. destruct Hy as [ -> Hy]. exists tg. auto.
    - intros (tg & Hx & <- & Hy). exists tg. split.
      + exact (Permutation_in _ (Permutation_sym (Hs tags)) Hx).
      + apply thread_In; [exact Hsub|now apply Hwf|]. auto. }
  assert (Hrange : forall t c kp, In (t, c, kp) l -> corner_in rows cols t c).
  { intros t c kp Hx. apply HIn in Hx. destruct Hx as (tg & Htg & <- & ((_ & Hid & _) & Hc4 & _) & _).
    destruct (Hwf _ Htg). unfold corner_in. auto. }
  destruct (add_all_Rep rows cols size sp Hc l g0 nothing HR0 Hrange) as (g & E & HR & Hnb & Hd & _).
  exists g. split; [exact E|]. split.
  { right. split; [apply Hd; intros El; rewrite El in Hge; cbn [length Z.of_nat] in Hge; lia|]. rewrite Hnb. change (g_nb g0) with 0. lia. }
  split.
  - intros t c kp Htc. rewrite (keypoint_Rep _ _ _ _ _ _ _ _ HR Htc).
    destruct (content_of l nothing t c) eqn:Em; [|discriminate]. intros Hx. inversion Hx; subst.
    apply content_of_sub in Em. destruct Em as [Em|Em]; [|discriminate]. now apply HIn.
  - intros Hnd _ t c kp Htc. rewrite (keypoint_Rep _ _ _ _ _ _ _ _ HR Htc), <- HIn.
    assert (Hndl : NoDup (map fst l)).
    { apply flat_NoDup.
      - intros tg t' c' k' Hx Hy. apply thread_In in Hy; [now destruct Hy|exact Hsub|].
        apply Hwf. exact (Permutation_in _ (Hs tags) Hx).
      - intros tg Hx. apply thread_NoDup; auto. apply Hwf. exact (Permutation_in _ (Hs tags) Hx).
      - refine (Permutation_NoDup _ Hnd). apply Permutation_map, Permutation_sym, Hs. }
    rewrite <- (content_of_In l Hndl). destruct (content_of l nothing t c); split; intros Hx; inversion Hx; auto.
Qed.
Print Assumptions C14_detect_worker.

(** use_v3: ids outside the target are passed on; id = rows*cols writes out of bounds *)
Theorem C14_v3_refuted : forall p0 p1 p2 p3,
  (exists g, detect_v3 (new_grid 0 1 1 1 1) [mkTag 1 true [p0; p1; p2; p3]] = (UB, g)) /\
  (exists g, detect_v3 (new_grid 0 1 1 1 1) [mkTag 2 true [p0; p1; p2; p3]] = (Thrown, g)).
Proof. intros. split; eexists; reflexivity. Qed.
Print Assumptions C14_v3_refuted.

(** ** C15 *)
(** what the worker of an image adds to the fresh grid *)
Definition worker_corners srt subpix rows cols w h (tags : list tag) : list (Z * Z * kp2) :=
  if Z.of_nat (length tags) <? 4 then []
  else let l := flat_map (tag_corners_thread subpix rows cols w h) (srt tags) in
       if Z.of_nat (length l) <? 16 then [] else l.

Theorem C15_schedule_independent : forall srt subpix ts rows cols size sp w h imgs sched res,
  0 <= rows -> 0 <= cols -> (forall l, Permutation (srt l) l) -> (forall l, length (subpix l) = length l) ->
  NoDup (map fst imgs) -> Forall (fun im => wf_tags (snd im)) imgs ->
  let fresh := new_grid ts rows cols size sp in
  detect_many (map (fun im => (fst im, (fresh, worker_corners srt subpix rows cols w h (snd im)))) imgs) sched
    = Some res ->
  forall cam g, lookup cam res = Some g <->
    exists tags, In (cam, tags) imgs /\ g_detected g = true /\
                 detect_worker srt subpix rows cols w h fresh tags = (Done, g).
Proof.
  intros srt subpix ts rows cols size sp w h imgs sched res Hr Hc Hs Hsub Hnd Hwf fresh Hres cam g.
  assert (HR0 : Rep rows cols size sp fresh nothing) by apply Rep_new.
  unfold detect_many in Hres.
  destruct (joined _) eqn:Ej; [|discriminate].
  assert (Hres' := f_equal (fun o => match o with Some x => x | None => [] end) Hres). cbn beta iota in Hres'. clear Hres.
  rewrite (joined_final _ Ej), run_schedule_final in Hres'. rewrite !map_map in Hres'. cbn [fst snd] in Hres'.
  assert (Hfin : forall im, In im imgs ->
    detect_worker srt subpix rows cols w h fresh (snd im) =
      (Done, final (mkThr default_grid (worker_updates fresh (worker_corners srt subpix rows cols w h (snd im)))))).
  { intros im Him. rewrite Forall_forall in Hwf. specialize (Hwf _ Him).
    unfold wf_tags in Hwf. rewrite Forall_forall in Hwf.
    unfold detect_worker, worker_corners, final. cbn [th_todo th_grid worker_updates fold_left].
    destruct (Z.of_nat (length (snd im)) <? 4); [reflexivity|].
    set (l := flat_map _ (srt (snd im))).
    destruct (Z.of_nat (length l) <? 16); [reflexivity|].
    destruct (add_all_Rep rows cols size sp Hc l fresh nothing HR0) as (g' & E & _ & _ & _ & _ & _ & Hf).
    - intros t c kp Hx. unfold l in Hx. apply in_flat_map in Hx. destruct Hx as (tg & Htg & Hx).
      pose proof (Permutation_in _ (Hs _) Htg) as Htg'. destruct (Hwf _ Htg') as [W1 W2].
      apply thread_In in Hx; auto. destruct Hx as ( -> & ((_ & Hid & _) & Hc4 & _) & _).
      unfold corner_in. auto.
    - rewrite E, Hf. reflexivity. }
  rewrite <- Hres', collect_lookup.
  2:{ exact Hnd. }
  2:{ now rewrite !map_length. }
  split.
  - intros [Hin Hdet].
    assert (exists tags, In (cam, tags) imgs /\ g = final (mkThr default_grid (worker_updates fresh (worker_corners srt subpix rows cols w h tags)))) as (tags & H1 & H2).
    { clear - Hin. induction imgs as [|[c0 t0] l IH]; simpl in Hin; [contradiction|].
      destruct Hin as [E|Hin]; [inversion E; subst; exists t0; simpl; auto|].
      destruct (IH Hin) as (tags & H1 & H2). exists tags. simpl; auto. }
    exists tags. split; [exact H1|]. split; [exact Hdet|]. pose proof (Hfin _ H1) as Hx. cbn [snd] in Hx.
    rewrite Hx, H2. reflexivity.
  - intros (tags & H1 & Hdet & Hw). split; [|exact Hdet].
    pose proof (Hfin _ H1) as Hx. cbn [snd] in Hx. rewrite Hx in Hw.
    assert (Eg : g = final (mkThr default_grid (worker_updates fresh (worker_corners srt subpix rows cols w h tags)))) by congruence.
    rewrite Eg. clear - H1. induction imgs as [|[c0 t0] l IH]; simpl in *; [contradiction|].
    destruct H1 as [E|H1]; [inversion E; subst; auto|]. right. apply IH; auto.
Qed.
Print Assumptions C15_schedule_independent.

(** and a schedule that gives every worker enough turns does finish *)
Theorem C15_fair_schedules_finish : forall imgs sched,
  (forall k im, nth_error imgs k = Some im ->
     (S (length (snd (snd im))) <= count_occ Nat.eq_dec sched k)%nat) ->
  exists res, detect_many imgs sched = Some res.
Proof.
  intros imgs sched H. unfold detect_many.
  rewrite run_schedule_joins; [eexists; reflexivity|].
  intros k t Hk. rewrite nth_error_map in Hk. destruct (nth_error imgs k) as [im|] eqn:E; [|discriminate].
  inversion Hk; subst. cbn. rewrite map_length. eapply H; eauto.
Qed.
Print Assumptions C15_fair_schedules_finish.

(** Refuted if "alone" means the single-image detect(): the two entry points use
    different thresholds.  Four clean tags of a 6x6 target: the map version returns
    16 corners, the single-image version nothing. *)
Theorem C15_single_image_differs_refuted :
  let sq := fun x : R => [(x, 100); (x + 10, 100); (x + 10, 110); (x, 110)]%R in
  let tags := [mkTag 0 true (sq 100%R); mkTag 1 true (sq 120%R); mkTag 2 true (sq 140%R); mkTag 3 true (sq 160%R)] in
  let id := fun l : list kp2 => l in
  wf_tags tags /\
  detect_single (fun l => l) id 6 6 752 480 (new_grid 0 6 6 1 1) tags = (Done, new_grid 0 6 6 1 1) /\
  exists g, detect_worker (fun l => l) id 6 6 752 480 (new_grid 0 6 6 1 1) tags = (Done, g) /\ g_nb g = 16.
Proof.
  intros sq tags id. split; [repeat constructor; cbn; lia|]. split; [reflexivity|].
  assert (Hin : forall x, (100 <= x <= 160)%R -> Forall (inside 752 480) (sq x)).
  { intros x Hx. unfold sq. repeat constructor; cbn; lra. }
  assert (Hmf : forall p, moved_far p p = false).
  { intros p. apply moved_far_false.
    replace ((fst p - fst p) * (fst p - fst p) + (snd p - snd p) * (snd p - snd p))%R with 0%R by ring.
    rewrite sqrt_0. apply sqrt_pos. }
  assert (Htc : forall i x, 0 <= i < 4 -> (100 <= x <= 160)%R ->
    tag_corners_thread id 6 6 752 480 (mkTag i true (sq x)) =
      map (fun ip => (i, fst ip, snd ip)) (combine (zrange 4) (sq x))).
  { intros i x Hi Hx. unfold tag_corners_thread.
    rewrite (proj2 (tag_ok_iff 6 6 752 480 (mkTag i true (sq x)))).
    - unfold refined, id, sq. change (zrange 4) with [0; 1; 2; 3]. cbn -[moved_far Rplus]. rewrite !Hmf. reflexivity.
    - split; [reflexivity|]. split; [cbn; lia|]. cbn [t_p]. auto. }
  unfold detect_worker. cbn [length tags Z.of_nat]. simpl (_ <? 4).
  cbn [flat_map tags]. rewrite !Htc by (lia || lra). simpl app.
  set (l := [_; _; _; _; _; _; _; _; _; _; _; _; _; _; _; _]).
  change (Z.of_nat (length l) <? 16) with false.
  exists (snd (add_all (new_grid 0 6 6 1 1) l)). split; vm_compute; reflexivity.
Qed.
Print Assumptions C15_single_image_differs_refuted.
