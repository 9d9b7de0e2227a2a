(** * Property theorems C01 - C15 (AprilGrid) *)
From Coq Require Import Reals Lra Sorting.Sorted Permutation.
From Verif Require Import Base AprilGridModel AprilGridSpec AprilGridProofs AprilGridIOModel
  AprilGridProofs2 AprilGridProofs3 AprilGridDetectSpec AprilGridProofs4.
From Coq Require Import ZifyBool ZifyNat.
Local Open Scope Z_scope.

(** ** C01 *)
Theorem C01_grid_is_a_map : forall ts rows cols size sp ops,
  0 <= rows -> 0 <= cols -> Forall (op_in rows cols) ops ->
  exists g, run (new_grid ts rows cols size sp) ops = (Done, g) /\
    forall t c, corner_in rows cols t c ->
      has g t c = Ret (match latest (rev ops) t c with Some _ => true | None => false end) /\
      keypoint g t c = match latest (rev ops) t c with Some kp => Ret kp | None => Throw Fatal end.
Proof.
  intros ts rows cols size sp ops Hr Hc Hin.
  destruct (run_books rows cols size sp Hr Hc ops _ nothing (Rep_new rows cols size sp ts) Hin)
    as (g & Hrun & HR & _).
  exists g. split; [exact Hrun|]. intros t c Htc.
  rewrite (has_Rep _ _ _ _ _ _ _ _ HR Htc), (keypoint_Rep _ _ _ _ _ _ _ _ HR Htc).
  unfold present. cbn [fst snd]. rewrite spec_run_latest. auto.
Qed.
Print Assumptions C01_grid_is_a_map.
Example C01_ex : let h := [OpAdd 5 3 (1, 2)%R; OpAdd 5 0 (3, 4)%R; OpRemove 5 3; OpAdd 5 0 (5, 6)%R; OpRemoveTag 1] in
  Forall (op_in 2 3) h /\ latest (rev h) 5 0 = Some (5, 6)%R /\ latest (rev h) 5 3 = None.
Proof. cbn. repeat split; repeat constructor; lia. Qed.

(** ** C02: refuted as stated; a corner added twice is counted twice *)
Theorem C02_counter_refuted :
  exists ops g r, Forall (op_in 1 1) ops /\ run (new_grid 0 1 1 1 1) ops = (Done, g) /\
    get_measurements g meas_nil = Ret r /\ length (m_tags r) = 1%nat /\ g_nb g = 2.
Proof.
  set (ops := [OpAdd 0 0 (1, 2)%R; OpAdd 0 0 (1, 2)%R]).
  exists ops. eexists. eexists. repeat split; repeat constructor; lia.
Qed.
Print Assumptions C02_counter_refuted.

(** after removing the corner once the grid is empty but still "detected" *)
Theorem C02_detected_flag_refuted :
  exists ops g r, Forall (op_in 1 1) ops /\ run (new_grid 0 1 1 1 1) ops = (Done, g) /\
    get_measurements g meas_nil = Ret r /\ m_tags r = [] /\ g_detected g = true /\ g_nb g = 1.
Proof.
  set (ops := [OpAdd 0 0 (1, 2)%R; OpAdd 0 0 (1, 2)%R; OpRemove 0 0]).
  exists ops. eexists. eexists. repeat split; repeat constructor; lia.
Qed.
Print Assumptions C02_detected_flag_refuted.

(** Histories that never add a corner that is present, on any number of grids, with
    intersections: the counter is exact in every reachable state. *)
Theorem C02_counter_exact_partial : forall tss rows cols size sp ops,
  0 <= rows -> 0 <= cols ->
  Forall (wop_in (length tss) rows cols) ops ->
  wall_fresh (map (fun _ => nothing) tss) ops ->
  exists w, wrun (new_world tss rows cols size sp) ops = Some w /\
    Forall2 (fun g m => g_nb g = spec_count rows cols m /\
                        (spec_count rows cols m <> 0 -> g_detected g = true) /\
                        exists r, get_measurements g meas_nil = Ret r /\
                                  Z.of_nat (length (m_tags r)) = g_nb g)
            w (wspec_run ops (map (fun _ => nothing) tss)).
Proof.
  intros tss rows cols size sp ops Hr Hc Hin Hf.
  destruct (new_world_inv rows cols size sp tss) as [_ H0].
  assert (Hl : length (new_world tss rows cols size sp) = length tss) by apply map_length.
  destruct (wrun_eq rows cols size sp Hr Hc ops _ _ H0) as (w & Hw & HI & _); auto.
  { now rewrite Hl. }
  exists w. split; [exact Hw|]. refine (Forall2_weak _ _ _ _ HI _).
  intros g m (HR & Hnb & Hd). rewrite spec_count_icount. split; [exact Hnb|]. split; [exact Hd|].
  destruct (g_detected g) eqn:E.
  - eexists. split; [apply (get_measurements_Rep rows cols size sp g m meas_nil HR E)|].
    cbn. rewrite map_length, spec_meas_length; auto.
  - exists meas_nil. unfold get_measurements. rewrite E. split; auto. cbn.
    destruct (Z.eq_dec (icount rows cols m) 0) as [E0|E0]; [lia|]. specialize (Hd E0). congruence.
Qed.
Print Assumptions C02_counter_exact_partial.

(** Without intersections the flag is exact as well. *)
Theorem C02_single_grid_partial : forall ts rows cols size sp ops,
  0 <= rows -> 0 <= cols -> Forall (op_in rows cols) ops -> all_fresh nothing ops ->
  exists g, run (new_grid ts rows cols size sp) ops = (Done, g) /\
    g_nb g = spec_count rows cols (spec_run ops nothing) /\
    (g_detected g = true <-> 0 < spec_count rows cols (spec_run ops nothing)).
Proof.
  intros ts rows cols size sp ops Hr Hc Hin Hf.
  destruct (run_books rows cols size sp Hr Hc ops _ nothing (Rep_new rows cols size sp ts) Hin)
    as (g & Hrun & HR & _ & _ & HB).
  destruct (HB Hf (BookEq_new rows cols size sp ts)) as [B1 B2].
  exists g. rewrite spec_count_icount. split; [exact Hrun|]. split; [exact B1|].
  rewrite B2, B1. pose proof (icount_nonneg rows cols (spec_run ops nothing)).
  destruct (Z.eqb_spec (icount rows cols (spec_run ops nothing)) 0); split; intros; try discriminate; try lia; auto.
Qed.
Print Assumptions C02_single_grid_partial.

(** With duplicate adds the counter can only over-count. *)
Theorem C02_counter_never_undercounts : forall tss rows cols size sp ops,
  0 <= rows -> 0 <= cols ->
  Forall (wop_in (length tss) rows cols) ops ->
  exists w, wrun (new_world tss rows cols size sp) ops = Some w /\
    Forall2 (fun g m => spec_count rows cols m <= g_nb g)
            w (wspec_run ops (map (fun _ => nothing) tss)).
Proof.
  intros tss rows cols size sp ops Hr Hc Hin.
  destruct (new_world_inv rows cols size sp tss) as [H0 _].
  assert (Hl : length (new_world tss rows cols size sp) = length tss) by apply map_length.
  destruct (wrun_ge rows cols size sp Hr Hc ops _ _ H0) as (w & Hw & HI & _).
  { now rewrite Hl. }
  exists w. split; [exact Hw|]. refine (Forall2_weak _ _ _ _ HI _).
  intros g m (HR & Hnb). now rewrite spec_count_icount.
Qed.
Print Assumptions C02_counter_never_undercounts.
Example C02_ex : let tss := [0; 0] in
  let h := [WOp 0 (OpAdd 0 1 (1, 2)%R); WOp 1 (OpAdd 0 1 (3, 2)%R); WOp 1 (OpAdd 1 2 (3, 2)%R); WIntersect 0 1;
            WOp 1 (OpAdd 1 2 (3, 2)%R); WIntersectAll] in
  Forall (wop_in (length tss) 1 2) h /\ wall_fresh (map (fun _ => nothing) tss) h.
Proof. cbn. split; repeat constructor; cbn; try lia; auto. Qed.

(** ** C03 *)
Theorem C03_measurements : forall ts rows cols size sp ops,
  0 <= rows -> 0 <= cols -> Forall (op_in rows cols) ops -> 
  exists g, run (new_grid ts rows cols size sp) ops = (Done, g) /\
    let m := latest (rev ops) in
    let l := spec_meas rows cols m in
    (* the list is what it should be: present corners once each, ascending *)
    (forall t c kp, In (t, c, kp) l <-> corner_in rows cols t c /\ m t c = Some kp) /\
    StronglySorted (fun a b => fst (fst a) * 4 + snd (fst a) < fst (fst b) * 4 + snd (fst b)) l /\
    (* and it is what the queries return *)
    keypoints g = Ret (map snd l) /\
    object_points g = Ret (map (fun x => corner_point cols size sp (fst (fst x)) (snd (fst x))) l) /\
    (forall x, In x l -> object_point g (fst (fst x)) (snd (fst x)) =
                         Ret (corner_point cols size sp (fst (fst x)) (snd (fst x)))) /\
    forall a, get_measurements g a =
      if g_detected g then
        Ret (mkMeas (m_tags a ++ map (fun x => fst (fst x)) l)
                    (m_corners a ++ map (fun x => snd (fst x)) l)
                    (m_kps a ++ map snd l)
                    (m_pts a ++ map (fun x => corner_point cols size sp (fst (fst x)) (snd (fst x))) l))
      else Ret a.
Proof.
  intros ts rows cols size sp ops Hr Hc Hin.
  destruct (run_books rows cols size sp Hr Hc ops _ nothing (Rep_new rows cols size sp ts) Hin)
    as (g & Hrun & HR & _).
  assert (HR' : Rep rows cols size sp g (latest (rev ops))).
  { apply (Rep_ext rows cols size sp g _ _ HR). intros. apply spec_run_latest. }
  exists g. split; [exact Hrun|]. cbv zeta.
  assert (Hmem : forall t c kp, In (t, c, kp) (spec_meas rows cols (latest (rev ops))) <->
            corner_in rows cols t c /\ latest (rev ops) t c = Some kp).
  { intros t c kp. unfold spec_meas. rewrite in_flat_map. split.
    - intros ([t' c'] & Hx & Hy). cbn in Hy. destruct (latest (rev ops) t' c') eqn:E; [|contradiction].
      destruct Hy as [Hy|[]]. inversion Hy; subst. apply all_corners_In in Hx. auto.
    - intros (Hx & E). exists (t, c). split; [now apply all_corners_In|]. cbn. rewrite E. simpl; auto. }
  split; [exact Hmem|]. split.
  { unfold spec_meas. rewrite all_corners_rows, flat_map_map. cbn [fst snd].
    pose proof (zrange_sorted (rows * cols * 4)) as S.
    assert (Hpos : forall i, In i (zrange (rows * cols * 4)) -> 0 <= i) by (intros i Hi; apply zrange_In in Hi; lia).
    induction (zrange (rows * cols * 4)) as [|i l IH]; simpl; [constructor|].
    inversion S as [|? ? S' F]; subst.
    assert (IH' := IH S' ltac:(intros; apply Hpos; simpl; auto)).
    destruct (latest (rev ops) (i / 4) (i mod 4)) eqn:E; simpl; auto.
    constructor; auto. rewrite Forall_forall in F |- *. intros [[t c] kp] Hx.
    apply in_flat_map in Hx. destruct Hx as (j & Hj & Hx). specialize (F _ Hj).
    destruct (latest (rev ops) (j / 4) (j mod 4)); [|contradiction]. destruct Hx as [Hx|[]].
    inversion Hx; subst. cbn.
    pose proof (Z.div_mod i 4 ltac:(lia)). pose proof (Z.div_mod j 4 ltac:(lia)). lia. }
  split; [exact (keypoints_Rep rows cols size sp g _ HR')|].
  split; [exact (object_points_Rep rows cols size sp g _ HR')|].
  split.
  { intros [[t c] kp] Hx. apply Hmem in Hx. destruct Hx as [Hx _]. cbn.
    exact (object_point_in rows cols size sp Hc g _ t c HR' Hx). }
  intros a. destruct (g_detected g) eqn:E.
  - exact (get_measurements_Rep rows cols size sp g _ a HR' E).
  - unfold get_measurements. now rewrite E.
Qed.
Print Assumptions C03_measurements.
Example C03_ex : spec_meas 1 2 (latest (rev [OpAdd 1 3 (7, 8)%R; OpAdd 0 2 (1, 2)%R])) =
   [(0, 2, (1, 2)%R); (1, 3, (7, 8)%R)].
Proof. reflexivity. Qed.

(** ** C04 *)
Theorem C04_pairwise_intersect : forall rows cols size sp ts0 ts1 ops0 ops1,
  0 <= rows -> 0 <= cols -> Forall (op_in rows cols) ops0 -> Forall (op_in rows cols) ops1 ->
  exists g0 g1 g0' g1',
    run (new_grid ts0 rows cols size sp) ops0 = (Done, g0) /\
    run (new_grid ts1 rows cols size sp) ops1 = (Done, g1) /\
    intersect2 g0 g1 = Ret (g0', g1') /\
    (let m0 := latest (rev ops0) in
     let m1 := latest (rev ops1) in
     (forall t c, corner_in rows cols t c ->
        keypoint g0' t c = match m0 t c, m1 t c with Some k, Some _ => Ret k | _, _ => Throw Fatal end /\
        keypoint g1' t c = match m0 t c, m1 t c with Some _, Some k => Ret k | _, _ => Throw Fatal end) /\
     g_nb g0 - g_nb g0' = spec_count rows cols m0 - spec_count rows cols (common m0 m1) /\
     g_nb g1 - g_nb g1' = spec_count rows cols m1 - spec_count rows cols (common m0 m1)) /\
    intersect2 g0' g1' = Ret (g0', g1') /\
    intersect2 g1 g0 = Ret (g1', g0').
Proof.
  intros rows cols size sp ts0 ts1 ops0 ops1 Hr Hc H0 H1.
  destruct (run_books rows cols size sp Hr Hc ops0 _ nothing (Rep_new rows cols size sp ts0) H0)
    as (g0 & Hrun0 & HR0 & _).
  destruct (run_books rows cols size sp Hr Hc ops1 _ nothing (Rep_new rows cols size sp ts1) H1)
    as (g1 & Hrun1 & HR1 & _).
  apply (fun H => Rep_ext rows cols size sp g0 _ (latest (rev ops0)) H
           (fun t c _ => spec_run_latest ops0 t c)) in HR0.
  apply (fun H => Rep_ext rows cols size sp g1 _ (latest (rev ops1)) H
           (fun t c _ => spec_run_latest ops1 t c)) in HR1.
  set (m0 := latest (rev ops0)) in *. set (m1 := latest (rev ops1)) in *.
  destruct (intersect2_Rep rows cols size sp g0 m0 g1 m1 HR0 HR1)
    as (a & b & E & Ra & Rb & Ta & Tb & Da & Db & Na & Nb).
  exists g0, g1, a, b. split; [exact Hrun0|]. split; [exact Hrun1|]. split; [exact E|].
  assert (Hsym : icount rows cols (common m1 m0) = icount rows cols (common m0 m1)).
  { apply icount_ext. intros t c _. unfold present, common. cbn. destruct (m1 t c), (m0 t c); auto. }
  assert (Hgeq : forall x y (m : content), Rep rows cols size sp x m -> Rep rows cols size sp y m ->
             g_ts x = g_ts y -> g_detected x = g_detected y -> g_nb x = g_nb y -> x = y).
  { intros x y m (A1&A2&A3&A4&A5&A6) (B1&B2&B3&B4&B5&B6) E1 E2 E3. destruct x, y; cbn in *. congruence. }
  split; [split; [|rewrite !spec_count_icount; split; lia]|split].
  - intros t c Htc.
    rewrite (keypoint_Rep _ _ _ _ _ _ _ _ Ra Htc), (keypoint_Rep _ _ _ _ _ _ _ _ Rb Htc).
    unfold common. destruct (m0 t c), (m1 t c); auto.
  - destruct (intersect2_Rep rows cols size sp a _ b _ Ra Rb)
      as (a' & b' & E' & Ra' & Rb' & Ta' & Tb' & Da' & Db' & Na' & Nb').
    rewrite E'.
    assert (X0 : forall t c, corner_in rows cols t c -> common (common m0 m1) (common m1 m0) t c = common m0 m1 t c)
      by (intros; unfold common; destruct (m0 t c), (m1 t c); auto).
    assert (X1 : forall t c, corner_in rows cols t c -> common (common m1 m0) (common m0 m1) t c = common m1 m0 t c)
      by (intros; unfold common; destruct (m0 t c), (m1 t c); auto).
    assert (Y0 : icount rows cols (common (common m0 m1) (common m1 m0)) = icount rows cols (common m0 m1))
      by (apply icount_ext; intros; unfold present; cbn [fst snd]; now rewrite X0).
    assert (Y1 : icount rows cols (common (common m1 m0) (common m0 m1)) = icount rows cols (common m1 m0))
      by (apply icount_ext; intros; unfold present; cbn [fst snd]; now rewrite X1).
    f_equal. f_equal.
    + apply (Hgeq _ _ (common m0 m1)); auto; try lia. apply (Rep_ext _ _ _ _ _ _ _ Ra' X0).
    + apply (Hgeq _ _ (common m1 m0)); auto; try lia. apply (Rep_ext _ _ _ _ _ _ _ Rb' X1).
  - destruct (intersect2_Rep rows cols size sp g1 m1 g0 m0 HR1 HR0)
      as (a' & b' & E' & Ra' & Rb' & Ta' & Tb' & Da' & Db' & Na' & Nb').
    rewrite E'. f_equal. f_equal.
    + apply (Hgeq _ _ (common m1 m0)); auto; try congruence; lia.
    + apply (Hgeq _ _ (common m0 m1)); auto; try congruence; lia.
Qed.
Print Assumptions C04_pairwise_intersect.

(** ** C05 *)
Theorem C05_many_way_intersect : forall rows cols size sp (hs : list (Z * list op)),
  0 <= rows -> 0 <= cols -> hs <> [] -> Forall (fun h => Forall (op_in rows cols) (snd h)) hs ->
  exists gs gs',
    Forall2 (fun h g => run (new_grid (fst h) rows cols size sp) (snd h) = (Done, g)) hs gs /\
    intersect_many gs = Ret gs' /\ length gs' = length gs /\
    forall k h g, nth_error hs k = Some h -> nth_error gs k = Some g ->
      exists g', nth_error gs' k = Some g' /\
        (forall t c, corner_in rows cols t c ->
           keypoint g' t c =
             if forallb (fun h' => match latest (rev (snd h')) t c with Some _ => true | None => false end) hs
             then keypoint g t c else Throw Fatal) /\
        g_nb g - g_nb g' =
          spec_count rows cols (latest (rev (snd h))) -
          spec_count rows cols (common_all (map (fun h' => latest (rev (snd h'))) hs) (latest (rev (snd h)))).
Proof.
  intros rows cols size sp hs Hr Hc Hne Hin.
  set (ms := map (fun h' => latest (rev (snd h'))) hs).
  assert (exists gs, Forall2 (fun h g => run (new_grid (fst h) rows cols size sp) (snd h) = (Done, g)) hs gs /\
                     Forall2 (fun g m => Rep rows cols size sp g m) gs ms) as (gs & Hruns & HRs).
  { unfold ms. clear Hne ms. induction hs as [|[ts ops] hs IH].
    - exists []. split; constructor.
    - inversion Hin as [|? ? Ho Hos]; subst. destruct (IH Hos) as (gs & G1 & G2). cbn in Ho.
      destruct (run_books rows cols size sp Hr Hc ops _ nothing (Rep_new rows cols size sp ts) Ho) as (g & Hrun & HR & _).
      exists (g :: gs). split; constructor; auto.
      apply (Rep_ext rows cols size sp g _ _ HR). intros. apply spec_run_latest. }
  assert (Hgne : gs <> []) by (destruct Hruns; congruence).
  destruct (intersect_many_Rep rows cols size sp gs ms HRs Hgne) as (gs' & E & Hl & Hk).
  exists gs, gs'. split; [exact Hruns|]. split; [exact E|]. split; [exact Hl|].
  intros k h g Hh Hg.
  assert (Hm : nth_error ms k = Some (latest (rev (snd h)))) by (unfold ms; now rewrite nth_error_map, Hh).
  destruct (Hk k g _ Hg Hm) as (g' & Hg' & HR' & _ & _ & Hnb).
  exists g'. split; [exact Hg'|]. split.
  - intros t c Htc. rewrite (keypoint_Rep _ _ _ _ _ _ _ _ HR' Htc).
    destruct (Forall2_nth _ _ _ _ _ HRs Hg) as (m & Hm' & HR). pose proof (eq_trans (eq_sym Hm') Hm) as Hmm. inversion Hmm; subst m.
    rewrite (keypoint_Rep _ _ _ _ _ _ _ _ HR Htc). unfold common_all.
    replace (forallb (fun m' => present m' (t, c)) ms) with
      (forallb (fun h' => match latest (rev (snd h')) t c with Some _ => true | None => false end) hs).
    + destruct (forallb _ hs); reflexivity.
    + unfold ms. clear. induction hs; simpl; auto. now rewrite IHhs.
  - rewrite !spec_count_icount. fold ms. lia.
Qed.
Print Assumptions C05_many_way_intersect.
Example C05_ex : let hs := [(1, [OpAdd 0 0 (1, 2)%R; OpAdd 0 1 (1, 2)%R]); (2, [OpAdd 0 1 (5, 5)%R]); (3, [OpAdd 0 1 (0, 0)%R; OpAdd 1 1 (0, 0)%R])] in
  Forall (fun h => Forall (op_in 1 2) (snd h)) hs /\
  forallb (fun h' => match latest (rev (snd h')) 0 1 with Some _ => true | None => false end) hs = true /\
  forallb (fun h' => match latest (rev (snd h')) 0 0 with Some _ => true | None => false end) hs = false.
Proof. cbn. repeat split; repeat constructor; cbn; lia. Qed.

(** ** C06: refuted *)
Theorem C06_intersect_flag_refuted :
  exists g0 g1 g0' g1',
    run (new_grid 0 1 1 1 1) [OpAdd 0 0 (1, 2)%R] = (Done, g0) /\
    run (new_grid 0 1 1 1 1) [OpAdd 0 1 (3, 4)%R] = (Done, g1) /\
    intersect2 g0 g1 = Ret (g0', g1') /\
    (forall c, In c [0; 1; 2; 3] -> has g0' 0 c = Ret false) /\ g_nb g0' = 0 /\ g_detected g0' = true.
Proof.
  do 4 eexists. split; [reflexivity|]. split; [reflexivity|]. split; [reflexivity|].
  split; [|split; reflexivity]. simpl. intros c [<-|[<-|[<-|[<-|[]]]]]; reflexivity.
Qed.
Print Assumptions C06_intersect_flag_refuted.

(** What does hold: as long as a corner remains, the flag stays set. *)
Theorem C06_intersect_flag_partial : forall tss rows cols size sp ops,
  0 <= rows -> 0 <= cols -> Forall (wop_in (length tss) rows cols) ops ->
  wall_fresh (map (fun _ => nothing) tss) ops ->
  exists w, wrun (new_world tss rows cols size sp) ops = Some w /\
    Forall2 (fun g m => (exists t c, corner_in rows cols t c /\ m t c <> None) -> g_detected g = true)
            w (wspec_run ops (map (fun _ => nothing) tss)).
Proof.
  intros tss rows cols size sp ops Hr Hc Hin Hf.
  destruct (C02_counter_exact_partial tss rows cols size sp ops Hr Hc Hin Hf) as (w & Hw & H).
  exists w. split; [exact Hw|]. refine (Forall2_weak _ _ _ _ H _).
  intros g m (_ & Hd & _) (t & c & Htc & Hm). apply Hd. rewrite spec_count_icount.
  pose proof (icount_pos rows cols m t c Htc Hm). lia.
Qed.
Print Assumptions C06_intersect_flag_partial.

(** ** C07 *)
Theorem C07_common_measurements : forall rows cols size sp tsi tsj opsi opsj,
  0 <= rows -> 0 <= cols -> Forall (op_in rows cols) opsi -> Forall (op_in rows cols) opsj ->
  exists gi gj,
    run (new_grid tsi rows cols size sp) opsi = (Done, gi) /\
    run (new_grid tsj rows cols size sp) opsj = (Done, gj) /\
    let l := spec_common rows cols (latest (rev opsi)) (latest (rev opsj)) in
    (forall t c ki kj, In (t, c, ki, kj) l <->
       corner_in rows cols t c /\ latest (rev opsi) t c = Some ki /\ latest (rev opsj) t c = Some kj) /\
    forall a, common_measurements gi gj a =
      if g_detected gi && g_detected gj then
        Ret (mkCMeas (c_tags a ++ map (fun x => fst (fst (fst x))) l)
                     (c_corners a ++ map (fun x => snd (fst (fst x))) l)
                     (c_kps_i a ++ map (fun x => snd (fst x)) l)
                     (c_kps_j a ++ map snd l)
                     (c_pts a ++ map (fun x => corner_point cols size sp (fst (fst (fst x))) (snd (fst (fst x)))) l))
      else Ret a.
Proof.
  intros rows cols size sp tsi tsj opsi opsj Hr Hc H0 H1.
  destruct (run_books rows cols size sp Hr Hc opsi _ nothing (Rep_new rows cols size sp tsi) H0)
    as (g0 & Hrun0 & HR0 & _).
  destruct (run_books rows cols size sp Hr Hc opsj _ nothing (Rep_new rows cols size sp tsj) H1)
    as (g1 & Hrun1 & HR1 & _).
  apply (fun H => Rep_ext rows cols size sp g0 _ (latest (rev opsi)) H
           (fun t c _ => spec_run_latest opsi t c)) in HR0.
  apply (fun H => Rep_ext rows cols size sp g1 _ (latest (rev opsj)) H
           (fun t c _ => spec_run_latest opsj t c)) in HR1.
  exists g0, g1. split; [exact Hrun0|]. split; [exact Hrun1|]. cbv zeta. split.
  - intros t c ki kj. unfold spec_common. rewrite in_flat_map. split.
    + intros ([t' c'] & Hx & Hy). cbn in Hy.
      destruct (latest (rev opsi) t' c') eqn:Ei; [|contradiction].
      destruct (latest (rev opsj) t' c') eqn:Ej; [|contradiction].
      destruct Hy as [Hy|[]]. inversion Hy; subst. apply all_corners_In in Hx. auto.
    + intros (Hx & Ei & Ej). exists (t, c). split; [now apply all_corners_In|].
      cbn. rewrite Ei, Ej. simpl; auto.
  - intros a. destruct (g_detected g0) eqn:E0, (g_detected g1) eqn:E1; cbn [andb].
    + exact (common_measurements_Rep rows cols size sp Hr Hc g0 _ g1 _ a HR0 HR1 E0 E1).
    + unfold common_measurements. now rewrite E0, E1.
    + unfold common_measurements. now rewrite E0, E1.
    + unfold common_measurements. now rewrite E0, E1.
Qed.
Print Assumptions C07_common_measurements.
Example C07_ex : spec_common 1 2 (latest [OpAdd 1 3 (7, 8)%R; OpAdd 0 2 (1, 2)%R]) (latest [OpAdd 0 2 (9, 9)%R])
  = [(0, 2, (1, 2)%R, (9, 9)%R)].
Proof. reflexivity. Qed.

(** ** C08 *)
Theorem C08_tag_ids : forall ts rows cols size sp ops,
  0 <= rows -> 0 <= cols -> Forall (op_in rows cols) ops ->
  exists g l, run (new_grid ts rows cols size sp) ops = (Done, g) /\
    tag_ids g = Ret l /\ StronglySorted Z.lt l /\
    forall t, In t l <-> exists c, corner_in rows cols t c /\ latest (rev ops) t c <> None.
Proof.
  intros ts rows cols size sp ops Hr Hc Hin.
  destruct (run_books rows cols size sp Hr Hc ops _ nothing (Rep_new rows cols size sp ts) Hin)
    as (g & Hrun & HR & _).
  destruct (tag_ids_Rep rows cols size sp g _ HR) as (l & E & S & H).
  exists g, l. split; [exact Hrun|]. split; [exact E|]. split; [exact S|].
  intros t. rewrite H. split; intros (c & Hc' & Hm); exists c; rewrite spec_run_latest in *; auto.
Qed.
Print Assumptions C08_tag_ids.
