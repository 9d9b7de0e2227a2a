(** * Sampling, observability, files, guards, geometry *)
From Coq Require Import Reals Lra Sorting.Sorted Permutation.
From Verif Require Import Base AprilGridModel AprilGridSpec AprilGridProofs AprilGridIOModel AprilGridProofs2.
From Coq Require Import ZifyBool ZifyNat.
Ltac Zify.zify_post_hook ::= Z.div_mod_to_equations.
Local Open Scope Z_scope.

Section Dims.
Variables (rows cols : Z) (size sp : R).
Hypothesis Hrows : 0 <= rows.
Hypothesis Hcols : 0 <= cols.
Notation N := (rows * cols * 4).
Notation RepD := (Rep rows cols size sp).

Lemma sample_result g m n rnd fuel r :
  RepD g m -> (forall k, 0 <= rnd k) -> 0 <= n -> g_nb g = icount rows cols m ->
  sample fuel g n rnd (mkSmp [] [] [] []) = Some r ->
  exists L, r = Ret (smp_of cols size sp L) /\ NoDup (map fst L) /\
    (forall t c kp, In (t, c, kp) L -> corner_in rows cols t c /\ m t c = Some kp) /\
    Z.of_nat (length L) = Z.min n (icount rows cols m).
Proof.
  intros HR Hr Hn Hnb Hs. pose proof (icount_nonneg rows cols m) as Hnn.
  destruct (Z.eq_dec (icount rows cols m) 0) as [E|E].
  - unfold sample in Hs. rewrite Hnb, E in Hs. simpl in Hs. inversion Hs; subst.
    exists []. repeat split; try constructor; simpl; try contradiction; try lia.
  - destruct (sample_SRes rows cols size sp g m n rnd fuel HR Hr) as [H|H]; try lia.
    + destruct H as (L & H1 & H2 & H3 & H4). rewrite Hs in H4. inversion H4; subst.
      exists L. split; [reflexivity|]. split; [exact H1|]. split; [exact H2|]. lia.
    + destruct H as [H _]. congruence.
Qed.

Lemma sample_stops g m n rnd K D :
  RepD g m -> (forall k, 0 <= rnd k) -> 0 <= n -> g_nb g = icount rows cols m ->
  NoDup D -> Z.of_nat (length D) = Z.min n (icount rows cols m) ->
  (forall t c, In (t, c) D -> m t c <> None /\
     exists k, (k < K)%nat /\ draw (visible_tags rows cols m) rnd k = (t, c)) ->
  sample (S K) g n rnd (mkSmp [] [] [] []) <> None.
Proof.
  intros HR Hr Hn Hnb Hnd HlD HD Hs. pose proof (icount_nonneg rows cols m) as Hnn.
  destruct (Z.eq_dec (icount rows cols m) 0) as [E|E].
  - unfold sample in Hs. rewrite Hnb, E in Hs. simpl in Hs. discriminate.
  - destruct (sample_SRes rows cols size sp g m n rnd (S K) HR Hr) as [H|H]; try lia.
    + destruct H as (L & H1 & H2 & H3 & H4). congruence.
    + destruct H as [_ [H|(seen & L & (I1 & I2 & I3) & H2 & H3)]]; [discriminate|].
      assert (length D <= length (map fst L))%nat.
      { apply NoDup_incl_length; auto. intros [t c] Hx.
        destruct (HD _ _ Hx) as (Hm & k & Hk & Hdr).
        destruct (m t c) as [kp|] eqn:Em; [|congruence].
        apply in_map_iff. exists (t, c, kp). split; auto. apply I3; auto.
        rewrite <- Hdr. apply H2. lia. }
      rewrite map_length in H. lia.
Qed.

Lemma sample_diverges g m n rnd fuel :
  RepD g m -> (forall k, 0 <= rnd k) -> 0 < icount rows cols m ->
  icount rows cols m < g_nb g -> icount rows cols m < n ->
  sample fuel g n rnd (mkSmp [] [] [] []) = None.
Proof.
  intros HR Hr Hc Hnb Hn.
  destruct (sample_SRes rows cols size sp g m n rnd fuel HR Hr) as [H|H]; try lia.
  - destruct H as (L & H1 & H2 & H3 & H4). exfalso.
    assert (Z.of_nat (length (map fst L)) <= icount rows cols m) as Hle.
    { apply distinct_le_icount; auto. intros t c Hx. apply in_map_iff in Hx.
      destruct Hx as ([[t' c'] kp] & E & Hx). cbn in E. inversion E; subst.
      destruct (H2 _ _ _ Hx). split; auto. congruence. }
    rewrite map_length in Hle. lia.
  - now destruct H.
Qed.

Lemma icount_full m : icount rows cols m = N <-> forall t c, corner_in rows cols t c -> m t c <> None.
Proof.
  assert (Z.of_nat (length (zrange N)) = N) as HN by (rewrite zrange_length; lia).
  unfold icount. rewrite <- HN at 2. rewrite countb_all, forallb_forall. split.
  - intros H t c Hin. destruct (corner_index rows cols t c Hin) as (Hi & Hq & Hm).
    specialize (H (t * 4 + c)). rewrite zrange_In in H. specialize (H Hi).
    unfold ipresent, present in H. cbn in H. rewrite Hq, Hm in H. destruct (m t c); congruence.
  - intros H i Hi. apply zrange_In in Hi. unfold ipresent, present. cbn.
    specialize (H (i / 4) (i mod 4)). destruct (m (i / 4) (i mod 4)); auto.
    exfalso. apply H; auto. unfold corner_in. lia.
Qed.

(** ** files *)
Definition round_row (fmt6 fmt10 : R -> R) (r : row) : row :=
  if flag r then
    mkRow true (fmt10 (fst (rkp r)), fmt10 (snd (rkp r)))
          (fmt6 (fst (fst (robj r))), fmt6 (snd (fst (robj r))), fmt6 (snd (robj r)))
  else zero_row.

Lemma upd_app_mid {A} (l1 : list A) x l2 a : upd (l1 ++ x :: l2) (length l1) a = l1 ++ a :: l2.
Proof. induction l1; simpl; congruence. Qed.

Lemma load_rows_gen fmt6 fmt10 g d : forall pre nb,
  Z.of_nat (length pre) + Z.of_nat (length d) > 0 ->
  load_lines (mkGrid false (g_ts g) (g_rows g) (g_cols g) (fmt6 (g_size g)) (fmt6 (g_spacing g))
                true nb (pre ++ repeat zero_row (length d)))
             (save_rows fmt6 fmt10 g (Z.of_nat (length pre)) d) =
  (Done, mkGrid true (g_ts g) (g_rows g) (g_cols g) (fmt6 (g_size g)) (fmt6 (g_spacing g))
                true (nb + countb flag d) (pre ++ map (round_row fmt6 fmt10) d)).
Proof.
  induction d as [|r d IH]; intros pre nb Hpos; simpl save_rows.
  - simpl. rewrite Z.add_0_r, app_nil_r. reflexivity.
  - assert (Hr : Z.of_nat (length pre) + 1 = Z.of_nat (length (pre ++ [round_row fmt6 fmt10 r])))
      by (rewrite app_length; simpl; lia).
    rewrite Hr.
    assert (Happ : forall rest, pre ++ round_row fmt6 fmt10 r :: rest = (pre ++ [round_row fmt6 fmt10 r]) ++ rest)
      by (intros; now rewrite <- app_assoc).
    simpl map. simpl countb. rewrite (Happ (map (round_row fmt6 fmt10) d)).
    destruct (flag r) eqn:Ef; simpl app.
    + cbn [load_lines]. unfold load_line. cbn [g_data g_init g_detected g_nb l_rows l_cols l_ts l_size l_spacing l_tag l_corner l_kp l_p save_line].
      assert (Hd0 : (match pre ++ zero_row :: repeat zero_row (length d) with
                     | [] => repeat zero_row (Z.to_nat (g_rows g * g_cols g * 4))
                     | d0 => d0 end) = pre ++ zero_row :: repeat zero_row (length d)) by (destruct pre; reflexivity).
      simpl repeat. rewrite Hd0.
      replace (Z.quot (Z.of_nat (length pre)) 4 * 4 + Z.rem (Z.of_nat (length pre)) 4)
        with (Z.of_nat (length pre)) by (rewrite Z.quot_div_nonneg, Z.rem_mod_nonneg by lia; lia).
      unfold wr. rewrite app_length. simpl length.
      replace ((0 <=? Z.of_nat (length pre)) && (Z.of_nat (length pre) <? Z.of_nat (length pre + S (length (repeat zero_row (length d)))))) with true by lia.
      rewrite Nat2Z.id, upd_app_mid. cbn [seq_st].
      assert (Hrr : mkRow true (fmt10 (fst (rkp r)), fmt10 (snd (rkp r)))
          (fmt6 (fst (fst (robj r))), fmt6 (snd (fst (robj r))), fmt6 (snd (robj r))) = round_row fmt6 fmt10 r)
        by (unfold round_row; now rewrite Ef).
      rewrite Hrr, (Happ (repeat zero_row (length d))), IH by (rewrite app_length; simpl length; lia).
      replace (nb + 1 + countb flag d) with (nb + (1 + countb flag d)) by lia. reflexivity.
    + simpl repeat. assert (Hz : zero_row = round_row fmt6 fmt10 r) by (unfold round_row; now rewrite Ef).
      rewrite Hz at 1. rewrite (Happ (repeat zero_row (length d))), IH by (rewrite app_length; simpl length; lia). reflexivity.
Qed.

Lemma save_rows_dims fmt6 fmt10 g d : forall i l rest, save_rows fmt6 fmt10 g i d = l :: rest ->
  l_ts l = g_ts g /\ l_rows l = g_rows g /\ l_cols l = g_cols g /\
  l_size l = fmt6 (g_size g) /\ l_spacing l = fmt6 (g_spacing g).
Proof.
  induction d as [|r d IH]; simpl; intros i l rest H; [discriminate|].
  destruct (flag r); simpl in H; eauto. inversion H; subst. simpl. auto.
Qed.
Lemma save_rows_nil fmt6 fmt10 g d : forall i, save_rows fmt6 fmt10 g i d = [] -> countb flag d = 0.
Proof.
  induction d as [|r d IH]; simpl; intros i H; auto.
  destruct (flag r); simpl in H; [discriminate|]. now rewrite (IH _ H).
Qed.

(** loading into a default constructed grid *)
Lemma load_save fmt6 fmt10 g :
  g_detected g = true -> 0 < countb flag (g_data g) ->
  Z.of_nat (length (g_data g)) = g_rows g * g_cols g * 4 ->
  load default_grid (save fmt6 fmt10 g) =
  (Done, mkGrid true (g_ts g) (g_rows g) (g_cols g) (fmt6 (g_size g)) (fmt6 (g_spacing g))
                true (countb flag (g_data g)) (map (round_row fmt6 fmt10) (g_data g))).
Proof.
  intros Hdet Hc Hlen. unfold save. rewrite Hdet.
  assert (HdN : repeat zero_row (Z.to_nat (g_rows g * g_cols g * 4)) = repeat zero_row (length (g_data g)))
    by (f_equal; lia).
  assert (Hlp : (0 < length (g_data g))%nat) by (destruct (g_data g); simpl in *; lia).
  pose proof (load_rows_gen fmt6 fmt10 g (g_data g) [] 0 ltac:(simpl; lia)) as Hgen.
  simpl length in Hgen. simpl app in Hgen. rewrite Z.add_0_l in Hgen. simpl Z.of_nat in Hgen at 1.
  destruct (save_rows fmt6 fmt10 g 0 (g_data g)) as [|l rest] eqn:E.
  { apply save_rows_nil in E. lia. }
  destruct (save_rows_dims _ _ _ _ _ _ _ E) as (E1 & E2 & E3 & E4 & E5).
  unfold load, clear, default_grid. cbn [g_data length repeat set_data set_nb set_detected].
  cbn [load_lines] in Hgen |- *. unfold load_line in Hgen |- *.
  cbn [g_data g_init g_detected g_nb set_data set_nb set_detected g_ts g_rows g_cols g_size g_spacing] in Hgen |- *.
  rewrite E1, E2, E3, E4, E5, HdN in Hgen |- *.
  replace (match repeat zero_row (length (g_data g)) with
           | [] => repeat zero_row (length (g_data g))
           | r0 :: l0 => r0 :: l0 end) with (repeat zero_row (length (g_data g))) in Hgen
    by (destruct (g_data g); reflexivity).
  destruct (wr _ _ _) eqn:Ew; [exact Hgen| |]; cbn [seq_st] in Hgen; discriminate.
Qed.

Lemma load_save_exact fmt6 fmt10 g m :
  RepD g m -> g_nb g = icount rows cols m -> 0 < icount rows cols m -> g_detected g = true ->
  fmt6 size = size -> fmt6 sp = sp ->
  (forall t c kp, corner_in rows cols t c -> m t c = Some kp ->
     fmt10 (fst kp) = fst kp /\ fmt10 (snd kp) = snd kp) ->
  (forall t c, corner_in rows cols t c ->
     let p := corner_point cols size sp t c in
     fmt6 (fst (fst p)) = fst (fst p) /\ fmt6 (snd (fst p)) = snd (fst p) /\ fmt6 (snd p) = snd p) ->
  load default_grid (save fmt6 fmt10 g) = (Done, g).
Proof.
  intros HR Hnb Hpos Hdet F1 F2 F3 F4.
  destruct HR as (R1 & R2 & R3 & R4 & R5 & R6).
  assert (Hcnt : countb flag (g_data g) = icount rows cols m).
  { rewrite R6. unfold tab. rewrite countb_map. unfold icount. apply countb_ext.
    intros i _. apply flag_frow. }
  assert (Hlen : Z.of_nat (length (g_data g)) = g_rows g * g_cols g * 4).
  { rewrite R6, tab_length, R2, R3. lia. }
  rewrite load_save by (auto; lia).
  rewrite R4, R5, F1, F2, R2, R3, Hcnt, <- Hnb.
  assert (Hmap : map (round_row fmt6 fmt10) (g_data g) = g_data g).
  { rewrite R6. unfold tab. rewrite map_map. apply map_ext_in. intros i Hi. apply zrange_In in Hi.
    unfold round_row, frow.
    assert (Hci : corner_in rows cols (i / 4) (i mod 4)) by (unfold corner_in; lia).
    destruct (m (i / 4) (i mod 4)) as [kp|] eqn:Em; simpl flag; [|reflexivity].
    cbn [rkp robj]. destruct (F3 _ _ _ Hci Em) as [-> ->].
    destruct (F4 _ _ Hci) as (-> & -> & ->). destruct kp as [a b].
    destruct (corner_point cols size sp (i / 4) (i mod 4)) as [[x y] z]. reflexivity. }
  rewrite Hmap. f_equal. destruct g; cbn in *. congruence.
Qed.

(** ** geometry *)
Lemma lattice_inj (p : R) (i j : Z) (b b' : bool) : (0 < size)%R -> (size < p)%R ->
  (IZR i * p + (if b then size else 0) = IZR j * p + (if b' then size else 0))%R -> i = j /\ b = b'.
Proof.
  clear - size. intros Hs Hp E.
  assert (i = j) as ->.
  { destruct (Z.lt_trichotomy i j) as [Hlt|[He|Hlt]]; auto; exfalso.
    - assert (IZR i + 1 <= IZR j)%R by (rewrite <- plus_IZR; apply IZR_le; lia).
      destruct b, b'; nra.
    - assert (IZR j + 1 <= IZR i)%R by (rewrite <- plus_IZR; apply IZR_le; lia).
      destruct b, b'; nra. }
  split; auto. destruct b, b'; auto; lra.
Qed.

Lemma corner_point_inj t c t' c' : (0 < size)%R -> (0 < sp)%R ->
  corner_in rows cols t c -> corner_in rows cols t' c' ->
  corner_point cols size sp t c = corner_point cols size sp t' c' -> t = t' /\ c = c'.
Proof.
  intros Hs Hsp [Ht Hc] [Ht' Hc'] H. unfold corner_point in H. inversion H as [[Hx Hy]]. clear H.
  assert (Hp : (size < size * (1 + sp))%R) by nra.
  destruct (lattice_inj _ _ _ _ _ Hs Hp Hx) as [E1 B1].
  destruct (lattice_inj _ _ _ _ _ Hs Hp Hy) as [E2 B2].
  assert (Hcp : 0 < cols) by nia.
  split.
  - rewrite (Z.div_mod t cols), (Z.div_mod t' cols) by lia. now rewrite E1, E2.
  - clear - Hc Hc' B1 B2.
    assert (Hc4 : c = 0 \/ c = 1 \/ c = 2 \/ c = 3) by lia.
    assert (Hc4' : c' = 0 \/ c' = 1 \/ c' = 2 \/ c' = 3) by lia.
    destruct Hc4 as [ -> |[ -> |[ -> | -> ]]]; destruct Hc4' as [ -> |[ -> |[ -> | -> ]]]; auto; discriminate.
Qed.

Lemma div_lt_rows t : 0 <= t < rows * cols -> 0 <= t / cols < rows /\ 0 <= t mod cols < cols.
Proof.
  intros Ht. assert (0 < cols) by nia. split.
  - split; [apply Z.div_pos; lia|]. apply Z.div_lt_upper_bound; nia.
  - apply Z.mod_pos_bound. lia.
Qed.

Lemma corner_point_box g t c : g_rows g = rows -> g_cols g = cols -> g_size g = size -> g_spacing g = sp ->
  (0 < size)%R -> (0 <= sp)%R -> corner_in rows cols t c ->
  let p := corner_point cols size sp t c in
  (0 <= fst (fst p) <= 2 * fst (center g))%R /\ (0 <= snd (fst p) <= 2 * snd (center g))%R.
Proof.
  intros G1 G2 G3 G4 Hs Hsp [Ht Hc]. unfold corner_point, center. cbn [fst snd].
  rewrite G1, G2, G3, G4.
  destruct (div_lt_rows t Ht) as [Hi Hj].
  set (i := t / cols) in *. set (j := t mod cols) in *.
  assert (Hi0 : (0 <= IZR i)%R) by (apply IZR_le; lia).
  assert (Hj0 : (0 <= IZR j)%R) by (apply IZR_le; lia).
  assert (Hi1 : (IZR i + 1 <= IZR rows)%R) by (rewrite <- plus_IZR; apply IZR_le; lia).
  assert (Hj1 : (IZR j + 1 <= IZR cols)%R) by (rewrite <- plus_IZR; apply IZR_le; lia).
  assert (Hb : forall b : bool, (0 <= (if b then size else 0) <= size)%R) by (intros []; lra).
  pose proof (Hb ((c =? 1) || (c =? 2))%bool) as B1. pose proof (Hb ((c =? 2) || (c =? 3))%bool) as B2.
  set (dx := (if (c =? 1) || (c =? 2) then size else 0)%R) in *.
  set (dy := (if (c =? 2) || (c =? 3) then size else 0)%R) in *.
  assert (P0 : (0 < size * (1 + sp))%R) by nra.
  assert (A1 : (IZR i * (size * (1 + sp)) <= (IZR rows - 1) * (size * (1 + sp)))%R)
    by (apply Rmult_le_compat_r; lra).
  assert (A2 : (IZR j * (size * (1 + sp)) <= (IZR cols - 1) * (size * (1 + sp)))%R)
    by (apply Rmult_le_compat_r; lra).
  assert (A3 : (0 <= IZR i * (size * (1 + sp)))%R) by (apply Rmult_le_pos; lra).
  assert (A4 : (0 <= IZR j * (size * (1 + sp)))%R) by (apply Rmult_le_pos; lra).
  repeat split; lra.
Qed.

Lemma corner_point_extremes g : g_rows g = rows -> g_cols g = cols -> g_size g = size -> g_spacing g = sp ->
  0 < rows -> 0 < cols ->
  corner_point cols size sp 0 0 = (0%R, 0%R, 0%R) /\
  corner_in rows cols (rows * cols - 1) 2 /\
  corner_point cols size sp (rows * cols - 1) 2 =
    ((2 * fst (center g))%R, (2 * snd (center g))%R, 0%R).
Proof.
  intros G1 G2 G3 G4 Hr Hc. unfold corner_point, center. cbn [fst snd].
  rewrite G1, G2, G3, G4. split; [|split].
  - rewrite Z.mod_0_l, Z.div_0_l by lia. simpl. f_equal. f_equal; ring.
  - unfold corner_in. nia.
  - replace (rows * cols - 1) with ((cols - 1) + (rows - 1) * cols) by ring.
    rewrite Z.mod_add, Z.div_add by lia.
    rewrite Z.mod_small, Z.div_small by lia. simpl (2 =? 1). simpl (2 =? 2). cbn [orb].
    rewrite Z.add_0_l, !minus_IZR. f_equal. f_equal; field.
Qed.

(** ** guards *)
Lemma object_point_guard g t c : 0 < g_cols g ->
  (t < 0 \/ g_rows g * g_cols g < t \/ c < 0 \/ 3 < c) -> object_point g t c = Throw Fatal.
Proof.
  intros Hc H. unfold object_point, grid_index.
  destruct (t >? g_rows g * g_cols g) eqn:E1; [reflexivity|].
  destruct (t <? 0) eqn:E2; [reflexivity|].
  destruct (g_cols g =? 0) eqn:E3; [lia|]. cbn [obind fst snd].
  destruct c as [|[[q|q|]|[q|q|]|]|q]; try reflexivity; lia.
Qed.

Lemma add_guard g t c kp : 0 < g_cols g ->
  (t < 0 \/ g_rows g * g_cols g < t \/ c < 0 \/ 3 < c) ->
  add g t c kp = (Thrown, set_nb (set_detected g true) (g_nb g + 1)).
Proof.
  intros Hc H. unfold add. rewrite object_point_guard; auto.
Qed.

(** add one past the last tag: accepted by the check, writes outside the storage *)
Lemma add_past_end g m c kp : RepD g m -> 0 < cols -> 0 <= c < 4 ->
  exists p g', object_point g (rows * cols) c = Ret p /\ add g (rows * cols) c kp = (UB, g').
Proof.
  intros (R1 & R2 & R3 & R4 & R5 & R6) Hcp Hc.
  assert (Hop : forall g', g_rows g' = rows -> g_cols g' = cols -> exists p, object_point g' (rows * cols) c = Ret p).
  { intros g' E1 E2. unfold object_point, grid_index. rewrite E1, E2.
    destruct (rows * cols >? rows * cols) eqn:E; [lia|].
    destruct (rows * cols <? 0) eqn:E0; [nia|].
    destruct (cols =? 0) eqn:E3; [lia|]. cbn [obind].
    assert (c = 0 \/ c = 1 \/ c = 2 \/ c = 3) as [ -> |[ -> |[ -> | -> ]]] by lia; eauto. }
  destruct (Hop g R2 R3) as [p Hp]. exists p. unfold add.
  destruct (Hop (set_nb (set_detected g true) (g_nb g + 1)) R2 R3) as [p' ->].
  assert (Hwr : wr (g_data (set_nb (set_detected g true) (g_nb g + 1))) (rows * cols * 4 + c) (mkRow true kp p') = Undef).
  { cbn [g_data set_nb set_detected]. unfold wr. rewrite R6, tab_length.
    replace ((0 <=? N + c) && (N + c <? Z.of_nat (Z.to_nat N))) with false by lia. reflexivity. }
  rewrite Hwr. eauto.
Qed.
End Dims.
