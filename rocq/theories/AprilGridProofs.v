(** * Proofs about the AprilGrid model. *)
From Coq Require Import Reals Lra Sorted.
From Verif Require Import Base AprilGridModel AprilGridSpec.
From Coq Require Import ZifyBool ZifyNat.
Local Open Scope Z_scope.
Ltac Zify.zify_post_hook ::= Z.div_mod_to_equations.

(** ** Tables *)
Definition tab {A} (N : Z) (f : Z -> A) : list A := map f (zrange N).

Lemma zrange_length N : length (zrange N) = Z.to_nat N.
Proof. unfold zrange. now rewrite map_length, seq_length. Qed.
Lemma tab_length {A} N (f : Z -> A) : length (tab N f) = Z.to_nat N.
Proof. unfold tab. now rewrite map_length, zrange_length. Qed.

Lemma nth_error_zrange N i : 0 <= i < N -> nth_error (zrange N) (Z.to_nat i) = Some i.
Proof.
  intros H. unfold zrange. rewrite nth_error_map, (nth_error_nth' _ 0%nat) by (rewrite seq_length; lia).
  rewrite seq_nth by lia. simpl. f_equal. lia.
Qed.
Lemma nth_error_tab {A} N (f : Z -> A) i :
  0 <= i < N -> nth_error (tab N f) (Z.to_nat i) = Some (f i).
Proof. intros H. unfold tab. rewrite nth_error_map, nth_error_zrange by lia. reflexivity. Qed.

Lemma rd_tab {A} N (f : Z -> A) i : 0 <= i < N -> rd (tab N f) i = Ret (f i).
Proof. intros H. unfold rd. destruct (Z.leb_spec 0 i); [|lia]. now rewrite nth_error_tab. Qed.

Lemma tab_ext {A} N (f g : Z -> A) :
  (forall i, 0 <= i < N -> f i = g i) -> tab N f = tab N g.
Proof.
  intros H. unfold tab. apply map_ext_in. intros i Hi. apply H. now apply zrange_In.
Qed.

Lemma list_ext_nth_error {A} (l1 l2 : list A) :
  length l1 = length l2 ->
  (forall i, (i < length l1)%nat -> nth_error l1 i = nth_error l2 i) -> l1 = l2.
Proof.
  revert l2; induction l1 as [|x l1 IH]; intros [|y l2] Hl H; simpl in *; try lia; auto.
  f_equal.
  - specialize (H 0%nat ltac:(lia)). simpl in H. congruence.
  - apply IH; [lia|]. intros i Hi. apply (H (S i)). lia.
Qed.

Lemma upd_tab {A} N (f : Z -> A) i r :
  0 <= i < N -> upd (tab N f) (Z.to_nat i) r = tab N (fun j => if j =? i then r else f j).
Proof.
  intros H. apply list_ext_nth_error.
  - now rewrite upd_length, !tab_length.
  - intros j Hj. rewrite upd_length, tab_length in Hj.
    replace j with (Z.to_nat (Z.of_nat j)) by lia.
    rewrite nth_error_tab by lia.
    destruct (Z.eqb_spec (Z.of_nat j) i) as [->|Hne].
    + rewrite nth_error_upd_eq; auto. rewrite tab_length. lia.
    + rewrite nth_error_upd_ne by lia. now rewrite nth_error_tab by lia.
Qed.

Lemma repeat_tab {A} N (a : A) : repeat a (Z.to_nat N) = tab N (fun _ => a).
Proof.
  apply list_ext_nth_error.
  - now rewrite repeat_length, tab_length.
  - intros j Hj. rewrite repeat_length in Hj.
    replace j with (Z.to_nat (Z.of_nat j)) at 2 by lia.
    rewrite nth_error_tab by lia. now apply nth_error_repeat.
Qed.

(** ** Representation *)
Definition frow (cols : Z) (size sp : R) (m : content) (i : Z) : row :=
  match m (i / 4) (i mod 4) with
  | Some kp => mkRow true kp (corner_point cols size sp (i / 4) (i mod 4))
  | None => zero_row
  end.

Definition Rep (rows cols : Z) (size sp : R) (g : grid) (m : content) : Prop :=
  g_init g = true /\ g_rows g = rows /\ g_cols g = cols /\ g_size g = size /\ g_spacing g = sp /\
  g_data g = tab (rows * cols * 4) (frow cols size sp m).

Definition ipresent (m : content) (i : Z) : bool := present m (i / 4, i mod 4).
Definition icount (rows cols : Z) (m : content) : Z :=
  countb (ipresent m) (zrange (rows * cols * 4)).

Lemma flag_frow cols size sp m i : flag (frow cols size sp m i) = ipresent m i.
Proof. unfold frow, ipresent, present. simpl. destruct (m (i / 4) (i mod 4)); reflexivity. Qed.

(** all_corners as a map over row indices *)
Lemma all_corners_rows_aux n :
  flat_map (fun t => [(t, 0); (t, 1); (t, 2); (t, 3)]) (map Z.of_nat (seq 0 n)) =
  map (fun i => (i / 4, i mod 4)) (map Z.of_nat (seq 0 (4 * n))).
Proof.
  induction n as [|n IH]; [reflexivity|].
  rewrite seq_S, map_app, flat_map_app, IH.
  replace (4 * S n)%nat with (4 * n + 4)%nat by lia.
  rewrite seq_app, !map_app. f_equal. simpl.
  repeat (f_equal; try lia).
  all: f_equal; lia.
Qed.

Lemma all_corners_rows rows cols :
  all_corners rows cols = map (fun i => (i / 4, i mod 4)) (zrange (rows * cols * 4)).
Proof.
  unfold all_corners, zrange. rewrite all_corners_rows_aux.
  do 3 f_equal. lia.
Qed.

Lemma countb_map {A B} (f : B -> bool) (h : A -> B) l :
  countb f (map h l) = countb (fun x => f (h x)) l.
Proof. induction l as [|x l IH]; simpl; congruence. Qed.

Lemma spec_count_icount rows cols m : spec_count rows cols m = icount rows cols m.
Proof.
  unfold spec_count, icount. rewrite all_corners_rows, countb_map. reflexivity.
Qed.

Lemma corner_index rows cols t c :
  corner_in rows cols t c -> 0 <= t * 4 + c < rows * cols * 4 /\ (t * 4 + c) / 4 = t /\ (t * 4 + c) mod 4 = c.
Proof. unfold corner_in. lia. Qed.

Lemma all_corners_In rows cols t c : In (t, c) (all_corners rows cols) <-> corner_in rows cols t c.
Proof.
  rewrite all_corners_rows, in_map_iff. unfold corner_in. split.
  - intros (i & Hi & Hin). apply zrange_In in Hin. inversion Hi; subst. lia.
  - intros H. exists (t * 4 + c). split; [f_equal; lia|]. apply zrange_In. lia.
Qed.

(** ** Point changes of a count *)
Lemma countb_ext_except {A} (f h : A -> bool) l (x : A) :
  NoDup l -> In x l -> (forall y, In y l -> y <> x -> f y = h y) ->
  countb f l = countb h l + (if f x then 1 else 0) - (if h x then 1 else 0).
Proof.
  induction l as [|y l IH]; simpl; intros Hnd Hin Hext; [tauto|].
  inversion Hnd as [|? ? Hni Hnd']; subst.
  destruct Hin as [->|Hin].
  - rewrite (countb_ext f h l); [lia|].
    intros z Hz. apply Hext; auto. intros ->. tauto.
  - rewrite IH; auto. rewrite (Hext y); auto; [lia|]. intros ->. tauto.
Qed.

Lemma icount_change rows cols m m' t c :
  corner_in rows cols t c ->
  (forall t' c', corner_in rows cols t' c' -> (t', c') <> (t, c) -> present m' (t', c') = present m (t', c')) ->
  icount rows cols m' = icount rows cols m + (if present m' (t, c) then 1 else 0)
                        - (if present m (t, c) then 1 else 0).
Proof.
  intros Hc Hext. unfold icount.
  destruct (corner_index _ _ _ _ Hc) as (Hi & Hd & Hm).
  rewrite (countb_ext_except (ipresent m') (ipresent m) _ (t * 4 + c)).
  - unfold ipresent. rewrite Hd, Hm. reflexivity.
  - apply zrange_NoDup.
  - now apply zrange_In.
  - intros y Hy Hne. apply zrange_In in Hy. unfold ipresent. apply Hext.
    + unfold corner_in. lia.
    + intros E. inversion E. lia.
Qed.

Lemma icount_ext rows cols m m' :
  (forall t c, corner_in rows cols t c -> present m (t, c) = present m' (t, c)) ->
  icount rows cols m = icount rows cols m'.
Proof.
  intros H. apply countb_ext. intros i Hi. apply zrange_In in Hi. unfold ipresent.
  apply H. unfold corner_in. lia.
Qed.
Lemma icount_nonneg rows cols m : 0 <= icount rows cols m.
Proof. apply countb_nonneg. Qed.
Lemma icount_nothing rows cols : icount rows cols nothing = 0.
Proof.
  unfold icount, ipresent, present, nothing. simpl.
  induction (zrange (rows * cols * 4)); simpl; auto.
Qed.

(** ** Single operations *)
Section Dims.
Variables (rows cols : Z) (size sp : R).
Hypothesis Hrows : 0 <= rows.
Hypothesis Hcols : 0 <= cols.
Notation N := (rows * cols * 4).
Notation RepD := (Rep rows cols size sp).

Lemma Rep_new ts : RepD (new_grid ts rows cols size sp) nothing.
Proof.
  unfold Rep, new_grid; simpl. repeat split; auto.
  rewrite repeat_tab. apply tab_ext. intros. reflexivity.
Qed.

Lemma Rep_ext g m m' :
  RepD g m -> (forall t c, corner_in rows cols t c -> m t c = m' t c) -> RepD g m'.
Proof.
  intros (H1 & H2 & H3 & H4 & H5 & H6) He. unfold Rep. repeat split; auto.
  rewrite H6. apply tab_ext. intros i Hi. unfold frow.
  rewrite He; auto. unfold corner_in. lia.
Qed.

Lemma Rep_rd g m t c :
  RepD g m -> corner_in rows cols t c ->
  rd (g_data g) (t * 4 + c) = Ret (match m t c with
                                   | Some kp => mkRow true kp (corner_point cols size sp t c)
                                   | None => zero_row end).
Proof.
  intros (_ & _ & _ & _ & _ & Hd) Hc. destruct (corner_index _ _ _ _ Hc) as (Hi & Hdv & Hmd).
  rewrite Hd, rd_tab by auto. unfold frow. now rewrite Hdv, Hmd.
Qed.

Lemma object_point_in g m t c :
  RepD g m -> corner_in rows cols t c -> object_point g t c = Ret (corner_point cols size sp t c).
Proof.
  intros (H1 & H2 & H3 & H4 & H5 & H6) [Ht Hc].
  unfold object_point, grid_index. rewrite H2, H3, H4, H5.
  rewrite Z.gtb_ltb.
  destruct (Z.ltb_spec (rows * cols) t); [lia|].
  destruct (Z.ltb_spec t 0); [lia|].
  destruct (Z.eqb_spec cols 0) as [E|E]; [rewrite E in Ht; lia|].
  simpl obind. cbn [fst snd].
  rewrite Z.quot_div_nonneg, Z.rem_mod_nonneg by lia.
  assert (c = 0 \/ c = 1 \/ c = 2 \/ c = 3) as [->|[->|[->| ->]]] by lia;
    unfold corner_point; simpl; f_equal; f_equal; f_equal; lra.
Qed.

Lemma add_Rep g m t c kp :
  RepD g m -> corner_in rows cols t c ->
  exists g', add g t c kp = (Done, g') /\ RepD g' (spec_step m (OpAdd t c kp)) /\
             g_nb g' = g_nb g + 1 /\ g_detected g' = true /\ g_ts g' = g_ts g.
Proof.
  intros HR Hc. destruct (corner_index _ _ _ _ Hc) as (Hi & Hdv & Hmd).
  unfold add.
  set (g1 := set_nb (set_detected g true) (g_nb g + 1)).
  assert (RepD g1 m) as HR1 by exact HR.
  rewrite (object_point_in g1 m) by auto.
  destruct HR as (H1 & H2 & H3 & H4 & H5 & H6).
  assert (g_data g1 = g_data g) as Hg1 by reflexivity.
  unfold wr. rewrite Hg1, H6, tab_length.
  destruct (Z.leb_spec 0 (t * 4 + c)); [|lia].
  destruct (Z.ltb_spec (t * 4 + c) (Z.of_nat (Z.to_nat N))); [|lia]. simpl andb. cbn iota.
  eexists. split; [reflexivity|]. split; [|auto].
  unfold Rep. simpl. repeat split; auto. rewrite upd_tab by auto.
  apply tab_ext. intros j Hj. unfold frow. simpl.
  destruct (Z.eqb_spec j (t * 4 + c)) as [->|Hne].
  - rewrite Hdv, Hmd, !Z.eqb_refl. reflexivity.
  - destruct (Z.eqb_spec (j / 4) t); destruct (Z.eqb_spec (j mod 4) c); simpl; auto. lia.
Qed.

Lemma remove_Rep g m t c :
  RepD g m -> corner_in rows cols t c ->
  exists g', remove g t c = (Done, g') /\ RepD g' (spec_step m (OpRemove t c)) /\
             g_ts g' = g_ts g /\
             (m t c = None -> g' = g) /\
             (m t c <> None -> g_nb g' = Z.max (g_nb g - 1) 0 /\
                               g_detected g' = negb (g_nb g' =? 0)).
Proof.
  intros HR Hc. destruct (corner_index _ _ _ _ Hc) as (Hi & Hdv & Hmd).
  pose proof HR as (H1 & H2 & H3 & H4 & H5 & H6).
  unfold remove. rewrite (Rep_rd g m) by auto.
  destruct (m t c) as [kp|] eqn:E; simpl flag; cbn iota.
  - eexists. split; [reflexivity|]. split; [|split;[reflexivity|split;[congruence|]]].
    + unfold Rep. simpl. repeat split; auto. rewrite H6, upd_tab by auto.
      apply tab_ext. intros j Hj. unfold frow. simpl.
      destruct (Z.eqb_spec j (t * 4 + c)) as [->|Hne].
      * rewrite Hdv, Hmd, !Z.eqb_refl. reflexivity.
      * destruct (Z.eqb_spec (j / 4) t); destruct (Z.eqb_spec (j mod 4) c); simpl; auto. lia.
    + intros _. simpl. split; auto.
  - exists g. split; [reflexivity|]. split; [|split;[reflexivity|split; [auto|congruence]]].
    apply (Rep_ext g m); auto. intros t' c' _. simpl.
    destruct (Z.eqb_spec t' t); destruct (Z.eqb_spec c' c); subst; simpl; auto.
Qed.

Lemma clear_Rep g m : RepD g m ->
  RepD (clear g) nothing /\ g_nb (clear g) = 0 /\ g_detected (clear g) = false /\ g_ts (clear g) = g_ts g.
Proof.
  intros (H1 & H2 & H3 & H4 & H5 & H6). unfold Rep, clear; simpl.
  repeat split; auto. rewrite H6, tab_length, repeat_tab. apply tab_ext. reflexivity.
Qed.

(** The invariant tying counter and flag to the content. *)
Definition BookGe (g : grid) (m : content) : Prop :=
  icount rows cols m <= g_nb g /\ (g_detected g = false -> g_nb g = 0).
Definition BookEq (g : grid) (m : content) : Prop :=
  g_nb g = icount rows cols m /\ g_detected g = negb (g_nb g =? 0).

Lemma icount_pos m t c : corner_in rows cols t c -> m t c <> None -> 1 <= icount rows cols m.
Proof.
  intros Hc Hm. destruct (corner_index _ _ _ _ Hc) as (Hi & Hdv & Hmd).
  unfold icount.
  assert (In (t * 4 + c) (zrange N)) as Hin by now apply zrange_In.
  assert (ipresent m (t * 4 + c) = true) as Hp.
  { unfold ipresent, present. simpl. rewrite Hdv, Hmd. destruct (m t c); congruence. }
  induction (zrange N) as [|x l IH]; simpl in *; [tauto|].
  destruct Hin as [->|Hin].
  - rewrite Hp. pose proof (countb_nonneg (ipresent m) l). lia.
  - specialize (IH Hin). destruct (ipresent m x); lia.
Qed.

Lemma icount_add m t c kp : corner_in rows cols t c ->
  icount rows cols (spec_step m (OpAdd t c kp)) =
  icount rows cols m + (match m t c with Some _ => 0 | None => 1 end).
Proof.
  intros Hc. rewrite (icount_change rows cols m _ t c Hc).
  - unfold present. simpl. rewrite !Z.eqb_refl. simpl. destruct (m t c); lia.
  - intros t' c' _ Hne. unfold present. simpl.
    destruct (Z.eqb_spec t' t); destruct (Z.eqb_spec c' c); subst; simpl; auto. congruence.
Qed.
Lemma icount_remove m t c : corner_in rows cols t c ->
  icount rows cols (spec_step m (OpRemove t c)) =
  icount rows cols m - (match m t c with Some _ => 1 | None => 0 end).
Proof.
  intros Hc. rewrite (icount_change rows cols m _ t c Hc).
  - unfold present. simpl. rewrite !Z.eqb_refl. simpl. destruct (m t c); lia.
  - intros t' c' _ Hne. unfold present. simpl.
    destruct (Z.eqb_spec t' t); destruct (Z.eqb_spec c' c); subst; simpl; auto. congruence.
Qed.

Lemma remove_books g m t c :
  RepD g m -> corner_in rows cols t c ->
  exists g', remove g t c = (Done, g') /\ RepD g' (spec_step m (OpRemove t c)) /\ g_ts g' = g_ts g /\
    (BookGe g m -> BookGe g' (spec_step m (OpRemove t c))) /\
    (BookEq g m -> BookEq g' (spec_step m (OpRemove t c))) /\
    (g_nb g = icount rows cols m -> g_nb g' = icount rows cols (spec_step m (OpRemove t c))).
Proof.
  intros HR Hc. destruct (remove_Rep g m t c HR Hc) as (g' & Hrun & HR' & Hts & Hno & Hyes).
  exists g'. do 3 (split; auto).
  pose proof (icount_remove m t c Hc) as Hcnt.
  pose proof (icount_nonneg rows cols (spec_step m (OpRemove t c))) as Hnn.
  destruct (m t c) as [kp|] eqn:E.
  - destruct Hyes as [Hnb Hdet]; [congruence|].
    unfold BookGe, BookEq. split; [|split].
    + intros [H1 H2]. rewrite Hcnt. split; [lia|]. rewrite Hdet. lia.
    + intros [H1 H2]. rewrite Hcnt. split; [lia|auto].
    + lia.
  - rewrite Hno by auto. unfold BookGe, BookEq. rewrite Hcnt, Z.sub_0_r. auto.
Qed.

Lemma remove_tag_books g m t :
  RepD g m -> 0 <= t < rows * cols ->
  exists g', remove_tag g t = (Done, g') /\ RepD g' (spec_step m (OpRemoveTag t)) /\ g_ts g' = g_ts g /\
    (BookGe g m -> BookGe g' (spec_step m (OpRemoveTag t))) /\
    (BookEq g m -> BookEq g' (spec_step m (OpRemoveTag t))) /\
    (g_nb g = icount rows cols m -> g_nb g' = icount rows cols (spec_step m (OpRemoveTag t))).
Proof.
  intros HR Ht.
  assert (forall c, 0 <= c < 4 -> corner_in rows cols t c) as Hc by (unfold corner_in; lia).
  unfold remove_tag.
  destruct (remove_books g m t 0 HR) as (g0 & -> & R0 & T0 & A0 & B0 & C0); [apply Hc; lia|].
  simpl seq_st.
  destruct (remove_books g0 _ t 1 R0) as (g1 & -> & R1 & T1 & A1 & B1 & C1); [apply Hc; lia|].
  simpl seq_st.
  destruct (remove_books g1 _ t 2 R1) as (g2 & -> & R2 & T2 & A2 & B2 & C2); [apply Hc; lia|].
  simpl seq_st.
  destruct (remove_books g2 _ t 3 R2) as (g3 & -> & R3 & T3 & A3 & B3 & C3); [apply Hc; lia|].
  exists g3. split; auto.
  assert (forall t' c', corner_in rows cols t' c' ->
     spec_step (spec_step (spec_step (spec_step m (OpRemove t 0)) (OpRemove t 1)) (OpRemove t 2)) (OpRemove t 3) t' c'
     = spec_step m (OpRemoveTag t) t' c') as He.
  { intros t' c' [_ Hc']. simpl. destruct (Z.eqb_spec t' t); simpl; auto.
    assert (c' = 0 \/ c' = 1 \/ c' = 2 \/ c' = 3) as [->|[->|[->| ->]]] by lia; reflexivity. }
  split; [|split; [congruence|]].
  - eapply Rep_ext; eauto.
  - assert (icount rows cols (spec_step m (OpRemoveTag t)) = icount rows cols (spec_step (spec_step (spec_step (spec_step m (OpRemove t 0)) (OpRemove t 1)) (OpRemove t 2)) (OpRemove t 3))) as Hce.
    { apply icount_ext. intros t' c' H. unfold present. cbn [fst snd]. now rewrite He. }
    unfold BookGe, BookEq in *. rewrite Hce. split; [|split]; intros HB; auto.
Qed.

Lemma step_books g m o :
  RepD g m -> op_in rows cols o ->
  exists g', step g o = (Done, g') /\ RepD g' (spec_step m o) /\ g_ts g' = g_ts g /\
    (BookGe g m -> BookGe g' (spec_step m o)) /\
    (op_fresh m o -> BookEq g m -> BookEq g' (spec_step m o)) /\
    (op_fresh m o -> g_nb g = icount rows cols m -> g_nb g' = icount rows cols (spec_step m o)).
Proof.
  intros HR Hin. destruct o as [t c kp|t c|t|]; unfold step.
  - destruct (add_Rep g m t c kp HR Hin) as (g' & Hrun & HR' & Hnb & Hdet & Hts).
    exists g'. do 3 (split; auto).
    pose proof (icount_add m t c kp Hin) as Hcnt. pose proof (icount_nonneg rows cols m).
    unfold BookGe, BookEq. rewrite Hcnt, Hnb, Hdet. unfold op_fresh. split; [|split].
    + intros [H1 H2]. split; [destruct (m t c); lia|congruence].
    + intros -> [H1 H2]. split; [lia|]. destruct (Z.eqb_spec (g_nb g + 1) 0); auto. lia.
    + intros -> H1. lia.
  - destruct (remove_books g m t c HR Hin) as (g' & Hrun & HR' & Hts & A & B & C).
    exists g'. split; [exact Hrun|]. split; [exact HR'|]. auto.
  - destruct (remove_tag_books g m t HR Hin) as (g' & Hrun & HR' & Hts & A & B & C).
    exists g'. split; [exact Hrun|]. split; [exact HR'|]. auto.
  - destruct (clear_Rep g m HR) as (HR' & Hnb & Hdet & Hts).
    exists (clear g). split; [reflexivity|]. split; [exact HR'|]. split; auto.
    unfold BookGe, BookEq. simpl spec_step. rewrite icount_nothing, Hnb, Hdet.
    repeat split; intros; auto; lia.
Qed.

Lemma run_books ops : forall g m,
  RepD g m -> Forall (op_in rows cols) ops ->
  exists g', run g ops = (Done, g') /\ RepD g' (spec_run ops m) /\ g_ts g' = g_ts g /\
    (BookGe g m -> BookGe g' (spec_run ops m)) /\
    (all_fresh m ops -> BookEq g m -> BookEq g' (spec_run ops m)).
Proof.
  induction ops as [|o ops IH]; intros g m HR Hin.
  - exists g. simpl. auto.
  - inversion Hin as [|? ? Ho Hops]; subst.
    destruct (step_books g m o HR Ho) as (g1 & Hs & HR1 & Hts & A & B & _).
    destruct (IH g1 _ HR1 Hops) as (g' & Hr & HR' & Hts' & A' & B').
    exists g'. simpl. rewrite Hs. split; [exact Hr|]. split; [exact HR'|]. split; [congruence|].
    split; [auto|]. intros [F1 F2] HB. auto.
Qed.

Lemma BookGe_new ts : BookGe (new_grid ts rows cols size sp) nothing.
Proof. unfold BookGe. rewrite icount_nothing. simpl. auto with zarith. Qed.
Lemma BookEq_new ts : BookEq (new_grid ts rows cols size sp) nothing.
Proof. unfold BookEq. rewrite icount_nothing. simpl. auto. Qed.

(** ** Queries *)
Lemma has_Rep g m t c : RepD g m -> corner_in rows cols t c -> has g t c = Ret (present m (t, c)).
Proof.
  intros HR Hc. unfold has. rewrite (Rep_rd g m) by auto. unfold omap, present. simpl.
  destruct (m t c); reflexivity.
Qed.
Lemma keypoint_Rep g m t c : RepD g m -> corner_in rows cols t c ->
  keypoint g t c = match m t c with Some kp => Ret kp | None => Throw Fatal end.
Proof.
  intros HR Hc. unfold keypoint. rewrite (Rep_rd g m) by auto. simpl.
  destruct (m t c); reflexivity.
Qed.

Lemma scan_rows_tab f idx :
  (forall i, In i idx -> 0 <= i < N) ->
  scan_rows (tab N f) idx = Ret (flat_map (fun i => if flag (f i) then [(i, f i)] else []) idx).
Proof.
  induction idx as [|i idx IH]; intros H; simpl; auto.
  rewrite rd_tab by (apply H; simpl; auto). simpl.
  rewrite IH by (intros; apply H; simpl; auto). simpl.
  destruct (flag (f i)); reflexivity.
Qed.

Definition scan_spec (m : content) : list (Z * row) :=
  flat_map (fun i => if ipresent m i then [(i, frow cols size sp m i)] else []) (zrange N).

Lemma scan_Rep g m : RepD g m -> scan g = Ret (scan_spec m).
Proof.
  intros (H1 & H2 & H3 & H4 & H5 & H6). unfold scan, nrows. rewrite H2, H3, H6.
  rewrite scan_rows_tab by (intros; now apply zrange_In).
  f_equal. unfold scan_spec. apply flat_map_ext. intros i. now rewrite flag_frow.
Qed.

Lemma map_flat_map {A B C} (h : B -> C) (f : A -> list B) l :
  map h (flat_map f l) = flat_map (fun x => map h (f x)) l.
Proof. induction l as [|x l IH]; simpl; auto. now rewrite map_app, IH. Qed.
Lemma flat_map_map {A B C} (f : B -> list C) (h : A -> B) l :
  flat_map f (map h l) = flat_map (fun x => f (h x)) l.
Proof. induction l as [|x l IH]; simpl; congruence. Qed.
Lemma flat_map_ext_in {A B} (f h : A -> list B) l :
  (forall x, In x l -> f x = h x) -> flat_map f l = flat_map h l.
Proof.
  induction l as [|x l IH]; simpl; intros H; auto.
  rewrite H, IH; auto.
Qed.

Lemma spec_meas_rows m :
  spec_meas rows cols m =
  map (fun ir => (Z.quot (fst ir) 4, Z.rem (fst ir) 4, rkp (snd ir))) (scan_spec m).
Proof.
  unfold spec_meas, scan_spec. rewrite all_corners_rows, map_flat_map, flat_map_map.
  apply flat_map_ext_in. intros i Hi. apply zrange_In in Hi. cbn [fst snd].
  unfold ipresent, present, frow. cbn [fst snd].
  destruct (m (i / 4) (i mod 4)); simpl; auto.
  now rewrite Z.quot_div_nonneg, Z.rem_mod_nonneg by lia.
Qed.

Lemma scan_spec_obj m :
  map (fun ir => robj (snd ir)) (scan_spec m) =
  map (fun x => corner_point cols size sp (fst (fst x)) (snd (fst x))) (spec_meas rows cols m).
Proof.
  rewrite spec_meas_rows, map_map. cbn [fst snd].
  apply map_ext_in. intros [i r] Hin. unfold scan_spec in Hin. apply in_flat_map in Hin.
  destruct Hin as (j & Hj & Hr). apply zrange_In in Hj.
  unfold ipresent, present in Hr. cbn [fst snd] in *. unfold frow in Hr.
  destruct (m (j / 4) (j mod 4)); simpl in Hr; [|tauto].
  destruct Hr as [E|[]]. inversion E; subst. simpl.
  now rewrite Z.quot_div_nonneg, Z.rem_mod_nonneg by lia.
Qed.

Definition meas_of (m : content) : meas :=
  let l := spec_meas rows cols m in
  mkMeas (map (fun x => fst (fst x)) l) (map (fun x => snd (fst x)) l) (map snd l)
         (map (fun x => corner_point cols size sp (fst (fst x)) (snd (fst x))) l).

Lemma get_measurements_Rep g m a : RepD g m -> g_detected g = true ->
  get_measurements g a =
  Ret (mkMeas (m_tags a ++ m_tags (meas_of m)) (m_corners a ++ m_corners (meas_of m))
              (m_kps a ++ m_kps (meas_of m)) (m_pts a ++ m_pts (meas_of m))).
Proof.
  intros HR Hd. unfold get_measurements. rewrite Hd, (scan_Rep g m HR). simpl.
  unfold meas_of. cbn [m_tags m_corners m_kps m_pts]. rewrite <- scan_spec_obj.
  rewrite spec_meas_rows, !map_map. reflexivity.
Qed.

Lemma keypoints_Rep g m : RepD g m -> keypoints g = Ret (map snd (spec_meas rows cols m)).
Proof.
  intros HR. unfold keypoints. rewrite (scan_Rep g m HR). simpl.
  rewrite spec_meas_rows, map_map. reflexivity.
Qed.
Lemma object_points_Rep g m : RepD g m ->
  object_points g = Ret (map (fun x => corner_point cols size sp (fst (fst x)) (snd (fst x))) (spec_meas rows cols m)).
Proof.
  intros HR. unfold object_points. rewrite (scan_Rep g m HR). simpl.
  now rewrite scan_spec_obj.
Qed.

Lemma spec_meas_length m : Z.of_nat (length (spec_meas rows cols m)) = icount rows cols m.
Proof.
  rewrite spec_meas_rows, map_length. unfold scan_spec, icount.
  induction (zrange N) as [|i l IH]; simpl; auto.
  rewrite app_length. destruct (ipresent m i); simpl length; lia.
Qed.

(** ** Intersections *)
Lemma flagged_tab f idx :
  (forall i, In i idx -> 0 <= i < N) ->
  flagged (tab N f) idx = Ret (filter (fun i => flag (f i)) idx).
Proof.
  induction idx as [|i idx IH]; intros H; simpl; auto.
  rewrite rd_tab by (apply H; simpl; auto). simpl.
  rewrite IH by (intros; apply H; simpl; auto). simpl.
  destruct (flag (f i)); reflexivity.
Qed.

Lemma flagged_Rep g m : RepD g m ->
  flagged (g_data g) (zrange N) = Ret (filter (ipresent m) (zrange N)).
Proof.
  intros (H1 & H2 & H3 & H4 & H5 & H6). rewrite H6.
  rewrite flagged_tab by (intros; now apply zrange_In).
  f_equal. apply filter_ext. intros. apply flag_frow.
Qed.

Definition drop_content (l : list Z) (m : content) : content :=
  fun t c => if existsb (Z.eqb (t * 4 + c)) l then None else m t c.

Lemma drop_row_Rep g m i : RepD g m -> 0 <= i < N ->
  exists g', drop_row g i = Ret g' /\ RepD g' (drop_content [i] m) /\ g_ts g' = g_ts g /\
   g_detected g' = g_detected g /\
   g_nb g' - icount rows cols (drop_content [i] m) = g_nb g - icount rows cols m.
Proof.
  intros HR Hi. pose proof HR as (H1 & H2 & H3 & H4 & H5 & H6).
  unfold drop_row. rewrite H6, rd_tab by auto. cbn [obind]. rewrite flag_frow.
  assert (corner_in rows cols (i / 4) (i mod 4)) as Hc by (unfold corner_in; lia).
  assert (forall t c, corner_in rows cols t c -> (t, c) <> (i / 4, i mod 4) ->
       present (drop_content [i] m) (t, c) = present m (t, c)) as Hoth.
  { intros t c Htc Hne. unfold present, drop_content. simpl.
    destruct (Z.eqb_spec (t * 4 + c) i); simpl; auto. exfalso. apply Hne. f_equal; unfold corner_in in *; lia. }
  assert (present (drop_content [i] m) (i / 4, i mod 4) = false) as Hz.
  { unfold present, drop_content. simpl. destruct (Z.eqb_spec (i / 4 * 4 + i mod 4) i); simpl; auto. lia. }
  pose proof (icount_change rows cols m (drop_content [i] m) _ _ Hc Hoth) as Hch.
  rewrite Hz in Hch.
  destruct (ipresent m i) eqn:Ep; unfold ipresent in Ep; rewrite Ep in Hch.
  - eexists. split; [reflexivity|]. split; [|simpl; split; [auto|split; [auto|lia]]].
    unfold Rep. simpl. repeat split; auto. rewrite upd_tab by auto.
    apply tab_ext. intros j Hj. unfold frow, drop_content. simpl.
    replace (j / 4 * 4 + j mod 4) with j by lia.
    destruct (Z.eqb_spec j i); simpl; auto.
  - exists g. split; [reflexivity|]. split; [|split; [auto|split; [auto|lia]]].
    apply (Rep_ext g m); auto. intros t c Htc. unfold drop_content. simpl.
    destruct (Z.eqb_spec (t * 4 + c) i); simpl; auto.
    unfold present in Ep. simpl in Ep.
    replace (i / 4) with t in Ep by (unfold corner_in in *; lia).
    replace (i mod 4) with c in Ep by (unfold corner_in in *; lia).
    destruct (m t c); congruence.
Qed.

Lemma drop_rows_Rep l : forall g m, RepD g m -> (forall i, In i l -> 0 <= i < N) ->
  exists g', drop_rows g l = Ret g' /\ RepD g' (drop_content l m) /\ g_ts g' = g_ts g /\
   g_detected g' = g_detected g /\
   g_nb g' - icount rows cols (drop_content l m) = g_nb g - icount rows cols m.
Proof.
  induction l as [|i l IH]; intros g m HR Hl.
  - exists g. simpl. split; auto.
  - destruct (drop_row_Rep g m i HR) as (g1 & Hd & HR1 & T1 & D1 & B1); [apply Hl; simpl; auto|].
    destruct (IH g1 _ HR1) as (g' & Hd' & HR' & T' & D' & B'); [intros; apply Hl; simpl; auto|].
    exists g'. simpl drop_rows. rewrite Hd. simpl. split; [exact Hd'|].
    assert (forall t c, corner_in rows cols t c -> drop_content l (drop_content [i] m) t c = drop_content (i :: l) m t c) as He.
    { intros t c _. unfold drop_content. simpl.
      destruct (Z.eqb_spec (t * 4 + c) i); simpl; destruct (existsb (Z.eqb (t * 4 + c)) l); auto. }
    split; [eapply Rep_ext; eauto|]. split; [congruence|]. split; [congruence|].
    rewrite <- (icount_ext rows cols (drop_content l (drop_content [i] m)) (drop_content (i :: l) m)); [lia|].
    intros t c H. unfold present. cbn [fst snd]. now rewrite He.
Qed.

(** sym_diff on ascending lists *)
Lemma sym_diff_nil_r a : sym_diff a [] = a.
Proof. destruct a; reflexivity. Qed.
Lemma sym_diff_cons x a y b :
  sym_diff (x :: a) (y :: b) =
  if x <? y then x :: sym_diff a (y :: b)
  else if y <? x then y :: sym_diff (x :: a) b
  else sym_diff a b.
Proof. reflexivity. Qed.

Definition lt_all (x : Z) (l : list Z) := Forall (Z.lt x) l.
Lemma sorted_cons_inv x l : StronglySorted Z.lt (x :: l) -> StronglySorted Z.lt l /\ lt_all x l.
Proof. intros H. inversion H; auto. Qed.

Lemma sym_diff_In a : forall b, StronglySorted Z.lt a -> StronglySorted Z.lt b ->
  forall x, In x (sym_diff a b) <-> (In x a /\ ~ In x b) \/ (~ In x a /\ In x b).
Proof.
  induction a as [|y a IHa].
  - intros b _ _ x. destruct b; simpl; tauto.
  - induction b as [|z b IHb]; intros Ha Hb x.
    + rewrite sym_diff_nil_r. simpl. tauto.
    + destruct (sorted_cons_inv _ _ Ha) as [Ha' Hya]. destruct (sorted_cons_inv _ _ Hb) as [Hb' Hzb].
      unfold lt_all in *. rewrite Forall_forall in Hya, Hzb.
      rewrite sym_diff_cons.
      destruct (Z.ltb_spec y z).
      * simpl In. rewrite (IHa (z :: b) Ha' Hb). simpl In.
        split.
        -- intros [->|[H'|[H1 H2]]].
           ++ left. split; auto. intros [->|Hin]; [lia|]. specialize (Hzb _ Hin). lia.
           ++ tauto.
           ++ right. split; auto. intros [->|Hin]; [|tauto].
              destruct H2 as [->|H2]; [lia|]. specialize (Hzb _ H2). lia.
        -- tauto.
      * destruct (Z.ltb_spec z y).
        -- simpl In. rewrite (IHb Ha Hb'). simpl In.
           split.
           ++ intros [->|[[H1 H2]|H']].
              ** right. split; auto. intros [->|Hin]; [lia|]. specialize (Hya _ Hin). lia.
              ** left. split; auto. intros [->|Hin]; [|tauto].
                 destruct H1 as [->|H1]; [lia|]. specialize (Hya _ H1). lia.
              ** tauto.
           ++ tauto.
        -- assert (y = z) by lia. subst z. rewrite (IHa b Ha' Hb'). simpl In.
           split.
           ++ intros [[H1 H2]|[H1 H2]].
              ** left. split; auto. intros [->|]; [specialize (Hya _ H1); lia|tauto].
              ** right. split; auto. intros [->|]; [specialize (Hzb _ H2); lia|tauto].
           ++ tauto.
Qed.

Lemma zrange_sorted n : StronglySorted Z.lt (zrange n).
Proof.
  unfold zrange. generalize 0%nat as k. generalize (Z.to_nat n) as len.
  induction len as [|len IH]; intros k; simpl; constructor; auto.
  apply Forall_forall. intros x Hx. apply in_map_iff in Hx. destruct Hx as (j & <- & Hj).
  apply in_seq in Hj. lia.
Qed.
Lemma filter_sorted (f : Z -> bool) l : StronglySorted Z.lt l -> StronglySorted Z.lt (filter f l).
Proof.
  induction l as [|x l IH]; intros H; simpl; auto.
  destruct (sorted_cons_inv _ _ H) as [H' Hx]. destruct (f x); auto.
  constructor; auto. apply Forall_forall. intros y Hy. apply filter_In in Hy.
  unfold lt_all in Hx. rewrite Forall_forall in Hx. apply Hx. tauto.
Qed.

Lemma existsb_eqb_In x l : existsb (Z.eqb x) l = true <-> In x l.
Proof.
  rewrite existsb_exists. split.
  - intros (y & Hy & E). apply Z.eqb_eq in E. now subst.
  - intros H. exists x. split; auto. apply Z.eqb_refl.
Qed.

Lemma intersect2_Rep g0 m0 g1 m1 : RepD g0 m0 -> RepD g1 m1 ->
  exists g0' g1', intersect2 g0 g1 = Ret (g0', g1') /\
    RepD g0' (common m0 m1) /\ RepD g1' (common m1 m0) /\
    g_ts g0' = g_ts g0 /\ g_ts g1' = g_ts g1 /\
    g_detected g0' = g_detected g0 /\ g_detected g1' = g_detected g1 /\
    g_nb g0' - icount rows cols (common m0 m1) = g_nb g0 - icount rows cols m0 /\
    g_nb g1' - icount rows cols (common m1 m0) = g_nb g1 - icount rows cols m1.
Proof.
  intros HR0 HR1. unfold intersect2.
  assert (nrows g0 = N) as HN by (unfold nrows; destruct HR0 as (_ & -> & -> & _); reflexivity).
  rewrite HN, (flagged_Rep g0 m0 HR0), (flagged_Rep g1 m1 HR1). cbn [obind].
  set (r0 := filter (ipresent m0) (zrange N)). set (r1 := filter (ipresent m1) (zrange N)).
  assert (StronglySorted Z.lt r0) as S0 by (apply filter_sorted, zrange_sorted).
  assert (StronglySorted Z.lt r1) as S1 by (apply filter_sorted, zrange_sorted).
  assert (forall i, In i (sym_diff r0 r1) <-> 0 <= i < N /\ ipresent m0 i <> ipresent m1 i) as Hsd.
  { intros i. rewrite (sym_diff_In r0 r1 S0 S1). unfold r0, r1. rewrite !filter_In, !zrange_In.
    destruct (ipresent m0 i), (ipresent m1 i); intuition congruence. }
  assert (forall i, In i (sym_diff r0 r1) -> 0 <= i < N) as Hb by (intros i Hi; apply Hsd in Hi; tauto).
  destruct (drop_rows_Rep (sym_diff r0 r1) g0 m0 HR0 Hb) as (g0' & -> & R0 & T0 & D0 & B0).
  destruct (drop_rows_Rep (sym_diff r0 r1) g1 m1 HR1 Hb) as (g1' & -> & R1 & T1 & D1 & B1).
  cbn [obind]. exists g0', g1'. split; [reflexivity|].
  assert (forall t c, corner_in rows cols t c -> drop_content (sym_diff r0 r1) m0 t c = common m0 m1 t c /\
                                                  drop_content (sym_diff r0 r1) m1 t c = common m1 m0 t c) as He.
  { intros t c Hc. destruct (corner_index _ _ _ _ Hc) as (Hi & Hdv & Hmd).
    specialize (Hsd (t * 4 + c)). unfold ipresent, present in Hsd. cbn [fst snd] in Hsd. rewrite Hdv, Hmd in Hsd.
    unfold drop_content, common.
    destruct (existsb (Z.eqb (t * 4 + c)) (sym_diff r0 r1)) eqn:E.
    - apply existsb_eqb_In in E. apply Hsd in E. destruct (m0 t c), (m1 t c); intuition congruence.
    - assert (~ In (t * 4 + c) (sym_diff r0 r1)) as Hn.
      { intros Hin. apply existsb_eqb_In in Hin. congruence. }
      rewrite Hsd in Hn. destruct (m0 t c), (m1 t c); try (split; reflexivity).
      + exfalso. apply Hn. split; [auto|discriminate].
      + exfalso. apply Hn. split; [auto|discriminate]. }
  assert (icount rows cols (drop_content (sym_diff r0 r1) m0) = icount rows cols (common m0 m1)) as E0.
  { apply icount_ext. intros t c Hc. unfold present. cbn [fst snd]. now rewrite (proj1 (He t c Hc)). }
  assert (icount rows cols (drop_content (sym_diff r0 r1) m1) = icount rows cols (common m1 m0)) as E1.
  { apply icount_ext. intros t c Hc. unfold present. cbn [fst snd]. now rewrite (proj2 (He t c Hc)). }
  rewrite <- E0, <- E1.
  split; [eapply Rep_ext; [exact R0|]; intros; apply He; auto|].
  split; [eapply Rep_ext; [exact R1|]; intros; apply He; auto|].
  repeat split; auto.
Qed.

(** *** many-way *)
Definition cnt (ms : list content) (i : Z) : Z := countb (fun m => ipresent m i) ms.

Lemma fold_bump_tab l : forall (h : Z -> Z),
  NoDup l -> (forall i, In i l -> 0 <= i < N) ->
  fold_left bump l (map (fun i => (i, h i)) (zrange N)) =
  map (fun i => (i, h i + (if existsb (Z.eqb i) l then 1 else 0))) (zrange N).
Proof.
  assert (forall h i, 0 <= i < N ->
    bump (map (fun i => (i, h i)) (zrange N)) i =
    map (fun j => (j, h j + (if j =? i then 1 else 0))) (zrange N)) as Hb.
  { intros h i Hi.
    assert (In i (zrange N)) as Hin by now apply zrange_In.
    pose proof (zrange_sorted N) as Hs.
    induction (zrange N) as [|x l0 IH]; simpl in *; [tauto|].
    destruct (sorted_cons_inv _ _ Hs) as [Hs' Hx]. unfold lt_all in Hx. rewrite Forall_forall in Hx.
    destruct (Z.eqb_spec i x) as [->|Hne].
    - rewrite Z.eqb_refl. f_equal. apply map_ext_in. intros y Hy. specialize (Hx _ Hy).
      destruct (Z.eqb_spec y x); [lia|]. f_equal. lia.
    - destruct Hin as [->|Hin]; [congruence|]. specialize (Hx _ Hin).
      destruct (Z.ltb_spec i x); [lia|]. rewrite IH by auto.
      destruct (Z.eqb_spec x i); [lia|]. f_equal. f_equal. lia. }
  induction l as [|i l IH]; intros h Hnd Hl; simpl.
  - apply map_ext. intros. f_equal. lia.
  - inversion Hnd as [|? ? Hni Hnd']; subst.
    rewrite Hb by (apply Hl; simpl; auto).
    rewrite (IH (fun j => h j + (if j =? i then 1 else 0))); auto; [|intros; apply Hl; simpl; auto].
    apply map_ext. intros j. f_equal.
    destruct (Z.eqb_spec j i) as [->|]; simpl; [|lia].
    destruct (existsb (Z.eqb i) l) eqn:E; [|lia]. apply existsb_eqb_In in E. tauto.
Qed.

Lemma NoDup_filter {A} (f : A -> bool) l : NoDup l -> NoDup (filter f l).
Proof.
  induction l as [|x l IH]; intros H; simpl; auto. inversion H; subst.
  destruct (f x); auto. constructor; auto. rewrite filter_In. tauto.
Qed.

Lemma count_grids_Rep gs ms : Forall2 (fun g m => RepD g m) gs ms -> forall h,
  count_grids (map (fun i => (i, h i)) (zrange N)) gs =
  Ret (map (fun i => (i, h i + cnt ms i)) (zrange N)).
Proof.
  induction 1 as [|g m gs ms HR HF IH]; intros h; simpl.
  - f_equal. apply map_ext. intros. f_equal. unfold cnt; simpl. lia.
  - unfold count_grid.
    assert (nrows g = N) as -> by (unfold nrows; destruct HR as (_ & -> & -> & _); reflexivity).
    rewrite (flagged_Rep g m HR). simpl.
    rewrite fold_bump_tab.
    + rewrite IH. f_equal. apply map_ext_in. intros i Hi. f_equal. unfold cnt. simpl.
      destruct (existsb (Z.eqb i) (filter (ipresent m) (zrange N))) eqn:E.
      * apply existsb_eqb_In in E. apply filter_In in E. destruct E as [_ ->]. lia.
      * destruct (ipresent m i) eqn:E'; [|lia].
        assert (In i (filter (ipresent m) (zrange N))) as Hc by (apply filter_In; auto).
        apply existsb_eqb_In in Hc. congruence.
    + apply NoDup_filter, zrange_NoDup.
    + intros i Hi. apply filter_In in Hi. now apply zrange_In.
Qed.

Lemma drop_all_Rep rm gs ms : (forall i, In i rm -> 0 <= i < N) ->
  Forall2 (fun g m => RepD g m) gs ms ->
  exists gs', drop_all gs rm = Ret gs' /\ length gs' = length gs /\
    forall k g m, nth_error gs k = Some g -> nth_error ms k = Some m ->
      exists g', nth_error gs' k = Some g' /\ RepD g' (drop_content rm m) /\ g_ts g' = g_ts g /\
        g_detected g' = g_detected g /\
        g_nb g' - icount rows cols (drop_content rm m) = g_nb g - icount rows cols m.
Proof.
  intros Hrm. induction 1 as [|g m gs ms HR HF IH]; simpl.
  - exists []. split; auto. split; auto. intros [|k] ? ?; discriminate.
  - destruct (drop_rows_Rep rm g m HR Hrm) as (g' & -> & R' & T' & D' & B'). cbn [obind].
    destruct IH as (gs' & -> & Hlen & IH). cbn [omap obind].
    exists (g' :: gs'). split; auto. split; [simpl; congruence|].
    intros [|k] g2 m2 Hg Hm; simpl in *.
    + inversion Hg; inversion Hm; subst. exists g'. auto.
    + destruct (IH k g2 m2 Hg Hm) as (g'' & ?). exists g''. auto.
Qed.

Lemma Forall2_len {A B} (P : A -> B -> Prop) l1 l2 : Forall2 P l1 l2 -> length l1 = length l2.
Proof. induction 1; simpl; auto. Qed.
Lemma countb_all {A} (f : A -> bool) l : countb f l = Z.of_nat (length l) <-> forallb f l = true.
Proof.
  induction l as [|x l IH]; simpl forallb; simpl countb; simpl length; [tauto|].
  pose proof (countb_le_length f l). destruct (f x); cbn [andb]; [rewrite <- IH|]; split; intros HH; first [lia|discriminate].
Qed.

Lemma intersect_many_Rep gs ms : Forall2 (fun g m => RepD g m) gs ms -> gs <> [] ->
  exists gs', intersect_many gs = Ret gs' /\ length gs' = length gs /\
    forall k g m, nth_error gs k = Some g -> nth_error ms k = Some m ->
      exists g', nth_error gs' k = Some g' /\ RepD g' (common_all ms m) /\ g_ts g' = g_ts g /\
        g_detected g' = g_detected g /\
        g_nb g' - icount rows cols (common_all ms m) = g_nb g - icount rows cols m.
Proof.
  intros HF Hne. pose proof HF as HF0. destruct HF as [|g m gs0 ms0 HR HF']; [congruence|].
  unfold intersect_many.
  assert (nrows g = N) as -> by (unfold nrows; destruct HR as (_ & -> & -> & _); reflexivity).
  set (gs := g :: gs0) in *. set (ms := m :: ms0) in *. clearbody gs ms.
  rewrite (count_grids_Rep gs ms HF0 (fun _ => 0)). cbn [obind].
  set (rm := map fst _).
  assert (forall i, In i rm <-> 0 <= i < N /\ forallb (fun m => ipresent m i) ms = false) as Hrm.
  { intros i. unfold rm. rewrite in_map_iff. rewrite <- zrange_In. split.
    - intros ([j v] & Hj & Hin). simpl in Hj. subst j. apply filter_In in Hin. destruct Hin as [Hin Hv].
      apply in_map_iff in Hin. destruct Hin as (j & E & Hj). inversion E; subst. split; auto.
      simpl in Hv. destruct (forallb (fun m => ipresent m i) ms) eqn:Ef; auto.
      apply countb_all in Ef. unfold cnt in Hv. rewrite Ef in Hv.
      rewrite (Forall2_len _ _ _ HF0) in Hv. rewrite Z.eqb_refl in Hv. discriminate.
    - intros [Hi Hf]. exists (i, 0 + cnt ms i). split; auto. apply filter_In. split.
      + apply in_map_iff. exists i. auto.
      + simpl. destruct (Z.eqb_spec (cnt ms i) (Z.of_nat (length gs))) as [E|E]; auto.
        rewrite (Forall2_len _ _ _ HF0) in E. unfold cnt in E. apply countb_all in E. congruence. }
  assert (forall i, In i rm -> 0 <= i < N) as Hrm' by (intros i Hi; apply Hrm in Hi; tauto).
  destruct (drop_all_Rep rm gs ms Hrm' HF0) as (gs' & -> & Hlen & Hgs).
  exists gs'. split; auto. split; auto. intros k g1 m1 Hg1 Hm1.
  destruct (Hgs k g1 m1 Hg1 Hm1) as (g' & Hk & HR' & T' & D' & B').
  assert (forall t c, corner_in rows cols t c -> drop_content rm m1 t c = common_all ms m1 t c) as He.
  { intros t c Hc. destruct (corner_index _ _ _ _ Hc) as (Hi & Hdv & Hmd).
    unfold drop_content, common_all. specialize (Hrm (t * 4 + c)).
    assert (forallb (fun m => ipresent m (t * 4 + c)) ms = forallb (fun m' => present m' (t, c)) ms) as Heq.
    { clear - Hdv Hmd. induction ms as [|a l IH]; simpl; auto. unfold ipresent at 1. rewrite Hdv, Hmd, IH. auto. }
    rewrite Heq in Hrm.
    destruct (existsb (Z.eqb (t * 4 + c)) rm) eqn:E.
    - apply existsb_eqb_In in E. apply Hrm in E. destruct E as [_ ->]. auto.
    - destruct (forallb (fun m' => present m' (t, c)) ms) eqn:E2; auto.
      assert (In (t * 4 + c) rm) as Hin by (apply Hrm; auto).
      apply existsb_eqb_In in Hin. congruence. }
  exists g'. split; auto. split; [eapply Rep_ext; eauto|]. split; auto. split; auto.
  rewrite <- (icount_ext rows cols (drop_content rm m1) (common_all ms m1)); auto.
  intros t c Hc. unfold present. cbn [fst snd]. now rewrite He.
Qed.

(** ** Worlds *)
Definition WInv (w : list grid) (ms : list content) : Prop :=
  Forall2 (fun g m => RepD g m /\ icount rows cols m <= g_nb g) w ms.
Definition WInvEq (w : list grid) (ms : list content) : Prop :=
  Forall2 (fun g m => RepD g m /\ g_nb g = icount rows cols m /\ (icount rows cols m <> 0 -> g_detected g = true)) w ms.

Lemma Forall2_nth {A B} (P : A -> B -> Prop) l1 l2 k a :
  Forall2 P l1 l2 -> nth_error l1 k = Some a -> exists b, nth_error l2 k = Some b /\ P a b.
Proof.
  intros H; revert k a; induction H as [|x y l1 l2 Hp HF IH]; intros [|k] a Hk; simpl in *; try discriminate.
  - inversion Hk; subst. eauto.
  - eauto.
Qed.
Lemma Forall2_upd {A B} (P : A -> B -> Prop) l1 l2 k a b :
  Forall2 P l1 l2 -> P a b -> Forall2 P (upd l1 k a) (upd l2 k b).
Proof.
  intros H Hp; revert k; induction H as [|x y l1 l2 Hxy HF IH]; intros [|k]; simpl; constructor; auto.
Qed.
Lemma Forall2_weak {A B} (P Q : A -> B -> Prop) l1 l2 :
  Forall2 P l1 l2 -> (forall a b, P a b -> Q a b) -> Forall2 Q l1 l2.
Proof. induction 1; constructor; auto. Qed.
Lemma Forall2_of_nth {A B} (P : A -> B -> Prop) l1 l2 :
  length l1 = length l2 ->
  (forall k a b, nth_error l1 k = Some a -> nth_error l2 k = Some b -> P a b) -> Forall2 P l1 l2.
Proof.
  revert l2; induction l1 as [|a l1 IH]; intros [|b l2] Hl H; simpl in *; try discriminate; constructor.
  - apply (H 0%nat); reflexivity.
  - apply IH; [lia|]. intros k. apply (H (S k)).
Qed.

Lemma wstep_gen (P : grid -> content -> Prop) (fresh : content -> op -> Prop)
  (HPR : forall g m, P g m -> RepD g m)
  (HPop : forall g m o g', P g m -> op_in rows cols o -> fresh m o -> step g o = (Done, g') ->
          RepD g' (spec_step m o) -> P g' (spec_step m o))
  (HPi : forall g m g' m', P g m -> RepD g' m' -> g_detected g' = g_detected g ->
          (forall tc, present m' tc = true -> present m tc = true) ->
          g_nb g' - icount rows cols m' = g_nb g - icount rows cols m -> P g' m') :
  forall w ms o, Forall2 P w ms -> wop_in (length w) rows cols o ->
    (forall k m o', o = WOp k o' -> nth_error ms k = Some m -> fresh m o') ->
    exists w', wstep w o = Some w' /\ Forall2 P w' (wspec_step ms o) /\ length w' = length w.
Proof.
  intros w ms o HW Hin Hfr. destruct o as [k o|i j|]; simpl in Hin.
  - destruct Hin as [Hk Ho]. simpl.
    destruct (nth_error w k) as [g|] eqn:Eg; [|apply nth_error_None in Eg; lia].
    destruct (Forall2_nth _ _ _ _ _ HW Eg) as (m & Em & Hp). rewrite Em.
    destruct (step_books g m o (HPR _ _ Hp) Ho) as (g' & Hs & HR' & _). rewrite Hs.
    eexists. split; [reflexivity|]. split; [|apply upd_length].
    apply Forall2_upd; auto. eapply HPop; eauto.
  - destruct Hin as (Hi & Hj & Hij). simpl.
    destruct (nth_error w i) as [g0|] eqn:E0; [|apply nth_error_None in E0; lia].
    destruct (nth_error w j) as [g1|] eqn:E1; [|apply nth_error_None in E1; lia].
    destruct (Forall2_nth _ _ _ _ _ HW E0) as (m0 & Em0 & Hp0).
    destruct (Forall2_nth _ _ _ _ _ HW E1) as (m1 & Em1 & Hp1). rewrite Em0, Em1.
    destruct (intersect2_Rep g0 m0 g1 m1 (HPR _ _ Hp0) (HPR _ _ Hp1))
      as (g0' & g1' & -> & R0 & R1 & T0 & T1 & D0 & D1 & B0 & B1).
    eexists. split; [reflexivity|]. split; [|now rewrite !upd_length].
    apply Forall2_upd; [apply Forall2_upd; auto|].
    + eapply HPi; [exact Hp0|..]; auto. intros [t c]. unfold present, common. simpl.
      destruct (m0 t c); auto; discriminate.
    + eapply HPi; [exact Hp1|..]; auto. intros [t c]. unfold present, common. simpl.
      destruct (m1 t c); auto; discriminate.
  - assert (Forall2 (fun g m => RepD g m) w ms) as HR by (eapply Forall2_weak; [exact HW|auto]).
    assert (w <> []) as Hne by (destruct w; simpl in *; [lia|congruence]).
    destruct (intersect_many_Rep w ms HR Hne) as (w' & E & Hlen & Hall).
    exists w'. simpl. rewrite E. split; auto. split; auto.
    apply Forall2_of_nth.
    + rewrite map_length, Hlen. eapply Forall2_len; eauto.
    + intros k g' m' Hg' Hm'. rewrite nth_error_map in Hm'.
      destruct (nth_error ms k) as [m|] eqn:Em; simpl in Hm'; [|discriminate]. inversion Hm'; subst m'.
      destruct (nth_error w k) as [g|] eqn:Eg.
      2:{ apply nth_error_None in Eg. assert (nth_error w' k <> None) as Hx by congruence.
          apply nth_error_Some in Hx. lia. }
      destruct (Hall k g m Eg Em) as (g2 & Hg2 & R2 & T2 & D2 & B2).
      assert (g2 = g') by congruence. subst g2.
      destruct (Forall2_nth _ _ _ _ _ HW Eg) as (m2 & Em2 & Hp). assert (m2 = m) by congruence. subst m2.
      eapply HPi; [exact Hp|..]; auto. intros [t c]. unfold present, common_all. simpl.
      destruct (forallb _ ms); auto. discriminate.
Qed.

Lemma icount_mono m m' : (forall tc, present m' tc = true -> present m tc = true) ->
  icount rows cols m' <= icount rows cols m.
Proof.
  intros H. unfold icount. induction (zrange N) as [|i l IH]; simpl; [lia|].
  unfold ipresent in *. specialize (H (i / 4, i mod 4)).
  destruct (present m' (i / 4, i mod 4)); [rewrite H by auto; lia|].
  destruct (present m (i / 4, i mod 4)); lia.
Qed.

Lemma wspec_step_length ms o : length (wspec_step ms o) = length ms.
Proof.
  destruct o as [k o|i j|]; simpl.
  - destruct (nth_error ms k); rewrite ?upd_length; auto.
  - destruct (nth_error ms i); auto. destruct (nth_error ms j); rewrite ?upd_length; auto.
  - apply map_length.
Qed.

Lemma wrun_gen (P : grid -> content -> Prop) (Fr : list content -> list wop -> Prop)
  (Hst : forall w ms o ops, Forall2 P w ms -> wop_in (length w) rows cols o -> Fr ms (o :: ops) ->
     exists w', wstep w o = Some w' /\ Forall2 P w' (wspec_step ms o) /\ length w' = length w /\ Fr (wspec_step ms o) ops) :
  forall ops w ms, Forall2 P w ms -> Forall (wop_in (length w) rows cols) ops -> Fr ms ops ->
    exists w', wrun w ops = Some w' /\ Forall2 P w' (wspec_run ops ms) /\ length w' = length w.
Proof.
  induction ops as [|o ops IH]; intros w ms HW Hin HF; simpl.
  - eauto.
  - inversion Hin as [|? ? Ho Hops]; subst.
    destruct (Hst w ms o ops HW Ho HF) as (w1 & -> & HW1 & Hl & HF1).
    destruct (IH w1 _ HW1) as (w' & Hr & HW' & Hl'); auto; [rewrite Hl; auto|].
    exists w'. split; auto. split; auto. congruence.
Qed.

Lemma wrun_ge ops w ms :
  WInv w ms -> Forall (wop_in (length w) rows cols) ops ->
  exists w', wrun w ops = Some w' /\ WInv w' (wspec_run ops ms) /\ length w' = length w.
Proof.
  intros HW Hin. unfold WInv in *.
  apply (wrun_gen (fun g m => RepD g m /\ icount rows cols m <= g_nb g) (fun _ _ => True)); auto.
  clear - Hrows Hcols. intros w ms o ops HW Hin _.
  destruct (wstep_gen (fun g m => RepD g m /\ icount rows cols m <= g_nb g) (fun _ _ => True)) with (w:=w) (ms:=ms) (o:=o)
    as (w' & H1 & H2 & H3); auto.
  - tauto.
  - intros g m o' g' [HR Hle] Ho _ Hs HR'. split; auto.
    destruct o' as [t c kp|t c|t|]; cbn [step] in Hs; cbn [op_in] in Ho.
    + destruct (add_Rep g m t c kp HR Ho) as (g2 & E & _ & Hnb & _). rewrite E in Hs. inversion Hs; subst.
      rewrite icount_add by auto. destruct (m t c); lia.
    + destruct (remove_Rep g m t c HR Ho) as (g2 & E & _ & _ & Hn & Hy). rewrite E in Hs. inversion Hs; subst.
      rewrite icount_remove by auto. pose proof (icount_remove m t c Ho) as Hr.
      pose proof (icount_nonneg rows cols (spec_step m (OpRemove t c))).
      destruct (m t c) eqn:Em; [destruct Hy as [Hy _]; [congruence|]; lia|rewrite Hn by auto; lia].
    + clear HR'. revert Hs.
      assert (forall c, 0 <= c < 4 -> corner_in rows cols t c) as Hc by (unfold corner_in; lia).
      assert (forall g m c, 0 <= c < 4 -> RepD g m -> icount rows cols m <= g_nb g ->
        exists g', remove g t c = (Done, g') /\ RepD g' (spec_step m (OpRemove t c)) /\
          icount rows cols (spec_step m (OpRemove t c)) <= g_nb g') as Hone.
      { intros ga ma c Hcc HRa Hlea.
        destruct (remove_Rep ga ma t c HRa (Hc c Hcc)) as (g2 & E & HR2 & _ & Hn & Hy).
        exists g2. split; auto. split; auto.
        pose proof (icount_remove ma t c (Hc c Hcc)) as Hr.
        pose proof (icount_nonneg rows cols (spec_step ma (OpRemove t c))).
        destruct (ma t c) eqn:Em; [destruct Hy as [Hy _]; [congruence|]; lia|rewrite Hn by auto; lia]. }
      unfold remove_tag.
      destruct (Hone g m 0 ltac:(lia) HR Hle) as (g1 & -> & R1 & L1). simpl seq_st.
      destruct (Hone g1 _ 1 ltac:(lia) R1 L1) as (g2 & -> & R2 & L2). simpl seq_st.
      destruct (Hone g2 _ 2 ltac:(lia) R2 L2) as (g3 & -> & R3 & L3). simpl seq_st.
      destruct (Hone g3 _ 3 ltac:(lia) R3 L3) as (g4 & -> & R4 & L4).
      intros E. inversion E; subst. etransitivity; [|exact L4].
      apply Z.eq_le_incl. apply icount_ext. intros t' c' [_ Hc']. unfold present. cbn [fst snd]. simpl.
      destruct (Z.eqb_spec t' t); simpl; auto.
      assert (c' = 0 \/ c' = 1 \/ c' = 2 \/ c' = 3) as [->|[->|[->| ->]]] by lia; reflexivity.
    + inversion Hs; subst. simpl. rewrite icount_nothing. lia.
  - intros g m g' m' [HR Hle] HR' _ _ B. split; auto. lia.
  - eauto.
Qed.

Lemma wrun_eq ops w ms :
  WInvEq w ms -> Forall (wop_in (length w) rows cols) ops -> wall_fresh ms ops ->
  exists w', wrun w ops = Some w' /\ WInvEq w' (wspec_run ops ms) /\ length w' = length w.
Proof.
  intros HW Hin HF. unfold WInvEq in *.
  set (P := fun g m => RepD g m /\ g_nb g = icount rows cols m /\ (icount rows cols m <> 0 -> g_detected g = true)).
  apply (wrun_gen P wall_fresh); auto.
  clear - Hrows Hcols. intros w ms o ops HW Hin [Hf Hfs].
  destruct (wstep_gen P op_fresh) with (w:=w) (ms:=ms) (o:=o) as (w' & H1 & H2 & H3); auto.
  - unfold P; tauto.
  - intros g m o' g' (HR & Hnb & Hdet) Ho Hfr Hs HR'.
    split; auto.
    destruct (step_books g m o' HR Ho) as (g2 & Hs2 & _ & _ & _ & _ & C).
    assert (g2 = g') by congruence. subst g2. split; [auto|].
    intros Hpos. rewrite <- (C Hfr Hnb) in Hpos. clear C Hs2.
    destruct o' as [t c kp|t c|t|]; cbn [step] in Hs; cbn [op_in] in Ho.
    + destruct (add_Rep g m t c kp HR Ho) as (g2 & E & _ & _ & Hd & _). congruence.
    + destruct (remove_Rep g m t c HR Ho) as (g2 & E & _ & _ & Hn & Hy).
      assert (g2 = g') by congruence. subst g2.
      destruct (m t c) eqn:Em.
      * destruct Hy as [_ Hy]; [congruence|]. rewrite Hy. lia.
      * rewrite Hn in * by auto. apply Hdet. lia.
    + assert (forall g c, flag zero_row = false -> (g_nb g <> 0 -> g_detected g = true) -> forall g', remove g t c = (Done, g') -> g_nb g' <> 0 -> g_detected g' = true) as Hone.
      { clear. intros g c _ Hd g' Hs Hne. unfold remove in Hs.
        destruct (rd (g_data g) (t * 4 + c)) as [r| |]; try discriminate.
        destruct (flag r); inversion Hs; subst; auto. simpl in *.
        destruct (Z.eqb_spec (Z.max (g_nb g - 1) 0) 0); auto; try lia. }
      unfold remove_tag in Hs.
      destruct (remove g t 0) as [[] ga] eqn:Ea; simpl seq_st in Hs; try discriminate.
      destruct (remove ga t 1) as [[] gb] eqn:Eb; simpl seq_st in Hs; try discriminate.
      destruct (remove gb t 2) as [[] gc] eqn:Ec; simpl seq_st in Hs; try discriminate.
      assert (g_nb g <> 0 -> g_detected g = true) as H0 by (intros; apply Hdet; lia).
      pose proof (Hone _ _ eq_refl H0 _ Ea) as Ha.
      pose proof (Hone _ _ eq_refl Ha _ Eb) as Hb.
      pose proof (Hone _ _ eq_refl Hb _ Ec) as Hc.
      exact (Hone _ _ eq_refl Hc _ Hs Hpos).
    + inversion Hs; subst. simpl in Hpos. lia.
  - intros g m g' m' (HR & Hnb & Hdet) HR' HD Hsub B. split; auto. split; [lia|].
    intros Hpos. rewrite HD. apply Hdet. pose proof (icount_mono m m' Hsub). pose proof (icount_nonneg rows cols m'). lia.
  - intros k m o' -> Hm. simpl in Hf. now rewrite Hm in Hf.
  - eauto 6.
Qed.

Lemma new_world_inv tss : WInv (new_world tss rows cols size sp) (map (fun _ => nothing) tss) /\
                          WInvEq (new_world tss rows cols size sp) (map (fun _ => nothing) tss).
Proof.
  unfold WInv, WInvEq, new_world. induction tss as [|ts tss [IH1 IH2]]; simpl; [split; constructor|].
  split; constructor; auto; split; try apply Rep_new; rewrite icount_nothing; simpl; auto with zarith.
Qed.

(** ** tag_ids *)
Lemma set_insert_In x y l : In y (set_insert x l) <-> y = x \/ In y l.
Proof.
  induction l as [|z l IH]; simpl; [intuition|].
  destruct (Z.ltb_spec x z); [simpl; intuition|].
  destruct (Z.eqb_spec x z); [subst; simpl; intuition|]. simpl. rewrite IH. intuition.
Qed.
Lemma set_insert_sorted x l : StronglySorted Z.lt l -> StronglySorted Z.lt (set_insert x l).
Proof.
  induction l as [|z l IH]; intros H; simpl; [repeat constructor|].
  destruct (sorted_cons_inv _ _ H) as [H' Hz]. unfold lt_all in Hz. rewrite Forall_forall in Hz.
  destruct (Z.ltb_spec x z).
  - constructor; auto. apply Forall_forall. intros y [->|Hy]; auto. specialize (Hz _ Hy). lia.
  - destruct (Z.eqb_spec x z); auto. constructor; auto. apply Forall_forall. intros y Hy.
    apply set_insert_In in Hy. destruct Hy as [->|Hy]; [lia|auto].
Qed.

Lemma tag_ids_Rep g m : RepD g m ->
  exists l, tag_ids g = Ret l /\ StronglySorted Z.lt l /\
            forall t, In t l <-> exists c, corner_in rows cols t c /\ m t c <> None.
Proof.
  intros HR. unfold tag_ids. rewrite (scan_Rep g m HR). simpl. eexists. split; [reflexivity|].
  assert (forall (l : list (Z * row)) s, StronglySorted Z.lt s ->
    StronglySorted Z.lt (fold_left (fun s ir => set_insert (Z.quot (fst ir) 4) s) l s) /\
    forall t, In t (fold_left (fun s ir => set_insert (Z.quot (fst ir) 4) s) l s) <->
              In t s \/ exists i r, In (i, r) l /\ Z.quot i 4 = t) as Hgen.
  { induction l as [|[i r] l IH]; intros s Hs; simpl.
    - split; auto. intros t. split; auto. intros [|(i & r & [] & _)]; auto.
    - destruct (IH (set_insert (Z.quot i 4) s) (set_insert_sorted _ _ Hs)) as [IH1 IH2]. split; auto.
      intros t. rewrite IH2, set_insert_In. split.
      + intros [[->|H]|(j & r' & Hj & E)]; auto.
        * right. exists i, r. auto.
        * right. exists j, r'. auto.
      + intros [H|(j & r' & [Ej|Hj] & E)]; auto.
        * inversion Ej; subst. auto.
        * right. exists j, r'. auto. }
  destruct (Hgen (scan_spec m) [] ltac:(constructor)) as [H1 H2]. split; auto.
  intros t. rewrite H2. split.
  - intros [[]|(i & r & Hi & <-)]. unfold scan_spec in Hi. apply in_flat_map in Hi.
    destruct Hi as (j & Hj & Hin). apply zrange_In in Hj. unfold ipresent, present in Hin. cbn [fst snd] in Hin.
    destruct (m (j / 4) (j mod 4)) eqn:E; simpl in Hin; [|tauto]. destruct Hin as [E'|[]]. inversion E'; subst.
    rewrite Z.quot_div_nonneg by lia. exists (i mod 4). split; [unfold corner_in; lia|congruence].
  - intros (c & Hc & Hm). right. destruct (corner_index _ _ _ _ Hc) as (Hi & Hdv & Hmd).
    exists (t * 4 + c), (frow cols size sp m (t * 4 + c)). split.
    + unfold scan_spec. apply in_flat_map. exists (t * 4 + c). split; [now apply zrange_In|].
      unfold ipresent, present. cbn [fst snd]. rewrite Hdv, Hmd. destruct (m t c); [simpl; auto|congruence].
    + rewrite Z.quot_div_nonneg by lia. auto.
Qed.

(** ** common_measurements *)
Lemma scan2_tab f h idx :
  (forall i, In i idx -> 0 <= i < N) ->
  scan2 (tab N f) (tab N h) idx =
  Ret (flat_map (fun i => if flag (f i) && flag (h i) then [(i, f i, h i)] else []) idx).
Proof.
  induction idx as [|i idx IH]; intros H; simpl; auto.
  rewrite !rd_tab by (apply H; simpl; auto). cbn [obind].
  rewrite IH by (intros; apply H; simpl; auto).
  destruct (flag (f i)); simpl; auto. destruct (flag (h i)); reflexivity.
Qed.

End Dims.
