(** * More AprilGrid lemmas: common_measurements, sampling, geometry, guards, files *)
From Coq Require Import Reals Lra Sorting.Sorted Permutation.
From Verif Require Import Base AprilGridModel AprilGridSpec AprilGridProofs AprilGridIOModel.
From Coq Require Import ZifyBool ZifyNat.
Ltac Zify.zify_post_hook ::= Z.div_mod_to_equations.
Local Open Scope Z_scope.

Lemma sorted_ext (l1 : list Z) : forall l2,
  StronglySorted Z.lt l1 -> StronglySorted Z.lt l2 ->
  (forall x, In x l1 <-> In x l2) -> l1 = l2.
Proof.
  induction l1 as [|a l1 IH]; intros [|b l2] H1 H2 H; auto.
  - exfalso. apply (proj2 (H b)). simpl; auto.
  - exfalso. apply (proj1 (H a)). simpl; auto.
  - inversion H1 as [|? ? S1 F1]; inversion H2 as [|? ? S2 F2]; subst.
    rewrite Forall_forall in F1, F2.
    assert (a = b) as ->.
    { destruct (proj1 (H a)) as [E|E]; [simpl; auto|auto|].
      destruct (proj2 (H b)) as [E'|E']; [simpl; auto|auto|].
      specialize (F1 _ E'). specialize (F2 _ E). lia. }
    f_equal. apply IH; auto. intros x. split; intros Hx.
    + destruct (proj1 (H x)) as [E|E]; [simpl; auto| |auto]. subst. specialize (F1 _ Hx). lia.
    + destruct (proj2 (H x)) as [E|E]; [simpl; auto| |auto]. subst. specialize (F2 _ Hx). lia.
Qed.

Section Dims.
Variables (rows cols : Z) (size sp : R).
Hypothesis Hrows : 0 <= rows.
Hypothesis Hcols : 0 <= cols.
Notation N := (rows * cols * 4).
Notation RepD := (Rep rows cols size sp).

(** ** common_measurements *)
Definition cmeas_of (mi mj : content) : cmeas :=
  let l := spec_common rows cols mi mj in
  mkCMeas (map (fun x => fst (fst (fst x))) l) (map (fun x => snd (fst (fst x))) l)
          (map (fun x => snd (fst x)) l) (map snd l)
          (map (fun x => corner_point cols size sp (fst (fst (fst x))) (snd (fst (fst x)))) l).

Lemma common_measurements_Rep gi mi gj mj a :
  RepD gi mi -> RepD gj mj -> g_detected gi = true -> g_detected gj = true ->
  common_measurements gi gj a =
  Ret (mkCMeas (c_tags a ++ c_tags (cmeas_of mi mj)) (c_corners a ++ c_corners (cmeas_of mi mj))
               (c_kps_i a ++ c_kps_i (cmeas_of mi mj)) (c_kps_j a ++ c_kps_j (cmeas_of mi mj))
               (c_pts a ++ c_pts (cmeas_of mi mj))).
Proof.
  intros (_ & _ & _ & _ & _ & Hdi) (_ & _ & _ & _ & _ & Hdj) Di Dj.
  unfold common_measurements. rewrite Di, Dj. simpl negb. cbn [orb].
  rewrite Hdi, Hdj, tab_length.
  replace (Z.of_nat (Z.to_nat N)) with N by lia.
  rewrite scan2_tab by (intros i Hi; now apply zrange_In in Hi).
  unfold omap, obind. f_equal.
  set (L := flat_map _ (zrange N)).
  assert (HL : map (fun x => (Z.quot (fst (fst x)) 4, Z.rem (fst (fst x)) 4,
                              rkp (snd (fst x)), rkp (snd x))) L
               = spec_common rows cols mi mj).
  { unfold L, spec_common. rewrite all_corners_rows, flat_map_map, map_flat_map.
    apply flat_map_ext_in. intros i Hi. apply zrange_In in Hi. cbn [fst snd].
    rewrite !flag_frow. unfold ipresent, present, frow. cbn [fst snd].
    destruct (mi (i / 4) (i mod 4)) eqn:Ei, (mj (i / 4) (i mod 4)) eqn:Ej; cbn; auto.
    now rewrite Z.quot_div_nonneg, Z.rem_mod_nonneg by lia. }
  assert (HO : map (fun x => robj (snd (fst x))) L =
     map (fun x => corner_point cols size sp (fst (fst (fst x))) (snd (fst (fst x))))
         (spec_common rows cols mi mj)).
  { rewrite <- HL, map_map. apply map_ext_in. intros x Hx. unfold L in Hx.
    apply in_flat_map in Hx. destruct Hx as (i & Hi & Hx). apply zrange_In in Hi.
    rewrite !flag_frow in Hx. destruct (ipresent mi i && ipresent mj i) eqn:E; [|contradiction].
    destruct Hx as [<-|[]]. cbn [fst snd]. apply andb_true_iff in E. destruct E as [E _].
    unfold ipresent, present in E. unfold frow. cbn [fst snd] in E.
    destruct (mi (i / 4) (i mod 4)); [|discriminate]. cbn [robj].
    now rewrite Z.quot_div_nonneg, Z.rem_mod_nonneg by lia. }
  unfold cmeas_of. cbn [c_tags c_corners c_kps_i c_kps_j c_pts].
  rewrite HO. rewrite <- HL, !map_map. cbn [fst snd].
  f_equal; f_equal; reflexivity.
Qed.

(** ** tag_ids as a filter *)
Lemma visible_iff m t : visible rows cols m t = true <-> exists c, 0 <= c < 4 /\ m t c <> None.
Proof.
  unfold visible. rewrite existsb_exists. split.
  - intros (c & Hc & Hp). exists c. split; [simpl in Hc; lia|].
    unfold present in Hp. cbn in Hp. destruct (m t c); congruence.
  - intros (c & Hc & Hm). exists c. split; [simpl; lia|].
    unfold present. cbn. destruct (m t c); congruence.
Qed.

Lemma visible_tags_In m t : In t (visible_tags rows cols m) <->
  exists c, corner_in rows cols t c /\ m t c <> None.
Proof.
  unfold visible_tags. rewrite filter_In, zrange_In, visible_iff.
  unfold corner_in. split.
  - intros (Ht & c & Hc & Hm). exists c. auto.
  - intros (c & (Ht & Hc) & Hm). split; auto. exists c. auto.
Qed.

Lemma tag_ids_visible g m : RepD g m -> tag_ids g = Ret (visible_tags rows cols m).
Proof.
  intros HR. destruct (tag_ids_Rep rows cols size sp g m HR) as (l & E & S & H).
  rewrite E. f_equal. apply sorted_ext; auto.
  - apply filter_sorted, zrange_sorted.
  - intros t. rewrite H. symmetry. apply visible_tags_In.
Qed.

(** ** sampling *)
Lemma sampled_In l p : sampled l p = true <-> In p l.
Proof.
  unfold sampled. rewrite existsb_exists. split.
  - intros (x & Hx & E). unfold pair_eqb in E. apply andb_true_iff in E.
    destruct E as [E1 E2]. apply Z.eqb_eq in E1, E2. destruct p, x; cbn in *; now subst.
  - intros H. exists p. split; auto. unfold pair_eqb. now rewrite !Z.eqb_refl.
Qed.

Definition smp_of (L : list (Z * Z * kp2)) : smp :=
  mkSmp (map (fun x => fst (fst x)) L) (map (fun x => snd (fst x)) L) (map snd L)
        (map (fun x => corner_point cols size sp (fst (fst x)) (snd (fst x))) L).

Definition SInv (m : content) (seen : list (Z * Z)) (L : list (Z * Z * kp2)) : Prop :=
  NoDup (map fst L) /\
  (forall t c kp, In (t, c, kp) L -> In (t, c) seen /\ corner_in rows cols t c /\ m t c = Some kp) /\
  (forall t c kp, In (t, c) seen -> m t c = Some kp -> In (t, c, kp) L).

Definition Drawn (tags : list Z) (rnd : nat -> Z) (k : nat) (seen : list (Z * Z)) :=
  forall j, (j < k)%nat -> In (draw tags rnd j) seen.

Definition SRes (m : content) (limit : Z) (rnd : nat -> Z) (k fuel : nat) (x : option (outcome smp)) :=
  (exists L', NoDup (map fst L') /\
      (forall t c kp, In (t, c, kp) L' -> corner_in rows cols t c /\ m t c = Some kp) /\
      Z.of_nat (length L') = Z.max limit 0 /\ x = Some (Ret (smp_of L'))) \/
  (x = None /\
   (fuel = O \/
    exists seen' L', SInv m seen' L' /\ Drawn (visible_tags rows cols m) rnd (k + fuel - 1) seen' /\
      Z.of_nat (length L') < limit)).

Lemma SRes_step m limit rnd k f x seen L :
  SInv m seen L -> Drawn (visible_tags rows cols m) rnd k seen -> Z.of_nat (length L) < limit ->
  SRes m limit rnd (S k) f x -> SRes m limit rnd k (S f) x.
Proof.
  intros HI HD Hl [H|(-> & H)]; [left; exact H|right]. split; auto. right.
  destruct H as [->|(s' & L' & H1 & H2 & H3)].
  - exists seen, L. replace (k + 1 - 1)%nat with k by lia. auto.
  - exists s', L'. replace (k + S f - 1)%nat with (S k + f - 1)%nat by lia. auto.
Qed.

Lemma sample_loop_inv g m limit rnd : RepD g m -> (forall k, 0 <= rnd k) ->
  visible_tags rows cols m <> [] ->
  forall fuel k seen L, SInv m seen L -> Drawn (visible_tags rows cols m) rnd k seen ->
  Z.of_nat (length L) <= Z.max limit 0 ->
  SRes m limit rnd k fuel
    (sample_loop fuel g (visible_tags rows cols m) limit rnd (2 * k) seen (smp_of L)).
Proof.
  intros HR Hrnd Hne. set (tags := visible_tags rows cols m) in *.
  induction fuel as [|f IH]; intros k seen L HI HD Hlen.
  - right. auto.
  - cbn [sample_loop]. replace (length (s_tags (smp_of L))) with (length L) by (cbn; now rewrite map_length).
    destruct (Z.ltb_spec (Z.of_nat (length L)) limit) as [Hlt|Hge].
    2:{ left. exists L. split; [apply HI|]. split; [intros t c kp Hx; now destruct HI as (_ & H1 & _); destruct (H1 _ _ _ Hx)|]. split; [lia|reflexivity]. }
    destruct tags as [|t0 tl] eqn:Etags; [congruence|]. rewrite <- Etags in *.
    set (i := Z.rem (rnd (2 * k)%nat) (Z.of_nat (length tags))).
    assert (Hlp : 0 < Z.of_nat (length tags)) by (rewrite Etags; simpl length; lia).
    assert (Hi : 0 <= i < Z.of_nat (length tags)).
    { unfold i. rewrite Z.rem_mod_nonneg by (auto; lia). apply Z.mod_pos_bound. lia. }
    rewrite (rd_in tags i 0 Hi).
    set (t := nth (Z.to_nat i) tags 0). set (c := Z.rem (rnd (S (2 * k))) 4).
    assert (Hc : 0 <= c < 4).
    { unfold c. rewrite Z.rem_mod_nonneg by (auto; lia). apply Z.mod_pos_bound. lia. }
    assert (Hdraw : draw tags rnd k = (t, c)).
    { unfold draw, t, c, i. replace (2 * k + 1)%nat with (S (2 * k)) by lia.
      now rewrite !Z.rem_mod_nonneg by (auto; lia). }
    assert (Hin : corner_in rows cols t c).
    { assert (In t tags) as Ht by (apply nth_In; lia).
      apply visible_tags_In in Ht. destruct Ht as (c' & (Ht & _) & _). split; auto. }
    replace (S (S (2 * k))) with (2 * S k)%nat by lia.
    apply (SRes_step m limit rnd k f _ seen L HI HD Hlt).
    assert (HD' : forall seen', incl seen seen' -> In (t, c) seen' -> Drawn tags rnd (S k) seen').
    { intros seen' Hincl Htc j Hj. destruct (Nat.eq_dec j k) as [->|]; [now rewrite Hdraw|].
      apply Hincl, HD. lia. }
    destruct (sampled seen (t, c)) eqn:Es.
    + apply sampled_In in Es.
      exact (IH (S k) seen L HI (HD' seen (incl_refl _) Es) Hlen).
    + rewrite (Rep_rd rows cols size sp g m t c HR Hin).
      destruct HI as (Hnd & H1 & H2).
      assert (Hns : ~ In (t, c) seen) by (intros Hx; apply sampled_In in Hx; congruence).
      destruct (m t c) as [kp|] eqn:Em; cbn [flag rkp robj zero_row].
      * assert (HI' : SInv m ((t, c) :: seen) (L ++ [(t, c, kp)])).
        { split; [|split].
          - rewrite map_app. cbn [map fst]. apply (Permutation_NoDup (l := (t, c) :: map fst L)).
            { rewrite <- Permutation_cons_append. reflexivity. }
            constructor; auto. intros Hx. apply in_map_iff in Hx.
            destruct Hx as ([[t' c'] kp'] & E & Hx). cbn in E. inversion E; subst.
            destruct (H1 _ _ _ Hx). auto.
          - intros t' c' kp' Hx. apply in_app_or in Hx. destruct Hx as [Hx|[Hx|[]]].
            + destruct (H1 _ _ _ Hx) as (Ha & Hb & Hc'). simpl; auto.
            + inversion Hx; subst. simpl; auto.
          - intros t' c' kp' [Hx|Hx] Hm.
            + inversion Hx; subst. rewrite Em in Hm. inversion Hm; subst.
              apply in_or_app; simpl; auto.
            + apply in_or_app. left. auto. }
        assert (Hlen' : Z.of_nat (length (L ++ [(t, c, kp)])) <= Z.max limit 0)
          by (rewrite app_length; simpl length; lia).
        assert (Hsm : mkSmp (s_tags (smp_of L) ++ [t]) (s_corners (smp_of L) ++ [c])
                        (s_kps (smp_of L) ++ [kp])
                        (s_pts (smp_of L) ++ [corner_point cols size sp t c])
                      = smp_of (L ++ [(t, c, kp)])).
        { unfold smp_of. rewrite !map_app. reflexivity. }
        rewrite Hsm.
        exact (IH (S k) ((t, c) :: seen) (L ++ [(t, c, kp)]) HI'
                    (HD' _ (incl_tl _ (incl_refl _)) (or_introl eq_refl)) Hlen').
      * assert (HI' : SInv m ((t, c) :: seen) L).
        { split; [auto|split].
          - intros t' c' kp' Hx. destruct (H1 _ _ _ Hx) as (Ha & Hb & Hc'). simpl; auto.
          - intros t' c' kp' [Hx|Hx] Hm; auto. inversion Hx; subst. congruence. }
        exact (IH (S k) ((t, c) :: seen) L HI'
                    (HD' _ (incl_tl _ (incl_refl _)) (or_introl eq_refl)) Hlen).
Qed.

Lemma SInv_nil m : SInv m [] [].
Proof. split; [constructor|split]; simpl; intros; contradiction. Qed.

Lemma visible_tags_nonempty m : 0 < icount rows cols m -> visible_tags rows cols m <> [].
Proof.
  intros H E.
  assert (H0 : icount rows cols m = 0).
  { rewrite <- (icount_nothing rows cols). apply icount_ext. intros t c Hin.
    unfold present. cbn. destruct (m t c) eqn:Em; auto. exfalso.
    assert (In t (visible_tags rows cols m)) as Hx by (apply visible_tags_In; exists c; split; auto; congruence).
    rewrite E in Hx. contradiction. }
  lia.
Qed.

Lemma sample_SRes g m n rnd fuel : RepD g m -> (forall k, 0 <= rnd k) ->
  0 < icount rows cols m -> g_nb g <> 0 ->
  SRes m (Z.min (g_nb g) n) rnd 0 fuel (sample fuel g n rnd (mkSmp [] [] [] [])).
Proof.
  intros HR Hr Hc Hnb. unfold sample. destruct (Z.eqb_spec (g_nb g) 0); [contradiction|].
  rewrite (tag_ids_visible g m HR).
  change (mkSmp [] [] [] []) with (smp_of []). change 0%nat with (2 * 0)%nat at 2.
  apply (sample_loop_inv g m); auto.
  - now apply visible_tags_nonempty.
  - apply SInv_nil.
  - intros j Hj; lia.
  - simpl length. lia.
Qed.

(** The length of a list of distinct present corners is at most the count. *)
Lemma distinct_le_icount m (D : list (Z * Z)) : NoDup D ->
  (forall t c, In (t, c) D -> corner_in rows cols t c /\ m t c <> None) ->
  Z.of_nat (length D) <= icount rows cols m.
Proof.
  intros Hnd H. rewrite <- spec_count_icount. unfold spec_count. rewrite countb_filter.
  apply inj_le. apply NoDup_incl_length; auto.
  intros [t c] Hx. destruct (H _ _ Hx) as [H1 H2]. apply filter_In. split.
  - now apply all_corners_In.
  - unfold present. cbn. destruct (m t c); congruence.
Qed.
End Dims.
