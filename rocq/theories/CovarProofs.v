(** * Lemmas: entries of the information matrix *)
From Coq Require Import Reals Lra.
From Verif Require Import Base SolverLsqModel SolverLsqProofs MargHessModel CovarModel CovarSpec.
From Verif Require Import Prop_MargHess.
From Coq Require Import ZifyBool ZifyNat.
Local Open Scope Z_scope.

Local Open Scope R_scope.
Lemma sum_stacked rs p q a b : sumn (total_rows rs) (fun k => stacked rs p k a * stacked rs q k b) =
  sum_res (fun x => sumn (rs_n x) (fun k => block_for p (rs_blk x) k a * block_for q (rs_blk x) k b)) rs.
Proof.
  induction rs as [|x rs IH]; [reflexivity|]. cbn [total_rows sum_res fold_right]. change (fold_right (fun x n => (rs_n x + n)%nat) 0%nat rs) with (total_rows rs).
  rewrite sumn_add. f_equal.
  - apply sumn_ext. intros k Hk. cbn [stacked]. replace (k <? Z.of_nat (rs_n x)) with true by lia. reflexivity.
  - unfold sum_res in IH. rewrite <- IH. apply sumn_ext. intros k Hk. cbn [stacked]. replace (Z.of_nat (rs_n x) + k <? Z.of_nat (rs_n x)) with false by lia.
    replace (Z.of_nat (rs_n x) + k - Z.of_nat (rs_n x))%Z with k by lia. reflexivity.
Qed.
Local Open Scope Z_scope.
Section Entry.
Context (info : Z -> pinfo) (L : list Z).
Hypothesis ND : NoDup L.
Hypothesis SZ : forall p, 0 <= pi_size (info p).
Hypothesis FR : forall p, In p L -> pi_fixed (info p) = false.
Definition o := assign info 0 L.

Lemma column_order p a c : column info L p a c <-> exists i, order_find o p = Some i /\ c = i + a /\ 0 <= a < pi_size (info p).
Proof.
  split.
  - intros (l1 & l2 & E & Ha & ->). exists (sum_sizes info l1). split; [|split; [reflexivity|exact Ha]].
    apply (assign_find info L 0 p ND). exists l1, l2. split; [exact E|]. rewrite Z.add_0_l. reflexivity.
  - intros (i & Hi & -> & Ha). apply (assign_find info L 0 p ND) in Hi as (l1 & l2 & E & ->). exists l1, l2. split; [exact E|]. split; [exact Ha|]. rewrite Z.add_0_l. reflexivity.
Qed.
Lemma column_unique p q a b c : column info L p a c -> column info L q b c -> p = q /\ a = b.
Proof.
  intros H1 H2. pose proof H1 as (l1 & l2 & E1 & Ha & E). pose proof H2 as (m1 & m2 & E2 & Hb & E').
  destruct (Z.eq_dec p q) as [->|Hne].
  - split; [reflexivity|]. apply column_order in H1 as (i & Hi & Ei & _). apply column_order in H2 as (j & Hj & Ej & _). rewrite Hi in Hj. injection Hj as <-. lia.
  - exfalso. assert (NN := fun l => sum_sizes_nonneg info l SZ).
    destruct (split_two L p q Hne l1 l2 m1 m2 E1 E2) as [[k ->]|[k ->]];
      change (fold_right (fun q n => pi_size (info q) + n) 0) with (sum_sizes info) in *; rewrite sum_sizes_app in *; simpl in *; specialize (NN k); lia.
Qed.
Lemma column_cover c : 0 <= c < sum_sizes info L -> exists p a, column info L p a c.
Proof.
  intros H. destruct (assign_cover info L 0 c) as (l1 & p & l2 & E & K); [lia|]. exists p, (c - sum_sizes info l1), l1, l2. split; [exact E|]. split; [lia|].
  change (fold_right (fun q n => pi_size (info q) + n) 0) with (sum_sizes info). lia.
Qed.
Lemma column_range p a c : column info L p a c -> 0 <= c < sum_sizes info L.
Proof.
  intros (l1 & l2 & E & Ha & ->). assert (NN := fun l => sum_sizes_nonneg info l SZ). rewrite E, sum_sizes_app. change (fold_right (fun q n => pi_size (info q) + n) 0 l1) with (sum_sizes info l1).
  simpl. pose proof (NN l1). pose proof (NN l2). lia.
Qed.
Lemma column_in p a c : column info L p a c -> In p L.
Proof. intros (l1 & l2 & E & _). rewrite E. apply in_or_app. right. left. reflexivity. Qed.

Local Open Scope R_scope.
Lemma jrow_block bs k p a c : NoDup (map fst bs) -> (forall q, In q (map fst bs) -> pi_fixed (info q) = true \/ In q L) -> column info L p a c ->
  jrow info o bs k c = block_for p bs k a.
Proof.
  intros Hn Hq Hc. assert (Fp := FR p (column_in _ _ _ Hc)).
  assert (Z0 : forall x, (pi_fixed (info (fst x)) = true \/ In (fst x) L) -> fst x <> p -> ent info o x k c = 0).
  { intros [q J] Hx Hne. cbn [fst] in *. destruct (pi_fixed (info q)) eqn:Fq; [apply ent_fixed; exact Fq|]. destruct Hx as [K|Hx]; [congruence|].
    rewrite ent_free by exact Fq. cbn [fst snd]. destruct (in_blk _ _ _) eqn:Eb; [|reflexivity]. exfalso. apply Hne.
    apply (assign_find_In info L 0%Z) in Hx as (j & Hj). change (assign info 0 L) with o in Hj. unfold order_at in Eb. rewrite Hj in Eb. unfold in_blk in Eb.
    apply (column_unique q p (c - j)%Z a c); [|exact Hc]. apply column_order. exists j. split; [exact Hj|]. lia. }
  induction bs as [|[q J] bs IH]; [reflexivity|]. rewrite jrow_cons. cbn [map fst] in *. inversion Hn as [|? ? Hni Hn']; subst. cbn [block_for].
  destruct (Z.eqb_spec q p) as [->|Hne].
  - assert (Ez : jrow info o bs k c = 0).
    { clear IH. assert (Hz : forall x, In x bs -> ent info o x k c = 0).
      { intros x Hx. apply Z0; [apply Hq; right; apply in_map; exact Hx|]. intros K. apply Hni. rewrite <- K. apply in_map. exact Hx. }
      clear -Hz. induction bs as [|x bs IH]; [reflexivity|]. rewrite jrow_cons, IH, (Hz x); [lra|left; reflexivity|intros; apply Hz; right; assumption]. }
    rewrite Ez. rewrite ent_free by (cbn [fst]; exact Fp). cbn [fst snd]. apply column_order in Hc as (i & Hi & -> & Ha). unfold order_at. rewrite Hi.
    replace (in_blk i (pi_size (info p)) (i + a)) with true by (unfold in_blk; symmetry; lia). replace (i + a - i)%Z with a by lia. lra.
  - rewrite Z0; [|apply Hq; left; reflexivity|exact Hne]. rewrite IH; [lra|exact Hn'|]. intros y Hy. apply Hq. right. exact Hy.
Qed.

Lemma hess_entry rs p q a b c d : (forall x, In x rs -> NoDup (map fst (rs_blk x))) -> (forall y, involves rs y -> pi_fixed (info y) = true \/ In y L) ->
  column info L p a c -> column info L q b d ->
  fst (form_hessian info o rs) c d = sumn (total_rows rs) (fun k => stacked rs p k a * stacked rs q k b).
Proof.
  intros Hn Hi Hc Hd. rewrite (proj1 (form_hessian_spec info o rs c d)), sum_stacked.
  revert Hn Hi. induction rs as [|x rs IH]; intros Hn Hi; [reflexivity|]. cbn [sum_res fold_right]. f_equal.
  - apply sumn_ext. intros k _. rewrite (jrow_block (rs_blk x) k p a c), (jrow_block (rs_blk x) k q b d); auto.
    + apply Hn. left. reflexivity.
    + intros y Hy. apply Hi. exists x. split; [left; reflexivity|exact Hy].
    + apply Hn. left. reflexivity.
    + intros y Hy. apply Hi. exists x. split; [left; reflexivity|exact Hy].
  - apply IH; [intros; apply Hn; right; assumption|]. intros y (z & Hz & Hy). apply Hi. exists z. split; [right; exact Hz|exact Hy].
Qed.
End Entry.
Lemma sizes_sum info l : sizes info l = sum_sizes info l. Proof. reflexivity. Qed.

(** ** The layout of estimate_covariance *)
Lemma used_involves rs p : used (blocks_of rs) p <-> involves rs p.
Proof.
  unfold used, involves, blocks_of. split.
  - intros (b & Hb & Hp). apply in_map_iff in Hb as (x & <- & Hx). exists x. auto.
  - intros (x & Hx & Hp). exists (map fst (rs_blk x)). split; [apply in_map_iff; exists x; auto|exact Hp].
Qed.
Lemma cov_marg_In info params rs p : In p (cov_marg info params (blocks_of rs)) <->
  involves rs p /\ pi_fixed (info p) = false /\ ~ In p params /\ pi_type (info p) <> TOther.
Proof.
  unfold cov_marg. rewrite !in_app_iff, !filter_In. pose proof (proj2 (first_seen_spec (blocks_of rs)) p) as U. rewrite used_involves in U.
  assert (X : existsb (Z.eqb p) params = true <-> In p params) by apply existsb_eqb.
  unfold free, has_type. destruct (existsb (Z.eqb p) params), (pi_fixed (info p)), (pi_type (info p)); simpl; intuition congruence.
Qed.
Lemma cov_marg_NoDup info params blks : NoDup (cov_marg info params blks).
Proof.
  unfold cov_marg. set (s := filter _ (first_seen blks)). assert (N : NoDup s) by (apply NoDup_filter', first_seen_spec).
  assert (D : forall t t' p, t <> t' -> In p (filter (has_type info t) s) -> ~ In p (filter (has_type info t') s)).
  { intros t t' p Ht A B. apply filter_In in A as [_ A]. apply filter_In in B as [_ B]. unfold has_type in A, B.
    destruct (pi_type (info p)), t, t'; simpl in *; congruence. }
  repeat (apply NoDup_app'; [apply NoDup_filter'; auto| |]); try (apply NoDup_filter'; auto);
    intros p Hp; rewrite ?in_app_iff; intros H;
    repeat match goal with H : _ \/ _ |- _ => destruct H as [H|H] end;
    (eapply D; [|exact Hp|exact H]); discriminate.
Qed.
Lemma cov_all_NoDup info params rs : NoDup params -> NoDup (cov_marg info params (blocks_of rs) ++ cov_remain info params).
Proof.
  intros H. apply NoDup_app'; [apply cov_marg_NoDup|apply NoDup_filter', H|].
  intros p Hp Hq. apply cov_marg_In in Hp as (_ & _ & Hp & _). apply filter_In in Hq as [Hq _]. tauto.
Qed.
Lemma cov_free info params rs p : In p (cov_marg info params (blocks_of rs) ++ cov_remain info params) -> pi_fixed (info p) = false.
Proof.
  rewrite in_app_iff. intros [H|H]; [apply cov_marg_In in H; tauto|]. apply filter_In in H as [_ H]. unfold free in H. destruct (pi_fixed _); [discriminate H|reflexivity].
Qed.
Lemma cov_all info params rs p : (forall q, involves rs q -> pi_fixed (info q) = false -> In q params \/ pi_type (info q) <> TOther) ->
  involves rs p -> pi_fixed (info p) = true \/ In p (cov_marg info params (blocks_of rs) ++ cov_remain info params).
Proof.
  intros HK Hp. destruct (pi_fixed (info p)) eqn:E; [left; reflexivity|right]. rewrite in_app_iff.
  destruct (in_dec Z.eq_dec p params) as [Hi|Hi].
  - right. apply filter_In. split; [exact Hi|]. unfold free. rewrite E. reflexivity.
  - left. apply cov_marg_In. destruct (HK p Hp E) as [K|K]; tauto.
Qed.
