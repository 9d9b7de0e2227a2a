(** * Lemmas: the columns of the view evaluator *)
From Coq Require Import Reals Lra Permutation.
From Verif Require Import Base SolverLsqModel SolverLsqProofs MargHessModel CovarModel CovarSpec CovarProofs.
From Verif Require Import Prop_MargHess.
From Coq Require Import ZifyBool ZifyNat.
Local Open Scope Z_scope.

Lemma hess_ext info o o' rs a c : (forall p, involves rs p -> pi_fixed (info p) = false -> order_at o p = order_at o' p) ->
  fst (form_hessian info o rs) a c = fst (form_hessian info o' rs) a c.
Proof.
  intros H. rewrite (proj1 (form_hessian_spec info o rs a c)), (proj1 (form_hessian_spec info o' rs a c)).
  induction rs as [|x rs IH]; [reflexivity|]. cbn [sum_res fold_right].
  assert (E : forall k d, jrow info o (rs_blk x) k d = jrow info o' (rs_blk x) k d).
  { intros k d. assert (Hx : forall p, In p (map fst (rs_blk x)) -> pi_fixed (info p) = false -> order_at o p = order_at o' p) by (intros p Hp; apply H; exists x; split; [left; reflexivity|exact Hp]).
    clear IH H. induction (rs_blk x) as [|b bs IH]; [reflexivity|]. rewrite !jrow_cons, IH by (intros; apply Hx; [right; assumption|assumption]). f_equal.
    unfold ent. destruct (pi_fixed (info (fst b))) eqn:F; [reflexivity|]. rewrite (Hx (fst b)); [reflexivity|left; reflexivity|exact F]. }
  f_equal; [apply sumn_ext; intros k _; rewrite !E; reflexivity|]. apply IH. intros p (y & Hy & Hp). apply H. exists y. split; [right; exact Hy|exact Hp].
Qed.
Lemma stacked_sum_app rs rs' p q a b :
  sumn (total_rows (rs ++ rs')) (fun k => stacked (rs ++ rs') p k a * stacked (rs ++ rs') q k b)%R =
  (sumn (total_rows rs) (fun k => stacked rs p k a * stacked rs q k b) + sumn (total_rows rs') (fun k => stacked rs' p k a * stacked rs' q k b))%R.
Proof.
  rewrite !sum_stacked. unfold sum_res. induction rs as [|x rs IH]; cbn [app fold_right]; [lra|]. rewrite IH. lra.
Qed.
Lemma find_app (x y : list (Z * Z)) p : order_find (x ++ y) p = match order_find x p with Some i => Some i | None => order_find y p end.
Proof. induction x as [|[q i] x IH]; [reflexivity|]. cbn [app order_find]. destruct (_ =? _); [reflexivity|apply IH]. Qed.
Lemma assign_app info l l' i : assign info i (l ++ l') = assign info i l ++ assign info (i + sizes info l) l'.
Proof.
  revert i. induction l as [|p l IH]; intros i; cbn [app assign]; [f_equal; cbn; lia|]. rewrite IH. do 2 f_equal. cbn [sizes fold_right]. unfold sizes. cbn [fold_right]. f_equal. lia.
Qed.
Lemma find_none info l i p : ~ In p l -> order_find (assign info i l) p = None.
Proof.
  revert i. induction l as [|q l IH]; intros i H; [reflexivity|]. cbn [assign order_find]. destruct (Z.eqb_spec p q) as [->|_]; [exfalso; apply H; left; reflexivity|]. apply IH. intros K. apply H. right. exact K.
Qed.

Section Nbv.
Context (info : Z -> pinfo) (rs news : list resid) (np : Z).
Notation blks := (blocks_of rs).
Definition nbv_list : list Z := nbv_seen info TCamera blks ++ nbv_seen info TExtrinsics blks ++ nbv_seen info TPose blks.
Lemma seen_in t p : In p (nbv_seen info t blks) <-> involves rs p /\ pi_fixed (info p) = false /\ has_type info t p = true.
Proof.
  unfold nbv_seen. rewrite !filter_In, (proj2 (first_seen_spec blks) p), used_involves. unfold free. destruct (pi_fixed (info p)); simpl; intuition congruence.
Qed.
Lemma seen_nodup t : NoDup (nbv_seen info t blks).
Proof. apply NoDup_filter', NoDup_filter', first_seen_spec. Qed.
Lemma list_in p : In p nbv_list <-> involves rs p /\ pi_fixed (info p) = false /\ (pi_type (info p) = TCamera \/ pi_type (info p) = TExtrinsics \/ pi_type (info p) = TPose).
Proof.
  unfold nbv_list. rewrite !in_app_iff, !seen_in. unfold has_type. destruct (pi_type (info p)); intuition congruence.
Qed.
Lemma list_nodup : NoDup nbv_list.
Proof.
  unfold nbv_list. apply NoDup_app'; [apply seen_nodup|apply NoDup_app'; [apply seen_nodup|apply seen_nodup|]|].
  - intros p Hp Hq. apply seen_in in Hp as (_ & _ & Hp). apply seen_in in Hq as (_ & _ & Hq). unfold has_type in *. destruct (pi_type (info p)); congruence.
  - intros p Hp. rewrite in_app_iff. apply seen_in in Hp as (_ & _ & Hp). intros [Hq|Hq]; apply seen_in in Hq as (_ & _ & Hq); unfold has_type in *; destruct (pi_type (info p)); congruence.
Qed.
Hypothesis KT : forall p, involves (rs ++ news) p -> pi_fixed (info p) = false ->
  pi_type (info p) = TCamera \/ pi_type (info p) = TExtrinsics \/ pi_type (info p) = TPose.
Hypothesis NP : ~ involves rs np.
Hypothesis NF : pi_fixed (info np) = false.
Hypothesis NN : forall p, involves news p -> pi_fixed (info p) = false -> p = np \/ involves rs p.
Hypothesis PS : forall p, pi_type (info p) = TPose -> pi_size (info p) = 6.
Hypothesis PN : exists p, involves rs p /\ pi_fixed (info p) = false /\ pi_type (info p) = TPose.
Lemma inv_app p : involves (rs ++ news) p <-> involves rs p \/ involves news p.
Proof.
  unfold involves. setoid_rewrite in_app_iff. split.
  - intros (x & [H|H] & Hp); [left|right]; exists x; auto.
  - intros [(x & H & Hp)|(x & H & Hp)]; exists x; auto.
Qed.
Lemma nbv_new : exists o, nbv_order_new info blks (concat (blocks_of news)) = Ret o /\
  (forall p, involves (rs ++ news) p -> pi_fixed (info p) = false -> order_at o p = order_at (assign info 0 (nbv_list ++ [np])) p).
Proof.
  assert (Hnew : forall p, involves news p <-> In p (concat (blocks_of news))).
  { intros p. rewrite in_concat. unfold involves, blocks_of. split.
    - intros (x & Hx & Hp). exists (map fst (rs_blk x)). split; [apply in_map_iff; exists x; auto|exact Hp].
    - intros (b & Hb & Hp). apply in_map_iff in Hb as (x & <- & Hx). exists x. auto. }
  unfold nbv_order_new. set (o := nbv_order info blks). assert (Eo : o = assign info 0 nbv_list) by reflexivity.
  set (new := filter _ _).
  assert (Hn : forall p, In p new -> p = np).
  { intros p Hp. apply filter_In in Hp as (Hp & F). apply Hnew in Hp. destruct (order_find o p) eqn:E; [discriminate F|]. unfold free in F.
    destruct (NN p Hp) as [|Hi]; [destruct (pi_fixed (info p)); [discriminate F|reflexivity]|assumption|]. exfalso.
    assert (Fp : pi_fixed (info p) = false) by (destruct (pi_fixed (info p)); [discriminate F|reflexivity]).
    assert (Hl : In p nbv_list) by (apply list_in; split; [exact Hi|]; split; [exact Fp|]; apply KT; [apply inv_app; left; exact Hi|exact Fp]).
    apply (assign_find_In info nbv_list 0) in Hl as (i & Hi'). rewrite Eo, Hi' in E. discriminate E. }
  assert (NL : ~ In np nbv_list) by (intros K; apply list_in in K; tauto).
  assert (Old : forall p, involves (rs ++ news) p -> pi_fixed (info p) = false -> p <> np -> In p nbv_list).
  { intros p Hp Hf Hne. apply list_in. assert (involves rs p) by (apply inv_app in Hp as [Hp|Hp]; [exact Hp|]; destruct (NN p Hp Hf); [contradiction|assumption]). auto. }
  assert (Hat : forall r p, In p nbv_list -> order_at (o ++ r) p = order_at (assign info 0 (nbv_list ++ [np])) p).
  { intros r p Hp. unfold order_at. rewrite assign_app, !find_app, Eo. apply (assign_find_In info nbv_list 0) in Hp as (i & Hi). rewrite Hi. reflexivity. }
  destruct new as [|n0 new'] eqn:En.
  - exists o. split; [reflexivity|]. intros p Hp Hf. destruct (Z.eq_dec p np) as [->|Hne].
    + exfalso. assert (Hin : In np new); [|rewrite En in Hin; destruct Hin]. apply filter_In. apply inv_app in Hp as [Hp|Hp]; [contradiction|]. split; [apply Hnew, Hp|].
      rewrite Eo, (find_none info nbv_list 0 np NL). unfold free. rewrite NF. reflexivity.
    + rewrite <- (Hat [] p (Old p Hp Hf Hne)), app_nil_r. reflexivity.
  - destruct (rev (nbv_seen info TPose blks)) as [|lp rp] eqn:Er.
    { exfalso. destruct PN as (p & H1 & H2 & H3). assert (Hin : In p (nbv_seen info TPose blks)) by (apply seen_in; unfold has_type; rewrite H3; auto).
      apply in_rev in Hin. rewrite Er in Hin. destruct Hin. }
    eexists. split; [reflexivity|]. intros p Hp Hf. destruct (Z.eq_dec p np) as [->|Hne].
    + assert (Ls : nbv_seen info TPose blks = rev rp ++ [lp]) by (rewrite <- (rev_involutive (nbv_seen info TPose blks)), Er; reflexivity).
      assert (Hlp : pi_type (info lp) = TPose). { assert (K : In lp (nbv_seen info TPose blks)) by (rewrite Ls; apply in_or_app; right; left; reflexivity). apply seen_in in K as (_ & _ & K). unfold has_type in K. destruct (pi_type (info lp)); congruence. }
      unfold order_at at 1. rewrite find_app, Eo, (find_none info nbv_list 0 np NL).
      assert (E1 : order_find (map (fun q => (q, order_at (assign info 0 nbv_list) lp + 6)) (n0 :: new')) np = Some (order_at (assign info 0 nbv_list) lp + 6)).
      { cbn [map order_find]. rewrite (Hn n0 (or_introl eq_refl)), Z.eqb_refl. reflexivity. }
      change (match order_find (map (fun q => (q, order_at (assign info 0 nbv_list) lp + 6)) (n0 :: new')) np with Some i => i | None => 0 end = order_at (assign info 0 (nbv_list ++ [np])) np).
      rewrite E1. unfold order_at. rewrite assign_app, find_app, (find_none info nbv_list 0 np NL). cbn [assign order_find]. rewrite Z.eqb_refl.
      set (A := nbv_seen info TCamera blks ++ nbv_seen info TExtrinsics blks ++ rev rp). assert (EL : nbv_list = A ++ [lp]) by (unfold nbv_list, A; rewrite Ls, <- !app_assoc; reflexivity).
      pose proof list_nodup as ND. rewrite EL in ND |- *.
      assert (Hfind : order_find (assign info 0 (A ++ [lp])) lp = Some (0 + sum_sizes info A)).
      { apply (assign_find info (A ++ [lp]) 0 lp ND). exists A, []. split; reflexivity. }
      rewrite Hfind. change (sizes info (A ++ [lp])) with (sum_sizes info (A ++ [lp])). rewrite sum_sizes_app. change (sum_sizes info [lp]) with (pi_size (info lp) + 0). rewrite (PS lp Hlp). lia.
    + apply (Hat _ p (Old p Hp Hf Hne)).
Qed.
End Nbv.
