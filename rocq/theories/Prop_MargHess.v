(** * C69 (continued): the linear system the marginalisation starts from *)
From Coq Require Import Reals Lra.
From Verif Require Import Base SolverLsqModel SolverLsqProofs MargHessModel.
From Coq Require Import ZifyBool ZifyNat.
Local Open Scope Z_scope.

(** ** Specification *)
Definition used (blks : list (list Z)) (p : Z) : Prop := exists b, In b blks /\ In p b.
(** parameter [p] owns column [c] *)
Definition has_column (info : Z -> pinfo) (o : list (Z * Z)) (p c : Z) : Prop :=
  exists i, order_find o p = Some i /\ i <= c < i + pi_size (info p).

Lemma see_fold l : forall s, NoDup s -> NoDup (fold_left see l s) /\
  forall p, In p (fold_left see l s) <-> In p s \/ In p l.
Proof.
  induction l as [|x l IH]; intros s Hs; cbn [fold_left].
  - split; auto. intros p; simpl; tauto.
  - assert (H : NoDup (see s x) /\ forall p, In p (see s x) <-> In p s \/ p = x).
    { unfold see. destruct (existsb (Z.eqb x) s) eqn:E.
      - apply existsb_eqb in E. split; auto. intros p. split; [auto|]. intros [ | -> ]; auto.
      - split.
        + apply NoDup_snoc; auto. intros H. apply existsb_eqb in H. congruence.
        + intros p. rewrite in_app_iff. simpl. intuition. }
    destruct H as [H1 H2]. destruct (IH _ H1) as [H3 H4]. split; auto.
    intros p. rewrite H4, H2. simpl. intuition congruence.
Qed.
Lemma first_seen_spec blks : NoDup (first_seen blks) /\ forall p, In p (first_seen blks) <-> used blks p.
Proof.
  unfold first_seen. destruct (see_fold (concat blks) [] ltac:(constructor)) as [A B]. split; auto.
  intros p. rewrite B, in_concat. unfold used. simpl. firstorder.
Qed.
Lemma NoDup_filter' {A} (f : A -> bool) l : NoDup l -> NoDup (filter f l).
Proof. apply NoDup_filter. Qed.
Lemma remain_In info marg blks p :
  In p (remain_params info marg blks) <->
  used blks p /\ marg p = false /\ pi_fixed (info p) = false /\ pi_type (info p) <> TOther.
Proof.
  unfold remain_params. rewrite filter_In, !in_app_iff, !filter_In.
  pose proof (proj2 (first_seen_spec blks) p) as U. unfold is_type.
  destruct (marg p), (pi_fixed (info p)), (pi_type (info p)); simpl; intuition congruence.
Qed.
Lemma remain_NoDup info marg blks : NoDup (remain_params info marg blks).
Proof.
  unfold remain_params. apply NoDup_filter'. pose proof (proj1 (first_seen_spec blks)) as N.
  assert (D : forall t t' p, t <> t' -> In p (filter (is_type info marg t) (first_seen blks)) ->
                             ~ In p (filter (is_type info marg t') (first_seen blks))).
  { intros t t' p Ht A B. apply filter_In in A as [_ A]. apply filter_In in B as [_ B]. unfold is_type in A, B.
    destruct (marg p), (pi_type (info p)), t, t'; simpl in *; congruence. }
  repeat (apply NoDup_app'; [apply NoDup_filter'; auto| |]); try (apply NoDup_filter'; auto);
    intros p Hp; rewrite ?in_app_iff; intros H;
    repeat match goal with H : _ \/ _ |- _ => destruct H as [H|H] end;
    (eapply D; [|exact Hp|exact H]); discriminate.
Qed.
Lemma all_NoDup info marg blks : NoDup (marg_params marg blks ++ remain_params info marg blks).
Proof.
  apply NoDup_app'.
  - apply NoDup_filter', first_seen_spec.
  - apply remain_NoDup.
  - intros p Hp H. apply filter_In in Hp as [_ Hp]. apply remain_In in H. destruct H as (_ & H & _). congruence.
Qed.
Lemma sizes_eq info l : sizes info l = sum_sizes info l.
Proof. reflexivity. Qed.

(** For supported parameter types: every marginalised parameter owns columns of [0, m), every
    remaining free one of [m, m + r), each column of [0, m + r) belongs to exactly one of
    them. *)
Theorem C69_layout_partial : forall info marg blks,
  (forall p, 0 <= pi_size (info p)) ->
  let o := marg_order info marg blks in let m := marg_m info marg blks in let r := marg_r info marg blks in
  (forall p c, marg p = true -> used blks p -> has_column info o p c -> 0 <= c < m) /\
  (forall p c, marg p = false -> has_column info o p c -> m <= c < m + r) /\
  (forall p, used blks p ->
     (marg p = true \/ (pi_fixed (info p) = false /\ pi_type (info p) <> TOther)) <-> exists i, order_find o p = Some i) /\
  (forall c, 0 <= c < m + r -> exists p, used blks p /\ has_column info o p c) /\
  (forall p q c, has_column info o p c -> has_column info o q c -> p = q).
Proof.
  intros info marg blks Hsz o m r.
  pose proof (all_NoDup info marg blks) as Hnd.
  pose proof (fun p i => assign_find info _ 0 p Hnd i) as Hfind. fold o in Hfind.
  assert (In_m : forall p, In p (marg_params marg blks) <-> used blks p /\ marg p = true).
  { intros p. unfold marg_params. rewrite filter_In. now rewrite (proj2 (first_seen_spec blks)). }
  assert (Hin : forall p, (exists i, order_find o p = Some i) <-> In p (marg_params marg blks ++ remain_params info marg blks)).
  { intros p. apply (assign_find_In info). }
  assert (Hsplit : forall p i, order_find o p = Some i ->
     (exists l1 l2, marg_params marg blks = l1 ++ p :: l2 /\ i = sum_sizes info l1) \/
     (exists l1 l2, remain_params info marg blks = l1 ++ p :: l2 /\ i = m + sum_sizes info l1)).
  { intros p i Hi. apply Hfind in Hi. destruct Hi as (l1 & l2 & E & ->).
    apply app_eq_app in E. destruct E as (k & [[E1 E2]|[E1 E2]]).
    - destruct k as [|z k].
      + right. rewrite app_nil_r in E1. simpl in E2. exists [], l2. split; [now rewrite E2|]. unfold m, marg_m. rewrite E1. change (sizes info l1) with (sum_sizes info l1). unfold sum_sizes at 3. simpl fold_right. lia.
      + injection E2 as <- E2. left. exists l1, k. split; [exact E1|lia].
    - right. exists k, l2. split; [exact E2|]. rewrite E1, sum_sizes_app. unfold m, marg_m. change (sizes info) with (sum_sizes info). lia. }
  assert (NN := fun l => sum_sizes_nonneg info l Hsz).
  split; [|split; [|split; [|split]]].
  - intros p c Hm Hu (i & Hi & Hc). destruct (Hsplit p i Hi) as [(l1 & l2 & E & ->)|(l1 & l2 & E & ->)].
    + unfold m, marg_m. change (sizes info) with (sum_sizes info); rewrite E, sum_sizes_app. simpl. pose proof (NN l1). pose proof (NN l2). lia.
    + exfalso. assert (H : In p (remain_params info marg blks)) by (rewrite E; apply in_app_iff; right; now left).
      apply remain_In in H. destruct H as (_ & H & _). congruence.
  - intros p c Hm (i & Hi & Hc). destruct (Hsplit p i Hi) as [(l1 & l2 & E & ->)|(l1 & l2 & E & ->)].
    + exfalso. assert (H : In p (marg_params marg blks)) by (rewrite E; apply in_app_iff; right; now left).
      apply In_m in H. destruct H. congruence.
    + assert (Er : r = sum_sizes info (remain_params info marg blks)) by reflexivity.
      rewrite E, sum_sizes_app in Er. simpl in Er. pose proof (NN l1). pose proof (NN l2). lia.
  - intros p Hu. rewrite Hin, in_app_iff, In_m, remain_In. destruct (marg p); intuition congruence.
  - intros c Hc.
    destruct (assign_cover info (marg_params marg blks ++ remain_params info marg blks) 0 c) as (l1 & p & l2 & E & H).
    { rewrite sum_sizes_app. unfold m, r, marg_m, marg_r in Hc. change (sizes info) with (sum_sizes info) in Hc. lia. }
    exists p. split.
    + assert (H1 : In p (marg_params marg blks ++ remain_params info marg blks)) by (rewrite E; apply in_app_iff; right; now left).
      apply in_app_iff in H1. rewrite In_m, remain_In in H1. tauto.
    + exists (0 + sum_sizes info l1). split; [|lia]. apply Hfind. eauto.
  - intros p q c (i & Hi & H1) (j & Hj & H2). destruct (Z.eq_dec p q) as [|Hne]; auto. exfalso.
    apply Hfind in Hi. apply Hfind in Hj. destruct Hi as (l1 & l2 & E1 & ->), Hj as (m1 & m2 & E2 & ->).
    destruct (split_two _ p q Hne l1 l2 m1 m2 E1 E2) as [[k ->]|[k ->]];
      rewrite sum_sizes_app in *; simpl in *; pose proof (NN k); lia.
Qed.

Section Hess.
Local Open Scope R_scope.
(** With supported types and no parameter twice in one residual: H = J^T J and b = - J^T r for the
    stacked Jacobian J and residual r. *)
Theorem C69_hessian_partial : forall info marg (rs : list resid) H b J r,
  (forall p, (0 <= pi_size (info p))%Z) ->
  let blks := map (fun x => map fst (rs_blk x)) rs in
  (forall p, used blks p -> pi_fixed (info p) = false -> marg p = false -> pi_type (info p) <> TOther) ->
  (forall x, In x rs -> NoDup (map fst (rs_blk x))) ->
  marg_hessian info marg rs = (H, b) ->
  form_jacobian info (marg_order info marg blks) 0 rs (fun _ _ => 0) (fun _ => 0) = (J, r) ->
  (forall a c, H a c = sumn (total_rows rs) (fun i => J i a * J i c)) /\
  (forall a, b a = sumn (total_rows rs) (fun i => - J i a * r i)).
Proof.
  intros info marg rs H b J r Hsz blks Hsup Hnd EH EJ.
  destruct (C69_layout_partial info marg blks Hsz) as (_ & _ & Hfree & _ & Huni). cbv zeta in *.
  set (o := marg_order info marg blks) in *. unfold marg_hessian in EH. fold blks o in EH.
  assert (Hdis : forall x, In x rs -> forall a, blocks_disjoint info o (rs_blk x) a).
  { intros x Hx a i j y z Hy Hz Hne Fy Fz Ha.
    destruct (in_blk (order_at o (fst z)) (pi_size (info (fst z))) a) eqn:Hb; auto. exfalso.
    assert (Hown : forall w k, nth_error (rs_blk x) k = Some w -> pi_fixed (info (fst w)) = false ->
       in_blk (order_at o (fst w)) (pi_size (info (fst w))) a = true -> has_column info o (fst w) a).
    { intros w k Hw Fw Hin. assert (Hf : used blks (fst w)).
      { exists (map fst (rs_blk x)). split; [apply in_map_iff; eauto|]. apply in_map.
        apply nth_error_In in Hw. auto. }
      assert (HI : exists i, order_find o (fst w) = Some i).
      { apply Hfree; auto. destruct (marg (fst w)) eqn:Em; auto. }
      destruct HI as [i0 Hi0]. unfold order_at in Hin. rewrite Hi0 in Hin.
      exists i0. split; auto. unfold in_blk in Hin. lia. }
    assert (E : fst y = fst z) by (apply (Huni _ _ a); eauto).
    specialize (Hnd x Hx). apply Hne. rewrite NoDup_nth_error in Hnd. apply Hnd.
    - rewrite map_length. apply nth_error_Some. congruence.
    - rewrite !nth_error_map, Hy, Hz. simpl. now rewrite E. }
  split.
  - intros a c.
    pose proof (proj1 (form_hessian_spec info o rs a c)) as E1. rewrite EH in E1. cbn [fst] in E1. rewrite E1.
    pose proof (form_jacobian_spec info o rs 0 (fun _ _ => 0) (fun _ => 0) ltac:(auto) a c ltac:(auto)
      ltac:(intros; split; auto)) as (_ & E2 & _).
    rewrite EJ in E2. cbn [fst snd] in E2. rewrite <- E2. apply sumn_ext. intros i _. now rewrite !Z.add_0_l.
  - intros a.
    pose proof (proj2 (form_hessian_spec info o rs a a)) as E1. rewrite EH in E1. cbn [snd] in E1. rewrite E1.
    pose proof (form_jacobian_spec info o rs 0 (fun _ _ => 0) (fun _ => 0) ltac:(auto) a a ltac:(auto)
      ltac:(intros; split; auto)) as (_ & _ & E2).
    rewrite EJ in E2. cbn [fst snd] in E2. rewrite <- E2. apply sumn_ext. intros i _. now rewrite !Z.add_0_l.
Qed.
End Hess.

Definition ex_info (p : Z) : pinfo :=
  if p =? 1 then mkPinfo TPose false 6 else if p =? 2 then mkPinfo TPose false 6
  else if p =? 3 then mkPinfo TCamera false 8 else if p =? 4 then mkPinfo TExtrinsics true 6
  else mkPinfo TOther false 1.
(** non-vacuity: pose 1 is marginalised, pose 2 and camera 3 remain, extrinsics 4 are fixed *)
Example C69_layout_ex : marg_order ex_info (Z.eqb 1) [[1; 4; 3]; [2; 4; 3]] = [(1, 0); (2, 6); (3, 12)] /\
  marg_m ex_info (Z.eqb 1) [[1; 4; 3]; [2; 4; 3]] = 6 /\ marg_r ex_info (Z.eqb 1) [[1; 4; 3]; [2; 4; 3]] = 14.
Proof. vm_compute. auto. Qed.
(** A free parameter of another type (for example a time delay) has no columns and its
    derivatives are added to the columns of the first marginalised parameter. *)
Theorem C69_layout_refuted : exists info marg rs p q,
  let blks := map (fun x => map fst (rs_blk x)) rs in
  used blks p /\ used blks q /\ p <> q /\ pi_fixed (info p) = false /\ marg q = true /\
  order_find (marg_order info marg blks) p = None /\
  order_at (marg_order info marg blks) p = order_at (marg_order info marg blks) q /\
  fst (marg_hessian info marg rs) 0 0 = 4%R.
Proof.
  exists ex_info, (Z.eqb 1), [mkResid 1 (fun _ => 0%R) [(1, fun _ _ => 1%R); (7, fun _ _ => 1%R)]], 7, 1.
  cbv zeta. split; [exists [1; 7]; simpl; auto|]. split; [exists [1; 7]; simpl; auto|].
  split; [lia|]. split; [reflexivity|]. split; [reflexivity|]. split; [reflexivity|]. split; [reflexivity|].
  cbn. lra.
Qed.
Print Assumptions C69_layout_partial.
Print Assumptions C69_hessian_partial.
Print Assumptions C69_layout_refuted.
