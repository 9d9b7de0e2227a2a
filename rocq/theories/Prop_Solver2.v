(** * Property theorems C22 - C25 (column layout, normal equations, LM and GN) *)
From Coq Require Import Reals Lra FunctionalExtensionality Sorting.Sorted.
From Verif Require Import Base SolverLsqModel SolverLsqProofs.
From Coq Require Import ZifyBool ZifyNat.
Local Open Scope Z_scope.

(** ** C22.  Specification *)
Section Spec22.
Context (info : Z -> pinfo).
(** the parameters that get optimised: used by some residual and not fixed *)
Definition free_param (blks : list (list Z)) (p : Z) : Prop :=
  (exists b, In b blks /\ In p b) /\ pi_fixed (info p) = false.
Definition supported (blks : list (list Z)) : Prop :=
  forall p, free_param blks p -> pi_type (info p) <> TOther.
(** position of a parameter's group in the column order *)
Definition rank (t : ptype) : Z :=
  match t with TPose => 0 | TSb => 1 | TCamera => 2 | TExtrinsics => 3 | TFiducial => 4 | TOther => 5 end.
(** parameter [p] owns columns [i .. i + size p) *)
Definition owns (lo : layout) (p c : Z) : Prop :=
  exists i, order_find (lo_order lo) p = Some i /\ i <= c < i + pi_size (info p).
End Spec22.

Lemma free_concat info blks p : free_param info blks p <-> In p (concat blks) /\ pi_fixed (info p) = false.
Proof. unfold free_param. rewrite in_concat. firstorder. Qed.

Theorem C22_layout_partial : forall info blks lo,
  (forall p, 0 <= pi_size (info p)) -> supported info blks ->
  eval_layout info blks = Ret lo ->
  (* exactly the free parameters get a column range inside the system *)
  (forall p, free_param info blks p <->
     exists i, order_find (lo_order lo) p = Some i) /\
  (forall p i, order_find (lo_order lo) p = Some i -> 0 <= i /\ i + pi_size (info p) <= lo_len lo) /\
  (* every column of the system belongs to one parameter, and to no other *)
  (forall c, 0 <= c < lo_len lo -> exists p, free_param info blks p /\ owns info lo p c) /\
  (forall p q c, owns info lo p c -> owns info lo q c -> p = q) /\
  (* poses first, then speed-bias, cameras, extrinsics, fiducials *)
  (forall p q i j, order_find (lo_order lo) p = Some i -> order_find (lo_order lo) q = Some j ->
     rank (pi_type (info p)) < rank (pi_type (info q)) -> i + pi_size (info p) <= j) /\
  (* the marginalisation index separates poses and speed-biases from the rest *)
  (forall p i, order_find (lo_order lo) p = Some i ->
     if rank (pi_type (info p)) <? 2 then i + pi_size (info p) <= lo_marg lo else lo_marg lo <= i).
Proof.
  intros info blks lo Hsz Hsup E. unfold eval_layout in E.
  pose proof (track_inv info (concat blks)) as I.
  set (t := fold_left (track_block info) (concat blks) track0) in *.
  destruct (t_cam t) as [|cam cams] eqn:Ec; [discriminate|].
  assert (Hcols : t_pose t ++ t_sb t ++ (cam :: cams) ++ t_ext t ++ t_fid t = columns t)
    by (unfold columns; now rewrite Ec).
  rewrite Hcols in E. injection E as <-. cbn [lo_order lo_len lo_marg].
  pose proof (columns_NoDup info _ t I) as Hnd.
  assert (Hcol : forall p, In p (columns t) <-> free_param info blks p).
  { intros p. rewrite (columns_In info _ t p I), free_concat. split; [tauto|].
    intros [H1 H2]. split; auto. split; auto. apply Hsup. rewrite free_concat. auto. }
  assert (Hlen : t_len t = sum_sizes info (columns t)).
  { apply (ti_len info _ t I). intros p H1 H2. apply Hsup. rewrite free_concat. auto. }
  assert (Hfind := fun p i => assign_find info (columns t) 0 p Hnd i).
  assert (Hbef : forall p q i j, order_find (assign info 0 (columns t)) p = Some i ->
            order_find (assign info 0 (columns t)) q = Some j -> p <> q ->
            i + pi_size (info p) <= j \/ j + pi_size (info q) <= i).
  { intros p q i j Hi Hj Hne. apply Hfind in Hi. apply Hfind in Hj.
    destruct Hi as (l1 & l2 & E1 & ->), Hj as (m1 & m2 & E2 & ->).
    destruct (split_two (columns t) p q Hne l1 l2 m1 m2 E1 E2) as [[k ->]|[k ->]];
      rewrite sum_sizes_app; simpl; pose proof (sum_sizes_nonneg info k Hsz); lia. }
  assert (Hrank : forall p q i j, order_find (assign info 0 (columns t)) p = Some i ->
            order_find (assign info 0 (columns t)) q = Some j ->
            rank (pi_type (info p)) < rank (pi_type (info q)) -> i + pi_size (info p) <= j).
  { intros p q i j Hi Hj Hr.
    assert (Hpq : p <> q) by (intros ->; lia).
    apply Hfind in Hi. apply Hfind in Hj.
    destruct Hi as (l1 & l2 & E1 & ->), Hj as (m1 & m2 & E2 & ->).
    destruct (split_two (columns t) p q Hpq l1 l2 m1 m2 E1 E2) as [[k ->]|[k ->]].
    { rewrite sum_sizes_app; simpl; pose proof (sum_sizes_nonneg info k Hsz); lia. }
    exfalso.
    (* columns are sorted by rank *)
    assert (Hs : StronglySorted (fun a b => rank (pi_type (info a)) <= rank (pi_type (info b))) (columns t)).
    { assert (App : forall l l', StronglySorted (fun a b => rank (pi_type (info a)) <= rank (pi_type (info b))) l ->
         StronglySorted (fun a b => rank (pi_type (info a)) <= rank (pi_type (info b))) l' ->
         (forall a b, In a l -> In b l' -> rank (pi_type (info a)) <= rank (pi_type (info b))) ->
         StronglySorted (fun a b => rank (pi_type (info a)) <= rank (pi_type (info b))) (l ++ l')).
      { clear. induction l as [|x l IH]; simpl; intros l' H1 H2 H; auto.
        inversion H1; subst. constructor; auto. apply Forall_app. split; auto.
        apply Forall_forall. intros b Hb. apply H; auto. }
      assert (Gr : forall ty, ty <> TOther -> StronglySorted (fun a b => rank (pi_type (info a)) <= rank (pi_type (info b))) (group t ty)).
      { intros ty Hty. pose proof (fun p => proj1 (ti_grp info _ t I ty p Hty)) as G.
        induction (group t ty) as [|x g IHg]; constructor.
        - apply IHg. intros z Hz. apply G. now right.
        - apply Forall_forall. intros z Hz.
          destruct (G x ltac:(now left)) as (_ & _ & ->). destruct (G z ltac:(now right)) as (_ & _ & ->). lia. }
      assert (Ty : forall ty p, ty <> TOther -> In p (group t ty) -> pi_type (info p) = ty).
      { intros ty z Hty Hz. apply (ti_grp info _ t I ty z Hty) in Hz. apply Hz. }
      pose proof (Gr TPose ltac:(discriminate)); pose proof (Gr TSb ltac:(discriminate));
      pose proof (Gr TCamera ltac:(discriminate)); pose proof (Gr TExtrinsics ltac:(discriminate));
      pose proof (Gr TFiducial ltac:(discriminate)).
      pose proof (Ty TPose); pose proof (Ty TSb); pose proof (Ty TCamera); pose proof (Ty TExtrinsics); pose proof (Ty TFiducial).
      cbn [group] in *. unfold columns.
      repeat apply App; auto; intros a b Ha Hb; rewrite ?in_app_iff in Hb;
        repeat match goal with H : _ \/ _ |- _ => destruct H as [H|H] end;
        repeat match goal with
               | A : In ?z (?f t), T : forall p, _ -> In p (?f t) -> _ = _ |- _ =>
                   rewrite (T z ltac:(discriminate) A); clear A end; simpl; lia. }
    rewrite E2 in Hs.
    rewrite <- app_assoc in E1. simpl in E1.
    assert (Hin : In p (k ++ p :: l2)) by (apply in_app_iff; right; now left).
    assert (E3 : m2 = k ++ p :: l2).
    { rewrite E2 in E1. apply app_inv_head in E1. now injection E1. }
    rewrite E3 in Hs. clear - Hs Hr Hin. induction m1 as [|z m1 IH]; simpl in Hs.
    - inversion Hs as [|? ? _ HF]; subst. rewrite Forall_forall in HF. specialize (HF p Hin). simpl in HF. lia.
    - inversion Hs; subst. auto. }
  split.
  { intros p. rewrite <- Hcol. symmetry. apply (assign_find_In info). }
  split.
  { intros p i Hi. apply Hfind in Hi. destruct Hi as (l1 & l2 & E1 & ->). rewrite Hlen, E1, sum_sizes_app.
    simpl. pose proof (sum_sizes_nonneg info l1 Hsz). pose proof (sum_sizes_nonneg info l2 Hsz). lia. }
  split.
  { intros c Hc. rewrite Hlen in Hc. destruct (assign_cover info (columns t) 0 c) as (l1 & p & l2 & E1 & H1); [lia|].
    exists p. split.
    - apply Hcol. rewrite E1. apply in_app_iff. right. now left.
    - exists (0 + sum_sizes info l1). split; [|lia]. apply Hfind. eauto. }
  split.
  { intros p q c (i & Hi & H1) (j & Hj & H2). destruct (Z.eq_dec p q) as [|Hne]; auto.
    destruct (Hbef p q i j Hi Hj Hne); lia. }
  split; [exact Hrank|].
  intros p i Hi.
  assert (Hcam : In cam (columns t)).
  { unfold columns. rewrite !in_app_iff. rewrite Ec. simpl. auto. }
  apply (assign_find_In info (columns t) 0) in Hcam. destruct Hcam as [m Hm].
  unfold order_at. rewrite Hm.
  assert (Tc : pi_type (info cam) = TCamera).
  { assert (In cam (group t TCamera)) by (simpl; rewrite Ec; now left).
    apply (ti_grp info _ t I TCamera cam ltac:(discriminate)) in H. apply H. }
  destruct (Z.ltb_spec (rank (pi_type (info p))) 2).
  - apply (Hrank p cam i m Hi Hm). rewrite Tc. simpl. lia.
  - destruct (Z.eq_dec (rank (pi_type (info p))) 2) as [E2|E2].
    2:{ pose proof (Hrank cam p m i Hm Hi). rewrite Tc in H0. simpl rank at 1 in H0.
        specialize (Hsz cam). lia. }
    (* another camera: the first one comes first *)
    destruct (Z.eq_dec p cam) as [->|Hne]; [rewrite Hm in Hi; injection Hi as <-; lia|].
    assert (Tp : pi_type (info p) = TCamera) by (destruct (pi_type (info p)); simpl in E2; try lia; auto).
    assert (Hp : In p (columns t)) by (apply (assign_find_In info (columns t) 0); eauto).
    apply Hfind in Hi. apply Hfind in Hm.
    destruct Hi as (l1 & l2 & E1 & ->), Hm as (m1 & m2 & E3 & ->).
    destruct (split_two (columns t) p cam Hne l1 l2 m1 m2 E1 E3) as [[k Ek]|[k ->]].
    2:{ rewrite sum_sizes_app. simpl. pose proof (sum_sizes_nonneg info k Hsz). specialize (Hsz cam). lia. }
    exfalso. assert (Hm1 : m1 = t_pose t ++ t_sb t).
    { unfold columns in E3. rewrite Ec in E3. rewrite app_assoc in E3. simpl in E3.
      assert (Hn : ~ In cam (t_pose t ++ t_sb t)).
      { rewrite in_app_iff. pose proof (ti_grp info _ t I TPose cam ltac:(discriminate)) as G1.
        pose proof (ti_grp info _ t I TSb cam ltac:(discriminate)) as G2. cbn [group] in G1, G2.
        intros [A|A]; [apply G1 in A|apply G2 in A]; destruct A as (_ & _ & A); congruence. }
      assert (Hn2 : ~ In cam m1).
      { intros A. rewrite E1 in Hnd. rewrite <- E1 in Hnd.
        assert (E4 : columns t = m1 ++ cam :: m2).
        { unfold columns. rewrite Ec, app_assoc. simpl. exact E3. }
        rewrite E4 in Hnd. apply NoDup_remove_2 in Hnd. apply Hnd. apply in_app_iff. auto. }
      clear - E3 Hn Hn2. revert E3 Hn Hn2. generalize (t_pose t ++ t_sb t) as L.
      induction m1 as [|x m1 IH]; intros [|y L] E Hn Hn2; simpl in *; auto.
      - injection E as E _. exfalso. apply Hn. auto.
      - injection E as E _. exfalso. apply Hn2. auto.
      - injection E as <- E. f_equal. apply IH; auto. }
    assert (Hpp : In p (t_pose t ++ t_sb t)) by (rewrite <- Hm1, Ek; apply in_app_iff; right; now left).
    rewrite in_app_iff in Hpp. pose proof (ti_grp info _ t I TPose p ltac:(discriminate)) as G1.
    pose proof (ti_grp info _ t I TSb p ltac:(discriminate)) as G2. cbn [group] in G1, G2.
    destruct Hpp as [A|A]; [apply G1 in A|apply G2 in A]; destruct A as (_ & _ & A); congruence.
Qed.
Print Assumptions C22_layout_partial.

(** The layout is computed iff there is a camera to optimise; otherwise the code reads the
    first element of an empty vector. *)
Theorem C22_layout_defined : forall info blks,
  (exists lo, eval_layout info blks = Ret lo) <->
  exists p, free_param info blks p /\ pi_type (info p) = TCamera.
Proof.
  intros info blks. unfold eval_layout. pose proof (track_inv info (concat blks)) as I.
  set (t := fold_left (track_block info) (concat blks) track0) in *.
  pose proof (fun p => ti_grp info _ t I TCamera p ltac:(discriminate)) as G. cbn [group] in G. unfold tracked in G.
  destruct (t_cam t) as [|c cs].
  - split; [intros [lo E]; discriminate|]. intros (p & Hp & Ht). apply free_concat in Hp.
    exfalso. apply (proj2 (G p)). tauto.
  - split; [|eauto]. intros _. exists c. rewrite free_concat. destruct (proj1 (G c) ltac:(now left)) as (A & B & C). auto.
Qed.
Print Assumptions C22_layout_defined.

Definition ex_info (p : Z) : pinfo :=
  if p =? 1 then mkPinfo TPose false 6 else if p =? 2 then mkPinfo TPose false 6
  else if p =? 3 then mkPinfo TCamera false 8 else if p =? 4 then mkPinfo TExtrinsics true 6
  else if p =? 5 then mkPinfo TExtrinsics false 6 else if p =? 6 then mkPinfo TSb false 9
  else mkPinfo TOther false 1.
Example C22_ex : (forall p, 0 <= pi_size (ex_info p)) /\ supported ex_info [[3; 4; 1]; [5; 3; 2]; [6; 1]] /\
  eval_layout ex_info [[3; 4; 1]; [5; 3; 2]; [6; 1]] =
    Ret (mkLayout [(1, 0); (2, 6); (6, 12); (3, 21); (5, 29)] 35 21).
Proof.
  split; [intros p; unfold ex_info; repeat destruct (_ =? _); simpl; lia|]. split; [|reflexivity].
  intros p Hp. apply free_concat in Hp. destruct Hp as [Hp _]. simpl in Hp.
  repeat destruct Hp as [ <- |Hp]; simpl; try discriminate. contradiction.
Qed.
(** A parameter of another type (fiducial corner, feature, time delay, marginalised type) is
    counted in the system size but gets no column: it is written over column 0. *)
Theorem C22_layout_refuted : exists info blks lo, eval_layout info blks = Ret lo /\
  free_param info blks 7 /\ order_find (lo_order lo) 7 = None /\
  order_at (lo_order lo) 7 = order_at (lo_order lo) 1 /\ free_param info blks 1 /\
  lo_len lo = 15 /\ forall p, ~ owns info lo p 14.
Proof.
  exists ex_info, [[3; 1; 7]], (mkLayout [(1, 0); (3, 6)] 15 6). split; [reflexivity|].
  split; [split; [exists [3; 1; 7]; simpl; auto|reflexivity]|]. split; [reflexivity|]. split; [reflexivity|].
  split; [split; [exists [3; 1; 7]; simpl; auto|reflexivity]|]. split; [reflexivity|].
  intros p (i & H & Hi). simpl in H. destruct (Z.eqb_spec p 1); [subst; injection H as <-; simpl in Hi; lia|].
  destruct (Z.eqb_spec p 3); [subst; injection H as <-; simpl in Hi; lia|discriminate].
Qed.
Print Assumptions C22_layout_refuted.
(** No camera to optimise (all fixed): undefined behaviour. *)
Theorem C22_no_camera_refuted : exists info blks p, free_param info blks p /\ eval_layout info blks = Undef.
Proof.
  exists ex_info, [[4; 1]], 1. split; [split; [exists [4; 1]; simpl; auto|reflexivity]|reflexivity].
Qed.
Print Assumptions C22_no_camera_refuted.

(** ** C23 *)
Section C23.
Local Open Scope R_scope.
(** For residuals without repeated parameter blocks and supported parameter types: H = J^T J
    and b = - J^T r, where J and r are the stacked Jacobian and residual; H is symmetric and
    positive semidefinite. *)
Theorem C23_normal_equations : forall info (rs : list resid) lo H b J r,
  (forall p, (0 <= pi_size (info p))%Z) ->
  supported info (map (fun x => map fst (rs_blk x)) rs) ->
  (forall x, In x rs -> NoDup (map fst (rs_blk x))) ->
  eval_layout info (map (fun x => map fst (rs_blk x)) rs) = Ret lo ->
  form_hessian info (lo_order lo) rs = (H, b) ->
  form_jacobian info (lo_order lo) 0 rs (fun _ _ => 0) (fun _ => 0) = (J, r) ->
  let n := total_rows rs in
  (forall a c, H a c = sumn n (fun i => J i a * J i c)) /\
  (forall a, b a = sumn n (fun i => - J i a * r i)) /\
  (forall a c, H a c = H c a) /\
  (forall m x, 0 <= sumn m (fun a => sumn m (fun c => x a * H a c * x c))).
Proof.
  intros info rs lo H b J r Hsz Hsup Hnd El EH EJ n.
  destruct (C22_layout_partial info _ lo Hsz Hsup El) as (_ & _ & _ & Huni & _ & _).
  destruct (C22_layout_partial info _ lo Hsz Hsup El) as (Hfree & _).
  assert (Hdis : forall x, In x rs -> forall a, blocks_disjoint info (lo_order lo) (rs_blk x) a).
  { intros x Hx a i j y z Hy Hz Hne Fy Fz Ha.
    destruct (in_blk (order_at (lo_order lo) (fst z)) (pi_size (info (fst z))) a) eqn:Hb; auto. exfalso.
    assert (Hown : forall w k, nth_error (rs_blk x) k = Some w -> pi_fixed (info (fst w)) = false ->
       in_blk (order_at (lo_order lo) (fst w)) (pi_size (info (fst w))) a = true -> owns info lo (fst w) a).
    { intros w k Hw Fw Hin. assert (Hf : free_param info (map (fun x => map fst (rs_blk x)) rs) (fst w)).
      { split; auto. exists (map fst (rs_blk x)). split; [apply in_map_iff; eauto|]. apply in_map.
        apply nth_error_In in Hw. auto. }
      apply Hfree in Hf. destruct Hf as [i0 Hi0]. unfold order_at in Hin. rewrite Hi0 in Hin.
      exists i0. split; auto. unfold in_blk in Hin. lia. }
    assert (E : fst y = fst z) by (apply (Huni _ _ a); eauto).
    specialize (Hnd x Hx). apply Hne. rewrite NoDup_nth_error in Hnd. apply Hnd.
    - rewrite map_length. apply nth_error_Some. congruence.
    - rewrite !nth_error_map, Hy, Hz. simpl. now rewrite E. }
  assert (HJ : forall a c, H a c = sumn n (fun i => J i a * J i c)).
  { intros a c.
    pose proof (proj1 (form_hessian_spec info (lo_order lo) rs a c)) as E1. rewrite EH in E1. cbn [fst] in E1. rewrite E1.
    pose proof (form_jacobian_spec info (lo_order lo) rs 0 (fun _ _ => 0) (fun _ => 0) ltac:(auto) a c ltac:(auto)
      ltac:(intros; split; auto)) as (_ & E2 & _).
    rewrite EJ in E2. cbn [fst snd] in E2. rewrite <- E2. apply sumn_ext. intros i _. now rewrite !Z.add_0_l. }
  split; [exact HJ|]. split.
  { intros a.
    pose proof (proj2 (form_hessian_spec info (lo_order lo) rs a a)) as E1. rewrite EH in E1. cbn [snd] in E1. rewrite E1.
    pose proof (form_jacobian_spec info (lo_order lo) rs 0 (fun _ _ => 0) (fun _ => 0) ltac:(auto) a a ltac:(auto)
      ltac:(intros; split; auto)) as (_ & _ & E2).
    rewrite EJ in E2. cbn [fst snd] in E2. rewrite <- E2. apply sumn_ext. intros i _. now rewrite !Z.add_0_l. }
  split.
  { intros a c. rewrite !HJ. apply sumn_ext. intros; lra. }
  intros m x.
  replace (sumn m (fun a => sumn m (fun c => x a * H a c * x c))) with
    (sumn n (fun i => sumn m (fun a => J i a * x a) * sumn m (fun a => J i a * x a))).
  { apply sumn_nonneg. intros i. nra. }
  rewrite (sumn_ext n (fun i => sumn m (fun a => J i a * x a) * sumn m (fun a => J i a * x a))
    (fun i => sumn m (fun a => sumn m (fun c => x a * (J i a * J i c) * x c)))).
  - rewrite sumn_swap. apply sumn_ext. intros a _. rewrite sumn_swap. apply sumn_ext. intros c _.
    rewrite HJ. rewrite (sumn_ext n (fun i => x a * (J i a * J i c) * x c) (fun i => (x a * x c) * (J i a * J i c))) by (intros; lra).
    rewrite sumn_scal. lra.
  - intros i _. rewrite <- (sumn_scal m). apply sumn_ext. intros a _.
    rewrite (Rmult_comm _ (J i a * x a)), <- (sumn_scal m). apply sumn_ext. intros c _. lra.
Qed.
End C23.
Print Assumptions C23_normal_equations.
(** All writes stay inside H, b and J. *)
Theorem C23_in_bounds : forall info (rs : list resid) lo x p Jp,
  (forall p, 0 <= pi_size (info p)) -> supported info (map (fun x => map fst (rs_blk x)) rs) ->
  eval_layout info (map (fun x => map fst (rs_blk x)) rs) = Ret lo ->
  In x rs -> In (p, Jp) (rs_blk x) -> pi_fixed (info p) = false ->
  0 <= order_at (lo_order lo) p /\ order_at (lo_order lo) p + pi_size (info p) <= lo_len lo.
Proof.
  intros info rs lo x p Jp Hsz Hsup El Hx Hp Hf.
  destruct (C22_layout_partial info _ lo Hsz Hsup El) as (Hfree & Hb & _).
  assert (F : free_param info (map (fun x => map fst (rs_blk x)) rs) p).
  { split; auto. exists (map fst (rs_blk x)). split; [apply in_map_iff; eauto|]. apply in_map_iff. exists (p, Jp); auto. }
  apply Hfree in F. destruct F as [i Hi]. unfold order_at. rewrite Hi. now apply Hb.
Qed.
Print Assumptions C23_in_bounds.
(** non-vacuity: two residuals sharing a camera *)
Definition ex_rs : list resid :=
  [mkResid 2 (fun _ => 1%R) [(3, fun i j => IZR (i + j)); (4, fun _ _ => 2%R); (1, fun i j => IZR (i - j))];
   mkResid 1 (fun _ => 3%R) [(5, fun _ _ => 1%R); (3, fun _ _ => 2%R); (2, fun _ _ => 1%R)]].
Example C23_ex : supported ex_info (map (fun x => map fst (rs_blk x)) ex_rs) /\
  (forall x, In x ex_rs -> NoDup (map fst (rs_blk x))) /\
  eval_layout ex_info (map (fun x => map fst (rs_blk x)) ex_rs) =
    Ret (mkLayout [(1, 0); (2, 6); (3, 12); (5, 20)] 26 12).
Proof.
  split.
  { intros p Hp. apply free_concat in Hp. destruct Hp as [Hp _]. simpl in Hp.
    repeat destruct Hp as [ <- |Hp]; simpl; try discriminate. contradiction. }
  split; [|reflexivity]. intros x [ <- |[ <- |[]]]; simpl; repeat constructor; simpl; intuition discriminate.
Qed.

(** ** C24, C25.  Specification of cost comparison *)
Definition cost_lt (a b : cost) : Prop :=
  match a, b with Fin x, Fin y => (x < y)%R | Fin _, PInf => True | _, _ => False end.
Definition cost_le (a b : cost) : Prop :=
  match a, b with Fin x, Fin y => (x <= y)%R | Fin _, PInf => True | PInf, PInf => True | _, _ => False end.
Lemma dcost_neg_lt a b : dcost_neg a b = true <-> cost_lt a b.
Proof.
  destruct a as [a| |], b as [b| |]; simpl; try (split; intros; auto; discriminate); try tauto.
  - destruct (Rlt_dec a b); split; intros; auto; discriminate.
Qed.
Lemma cost_lt_trans a b c : cost_lt a b -> cost_lt b c -> cost_lt a c.
Proof. destruct a, b, c; simpl; auto; try contradiction. apply Rlt_trans. Qed.

Section C24.
Context {V : Type}.
Implicit Type step : Z -> Z -> @store V -> outcome (@store V).
(** updates touch registered parameters only *)
Definition registered_only registered step : Prop :=
  forall it e x x', step it e x = Ret x' -> forall p, ~ In p registered -> x' p = x p.

Lemma restore_exact registered step : registered_only registered step ->
  forall it e x x', step it e x = Ret x' -> restore registered x x' = x.
Proof.
  intros H it e x x' E. apply functional_extensionality. intros p. unfold restore.
  destruct (existsb (Z.eqb p) registered) eqn:Ep; auto.
  apply (H it e x x' E). intros Hp. apply existsb_eqb in Hp. congruence.
Qed.

(** One iteration either strictly decreases the cost or restores every parameter exactly. *)
Theorem C24_lm_step : forall registered cost_of step, registered_only registered step ->
  forall it s s', lm_cost s = cost_of (lm_x s) -> lm_iter registered cost_of step it s = Ret s' ->
  lm_cost s' = cost_of (lm_x s') /\
  ((cost_lt (cost_of (lm_x s')) (cost_of (lm_x s)) /\ lm_e s' = lm_e s - 1) \/
   (lm_x s' = lm_x s /\ lm_e s' = lm_e s + 1)).
Proof.
  intros registered cost_of step Hreg it s s' Hc E. unfold lm_iter in E.
  destruct (step it (lm_e s) (lm_x s)) as [x| |] eqn:Es; simpl in E; try discriminate.
  destruct (dcost_neg (cost_of x) (lm_cost s)) eqn:Ed; injection E as <-; simpl.
  - split; auto. left. rewrite <- Hc. split; auto. now apply dcost_neg_lt.
  - rewrite (restore_exact registered step Hreg _ _ _ _ Es). auto.
Qed.
(** The result of LM: cost strictly below the initial one, or all parameters unchanged. *)
Theorem C24_lm_never_worse : forall registered cost_of step, registered_only registered step ->
  forall max_iter x s, solve_lm registered cost_of step max_iter x = Ret s ->
  lm_x s = x \/ cost_lt (cost_of (lm_x s)) (cost_of x).
Proof.
  intros registered cost_of step Hreg max_iter x s. unfold solve_lm.
  assert (G : forall n it s0, lm_cost s0 = cost_of (lm_x s0) ->
    (lm_x s0 = x \/ cost_lt (cost_of (lm_x s0)) (cost_of x)) ->
    forall s1, lm_loop registered cost_of step n it s0 = Ret s1 ->
    lm_x s1 = x \/ cost_lt (cost_of (lm_x s1)) (cost_of x)).
  { induction n as [|n IH]; intros it s0 Hc Hx s1 E; cbn [lm_loop] in E.
    - injection E as <-. auto.
    - destruct (lm_iter registered cost_of step it s0) as [s2| |] eqn:Ei; cbn [obind] in E; try discriminate.
      destruct (C24_lm_step registered cost_of step Hreg it s0 s2 Hc Ei) as [Hc2 H2].
      apply (IH (it + 1) s2 Hc2); auto.
      destruct H2 as [[H2 _]|[H2 _]].
      + right. destruct Hx as [ <- |Hx]; auto. eapply cost_lt_trans; eauto.
      + rewrite H2. auto. }
  apply G; auto.
Qed.
(** The linear solver is consulted for iterations 1 .. max_iter-1 only. *)
Theorem C24_lm_iterations : forall registered cost_of step step' max_iter x,
  (forall it e y, 1 <= it < max_iter -> step it e y = step' it e y) ->
  solve_lm registered cost_of step max_iter x = solve_lm registered cost_of step' max_iter x.
Proof.
  intros registered cost_of step step' max_iter x H. unfold solve_lm.
  assert (G : forall n it s, 1 <= it -> it + Z.of_nat n <= Z.max 1 max_iter ->
    lm_loop registered cost_of step n it s = lm_loop registered cost_of step' n it s).
  { induction n as [|n IH]; intros it s H1 H2; cbn [lm_loop]; auto.
    replace (lm_iter registered cost_of step' it s) with (lm_iter registered cost_of step it s).
    - destruct (lm_iter registered cost_of step it s); cbn [obind]; auto. apply IH; lia.
    - unfold lm_iter. rewrite H by lia. reflexivity. }
  apply G; lia.
Qed.
(** Without registration a rejected step is not undone. *)
Theorem C24_unregistered_refuted : exists (registered : list Z) (cost_of : @store Z -> cost)
    (stp : Z -> Z -> @store Z -> outcome (@store Z)) x s,
  solve_lm registered cost_of stp 2 x = Ret s /\ lm_x s <> x /\ cost_lt (cost_of x) (cost_of (lm_x s)).
Proof.
  exists [], (fun x => Fin (IZR (x 0))), (fun _ _ x => Ret (fun p => x p + 1)), (fun _ => 0).
  eexists. split; [|split].
  - unfold solve_lm. change (Z.to_nat (2 - 1)) with 1%nat. cbn [lm_loop]. unfold lm_iter. cbn.
    destruct (Rlt_dec 1 0); [exfalso; lra|]. reflexivity.
  - cbn. intros H. assert (H0 := f_equal (fun f => f 0) H). cbn in H0. discriminate.
  - cbn. lra.
Qed.
End C24.
Print Assumptions C24_lm_step.
Print Assumptions C24_lm_never_worse.
Print Assumptions C24_lm_iterations.
Print Assumptions C24_unregistered_refuted.
(** non-vacuity: a step that halves the parameter, an overshooting one and a failing one *)
Example C24_ex : registered_only [1] (fun it _ (x : @store R) =>
  Ret (fun p => if p =? 1 then if it =? 1 then (x 1%Z / 2)%R else (x 1%Z * 3)%R else x p)).
Proof. intros it e x x' E p Hp. injection E as <-. destruct (Z.eqb_spec p 1); auto. subst. simpl in Hp. tauto. Qed.

(** ** C25 *)
Section C25.
Context {V : Type}.
Implicit Type step : Z -> Z -> @store V -> outcome (@store V).
Lemma gn_loop_registered registered step : registered_only registered step ->
  forall n it x x', gn_loop step n it x = Ret x' -> forall p, ~ In p registered -> x' p = x p.
Proof.
  intros H. induction n as [|n IH]; intros it x x' E p Hp; cbn [gn_loop] in E.
  - now injection E as <-.
  - destruct (step it 0 x) as [y| |] eqn:Ey; cbn [obind] in E; try discriminate.
    rewrite (IH _ _ _ E p Hp). apply (H _ _ _ _ Ey p Hp).
Qed.
(** If no evaluated cost is NaN, the final cost is at most the initial cost. *)
Theorem C25_gn_never_worse_partial : forall registered cost_of step, registered_only registered step ->
  (forall x : @store V, cost_of x <> NaN /\ cost_gt (Fin 0) (cost_of x) = false) ->
  forall max_iter x x', solve_gn registered cost_of step max_iter x = Ret x' ->
  cost_le (cost_of x') (cost_of x).
Proof.
  intros registered cost_of step Hreg Hnan max_iter x x' E. unfold solve_gn in E.
  set (n := Z.to_nat (max_iter - 1)) in E.
  destruct (gn_loop step n 1 x) as [y| |] eqn:Ey; cbn [obind] in E; try discriminate.
  assert (Hrest : restore registered x y = x).
  { apply functional_extensionality. intros p. unfold restore. destruct (existsb (Z.eqb p) registered) eqn:Ep; auto.
    apply (gn_loop_registered registered step Hreg n 1 x y Ey). intros Hp. apply existsb_eqb in Hp. congruence. }
  assert (Hrefl : cost_le (cost_of x) (cost_of x)).
  { pose proof (proj1 (Hnan x)). destruct (cost_of x); simpl; auto; try lra. }
  destruct (cost_gt match n with O => Fin 0 | _ => cost_of y end (cost_of x)) eqn:Eg; injection E as <-.
  - now rewrite Hrest.
  - destruct n as [|n].
    + cbn [gn_loop] in Ey. now injection Ey as <-.
    + pose proof (proj1 (Hnan x)). pose proof (proj1 (Hnan y)).
      destruct (cost_of y), (cost_of x); simpl in *; auto; try congruence.
      destruct (Rlt_dec r0 r); [discriminate|lra].
Qed.
Theorem C25_gn_iterations : forall registered cost_of step step' max_iter (x : @store V),
  (forall it e y, 1 <= it < max_iter -> step it e y = step' it e y) ->
  solve_gn registered cost_of step max_iter x = solve_gn registered cost_of step' max_iter x.
Proof.
  intros registered cost_of step step' max_iter x H. unfold solve_gn.
  assert (G : forall n it s, 1 <= it -> it + Z.of_nat n <= Z.max 1 max_iter ->
    gn_loop step n it s = gn_loop step' n it s).
  { induction n as [|n IH]; intros it s H1 H2; cbn [gn_loop]; auto.
    rewrite H by lia. destruct (step' it 0 s); cbn [obind]; auto. apply IH; lia. }
  rewrite G by lia. reflexivity.
Qed.
End C25.
Print Assumptions C25_gn_never_worse_partial.
Print Assumptions C25_gn_iterations.
(** A step that makes the cost NaN is kept. *)
Theorem C25_gn_nan_refuted : exists (registered : list Z) (cost_of : @store Z -> cost) step x x',
  registered_only registered step /\ cost_of x = Fin 1 /\
  solve_gn registered cost_of step 2 x = Ret x' /\ cost_of x' = NaN.
Proof.
  exists [0], (fun x => if x 0 =? 0 then Fin 1 else NaN),
         (fun _ _ x => Ret (fun p => if p =? 0 then 1 else x p)), (fun _ => 0).
  exists (fun p => if p =? 0 then 1 else 0). split; [|split; [reflexivity|split; reflexivity]].
  intros it e x x' E p Hp. injection E as <-. destruct (Z.eqb_spec p 0); auto. subst. simpl in Hp. tauto.
Qed.
Print Assumptions C25_gn_nan_refuted.
