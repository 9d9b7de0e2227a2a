(** * C105: marginalisation in the camera calibrator *)
From Coq Require Import Reals Lra.
From Verif Require Import Base.
From stdpp Require Import gmap sets list countable.
From Verif Require Import AprilGridModel AprilGridSpec AprilGridIOModel SolverModel SolverProofs CalibModel CalibSpec CalibProofs2 CalibProofs3 CalibExample SolverLsqModel MargHessModel Prop_Calib.
From Verif Require Import CamMargModel CamMargSpec CamMargProofs CamMargProofs2 CamMargProofs3 CamMargEx.
Local Open Scope Z_scope.

(** At every moment of every history (views added, removed, judged, filtered, marginalised, any number of solves): the
    optimisation problem consists of exactly the residuals of the current views plus the current prior, if there is one; the
    prior is about estimated camera and extrinsics parameters only, never about a pose; the problem's parameters are the
    cameras, the extrinsics and one pose per view. *)
Theorem C105_problem_partial : forall (blocks : Z -> list Z) info rows cols size sp (V : Type) ext_addr cam_addr base (x : mcalib V),
  0 <= rows -> 0 <= cols -> mreach blocks info rows cols size sp ext_addr cam_addr base x ->
  (forall r, r ∈ s_res (c_base (k_solver (m_k x))) <-> (exists ts v, k_views (m_k x) !! ts = Some v /\ holds v r) \/ m_prior x = Some r) /\
  (forall m ts v, m_prior x = Some m -> k_views (m_k x) !! ts = Some v -> ~ holds v m) /\
  (forall m p, m_prior x = Some m -> In p (blocks m) -> pi_fixed (info p) = false /\ p ∈ s_params (c_base (k_solver (m_k x))) /\ (exists c, p = ext_addr c \/ p = cam_addr c) /\
     forall ts q w, k_poses (m_k x) !! ts = Some (q, w) -> p <> q) /\
  (forall p, p ∈ s_params (c_base (k_solver (m_k x))) <-> p ∈ base \/ exists ts w, k_poses (m_k x) !! ts = Some (p, w)) /\
  (forall ts, is_Some (k_poses (m_k x) !! ts) <-> is_Some (k_views (m_k x) !! ts)) /\
  (forall ts, In ts (k_vts (m_k x)) <-> is_Some (k_views (m_k x) !! ts)).
Proof.
  intros blocks info rows cols size sp V ext_addr cam_addr base x Hr Hc Hx.
  pose proof (mreach_MInv blocks info rows cols size sp Hr Hc ext_addr cam_addr base x Hx) as M. pose proof M as [K G B].
  destruct (bare_fields x) as (B1 & B2 & B3 & B4 & B5 & B6 & B7 & B8 & B9).
  pose proof (ki_params K) as Kp. rewrite B8 in Kp. rewrite B4 in Kp.
  assert (PN : forall m ts v, m_prior x = Some m -> k_views (m_k x) !! ts = Some v -> ~ holds v m).
  { intros m ts v Em Hv (c & r & Hin & E). exact (prior_not_held blocks info rows cols size sp ext_addr cam_addr base x m ts v c r M Em Hv Hin E). }
  split; [|split; [exact PN|split; [|split; [exact Kp|split]]]].
  - intros r. pose proof (ki_res K r) as Kr. rewrite bare_res, B5 in Kr. split.
    + intros H. destruct (decide (m_prior x = Some r)) as [E|E]; [right; exact E|]. left. destruct (proj1 Kr (conj H E)) as (ts & v & c & y & Hv & Hy & Ey). exists ts, v. split; [exact Hv|]. exists c, y. auto.
    + intros [(ts & v & Hv & c & y & Hy & Ey)|H]; [|apply (G r H)]. apply (proj2 Kr). exists ts, v, c, y. auto.
  - intros m p Em Hp. destruct (B m p Em Hp) as (H1 & H2 & H3). split; [exact H2|]. split; [apply Kp; left; exact H1|]. split; [exact H3|].
    intros ts q w Hq <-. rewrite <- B4 in Hq. exact (ki_base K _ _ _ Hq H1).
  - intros ts. pose proof (ki_dom K ts) as H. rewrite B4, B5 in H. exact H.
  - intros ts. pose proof (ki_vts K ts) as H. rewrite B5, B6 in H. exact H.
Qed.

(** marginalize() when the oldest view still has a residual and something remains to be estimated: exactly the oldest view,
    its pose and its residuals go, and the previous prior; the new prior comes in, about exactly the estimated parameters that
    the view's residuals and the previous prior were about; all else is untouched. *)
Theorem C105_marginalize : forall (blocks : Z -> list Z) info rows cols size sp (V : Type) ext_addr cam_addr base (x : mcalib V) new ts v,
  0 <= rows -> 0 <= cols -> mreach blocks info rows cols size sp ext_addr cam_addr base x -> typed info ext_addr cam_addr (m_k x) -> prior_env blocks info new x ->
  is_oldest (m_k x) ts -> k_views (m_k x) !! ts = Some v -> (exists c r, In r (v_res v c)) -> (exists p, remains blocks info ext_addr cam_addr x v p) ->
  exists k', marginalize blocks info new x = Ret (mkM k' (Some new)) /\
    k_cams k' = k_cams (m_k x) /\ k_exts k' = k_exts (m_k x) /\ k_data k' = k_data (m_k x) /\ k_info k' = k_info (m_k x) /\
    k_poses k' = delete ts (k_poses (m_k x)) /\ k_views k' = delete ts (k_views (m_k x)) /\ k_vts k' = List.filter (fun t => negb (t =? ts)) (k_vts (m_k x)) /\
    (forall p, p ∈ s_params (c_base (k_solver k')) <-> p ∈ s_params (c_base (k_solver (m_k x))) /\ p <> v_pose v) /\
    (forall r, r ∈ s_res (c_base (k_solver k')) <-> r = new \/ r ∈ s_res (c_base (k_solver (m_k x))) /\ m_prior x <> Some r /\ ~ holds v r) /\
    (forall p, In p (blocks new) <-> remains blocks info ext_addr cam_addr x v p) /\ base.NoDup (blocks new).
Proof.
  intros blocks info rows cols size sp V ext_addr cam_addr base x new ts v Hr Hc Hx T Pe Ho Hv H1 H2.
  pose proof (mreach_MInv blocks info rows cols size sp Hr Hc ext_addr cam_addr base x Hx) as M.
  destruct (M_marg_ok blocks info rows cols size sp Hr Hc ext_addr cam_addr base x new ts v M Ho Hv T Pe H1 H2) as (k' & E & _ & R). exists k'. split; [exact E|exact R].
Qed.
(** In every other case the behaviour is undefined: no view at all, every residual of the oldest view filtered out, or all the
    parameters it is about fixed. *)
Theorem C105_undefined : forall (blocks : Z -> list Z) info rows cols size sp (V : Type) ext_addr cam_addr base (x : mcalib V) new,
  0 <= rows -> 0 <= cols -> mreach blocks info rows cols size sp ext_addr cam_addr base x -> typed info ext_addr cam_addr (m_k x) ->
  (k_views (m_k x) = ∅ \/ exists ts v, is_oldest (m_k x) ts /\ k_views (m_k x) !! ts = Some v /\
     ((forall c, v_res v c = []) \/ forall p, ~ remains blocks info ext_addr cam_addr x v p)) ->
  marginalize blocks info new x = Undef.
Proof.
  intros blocks info rows cols size sp V ext_addr cam_addr base x new Hr Hc Hx T H.
  exact (M_marg_undef blocks info rows cols size sp ext_addr cam_addr base x new (mreach_MInv blocks info rows cols size sp Hr Hc ext_addr cam_addr base x Hx) T H).
Qed.
(** Once a view has been marginalised, remove_all_views() can never succeed again. *)
Theorem C105_remove_all_refuted : forall (blocks : Z -> list Z) info rows cols size sp (V : Type) ext_addr cam_addr base (x : mcalib V) m,
  0 <= rows -> 0 <= cols -> mreach blocks info rows cols size sp ext_addr cam_addr base x -> m_prior x = Some m -> remove_all_views blocks (m_k x) = Throw Fatal.
Proof.
  intros blocks info rows cols size sp V ext_addr cam_addr base x m Hr Hc Hx Em.
  pose proof (mreach_MInv blocks info rows cols size sp Hr Hc ext_addr cam_addr base x Hx) as M. unfold remove_all_views.
  destruct (M_remove_views blocks info rows cols size sp Hr Hc ext_addr cam_addr base (map_to_list (k_views (m_k x))).*1 x M) as (k' & E & [_ G _]). rewrite E. cbn [obind].
  destruct (decide (k_views k' = ∅)); [|reflexivity]. destruct (decide (s_res (c_base (k_solver k')) = ∅)) as [H|]; [|reflexivity].
  exfalso. destruct (G m Em) as [_ X]. cbn [with_k m_k] in X. rewrite H in X. set_solver.
Qed.
(** ... while before it always does. *)
Theorem C105_remove_all : forall (blocks : Z -> list Z) info rows cols size sp (V : Type) ext_addr cam_addr base (x : mcalib V),
  0 <= rows -> 0 <= cols -> mreach blocks info rows cols size sp ext_addr cam_addr base x -> m_prior x = None ->
  exists k', remove_all_views blocks (m_k x) = Ret k' /\ k_views k' = ∅ /\ k_poses k' = ∅ /\ s_res (c_base (k_solver k')) = ∅ /\ s_params (c_base (k_solver k')) = base.
Proof.
  intros blocks info rows cols size sp V ext_addr cam_addr base x Hr Hc Hx Em.
  pose proof (mreach_MInv blocks info rows cols size sp Hr Hc ext_addr cam_addr base x Hx) as [K _ _]. unfold bare in K. rewrite Em in K.
  destruct (remove_all_views_ok blocks rows cols size sp Hr Hc ext_addr cam_addr base (m_k x) K) as (k' & E & _ & _ & _ & _ & _ & H1 & H2 & _ & H3 & H4). exists k'. auto.
Qed.

(** ** a history that meets the hypotheses: two marginalisations *)
Definition ids_in (x : mcalib Z) : list Z := elements (s_res (c_base (k_solver (m_k x)))).
Theorem C105_ex : mx_reach false mx_x2 /\ mx_reach false mx_x4 /\ mx_reach false mx_x5 /\
  prior_env mx_blocks (mx_info false) (-2) mx_x4 /\ typed (mx_info false) ex_ext ex_cam (m_k mx_x4) /\
  marginalize mx_blocks (mx_info false) (-1) mx_x2 = Ret mx_x3 /\ marginalize mx_blocks (mx_info false) (-2) mx_x4 = Ret mx_x5 /\
  m_prior mx_x4 = Some (-1) /\ m_prior mx_x5 = Some (-2) /\
  (forall t, is_Some (k_views (m_k mx_x2) !! t) <-> t = 7 \/ t = 9) /\ (forall t, is_Some (k_views (m_k mx_x5) !! t) <-> t = 11) /\
  s_res (c_base (k_solver (m_k mx_x4))) = list_to_set (-1 :: ids 2 ++ ids 3) /\ s_res (c_base (k_solver (m_k mx_x5))) = list_to_set (-2 :: ids 3) /\
  s_params (c_base (k_solver (m_k mx_x5))) = list_to_set [0; 1; ex_pose 3].
Proof.
  assert (D : forall (x : mcalib Z) l, bool_decide ((map_to_list (k_views (m_k x))).*1 = l) = true -> forall t, is_Some (k_views (m_k x) !! t) <-> In t l).
  { intros x l H t. apply bool_decide_eq_true in H. subst l. rewrite <- elem_of_list_In, elem_of_list_fmap. split.
    - intros [v H]. exists (t, v). split; [reflexivity|]. apply elem_of_map_to_list, H.
    - intros ([t' v] & -> & H). apply elem_of_map_to_list in H. cbn. eauto. }
  split; [apply mx_reach2|]. split; [apply mx_reach4|]. split; [apply mx_reach5|]. split; [apply prior_ok_env; vm_compute; reflexivity|].
  split; [apply posed_typed; vm_compute; reflexivity|]. split; [apply got_Ret; vm_compute; reflexivity|]. split; [apply got_Ret; vm_compute; reflexivity|].
  split; [vm_compute; reflexivity|]. split; [vm_compute; reflexivity|].
  split. { intros t. rewrite (D mx_x2 [9; 7] ltac:(vm_compute; reflexivity) t). cbn. intuition. }
  split. { intros t. rewrite (D mx_x5 [11] ltac:(vm_compute; reflexivity) t). cbn. intuition. }
  split; [|split]; (match goal with |- ?g => assert (X : bool_decide g = true) by (vm_compute; reflexivity) end; apply bool_decide_eq_true in X; exact X).
Qed.
(** ** the undefined cases do occur *)
(** the only view loses all its residuals to filtering (_remove_outliers / _filter_all_views), then is marginalised *)
Lemma mx_plain1 : reach mx_blocks 1 1 1%R 0%R ex_ext ex_cam mx_base (m_k mx_x1).
Proof.
  assert (E : is_ret (add_view mx_blocks ex_corners (ex_env 1 50) ex_k0 (ex_gs 7)) = true) by (vm_compute; reflexivity). apply (got_Ret (false, ex_k0)) in E.
  unfold mx_x1, mx_add, with_k, m_k. cbn [mx_x0 m_k]. change (m_k mx_x0) with ex_k0. destruct (got (false, ex_k0) (add_view mx_blocks ex_corners (ex_env 1 50) ex_k0 (ex_gs 7))) as [b k'].
  eapply (R_add _ _ _ _ _ _ _ _ ex_k0 (ex_env 1 50) (ex_hist 7) (ex_gs 7) b k'); [apply R_init, mx_initial| |apply ex_recorded| |exact E].
  - apply mx_fresh; [apply out_pose; vm_compute; reflexivity|apply (out_id 1 (m_k mx_x0) []); [vm_compute; reflexivity|intros r []]].
  - intros t _. reflexivity.
Qed.
Theorem C105_empty_view_refuted : exists x : mcalib Z, mx_reach false x /\ typed (mx_info false) ex_ext ex_cam (m_k x) /\ is_Some (k_views (m_k x) !! 7) /\ forall new, marginalize mx_blocks (mx_info false) new x = Undef.
Proof.
  assert (Hd : bool_decide (is_Some (k_views (m_k mx_x1) !! 7)) = true) by (vm_compute; reflexivity). apply bool_decide_eq_true in Hd. destruct Hd as [v Hv].
  destruct (C28_filter_view_partial mx_blocks 1 1 1%R 0%R Z ex_ext ex_cam mx_base (m_k mx_x1) 7 v (fun _ => Some (1%R, 1%R)) (0%R, 0%R)) as (v' & s' & out & E & _ & _ & Hf & _); [lia|lia|exact mx_plain1|exact Hv|].
  pose proof (M_filter mx_blocks (mx_info false) 1 1 1%R 0%R ex_ext ex_cam mx_base mx_x1 _ _ 7 v v' s' _ (mx_reach1 false) Hv E) as Hx.
  match type of Hx with mreach _ _ _ _ _ _ _ _ _ ?y => set (x := y) in Hx end.
  assert (T : typed (mx_info false) ex_ext ex_cam (m_k x)). { change (typed (mx_info false) ex_ext ex_cam (m_k mx_x1)). apply posed_typed. vm_compute. reflexivity. }
  assert (Hx7 : k_views (m_k x) !! 7 = Some v'). { unfold x. cbn [with_k m_k k_views]. apply lookup_insert. }
  exists x. split; [exact Hx|]. split; [exact T|]. split; [rewrite Hx7; eauto|].
  intros new. apply (C105_undefined mx_blocks (mx_info false) 1 1 1%R 0%R Z ex_ext ex_cam mx_base x new); [lia|lia|exact Hx|exact T|]. right. exists 7, v'. split; [|split; [exact Hx7|]].
  - split; [rewrite Hx7; eauto|]. intros t. unfold x. cbn [with_k m_k k_views].
    assert (Hn : forall t, t <> 7 -> k_views (m_k mx_x1) !! t = None).
    { intros t' Ht. destruct (k_views (m_k mx_x1) !! t') eqn:Et; [|reflexivity]. exfalso.
      assert (X : bool_decide ((map_to_list (k_views (m_k mx_x1))).*1 = [7]) = true) by (vm_compute; reflexivity). apply bool_decide_eq_true in X.
      apply elem_of_map_to_list, (elem_of_list_fmap_1 fst) in Et. rewrite X in Et. cbn in Et. apply elem_of_list_singleton in Et. contradiction. }
    intros [w Hw]. destruct (decide (t = 7)) as [->|Ht]; [lia|]. rewrite lookup_insert_ne in Hw by congruence. rewrite (Hn t Ht) in Hw. discriminate Hw.
  - left. intros c. destruct (Hf c) as (keep & -> & Hk). destruct (v_res v c) as [|r l]; [reflexivity|]. generalize (r :: l) as l'. induction l' as [|a l' IH]; [reflexivity|]. cbn [List.filter].
    rewrite (proj2 (Hk a)); [exact IH|]. unfold violates. exists 1%R, 1%R. split; [reflexivity|]. cbn. lra.
Qed.
(** intrinsics and extrinsics fixed: nothing remains *)
Theorem C105_all_fixed_refuted : mx_reach true mx_x2 /\ typed (mx_info true) ex_ext ex_cam (m_k mx_x2) /\ forall new, marginalize mx_blocks (mx_info true) new mx_x2 = Undef.
Proof.
  split; [apply mx_reach2|]. split; [apply posed_typed; vm_compute; reflexivity|]. intros new. vm_compute. reflexivity.
Qed.
(** no view: begin() of an empty map *)
Theorem C105_no_views_refuted : mx_reach false mx_x0 /\ typed (mx_info false) ex_ext ex_cam (m_k mx_x0) /\ forall new, marginalize mx_blocks (mx_info false) new mx_x0 = Undef.
Proof.
  split; [apply mx_reach0|]. split; [apply posed_typed; vm_compute; reflexivity|]. intros new. vm_compute. reflexivity.
Qed.
