(** A concrete calibrator that marginalises (one camera, a target with one tag) *)
From Coq Require Import Reals.
From Verif Require Import Base.
From stdpp Require Import gmap sets list countable.
From Verif Require Import AprilGridModel AprilGridSpec AprilGridIOModel SolverModel CalibModel CalibSpec CalibExample SolverLsqModel MargHessModel CamMargModel CamMargSpec.
Local Open Scope Z_scope.

(** the priors are the objects -1, -2, ...: about the extrinsics 0 and the camera 1 *)
Definition mx_blocks (r : Z) : list Z := match r with Zneg _ => [0; 1] | _ => ex_blocks r end.
(** everything is estimated; with [f], nothing but the poses *)
Definition mx_info (f : bool) (p : Z) : pinfo :=
  if p mod 3 =? 0 then mkPinfo TExtrinsics f 6 else if p mod 3 =? 1 then mkPinfo TCamera f 8 else mkPinfo TPose false 6.
Definition mx_base : gset Z := list_to_set [0; 1].
Notation mx_reach f := (mreach mx_blocks (mx_info f) 1 1 1%R 0%R ex_ext ex_cam mx_base).
Definition mx_x0 : mcalib Z := mkM ex_k0 None.
Lemma mx_initial : initial mx_blocks ex_ext ex_cam mx_base ex_k0.
Proof.
  split; [auto|]. split; [auto|]. split; [auto|]. split.
  - exists [0; 1]. split; reflexivity.
  - intros c [v H]. cbn in H. apply lookup_singleton_Some in H. destruct H as [<- _]. cbn. split; [eauto|]. unfold ex_ext, ex_cam, mx_base. set_solver.
Qed.
Lemma mx_reach0 f : mx_reach f mx_x0.
Proof. apply M_init, mx_initial. Qed.
Lemma mx_typed f (k : calib Z) : (forall ts p w, k_poses k !! ts = Some (p, w) -> p mod 3 = 2) -> typed (mx_info f) ex_ext ex_cam k.
Proof.
  intros H. unfold typed, mx_info, ex_ext, ex_cam. split; [|split].
  - intros c. replace (3 * c) with (c * 3) by lia. rewrite Z.mod_mul by lia. cbn. split; [reflexivity|lia].
  - intros c. replace (3 * c + 1) with (1 + c * 3) by lia. rewrite Z.mod_add by lia. split; reflexivity.
  - intros ts p w E. rewrite (H ts p w E). reflexivity.
Qed.
Lemma mx_fresh n v (k : calib Z) : ex_pose n ∉ c_pparams (k_solver k) ->
  (forall c t i, ex_id n c t i ∉ s_res (c_base (k_solver k))) -> fresh_env mx_blocks ex_ext ex_cam (ex_env n v) k.
Proof.
  intros H1 H2. split; cbn [ex_env e_pose e_alloc]; auto.
  - intros c t i c' t' i' H. apply ex_id_inj in H. tauto.
  - intros c t i. change (mx_blocks (ex_id n c t i)) with (ex_blocks (ex_id n c t i)). rewrite ex_blocks_id. split; auto. unfold ex_ext, ex_cam, ex_pose.
    repeat constructor; rewrite ?elem_of_cons, ?elem_of_nil; try lia; tauto.
Qed.
Definition got {A} (d : A) (o : outcome A) : A := match o with Ret a => a | _ => d end.
Lemma got_Ret {A} (d : A) (o : outcome A) : is_ret o = true -> o = Ret (got d o).
Proof. destruct o; [reflexivity|discriminate..]. Qed.
(** call number [n] adds the view at time [ts] *)
Definition mx_add (n ts : Z) (x : mcalib Z) : mcalib Z := with_k x (snd (got (false, ex_k0) (add_view mx_blocks ex_corners (ex_env n 50) (m_k x) (ex_gs ts)))).
Definition ids (n : Z) : list Z := [ex_id n 0 0 0; ex_id n 0 0 3].
Lemma mx_add_reach f n ts x : mx_reach f x -> ex_pose n ∉ c_pparams (k_solver (m_k x)) -> (forall c t i, ex_id n c t i ∉ s_res (c_base (k_solver (m_k x)))) -> k_views (m_k x) !! ts = None ->
  is_ret (add_view mx_blocks ex_corners (ex_env n 50) (m_k x) (ex_gs ts)) = true -> first_detected (ex_gs ts) = Some ts -> mx_reach f (mx_add n ts x).
Proof.
  intros Hx H1 H2 H3 H4 H5. apply (got_Ret (false, ex_k0)) in H4. unfold mx_add. destruct (got _ _) as [b k'].
  eapply (M_add _ _ _ _ _ _ _ _ _ x (ex_env n 50) (ex_hist ts) (ex_gs ts) b k' Hx); [exact (mx_fresh n 50 (m_k x) H1 H2)|apply ex_recorded| |exact H4].
  intros t Ht. rewrite H5 in Ht. injection Ht as <-. exact H3.
Qed.
Lemma out_id n (k : calib Z) (l : list Z) : bool_decide (s_res (c_base (k_solver k)) = list_to_set l) = true -> (forall r, In r l -> r < 0 \/ exists n' i, r = ex_id n' 0 0 i /\ n' <> n) ->
  forall c t i, ex_id n c t i ∉ s_res (c_base (k_solver k)).
Proof.
  intros H Hl c t i X. apply bool_decide_eq_true in H. rewrite H, elem_of_list_to_set, elem_of_list_In in X. apply Hl in X. destruct X as [X|(n' & i' & X & Hn)]; [unfold ex_id in X; lia|].
  apply ex_id_inj in X. lia.
Qed.
Lemma out_pose n (k : calib Z) : bool_decide (ex_pose n ∈ c_pparams (k_solver k)) = false -> ex_pose n ∉ c_pparams (k_solver k).
Proof. intros H X. apply bool_decide_eq_false in H. contradiction. Qed.
(** the views at 7 and 9; the oldest marginalised; a view at 11; the next one marginalised *)
Definition mx_x1 : mcalib Z := mx_add 1 7 mx_x0.
Definition mx_x2 : mcalib Z := mx_add 2 9 mx_x1.
Definition mx_x3 : mcalib Z := got mx_x0 (marginalize mx_blocks (mx_info false) (-1) mx_x2).
Definition mx_x4 : mcalib Z := mx_add 3 11 mx_x3.
Definition mx_x5 : mcalib Z := got mx_x0 (marginalize mx_blocks (mx_info false) (-2) mx_x4).
Lemma mx_reach1 f : mx_reach f mx_x1.
Proof.
  apply mx_add_reach; [apply mx_reach0|apply out_pose; vm_compute; reflexivity|apply (out_id 1 (m_k mx_x0) []); [vm_compute; reflexivity|intros r []]|reflexivity|vm_compute; reflexivity|vm_compute; reflexivity].
Qed.
Lemma mx_reach2 f : mx_reach f mx_x2.
Proof.
  apply mx_add_reach; [apply mx_reach1|apply out_pose; vm_compute; reflexivity| |vm_compute; reflexivity|vm_compute; reflexivity|vm_compute; reflexivity].
  apply (out_id 2 (m_k mx_x1) (ids 1)); [vm_compute; reflexivity|]. intros r [<-|[<-|[]]]; right; eexists 1, _; (split; [reflexivity|lia]).
Qed.
(** every view's pose is of the pose kind *)
Definition posed (k : calib Z) : bool := forallb (fun x : Z * (Z * Z) => fst (snd x) mod 3 =? 2) (map_to_list (k_poses k)).
Lemma posed_typed f k : posed k = true -> typed (mx_info f) ex_ext ex_cam k.
Proof.
  intros H. apply mx_typed. intros ts p w E. unfold posed in H. rewrite forallb_forall in H. apply elem_of_map_to_list, elem_of_list_In in E. apply H in E. cbn in E. lia.
Qed.
(** all that [prior_env] asks for, decided *)
Definition prior_ok f (new : Z) (x : mcalib Z) : bool :=
  bool_decide (new ∉ s_res (c_base (k_solver (m_k x)))) &&
  forallb (fun tv : Z * cview => bool_decide (mx_blocks new = remain_params (mx_info f) (Z.eqb (v_pose (snd tv))) (map mx_blocks (handed (m_prior x) (keys (k_cams (m_k x))) (snd tv))))) (map_to_list (k_views (m_k x))).
Lemma prior_ok_env f new x : prior_ok f new x = true -> prior_env mx_blocks (mx_info f) new x.
Proof.
  intros H. apply andb_true_iff in H as [H1 H2]. split; [apply bool_decide_eq_true in H1; exact H1|]. intros ts v _ Hv. rewrite forallb_forall in H2.
  apply elem_of_map_to_list, elem_of_list_In in Hv. apply H2 in Hv. apply bool_decide_eq_true in Hv. exact Hv.
Qed.
Lemma mx_marg_reach f new x : mx_reach f x -> prior_ok f new x = true -> posed (m_k x) = true -> is_ret (marginalize mx_blocks (mx_info f) new x) = true ->
  mx_reach f (got mx_x0 (marginalize mx_blocks (mx_info f) new x)).
Proof. intros Hx H1 H2 H3. eapply M_marg; [exact Hx|apply (prior_ok_env f new x H1)|exact (posed_typed f _ H2)|exact (got_Ret mx_x0 _ H3)]. Qed.
Lemma mx_reach3 : mx_reach false mx_x3.
Proof. apply mx_marg_reach; [apply mx_reach2|vm_compute; reflexivity..]. Qed.
Lemma mx_reach4 : mx_reach false mx_x4.
Proof.
  apply mx_add_reach; [apply mx_reach3|apply out_pose; vm_compute; reflexivity| |vm_compute; reflexivity|vm_compute; reflexivity|vm_compute; reflexivity].
  apply (out_id 3 (m_k mx_x3) (-1 :: ids 2)); [vm_compute; reflexivity|]. intros r [<-|[<-|[<-|[]]]]; [left; lia|right..]; eexists 2, _; (split; [reflexivity|lia]).
Qed.
Lemma mx_reach5 : mx_reach false mx_x5.
Proof. apply mx_marg_reach; [apply mx_reach4|vm_compute; reflexivity..]. Qed.
