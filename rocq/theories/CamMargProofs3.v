From Coq Require Import Reals.
From Verif Require Import Base.
From stdpp Require Import gmap sets list sorting.
From Verif Require Import AprilGridModel AprilGridSpec AprilGridProofs AprilGridIOModel SolverModel SolverProofs CalibModel CalibSpec CalibProofs CalibProofs2 CalibProofs3 CalibProofs4 CalibProofs5.
From Verif Require Import SolverLsqModel MargHessModel Prop_MargHess CamMargModel CamMargSpec CamMargProofs CamMargProofs2.
Local Open Scope Z_scope.

Lemma filter_eqb_one p l : List.NoDup l -> In p l -> List.filter (Z.eqb p) l = [p].
Proof.
  induction l as [|a l IH]; intros N H; [destruct H|]. inversion N as [|? ? N1 N2]; subst. cbn [List.filter]. destruct (Z.eqb_spec p a) as [->|Hne].
  - f_equal. clear IH H. induction l as [|b l IHl]; cbn [List.filter]; [reflexivity|]. destruct (Z.eqb_spec a b) as [->|]; [exfalso; apply N1; left; reflexivity|].
    apply IHl; [inversion N; subst; constructor; [intros X; apply N1; right; exact X|inversion N2; assumption]|intros X; apply N1; right; exact X|inversion N2; assumption].
  - destruct H as [H|H]; [congruence|]. apply IH; assumption.
Qed.
Lemma filter_eqb_none p l : ~ In p l -> List.filter (Z.eqb p) l = [].
Proof.
  induction l as [|a l IH]; intros H; [reflexivity|]. cbn [List.filter]. destruct (Z.eqb_spec p a) as [->|Hne]; [exfalso; apply H; left; reflexivity|].
  apply IH. intros X. apply H. right. exact X.
Qed.

Section M.
Context (blocks : Z -> list Z) (info : Z -> pinfo) (rows cols : Z) (size sp : R).
Context (Hrows : 0 <= rows) (Hcols : 0 <= cols).
Context {V : Type}.
Context (ext_addr cam_addr : Z -> Z).
Notation MInv := (MInv blocks info rows cols size sp ext_addr cam_addr).
Notation KInvD := (KInv blocks rows cols size sp ext_addr cam_addr).

Definition blks (x : mcalib V) (v : cview) : list (list Z) := map blocks (handed (m_prior x) (keys (k_cams (m_k x))) v).
Section One.
Context (base : gset Z) (x : mcalib V) (M : MInv base x) (ts : Z) (v : cview) (Hv : k_views (m_k x) !! ts = Some v).
Context (T : typed info ext_addr cam_addr (m_k x)).

Lemma view_of : (exists w, k_poses (m_k x) !! ts = Some (v_pose v, w)) /\
  forall c r, In r (v_res v c) -> In c (keys (k_cams (m_k x))) /\ blocks (vr_id r) = [ext_addr c; v_pose v; cam_addr c] /\ ext_addr c ∈ base /\ cam_addr c ∈ base.
Proof.
  pose proof (mi_k _ _ _ _ _ _ _ _ _ _ M) as K. destruct (bare_fields x) as (B1 & B2 & B3 & B4 & B5 & B6 & B7 & B8 & B9). rewrite <- B5 in Hv.
  destruct (ki_view K ts v Hv) as (_ & E1 & _ & E2). rewrite B4 in E1. rewrite B1 in E2. split; assumption.
Qed.
Lemma pose_not_base : v_pose v ∉ base.
Proof.
  destruct view_of as [[w E] _]. pose proof (mi_k _ _ _ _ _ _ _ _ _ _ M) as K. destruct (bare_fields x) as (B1 & B2 & B3 & B4 & B5 & B6 & B7 & B8 & B9).
  rewrite <- B4 in E. exact (ki_base K _ _ _ E).
Qed.
Lemma used_spec p : used (blks x v) p <-> (exists c r, In r (v_res v c) /\ (p = ext_addr c \/ p = v_pose v \/ p = cam_addr c)) \/ exists m, m_prior x = Some m /\ In p (blocks m).
Proof.
  unfold used, blks, handed. split.
  - intros (b & Hb & Hp). rewrite in_map_iff in Hb. destruct Hb as (r & <- & Hr). rewrite in_app_iff in Hr. destruct Hr as [Hr|Hr].
    + right. destruct (m_prior x) as [m|]; [|destruct Hr]. destruct Hr as [<-|[]]. eauto.
    + left. rewrite in_map_iff in Hr. destruct Hr as (y & <- & Hy). rewrite in_flat_map in Hy. destruct Hy as (c & Hc & Hy). destruct (proj2 view_of c y Hy) as (_ & E & _).
      rewrite E in Hp. exists c, y. split; [exact Hy|]. destruct Hp as [<-|[<-|[<-|[]]]]; auto.
  - intros [(c & r & Hr & Hp)|(m & Em & Hp)].
    + destruct (proj2 view_of c r Hr) as (Hc & E & _). exists (blocks (vr_id r)). split; [|rewrite E; destruct Hp as [->|[->| ->]]; cbn; auto].
      apply in_map. apply in_app_iff. right. apply in_map, in_flat_map. eauto.
    + exists (blocks m). split; [|exact Hp]. apply in_map. rewrite Em. left. reflexivity.
Qed.
Lemma used_pose : used (blks x v) (v_pose v) <-> exists c r, In r (v_res v c).
Proof.
  rewrite used_spec. split; [|intros (c & r & Hr); left; eauto 6]. intros [(c & r & Hr & _)|(m & Em & Hp)]; [eauto|].
  exfalso. destruct (mi_blk _ _ _ _ _ _ _ _ _ _ M m _ Em Hp) as [Hb _]. exact (pose_not_base Hb).
Qed.
Lemma remain_spec p : In p (remain_params info (Z.eqb (v_pose v)) (blks x v)) <-> remains blocks info ext_addr cam_addr x v p.
Proof.
  rewrite remain_In, used_spec. unfold remains. rewrite Z.eqb_neq. destruct T as (T1 & T2 & _). split.
  - intros ([(c & r & Hr & Hp)|Hm] & Hne & Hf & Ht); split; auto. left. exists c, r. split; [exact Hr|]. destruct Hp as [->|[->| ->]]; [auto|congruence|auto].
  - intros [Hf H]. split; [destruct H as [(c & r & Hr & [->| ->])|H]; eauto 8|].
    assert (Hb : p ∈ base /\ exists c, p = ext_addr c \/ p = cam_addr c).
    { destruct H as [(c & r & Hr & Hp)|(m & Em & Hp)]; [|destruct (mi_blk _ _ _ _ _ _ _ _ _ _ M m _ Em Hp) as (A & _ & B); auto].
      destruct (proj2 view_of c r Hr) as (_ & _ & B1 & B2). split; [destruct Hp as [->| ->]; assumption|eauto]. }
    destruct Hb as [Hb (c & Hc)]. split; [intros <-; exact (pose_not_base Hb)|]. split; [exact Hf|].
    destruct Hc as [->| ->]; [rewrite (proj1 (T1 c))|rewrite (proj1 (T2 c))]; discriminate.
Qed.
Lemma remain_base p : remains blocks info ext_addr cam_addr x v p -> p ∈ base /\ pi_fixed (info p) = false /\ exists c, p = ext_addr c \/ p = cam_addr c.
Proof.
  intros [Hf [(c & r & Hr & Hp)|(m & Em & Hp)]]; [|destruct (mi_blk _ _ _ _ _ _ _ _ _ _ M m _ Em Hp) as (A & _ & B); auto].
  destruct (proj2 view_of c r Hr) as (_ & _ & B1 & B2). split; [destruct Hp as [->| ->]; assumption|eauto].
Qed.
Lemma sizes_pos l : (forall p, In p l -> 0 < pi_size (info p)) -> 0 <= sizes info l /\ (0 < sizes info l <-> l <> []).
Proof.
  induction l as [|a l IH]; intros H; cbn [sizes fold_right]; [split; [lia|]; split; [lia|congruence]|].
  destruct IH as [I1 I2]; [intros p Hp; apply H; right; exact Hp|]. pose proof (H a (or_introl eq_refl)). unfold sizes in I1. split; [lia|]. split; [discriminate|lia].
Qed.
Lemma m_pos : marg_params (Z.eqb (v_pose v)) (blks x v) = [v_pose v] /\ 0 < marg_m info (Z.eqb (v_pose v)) (blks x v) /\ (exists c r, In r (v_res v c)) \/
  marg_m info (Z.eqb (v_pose v)) (blks x v) = 0 /\ ~ exists c r, In r (v_res v c).
Proof.
  unfold marg_m. destruct (first_seen_spec (blks x v)) as [N F]. destruct (in_dec Z.eq_dec (v_pose v) (first_seen (blks x v))) as [H|H].
  - left. unfold marg_params. rewrite filter_eqb_one by assumption. split; [reflexivity|]. split; [|apply used_pose, F, H].
    cbn. destruct view_of as [[w E] _]. destruct T as (_ & _ & T3). pose proof (T3 _ _ _ E). lia.
  - right. unfold marg_params. rewrite filter_eqb_none by assumption. split; [reflexivity|]. intros X. apply H, F, used_pose, X.
Qed.
Lemma r_pos : 0 < marg_r info (Z.eqb (v_pose v)) (blks x v) <-> exists p, remains blocks info ext_addr cam_addr x v p.
Proof.
  unfold marg_r. destruct (sizes_pos (remain_params info (Z.eqb (v_pose v)) (blks x v))) as [_ E].
  - intros p Hp. apply remain_spec, remain_base in Hp. destruct Hp as (_ & _ & c & Hp). destruct T as (T1 & T2 & _). destruct Hp as [->| ->]; [apply T1|apply T2].
  - rewrite E. split.
    + intros H. destruct (remain_params info (Z.eqb (v_pose v)) (blks x v)) as [|p l] eqn:El; [congruence|]. exists p. apply remain_spec. rewrite El. left. reflexivity.
    + intros (p & Hp) H. apply remain_spec in Hp. rewrite H in Hp. destruct Hp.
Qed.
Lemma first_step : (match m_prior x with None => Ret (k_solver (m_k x)) | Some m => c_remove_residual blocks (k_solver (m_k x)) m end) = Ret (k_solver (bare x)).
Proof.
  pose proof (mi_good _ _ _ _ _ _ _ _ _ _ M) as G. unfold bare. destruct (m_prior x) as [m|]; [|reflexivity]. rewrite (forget_ret blocks m _ (G m eq_refl)). reflexivity.
Qed.
End One.

Lemma M_marg_ok base (x : mcalib V) new ts v : MInv base x -> is_oldest (m_k x) ts -> k_views (m_k x) !! ts = Some v -> typed info ext_addr cam_addr (m_k x) -> prior_env blocks info new x ->
  (exists c r, In r (v_res v c)) -> (exists p, remains blocks info ext_addr cam_addr x v p) ->
  exists k', marginalize blocks info new x = Ret (mkM k' (Some new)) /\ MInv base (mkM k' (Some new)) /\
    k_cams k' = k_cams (m_k x) /\ k_exts k' = k_exts (m_k x) /\ k_data k' = k_data (m_k x) /\ k_info k' = k_info (m_k x) /\
    k_poses k' = delete ts (k_poses (m_k x)) /\ k_views k' = delete ts (k_views (m_k x)) /\ k_vts k' = List.filter (fun t => negb (t =? ts)) (k_vts (m_k x)) /\
    (forall p, p ∈ s_params (c_base (k_solver k')) <-> p ∈ s_params (c_base (k_solver (m_k x))) /\ p <> v_pose v) /\
    (forall r, r ∈ s_res (c_base (k_solver k')) <-> r = new \/ r ∈ s_res (c_base (k_solver (m_k x))) /\ m_prior x <> Some r /\ ~ holds v r) /\
    (forall p, In p (blocks new) <-> remains blocks info ext_addr cam_addr x v p) /\ base.NoDup (blocks new).
Proof.
  intros M Ho Hv T [P1 P2] Hr Hp. pose proof (P2 ts v Ho Hv) as Eb. fold (blks x v) in Eb.
  pose proof (fun p => remain_spec base x M ts v Hv T p) as RS. rewrite <- Eb in RS.
  assert (Nb : base.NoDup (blocks new)) by (rewrite Eb; apply NoDup_ListNoDup, remain_NoDup).
  unfold marginalize. pose proof (oldest_spec (m_k x)) as Os. destruct (oldest (m_k x)) as [ts'|]; [|rewrite Os, lookup_empty in Hv; discriminate Hv].
  rewrite (oldest_unique _ _ _ Os Ho), Hv. clear Os ts'.
  destruct (view_of base x M ts v Hv) as [[w Ew] Hvr]. rewrite Ew. rewrite (first_step base x M). cbn [obind].
  unfold view_marginalize. fold (blks x v).
  destruct (m_pos base x M ts v Hv T) as [(Em & Hm & _)|[_ Hm]]; [|contradiction].
  pose proof (proj2 (r_pos base x M ts v Hv T) Hp) as Hrr. apply Z.ltb_lt in Hm, Hrr. rewrite Hm, Hrr. cbn [andb]. rewrite Em. cbn [c_remove_params obind].
  pose proof (mi_k _ _ _ _ _ _ _ _ _ _ M) as K. set (s := k_solver (bare x)).
  destruct (bare_fields x) as (B1 & B2 & B3 & B4 & B5 & B6 & B7 & B8 & B9).
  assert (Hpp : v_pose v ∈ s_params (c_base s)). { apply (ki_params K). right. exists ts, w. rewrite B4. exact Ew. }
  pose proof (ki_c K) as Cs. fold s in Cs.
  rewrite (c_remove_param_effect blocks s _ Cs), decide_True by exact Hpp. cbn [obind].
  set (s1 := c_removed blocks s (v_pose v)). pose proof (CInv_removed blocks s (v_pose v) Cs) as Cs1. fold s1 in Cs1.
  assert (Hn1 : new ∉ s_res (c_base s1)). { intros X. unfold s1, c_removed in X. cbn in X. apply elem_of_difference in X as [X _]. apply bare_res in X. apply P1, X. }
  assert (Hp1 : forall p, In p (blocks new) -> p ∈ c_pparams s1).
  { intros p X. apply RS in X. destruct (remain_base base x M ts v Hv p X) as [Xb _]. unfold s1, c_removed. cbn. apply elem_of_difference. split.
    - unfold s. rewrite (ki_pp K). apply (ki_params K). left. exact Xb.
    - rewrite elem_of_singleton. intros ->. exact (pose_not_base base x M ts v Hv Xb). }
  destruct (add_new blocks info rows cols Hrows Hcols ext_addr cam_addr new s1 Cs1 Hn1 Nb Hp1) as (s2 & Ea & Cs2 & F1 & F2 & F3 & F4). rewrite Ea. cbn [obind].
  (* the view goes *)
  destruct (remove_view_ok blocks rows cols size sp Hrows Hcols ext_addr cam_addr base (bare x) ts K) as (kb & E & Kb & Q1 & Q2 & Q3 & Q4 & Q5 & Q6 & Q7 & Q8 & Q9).
  unfold remove_view in E |- *. rewrite B4, Ew in E. cbn [set_solver k_poses k_views k_vts k_solver] in E |- *. rewrite Ew.
  unfold has_param in E |- *. fold s in E. rewrite bool_decide_true in E by exact Hpp.
  rewrite (c_remove_param_effect blocks s _ Cs), decide_True in E by exact Hpp. fold s1 in E. cbn [obind k_views k_vts] in E. rewrite B5, Hv, B6 in E.
  rewrite bool_decide_false; [|rewrite F2; unfold s1, c_removed; cbn; set_solver]. cbn [obind k_views k_vts]. rewrite Hv.
  destruct (erase_first ts (k_vts (m_k x))) as [l| |]; cbn [obind] in E |- *; try discriminate E. injection E as <-. cbn [k_cams k_exts k_data k_info k_poses k_views k_vts k_solver k_exts] in *.
  rewrite B4, B5, B6 in *.
  eexists. split; [reflexivity|]. cbn [k_cams k_exts k_data k_info k_poses k_views k_vts k_solver].
  split.
  { split; cbn [m_prior m_k].
    - pose proof (KInv_same blocks rows cols size sp ext_addr cam_addr base _ (forget new s2) Kb F4) as KK. unfold bare. cbn [m_prior m_k]. unfold kforget. cbn [set_solver k_cams k_exts k_data k_info k_poses k_views k_vts k_solver] in KK |- *.
      rewrite B1, B2, B3, B7 in KK. exact KK.
    - intros m H. injection H as <-. split; [exact Cs2|]. cbn [k_solver]. rewrite F1. set_solver.
    - intros m p H Hin. injection H as <-. apply RS in Hin. exact (remain_base base x M ts v Hv p Hin). }
  repeat (split; [first [reflexivity|assumption]|]).
  split; [|split; [|split; [exact RS|exact Nb]]].
  - intros p. rewrite F2. unfold s1, c_removed. cbn. unfold s. rewrite elem_of_difference, elem_of_singleton, B8. tauto.
  - intros r. rewrite F1, elem_of_union, elem_of_singleton. specialize (Q9 r). rewrite bare_res in Q9. rewrite Q9. split; [intros [->|[[A1 A2] A3]]; [auto|]|intros [->|(A1 & A2 & A3)]; [auto|right; split; [auto|]]].
    + right. split; [exact A1|]. split; [exact A2|]. apply A3, Hv.
    + intros v' Hv'. rewrite Hv in Hv'. injection Hv' as <-. exact A3.
Qed.
Lemma M_marg_undef base (x : mcalib V) new : MInv base x -> typed info ext_addr cam_addr (m_k x) ->
  (k_views (m_k x) = ∅ \/ exists ts v, is_oldest (m_k x) ts /\ k_views (m_k x) !! ts = Some v /\ ((forall c, v_res v c = []) \/ forall p, ~ remains blocks info ext_addr cam_addr x v p)) ->
  marginalize blocks info new x = Undef.
Proof.
  intros M T H. unfold marginalize. pose proof (oldest_spec (m_k x)) as Os. destruct (oldest (m_k x)) as [ts'|]; [|reflexivity].
  destruct H as [H|(ts & v & Ho & Hv & H)]; [destruct Os as [[v Hv] _]; rewrite H, lookup_empty in Hv; discriminate Hv|].
  rewrite (oldest_unique _ _ _ Os Ho), Hv. destruct (view_of base x M ts v Hv) as [[w Ew] Hvr]. rewrite Ew, (first_step base x M). cbn [obind].
  unfold view_marginalize. fold (blks x v).
  replace (_ && _) with false; [reflexivity|]. symmetry. destruct H as [H|H].
  - destruct (m_pos base x M ts v Hv T) as [(_ & _ & c & r & X)|[X _]]; [rewrite H in X; destruct X|]. rewrite X. reflexivity.
  - apply andb_false_iff. right. apply Z.ltb_ge. apply Z.nlt_ge. intros X. apply (r_pos base x M ts v Hv T) in X as (p & X). exact (H p X).
Qed.
Lemma oldest_or (k : calib V) : k_views k = ∅ \/ exists ts v, is_oldest k ts /\ k_views k !! ts = Some v.
Proof. pose proof (oldest_spec k) as H. destruct (oldest k) as [ts|]; [right|left; exact H]. exists ts. destruct (proj1 H) as [v Hv]. eauto. Qed.

Lemma mreach_MInv base (x : mcalib V) : mreach blocks info rows cols size sp ext_addr cam_addr base x -> MInv base x.
Proof.
  induction 1 as [k I|x e hs gs b k' Hx IH F Rc N E|x e thr n i hs gs b k' Hx IH F Rc N E|x ts k' Hx IH E|x k' Hx IH E|x err th ts v v' s' n Hx IH Hv E|x n Hx IH|x new x' Hx IH Pe T E].
  - split; cbn [m_prior m_k]; [|intros m H; discriminate H|intros m p H; discriminate H]. unfold bare. cbn [m_prior m_k].
    apply (reach_KInv blocks rows cols size sp Hrows Hcols ext_addr cam_addr base k). apply R_init. exact I.
  - pose proof (recorded_ok blocks rows cols size sp Hrows Hcols ext_addr cam_addr hs gs Rc) as G. eapply (M_add_ok blocks info rows cols size sp Hrows Hcols ext_addr cam_addr base x e gs (content_of hs) b k' IH F); eassumption.
  - pose proof (recorded_ok blocks rows cols size sp Hrows Hcols ext_addr cam_addr hs gs Rc) as G. eapply (M_nbv_ok blocks info rows cols size sp Hrows Hcols ext_addr cam_addr base x e thr n i gs (content_of hs) b k' IH F); eassumption.
  - destruct (M_remove_ok blocks info rows cols size sp Hrows Hcols ext_addr cam_addr base x ts IH) as (k2 & E2 & M2 & _). rewrite E in E2. injection E2 as ->. exact M2.
  - exact (M_remove_all blocks info rows cols size sp Hrows Hcols ext_addr cam_addr base x k' IH E).
  - exact (M_filter_ok blocks info rows cols size sp Hrows Hcols ext_addr cam_addr base x err th ts v v' s' n IH Hv E).
  - exact (M_solved blocks info rows cols size sp ext_addr cam_addr base x n IH).
  - destruct (oldest_or (m_k x)) as [Hem|(ts & v & Ho & Hv)].
    { rewrite (M_marg_undef base x new IH T) in E by auto. discriminate E. }
    destruct (m_pos base x IH ts v Hv T) as [(_ & _ & Hr)|[_ Hr]].
    2:{ rewrite (M_marg_undef base x new IH T) in E; [discriminate E|]. right. exists ts, v. split; [exact Ho|]. split; [exact Hv|]. left. intros c. destruct (v_res v c) as [|r l] eqn:El; [reflexivity|].
        exfalso. apply Hr. exists c, r. rewrite El. left. reflexivity. }
    destruct (Z.lt_trichotomy 0 (marg_r info (Z.eqb (v_pose v)) (blks x v))) as [Hp|Hp].
    + apply (r_pos base x IH ts v Hv T) in Hp. destruct (M_marg_ok base x new ts v IH Ho Hv T Pe Hr Hp) as (k' & E' & M' & _). rewrite E in E'. injection E' as ->. exact M'.
    + rewrite (M_marg_undef base x new IH T) in E; [discriminate E|]. right. exists ts, v. split; [exact Ho|]. split; [exact Hv|]. right. intros p X.
      assert (Y : 0 < marg_r info (Z.eqb (v_pose v)) (blks x v)) by (apply (r_pos base x IH ts v Hv T); eauto). lia.
Qed.
End M.
