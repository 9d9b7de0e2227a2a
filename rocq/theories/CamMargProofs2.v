From Coq Require Import Reals.
From Verif Require Import Base.
From stdpp Require Import gmap sets list sorting.
From Verif Require Import AprilGridModel AprilGridSpec AprilGridProofs AprilGridIOModel SolverModel SolverProofs CalibModel CalibSpec CalibProofs CalibProofs2 CalibProofs3 CalibProofs4 CalibProofs5.
From Verif Require Import SolverLsqModel MargHessModel Prop_MargHess CamMargModel CamMargSpec CamMargProofs.
Local Open Scope Z_scope.

Section P.
Context {V : Type}.
(** the calibrator without its prior *)
Definition bare (x : mcalib V) : calib V := match m_prior x with None => m_k x | Some m => kforget m (m_k x) end.
(** ** the oldest view *)
Lemma oldest_spec (k : calib V) : match oldest k with None => k_views k = ∅ | Some ts => is_oldest k ts end.
Proof.
  unfold oldest, is_oldest.
  assert (P : forall t, In t (merge_sort Z.le (map_to_list (k_views k)).*1) <-> is_Some (k_views k !! t)).
  { intros t. rewrite <- elem_of_list_In, merge_sort_Permutation, elem_of_list_fmap. split.
    - intros ([t' v] & -> & H). apply elem_of_map_to_list in H. cbn. eauto.
    - intros [v H]. exists (t, v). split; [reflexivity|]. apply elem_of_map_to_list, H. }
  assert (S1 : Sorted.Sorted Z.le (merge_sort Z.le (map_to_list (k_views k)).*1)) by (apply Sorted_merge_sort; intros a b; lia).
  apply Sorted.Sorted_StronglySorted in S1; [|intros a b c; lia].
  destruct (merge_sort Z.le (map_to_list (k_views k)).*1) as [|t l]; cbn [head].
  - apply map_eq. intros t. rewrite lookup_empty. destruct (k_views k !! t) eqn:E; [|reflexivity]. exfalso. apply (proj2 (P t)). rewrite E. eauto.
  - split; [apply P; left; reflexivity|]. intros t' Ht. apply P in Ht. destruct Ht as [->|Ht]; [lia|]. inversion S1 as [|? ? _ HF]; subst. rewrite List.Forall_forall in HF. apply HF, Ht.
Qed.
Lemma oldest_unique (k : calib V) t t' : is_oldest k t -> is_oldest k t' -> t = t'.
Proof. intros [A1 A2] [B1 B2]. pose proof (A2 _ B1). pose proof (B2 _ A1). lia. Qed.

Lemma bare_fields (x : mcalib V) : k_cams (bare x) = k_cams (m_k x) /\ k_exts (bare x) = k_exts (m_k x) /\ k_data (bare x) = k_data (m_k x) /\ k_poses (bare x) = k_poses (m_k x) /\
  k_views (bare x) = k_views (m_k x) /\ k_vts (bare x) = k_vts (m_k x) /\ k_info (bare x) = k_info (m_k x) /\
  s_params (c_base (k_solver (bare x))) = s_params (c_base (k_solver (m_k x))) /\ c_pparams (k_solver (bare x)) = c_pparams (k_solver (m_k x)).
Proof. unfold bare. destruct (m_prior x); repeat split. Qed.
Lemma bare_res (x : mcalib V) r : r ∈ s_res (c_base (k_solver (bare x))) <-> r ∈ s_res (c_base (k_solver (m_k x))) /\ m_prior x <> Some r.
Proof. unfold bare. destruct (m_prior x) as [m|]; cbn; [unfold minus; set_solver|]. split; [intros H; split; [exact H|discriminate]|tauto]. Qed.
End P.

Section M.
Context (blocks : Z -> list Z) (info : Z -> pinfo) (rows cols : Z) (size sp : R).
Context (Hrows : 0 <= rows) (Hcols : 0 <= cols).
Context {V : Type}.
Context (ext_addr cam_addr : Z -> Z).
Notation corners := (fiducial_corners rows cols size sp).
Notation CInv := (CInv blocks).
Notation view_okD := (view_ok rows cols size sp).
Notation KInvD := (KInv blocks rows cols size sp ext_addr cam_addr).
Notation fresh_envD := (fresh_env blocks ext_addr cam_addr).
Notation grids_okD := (grids_ok rows cols size sp).
Notation good := (good blocks).

Record MInv (base : gset Z) (x : mcalib V) : Prop := mkMInv {
  mi_k : KInvD base (bare x);
  mi_good : forall m, m_prior x = Some m -> good m (k_solver (m_k x));
  mi_blk : forall m p, m_prior x = Some m -> In p (blocks m) -> p ∈ base /\ pi_fixed (info p) = false /\ exists c, p = ext_addr c \/ p = cam_addr c }.

(** ** solvers that cannot be told apart *)
Record same_solver (s s' : csolver) : Prop := mkSame {
  ss_res : s_res (c_base s') = s_res (c_base s);
  ss_params : s_params (c_base s') = s_params (c_base s);
  ss_p2r : forall x, mget (s_p2r (c_base s')) x = mget (s_p2r (c_base s)) x;
  ss_r2p : forall x, mget (s_r2p (c_base s')) x = mget (s_r2p (c_base s)) x;
  ss_pp : c_pparams s' = c_pparams s;
  ss_pres : c_pres s' = c_pres s;
  ss_id : c_res2id s' = c_res2id s }.
Lemma CInv_same s s' : CInv s -> same_solver s s' -> CInv s'.
Proof.
  intros [[J1 J2 J3] I2 I3 I4 I5 I6] [E1 E2 E3 E4 E5 E6 E7]. split.
  - split; intros r p; rewrite ?E1, ?E3, ?E4; [apply J1|apply J2|apply J3].
  - intros r p. rewrite E1, E3. apply I2.
  - rewrite E6, E1. exact I3.
  - rewrite E7, E1. exact I4.
  - rewrite E2, E5. exact I5.
  - intros r p. rewrite E1, E5. apply I6.
Qed.
Lemma KInv_same base (k : calib V) s' : KInvD base k -> same_solver (k_solver k) s' -> KInvD base (set_solver k s').
Proof.
  intros [A1 A2 A3 A4 A5 A6 A7 A8 A9 A10 A11] E. pose proof (CInv_same _ _ A1 E) as Hc. destruct E as [E1 E2 E3 E4 E5 E6 E7].
  split; cbn [set_solver k_cams k_exts k_poses k_views k_vts k_solver]; auto.
  - congruence.
  - intros p. rewrite E2. apply A7.
  - intros r. rewrite E1. apply A10.
  - intros ts v Hv. destruct (A11 ts v Hv) as (B1 & B2 & B3 & B4). split; [exact B1|]. split; [exact B2|]. split; [|exact B4].
    eapply view_okD_mono; [exact B3|]. intros r. rewrite E1. auto.
Qed.
Lemma forget_ret m s : good m s -> c_remove_residual blocks s m = Ret (forget m s).
Proof.
  intros [Hc Hm]. destruct (c_remove_residual_effect blocks s m Hc Hm) as (s' & E & F1 & F2 & F3 & F4 & F5 & F6 & F7). rewrite E. f_equal.
  destruct s' as [[a b c d] e f g]. cbn in *. subst. reflexivity.
Qed.
Lemma add_new new s : CInv s -> new ∉ s_res (c_base s) -> base.NoDup (blocks new) -> (forall p, In p (blocks new) -> p ∈ c_pparams s) ->
  exists s', c_add_residual blocks s new = Ret s' /\ CInv s' /\ s_res (c_base s') = {[new]} ∪ s_res (c_base s) /\ s_params (c_base s') = s_params (c_base s) /\
    c_pparams s' = c_pparams s /\ same_solver s (forget new s').
Proof.
  intros Hc Hn Hd Hp. destruct (CInv_add_residual blocks rows cols Hrows Hcols s new Hc Hn Hd) as (s' & E & Hc' & F1 & F2 & F3).
  exists s'. split; [exact E|]. split; [exact Hc'|]. split; [exact F1|]. split; [exact F2|].
  assert (F3' : c_pparams s' = c_pparams s). { rewrite F3. apply set_eq. intros q. rewrite elem_of_union, elem_of_list_to_set. split; [intros [H|H]; [apply Hp, elem_of_list_In, H|exact H]|auto]. }
  split; [exact F3'|].
  pose proof (ci_pres blocks s Hc) as P1. pose proof (ci_id blocks s Hc) as P2. pose proof (ci_pres blocks s' Hc') as P1'. pose proof (ci_id blocks s' Hc') as P2'.
  assert (Fm : minus new (s_res (c_base s')) = s_res (c_base s)) by (rewrite F1; unfold minus; set_solver).
  split; cbn [forget bforget c_base c_pparams c_pres c_res2id s_res s_params s_p2r s_r2p]; auto.
  - intros x. rewrite mget_minus. apply set_eq. intros r. unfold minus. rewrite elem_of_difference, (ci_p2r blocks s' Hc'), (ci_p2r blocks s Hc), F1. set_solver.
  - intros x. rewrite mget_delete. apply set_eq. intros q. rewrite (si_r2p blocks _ (ci_base blocks s Hc)).
    destruct (decide (x = new)) as [->|Hne]; [split; [set_solver|tauto]|]. rewrite (si_r2p blocks _ (ci_base blocks s' Hc')), F1. set_solver.
  - rewrite P1', Fm. auto.
  - rewrite P2', Fm. auto.
Qed.

Lemma set_bare (x : mcalib V) s : set_solver (bare x) s = set_solver (m_k x) s.
Proof. unfold bare. destruct (m_prior x); reflexivity. Qed.
Lemma KInv_bare_CInv base x : MInv base x -> CInv (k_solver (m_k x)).
Proof. intros [K G _]. unfold bare in K. destruct (m_prior x) as [m|] eqn:E; [apply (G m eq_refl)|apply K]. Qed.
Lemma prior_not_pose base x m ts p w : MInv base x -> m_prior x = Some m -> k_poses (m_k x) !! ts = Some (p, w) -> p ∉ blocks m.
Proof.
  intros [K G B] E Hp Hin. apply elem_of_list_In in Hin. destruct (B m p E Hin) as [Hb _].
  apply (ki_base K ts p w); [|exact Hb]. destruct (bare_fields x) as (_ & _ & _ & -> & _). exact Hp.
Qed.
Lemma prior_not_held base x m ts v c r : MInv base x -> m_prior x = Some m -> k_views (m_k x) !! ts = Some v -> In r (v_res v c) -> vr_id r <> m.
Proof.
  intros M E Hv Hr Eq. subst m. pose proof (mi_k _ _ M) as K. destruct (bare_fields x) as (_ & _ & _ & _ & Ev & _). rewrite <- Ev in Hv.
  assert (H : vr_id r ∈ s_res (c_base (k_solver (bare x)))) by (apply (ki_res K); eauto 8). apply bare_res in H as [_ H]. congruence.
Qed.

(** ** the steps *)
Lemma M_add_ok base x e gs ms b k' : MInv base x -> fresh_envD e (m_k x) -> grids_okD gs ms -> new_ts (m_k x) gs ->
  add_view blocks corners e (m_k x) gs = Ret (b, k') -> MInv base (with_k x k').
Proof.
  intros M F G N E. pose proof M as [K Hg Hb]. destruct (m_prior x) as [m|] eqn:Em.
  - pose proof (sim_add_view blocks corners m e (m_k x) gs (Hg m eq_refl)) as L. rewrite E in L.
    assert (Ha : forall c t i, e_alloc e c t i <> m). { intros c t i H. apply (fr_new _ _ _ _ _ F c t i). rewrite H. apply (Hg m eq_refl). }
    specialize (L Ha). destruct (add_view blocks corners (with_estimate e _) (kforget m (m_k x)) gs) as [[b' kb]| |] eqn:E2; cbn in L; try contradiction.
    destruct L as (<- & -> & Hg').
    split; unfold with_k; cbn [m_prior m_k]; [|intros m' H; rewrite Em in H; injection H as <-; exact Hg'|rewrite Em; exact Hb].
    unfold bare. cbn [m_prior m_k]. rewrite Em.
    unfold bare in K. rewrite Em in K.
    eapply (add_view_KInv blocks rows cols size sp Hrows Hcols ext_addr cam_addr base (kforget m (m_k x)) _ gs ms b' (kforget m k') K); [|exact G|exact N|exact E2].
    destruct F as [F1 F2 F3 F4]. split; cbn [with_estimate e_pose e_alloc kforget set_solver k_solver forget c_pparams c_base bforget s_res]; auto.
    intros c t i H. apply (F3 c t i). unfold minus in H. set_solver.
  - unfold bare in K. rewrite Em in K. pose proof (add_view_KInv blocks rows cols size sp Hrows Hcols ext_addr cam_addr base (m_k x) e gs ms b k' K F G N E) as K'.
    split; unfold with_k; cbn [m_prior m_k]; rewrite Em; [|intros m H; discriminate H|intros m p H; discriminate H]. unfold bare. cbn [m_prior m_k]. exact K'.
Qed.
Lemma M_remove_ok base x ts : MInv base x ->
  exists k', remove_view blocks (m_k x) ts = Ret k' /\ MInv base (with_k x k') /\
    k_cams k' = k_cams (m_k x) /\ k_exts k' = k_exts (m_k x) /\ k_data k' = k_data (m_k x) /\ k_info k' = k_info (m_k x) /\
    k_poses k' = delete ts (k_poses (m_k x)) /\ k_views k' = delete ts (k_views (m_k x)) /\
    (forall p, p ∈ s_params (c_base (k_solver k')) <-> p ∈ s_params (c_base (k_solver (m_k x))) /\ forall w, k_poses (m_k x) !! ts <> Some (p, w)) /\
    (forall r, r ∈ s_res (c_base (k_solver k')) <-> r ∈ s_res (c_base (k_solver (m_k x))) /\ forall v, k_views (m_k x) !! ts = Some v -> ~ holds v r).
Proof.
  intros M. pose proof M as [K Hg Hb].
  destruct (remove_view_ok blocks rows cols size sp Hrows Hcols ext_addr cam_addr base (bare x) ts K) as (kb & E & Kb & Q1 & Q2 & Q3 & Q4 & Q5 & Q6 & _ & Q8 & Q9).
  destruct (bare_fields x) as (B1 & B2 & B3 & B4 & B5 & B6 & B7 & B8 & B9). rewrite B1 in Q1. rewrite B2 in Q2. rewrite B3 in Q3. rewrite B7 in Q4. rewrite B4 in Q5, Q8. rewrite B5 in Q6, Q9. rewrite B8 in Q8.
  destruct (m_prior x) as [m|] eqn:Em.
  - pose proof (sim_remove_view blocks m (m_k x) ts (Hg m eq_refl) (fun p w => prior_not_pose base x m ts p w M Em)) as L.
    assert (E' : remove_view blocks (kforget m (m_k x)) ts = Ret kb) by (unfold bare in E; rewrite Em in E; exact E). rewrite E' in L.
    destruct (remove_view blocks (m_k x) ts) as [k'| |] eqn:Ek; cbn in L; try contradiction. destruct L as (-> & Hg').
    cbn [kforget set_solver k_cams k_exts k_data k_info k_poses k_views k_solver forget c_base bforget s_params s_res] in *.
    exists k'. split; [reflexivity|]. split.
    { split; unfold with_k; cbn [m_prior m_k]; [|intros m' H; rewrite Em in H; injection H as <-; exact Hg'|rewrite Em; exact Hb].
      unfold bare. cbn [m_prior m_k]. rewrite Em. exact Kb. }
    repeat (split; [assumption|]).
    intros r. specialize (Q9 r). rewrite bare_res, Em in Q9. unfold minus in Q9. rewrite elem_of_difference, elem_of_singleton in Q9. destruct (decide (r = m)) as [->|Hne].
    + split; [|intros _; apply Hg']. intros _. split; [apply (Hg m eq_refl)|]. intros v Hv (c & y & Hy & Ey). eapply (prior_not_held base x m ts v c y M Em Hv Hy), Ey.
    + split.
      * intros H. destruct (proj1 Q9 (conj H Hne)) as [[H1 _] H2]. auto.
      * intros [H1 H2]. apply Q9. split; [split; [exact H1|congruence]|exact H2].
  - assert (Eb : bare x = m_k x) by (unfold bare; rewrite Em; reflexivity). rewrite Eb in *.
    exists kb. split; [exact E|]. split.
    { split; unfold with_k; cbn [m_prior m_k]; rewrite Em; [|intros m H; discriminate H|intros m p H; discriminate H]. unfold bare. cbn [m_prior m_k]. exact Kb. }
    repeat (split; [assumption|]). exact Q9.
Qed.
Lemma M_values base x k' : MInv base x -> KInvD base (set_solver k' (k_solver (bare x))) -> k_solver k' = k_solver (m_k x) -> MInv base (with_k x k').
Proof.
  intros [K G B] K' E. split; unfold with_k; cbn [m_prior m_k]; [|rewrite E; exact G|exact B].
  unfold bare in *. cbn [m_prior m_k]. destruct (m_prior x) as [m|]; [unfold kforget in *; rewrite E; exact K'|].
  rewrite <- E in K'. destruct k'; exact K'.
Qed.
Lemma M_solved base x n : MInv base x -> MInv base (with_k x (solved n (m_k x))).
Proof.
  intros M. apply (M_values base x _ M); [|reflexivity]. pose proof (solved_KInv blocks rows cols size sp ext_addr cam_addr base (bare x) n (mi_k _ _ M)) as K.
  unfold bare in *. destruct (m_prior x); exact K.
Qed.
Lemma M_restore base x h : MInv base x -> MInv base (with_k x (restore_estimates h (m_k x))).
Proof.
  intros M. apply (M_values base x _ M); [|reflexivity]. pose proof (restore_KInv blocks rows cols size sp ext_addr cam_addr base (bare x) h (mi_k _ _ M)) as K.
  unfold bare in *. destruct (m_prior x); exact K.
Qed.
Lemma M_info base x i : MInv base x -> MInv base (with_k x (mkCalib (k_cams (m_k x)) (k_exts (m_k x)) (k_data (m_k x)) (k_poses (m_k x)) (k_views (m_k x)) (k_vts (m_k x)) (k_solver (m_k x)) i)).
Proof.
  intros M. apply (M_values base x _ M); [|reflexivity]. destruct (bare_fields x) as (B1 & B2 & B3 & B4 & B5 & B6 & B7 & B8 & B9).
  eapply KInv_values; [exact (mi_k _ _ M)|cbn; congruence..| | |]; cbn; rewrite ?B1, ?B2, ?B4; reflexivity.
Qed.
Lemma M_nbv_ok base x e thr n i gs ms b k' : MInv base x -> fresh_envD e (m_k x) -> grids_okD gs ms -> new_ts (m_k x) gs ->
  add_nbv_view blocks corners e thr n i (m_k x) gs = Ret (b, k') -> MInv base (with_k x k').
Proof.
  intros M F G N. unfold add_nbv_view.
  destruct (add_view blocks corners e (m_k x) gs) as [[r k1]| |] eqn:Ea; cbn [obind]; try discriminate. cbn [fst snd].
  pose proof (M_add_ok base x e gs ms r k1 M F G N Ea) as M1.
  destruct r; [|intros H; injection H as _ <-; exact M1].
  destruct (cache_estimates k1) as [h| |]; cbn [obind]; try discriminate.
  destruct (last (k_vts (solved n k1))) as [ts|]; [|discriminate].
  pose proof (M_solved base _ n M1) as M2. pose proof (M_restore base _ h M2) as M3. cbn [with_k m_k m_prior] in M2, M3.
  destruct (M_remove_ok base _ ts M3) as (k3 & E3 & M4 & _). cbn [with_k m_k m_prior] in E3, M4.
  destruct i as [i|]; [destruct (gain_below _ _ _)|]; rewrite ?E3; cbn [obind]; intros H; injection H as _ <-; [exact M4| |exact M4].
  exact (M_info base _ i M2).
Qed.
Lemma M_remove_views base l : forall x, MInv base x -> exists k', remove_views blocks l (m_k x) = Ret k' /\ MInv base (with_k x k').
Proof.
  induction l as [|ts l IH]; intros x M; cbn [remove_views].
  - exists (m_k x). split; [reflexivity|]. destruct x; exact M.
  - destruct (M_remove_ok base x ts M) as (k1 & E & M1 & _). rewrite E. cbn [obind]. destruct (IH _ M1) as (k2 & E2 & M2). exists k2. split; [exact E2|exact M2].
Qed.
Lemma M_remove_all base x k' : MInv base x -> remove_all_views blocks (m_k x) = Ret k' -> MInv base (with_k x k').
Proof.
  intros M. unfold remove_all_views. destruct (M_remove_views base (map_to_list (k_views (m_k x))).*1 x M) as (k1 & E & M1). rewrite E. cbn [obind].
  destruct (decide _); [|discriminate]. destruct (decide _); [|discriminate]. intros H. injection H as <-. exact M1.
Qed.
Lemma M_filter_ok base x err th ts v v' s' n : MInv base x -> k_views (m_k x) !! ts = Some v ->
  filter_view blocks (keys (k_cams (m_k x))) err th v (k_solver (m_k x)) = Ret (v', s', n) ->
  MInv base (with_k x (mkCalib (k_cams (m_k x)) (k_exts (m_k x)) (k_data (m_k x)) (k_poses (m_k x)) (<[ts := v']> (k_views (m_k x))) (k_vts (m_k x)) s' (k_info (m_k x)))).
Proof.
  intros M Hv E. pose proof M as [K Hg Hb]. destruct (m_prior x) as [m|] eqn:Em.
  - pose proof (sim_filter_cams blocks m err (fst th) (snd th) (keys (k_cams (m_k x))) v (forget m (k_solver (m_k x))) (k_solver (m_k x))
      (fun c r => prior_not_held base x m ts v c r M Em Hv) (conj eq_refl (Hg m eq_refl))) as L.
    fold (filter_view blocks (keys (k_cams (m_k x))) err th v (forget m (k_solver (m_k x)))) in L. fold (filter_view blocks (keys (k_cams (m_k x))) err th v (k_solver (m_k x))) in L. rewrite E in L.
    destruct (filter_view blocks (keys (k_cams (m_k x))) err th v (forget m (k_solver (m_k x)))) as [[[v2 s2] n2]| |] eqn:E2; cbn in L; try contradiction.
    destruct L as (-> & -> & -> & Hg').
    split; unfold with_k; cbn [m_prior m_k]; [|intros m' H; rewrite Em in H; injection H as <-; exact Hg'|rewrite Em; exact Hb].
    unfold bare in *. cbn [m_prior m_k]. rewrite Em in *.
    exact (filter_step blocks rows cols size sp Hrows Hcols ext_addr cam_addr base (kforget m (m_k x)) err th ts v v' (forget m s') n K Hv E2).
  - assert (Eb : bare x = m_k x) by (unfold bare; rewrite Em; reflexivity). rewrite Eb in K.
    split; unfold with_k; cbn [m_prior m_k]; rewrite Em; [|intros m H; discriminate H|intros m p H; discriminate H]. unfold bare. cbn [m_prior m_k].
    exact (filter_step blocks rows cols size sp Hrows Hcols ext_addr cam_addr base (m_k x) err th ts v v' s' n K Hv E).
Qed.
End M.
