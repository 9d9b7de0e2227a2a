From Coq Require Import Reals.
From Verif Require Import Base.
From stdpp Require Import gmap sets list.
From Verif Require Import AprilGridModel AprilGridSpec AprilGridProofs AprilGridIOModel SolverModel SolverProofs CalibModel CalibSpec CalibProofs CalibProofs2 CalibProofs3.
Local Open Scope Z_scope.

Section K.
Context (blocks : Z -> list Z) (rows cols : Z) (size sp : R).
Context (Hrows : 0 <= rows) (Hcols : 0 <= cols).
Context {V : Type}.
Context (ext_addr cam_addr : Z -> Z).
Notation corners := (fiducial_corners rows cols size sp).
Notation CInv := (CInv blocks).
Notation view_okD := (view_ok rows cols size sp).
Notation KInvD := (KInv blocks rows cols size sp ext_addr cam_addr).
Notation fresh_envD := (fresh_env blocks ext_addr cam_addr).
Notation grids_okD := (grids_ok rows cols size sp).

(** residual objects of different views are different *)
Lemma views_disjoint base (k : calib V) ts ts' v v' r : KInvD base k ->
  k_views k !! ts = Some v -> k_views k !! ts' = Some v' -> holds v r -> holds v' r -> ts = ts'.
Proof.
  intros K Hv Hv' (c & x & Hx & E) (c' & x' & Hx' & E').
  destruct (ki_view K ts v Hv) as (_ & (val & Hp) & _ & Hb).
  destruct (ki_view K ts' v' Hv') as (_ & (val' & Hp') & _ & Hb').
  destruct (Hb c x Hx) as (_ & Eb & B1 & B2). destruct (Hb' c' x' Hx') as (_ & Eb' & B1' & B2').
  rewrite E, <- E' in Eb. rewrite Eb in Eb'. injection Eb' as _ Ep _.
  rewrite <- Ep in Hp'. eapply (ki_inj K); eauto.
Qed.

Definition set_view (k : calib V) (ts : Z) (v : cview) (s : csolver) : calib V :=
  mkCalib (k_cams k) (k_exts k) (k_data k) (k_poses k) (<[ts := v]> (k_views k)) (k_vts k) s (k_info k).
Lemma keys_NoDup (m : gmap Z V) : base.NoDup (keys m).
Proof. apply NoDup_fst_map_to_list. Qed.

Lemma filter_step base (k : calib V) err th ts v v' s' n : KInvD base k -> k_views k !! ts = Some v ->
  filter_view blocks (keys (k_cams k)) err th v (k_solver k) = Ret (v', s', n) ->
  KInvD base (set_view k ts v' s').
Proof.
  intros K Hv. destruct th as [thx thy]. unfold filter_view; cbn [fst snd].
  destruct (ki_view K ts v Hv) as (Hts & (val & Hp) & Hok & Hb).
  destruct (filter_cams_ok blocks rows cols size sp Hrows Hcols err thx thy (keys (k_cams k)) v (k_solver k))
    as (w & s & E & I & Hw & T1 & T2 & R1 & P1 & P2 & G1 & G2 & G3 & G4); [apply K|auto|apply keys_NoDup|].
  rewrite E. intros E'. injection E' as <- <- _.
  set (out := flat_map _ _) in *.
  assert (Hsub : forall c x, In x (v_res w c) -> In x (v_res v c)).
  { intros c x Hx. destruct (in_dec Z.eq_dec c (keys (k_cams k))) as [Hc|Hc].
    - rewrite G1 in Hx by auto. now apply filter_In in Hx.
    - destruct (G2 c Hc) as [<- _]. auto. }
  assert (HR : forall r, r ∈ s_res (c_base s) <-> r ∈ s_res (c_base (k_solver k)) /\ ~ (exists x, In x out /\ vr_id x = r)).
  { intros r. rewrite R1, elem_of_difference, elem_of_list_to_set, elem_of_list_In, in_map_iff.
    split; intros [A B]; split; auto; intros (x & X & Y); apply B; exists x; auto. }
  assert (Hout : forall x, In x out -> exists c, In x (v_res v c) /\ In c (keys (k_cams k)) /\ outlier err thx thy x = true).
  { intros x Hx. apply in_flat_map in Hx. destruct Hx as (c & Hc & Hx). apply filter_In in Hx. exists c. tauto. }
  split; cbn [set_view k_solver k_cams k_exts k_poses k_views k_vts].
  - auto.
  - rewrite P1, P2. apply K.
  - apply K.
  - intros t. destruct (decide (t = ts)) as [->|Hne].
    + rewrite lookup_insert. split; eauto.
    + rewrite lookup_insert_ne by auto. apply K.
  - apply K.
  - intros t. rewrite (ki_vts K). destruct (decide (t = ts)) as [->|Hne].
    + rewrite lookup_insert, Hv. split; eauto.
    + rewrite lookup_insert_ne by auto. reflexivity.
  - rewrite P1. apply K.
  - apply K.
  - apply K.
  - intros r. rewrite HR, (ki_res K). split.
    + intros [(t & u & c & x & H1 & H2 & H3) Hno]. destruct (decide (t = ts)) as [->|Hne].
      * rewrite Hv in H1. injection H1 as <-. exists ts, w, c, x. split; [apply lookup_insert|]. split; auto.
        destruct (in_dec Z.eq_dec c (keys (k_cams k))) as [Hc|Hc].
        -- rewrite G1 by auto. apply filter_In. split; auto. destruct (outlier err thx thy x) eqn:Eo; auto.
           exfalso. apply Hno. exists x. split; auto. apply in_flat_map. exists c. split; auto. apply filter_In. auto.
        -- destruct (G2 c Hc) as [-> _]. auto.
      * exists t, u, c, x. rewrite lookup_insert_ne by auto. auto.
    + intros (t & u & c & x & H1 & H2 & H3). destruct (decide (t = ts)) as [->|Hne].
      * rewrite lookup_insert in H1. injection H1 as <-. split; [exists ts, v, c, x; auto|].
        intros (y & Hy & Ey). destruct (Hout y Hy) as (c' & Hy' & Hc' & Ho).
        destruct (vo_ids _ _ _ _ _ _ Hok c c' x y (Hsub _ _ H2) Hy' (eq_trans H3 (eq_sym Ey))) as [<- <-].
        rewrite G1 in H2 by auto. apply filter_In in H2. rewrite Ho in H2. destruct H2; discriminate.
      * rewrite lookup_insert_ne in H1 by auto. split; [exists t, u, c, x; auto|].
        intros (y & Hy & Ey). destruct (Hout y Hy) as (c' & Hy' & Hc' & Ho).
        apply Hne. eapply (views_disjoint base k t ts u v r); eauto; [exists c, x|exists c', y]; auto.
  - intros t u. destruct (decide (t = ts)) as [->|Hne].
    + rewrite lookup_insert. intros H. injection H as <-. rewrite T1, T2. split; auto. split; eauto.
    + rewrite lookup_insert_ne by auto. intros H. destruct (ki_view K t u H) as (A & B & C & D).
      split; auto. split; auto. split; auto. destruct C as [C1 C2 C3]. split; auto.
      intros c x Hx. apply HR. split; [eauto|]. intros (y & Hy & Ey). destruct (Hout y Hy) as (c' & Hy' & Hc' & Ho).
      apply Hne. eapply (views_disjoint base k t ts u v (vr_id x)); eauto; [exists c, x|exists c', y]; auto.
Qed.

Lemma solved_KInv base (k : calib V) n : KInvD base k -> KInvD base (solved n k).
Proof.
  intros K. eapply KInv_values; [exact K|reflexivity..| | |].
  - intros c. rewrite !keys_lookup. cbn. rewrite map_lookup_imap. destruct (k_cams k !! c); cbn; split; intros []; eauto; discriminate.
  - intros c. rewrite !keys_lookup. cbn. rewrite map_lookup_imap. destruct (k_exts k !! c); cbn; split; intros []; eauto; discriminate.
  - apply map_eq. intros t. rewrite !lookup_fmap. cbn. rewrite map_lookup_imap. destruct (k_poses k !! t); reflexivity.
Qed.
Lemma restore_KInv base (k : calib V) h : KInvD base k -> KInvD base (restore_estimates h k).
Proof.
  intros K. eapply KInv_values; [exact K|reflexivity..| | |].
  - intros c. rewrite !keys_lookup. cbn. rewrite map_lookup_imap. destruct (k_cams k !! c); cbn; split; intros []; eauto; discriminate.
  - intros c. rewrite !keys_lookup. cbn. rewrite map_lookup_imap. destruct (k_exts k !! c); cbn; split; intros []; eauto; discriminate.
  - apply map_eq. intros t. rewrite !lookup_fmap. cbn. rewrite map_lookup_imap. destruct (k_poses k !! t); reflexivity.
Qed.

(** caching, solving and restoring puts every estimate back *)
Lemma restore_solved (k : calib V) n h : cache_estimates k = Ret h ->
  (forall c, In c (keys (k_exts k)) -> In c (keys (k_cams k))) ->
  restore_estimates h (solved n k) = k.
Proof.
  unfold cache_estimates. destruct (forallb _ _) eqn:E; [|discriminate]. intros H Hd. injection H as <-.
  destruct k as [cams exts data poses views vts s info]. unfold restore_estimates, solved. cbn in *. f_equal.
  - apply map_eq. intros c. rewrite !map_lookup_imap. destruct (cams !! c) as [x|] eqn:Ec; cbn; reflexivity.
  - apply map_eq. intros c. rewrite !map_lookup_imap. destruct (exts !! c) as [x|] eqn:Ec; cbn; [|reflexivity].
    assert (Hc : In c (keys cams)) by (apply Hd, keys_lookup; rewrite Ec; eauto).
    rewrite bool_decide_true.
    + erewrite map_filter_lookup_Some_2; [|exact Ec|cbn; apply elem_of_list_In; auto]. reflexivity.
    + apply elem_of_list_In, keys_lookup. rewrite map_lookup_imap. apply keys_lookup in Hc. destruct Hc as [y ->]. cbn. eauto.
  - apply map_eq. intros t. rewrite !map_lookup_imap. rewrite lookup_fmap. destruct (poses !! t) as [[p x]|] eqn:Ec; reflexivity.
Qed.
Lemma cache_ok base (k : calib V) : KInvD base k -> exists h, cache_estimates k = Ret h.
Proof.
  intros K. unfold cache_estimates. assert (forallb (fun c => bool_decide (is_Some (k_exts k !! c))) (keys (k_cams k)) = true) as ->; eauto.
  apply forallb_forall. intros c Hc. apply bool_decide_eq_true. apply keys_lookup. now apply (ki_cams K).
Qed.
Lemma last_snoc_vts {A} (l : list A) x : last (l ++ [x]) = Some x.
Proof. apply last_snoc. Qed.
Lemma filter_self ts l : ~ In ts l -> List.filter (fun x => negb (x =? ts)) (l ++ [ts]) = l.
Proof.
  intros Hn. rewrite List.filter_app. simpl. rewrite Z.eqb_refl. simpl. rewrite app_nil_r.
  induction l as [|b l IH]; simpl in *; auto. destruct (Z.eqb_spec b ts) as [->|]; simpl; [tauto|]. f_equal. apply IH. tauto.
Qed.

Lemma add_view_undetected (k : calib V) e gs : first_detected gs = None -> add_view blocks corners e k gs = Ret (false, k).
Proof. intros H. unfold add_view. now rewrite H. Qed.

(** add a new view, then remove it *)
Lemma add_remove base (k : calib V) e gs ms ts k1 : KInvD base k -> fresh_envD e k -> grids_okD gs ms ->
  first_detected gs = Some ts -> k_views k !! ts = None ->
  add_view blocks corners e k gs = Ret (true, k1) ->
  exists k2, remove_view blocks k1 ts = Ret k2 /\
    k_cams k2 = k_cams k /\ k_exts k2 = k_exts k /\ k_info k2 = k_info k /\ k_data k2 = {[ts]} ∪ k_data k /\
    k_poses k2 = k_poses k /\ k_views k2 = k_views k /\ k_vts k2 = k_vts k /\
    s_params (c_base (k_solver k2)) = s_params (c_base (k_solver k)) /\
    s_res (c_base (k_solver k2)) = s_res (c_base (k_solver k)) /\
    c_pparams (k_solver k2) = c_pparams (k_solver k) /\ c_pres (k_solver k2) = c_pres (k_solver k) /\
    c_res2id (k_solver k2) = c_res2id (k_solver k).
Proof.
  intros K F G Hfd Hno Hadd.
  assert (exists T, e_estimate e (mkCalib (k_cams k) (k_exts k) ({[ts]} ∪ k_data k) (k_poses k)
                        (k_views k) (k_vts k) (k_solver k) (k_info k)) gs = Ret T) as (T & HT).
  { unfold add_view in Hadd. rewrite Hfd in Hadd. cbn [k_poses] in Hadd.
    assert (Hpo : k_poses k !! ts = None).
    { destruct (k_poses k !! ts) eqn:E; auto. exfalso.
      destruct (proj1 (ki_dom K ts)) as [v Hv]; [rewrite E; eauto|congruence]. }
    rewrite Hpo in Hadd. unfold add_pose in Hadd. cbn [k_poses] in Hadd. rewrite Hpo in Hadd.
    destruct (e_estimate e _ gs) as [T| |] eqn:E; [eauto|discriminate|discriminate]. }
  destruct (add_view_new blocks rows cols size sp Hrows Hcols ext_addr cam_addr base k e gs ms ts T K F G Hfd Hno HT)
    as (k1' & v & E1 & K1 & A1 & A2 & A3 & A4 & A5 & A6 & A7 & A8 & _ & A9 & A10 & A11).
  rewrite Hadd in E1. injection E1 as <-.
  destruct (remove_view_ok blocks rows cols size sp Hrows Hcols ext_addr cam_addr base k1 ts K1)
    as (k2 & E2 & K2 & B1 & B2 & B3 & B4 & B5 & B6 & B7 & B8 & B9).
  assert (Hpo : k_poses k !! ts = None).
  { destruct (k_poses k !! ts) eqn:E; auto. exfalso.
    destruct (proj1 (ki_dom K ts)) as [x Hx]; [rewrite E; eauto|congruence]. }
  assert (Hsp : s_params (c_base (k_solver k2)) = s_params (c_base (k_solver k))).
  { apply set_eq. intros p. rewrite B8, A10, A5, elem_of_union, elem_of_singleton. split.
    - intros [[->|H] Hn]; auto. exfalso. apply (Hn T). apply lookup_insert.
    - intros H. split; auto. intros x Hx. rewrite lookup_insert in Hx. injection Hx as Hx _.
      apply (fr_pose _ _ _ _ _ F). rewrite Hx, (ki_pp K). auto. }
  assert (Hsr : s_res (c_base (k_solver k2)) = s_res (c_base (k_solver k))).
  { apply set_eq. intros r. rewrite B9, A11. rewrite A6. split.
    - intros [[H|(cam & x & H & E)] Hn]; auto. exfalso. apply (Hn v); [apply lookup_insert|]. exists cam, x. rewrite A8. auto.
    - intros H. split; auto. intros v' Hv' (cam & x & Hx & E). rewrite lookup_insert in Hv'. injection Hv' as <-.
      rewrite A8 in Hx. apply (want_In blocks rows cols ext_addr cam_addr) in Hx. destruct Hx as (_ & _ & t & i & -> & _). simpl in E.
      apply (fr_new _ _ _ _ _ F cam t i). now rewrite E. }
  exists k2. split; auto. split; [congruence|]. split; [congruence|]. split; [congruence|]. split; [congruence|].
  split; [rewrite B5, A5; now apply delete_insert|]. split; [rewrite B6, A6; now apply delete_insert|].
  split.
  { rewrite B7, A7. apply filter_self. intros H. apply (ki_vts K) in H. rewrite Hno in H. destruct H; discriminate. }
  split; auto. split; auto. split; [rewrite (ki_pp K2), (ki_pp K); auto|].
  destruct (ki_c K2) as [_ _ C1 C2 _ _]. destruct (ki_c K) as [_ _ D1 D2 _ _]. split; congruence.
Qed.
End K.
