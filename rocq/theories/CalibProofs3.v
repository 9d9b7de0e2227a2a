From Coq Require Import Reals.
From Verif Require Import Base.
From stdpp Require Import gmap sets list.
From Verif Require Import AprilGridModel AprilGridSpec AprilGridProofs AprilGridIOModel SolverModel SolverProofs CalibModel CalibSpec CalibProofs CalibProofs2.
Local Open Scope Z_scope.

Arguments ki_c {_ _ _ _ _ _ _ _ _ _} _.
Arguments ki_pp {_ _ _ _ _ _ _ _ _ _} _.
Arguments ki_cams {_ _ _ _ _ _ _ _ _ _} _.
Arguments ki_dom {_ _ _ _ _ _ _ _ _ _} _.
Arguments ki_nd {_ _ _ _ _ _ _ _ _ _} _.
Arguments ki_vts {_ _ _ _ _ _ _ _ _ _} _.
Arguments ki_params {_ _ _ _ _ _ _ _ _ _} _.
Arguments ki_base {_ _ _ _ _ _ _ _ _ _} _.
Arguments ki_inj {_ _ _ _ _ _ _ _ _ _} _.
Arguments ki_res {_ _ _ _ _ _ _ _ _ _} _.
Arguments ki_view {_ _ _ _ _ _ _ _ _ _} _.

Section K.
Context (blocks : Z -> list Z) (rows cols : Z) (size sp : R).
Context (Hrows : 0 <= rows) (Hcols : 0 <= cols).
Context {V : Type}.
Context (ext_addr cam_addr : Z -> Z).
Notation corners := (fiducial_corners rows cols size sp).
Notation CInv := (CInv blocks).
Notation view_okD := (view_ok rows cols size sp).
Notation KInvD := (KInv blocks rows cols size sp ext_addr cam_addr).
Notation fresh_envD := (fresh_env blocks ext_addr cam_addr).
Notation grids_okD := (grids_ok rows cols size sp).

Lemma erase_first_ok ts l : In ts l -> base.NoDup l -> exists l', erase_first ts l = Ret l' /\
  base.NoDup l' /\ (forall x, In x l' <-> In x l /\ x <> ts) /\
  l' = List.filter (fun x => negb (x =? ts)) l.
Proof.
  induction l as [|a l IH]; simpl; [tauto|]. intros Hin Hnd. inversion Hnd as [|? ? Hn Hd]; subst.
  destruct (Z.eqb_spec a ts) as [->|Hne].
  - exists l. simpl. assert (~ In ts l) by (intros H; apply Hn, elem_of_list_In; auto). split; auto. split; auto.
    split.
    + intros x. split; [intros H'; split; auto; intros ->; auto|]. intros [[->|] ?]; auto; congruence.
    + clear -H. induction l as [|b l IH]; simpl in *; auto. destruct (Z.eqb_spec b ts) as [->|]; simpl; [tauto|].
      f_equal. apply IH. tauto.
  - destruct Hin as [->|Hin]; [congruence|]. destruct (IH Hin Hd) as (l' & E & Hd' & Hl & ->).
    rewrite E. cbn. eexists. split; [reflexivity|]. split; [|split; [|reflexivity]].
    + constructor; auto. intros H. apply elem_of_list_In, Hl in H. apply Hn, elem_of_list_In. tauto.
    + intros x. simpl. rewrite Hl. split; [intros [->|]; split; auto; tauto|]. intros [[->|] ?]; auto.
Qed.


(** the residuals registered with a view's pose are the view's residuals *)
Lemma with_pose base (k : calib V) ts p val v r : KInvD base k -> k_poses k !! ts = Some (p, val) ->
  k_views k !! ts = Some v ->
  r ∈ with_param blocks p (s_res (c_base (k_solver k))) <-> holds v r.
Proof.
  intros K Hp Hv. unfold with_param. rewrite elem_of_filter, (ki_res K).
  destruct (ki_view K ts v Hv) as (_ & (val' & Hp') & _ & Hb).
  rewrite Hp in Hp'. injection Hp' as Ep _.
  split.
  - intros [Hin (ts' & v' & cam & x & Hv' & Hx & E)].
    destruct (ki_view K ts' v' Hv') as (_ & (val2 & Hp2) & _ & Hb2).
    destruct (Hb2 cam x Hx) as (Hin' & Eb & B1 & B2). rewrite <- E, Eb in Hin.
    pose proof (ki_base K _ _ _ Hp) as Hnb.
    rewrite !elem_of_cons in Hin. destruct Hin as [->|[->|[->|H]]]; try (exfalso; auto; fail); [|inversion H].
    assert (ts' = ts) as -> by (eapply (ki_inj K); eauto).
    rewrite Hv in Hv'. injection Hv' as <-. exists cam, x. auto.
  - intros (cam & x & Hx & E). split; [|exists ts, v, cam, x; auto].
    destruct (Hb cam x Hx) as (Hin' & Eb & _). rewrite <- E, Eb, <- Ep. set_solver.
Qed.

Lemma remove_view_ok base (k : calib V) ts : KInvD base k ->
  exists k', remove_view blocks k ts = Ret k' /\ KInvD base k' /\
    k_cams k' = k_cams k /\ k_exts k' = k_exts k /\ k_data k' = k_data k /\ k_info k' = k_info k /\
    k_poses k' = delete ts (k_poses k) /\ k_views k' = delete ts (k_views k) /\
    k_vts k' = List.filter (fun x => negb (x =? ts)) (k_vts k) /\
    (forall p, p ∈ s_params (c_base (k_solver k')) <-> p ∈ s_params (c_base (k_solver k)) /\
       forall val, k_poses k !! ts <> Some (p, val)) /\
    (forall r, r ∈ s_res (c_base (k_solver k')) <-> r ∈ s_res (c_base (k_solver k)) /\
       forall v, k_views k !! ts = Some v -> ~ holds v r).
Proof.
  intros K. unfold remove_view.
  destruct (k_poses k !! ts) as [[p val]|] eqn:Hp.
  2: { assert (Hv : k_views k !! ts = None).
       { destruct (k_views k !! ts) eqn:E; auto. exfalso.
         destruct (proj2 (ki_dom K ts)) as [x Hx]; [rewrite E; eauto|congruence]. }
       cbn [obind]. rewrite Hv. exists k. split; [reflexivity|]. split; auto.
       repeat (split; [reflexivity|]). rewrite !delete_notin by auto. split; [auto|]. split; [auto|].
       split.
       { symmetry. assert (~ In ts (k_vts k)) as Hn.
         { intros H. apply (ki_vts K) in H. rewrite Hv in H. destruct H; discriminate. }
         clear -Hn. induction (k_vts k) as [|b l IH]; simpl in *; auto.
         destruct (Z.eqb_spec b ts) as [->|]; simpl; [tauto|]. f_equal. apply IH. tauto. }
       split; [intros; split; [|tauto]; intros; split; auto; intros; congruence|].
       intros; split; [|tauto]; intros; split; auto; intros; congruence. }
  destruct (proj1 (ki_dom K ts)) as [v Hv]; [rewrite Hp; eauto|].
  assert (Hps : p ∈ s_params (c_base (k_solver k))) by (apply (ki_params K); eauto).
  assert (has_param (k_solver k) p = true) as -> by (unfold has_param; apply bool_decide_eq_true; auto).
  rewrite c_remove_param_effect by apply K. rewrite decide_True by auto. cbn [obind k_views k_vts]. rewrite Hv.
  destruct (erase_first_ok ts (k_vts k)) as (l' & El & Hd' & Hl & Hl').
  { apply (ki_vts K). rewrite Hv. eauto. }
  { apply K. }
  rewrite El. cbn [obind]. eexists. split; [reflexivity|].
  pose proof (fun r => with_pose base k ts p val v r K Hp Hv) as Hw.
  assert (HR : forall r, r ∈ s_res (c_base (c_removed blocks (k_solver k) p)) <->
     r ∈ s_res (c_base (k_solver k)) /\ ~ holds v r).
  { intros r. cbn. rewrite elem_of_difference, Hw. reflexivity. }
  split; [|cbn [k_cams k_exts k_data k_info k_poses k_views k_vts k_solver]; repeat (split; [auto; fail|]); split].
  - split; cbn [k_solver k_cams k_exts k_poses k_views k_vts].
    + apply CInv_removed, K.
    + cbn. now rewrite (ki_pp K).
    + apply K.
    + intros t. destruct (decide (t = ts)) as [->|Hne].
      * rewrite !lookup_delete. split; intros []; discriminate.
      * rewrite !lookup_delete_ne by auto. apply K.
    + auto.
    + intros t. rewrite Hl, (ki_vts K). destruct (decide (t = ts)) as [->|Hne].
      * rewrite lookup_delete. split; [tauto|intros []; discriminate].
      * rewrite lookup_delete_ne by auto. tauto.
    + intros q. cbn. rewrite elem_of_difference, elem_of_singleton, (ki_params K). split.
      * intros [[H|(t & x & H)] Hne]; auto. right. exists t, x. rewrite lookup_delete_ne; auto. congruence.
      * intros [H|(t & x & H)].
        -- split; auto. intros ->. eapply (ki_base K); eauto.
        -- apply lookup_delete_Some in H. destruct H as [Hne H]. split; eauto. intros ->. apply Hne.
           eapply (ki_inj K); eauto.
    + intros t q x H. apply lookup_delete_Some in H. eapply (ki_base K); apply H.
    + intros t t' q x x' H H'. apply lookup_delete_Some in H. apply lookup_delete_Some in H'.
      eapply (ki_inj K); [apply H|apply H'].
    + intros r. rewrite HR, (ki_res K). split.
      * intros [(t & v' & cam & x & H1 & H2 & H3) Hn]. exists t, v', cam, x. split; [|auto].
        rewrite lookup_delete_ne; auto. intros <-. rewrite Hv in H1. injection H1 as <-. apply Hn. exists cam, x. auto.
      * intros (t & v' & cam & x & H1 & H2 & H3). apply lookup_delete_Some in H1. destruct H1 as [Hne H1].
        split; [exists t, v', cam, x; auto|]. intros Hvr. apply Hw in Hvr. unfold with_param in Hvr.
        apply elem_of_filter in Hvr. destruct Hvr as [Hb _].
        destruct (ki_view K t v' H1) as (_ & (val2 & Hp2) & _ & Hb2).
        destruct (Hb2 cam x H2) as (Hin' & Eb & B1 & B2). rewrite <- H3, Eb in Hb.
        pose proof (ki_base K _ _ _ Hp) as Hnb.
        rewrite !elem_of_cons in Hb. destruct Hb as [->|[->|[->|H]]]; try (exfalso; auto; fail); [|inversion H].
        apply Hne. eapply (ki_inj K); eauto.
    + intros t v' H. apply lookup_delete_Some in H. destruct H as [Hne H].
      destruct (ki_view K t v' H) as (A & (val2 & B) & C & D).
      split; auto. split; [exists val2; rewrite lookup_delete_ne; auto|]. split; auto.
      destruct C as [C1 C2 C3]. split; auto. intros c x Hx. apply HR. split; [eapply C3; eauto|].
      intros Hvr. apply Hw in Hvr. unfold with_param in Hvr.
      apply elem_of_filter in Hvr. destruct Hvr as [Hb _].
      destruct (D c x Hx) as (Hin' & Eb & B1 & B2). rewrite Eb in Hb.
      pose proof (ki_base K _ _ _ Hp) as Hnb.
      rewrite !elem_of_cons in Hb. destruct Hb as [->|[->|[->|Hf]]]; try (exfalso; auto; fail); [|inversion Hf].
      apply Hne. eapply (ki_inj K); eauto.
  - intros q. cbn. rewrite elem_of_difference, elem_of_singleton. split.
    + intros [A B]. split; auto. intros x E. congruence.
    + intros [A B]. split; auto. intros ->. eapply B; eauto.
  - intros r. rewrite HR. split.
    + intros [A B]. split; auto. intros v' E. congruence.
    + intros [A B]. split; auto.
Qed.

Lemma remove_views_ok base l : forall k : calib V, KInvD base k -> exists k', remove_views blocks l k = Ret k' /\ KInvD base k' /\
  k_cams k' = k_cams k /\ k_exts k' = k_exts k /\ k_info k' = k_info k /\ k_data k' = k_data k /\
  (forall ts, k_views k' !! ts = if existsb (Z.eqb ts) l then None else k_views k !! ts).
Proof.
  induction l as [|ts l IH]; intros k K; simpl.
  - exists k. auto 10.
  - destruct (remove_view_ok base k ts K) as (k1 & E & K1 & A1 & A2 & A3 & A4 & _ & A5 & _).
    rewrite E. cbn [obind]. destruct (IH k1 K1) as (k2 & E2 & K2 & B1 & B2 & B3 & B4 & B5).
    exists k2. split; auto. split; auto. split; [congruence|]. split; [congruence|]. split; [congruence|]. split; [congruence|].
    intros t. rewrite B5, A5. destruct (Z.eqb_spec t ts) as [->|]; cbn [orb].
    + rewrite lookup_delete. destruct (existsb _ l); reflexivity.
    + rewrite lookup_delete_ne by auto. reflexivity.
Qed.
Lemma remove_all_views_ok base (k : calib V) : KInvD base k -> exists k', remove_all_views blocks k = Ret k' /\ KInvD base k' /\
  k_cams k' = k_cams k /\ k_exts k' = k_exts k /\ k_info k' = k_info k /\ k_data k' = k_data k /\
  k_views k' = ∅ /\ k_poses k' = ∅ /\ k_vts k' = [] /\ s_res (c_base (k_solver k')) = ∅ /\
  s_params (c_base (k_solver k')) = base.
Proof.
  intros K. unfold remove_all_views. destruct (remove_views_ok base ((map_to_list (k_views k)).*1) k K) as (k' & E & K' & A1 & A2 & A3 & A4 & A5).
  rewrite E. cbn [obind].
  assert (Hv : k_views k' = ∅).
  { apply map_eq. intros ts. rewrite lookup_empty, A5. destruct (existsb _ _) eqn:Ee; auto.
    destruct (k_views k !! ts) as [v|] eqn:Ev; auto. exfalso.
    assert (existsb (Z.eqb ts) (map_to_list (k_views k)).*1 = true); [|congruence].
    apply existsb_exists. exists ts. split; [|apply Z.eqb_refl]. apply elem_of_list_In, elem_of_list_fmap.
    exists (ts, v). split; auto. now apply elem_of_map_to_list. }
  rewrite decide_True by auto.
  assert (Hr : s_res (c_base (k_solver k')) = ∅).
  { apply set_eq. intros r. split; [|set_solver]. intros H. apply (ki_res K') in H.
    destruct H as (ts & v & _ & _ & H & _). rewrite Hv in H. discriminate. }
  rewrite decide_True by auto. exists k'. split; auto. split; auto. repeat (split; [auto; fail|]).
  assert (Hp : k_poses k' = ∅).
  { apply map_eq. intros ts. rewrite lookup_empty. destruct (k_poses k' !! ts) eqn:Ee; auto. exfalso.
    destruct (proj1 (ki_dom K' ts)) as [v H]; [rewrite Ee; eauto|]. rewrite Hv in H. discriminate. }
  split; auto. split.
  { destruct (k_vts k') as [|t l] eqn:Et; auto. exfalso.
    destruct (proj1 (ki_vts K' t)) as [v H]; [rewrite Et; simpl; auto|]. rewrite Hv in H. discriminate. }
  split; auto. apply set_eq. intros p. rewrite (ki_params K'). split; auto.
  intros [H|(ts & x & H)]; auto. rewrite Hp in H. discriminate.
Qed.

(** steps that change values only *)
Lemma KInv_values base (k k' : calib V) : KInvD base k -> k_solver k' = k_solver k -> k_views k' = k_views k -> k_vts k' = k_vts k ->
  (forall c, In c (keys (k_cams k')) <-> In c (keys (k_cams k))) -> (forall c, In c (keys (k_exts k')) <-> In c (keys (k_exts k))) ->
  (fst <$> k_poses k' = (fst <$> k_poses k : gmap Z Z)) -> KInvD base k'.
Proof.
  intros [A1 A2 A3 A4 A5 A6 A7 A8 A9 A10 A11] E1 E2 E3 E4 E5 E6.
  assert (Hp : forall ts p, (exists v, k_poses k' !! ts = Some (p, v)) <-> exists v, k_poses k !! ts = Some (p, v)).
  { intros ts p. assert (H : (fst <$> k_poses k' : gmap Z Z) !! ts = (fst <$> k_poses k : gmap Z Z) !! ts) by (now rewrite E6).
    rewrite !lookup_fmap in H. destruct (k_poses k' !! ts) as [[]|], (k_poses k !! ts) as [[]|]; simpl in H;
      try discriminate; [injection H as ->|]; split; intros [v' Hv]; try discriminate; injection Hv as -> _; eauto. }
  split; rewrite ?E1, ?E2, ?E3; auto.
  - intros c. rewrite E4, E5. apply A3.
  - intros ts. rewrite <- A4. split; intros [[p v] H]; [destruct (proj1 (Hp ts p))|destruct (proj2 (Hp ts p))]; eauto.
  - intros p. rewrite A7. split; (intros [H|(ts & H)]; [auto|right; exists ts; now apply Hp]).
  - intros ts p v H. destruct (proj1 (Hp ts p)); eauto.
  - intros ts ts' p v v' H H'. destruct (proj1 (Hp ts p)) as [? ?]; eauto. destruct (proj1 (Hp ts' p)) as [? ?]; eauto.
  - intros ts v H. destruct (A11 ts v H) as (B1 & B2 & B3 & B4). split; auto. split; [now apply Hp|]. split; auto. intros cam x Hx. rewrite E4. auto.
Qed.
Lemma keys_lookup (m : gmap Z V) c : In c (keys m) <-> is_Some (m !! c).
Proof.
  unfold keys. rewrite <- elem_of_list_In, elem_of_list_fmap. split.
  - intros ([c' v] & -> & H). apply elem_of_map_to_list in H. simpl. eauto.
  - intros [v H]. exists (c, v). split; auto. now apply elem_of_map_to_list.
Qed.
End K.
