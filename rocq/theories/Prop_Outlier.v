(** * C104: outlier removal of the camera calibrator *)
From Coq Require Import Reals Lra Sorted.
From Verif Require Import Base.
From stdpp Require Import gmap sets list sorting.
From Verif Require Import AprilGridModel AprilGridSpec AprilGridProofs AprilGridIOModel SolverModel SolverProofs CalibModel CalibSpec CalibProofs CalibProofs2 CalibProofs3 CalibProofs4 CalibProofs5 CalibExample Prop_Calib OutlierModel OutlierProofs.
Local Open Scope Z_scope.

Section S.
Context (blocks : Z -> list Z) (rows cols : Z) (size sp : R) {V : Type} (ext_addr cam_addr : Z -> Z).
Context (err : calib V -> Z -> option (R * R)) (solve : calib V -> values V) (info : calib V -> option xreal).
Context (out_thr gain_thr : R) (gkeys : Z -> list Z) (envs : Z -> env V).
Notation corners := (fiducial_corners rows cols size sp).
Notation reachD := (reach blocks rows cols size sp ext_addr cam_addr).
Notation completeD := (complete rows cols size sp).
(** ** Specification *)
(** an inlier: no camera's threshold is exceeded *)
Definition inlier (k : calib V) (r : vres) : Prop := survives (err k) (cam_thresholds err out_thr k) r.
(** everything but the view at [ts] is as before; the estimates of the pose of that view too, if it is there *)
Definition kept_else (k k' : calib V) (ts : Z) : Prop :=
  k_cams k' = k_cams k /\ (forall c, is_Some (k_cams k !! c) -> k_exts k' !! c = k_exts k !! c) /\ k_info k' = k_info k /\
  (forall t, t <> ts -> k_views k' !! t = k_views k !! t /\ k_poses k' !! t = k_poses k !! t) /\
  (forall v' p w, k_views k' !! ts = Some v' -> k_poses k !! ts = Some (p, w) -> exists p', k_poses k' !! ts = Some (p', w)).
(** the view at [ts] has the corners of [src], if any of its grids is detected; otherwise there is no view *)
Definition back (k' : calib V) (ts : Z) (src : cview) : Prop :=
  (detected (gkeys ts) src -> exists v, k_views k' !! ts = Some v /\ seen_again src v /\ completeD k' (gkeys ts) ts v) /\
  (~ detected (gkeys ts) src -> k_views k' !! ts = None).
(** what happens to one view [v]: [v'] is the filtered view, [kf] the problem with the filtered view, [kw] without the view *)
Definition judged (base : gset Z) (k : calib V) (ts : Z) (v : cview) (k' : calib V) (n : Z) : Prop :=
  exists v' kf kw,
    (forall c r, In r (v_res v' c) <-> In r (v_res v c) /\ inlier k r) /\ completeD k (gkeys ts) ts v' /\
    reachD base kf /\ k_views kf = <[ts := v']> (k_views k) /\
    reachD base kw /\ k_views kw = delete ts (k_views k) /\
    match info kf with
    | None => k' = kf /\ n = 0
    | Some before =>
        kept_else k k' ts /\
        match info kw with
        | None => n = 0 /\ back k' ts v
        | Some after =>
            if gain_above after before gain_thr
            then n = count (keys (k_cams k)) v - count (keys (k_cams k)) v' /\ back k' ts v'
            else n = 0 /\ k_views k' !! ts = None
        end
    end.
End S.
(** the test for keeping a view, for finite values *)
Lemma gain_finite a b t : gain_above (XF a) (XF b) t = true <-> (t < (a - b) / 2)%R.
Proof. unfold gain_above. destruct (Rlt_dec _ _); split; intros; auto; try discriminate; lra. Qed.

Section P.
Context (blocks : Z -> list Z) (rows cols : Z) (size sp : R).
Context (Hrows : 0 <= rows) (Hcols : 0 <= cols).
Context {V : Type}.
Context (ext_addr cam_addr : Z -> Z).
Context (err : calib V -> Z -> option (R * R)) (solve : calib V -> values V) (info : calib V -> option xreal).
Context (out_thr gain_thr : R) (gkeys : Z -> list Z) (envs : Z -> env V).
Notation corners := (fiducial_corners rows cols size sp).
Notation KInvD := (KInv blocks rows cols size sp ext_addr cam_addr).
Notation reachD := (reach blocks rows cols size sp ext_addr cam_addr).
Notation fresh_envD := (fresh_env blocks ext_addr cam_addr).
Notation completeD := (complete rows cols size sp).

Lemma complete_cams (k k' : calib V) ks ts v : (forall c, is_Some (k_cams k' !! c) -> is_Some (k_cams k !! c)) -> completeD k ks ts v -> completeD k' ks ts v.
Proof. intros H (C1 & C2 & C3 & C4). split; [exact C1|]. split; [exact C2|]. split; [|exact C4]. intros c t i H1 H2. apply C3; auto. Qed.
Lemma view_facts base (k : calib V) ts v : reachD base k -> k_views k !! ts = Some v -> forall c r, In r (v_res v c) ->
  is_Some (k_cams k !! c) /\ corner_in rows cols (vr_tag r) (vr_corner r) /\ has (v_grids v c) (vr_tag r) (vr_corner r) = Ret true.
Proof.
  intros Hk Hv c r Hr. pose proof (reach_KInv blocks rows cols size sp Hrows Hcols ext_addr cam_addr base k Hk) as K.
  destruct (ki_view K ts v Hv) as (_ & _ & Hok & Hb). destruct (Hb c r Hr) as (H1 & _). apply keys_lookup in H1. split; [exact H1|].
  destruct (vo_cam _ _ _ _ _ _ Hok c) as (m & HR & _ & _ & H); [intros E; rewrite E in Hr; destruct Hr|]. destruct (H r Hr) as [H2 H3]. split; [exact H2|].
  rewrite (has_Rep _ _ _ _ _ _ _ _ HR H2). unfold present. cbn. destruct (m _ _); [reflexivity|congruence].
Qed.

Lemma view_ok_step base (k : calib V) ts v : reachD base k -> k_views k !! ts = Some v -> completeD k (gkeys ts) ts v ->
  fresh_envD (envs ts) k -> (forall k0 gs, exists T, e_estimate (envs ts) k0 gs = Ret T) ->
  exists k' n, outlier_view blocks corners err solve info out_thr gain_thr gkeys envs ts k = Ret (k', n) /\ reachD base k' /\
    judged blocks rows cols size sp ext_addr cam_addr err info out_thr gain_thr gkeys base k ts v k' n /\
    (forall c, is_Some (k_cams k' !! c) <-> is_Some (k_cams k !! c)) /\
    (forall p, p ∈ c_pparams (k_solver k') -> p ∈ c_pparams (k_solver k) \/ p = e_pose (envs ts)) /\
    (forall r, r ∈ s_res (c_base (k_solver k')) -> r ∈ s_res (c_base (k_solver k)) \/ exists c t i, r = e_alloc (envs ts) c t i).
Proof.
  intros Hk Hv HC F HT.
  pose proof (reach_KInv blocks rows cols size sp Hrows Hcols ext_addr cam_addr base k Hk) as K.
  destruct (cache_ok blocks rows cols size sp ext_addr cam_addr base k K) as [h Eh].
  destruct (ki_view K ts v Hv) as (_ & (x & Hp) & _ & _).
  unfold outlier_view. rewrite Hv, Eh. cbn [obind].
  destruct (filter_map_ok blocks rows cols size sp Hrows Hcols ext_addr cam_addr base (err k) (cam_thresholds err out_thr k) k ts v (gkeys ts) Hk Hv HC)
    as (v' & s' & n & E & Hk1 & HC' & Hpo & Hr & Hn & Hs & Hq).
  rewrite E. cbn [obind]. set (k1 := put_view k ts v' s') in *. set (k2 := solved (solve k1) k1).
  assert (Hk2 : reachD base k2) by (apply R_solve; exact Hk1).
  assert (Hc2 : forall c, is_Some (k_cams k2 !! c) <-> is_Some (k_cams k !! c)) by (intros c; unfold k2; rewrite solved_keys; reflexivity).
  pose proof (reach_KInv blocks rows cols size sp Hrows Hcols ext_addr cam_addr base k2 Hk2) as K2.
  destruct (remove_view_ok blocks rows cols size sp Hrows Hcols ext_addr cam_addr base k2 ts K2)
    as (k3 & E3 & K3 & B1 & B2 & B3 & B4 & B5 & B6 & B7 & B8 & B9).
  assert (Hk3 : reachD base k3) by (eapply R_remove; [exact Hk2|exact E3]).
  set (k4 := solved (solve k3) k3). assert (Hk4 : reachD base k4) by (apply R_solve; exact Hk3).
  pose proof (reach_KInv blocks rows cols size sp Hrows Hcols ext_addr cam_addr base k4 Hk4) as K4.
  assert (Hc4 : forall c, is_Some (k_cams k4 !! c) <-> is_Some (k_cams k !! c)) by (intros c; unfold k4; rewrite solved_keys, B1; apply Hc2).
  assert (Hx4 : forall c, is_Some (k_exts k4 !! c) <-> is_Some (k_exts k !! c)).
  { intros c. unfold k4. rewrite solved_exts, B2. unfold k2. rewrite solved_exts. reflexivity. }
  assert (Hv4 : k_views k4 = delete ts (k_views k)).
  { change (k_views k4) with (k_views k3). rewrite B6. change (k_views k2) with (<[ts := v']> (k_views k)). apply delete_insert_delete. }
  assert (Hi4 : k_info k4 = k_info k) by (change (k_info k4) with (k_info k3); rewrite B4; reflexivity).
  assert (Hno : k_views k4 !! ts = None) by (rewrite Hv4; apply lookup_delete).
  assert (Hpp4 : forall p, p ∈ c_pparams (k_solver k4) -> p ∈ c_pparams (k_solver k)).
  { intros p. change (k_solver k4) with (k_solver k3). rewrite (ki_pp K3). intros Hp'. apply B8 in Hp' as [Hp' _]. rewrite <- (ki_pp K2) in Hp'. change (k_solver k2) with s' in Hp'. rewrite Hq in Hp'. exact Hp'. }
  assert (Hres4 : forall r, r ∈ s_res (c_base (k_solver k4)) -> r ∈ s_res (c_base (k_solver k))).
  { intros r. change (k_solver k4) with (k_solver k3). intros H'. apply B9 in H' as [H' _]. change (k_solver k2) with s' in H'. auto. }
  assert (F4 : fresh_envD (envs ts) k4) by (destruct F as [F1 F2 F3 F4]; split; [intros H; apply F1, Hpp4, H|exact F2|intros c t i H; exact (F3 c t i (Hres4 _ H))|exact F4]).
  assert (Hpo4 : forall t, t <> ts -> match k_poses k !! t with Some (p, w) => exists w', k_poses k4 !! t = Some (p, w') | None => k_poses k4 !! t = None end).
  { intros t Ht. unfold k4. cbn [solved k_poses]. rewrite map_lookup_imap, B5, lookup_delete_ne by auto. unfold k2. cbn [solved k_poses]. rewrite map_lookup_imap. cbn [k1 put_view k_poses].
    destruct (k_poses k !! t) as [[p w]|]; cbn; eauto. }
  set (kf := k2). set (kw := k4).
  (* after restoring a state that is k4 with possibly the view again *)
  assert (Hrest : forall k5, k_cams k5 = k_cams k4 -> k_exts k5 = k_exts k4 -> k_info k5 = k_info k4 ->
     (forall t, t <> ts -> k_views k5 !! t = k_views k4 !! t /\ k_poses k5 !! t = k_poses k4 !! t) ->
     (forall v0, k_views k5 !! ts = Some v0 -> exists p w, k_poses k5 !! ts = Some (p, w)) -> kept_else k (restore_estimates h k5) ts).
  { intros k5 Q1 Q2 Q3 Q4 Q5. split; [apply restored_cams; [exact Eh|intros c; rewrite Q1; apply Hc4]|]. split.
    { intros c Hc. apply restored_exts; [exact Eh|rewrite Q1; apply Hc4, Hc|exact Hc|]. rewrite Q2. apply Hx4.
      apply keys_lookup, (ki_cams K c), keys_lookup, Hc. }
    split; [cbn; congruence|]. split.
    { intros t Ht. destruct (Q4 t Ht) as [Q6 Q7]. split; [cbn; rewrite Q6, Hv4; apply lookup_delete_ne; auto|]. specialize (Hpo4 t Ht).
      destruct (k_poses k !! t) as [[p w]|] eqn:Ep; [|apply restored_none; congruence]. destruct Hpo4 as [w' Hpo4].
      eapply restored_pose; [exact Eh|rewrite Q7; exact Hpo4|exact Ep]. }
    intros v0 p w Hv0 Hp0. destruct (Q5 v0 Hv0) as (p' & w' & Hp'). exists p'. eapply restored_pose; [exact Eh|exact Hp'|exact Hp0]. }
  assert (HrR : forall k5, reachD base k5 -> reachD base (restore_estimates h k5)).
  { intros k5 H5. destruct (restore_is_solved x h k5) as [m ->]. apply R_solve. exact H5. }
  assert (Hjf : forall k' n', match info kf with
    | None => k' = kf /\ n' = 0
    | Some before => kept_else k k' ts /\ match info kw with
        | None => n' = 0 /\ back rows cols size sp gkeys k' ts v
        | Some after => if gain_above after before gain_thr then n' = n /\ back rows cols size sp gkeys k' ts v' else n' = 0 /\ k_views k' !! ts = None
        end end -> judged blocks rows cols size sp ext_addr cam_addr err info out_thr gain_thr gkeys base k ts v k' n').
  { intros k' n' H. exists v', kf, kw. split; [exact Hr|]. split; [exact HC'|]. split; [exact Hk2|]. split; [reflexivity|]. split; [exact Hk4|]. split; [exact Hv4|]. rewrite <- Hn. exact H. }
  assert (Hfacts : forall c r, In r (v_res v c) -> is_Some (k_cams k4 !! c) /\ corner_in rows cols (vr_tag r) (vr_corner r) /\ has (v_grids v c) (vr_tag r) (vr_corner r) = Ret true).
  { intros c r H. destruct (view_facts base k ts v Hk Hv c r H) as (H1 & H2). split; [apply Hc4, H1|exact H2]. }
  assert (Hfacts' : forall c r, In r (v_res v' c) -> is_Some (k_cams k4 !! c) /\ corner_in rows cols (vr_tag r) (vr_corner r) /\ has (v_grids v' c) (vr_tag r) (vr_corner r) = Ret true).
  { intros c r H. destruct (view_facts base k1 ts v' Hk1 (lookup_insert _ _ _) c r H) as (H1 & H2). split; [apply Hc4, H1|exact H2]. }
  fold kf. destruct (info kf) as [before|] eqn:Ei.
  2: { exists kf, 0. split; [reflexivity|]. split; [exact Hk2|]. split; [apply Hjf; rewrite ?Ei; auto|]. split; [exact Hc2|]. split.
       - intros p Hp'. left. change (k_solver kf) with s' in Hp'. rewrite Hq in Hp'. exact Hp'.
       - intros r Hr'. left. apply Hs. exact Hr'. }
  unfold kf. rewrite E3. cbn [obind]. fold k4. fold kw.
  assert (Hback : forall src, completeD k (gkeys ts) ts src ->
     (forall c r, In r (v_res src c) -> is_Some (k_cams k4 !! c) /\ corner_in rows cols (vr_tag r) (vr_corner r) /\ has (v_grids src c) (vr_tag r) (vr_corner r) = Ret true) ->
     exists b k5, add_view blocks corners (envs ts) kw (grids_of (gkeys ts) src) = Ret (b, k5) /\ reachD base (restore_estimates h k5) /\
       kept_else k (restore_estimates h k5) ts /\ back rows cols size sp gkeys (restore_estimates h k5) ts src /\
       (forall c, is_Some (k_cams (restore_estimates h k5) !! c) <-> is_Some (k_cams k !! c)) /\
       (forall p, p ∈ c_pparams (k_solver k5) -> p ∈ c_pparams (k_solver k) \/ p = e_pose (envs ts)) /\
       (forall r, r ∈ s_res (c_base (k_solver k5)) -> r ∈ s_res (c_base (k_solver k)) \/ exists c t i, r = e_alloc (envs ts) c t i)).
  { intros src Hcs Hfs.
    destruct (readd blocks rows cols size sp Hrows Hcols ext_addr cam_addr base k4 (envs ts) (gkeys ts) ts src Hk4 Hno F4 HT) as (b & k5 & E5 & H5 & Q1 & Q2 & Q3 & Q4 & Q5 & Q6 & Q7 & Q8).
    { eapply complete_cams; [|exact Hcs]. intros c. apply Hc4. } { exact Hfs. }
    assert (Hke : kept_else k (restore_estimates h k5) ts).
    { apply Hrest; auto. intros v0 Hv0. pose proof (reach_KInv blocks rows cols size sp Hrows Hcols ext_addr cam_addr base k5 H5) as K5.
      destruct (ki_view K5 ts v0 Hv0) as (_ & (w & Hw) & _). eauto. }
    exists b, k5. split; [exact E5|]. split; [apply HrR, H5|]. split; [exact Hke|]. split.
    - split.
      + intros Hd. destruct (Q5 Hd) as (v0 & T & W1 & W2 & W3 & W4 & W5). exists v0. split; [exact W1|]. split; [exact W3|]. eapply complete_cams; [|exact W4].
        intros c. destruct Hke as [-> _]. rewrite Q1. apply Hc4.
      + intros Hd. exact (Q6 Hd).
    - split; [intros c; destruct Hke as [-> _]; reflexivity|]. split; [intros p Hp'; destruct (Q7 p Hp'); auto|intros r Hr'; destruct (Q8 r Hr'); auto]. }
  destruct (info kw) as [after|] eqn:Ew.
  - destruct (gain_above after before gain_thr) eqn:Eg.
    + destruct (Hback v' HC' Hfacts') as (b & k5 & E5 & H5 & H6 & H7 & H8 & H9 & H10). rewrite E5. cbn [obind snd]. exists (restore_estimates h k5), n. split; [reflexivity|].
      split; [exact H5|]. split; [apply Hjf; rewrite ?Ei, ?Ew, ?Eg; auto|]. auto.
    + exists (restore_estimates h kw), 0. split; [reflexivity|]. split; [apply HrR, Hk4|].
      assert (Hke : kept_else k (restore_estimates h kw) ts) by (apply Hrest; auto; intros v0 Hv0; unfold kw in Hv0; congruence).
      split; [apply Hjf; rewrite ?Ei, ?Ew, ?Eg; auto|]. split; [intros c; destruct Hke as [-> _]; reflexivity|]. split; [intros p Hp'; left; apply Hpp4, Hp'|intros r Hr'; left; apply Hres4, Hr'].
  - destruct (Hback v HC Hfacts) as (b & k5 & E5 & H5 & H6 & H7 & H8 & H9 & H10). rewrite E5. cbn [obind snd]. exists (restore_estimates h k5), 0. split; [reflexivity|].
    split; [exact H5|]. split; [apply Hjf; rewrite ?Ei, ?Ew; auto|]. auto.
Qed.
(** one view after the other *)
Inductive judged_all (base : gset Z) : list Z -> calib V -> calib V -> Z -> Prop :=
| JA_nil k : judged_all base [] k k 0
| JA_cons ts l k v k1 n1 k2 n2 : k_views k !! ts = Some v ->
    judged blocks rows cols size sp ext_addr cam_addr err info out_thr gain_thr gkeys base k ts v k1 n1 ->
    judged_all base l k1 k2 n2 -> judged_all base (ts :: l) k k2 (n1 + n2).
(** new objects for the views that are added again *)
Definition distinct_envs : Prop := forall t t', t <> t' -> e_pose (envs t) <> e_pose (envs t') /\
  forall c a i c' a' i', e_alloc (envs t) c a i <> e_alloc (envs t') c' a' i'.

Lemma judged_views base (k k' : calib V) ts v n : judged blocks rows cols size sp ext_addr cam_addr err info out_thr gain_thr gkeys base k ts v k' n ->
  (forall c, is_Some (k_cams k' !! c) <-> is_Some (k_cams k !! c)) ->
  (forall t, t <> ts -> k_views k' !! t = k_views k !! t) /\ (forall w, k_views k' !! ts = Some w -> completeD k' (gkeys ts) ts w).
Proof.
  intros (v' & kf & kw & H1 & H2 & H3 & H4 & H5 & H6 & H) Hc. destruct (info kf) as [before|].
  - destruct H as [(_ & _ & _ & Ho & _) H]. split; [intros t Ht; apply Ho, Ht|]. intros w Hw.
    assert (Hb : forall src, back rows cols size sp gkeys k' ts src -> completeD k' (gkeys ts) ts w).
    { intros src [B1 B2]. assert (D : detected (gkeys ts) src \/ ~ detected (gkeys ts) src).
      { unfold detected. clear. induction (gkeys ts) as [|c l IH]; [right; intros (c & [] & _)|]. destruct IH as [(c' & H1 & H2)|IH]; [left; exists c'; split; [right|]; auto|].
        destruct (g_detected (v_grids src c)) eqn:E; [left; exists c; split; [left|]; auto|]. right. intros (c' & [<-|Hc'] & H2); [congruence|]. apply IH. eauto. }
      destruct D as [D|D]; [|rewrite (B2 D) in Hw; discriminate Hw]. destruct (B1 D) as (w' & W1 & _ & W2). rewrite Hw in W1. injection W1 as <-. exact W2. }
    destruct (info kw) as [after|]; [destruct (gain_above _ _ _)|].
    + destruct H as [_ H]. eauto.
    + destruct H as [_ H]. congruence.
    + destruct H as [_ H]. eauto.
  - destruct H as [-> _]. rewrite H4. split; [intros t Ht; apply lookup_insert_ne; auto|]. intros w Hw. rewrite lookup_insert in Hw. injection Hw as <-.
    eapply complete_cams; [|exact H2]. intros c. apply Hc.
Qed.

Lemma loop_ok base l : forall k : calib V, base.NoDup l -> reachD base k -> (forall t, In t l -> is_Some (k_views k !! t)) ->
  (forall t v, k_views k !! t = Some v -> completeD k (gkeys t) t v) -> (forall t, In t l -> fresh_envD (envs t) k) -> distinct_envs ->
  (forall t k0 gs, exists T, e_estimate (envs t) k0 gs = Ret T) ->
  exists k' n, outlier_loop blocks corners err solve info out_thr gain_thr gkeys envs l k = Ret (k', n) /\ reachD base k' /\ judged_all base l k k' n /\
    (forall t v, k_views k' !! t = Some v -> completeD k' (gkeys t) t v) /\ (forall t, ~ In t l -> k_views k' !! t = k_views k !! t).
Proof.
  induction l as [|ts l IH]; intros k Hnd Hk Hl HC HF HD HT.
  - exists k, 0. split; [reflexivity|]. split; [exact Hk|]. split; [constructor|]. split; auto.
  - inversion Hnd as [|? ? Hn Hnd']; subst. destruct (Hl ts (or_introl eq_refl)) as [v Hv].
    destruct (view_ok_step base k ts v Hk Hv (HC ts v Hv) (HF ts (or_introl eq_refl)) (HT ts)) as (k1 & n1 & E1 & Hk1 & J1 & Hc1 & Hp1 & Hr1).
    destruct (judged_views base k k1 ts v n1 J1 Hc1) as [Hv1 Hv2].
    destruct (IH k1 Hnd' Hk1) as (k2 & n2 & E2 & Hk2 & J2 & HC2 & Hv3).
    + intros t Ht. rewrite Hv1; [apply Hl; right; exact Ht|]. intros ->. apply Hn, elem_of_list_In, Ht.
    + intros t w Hw. destruct (decide (t = ts)) as [->|Hne]; [auto|]. rewrite Hv1 in Hw by exact Hne. eapply complete_cams; [|exact (HC t w Hw)]. intros c. apply Hc1.
    + intros t Ht. assert (Hne : t <> ts) by (intros ->; apply Hn, elem_of_list_In, Ht). destruct (HF t (or_intror Ht)) as [F1 F2 F3 F4]. destruct (HD t ts Hne) as [D1 D2]. split; [|exact F2| |exact F4].
      * intros H. apply Hp1 in H as [H|H]; [exact (F1 H)|congruence].
      * intros c a i H. apply Hr1 in H as [H|(c' & a' & i' & H)]; [exact (F3 _ _ _ H)|]. exact (D2 _ _ _ _ _ _ H).
    + exact HD.
    + exact HT.
    + exists k2, (n1 + n2). cbn [outlier_loop]. rewrite E1. cbn [obind fst snd]. rewrite E2. cbn [obind fst snd]. split; [reflexivity|]. split; [exact Hk2|]. split; [econstructor; eauto|]. split; [exact HC2|].
      intros t Ht. rewrite Hv3 by (intros H; apply Ht; right; exact H). apply Hv1. intros ->. apply Ht. left. reflexivity.
Qed.

(** what the chain of judgements means for the whole problem *)
Lemma judged_all_sum base l k k' n : judged_all base l k k' n ->
  (forall t v', k_views k' !! t = Some v' -> exists v, k_views k !! t = Some v /\ (In t l \/ v' = v) /\
     forall c a i, (exists r, In r (v_res v' c) /\ corner_of r = (a, i)) -> exists r, In r (v_res v c) /\ corner_of r = (a, i)) /\
  ((forall k0, info k0 <> None) -> k_cams k' = k_cams k /\ (forall c, is_Some (k_cams k !! c) -> k_exts k' !! c = k_exts k !! c) /\ k_info k' = k_info k /\
     forall t v' p w, k_views k' !! t = Some v' -> k_poses k !! t = Some (p, w) -> exists p', k_poses k' !! t = Some (p', w)).
Proof.
  induction 1 as [k|ts l k v k1 n1 k2 n2 Hv J _ [IH1 IH2]].
  - split; [intros t v' Hv'; exists v'; auto|]. intros _. split; [auto|]. split; [auto|]. split; [auto|]. eauto.
  - assert (HS : forall t v', k_views k1 !! t = Some v' -> exists v, k_views k !! t = Some v /\ (t = ts \/ v' = v) /\
      forall c a i, (exists r, In r (v_res v' c) /\ corner_of r = (a, i)) -> exists r, In r (v_res v c) /\ corner_of r = (a, i)).
    { intros t v' Hv'. destruct J as (vf & kf & kw & H1 & H2 & H3 & H4 & H5 & H6 & H).
      assert (Hsub : forall c a i, (exists r, In r (v_res vf c) /\ corner_of r = (a, i)) -> exists r, In r (v_res v c) /\ corner_of r = (a, i)).
      { intros c a i (r & Hr & Er). exists r. split; [apply (H1 c r), Hr|exact Er]. }
      destruct (info kf) as [before|].
      - destruct H as [(_ & _ & _ & Ho & _) H]. destruct (decide (t = ts)) as [->|Hne]; [|rewrite (proj1 (Ho t Hne)) in Hv'; exists v'; split; [exact Hv'|]; split; auto].
        exists v. split; [exact Hv|]. split; [auto|].
        assert (Hb : forall src, back rows cols size sp gkeys k1 ts src -> seen_again src v').
        { intros src [B1 B2]. assert (D : detected (gkeys ts) src \/ ~ detected (gkeys ts) src).
          { unfold detected. clear. induction (gkeys ts) as [|c l IH]; [right; intros (c & [] & _)|]. destruct IH as [(c' & H1 & H2)|IH]; [left; exists c'; split; [right|]; auto|].
            destruct (g_detected (v_grids src c)) eqn:E; [left; exists c; split; [left|]; auto|]. right. intros (c' & [<-|Hc'] & H2); [congruence|]. apply IH. eauto. }
          destruct D as [D|D]; [|rewrite (B2 D) in Hv'; discriminate Hv']. destruct (B1 D) as (w' & W1 & W2 & _). rewrite Hv' in W1. injection W1 as <-. exact W2. }
        destruct (info kw) as [after|]; [destruct (gain_above _ _ _)|].
        + intros c a i X. apply Hsub. apply (Hb vf (proj2 H)), X.
        + destruct H as [_ H]. congruence.
        + intros c a i X. apply (Hb v (proj2 H)), X.
      - destruct H as [-> _]. rewrite H4 in Hv'. destruct (decide (t = ts)) as [->|Hne].
        + rewrite lookup_insert in Hv'. injection Hv' as <-. exists v. auto.
        + rewrite lookup_insert_ne in Hv' by auto. exists v'. auto. }
    split.
    + intros t v' Hv'. destruct (IH1 t v' Hv') as (v1 & Hv1 & O1 & S1). destruct (HS t v1 Hv1) as (v0 & Hv0 & O0 & S0). exists v0. split; [exact Hv0|]. split.
      * destruct O1 as [X| ->]; [left; right; auto|]. destruct O0 as [->| ->]; [left; left; auto|auto].
      * auto.
    + intros Hi. destruct (IH2 Hi) as (E1 & E2 & E3 & E4). destruct J as (vf & kf & kw & H1 & H2 & H3 & H4 & H5 & H6 & H). destruct (info kf) as [before|] eqn:Ei; [|destruct (Hi kf Ei)].
      destruct H as [(Q1 & Q2 & Q3 & Q4 & Q5) _]. split; [congruence|]. split; [intros c Hc; rewrite E2, Q2; [reflexivity|exact Hc|rewrite Q1; exact Hc]|]. split; [congruence|].
      intros t v' p w Hv' Hp. destruct (IH1 t v' Hv') as (v1 & Hv1 & _). destruct (decide (t = ts)) as [->|Hne].
      * destruct (Q5 v1 p w Hv1 Hp) as (p' & Hp'). eauto.
      * destruct (Q4 t Hne) as [_ Hpe]. rewrite <- Hpe in Hp. eauto.
Qed.
End P.

(** ** C104, one view *)
Theorem C104_view_partial : forall (blocks : Z -> list Z) rows cols size sp (V : Type) ext_addr cam_addr base err solve info out_thr gain_thr gkeys envs (k : calib V) ts v,
  0 <= rows -> 0 <= cols -> reach blocks rows cols size sp ext_addr cam_addr base k -> k_views k !! ts = Some v -> complete rows cols size sp k (gkeys ts) ts v ->
  fresh_env blocks ext_addr cam_addr (envs ts) k -> (forall k0 gs, exists T, e_estimate (envs ts) k0 gs = Ret T) ->
  exists k' n, outlier_view blocks (fiducial_corners rows cols size sp) err solve info out_thr gain_thr gkeys envs ts k = Ret (k', n) /\
    reach blocks rows cols size sp ext_addr cam_addr base k' /\
    judged blocks rows cols size sp ext_addr cam_addr err info out_thr gain_thr gkeys base k ts v k' n.
Proof.
  intros blocks rows cols size sp V ext_addr cam_addr base err solve info out_thr gain_thr gkeys envs k ts v Hr Hc Hk Hv HC F HT.
  destruct (view_ok_step blocks rows cols size sp Hr Hc ext_addr cam_addr err solve info out_thr gain_thr gkeys envs base k ts v Hk Hv HC F HT) as (k' & n & E & H1 & H2 & _).
  eauto.
Qed.
Print Assumptions C104_view_partial.

(** the largest / all timestamps of views *)
Lemma stamps_In {V} (k : calib V) t : In t (stamps_desc k) <-> is_Some (k_views k !! t).
Proof.
  unfold stamps_desc. rewrite <- elem_of_list_In, elem_of_reverse, merge_sort_Permutation, elem_of_list_fmap. split.
  - intros ([t' v] & -> & H). apply elem_of_map_to_list in H. cbn. eauto.
  - intros [v H]. exists (t, v). split; [reflexivity|]. apply elem_of_map_to_list, H.
Qed.
Lemma stamps_NoDup {V} (k : calib V) : base.NoDup (stamps_desc k).
Proof. unfold stamps_desc. rewrite reverse_Permutation, merge_sort_Permutation. apply NoDup_fst_map_to_list. Qed.
Lemma stamps_head {V} (k : calib V) t l : stamps_desc k = t :: l -> forall t', is_Some (k_views k !! t') -> t' <= t.
Proof.
  intros E t' Ht. apply stamps_In in Ht. rewrite E in Ht.
  assert (S1 : Sorted Z.le (merge_sort Z.le (map_to_list (k_views k)).*1)) by (apply Sorted_merge_sort; intros a b; lia).
  apply Sorted_StronglySorted in S1; [|intros a b c; lia].
  assert (E' : merge_sort Z.le (map_to_list (k_views k)).*1 = reverse l ++ [t]).
  { rewrite <- (reverse_involutive (merge_sort _ _)). unfold stamps_desc in E. rewrite E, reverse_cons. reflexivity. }
  rewrite E' in S1. destruct Ht as [->|Ht]; [lia|].
  assert (Hin : In t' (reverse l)) by (apply elem_of_list_In, elem_of_reverse, elem_of_list_In, Ht).
  clear -S1 Hin. induction (reverse l) as [|a m IH]; [destruct Hin|]. cbn in S1. inversion S1 as [|? ? S2 F]; subst. destruct Hin as [->|Hin]; [|auto].
  rewrite List.Forall_forall in F. apply F. apply in_or_app. right. left. reflexivity.
Qed.

(** ** C104, the whole call: every view (largest time first), or only the last one if it has not been filtered yet, is judged in
    turn; the estimates are what they were if the information can always be computed; the stored information is that of
    the result. *)
Theorem C104_outliers_partial : forall (blocks : Z -> list Z) rows cols size sp (V : Type) ext_addr cam_addr base err solve info out_thr gain_thr gkeys envs (k : calib V) all filtered,
  0 <= rows -> 0 <= cols -> reach blocks rows cols size sp ext_addr cam_addr base k -> k_views k <> ∅ ->
  (forall t v, k_views k !! t = Some v -> complete rows cols size sp k (gkeys t) t v) ->
  (forall t, fresh_env blocks ext_addr cam_addr (envs t) k) -> distinct_envs envs -> (forall t k0 gs, exists T, e_estimate (envs t) k0 gs = Ret T) ->
  exists n filtered' k' k1 l, remove_outliers blocks (fiducial_corners rows cols size sp) err solve info out_thr gain_thr gkeys envs all filtered k = Ret (n, filtered', k') /\
    judged_all blocks rows cols size sp ext_addr cam_addr err info out_thr gain_thr gkeys base l k k1 n /\
    reach blocks rows cols size sp ext_addr cam_addr base k1 /\
    (* which views are judged *)
    base.NoDup l /\
    (if all then (forall t, In t l <-> is_Some (k_views k !! t)) /\ filtered' = filtered
     else exists last, is_Some (k_views k !! last) /\ (forall t, is_Some (k_views k !! t) -> t <= last) /\
       (last ∈ filtered -> l = [] /\ filtered' = filtered) /\ (last ∉ filtered -> l = [last] /\ filtered' = {[last]} ∪ filtered)) /\
    (forall t, ~ In t l -> k_views k' !! t = k_views k !! t) /\
    (* the views that remain were there before, and see nothing new *)
    (forall t v', k_views k' !! t = Some v' -> exists v, k_views k !! t = Some v /\
       forall c a i, (exists r, In r (v_res v' c) /\ corner_of r = (a, i)) -> exists r, In r (v_res v c) /\ corner_of r = (a, i)) /\
    (* the estimates *)
    ((forall k0, info k0 <> None) -> k_cams k' = k_cams k /\ (forall c, is_Some (k_cams k !! c) -> k_exts k' !! c = k_exts k !! c) /\
       forall t v' p w, k_views k' !! t = Some v' -> k_poses k !! t = Some (p, w) -> exists p', k_poses k' !! t = Some (p', w)) /\
    (l <> [] -> forall i, info k1 = Some i -> k_info k' = i).
Proof.
  intros blocks rows cols size sp V ext_addr cam_addr base err solve info out_thr gain_thr gkeys envs k all filtered Hr Hc Hk Hne HC HF HD HT.
  assert (Main : forall l, base.NoDup l -> (forall t, In t l -> is_Some (k_views k !! t)) ->
    exists k1 n, outlier_loop blocks (fiducial_corners rows cols size sp) err solve info out_thr gain_thr gkeys envs l k = Ret (k1, n) /\
      let k' := match l with [] => k1 | _ => put_info k1 (info k1) end in
      judged_all blocks rows cols size sp ext_addr cam_addr err info out_thr gain_thr gkeys base l k k1 n /\ reach blocks rows cols size sp ext_addr cam_addr base k1 /\
      (forall t, ~ In t l -> k_views k' !! t = k_views k !! t) /\
      (forall t v', k_views k' !! t = Some v' -> exists v, k_views k !! t = Some v /\
       forall c a i, (exists r, In r (v_res v' c) /\ corner_of r = (a, i)) -> exists r, In r (v_res v c) /\ corner_of r = (a, i)) /\
      ((forall k0, info k0 <> None) -> k_cams k' = k_cams k /\ (forall c, is_Some (k_cams k !! c) -> k_exts k' !! c = k_exts k !! c) /\
       forall t v' p w, k_views k' !! t = Some v' -> k_poses k !! t = Some (p, w) -> exists p', k_poses k' !! t = Some (p', w)) /\
      (l <> [] -> forall i, info k1 = Some i -> k_info k' = i)).
  { intros l Hnd Hl. destruct (loop_ok blocks rows cols size sp Hr Hc ext_addr cam_addr err solve info out_thr gain_thr gkeys envs base l k Hnd Hk Hl HC (fun t _ => HF t) HD HT) as (k1 & n & E & Hk1 & J & _ & Ho).
    exists k1, n. split; [exact E|]. cbv zeta. set (k' := match l with [] => k1 | _ => put_info k1 (info k1) end).
    assert (Ev : k_views k' = k_views k1 /\ k_cams k' = k_cams k1 /\ k_exts k' = k_exts k1 /\ k_poses k' = k_poses k1).
    { unfold k'. destruct l; [auto|]. unfold put_info. destruct (info k1); auto. }
    destruct Ev as (E1 & E2 & E3 & E4). rewrite E1, E2, E3, E4. destruct (judged_all_sum blocks rows cols size sp ext_addr cam_addr err info out_thr gain_thr gkeys base l k k1 n J) as [S1 S2].
    split; [exact J|]. split; [exact Hk1|]. split; [exact Ho|]. split.
    { intros t v' Hv'. destruct (S1 t v' Hv') as (v & Hv & _ & Hs). eauto. }
    split.
    { intros Hi. destruct (S2 Hi) as (Q1 & Q2 & _ & Q4). auto. }
    intros Hl0 i Hi. unfold k'. destruct l; [congruence|]. rewrite Hi. reflexivity. }
  unfold remove_outliers. destruct all.
  - destruct (Main (stamps_desc k) (stamps_NoDup k)) as (k1 & n & E & J & Hk1 & M); [intros t; apply stamps_In|].
    rewrite E. cbn [obind fst snd]. eexists n, filtered, _, k1, (stamps_desc k). split; [reflexivity|]. split; [exact J|]. split; [exact Hk1|]. split; [apply stamps_NoDup|].
    split; [split; [apply stamps_In|reflexivity]|exact M].
  - destruct (stamps_desc k) as [|last rest] eqn:Es.
    { exfalso. apply Hne. apply map_eq. intros t. rewrite lookup_empty. destruct (k_views k !! t) eqn:Et; [|reflexivity].
      assert (In t (stamps_desc k)) by (apply stamps_In; rewrite Et; eauto). rewrite Es in H. destruct H. }
    assert (Hlast : is_Some (k_views k !! last)) by (apply stamps_In; rewrite Es; left; reflexivity).
    destruct (decide (last ∈ filtered)) as [Hf|Hf].
    + destruct (Main [] (NoDup_nil_2)) as (k1 & n & E & J & Hk1 & M); [intros t []|]. rewrite E. cbn [obind fst snd]. eexists n, filtered, _, k1, []. split; [reflexivity|]. split; [exact J|]. split; [exact Hk1|].
      split; [constructor|]. split; [|exact M]. exists last. split; [exact Hlast|]. split; [eapply stamps_head; eauto|]. split; [auto|intros; contradiction].
    + destruct (Main [last]) as (k1 & n & E & J & Hk1 & M); [apply NoDup_singleton|intros t [<-|[]]; exact Hlast|]. rewrite E. cbn [obind fst snd].
      eexists n, _, _, k1, [last]. split; [reflexivity|]. split; [exact J|]. split; [exact Hk1|]. split; [apply NoDup_singleton|]. split; [|exact M].
      exists last. split; [exact Hlast|]. split; [eapply stamps_head; eauto|]. split; [intros; contradiction|auto].
Qed.
Print Assumptions C104_outliers_partial.

(** The thresholds: for every calibrated camera, the multiple of the standard deviations (C51) of the residuals of this camera in all views. *)
Theorem C104_thresholds : forall (V : Type) err out_thr (k : calib V) c a b,
  In (c, (a, b)) (cam_thresholds err out_thr k) <->
  is_Some (k_cams k !! c) /\ exists sx sy, StatsModel.stddev (map fst (cam_residuals err k c)) = Some sx /\ StatsModel.stddev (map snd (cam_residuals err k c)) = Some sy /\
    a = (out_thr * sx)%R /\ b = (out_thr * sy)%R.
Proof.
  intros V err out_thr k c a b. unfold cam_thresholds. rewrite in_flat_map. split.
  - intros (c' & Hc & H). apply keys_lookup in Hc. unfold cam_threshold in H. destruct (StatsModel.stddev (map fst (cam_residuals err k c'))) as [sx|] eqn:E1; [|destruct H].
    destruct (StatsModel.stddev (map snd (cam_residuals err k c'))) as [sy|] eqn:E2; [|destruct H]. destruct H as [H|[]]. injection H as <- <- <-. split; [exact Hc|]. eauto 8.
  - intros (Hc & sx & sy & E1 & E2 & -> & ->). exists c. split; [apply keys_lookup, Hc|]. unfold cam_threshold. rewrite E1, E2. left. reflexivity.
Qed.
(** ... where a residual counts iff it belongs to this camera in some view and can be evaluated *)
Lemma C104_residuals : forall (V : Type) err (k : calib V) c z, In z (cam_residuals err k c) <-> exists ts v r, k_views k !! ts = Some v /\ In r (v_res v c) /\ err k (vr_id r) = Some z.
Proof.
  intros V err k c z. unfold cam_residuals. rewrite in_flat_map. split.
  - intros ([ts v] & H1 & H2). apply elem_of_list_In, elem_of_map_to_list in H1. cbn [snd] in H2. apply in_flat_map in H2 as (r & H2 & H3). exists ts, v, r. split; [exact H1|]. split; [exact H2|].
    destruct (err k (vr_id r)) as [z'|]; [|destruct H3]. destruct H3 as [->|[]]. reflexivity.
  - intros (ts & v & r & H1 & H2 & H3). exists (ts, v). split; [apply elem_of_list_In, elem_of_map_to_list, H1|]. apply in_flat_map. exists r. split; [exact H2|]. rewrite H3. left. reflexivity.
Qed.

(** ** _filter_all_views: the same thresholds for all views; returned is the number of residuals removed *)
Theorem C104_filter_all : forall (blocks : Z -> list Z) rows cols size sp (V : Type) ext_addr cam_addr base err out_thr gkeys (k : calib V),
  0 <= rows -> 0 <= cols -> reach blocks rows cols size sp ext_addr cam_addr base k ->
  (forall t v, k_views k !! t = Some v -> complete rows cols size sp k (gkeys t) t v) ->
  exists k' n, filter_all_views blocks err out_thr k = Ret (k', n) /\ reach blocks rows cols size sp ext_addr cam_addr base k' /\
    k_cams k' = k_cams k /\ k_exts k' = k_exts k /\ k_poses k' = k_poses k /\ k_vts k' = k_vts k /\ k_info k' = k_info k /\
    (forall t, match k_views k !! t with
       | None => k_views k' !! t = None
       | Some v => exists v', k_views k' !! t = Some v' /\ complete rows cols size sp k' (gkeys t) t v' /\
                     forall c r, In r (v_res v' c) <-> In r (v_res v c) /\ inlier err out_thr k r
       end) /\
    n = foldr Z.add 0 (map (fun tv => count (keys (k_cams k)) (snd tv) - match k_views k' !! fst tv with Some v' => count (keys (k_cams k)) v' | None => 0 end) (map_to_list (k_views k))).
Proof.
  intros blocks rows cols size sp V ext_addr cam_addr base err out_thr gkeys k0 Hr Hc Hk HC. unfold filter_all_views.
  set (ths := cam_thresholds err out_thr k0). set (e := err k0).
  assert (L : forall (l : list (Z * cview)) (k : calib V), base.NoDup l.*1 -> reach blocks rows cols size sp ext_addr cam_addr base k -> k_cams k = k_cams k0 ->
    (forall t v, (t, v) ∈ l -> k_views k !! t = Some v) -> (forall t v, (t, v) ∈ l -> complete rows cols size sp k (gkeys t) t v) ->
    exists k' n, filter_each blocks ths e l.*1 k = Ret (k', n) /\ reach blocks rows cols size sp ext_addr cam_addr base k' /\
      k_cams k' = k_cams k /\ k_exts k' = k_exts k /\ k_poses k' = k_poses k /\ k_vts k' = k_vts k /\ k_info k' = k_info k /\
      (forall t, t ∉ l.*1 -> k_views k' !! t = k_views k !! t) /\
      (forall t v, (t, v) ∈ l -> exists v', k_views k' !! t = Some v' /\ complete rows cols size sp k' (gkeys t) t v' /\ forall c r, In r (v_res v' c) <-> In r (v_res v c) /\ survives e ths r) /\
      n = foldr Z.add 0 (map (fun tv => count (keys (k_cams k0)) (snd tv) - match k_views k' !! fst tv with Some v' => count (keys (k_cams k0)) v' | None => 0 end) l)).
  { induction l as [|[ts v] l IH]; intros k Hnd Hk1 Hcm Hl HC1; cbn [fmap list_fmap filter_each fst].
    - exists k, 0. split; [reflexivity|]. split; [exact Hk1|]. repeat (split; [reflexivity|]). split; [intros t v H; apply elem_of_nil in H; destruct H|reflexivity].
    - apply NoDup_cons in Hnd as [Hn Hnd].
      rewrite (Hl ts v) by (apply elem_of_list_here).
      destruct (filter_map_ok blocks rows cols size sp Hr Hc ext_addr cam_addr base e ths k ts v (gkeys ts) Hk1) as (v' & s' & n & E & Hk2 & HC2 & Hp & Hres & Hcnt & _ & _); [apply Hl, elem_of_list_here|apply HC1, elem_of_list_here|].
      rewrite E. cbn [obind].
      destruct (IH (put_view k ts v' s') Hnd Hk2 Hcm) as (k' & n' & E' & Hk' & Q1 & Q2 & Q3 & Q4 & Q5 & Q6 & Q7 & Q8).
      + intros t w Hw. cbn [put_view k_views]. rewrite lookup_insert_ne; [apply Hl, elem_of_list_further, Hw|]. intros ->. apply Hn. apply elem_of_list_fmap. exists (t, w). auto.
      + intros t w Hw. eapply complete_cams; [|apply HC1, elem_of_list_further, Hw]. auto.
      + rewrite E'. cbn [obind fst snd]. exists k', (n + n'). split; [reflexivity|]. split; [exact Hk'|]. split; [exact Q1|]. split; [exact Q2|]. split; [exact Q3|]. split; [exact Q4|]. split; [exact Q5|].
        assert (Hts : k_views k' !! ts = Some v') by (rewrite (Q6 ts Hn); apply lookup_insert).
        split; [|split].
        * intros t Ht. apply not_elem_of_cons in Ht as [Ht1 Ht2]. rewrite (Q6 t Ht2). cbn [put_view k_views]. apply lookup_insert_ne; auto.
        * intros t w Hw. apply elem_of_cons in Hw as [Hw|Hw]; [|auto]. injection Hw as -> ->. exists v'. split; [exact Hts|]. split; [|exact Hres].
          eapply complete_cams; [|exact HC2]. intros c. rewrite Q1. auto.
        * cbn [map foldr fst snd]. rewrite Hts, Hcnt, Hcm, Q8. lia. }
  destruct (L (map_to_list (k_views k0)) k0) as (k' & n & E & Hk' & Q1 & Q2 & Q3 & Q4 & Q5 & Q6 & Q7 & Q8).
  - apply NoDup_fst_map_to_list.
  - exact Hk.
  - reflexivity.
  - intros t v H. apply elem_of_map_to_list, H.
  - intros t v H. apply HC, elem_of_map_to_list, H.
  - exists k', n. split; [exact E|]. split; [exact Hk'|]. split; [exact Q1|]. split; [exact Q2|]. split; [exact Q3|]. split; [exact Q4|]. split; [exact Q5|]. split; [|exact Q8].
    intros t. destruct (k_views k0 !! t) as [v|] eqn:Ev; [apply Q7, elem_of_map_to_list, Ev|]. rewrite Q6; [exact Ev|].
    intros H. apply elem_of_list_fmap in H as ([t' w] & -> & H). apply elem_of_map_to_list in H. cbn in Ev. congruence.
Qed.
Print Assumptions C104_filter_all.

(** ** The condition on the views holds after add_view *)
Theorem C104_added : forall (blocks : Z -> list Z) rows cols size sp (V : Type) ext_addr cam_addr base (k : calib V) e hist gs ts k',
  0 <= rows -> 0 <= cols -> reach blocks rows cols size sp ext_addr cam_addr base k -> fresh_env blocks ext_addr cam_addr e k -> recorded rows cols size sp hist gs ->
  first_detected gs = Some ts -> (forall c g, In (c, g) gs -> g_ts g = ts) -> k_views k !! ts = None ->
  add_view blocks (fiducial_corners rows cols size sp) e k gs = Ret (true, k') ->
  exists v, k_views k' !! ts = Some v /\ complete rows cols size sp k' (map fst gs) ts v.
Proof.
  intros blocks rows cols size sp V ext_addr cam_addr base k e hist gs ts k' Hr Hc Hk F Hrec Hfd Hts Hno E.
  pose proof (reach_KInv blocks rows cols size sp Hr Hc ext_addr cam_addr base k Hk) as K.
  pose proof (recorded_ok blocks rows cols size sp Hr Hc ext_addr cam_addr hist gs Hrec) as G.
  assert (exists T, e_estimate e (mkCalib (k_cams k) (k_exts k) ({[ts]} ∪ k_data k) (k_poses k) (k_views k) (k_vts k) (k_solver k) (k_info k)) gs = Ret T) as (T & HT).
  { unfold add_view in E. rewrite Hfd in E. cbn [k_poses] in E.
    assert (Hpo : k_poses k !! ts = None).
    { destruct (k_poses k !! ts) eqn:Ep; auto. exfalso. destruct (proj1 (ki_dom K ts)) as [v Hv]; [rewrite Ep; eauto|congruence]. }
    rewrite Hpo in E. unfold add_pose in E. cbn [k_poses] in E. rewrite Hpo in E. destruct (e_estimate e _ gs) as [T| |] eqn:Ee; [eauto|discriminate E|discriminate E]. }
  destruct (add_view_new blocks rows cols size sp Hr Hc ext_addr cam_addr base k e gs (content_of hist) ts T K F G Hfd Hno HT)
    as (k1 & v & E1 & K1 & A1 & A2 & A3 & A4 & A5 & A6 & A7 & A8 & A8b & A9 & A10 & A11).
  rewrite E in E1. injection E1 as <-. exists v. split; [rewrite A6; apply lookup_insert|].
  assert (Hg : forall c g, In (c, g) gs -> v_grids v c = g) by (intros c g H; rewrite A8b; apply (grid_of_In blocks rows ext_addr cam_addr); [exact (proj1 G)|exact H]).
  assert (Hgs : grids_of (map fst gs) v = gs).
  { unfold grids_of. rewrite map_map. rewrite <- (map_id gs) at 2. apply map_ext_in. intros [c g] H. cbn [fst]. f_equal. auto. }
  split; [exists hist; rewrite Hgs; exact Hrec|]. split; [|split].
  - intros c H. apply in_map_iff in H as ([c' g] & <- & H). cbn [fst]. rewrite (Hg c' g H). eauto.
  - intros c t i H H1 H2 H3. apply in_map_iff in H as ([c' g] & <- & H). cbn [fst] in *. rewrite (Hg c' g H) in H3.
    destruct (proj2 G c' g H) as [HR [B1 B2]]. rewrite (has_Rep _ _ _ _ _ _ _ _ HR H2) in H3. unfold present in H3. cbn in H3.
    assert (Hm : content_of hist c' t i <> None) by (destruct (content_of hist c' t i); congruence).
    exists (mkVres (e_alloc e c' t i) t i). split; [|reflexivity]. rewrite A8. unfold want.
    assert (Hd : g_detected g = true) by (pose proof (icount_pos rows cols _ _ _ H2 Hm); destruct (g_detected g); [reflexivity|specialize (B2 eq_refl); lia]).
    assert (Eb : existsb (fun cg => (fst cg =? c') && g_detected (snd cg)) gs && existsb (Z.eqb c') (keys (k_cams k)) = true).
    { apply andb_true_iff. split; apply existsb_exists; [exists (c', g); split; [exact H|cbn; rewrite Z.eqb_refl, Hd; reflexivity]|]. exists c'. split; [apply keys_lookup; rewrite <- A1; exact H1|apply Z.eqb_refl]. }
    rewrite Eb. apply in_map_iff. exists (t, i). split; [reflexivity|]. apply seen_In. auto.
  - intros c r H. rewrite A8 in H. apply (want_In blocks rows cols ext_addr cam_addr) in H as (_ & (g & H & _) & _). apply in_map_iff. exists (c, g). auto.
Qed.

(** ** What goes wrong *)
(** No views: the end of an empty map is dereferenced. *)
Theorem C104_empty_refuted : forall (blocks : Z -> list Z) corners (V : Type) err solve info out_thr gain_thr gkeys envs (k : calib V) filtered,
  k_views k = ∅ -> remove_outliers blocks corners err solve info out_thr gain_thr gkeys envs false filtered k = Undef.
Proof.
  intros blocks corners V err solve info out_thr gain_thr gkeys envs k filtered H. unfold remove_outliers.
  destruct (stamps_desc k) as [|t l] eqn:E; [reflexivity|]. assert (Ht : is_Some (k_views k !! t)) by (apply stamps_In; rewrite E; left; reflexivity).
  rewrite H, lookup_empty in Ht. destruct Ht as [? Ht]. discriminate Ht.
Qed.
Definition ex_v1 : cview := default (mkCview 0 (fun _ => default_grid) (fun _ => []) 0) (k_views ex_k1 !! 7).
Lemma ex_view1 : k_views ex_k1 !! 7 = Some ex_v1.
Proof. unfold ex_v1. destruct C28_ex as (v & -> & _). reflexivity. Qed.
Lemma ex_complete1 : complete 1 1 1%R 0%R ex_k1 [0] 7 ex_v1.
Proof.
  destruct (C104_added ex_blocks 1 1 1%R 0%R Z ex_ext ex_cam (list_to_set [0; 1]) ex_k0 (ex_env 1 50) (ex_hist 7) (ex_gs 7) 7 ex_k1) as (v & Hv & HC).
  - lia. - lia. - exact ex_reach0. - apply ex_fresh0; lia. - apply ex_recorded. - reflexivity.
  - intros c g [H|[]]. injection H as <- <-. reflexivity.
  - reflexivity. - apply ex_add1.
  - rewrite ex_view1 in Hv. injection Hv as <-. exact HC.
Qed.
Definition ex_solve : calib Z -> values Z := fun _ => mkValues (fun _ => 91) (fun _ => 92) (fun _ => 93).
(** with the view the information is 0, without it [w] *)
Definition ex_info (w : option xreal) (k : calib Z) : option xreal := match k_views k !! 7 with Some _ => Some (XF 0) | None => w end.
(** both corners of the view are off by one pixel in both directions: the standard deviation is 0 *)
Definition ex_err : calib Z -> Z -> option (R * R) := fun _ _ => Some (1, 1)%R.
Lemma ex_residuals : cam_residuals ex_err ex_k1 0 = [(1, 1); (1, 1)]%R.
Proof. vm_compute. reflexivity. Qed.
Lemma ex_sd : StatsModel.stddev [1; 1]%R = Some 0%R.
Proof.
  unfold StatsModel.stddev, StatsModel.var, StatsModel.mean, StatsModel.fdiv. cbn [length INR fold_left]. destruct (Req_EM_T (1 + 1) 0) as [X|_]; [lra|].
  destruct (Req_EM_T (1 + 1 - 1) 0) as [X|_]; [lra|]. cbn. f_equal. replace (_ / _)%R with 0%R by field. apply sqrt_0.
Qed.
Lemma ex_outlier r : ~ inlier ex_err 4%R ex_k1 r.
Proof.
  intros H. apply (H 0 (4 * 0, 4 * 0)%R).
  - apply C104_thresholds. split; [refine (bool_decide_unpack _ _); vm_compute; exact I|]. exists 0%R, 0%R. rewrite ex_residuals. cbn [map fst snd]. rewrite ex_sd. auto.
  - exists 1%R, 1%R. split; [reflexivity|]. cbn. lra.
Qed.
(** Residuals that are all equal have no outliers, but every one is removed: the threshold is a multiple of the spread around
    the mean and is compared with the distance from zero. *)
Theorem C104_spread_refuted : exists k' n, ex_reach ex_k1 /\ complete 1 1 1%R 0%R ex_k1 [0] 7 ex_v1 /\
  outlier_view ex_blocks ex_corners ex_err ex_solve (ex_info (Some (XF 10))) 4 1 (fun _ => [0]) (fun _ => ex_env 2 60) 7 ex_k1 = Ret (k', n) /\
  n = 2 /\ forall v', k_views k' !! 7 = Some v' -> forall c, v_res v' c = [].
Proof.
  destruct (C104_view_partial ex_blocks 1 1 1%R 0%R Z ex_ext ex_cam (list_to_set [0; 1]) ex_err ex_solve (ex_info (Some (XF 10))) 4%R 1%R (fun _ => [0]) (fun _ => ex_env 2 60) ex_k1 7 ex_v1)
    as (k' & n & E & Hk & v' & kf & kw & H1 & H2 & H3 & H4 & H5 & H6 & H).
  - lia. - lia. - exact ex_reach1. - exact ex_view1. - exact ex_complete1. - exact ex_fresh2. - intros k0 gs. exists 60. reflexivity.
  - assert (Hn : forall c, v_res v' c = []).
    { intros c. destruct (v_res v' c) as [|r l] eqn:El; [reflexivity|]. exfalso. apply (ex_outlier r). apply (H1 c r). rewrite El. left. reflexivity. }
    unfold ex_info in H. rewrite H4, lookup_insert, H6, lookup_delete in H. destruct H as [_ H]. rewrite (proj2 (gain_finite 10 0 1)) in H by lra. destruct H as [-> [Hb1 Hb2]].
    exists k'. eexists. split; [exact ex_reach1|]. split; [exact ex_complete1|]. split; [exact E|]. split.
    + unfold count. assert (X : forall l, flat_map (v_res v') l = []) by (clear -Hn; induction l as [|a l IH]; [reflexivity|]; cbn; rewrite Hn, IH; reflexivity).
      rewrite X. change (length (flat_map (v_res ex_v1) (keys (k_cams ex_k1)))) with 2%nat. reflexivity.
    + intros w Hw c. destruct (g_detected (v_grids v' 0)) eqn:Eg.
      * destruct Hb1 as (w' & W1 & W2 & _); [exists 0; split; [left; reflexivity|exact Eg]|]. rewrite Hw in W1. injection W1 as <-.
        destruct (v_res w c) as [|r l] eqn:El; [reflexivity|]. exfalso. destruct (proj1 (W2 c (vr_tag r) (vr_corner r))) as (r' & Hr' & _); [exists r; rewrite El; split; [left|]; reflexivity|]. rewrite Hn in Hr'. destruct Hr'.
      * rewrite Hb2 in Hw; [discriminate Hw|]. intros (c' & [<-|[]] & Hd). congruence.
Qed.
Print Assumptions C104_spread_refuted.
(** If the information cannot be computed without the view (it may be the only one), its outliers come back. *)
Theorem C104_outliers_back_refuted : exists k' n v', ex_reach ex_k1 /\
  outlier_view ex_blocks ex_corners ex_err ex_solve (ex_info None) 4 1 (fun _ => [0]) (fun _ => ex_env 2 60) 7 ex_k1 = Ret (k', n) /\
  n = 0 /\ (forall r, ~ inlier ex_err 4%R ex_k1 r) /\ k_views k' !! 7 = Some v' /\ seen_again ex_v1 v' /\ exists r, In r (v_res v' 0) /\ corner_of r = (0, 3).
Proof.
  destruct (C104_view_partial ex_blocks 1 1 1%R 0%R Z ex_ext ex_cam (list_to_set [0; 1]) ex_err ex_solve (ex_info None) 4%R 1%R (fun _ => [0]) (fun _ => ex_env 2 60) ex_k1 7 ex_v1)
    as (k' & n & E & Hk & v' & kf & kw & H1 & H2 & H3 & H4 & H5 & H6 & H).
  - lia. - lia. - exact ex_reach1. - exact ex_view1. - exact ex_complete1. - exact ex_fresh2. - intros k0 gs. exists 60. reflexivity.
  - unfold ex_info in H. rewrite H4, lookup_insert, H6, lookup_delete in H. destruct H as (_ & -> & Hb1 & _).
    destruct Hb1 as (w & W1 & W2 & _); [exists 0; split; [left; reflexivity|vm_compute; reflexivity]|].
    exists k', 0, w. split; [exact ex_reach1|]. split; [exact E|]. split; [reflexivity|]. split; [exact ex_outlier|]. split; [exact W1|]. split; [exact W2|].
    apply W2. exists (mkVres (ex_id 1 0 0 3) 0 3). split; [|reflexivity]. vm_compute. right. left. reflexivity.
Qed.
(** If the information with the filtered view cannot be computed, the estimates are not restored (and the removed residuals are not counted). *)
Theorem C104_no_info_refuted : exists k' n, ex_reach ex_k1 /\
  outlier_view ex_blocks ex_corners ex_err ex_solve (fun _ => None) 4 1 (fun _ => [0]) (fun _ => ex_env 2 60) 7 ex_k1 = Ret (k', n) /\
  n = 0 /\ k_cams ex_k1 !! 0 = Some 10 /\ k_cams k' !! 0 = Some 91 /\ exists v', k_views k' !! 7 = Some v' /\ forall c, v_res v' c = [].
Proof.
  destruct (C104_view_partial ex_blocks 1 1 1%R 0%R Z ex_ext ex_cam (list_to_set [0; 1]) ex_err ex_solve (fun _ => None) 4%R 1%R (fun _ => [0]) (fun _ => ex_env 2 60) ex_k1 7 ex_v1)
    as (k' & n & E & Hk & v' & kf & kw & H1 & H2 & H3 & H4 & H5 & H6 & H).
  - lia. - lia. - exact ex_reach1. - exact ex_view1. - exact ex_complete1. - exact ex_fresh2. - intros k0 gs. exists 60. reflexivity.
  - destruct H as [-> ->]. exists kf, 0. split; [exact ex_reach1|]. split; [exact E|]. split; [reflexivity|]. split; [vm_compute; reflexivity|]. split.
    + unfold outlier_view in E. rewrite ex_view1 in E. destruct (cache_estimates ex_k1) as [hh|ee|]; cbn [obind] in E; [|discriminate E|discriminate E].
      destruct (filter_view_map _ _ _ _ _ _) as [[[w s] m]|ee|]; cbn [obind] in E; [|discriminate E|discriminate E]. injection E as <-. cbn [solved k_cams put_view]. rewrite map_lookup_imap.
      replace (k_cams ex_k1 !! 0) with (Some 10) by (vm_compute; reflexivity). reflexivity.
    + exists v'. split; [rewrite H4; apply lookup_insert|]. intros c. destruct (v_res v' c) as [|r l] eqn:El; [reflexivity|]. exfalso. apply (ex_outlier r). apply (H1 c r). rewrite El. left. reflexivity.
Qed.
Print Assumptions C104_no_info_refuted.
