(** * Invariants of the motion-capture calibrator, continued *)
From Verif Require Import Base GeomModel StatsModel MocapModel MocapSpec MocapProofs.
From Coq Require Import Reals Lra Sorted Permutation.
Local Open Scope Z_scope.

Definition used (vs : list (Z * mview)) : list (rid * Z * corner) :=
  flat_map (fun tv => map (fun rc => (fst rc, fst tv, snd rc)) (v_res (snd tv))) vs.
Definition ids (l : list (rid * Z * corner)) : list rid := map (fun x => fst (fst x)) l.
Definition tags (l : list corner) : list (Z * Z) := map (fun k => (k_tag k, k_idx k)) l.
(** [dead]: residuals in the problem whose view is gone *)
Record Inv (dead : list (rid * Z * corner)) (s : mocap) : Prop := MkInv {
  i_res : Permutation (q_res (m_prob s)) (used (m_views s) ++ dead);
  i_ids : NoDup (ids (used (m_views s) ++ dead));
  i_next : forall r, In r (ids (used (m_views s) ++ dead)) -> (fst r < m_next s)%nat;
  i_asc : asc (m_views s);
  i_pts : forall ts v, In (ts, v) (m_views s) -> map snd (v_res v) = v_pts v /\ NoDup (tags (v_pts v));
  i_pose : forall ts, In ts (map fst (m_views s)) -> In ts (map fst (e_poses (m_est s)));
  i_poses : q_poses (m_prob s) = map fst (e_poses (m_est s));
  i_pasc : asc (e_poses (m_est s));
  i_gasc : asc (m_grids s);
  i_grids : forall ts g, In (ts, g) (m_grids s) -> g_ts g = ts /\ g_det g = true /\ g_pts g <> [] /\ NoDup (tags (g_pts g)) }.

Lemma rid_eqb_eq a b : rid_eqb a b = true <-> a = b.
Proof. destruct a, b. unfold rid_eqb. cbn. rewrite andb_true_iff, !Nat.eqb_eq. split; [intros (-> & ->); auto|intros E; injection E; auto]. Qed.
Lemma rid_eqb_refl a : rid_eqb a a = true.
Proof. apply rid_eqb_eq. reflexivity. Qed.
Lemma used_app a b : used (a ++ b) = used a ++ used b.
Proof. apply flat_map_app. Qed.
Lemma used_perm a b : Permutation a b -> Permutation (used a) (used b).
Proof. apply Permutation_flat_map. Qed.
Lemma ids_app a b : ids (a ++ b) = ids a ++ ids b.
Proof. apply map_app. Qed.
Lemma live_in s r : live s r = true <-> In r (ids (used (m_views s))).
Proof.
  unfold live, ids, used. rewrite existsb_exists. split.
  - intros (tv & H1 & H2). apply existsb_exists in H2 as (rc & H2 & H3). apply rid_eqb_eq in H3. subst r.
    apply in_map_iff. exists (fst rc, fst tv, snd rc). split; [reflexivity|]. apply in_flat_map. exists tv. split; auto. apply in_map_iff. exists rc. auto.
  - intros H. apply in_map_iff in H as (x & <- & H). apply in_flat_map in H as (tv & H1 & H2). apply in_map_iff in H2 as (rc & <- & H2).
    exists tv. split; auto. apply existsb_exists. exists rc. split; auto. apply rid_eqb_refl.
Qed.

(** ** New views *)
Lemma number_snd n : forall l i, map snd (number n i l) = l.
Proof. induction l as [|k l IH]; intros i; cbn; [reflexivity|]. rewrite IH. reflexivity. Qed.
Lemma number_ids n : forall l i, map fst (number n i l) = map (fun j => (n, j)) (seq i (length l)).
Proof. induction l as [|k l IH]; intros i; cbn; [reflexivity|]. rewrite IH. reflexivity. Qed.
Lemma number_nodup n l i : NoDup (map fst (number n i l)).
Proof. rewrite number_ids. apply FinFun.Injective_map_NoDup; [|apply seq_NoDup]. intros a b E. injection E. auto. Qed.
Lemma ids_view ts l : ids (map (fun rc : rid * corner => (fst rc, ts, snd rc)) l) = map fst l.
Proof. unfold ids. rewrite map_map. reflexivity. Qed.

Lemma nodup_app_swap {A} (a b : list A) : NoDup (a ++ b) -> NoDup (b ++ a).
Proof. intros H. eapply Permutation_NoDup; [apply Permutation_app_comm|exact H]. Qed.
Lemma nodup_app_l {A} (a b : list A) : NoDup (a ++ b) -> NoDup a.
Proof. induction a as [|x a IH]; cbn; intros H; [constructor|]. inversion H as [|? ? H1 H2]; subst. constructor; auto. intros K. apply H1, in_app_iff. auto. Qed.
Lemma nodup_app_i {A} (a b : list A) : NoDup a -> NoDup b -> (forall x, In x a -> ~ In x b) -> NoDup (a ++ b).
Proof.
  induction a as [|x a IH]; cbn; intros Ha Hb H; [auto|]. inversion Ha as [|? ? H1 H2]; subst. constructor; auto.
  rewrite in_app_iff. intros [K|K]; [auto|]. apply (H x); auto.
Qed.

Section Proofs.
Context (pnp : list R -> list corner -> option mat4) (proj : list R -> vec3 -> option vec2)
        (slv : Z -> list (Z * corner) -> est -> values) (info : problem -> est -> option CalibModel.xreal)
        (shuffle : list Z -> list Z) (cfg : settings).

(** what becomes of the residuals of a view that is replaced *)
Definition replaced (ts : Z) (vs : list (Z * mview)) : list (rid * Z * corner) :=
  match mget ts vs with Some v => map (fun rc => (fst rc, ts, snd rc)) (v_res v) | None => [] end.
Lemma used_split ts vs : asc vs -> Permutation (used vs) (replaced ts vs ++ used (mdel ts vs)).
Proof.
  intros H. unfold replaced. destruct (mget ts vs) as [v|] eqn:E.
  - rewrite (used_perm _ _ (mdel_perm ts vs v H E)) at 1. reflexivity.
  - rewrite mdel_notin; [reflexivity|]. apply mget_none, E.
Qed.
Lemma used_set ts v vs : asc vs -> Permutation (used (mset ts v vs)) (map (fun rc => (fst rc, ts, snd rc)) (v_res v) ++ used (mdel ts vs)).
Proof. intros H. rewrite (used_perm _ _ (mset_perm ts v vs H)). reflexivity. Qed.
Lemma add_view_inv dead g ts s : Inv dead s -> In (ts, g) (m_grids s) -> In ts (map fst (e_poses (m_est s))) ->
  exists s1, add_view g s = Ret s1 /\ Inv (replaced ts (m_views s) ++ dead) s1 /\
    m_views s1 = mset ts (MView (m_next s) (g_pts g) (number (m_next s) 0 (g_pts g))) (m_views s) /\
    m_est s1 = m_est s /\ m_grids s1 = m_grids s /\ m_order s1 = m_order s ++ [ts] /\ m_info s1 = m_info s.
Proof.
  intros I Hg Hp. destruct (i_grids _ _ I ts g Hg) as (Ets & Hd & Hn & Hnd). destruct (mget_some _ _ Hp) as (p & Ep).
  unfold add_view. rewrite Ets, Ep, Hd. eexists. split; [reflexivity|]. split; [|auto 8].
  set (rs := number (m_next s) 0 (g_pts g)). set (v := MView (m_next s) (g_pts g) rs). set (new := map (fun rc => (fst rc, ts, snd rc)) rs).
  assert (As := i_asc _ _ I).
  assert (P1 : Permutation (used (mset ts v (m_views s)) ++ replaced ts (m_views s) ++ dead) (new ++ used (m_views s) ++ dead)).
  { rewrite (used_set ts v _ As). fold new. cbn [v_res v]. fold new. rewrite (used_split ts _ As). rewrite <- !app_assoc. apply Permutation_app_head.
    rewrite !app_assoc. apply Permutation_app_tail, Permutation_app_comm. }
  assert (Hnew : forall r, In r (ids new) -> fst r = m_next s).
  { intros r Hr. unfold new in Hr. rewrite ids_view in Hr. unfold rs in Hr. rewrite number_ids in Hr. apply in_map_iff in Hr as (j & <- & _). reflexivity. }
  split; cbn [m_prob q_res m_views m_next m_est q_poses m_grids].
  - rewrite P1. fold rs. fold new. rewrite (i_res _ _ I). apply Permutation_app_comm.
  - eapply Permutation_NoDup; [apply Permutation_map, Permutation_sym, P1|]. fold (ids (new ++ used (m_views s) ++ dead)). rewrite ids_app.
    apply nodup_app_i; [unfold new; rewrite ids_view; apply number_nodup|apply (i_ids _ _ I)|].
    intros r Hr Hr'. apply (i_next _ _ I) in Hr'. rewrite (Hnew r Hr) in Hr'. lia.
  - intros r Hr. assert (Hr' : In r (ids (new ++ used (m_views s) ++ dead))) by (eapply Permutation_in; [apply Permutation_map, P1|exact Hr]).
    rewrite ids_app, in_app_iff in Hr'. destruct Hr' as [Hr'|Hr']; [rewrite (Hnew r Hr'); lia|]. apply (i_next _ _ I) in Hr'. lia.
  - apply asc_mset, As.
  - intros t w Hw. apply mset_in in Hw as [(-> & ->)|Hw]; [|eapply i_pts; eauto]. cbn [v_res v_pts v]. split; [apply number_snd|exact Hnd].
  - intros t Ht. apply in_map_iff in Ht as ((t' & w) & E & Ht). cbn in E. subst t'. apply mset_in in Ht as [(-> & _)|Ht]; [auto|].
    apply (i_pose _ _ I). apply in_map_iff. exists (t, w). auto.
  - apply (i_poses _ _ I).
  - apply (i_pasc _ _ I).
  - apply (i_gasc _ _ I).
  - apply (i_grids _ _ I).
Qed.

(** ** Solving *)
Lemma run_solver_inv iter s : Inv [] s -> exists e', run_solver slv cfg iter s = Ret (with_est e' s) /\ map fst (e_poses e') = map fst (e_poses (m_est s)) /\
  e' = solved cfg (slv iter (map (fun x => (snd (fst x), snd x)) (q_res (m_prob s))) (m_est s)) (q_res (m_prob s)) (m_est s) /\ Inv [] (with_est e' s).
Proof.
  intros I. unfold run_solver.
  assert (E : forallb (fun x => live s (fst (fst x))) (q_res (m_prob s)) = true).
  { apply forallb_forall. intros x Hx. apply live_in. apply (Permutation_in _ (i_res _ _ I)) in Hx. rewrite app_nil_r in Hx. apply in_map_iff. exists x. auto. }
  rewrite E. set (e' := solved _ _ _ _).
  assert (K : map fst (e_poses e') = map fst (e_poses (m_est s))).
  { unfold e', solved. destruct (q_res (m_prob s)); [reflexivity|]. cbn [e_poses]. rewrite map_map. reflexivity. }
  exists e'. split; [reflexivity|]. split; [exact K|]. split; [reflexivity|].
  destruct I. split; cbn [with_est m_prob m_views m_next m_est m_grids]; rewrite ?K; auto. eapply asc_ext; [|exact i_pasc0]. auto.
Qed.
Lemma run_solver_dead iter s dead : Inv dead s -> dead <> [] -> run_solver slv cfg iter s = Undef.
Proof.
  intros I Hd. unfold run_solver. destruct (forallb _ _) eqn:E; [|reflexivity]. exfalso. destruct dead as [|x dead]; [congruence|].
  rewrite forallb_forall in E. assert (Hx : In x (q_res (m_prob s))) by (apply (Permutation_in _ (Permutation_sym (i_res _ _ I))), in_elt).
  apply E, live_in in Hx. assert (N := i_ids _ _ I). rewrite ids_app in N. apply NoDup_remove in N. cbn [map ids] in N. destruct N as (_ & N). apply N, in_app_iff. auto.
Qed.

(** ** Filtering *)
Definition kept_res (out : corner -> bool) (l : list (rid * corner)) : list (rid * corner) := filter (fun rc => negb (out (snd rc))) l.
Lemma filter_view_ok out : forall l q, NoDup (tags (map snd l)) -> NoDup (map fst l) -> (forall rc, In rc l -> In (fst rc) (ids (q_res q))) ->
  forall pre, NoDup (tags (pre ++ map snd l)) ->
  filter_view out l (pre ++ map snd l) q = Ret (kept_res out l, pre ++ map snd (kept_res out l),
    Problem (q_poses q) (filter (fun x => negb (existsb (fun rc => rid_eqb (fst rc) (fst (fst x)) && out (snd rc)) l)) (q_res q)),
    Z.of_nat (length (filter (fun rc => out (snd rc)) l))).
Proof.
  induction l as [|(r & k) l IH]; intros q Nt Ni Hq pre Np.
  - cbn [filter_view kept_res map filter existsb length]. repeat f_equal. destruct q as [qp qr]. cbn. f_equal. symmetry. clear. induction qr; cbn; [auto|]. f_equal. auto.
  - cbn [filter_view]. cbn [map tags fst snd] in *. inversion Ni as [|? ? Ni1 Ni2]; subst. cbn [kept_res filter fst snd existsb].
    destruct (out k) eqn:Ek; cbn [negb].
    + assert (Ef : filter (fun k' => negb (same_corner (k_tag k) (k_idx k) k')) (pre ++ k :: map snd l) = pre ++ map snd l).
      { rewrite filter_app. cbn [filter]. unfold same_corner at 2. rewrite !Z.eqb_refl. cbn [andb negb].
        unfold tags in Np. rewrite map_app in Np. cbn [map] in Np. apply NoDup_remove in Np as (_ & Np). rewrite <- map_app in Np.
        assert (K : forall m, (forall k', In k' m -> In k' (pre ++ map snd l)) -> filter (fun k' => negb (same_corner (k_tag k) (k_idx k) k')) m = m).
        { induction m as [|k' m IHm]; cbn [filter]; intros Hm; [reflexivity|]. unfold same_corner at 1.
          destruct (Z.eqb_spec (k_tag k') (k_tag k)) as [E1|]; [|cbn [andb negb]; f_equal; apply IHm; intros; apply Hm; right; auto].
          destruct (Z.eqb_spec (k_idx k') (k_idx k)) as [E2|]; [|cbn [andb negb]; f_equal; apply IHm; intros; apply Hm; right; auto].
          exfalso. apply Np. apply in_map_iff. exists k'. rewrite E1, E2. split; auto. apply Hm. left. auto. }
        rewrite !K; auto; intros k' Hk'; apply in_app_iff; auto. }
      rewrite Ef.
      assert (Ex : existsb (same_corner (k_tag k) (k_idx k)) (pre ++ map snd l) = false).
      { rewrite <- Ef. clear. induction (pre ++ k :: map snd l) as [|a m IH]; cbn; [auto|]. destruct (same_corner _ _ a) eqn:E; cbn; [auto|]. rewrite E. auto. }
      rewrite Ex. assert (El : Nat.eqb (length (pre ++ k :: map snd l)) (length (pre ++ map snd l)) = false) by (apply Nat.eqb_neq; rewrite !app_length; cbn; lia).
      rewrite El. unfold q_remove_res.
      assert (Eq : existsb (fun x => rid_eqb r (fst (fst x))) (q_res q) = true).
      { assert (Hr : In r (ids (q_res q))) by (apply (Hq (r, k)); left; auto). apply in_map_iff in Hr as (x & <- & Hx). apply existsb_exists. exists x. split; auto. apply rid_eqb_refl. }
      rewrite Eq. cbn [obind]. rewrite IH; clear IH.
      * cbn [obind q_res q_poses]. f_equal. f_equal; [f_equal|cbn [length]; lia]. f_equal. clear. induction (q_res q) as [|x m IH]; cbn [filter]; [reflexivity|].
        rewrite andb_true_r. destruct (rid_eqb r (fst (fst x))) eqn:E; cbn [negb orb]; [exact IH|]. cbn [filter]. rewrite IH. destruct (negb _); reflexivity.
      * inversion Nt; auto.
      * auto.
      * cbn [q_res]. intros rc Hrc. assert (H := Hq rc (or_intror Hrc)). apply in_map_iff in H as (x & E & Hx). apply in_map_iff. exists x. split; auto.
        apply filter_In. split; auto. destruct (rid_eqb r (fst (fst x))) eqn:E'; [|reflexivity]. apply rid_eqb_eq in E'. exfalso. apply Ni1. rewrite E', E. apply in_map, Hrc.
      * unfold tags in Np. rewrite map_app in Np. cbn [map] in Np. apply NoDup_remove in Np as (Np & _). rewrite <- map_app in Np. exact Np.
    + change (k :: map snd l) with ([k] ++ map snd l) in *. rewrite app_assoc in Np |- *. rewrite IH; auto; clear IH.
      * cbn [obind]. rewrite <- app_assoc. cbn [app map snd]. f_equal. f_equal. f_equal. f_equal. clear. induction (q_res q) as [|x m IH]; cbn [filter]; [reflexivity|]. rewrite andb_false_r. cbn [orb]. rewrite IH. reflexivity.
      * inversion Nt; auto.
      * intros rc Hrc. apply Hq. right. auto.
Qed.
Definition keep (e : est) (th : option R * option R) (tv : Z * mview) : Z * mview :=
  let l := kept_res (is_outlier proj e th (fst tv)) (v_res (snd tv)) in (fst tv, MView (v_id (snd tv)) (map snd l) l).
Definition outliers (e : est) (th : option R * option R) (l : list (rid * Z * corner)) : list (rid * Z * corner) :=
  filter (fun x => is_outlier proj e th (snd (fst x)) (snd x)) l.
Definition inliers (e : est) (th : option R * option R) (l : list (rid * Z * corner)) : list (rid * Z * corner) :=
  filter (fun x => negb (is_outlier proj e th (snd (fst x)) (snd x))) l.
Lemma used_keep e th vs : used (map (keep e th) vs) = inliers e th (used vs).
Proof.
  induction vs as [|(ts & v) vs IH]; [reflexivity|]. cbn [map used flat_map]. unfold used in IH. rewrite IH. unfold inliers. rewrite filter_app. f_equal.
  unfold keep. cbn [fst snd v_res]. unfold kept_res. induction (v_res v) as [|rc l IHl]; [reflexivity|]. cbn [filter map fst snd].
  destruct (negb (is_outlier proj e th ts (snd rc))); cbn [map]; rewrite IHl; reflexivity.
Qed.
Lemma filter_views_ok e th : forall vs q, NoDup (ids (used vs)) -> (forall r, In r (ids (used vs)) -> In r (ids (q_res q))) ->
  (forall ts v, In (ts, v) vs -> map snd (v_res v) = v_pts v /\ NoDup (tags (v_pts v))) ->
  filter_views proj e th vs q = Ret (map (keep e th) vs,
     Problem (q_poses q) (filter (fun x => negb (existsb (fun y => rid_eqb (fst (fst y)) (fst (fst x))) (outliers e th (used vs)))) (q_res q)),
     Z.of_nat (length (outliers e th (used vs)))).
Proof.
  induction vs as [|(ts & v) vs IH]; intros q Ni Hq Hp.
  - cbn. repeat f_equal. destruct q as [qp qr]. cbn. f_equal. clear. induction qr as [|a qr IHq]; cbn; [auto|]. f_equal. auto.
  - cbn [filter_views]. destruct (Hp ts v (or_introl eq_refl)) as (Ep & Nt). cbn [used flat_map fst snd] in Ni, Hq. fold (used vs) in Ni, Hq.
    rewrite ids_app, ids_view in Ni. assert (Hq1 : forall rc, In rc (v_res v) -> In (fst rc) (ids (q_res q))).
    { intros rc Hrc. apply Hq. rewrite ids_app, ids_view. apply in_app_iff. left. apply in_map, Hrc. }
    rewrite <- Ep in Nt |- *.
    assert (Fv := filter_view_ok (is_outlier proj e th ts) (v_res v) q Nt (nodup_app_l _ _ Ni) Hq1 [] Nt). cbn [app] in Fv. rewrite Fv. clear Fv. cbn [obind].
    rewrite IH; clear IH.
    + cbn [obind q_poses q_res map]. unfold keep at 2. cbn [fst snd].
      assert (Eo : outliers e th (used ((ts, v) :: vs)) = map (fun rc => (fst rc, ts, snd rc)) (filter (fun rc => is_outlier proj e th ts (snd rc)) (v_res v)) ++ outliers e th (used vs)).
      { cbn [used flat_map fst snd]. fold (used vs). unfold outliers. rewrite filter_app. f_equal. clear. induction (v_res v) as [|rc l IHl]; [reflexivity|]. cbn [map filter fst snd].
        destruct (is_outlier proj e th ts (snd rc)); cbn [map]; rewrite IHl; reflexivity. }
      rewrite Eo. f_equal. f_equal; [f_equal; f_equal|rewrite app_length, map_length, Nat2Z.inj_add; reflexivity].
      clear. induction (q_res q) as [|x m IH]; [reflexivity|]. cbn [filter]. rewrite existsb_app.
      assert (Ee : existsb (fun y => rid_eqb (fst (fst y)) (fst (fst x))) (map (fun rc : rid * corner => (fst rc, ts, snd rc)) (filter (fun rc => is_outlier proj e th ts (snd rc)) (v_res v))) =
        existsb (fun rc => rid_eqb (fst rc) (fst (fst x)) && is_outlier proj e th ts (snd rc)) (v_res v)).
      { clear. induction (v_res v) as [|rc l IHl]; [reflexivity|]. cbn [filter existsb]. rewrite <- IHl. destruct (is_outlier proj e th ts (snd rc)); cbn [map existsb fst snd].
        - rewrite andb_true_r. reflexivity.
        - rewrite andb_false_r. reflexivity. }
      rewrite Ee. destruct (existsb (fun rc => _ && _) (v_res v)); cbn [negb orb]; [exact IH|]. cbn [filter]. rewrite IH. destruct (negb _); reflexivity.
    + eapply nodup_app_l, nodup_app_swap, Ni.
    + cbn [q_res]. intros r Hr. assert (H := Hq r). rewrite ids_app, in_app_iff in H. specialize (H (or_intror Hr)). apply in_map_iff in H as (x & E & Hx).
      apply in_map_iff. exists x. split; auto. apply filter_In. split; auto. apply negb_true_iff. apply not_true_iff_false. intros K. apply existsb_exists in K as (rc & K1 & K2).
      apply andb_true_iff in K2 as (K2 & _). apply rid_eqb_eq in K2. subst r.
      assert (D : forall (a b : list rid) y, NoDup (a ++ b) -> In y a -> ~ In y b).
      { clear. induction a as [|z a IHa]; intros b y N Ha Hb; [destruct Ha|]. cbn in N. inversion N as [|? ? N1 N2]; subst. destruct Ha as [ -> |Ha]; [apply N1, in_app_iff; auto|]. eapply IHa; eauto. }
      apply (D _ _ (fst rc) Ni); [apply in_map, K1|]. rewrite K2. exact Hr.
    + intros t w Hw. apply (Hp t w). right. auto.
Qed.
Lemma filter_all_inv dead s : Inv dead s ->
  exists s', filter_all proj cfg s = Ret (s', Z.of_nat (length (outliers (m_est s) (thresholds proj cfg s) (in_use s)))) /\ Inv dead s' /\
    m_views s' = map (keep (m_est s) (thresholds proj cfg s)) (m_views s) /\ m_est s' = m_est s /\ m_grids s' = m_grids s /\ m_order s' = m_order s /\
    m_info s' = m_info s /\ m_next s' = m_next s /\ q_poses (m_prob s') = q_poses (m_prob s) /\
    q_res (m_prob s') = filter (fun x => negb (existsb (fun y => rid_eqb (fst (fst y)) (fst (fst x))) (outliers (m_est s) (thresholds proj cfg s) (in_use s)))) (q_res (m_prob s)).
Proof.
  intros I. unfold filter_all. set (th := thresholds proj cfg s). set (e := m_est s). change (in_use s) with (used (m_views s)).
  assert (Ni := i_ids _ _ I). rewrite ids_app in Ni.
  rewrite filter_views_ok.
  2: exact (nodup_app_l _ _ Ni).
  2: { intros r Hr. eapply Permutation_in; [apply Permutation_map, Permutation_sym, (i_res _ _ I)|]. fold (ids (used (m_views s) ++ dead)). rewrite ids_app, in_app_iff. auto. }
  2: apply (i_pts _ _ I).
  cbn [obind]. eexists. split; [reflexivity|]. split; [|repeat split].
  set (bad := outliers e th (used (m_views s))).
  assert (Sub : forall r, In r (ids (used (map (keep e th) (m_views s)) ++ dead)) -> In r (ids (used (m_views s) ++ dead))).
  { intros r. rewrite used_keep, !ids_app, !in_app_iff. intros [H|H]; auto. left. apply in_map_iff in H as (x & <- & H). apply filter_In in H as (H & _). apply in_map_iff. eauto. }
  assert (Pr : Permutation (filter (fun x => negb (existsb (fun y => rid_eqb (fst (fst y)) (fst (fst x))) bad)) (q_res (m_prob s))) (inliers e th (used (m_views s)) ++ dead)).
  { assert (Pf : forall (f : rid * Z * corner -> bool) a b, Permutation a b -> Permutation (filter f a) (filter f b)).
    { clear. intros f a b H. induction H; cbn; auto; [destruct (f x); auto|destruct (f x), (f y); auto; apply perm_swap|etransitivity; eauto]. }
    rewrite (Pf _ _ _ (i_res _ _ I)), filter_app. apply Permutation_app.
    - assert (Nu : NoDup (ids (used (m_views s)))) by (eapply nodup_app_l, Ni).
      unfold inliers. erewrite filter_ext_in; [reflexivity|]. intros x Hx. cbn beta. f_equal.
      destruct (is_outlier proj e th (snd (fst x)) (snd x)) eqn:Eo.
      + apply existsb_exists. exists x. split; [apply filter_In; auto|apply rid_eqb_refl].
      + apply not_true_iff_false. intros K. apply existsb_exists in K as (y & K1 & K2). apply rid_eqb_eq in K2. apply filter_In in K1 as (K1 & K3).
        assert (x = y); [|congruence]. clear -Nu Hx K1 K2. induction (used (m_views s)) as [|z m IH]; [destruct Hx|]. cbn in Nu. inversion Nu as [|? ? N1 N2]; subst.
        destruct Hx as [ -> |Hx], K1 as [ -> |K1]; auto; exfalso; apply N1; [rewrite <- K2; apply in_map_iff; eauto|rewrite K2; apply in_map_iff; eauto].
    - assert (At : forall l : list (rid * Z * corner), filter (fun _ => true) l = l) by (clear; induction l as [|a l IH]; [reflexivity|]; cbn; f_equal; exact IH).
      rewrite (filter_ext_in _ (fun _ => true)); [rewrite At; reflexivity|].
      intros x Hx. cbn beta. apply negb_true_iff, not_true_iff_false. intros K. apply existsb_exists in K as (y & K1 & K2). apply rid_eqb_eq in K2. apply filter_In in K1 as (K1 & _).
      assert (D : forall (a b : list rid) y, NoDup (a ++ b) -> In y a -> ~ In y b).
      { clear. induction a as [|z a IHa]; intros b y N Ha Hb; [destruct Ha|]. cbn in N. inversion N as [|? ? N1 N2]; subst. destruct Ha as [ -> |Ha]; [apply N1, in_app_iff; auto|]. eapply IHa; eauto. }
      apply (D _ _ (fst (fst y)) Ni); [apply in_map_iff; eauto|]. rewrite K2. apply in_map_iff. eauto. }
  assert (Kk : map fst (map (keep e th) (m_views s)) = map fst (m_views s)) by (rewrite map_map; apply map_ext; intros []; reflexivity).
  split; cbn [with_views m_prob q_res q_poses m_views m_next m_est m_grids].
  - rewrite used_keep. exact Pr.
  - rewrite used_keep, ids_app. apply nodup_app_i.
    + unfold inliers. clear -Ni. apply nodup_app_l in Ni. unfold ids in *. induction (used (m_views s)) as [|x m IH]; cbn; [constructor|]. cbn in Ni. inversion Ni as [|? ? N1 N2]; subst.
      destruct (negb _); cbn; [|auto]. constructor; auto. intros K. apply N1. apply in_map_iff in K as (y & E & K). apply filter_In in K as (K & _). apply in_map_iff. eauto.
    + eapply nodup_app_l, nodup_app_swap, Ni.
    + intros r Hr Hd. assert (D : forall (a b : list rid) y, NoDup (a ++ b) -> In y a -> ~ In y b).
      { clear. induction a as [|z a IHa]; intros b y N Ha Hb; [destruct Ha|]. cbn in N. inversion N as [|? ? N1 N2]; subst. destruct Ha as [ -> |Ha]; [apply N1, in_app_iff; auto|]. eapply IHa; eauto. }
      apply (D _ _ r Ni); [|exact Hd]. apply in_map_iff in Hr as (x & <- & Hx). apply filter_In in Hx as (Hx & _). apply in_map_iff. eauto.
  - intros r Hr. apply (i_next _ _ I). apply Sub, Hr.
  - eapply asc_ext; [symmetry; exact Kk|apply (i_asc _ _ I)].
  - intros ts v Hv. apply in_map_iff in Hv as ((t & w) & E & Hw). unfold keep in E. cbn [fst snd] in E. injection E as _ <-. cbn [v_res v_pts]. split; [reflexivity|].
    destruct (i_pts _ _ I t w Hw) as (Ep & Nt). rewrite <- Ep in Nt. clear -Nt. unfold kept_res, tags in *. induction (v_res w) as [|rc l IH]; cbn; [constructor|]. cbn in Nt. inversion Nt as [|? ? N1 N2]; subst.
    destruct (negb _); cbn; [|auto]. constructor; auto. intros K. apply N1. apply in_map_iff in K as (y & E & K). apply in_map_iff in K as (z & E' & K). apply filter_In in K as (K & _).
    rewrite <- E. apply in_map_iff. exists y. split; auto. apply in_map_iff. eauto.
  - rewrite Kk. apply (i_pose _ _ I).
  - apply (i_poses _ _ I).
  - apply (i_pasc _ _ I).
  - apply (i_gasc _ _ I).
  - apply (i_grids _ _ I).
Qed.
End Proofs.
