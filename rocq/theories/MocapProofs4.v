(** * Histories of the motion-capture calibrator *)
From Verif Require Import Base GeomModel StatsModel MocapModel MocapSpec MocapProofs MocapProofs2 MocapProofs3.
From Verif Require CalibModel.
From Coq Require Import Reals Lra Sorted Permutation.
Local Open Scope Z_scope.

Section Proofs.
Context (pnp : list R -> list corner -> option mat4) (proj : list R -> vec3 -> option vec2)
        (slv : Z -> list (Z * corner) -> est -> values) (info : problem -> est -> option CalibModel.xreal)
        (cfg : settings).

Definition Ord (s : mocap) : Prop := Permutation (m_order s) (map fst (m_views s)).
Lemma inv_consistent s : Inv [] s -> Ord s -> consistent s.
Proof.
  intros I O. split; auto.
  - change (in_use s) with (used (m_views s)). rewrite <- (app_nil_r (used _)). apply (i_res _ _ I).
  - eapply Permutation_NoDup; [apply Permutation_map, Permutation_sym, (i_res _ _ I)|]. apply (i_ids _ _ I).
  - apply (i_asc _ _ I).
  - intros ts v Hv. apply (i_pts _ _ I ts v Hv).
  - apply (i_pose _ _ I).
  - apply (i_poses _ _ I).
Qed.
Lemma keep_keys e th vs : map fst (map (keep proj e th) vs) = map fst vs.
Proof. rewrite map_map. apply map_ext. intros []; reflexivity. Qed.
Lemma mset_len {A} k (a : A) m : ~ In k (map fst m) -> length (mset k a m) = S (length m).
Proof.
  induction m as [|(i & c) m IH]; cbn [mset map fst In]; intros H; [reflexivity|]. destruct (k <? i); [reflexivity|].
  destruct (Z.eqb_spec k i) as [ -> |N]; [tauto|]. cbn [length]. rewrite IH; tauto.
Qed.
Lemma replaced_new ts vs : ~ In ts (map fst vs) -> replaced ts vs = [].
Proof. intros H. unfold replaced. apply mget_none in H. rewrite H. reflexivity. Qed.

(** one candidate: added, outliers removed, solved *)
Lemma nbv_tried s ts g : Inv [] s -> Ord s -> In (ts, g) (m_grids s) -> In ts (map fst (e_poses (m_est s))) -> ~ In ts (map fst (m_views s)) ->
  exists s1 s2 e3, add_view g s = Ret s1 /\ Inv [] s1 /\
    m_views s1 = mset ts (MView (m_next s) (g_pts g) (number (m_next s) 0 (g_pts g))) (m_views s) /\ m_est s1 = m_est s /\
    filter_all proj cfg s1 = Ret (s2, Z.of_nat (length (outliers proj (m_est s1) (thresholds proj cfg s1) (in_use s1)))) /\
    m_views s2 = map (keep proj (m_est s) (thresholds proj cfg s1)) (m_views s1) /\
    m_est s2 = m_est s /\ m_info s2 = m_info s /\ m_grids s2 = m_grids s /\ m_order s2 = m_order s ++ [ts] /\ m_next s2 = S (m_next s) /\
    Permutation (map fst (m_views s2)) (ts :: map fst (m_views s)) /\ length (m_views s2) = S (length (m_views s)) /\
    e3 = solved cfg (slv 30 (map (fun x => (snd (fst x), snd x)) (q_res (m_prob s2))) (m_est s)) (q_res (m_prob s2)) (m_est s) /\
    run_solver slv cfg 30 s2 = Ret (with_est e3 s2) /\ map fst (e_poses e3) = map fst (e_poses (m_est s)) /\ Inv [] (with_est e3 s2) /\ Inv [] s2 /\
    nbv_step proj slv info cfg ts s =
      (if Nat.ltb (S (length (m_views s))) 5 then Ret (with_est e3 s2) else
       match info (m_prob s2) e3 with
       | None => Ret (restore (m_est s) (with_est e3 s2))
       | Some i => if CalibModel.gain_below (m_info s) i (c_gain cfg) then remove_view ts (restore (m_est s) (with_est e3 s2)) else Ret (with_info i (with_est e3 s2))
       end).
Proof.
  intros I O Hg Hp Hn. destruct (add_view_inv [] g ts s I Hg Hp) as (s1 & E1 & I1 & V1 & X1 & G1 & O1 & N1).
  rewrite (replaced_new ts _ Hn) in I1. cbn [app] in I1.
  assert (Nx : m_next s1 = S (m_next s)).
  { revert E1. unfold add_view. destruct (mget _ _); [|discriminate]. intros K. exact (eq_sym (f_equal (fun o => match o with Ret x => m_next x | _ => 0%nat end) K)). }
  destruct (filter_all_inv proj cfg [] s1 I1) as (s2 & E2 & I2 & V2 & X2 & G2 & O2 & N2 & Nx2 & _).
  destruct (run_solver_inv slv cfg 30 s2 I2) as (e3 & E3 & K3 & D3 & I3).
  exists s1, s2, e3. rewrite X1 in V2.
  assert (Pk : Permutation (map fst (m_views s2)) (ts :: map fst (m_views s))).
  { rewrite V2, keep_keys, V1. rewrite (Permutation_map fst (mset_new ts _ _ (i_asc _ _ I) Hn)). reflexivity. }
  assert (Lk : length (m_views s2) = S (length (m_views s))) by (rewrite V2, map_length, V1; apply mset_len, Hn).
  split; [exact E1|]. split; [exact I1|]. split; [exact V1|]. split; [exact X1|]. split; [exact E2|]. split; [rewrite <- X1; rewrite X1; exact V2|].
  split; [congruence|]. split; [congruence|]. split; [congruence|]. split; [congruence|]. split; [congruence|].
  split; [exact Pk|]. split; [exact Lk|]. rewrite X2, X1 in D3, K3. split; [exact D3|]. split; [exact E3|]. split; [exact K3|]. split; [exact I3|]. split; [exact I2|].
  unfold nbv_step. assert (Eg : mget ts (m_grids s) = Some g) by (apply mget_in; [apply (i_gasc _ _ I)|exact Hg]).
  rewrite Eg, E1. cbn [obind]. rewrite E2. cbn [obind fst]. rewrite E3. cbn [obind]. change (m_views (with_est e3 s2)) with (m_views s2). rewrite Lk.
  rewrite X2, X1. change (m_prob (with_est e3 s2)) with (m_prob s2). change (m_est (with_est e3 s2)) with e3. change (m_info (with_est e3 s2)) with (m_info s2). rewrite N2, N1. reflexivity.
Qed.
(** the state in which a rejected candidate leaves the calibrator *)
Lemma nbv_rejected s s2 e3 ts v th : Inv [] s -> Ord s -> ~ In ts (map fst (m_views s)) -> Inv [] (with_est e3 s2) ->
  m_views s2 = map (keep proj (m_est s) th) (mset ts v (m_views s)) -> m_order s2 = m_order s ++ [ts] -> map fst (e_poses e3) = map fst (e_poses (m_est s)) ->
  exists s', remove_view ts (restore (m_est s) (with_est e3 s2)) = Ret s' /\ Inv [] s' /\ Ord s' /\ m_views s' = map (keep proj (m_est s) th) (m_views s) /\
    m_grids s' = m_grids s2 /\ m_info s' = m_info s2 /\ m_next s' = m_next s2 /\
    m_est s' = Est (firstn 7 (e_cam (m_est s)) ++ skipn 7 (e_cam e3)) (e_fid (m_est s)) (e_ext (m_est s)) (mdel ts (e_poses (m_est s))) /\
    q_res (m_prob s') = filter (fun x => negb (snd (fst x) =? ts)) (q_res (m_prob s2)).
Proof.
  intros I O Hn I3 V2 O2 K3. set (s3 := restore (m_est s) (with_est e3 s2)).
  destruct (restore_inv (m_est s) (with_est e3 s2) I3) as (I4 & X4); [symmetry; exact K3|]. fold s3 in I4, X4.
  assert (V3 : m_views s3 = m_views s2) by reflexivity. assert (O3 : m_order s3 = m_order s2) by reflexivity.
  destruct (remove_view_inv s3 ts I4) as (s' & E & I5 & V5 & G5 & N5 & X5 & M5 & P5 & Q5 & _).
  - rewrite V3, V2, keep_keys. apply (Permutation_in _ (Permutation_sym (Permutation_map fst (mset_new ts v _ (i_asc _ _ I) Hn)))). left. reflexivity.
  - rewrite O3, O2. apply in_elt.
  - assert (V' : m_views s' = map (keep proj (m_est s) th) (m_views s)).
    { rewrite V5, V3, V2. rewrite <- (mdel_mset ts v (m_views s) (i_asc _ _ I) Hn) at 2. unfold mdel. clear. induction (mset ts v (m_views s)) as [|(t & w) m IH]; [reflexivity|].
      cbn [map filter]. unfold keep at 1. cbn [fst]. destruct (negb (t =? ts)); cbn [map]; rewrite IH; reflexivity. }
    exists s'. split; [exact E|]. split; [exact I5|]. split.
    { unfold Ord. rewrite V', keep_keys. apply (Permutation_cons_inv (a := ts)). rewrite <- P5, O3, O2. unfold Ord in O. rewrite O. symmetry. apply Permutation_cons_append. }
    split; [exact V'|]. split; [exact G5|]. split; [exact N5|]. split; [exact X5|]. split; [|exact Q5]. rewrite M5, X4. reflexivity.
Qed.
(** the invariants along the loop of solve_nbv *)
Record NInv (gs : list (Z * mgrid)) (done : list Z) (s : mocap) : Prop := MkN {
  n_inv : Inv [] s; n_ord : Ord s; n_gs : m_grids s = gs;
  n_done : forall ts, In ts (map fst (m_views s)) -> In ts done;
  n_pose : forall ts, In ts (map fst gs) -> ~ In ts done -> In ts (map fst (e_poses (m_est s)));
  n_rej : forall ts, In ts done -> In ts (map fst (m_views s)) \/ ~ In ts (map fst (e_poses (m_est s))) }.
(** adding a view of a new stamp, exactly *)
Lemma add_view_eq s ts g s1 : add_view g s = Ret s1 -> g_ts g = ts -> g_det g = true ->
  q_res (m_prob s1) = q_res (m_prob s) ++ map (fun rc => (fst rc, ts, snd rc)) (number (m_next s) 0 (g_pts g)).
Proof.
  intros E <- Hd. revert E. unfold add_view. rewrite Hd. destruct (mget _ _); [|discriminate]. intros K.
  exact (eq_sym (f_equal (fun o => match o with Ret x => q_res (m_prob x) | _ => [] end) K)).
Qed.
Lemma erase_first_snoc ts l : ~ In ts l -> erase_first ts (l ++ [ts]) = Ret l.
Proof.
  induction l as [|x l IH]; cbn [app erase_first In]; intros H; [rewrite Z.eqb_refl; reflexivity|].
  destruct (Z.eqb_spec x ts) as [ -> |N]; [tauto|]. rewrite IH by tauto. reflexivity.
Qed.
Lemma remove_view_order s ts l s' : remove_view ts s = Ret s' -> m_order s = l ++ [ts] -> ~ In ts l -> In ts (map fst (m_views s)) -> m_order s' = l.
Proof.
  intros E Eo Hn Hv. unfold remove_view in E. destruct (mget_some _ _ Hv) as (v & Ev).
  destruct (match mget ts (e_poses (m_est s)) with None => Ret s | Some _ => _ end) as [s1| |] eqn:E1; try discriminate E. cbn [obind] in E.
  assert (K : m_views s1 = m_views s /\ m_order s1 = m_order s).
  { revert E1. destruct (mget ts (e_poses (m_est s))); [|intros K; injection K as <-; auto]. destruct (existsb _ _); [|intros K; injection K as <-; auto].
    destruct (partition _ _) as [o r]. destruct (forallb _ o); [|discriminate]. intros K; injection K as <-; auto. }
  destruct K as (K1 & K2). rewrite K1, Ev, K2, Eo, (erase_first_snoc _ _ Hn) in E. cbn [obind] in E. injection E as <-. reflexivity.
Qed.
(** one turn of the loop: the four outcomes *)
Inductive turn (ts : Z) (s s1 s2 : mocap) (e3 : est) (s' : mocap) : Prop :=
| t_early : (length (m_views s) < 4)%nat -> s' = with_est e3 s2 -> turn ts s s1 s2 e3 s'
| t_failed : (4 <= length (m_views s))%nat -> info (m_prob s2) e3 = None -> s' = restore (m_est s) (with_est e3 s2) ->
    m_est s' = Est (firstn 7 (e_cam (m_est s)) ++ skipn 7 (e_cam e3)) (e_fid (m_est s)) (e_ext (m_est s)) (e_poses (m_est s)) -> turn ts s s1 s2 e3 s'
| t_accepted i : (4 <= length (m_views s))%nat -> info (m_prob s2) e3 = Some i -> CalibModel.gain_below (m_info s) i (c_gain cfg) = false ->
    s' = with_info i (with_est e3 s2) -> turn ts s s1 s2 e3 s'
| t_rejected i : (4 <= length (m_views s))%nat -> info (m_prob s2) e3 = Some i -> CalibModel.gain_below (m_info s) i (c_gain cfg) = true ->
    q_res (m_prob s') = filter (fun x => negb (existsb (fun y => rid_eqb (fst (fst y)) (fst (fst x))) (outliers proj (m_est s) (thresholds proj cfg s1) (in_use s1)))) (q_res (m_prob s)) ->
    m_views s' = map (keep proj (m_est s) (thresholds proj cfg s1)) (m_views s) -> m_order s' = m_order s -> m_info s' = m_info s ->
    m_est s' = Est (firstn 7 (e_cam (m_est s)) ++ skipn 7 (e_cam e3)) (e_fid (m_est s)) (e_ext (m_est s)) (mdel ts (e_poses (m_est s))) -> turn ts s s1 s2 e3 s'.
Lemma nbv_step_turn gs done ts g s : NInv gs done s -> In (ts, g) gs -> ~ In ts done ->
  exists s1 s2 e3 s', nbv_step proj slv info cfg ts s = Ret s' /\ NInv gs (ts :: done) s' /\ turn ts s s1 s2 e3 s' /\
    m_views s1 = mset ts (MView (m_next s) (g_pts g) (number (m_next s) 0 (g_pts g))) (m_views s) /\ m_est s1 = m_est s /\ m_est s2 = m_est s /\
    m_info s2 = m_info s /\ Inv [] s1 /\ Inv [] s2 /\ Ord s1 /\ Ord s2 /\ add_view g s = Ret s1 /\
    filter_all proj cfg s1 = Ret (s2, Z.of_nat (length (outliers proj (m_est s) (thresholds proj cfg s1) (in_use s1)))) /\
    m_views s2 = map (keep proj (m_est s) (thresholds proj cfg s1)) (m_views s1) /\ Permutation (map fst (m_views s2)) (ts :: map fst (m_views s)) /\
    e3 = solved cfg (slv 30 (map (fun x => (snd (fst x), snd x)) (q_res (m_prob s2))) (m_est s)) (q_res (m_prob s2)) (m_est s).
Proof.
  intros [I O G D P Rj] Hg Hd.
  assert (Hn : ~ In ts (map fst (m_views s))) by (intros K; apply Hd, D, K).
  assert (Hp : In ts (map fst (e_poses (m_est s)))) by (apply P; [apply in_map_iff; exists (ts, g); auto|exact Hd]).
  destruct (nbv_tried s ts g I O ltac:(rewrite G; exact Hg) Hp Hn) as (s1 & s2 & e3 & E1 & I1 & V1 & X1 & E2 & V2 & X2 & N2 & G2 & O2 & _ & Pk & Lk & De & E3 & K3 & I3 & I2 & E).
  exists s1, s2, e3.
  assert (O3 : forall s', m_order s' = m_order s2 -> m_views s' = m_views s2 -> Ord s').
  { intros s' H1 H2. unfold Ord. rewrite H1, H2, O2. rewrite Pk. unfold Ord in O. rewrite O. symmetry. apply Permutation_cons_append. }
  assert (Dk : forall x, In x (map fst (m_views s2)) -> In x (ts :: done)).
  { intros x Hx. apply (Permutation_in _ Pk) in Hx as [ -> |Hx]; [left; auto|right; auto]. }
  assert (Pk' : forall (m : list (Z * pose)) x, map fst m = map fst (e_poses (m_est s)) -> In x (map fst gs) -> ~ In x (ts :: done) -> In x (map fst m)).
  { intros m x E' Hx Hnx. rewrite E'. apply P; auto. intros K. apply Hnx. right. auto. }
  assert (Rj' : forall (m : list (Z * pose)) x, map fst m = map fst (e_poses (m_est s)) -> In x (ts :: done) -> In x (map fst (m_views s2)) \/ ~ In x (map fst m)).
  { intros m x E' [ <- |Hx]; [left; apply (Permutation_in _ (Permutation_sym Pk)); left; auto|]. rewrite E'. destruct (Rj x Hx); [left; apply (Permutation_in _ (Permutation_sym Pk)); right; auto|right; auto]. }
  assert (Tail : forall s', nbv_step proj slv info cfg ts s = Ret s' -> NInv gs (ts :: done) s' -> turn ts s s1 s2 e3 s' -> exists s', nbv_step proj slv info cfg ts s = Ret s' /\ NInv gs (ts :: done) s' /\ turn ts s s1 s2 e3 s' /\
    m_views s1 = mset ts (MView (m_next s) (g_pts g) (number (m_next s) 0 (g_pts g))) (m_views s) /\ m_est s1 = m_est s /\ m_est s2 = m_est s /\
    m_info s2 = m_info s /\ Inv [] s1 /\ Inv [] s2 /\ Ord s1 /\ Ord s2 /\ add_view g s = Ret s1 /\
    filter_all proj cfg s1 = Ret (s2, Z.of_nat (length (outliers proj (m_est s) (thresholds proj cfg s1) (in_use s1)))) /\
    m_views s2 = map (keep proj (m_est s) (thresholds proj cfg s1)) (m_views s1) /\ Permutation (map fst (m_views s2)) (ts :: map fst (m_views s)) /\
    e3 = solved cfg (slv 30 (map (fun x => (snd (fst x), snd x)) (q_res (m_prob s2))) (m_est s)) (q_res (m_prob s2)) (m_est s)).
  { intros s' H1 H2 H3. exists s'. split; [exact H1|]. split; [exact H2|]. split; [exact H3|]. split; [exact V1|]. split; [exact X1|]. split; [exact X2|]. split; [exact N2|]. split; [exact I1|]. split; [exact I2|].
    assert (E2' := E2). rewrite X1 in E2'. split; [|split; [apply O3; reflexivity|split; [exact E1|split; [exact E2'|auto]]]]. assert (V12 : map fst (m_views s2) = map fst (m_views s1)) by (rewrite V2; apply keep_keys).
    unfold Ord. rewrite <- V12. destruct (add_view_inv [] g ts s I ltac:(rewrite G; exact Hg) Hp) as (s1' & E1' & _ & _ & _ & _ & O1 & _). rewrite E1 in E1'. injection E1' as <-. rewrite O1, <- O2. apply (O3 s2); reflexivity. }
  destruct (Nat.ltb_spec (S (length (m_views s))) 5) as [L|L].
  - apply (Tail (with_est e3 s2)); [exact E| |apply t_early; [lia|reflexivity]].
    split; [exact I3|apply O3; reflexivity|cbn; congruence|exact Dk|intros x; apply Pk'; exact K3|intros x; apply Rj'; exact K3].
  - destruct (info (m_prob s2) e3) as [i|] eqn:Ei.
    + destruct (CalibModel.gain_below (m_info s) i (c_gain cfg)) eqn:Eg.
      * assert (V2' := V2). rewrite V1 in V2'. destruct (nbv_rejected s s2 e3 ts _ _ I O Hn I3 V2' O2 K3) as (s' & E' & I' & O' & V' & G' & N' & _ & M' & Q').
        apply (Tail s'); [rewrite E; exact E'| |].
        -- split; [exact I'|exact O'|congruence| | |].
           ++ intros x Hx. rewrite V', keep_keys in Hx. right. auto.
           ++ intros x Hx Hnx. rewrite M'. cbn [e_poses]. rewrite mdel_keys. apply filter_In. split; [apply P; auto; intros K; apply Hnx; right; auto|].
              destruct (Z.eqb_spec x ts); [exfalso; apply Hnx; left; auto|reflexivity].
           ++ intros x Hx. rewrite V', keep_keys, M'. cbn [e_poses]. rewrite mdel_keys. destruct (Z.eqb_spec x ts) as [ -> |Nx].
              ** right. intros K. apply filter_In in K as (_ & K). rewrite Z.eqb_refl in K. discriminate K.
              ** destruct Hx as [ <- |Hx]; [congruence|]. destruct (Rj x Hx) as [K|K]; [auto|]. right. intros K'. apply filter_In in K' as (K' & _). auto.
        -- assert (Hno : ~ In ts (m_order s)) by (intros K; apply Hn; eapply Permutation_in; [exact O|exact K]).
           apply t_rejected with (i := i); auto; [lia| | |congruence].
           ++ destruct (i_grids _ _ I ts g ltac:(rewrite G; exact Hg)) as (Ets & Hdt & Hne & _).
              rewrite Q'. destruct (filter_all_inv proj cfg [] s1 I1) as (s2' & E2' & _ & _ & _ & _ & _ & _ & _ & _ & Qr). rewrite E2 in E2'. injection E2' as <-. rewrite Qr, X1.
              assert (Ea : q_res (m_prob s1) = q_res (m_prob s) ++ map (fun rc => (fst rc, ts, snd rc)) (number (m_next s) 0 (g_pts g))) by (apply (add_view_eq s ts g s1 E1 Ets Hdt)).
              rewrite Ea. set (bad := outliers _ _ _ _). rewrite !filter_app.
              assert (F1 : forall l : list (rid * corner), filter (fun x => negb (snd (fst x) =? ts)) (filter (fun x => negb (existsb (fun y => rid_eqb (fst (fst y)) (fst (fst x))) bad)) (map (fun rc : rid * corner => (fst rc, ts, snd rc)) l)) = []).
              { clear. induction l as [|a l IH]; [reflexivity|]. cbn [map filter fst snd]. destruct (existsb _ bad); cbn [negb filter fst snd]; [exact IH|]. rewrite Z.eqb_refl. exact IH. }
              rewrite F1, app_nil_r.
              assert (F2 : forall x, In x (q_res (m_prob s)) -> snd (fst x) <> ts).
              { intros x Hx Ex. apply (Permutation_in _ (i_res _ _ I)) in Hx. rewrite app_nil_r in Hx. apply in_flat_map in Hx as (tv & H1 & H2). apply in_map_iff in H2 as (rc & <- & _). cbn in Ex. apply Hn. rewrite <- Ex. apply in_map, H1. }
              clear -F2. induction (q_res (m_prob s)) as [|x m IH]; [reflexivity|]. cbn [filter]. assert (Nx := F2 x (or_introl eq_refl)). destruct (existsb _ bad); cbn [negb filter]; [apply IH; intros; apply F2; right; auto|].
              destruct (Z.eqb_spec (snd (fst x)) ts); [congruence|]. cbn [negb]. f_equal. apply IH. intros; apply F2; right; auto.
           ++ apply (remove_view_order _ _ (m_order s) _ E'); [exact O2|exact Hno|]. apply (Permutation_in _ (Permutation_sym Pk)). left. reflexivity.
      * apply (Tail (with_info i (with_est e3 s2))); [exact E| |apply t_accepted with (i := i); auto; lia].
        split; [|apply O3; reflexivity|cbn; congruence|exact Dk|intros x; apply Pk'; exact K3|intros x; apply Rj'; exact K3]. destruct I3. split; auto.
    + destruct (restore_inv (m_est s) (with_est e3 s2) I3) as (I4 & X4); [symmetry; exact K3|].
      apply (Tail (restore (m_est s) (with_est e3 s2))); [exact E| |apply t_failed; auto; lia].
      split; [exact I4|apply O3; reflexivity|cbn; congruence|exact Dk| |].
      * intros x. apply Pk'. rewrite X4. reflexivity.
      * intros x. apply Rj'. rewrite X4. reflexivity.
Qed.
Lemma nbv_step_ninv gs done ts s : NInv gs done s -> In ts (map fst gs) -> ~ In ts done ->
  exists s', nbv_step proj slv info cfg ts s = Ret s' /\ NInv gs (ts :: done) s'.
Proof.
  intros N H Hd. apply in_map_iff in H as ((t & g) & Et & Hg). cbn in Et. subst t. destruct (nbv_step_turn gs done ts g s N Hg Hd) as (s1 & s2 & e3 & s' & E & N' & _). eauto.
Qed.
Lemma nbv_loop_ninv gs : forall l done s, NInv gs done s -> NoDup l -> (forall ts, In ts l -> In ts (map fst gs) /\ ~ In ts done) ->
  exists s', nbv_loop proj slv info cfg l s = Ret s' /\ NInv gs (rev l ++ done) s'.
Proof.
  induction l as [|ts l IH]; intros done s N Nd Hl; [exists s; split; [reflexivity|exact N]|]. cbn [nbv_loop].
  inversion Nd as [|? ? Nd1 Nd2]; subst. destruct (Hl ts (or_introl eq_refl)) as (H1 & H2).
  destruct (nbv_step_ninv gs done ts s N H1 H2) as (s' & E & N'). rewrite E. cbn [obind].
  destruct (IH (ts :: done) s' N' Nd2) as (s'' & E'' & N'').
  - intros x Hx. destruct (Hl x (or_intror Hx)) as (K1 & K2). split; auto. intros [ -> |K]; auto.
  - exists s''. split; [exact E''|]. cbn [rev]. rewrite <- app_assoc. exact N''.
Qed.
Lemma construct_ninv cam T_WF gs Ts s : recording gs Ts -> construct pnp cam T_WF gs Ts = Ret s -> NInv (m_grids s) [] s.
Proof.
  intros Rc E. destruct (construct_inv pnp cam T_WF gs Ts s Rc E) as (I & V & O & K & Gp & _). split; auto.
  - unfold Ord. rewrite O, V. constructor.
  - intros ts. rewrite V. intros [].
Qed.
Lemma nbv_timestamps_all s : Inv [] s -> nbv_timestamps s = map fst (m_grids s).
Proof.
  intros I. unfold nbv_timestamps. f_equal. assert (H := i_grids _ _ I). induction (m_grids s) as [|(t & g) m IH]; [reflexivity|]. cbn [filter snd].
  destruct (H t g (or_introl eq_refl)) as (_ & Hd & _). rewrite Hd. f_equal. apply IH. intros ts g' Hg. apply (H ts g'). right. exact Hg.
Qed.
(** adding all views, the first time *)
Lemma add_views_ninv gs : forall l done s, NInv gs done s -> asc l -> (forall t g, In (t, g) l -> In (t, g) gs /\ ~ In t done) ->
  exists s', add_views l s = Ret s' /\ NInv gs (rev (map fst l) ++ done) s' /\ m_est s' = m_est s /\ m_info s' = m_info s /\
    (forall ts v, In (ts, v) (m_views s') <-> In (ts, v) (m_views s) \/ (exists g, In (ts, g) l /\ v_pts v = g_pts g /\ In (ts, v) (m_views s'))) /\
    Permutation (map fst (m_views s')) (map fst l ++ map fst (m_views s)) /\ (forall t v, In (t, v) (m_views s') -> ~ In t done -> forall g, In (t, g) l -> v_pts v = g_pts g).
Proof.
  induction l as [|(t & g) l IH]; intros done s N Al Hl.
  - exists s. split; [reflexivity|]. split; [exact N|]. split; [auto|]. split; [auto|]. split; [intros ts v; split; [auto|intros [H|(g & [] & _)]; auto]|]. split; [reflexivity|intros ? ? ? ? ? []].
  - apply asc_cons in Al as (Al1 & Al2). cbn [add_views]. destruct (Hl t g (or_introl eq_refl)) as (Hg & Hd). destruct N as [I O G D P Rj].
    assert (Hn : ~ In t (map fst (m_views s))) by (intros K; apply Hd, D, K).
    destruct (add_view_inv [] g t s I) as (s1 & E1 & I1 & V1 & X1 & G1 & O1 & N1); [rewrite G; exact Hg|apply P; auto; apply in_map_iff; exists (t, g); auto|].
    rewrite (replaced_new t _ Hn) in I1. cbn [app] in I1. rewrite E1. cbn [obind].
    assert (Pn := mset_new t (MView (m_next s) (g_pts g) (number (m_next s) 0 (g_pts g))) _ (i_asc _ _ I) Hn).
    destruct (IH (t :: done) s1) as (s' & E' & N' & X' & I' & V' & P' & Q').
    + split; [exact I1| |congruence| | |].
      * unfold Ord. rewrite O1, V1. rewrite (Permutation_map fst Pn). unfold Ord in O. rewrite O. symmetry. apply Permutation_cons_append.
      * intros x Hx. rewrite V1 in Hx. apply (Permutation_in _ (Permutation_map fst Pn)) in Hx as [ <- |Hx]; [left; auto|right; auto].
      * intros x Hx Hnx. rewrite X1. apply P; auto. intros K. apply Hnx. right. auto.
      * intros x [ <- |Hx]; rewrite V1; [left; apply (Permutation_in _ (Permutation_sym (Permutation_map fst Pn))); left; reflexivity|].
        rewrite X1. destruct (Rj x Hx) as [K|K]; [left; apply (Permutation_in _ (Permutation_sym (Permutation_map fst Pn))); right; exact K|right; exact K].
    + exact Al1.
    + intros x g' Hx. destruct (Hl x g' (or_intror Hx)) as (K1 & K2). split; auto. intros [ -> |K]; auto. specialize (Al2 _ _ Hx). lia.
    + exists s'. split; [exact E'|]. split; [cbn [map fst rev]; rewrite <- app_assoc; exact N'|]. split; [congruence|]. split; [congruence|].
      assert (K1 : forall ts v, In (ts, v) (m_views s) -> In (ts, v) (m_views s')).
      { intros ts v Hv. apply V'. left. rewrite V1. apply (Permutation_in _ (Permutation_sym Pn)). right. exact Hv. }
      split; [|split].
      * intros ts v. split.
        -- intros Hv. apply V' in Hv as Hv'. destruct Hv' as [Hv'|(g' & Hg' & Hp' & _)].
           ++ rewrite V1 in Hv'. apply (Permutation_in _ Pn) in Hv' as [Hv'|Hv']; [|auto]. injection Hv' as <- <-. right. exists g. split; [left; auto|]. split; auto.
           ++ right. exists g'. split; [right; auto|auto].
        -- intros [Hv|(g' & _ & _ & Hv)]; auto.
      * rewrite P', V1, (Permutation_map fst Pn). cbn [map fst]. symmetry. apply Permutation_middle.
      * intros x v Hv Hx g' [Hg'|Hg'].
        -- injection Hg' as <- <-. apply V' in Hv as Hv'. destruct Hv' as [Hv'|(g' & Hg' & _)]; [|specialize (Al2 _ _ Hg'); lia].
           rewrite V1 in Hv'. apply (Permutation_in _ Pn) in Hv' as [Hv'|Hv']; [injection Hv' as <-; reflexivity|]. exfalso. apply Hn. apply in_map_iff. exists (t, v). auto.
        -- apply (Q' x v Hv); auto. intros [ -> |K]; [specialize (Al2 _ _ Hg'); lia|auto].
Qed.
End Proofs.
