From Coq Require Import Reals.
From Verif Require Import Base.
From stdpp Require Import gmap sets list sorting.
From Verif Require Import AprilGridModel AprilGridIOModel SolverModel CalibModel SolverLsqModel MargHessModel CamMargModel CamMargSpec CamMargProofs2 OutlierModel NbvLoopModel.
Local Open Scope Z_scope.

Tactic Notation "ob" hyp(H) simple_intropattern(p) ident(E) :=
  match type of H with obind ?o _ = Ret _ => destruct o as [p| |] eqn:E; cbn [obind] in H; [|discriminate H|discriminate H] end.

(** a grid that belongs to the time [ts], or holds nothing *)
Definition own (ts : Z) (g : grid) : Prop := g_ts g = ts \/ (g_detected g = false /\ Forall (fun r => flag r = false) (g_data g)).
Lemma own_default ts : own ts default_grid.
Proof. right. split; [reflexivity|constructor]. Qed.
Lemma own_remove ts g t c st g' : own ts g -> remove g t c = (st, g') -> own ts g'.
Proof.
  intros H. unfold remove. destruct (rd (g_data g) (t * 4 + c)) as [r| |] eqn:E; try (intros H1; injection H1 as _ <-; exact H).
  destruct (flag r) eqn:F; [|intros H1; injection H1 as _ <-; exact H]. intros H1. injection H1 as _ <-. left.
  destruct H as [H|[_ H]]; [exact H|]. exfalso. unfold rd in E. destruct (0 <=? _); [|discriminate E].
  destruct (nth_error _ _) as [r0|] eqn:N; [|discriminate E]. injection E as ->. apply nth_error_In in N. rewrite List.Forall_forall in H. rewrite (H r N) in F. discriminate F.
Qed.

Section V.
Context (blocks : Z -> list Z) (corners : list (Z * list (Z * pt3))).
Context {V : Type}.
Implicit Types k : calib V.

Lemma add_view_views e k gs b k' : add_view blocks corners e k gs = Ret (b, k') ->
  match first_detected gs with
  | None => b = false /\ k' = k
  | Some ts => b = true /\ k_vts k' = k_vts k ++ [ts] /\ exists v, v_grids v = grid_of gs /\ k_views k' = <[ts := v]> (k_views k)
  end.
Proof.
  unfold add_view. destruct (first_detected gs) as [ts|]; [|intros H; injection H as <- <-; auto]. intros H. ob H k2 E.
  assert (A : k_views k2 = k_views k /\ k_vts k2 = k_vts k).
  { destruct (k_poses _ !! ts) eqn:Ep in E; [injection E as <-; auto|]. unfold add_pose in E. rewrite Ep in E. ob E T ET. injection E as <-. auto. }
  destruct A as [A1 A2]. destruct (k_poses k2 !! ts) as [[p w]|]; [|discriminate H]. ob H x E0. injection H as <- <-. cbn.
  unfold view_ctor in E0. ob E0 y E1. injection E0 as <-. cbn. split; [reflexivity|]. rewrite A1, A2. split; [reflexivity|]. eexists. split; [|reflexivity]. reflexivity.
Qed.
Lemma remove_view_views k ts k' : remove_view blocks k ts = Ret k' -> k_views k' = delete ts (k_views k).
Proof.
  unfold remove_view. intros H. ob H k1 E.
  assert (A : k_views k1 = k_views k).
  { destruct (k_poses k !! ts) as [[p w]|]; [ob E s0 Es|]; injection E as <-; reflexivity. }
  destruct (k_views k1 !! ts) eqn:Ev.
  - ob H l0 El. injection H as <-. cbn. rewrite A. reflexivity.
  - injection H as <-. rewrite A in *. symmetry. apply delete_notin, Ev.
Qed.
Lemma nbv_views e thr n info k gs b k' : add_nbv_view blocks corners e thr n info k gs = Ret (b, k') ->
  match first_detected gs with
  | None => b = false /\ k' = k
  | Some ts => if b then exists v, v_grids v = grid_of gs /\ k_views k' = <[ts := v]> (k_views k) else k_views k' = delete ts (k_views k)
  end.
Proof.
  unfold add_nbv_view. intros H. ob H [b1 k1] E. apply add_view_views in E. destruct (first_detected gs) as [ts|].
  2: { destruct E as [-> ->]. cbn in H. injection H as <- <-. auto. }
  destruct E as (-> & Ev & v & Hg & Hv). cbn [fst snd] in H. ob H h Eh. cbn [solved k_vts] in H. rewrite Ev in H.
  rewrite last_snoc in H.
  assert (D : forall h k3, remove_view blocks (restore_estimates h (solved n k1)) ts = Ret k3 -> k_views k3 = delete ts (k_views k)).
  { intros h' k3 H3. apply remove_view_views in H3. cbn in H3. rewrite H3, Hv. apply delete_insert_delete. }
  destruct info as [i|].
  2: { ob H k3 E3. injection H as <- <-. eauto. }
  destruct (gain_below _ i thr).
  { ob H k3 E3. injection H as <- <-. eauto. }
  injection H as <- <-. cbn. eauto.
Qed.

(** ** views whose grids are of their time *)
Definition stamped k : Prop := forall ts v c, k_views k !! ts = Some v -> own ts (v_grids v c).
Lemma own_grid_of ts gs c : Forall (fun cg : Z * grid => own ts (snd cg)) gs -> own ts (grid_of gs c).
Proof.
  intros H. unfold grid_of. destruct (assoc c gs) as [g|] eqn:E; cbn; [|apply own_default].
  revert E. induction H as [|[c0 g0] l H0 HF IH]; cbn; [discriminate|]. destruct (c =? c0); [intros E; injection E as ->; exact H0|exact IH].
Qed.
Lemma own_first ts gs t : Forall (fun cg : Z * grid => own ts (snd cg)) gs -> first_detected gs = Some t -> t = ts.
Proof.
  induction 1 as [|[c g] l H0 HF IH]; cbn; [discriminate|]. destruct (g_detected g) eqn:D; [|exact IH]. intros E. injection E as <-. destruct H0 as [H0|[H0 _]]; [exact H0|cbn in H0; congruence].
Qed.
Lemma own_filter_loop ts err thx thy l : forall g s l' g' s' n, own ts g -> filter_loop blocks err thx thy l g s = Ret (l', g', s', n) -> own ts g'.
Proof.
  induction l as [|r l IH]; intros g s l' g' s' n Hg H; cbn [filter_loop] in H.
  - injection H as _ <- _ _. exact Hg.
  - destruct (outlier err thx thy r).
    + destruct (remove g (vr_tag r) (vr_corner r)) as [[| |] g1] eqn:Er; try discriminate H. pose proof (own_remove _ _ _ _ _ _ Hg Er) as Hg1.
      ob H hb E. destruct hb; [discriminate H|]. destruct (_ =? _); [discriminate H|]. ob H s1 E0. ob H [[[? ?] ?] ?] E1. injection H as <- <- <- <-. eapply IH; [|exact E1]; auto.
    + ob H [[[? ?] ?] ?] E. injection H as <- <- <- <-. eapply IH; [|exact E]; auto.
Qed.
Lemma own_filter_cams ts err thx thy cs : forall v s v' s' n, (forall c, own ts (v_grids v c)) -> filter_cams blocks err thx thy cs v s = Ret (v', s', n) -> forall c, own ts (v_grids v' c).
Proof.
  induction cs as [|c0 cs IH]; intros v s v' s' n Hv H; cbn [filter_cams] in H.
  - injection H as <- _ _. exact Hv.
  - ob H [[[l' g'] s1] n1] E. ob H [[v2 s2] n2] E0. injection H as <- <- <-. eapply IH; [|exact E0]. cbn. intros c. unfold fset.
    destruct (c =? c0); [eapply own_filter_loop; [|exact E]; auto|auto].
Qed.
Lemma own_filter_map ts err cams ths : forall v s v' s' n, (forall c, own ts (v_grids v c)) -> filter_view_map blocks cams err ths v s = Ret (v', s', n) -> forall c, own ts (v_grids v' c).
Proof.
  induction ths as [|[j th] ths IH]; intros v s v' s' n Hv H; cbn [filter_view_map] in H.
  - injection H as <- _ _. exact Hv.
  - ob H [[v1 s1] n1] E. ob H [[v2 s2] n2] E0. injection H as <- <- <-. eapply IH; [|exact E0]. eapply own_filter_cams. 2: exact E. exact Hv.
Qed.
Lemma stamped_insert k k' ts v : stamped k -> k_views k' = <[ts := v]> (k_views k) -> (forall c, own ts (v_grids v c)) -> stamped k'.
Proof. intros H E Hv t w c. rewrite E. intros Hw. apply lookup_insert_Some in Hw as [[<- <-]|[_ Hw]]; [apply Hv|eapply H; eauto]. Qed.
Lemma stamped_sub k k' : stamped k -> (forall t v, k_views k' !! t = Some v -> k_views k !! t = Some v) -> stamped k'.
Proof. intros H E t v c Hv. eapply H. eauto. Qed.
Lemma stamped_same k k' : stamped k -> k_views k' = k_views k -> stamped k'.
Proof. intros H E. eapply stamped_sub; [exact H|]. rewrite E. auto. Qed.

Section Out.
Context (err : calib V -> Z -> option (R * R)) (solve : calib V -> values V) (info : calib V -> option xreal).
Context (out_thr gain_thr : R) (gkeys : Z -> list Z) (envs : Z -> env V).
Definition no_new k k' : Prop := forall t, is_Some (k_views k' !! t) -> is_Some (k_views k !! t).
Lemma grids_own ts v ks : (forall c, own ts (v_grids v c)) -> Forall (fun cg : Z * grid => own ts (snd cg)) (grids_of ks v).
Proof. intros H. unfold grids_of. apply List.Forall_forall. intros [c g] Hc. apply in_map_iff in Hc as (c0 & E & _). injection E as <- <-. apply H. Qed.
Lemma readd ts v k4 b k5 : stamped k4 -> (forall c, own ts (v_grids v c)) -> add_view blocks corners (envs ts) k4 (grids_of (gkeys ts) v) = Ret (b, k5) ->
  stamped k5 /\ forall t, is_Some (k_views k5 !! t) -> t = ts \/ is_Some (k_views k4 !! t).
Proof.
  intros H4 Hv H. apply add_view_views in H. pose proof (grids_own ts v (gkeys ts) Hv) as G. destruct (first_detected _) as [t0|] eqn:F in H.
  - apply (own_first ts) in F; [|exact G]. subst t0. destruct H as (_ & _ & v5 & E1 & E2). split; [eapply stamped_insert; [exact H4|exact E2|]|].
    + intros c. rewrite E1. apply own_grid_of, G.
    + intros t. rewrite E2. destruct (decide (t = ts)) as [->|Ht]; [auto|]. rewrite lookup_insert_ne by auto. auto.
  - destruct H as [_ ->]. auto.
Qed.
Lemma outlier_view_views ts k k' n : stamped k -> outlier_view blocks corners err solve info out_thr gain_thr gkeys envs ts k = Ret (k', n) -> stamped k' /\ no_new k k'.
Proof.
  intros Hs H. unfold outlier_view in H. destruct (k_views k !! ts) as [v|] eqn:Ev; [|discriminate H]. ob H h E. ob H [[v' s'] m] E0.
  set (k1 := put_view k ts v' s') in *. cbn [fst snd] in H.
  assert (Ov : forall c, own ts (v_grids v c)) by (intros c; eapply Hs; eauto).
  assert (Ov' : forall c, own ts (v_grids v' c)) by (eapply own_filter_map; eauto).
  assert (S1 : stamped k1) by (eapply stamped_insert; [exact Hs|reflexivity|exact Ov']).
  assert (N1 : no_new k k1). { intros t. unfold k1. cbn. destruct (decide (t = ts)) as [->|Ht]; [rewrite Ev; eauto|]. rewrite lookup_insert_ne by auto. auto. }
  set (k2 := solved (solve k1) k1) in *. destruct (info k2) as [before|].
  2: { injection H as <- <-. split; [eapply stamped_same; [exact S1|reflexivity]|exact N1]. }
  ob H k3 E1. apply remove_view_views in E1. change (k_views k2) with (k_views k1) in E1.
  set (k4 := solved (solve k3) k3) in *. change (k_views k3) with (k_views k4) in E1.
  assert (S4 : stamped k4). { eapply stamped_sub; [exact S1|]. intros t w. rewrite E1. intros Hw. apply lookup_delete_Some in Hw. tauto. }
  assert (N4 : no_new k k4). { intros t Ht. apply N1. rewrite E1 in Ht. destruct Ht as [w Ht]. apply lookup_delete_Some in Ht. destruct Ht as [_ Ht]. eauto. }
  assert (A : forall w b k5, (forall c, own ts (v_grids w c)) -> add_view blocks corners (envs ts) k4 (grids_of (gkeys ts) w) = Ret (b, k5) -> stamped k5 /\ no_new k k5).
  { intros w b k5 Hw H5. destruct (readd ts w k4 b k5 S4 Hw H5) as [S5 N5]. split; [exact S5|]. intros t Ht. destruct (N5 t Ht) as [->|X]; [rewrite Ev; eauto|auto]. }
  destruct (info k4) as [after|].
  2: { ob H [b k5] E2. injection H as <- <-. exact (A v b k5 Ov E2). }
  destruct (gain_above _ _ _).
  - ob H [b k5] E2. injection H as <- <-. exact (A v' b k5 Ov' E2).
  - injection H as <- <-. auto.
Qed.
Lemma outlier_loop_views l : forall k k' n, stamped k -> outlier_loop blocks corners err solve info out_thr gain_thr gkeys envs l k = Ret (k', n) -> stamped k' /\ no_new k k'.
Proof.
  induction l as [|ts l IH]; intros k k' n Hs H; cbn [outlier_loop] in H.
  - injection H as <- _. split; [exact Hs|intros t; auto].
  - ob H [k1 n1] E. ob H [k2 n2] E0. injection H as <- _. destruct (outlier_view_views _ _ _ _ Hs E) as [S1 N1].
    destruct (IH _ _ _ S1 E0) as [S2 N2]. split; [exact S2|]. intros t Ht. apply N1, N2, Ht.
Qed.
Lemma put_info_views k i : k_views (put_info k i) = k_views k.
Proof. destruct i; reflexivity. Qed.
Lemma remove_outliers_views all f k n f' k' : stamped k -> remove_outliers blocks corners err solve info out_thr gain_thr gkeys envs all f k = Ret (n, f', k') -> stamped k' /\ no_new k k'.
Proof.
  intros Hs. unfold remove_outliers.
  assert (G : forall l ff, obind (outlier_loop blocks corners err solve info out_thr gain_thr gkeys envs l k) (fun x => Ret (snd x, ff, match l with [] => fst x | _ => put_info (fst x) (info (fst x)) end)) = Ret (n, f', k') -> stamped k' /\ no_new k k').
  { intros l ff H. ob H [k1 n1] E. cbn [fst snd] in H. injection H as _ _ H3. destruct (outlier_loop_views _ _ _ _ Hs E) as [S1 N1].
    assert (X : k_views k' = k_views k1) by (rewrite <- H3; destruct l; [reflexivity|apply put_info_views]).
    split; [eapply stamped_same; eauto|]. intros t. rewrite X. apply N1. }
  destruct all; [apply G|]. destruct (stamps_desc k) as [|t l]; [discriminate|]. destruct (decide _); apply G.
Qed.
End Out.
End V.

Section M.
Context (blocks : Z -> list Z) (info : Z -> pinfo) {V : Type}.
Lemma marginalize_views new (x x' : mcalib V) : marginalize blocks info new x = Ret x' ->
  exists ts, is_oldest (m_k x) ts /\ k_views (m_k x') = delete ts (k_views (m_k x)).
Proof.
  unfold marginalize. pose proof (oldest_spec (m_k x)) as O1. destruct (oldest (m_k x)) as [ts|]; [|discriminate]. intros H. exists ts. split; [exact O1|].
  destruct (k_views (m_k x) !! ts); [|discriminate H]. destruct (k_poses (m_k x) !! ts); [|discriminate H].
  ob H s0 E. ob H s1 E0. ob H k1 E1. injection H as <-. apply remove_view_views in E1. exact E1.
Qed.
End M.
