(** * C107: the loop of the next-best-view calibration *)
From Coq Require Import Reals.
From Verif Require Import Base.
From stdpp Require Import gmap sets list sorting.
From Verif Require Import AprilGridModel AprilGridSpec AprilGridIOModel SolverModel CalibModel CalibSpec SolverLsqModel MargHessModel CamMargModel CamMargSpec CamMargProofs2 CamMargProofs3 OutlierModel NbvLoopModel NbvLoopProofs.
Local Open Scope Z_scope.

(** ** Specification *)
(** more than [n] candidates were rejected in a row, the last of [log] being the last of them *)
Definition stale_end (n : Z) (log : list (Z * bool)) : Prop :=
  exists l1 l2, log = l1 ++ l2 /\ n < Z.of_nat (length l2) /\ Forall (fun e => snd e = false) l2.
(** the timestamps of the views *)
Definition times {V} (k : calib V) : gset Z := dom (k_views k).
Definition accepted (log : list (Z * bool)) : gset Z := list_to_set (map fst (List.filter snd log)).
(** the candidate's grids are of its time, or hold nothing; so are those of the views there are *)
Definition dated (data : Z -> list (Z * grid)) : Prop := forall ts, Forall (fun cg => own ts (snd cg)) (data ts).
Definition dated_views {V} (k : calib V) : Prop := forall ts v c, k_views k !! ts = Some v -> own ts (v_grids v c).

(** ** the counter *)
Definition tr (log : list (Z * bool)) : Z := fold_left (fun n e => if snd e : bool then 0 else n + 1) log 0.
Lemma tr_snoc log e : tr (log ++ [e]) = if snd e then 0 else tr log + 1.
Proof. unfold tr. rewrite fold_left_app. reflexivity. Qed.
Lemma tr_ge0 log : 0 <= tr log.
Proof. induction log as [|e log IH] using rev_ind; [unfold tr; cbn; lia|]. rewrite tr_snoc. destruct (snd e); lia. Qed.
Lemma tr_stale n log : n < tr log <-> stale_end n log.
Proof.
  revert n. induction log as [|e log IH] using rev_ind; intros n.
  - unfold tr. cbn. split.
    + intros H. exists [], []. cbn. auto.
    + intros (l1 & l2 & E & H & _). symmetry in E. apply app_eq_nil in E as [-> ->]. exact H.
  - rewrite tr_snoc. destruct (snd e) eqn:S1.
    + split.
      * intros H. exists (log ++ [e]), []. rewrite app_nil_r. cbn. auto.
      * intros (l1 & l2 & E & H & F). destruct l2 as [|y l2 _] using rev_ind; [exact H|]. rewrite app_assoc in E. apply app_inj_tail in E as [_ <-].
        apply Forall_app in F as [_ F]. apply Forall_inv in F. congruence.
    + replace (n < tr log + 1) with (n < 1 + tr log) by (f_equal; lia). split.
      * intros H. assert (H' : n - 1 < tr log) by lia. apply IH in H'. destruct H' as (l1 & l2 & -> & H2 & F). exists l1, (l2 ++ [e]). rewrite app_assoc. split; [reflexivity|].
        rewrite app_length. cbn. split; [lia|]. apply Forall_app. split; [exact F|]. constructor; [exact S1|constructor].
      * intros (l1 & l2 & E & H & F). destruct l2 as [|y l2 _] using rev_ind.
        { cbn in H. pose proof (tr_ge0 log). lia. }
        rewrite app_assoc in E. apply app_inj_tail in E as [E _]. apply Forall_app in F as [F _]. rewrite app_length in H. cbn in H.
        assert (H' : n - 1 < tr log) by (apply IH; exists l1, l2; split; [exact E|split; [lia|exact F]]). lia.
Qed.
Lemma accepted_snoc log ts b : accepted (log ++ [(ts, b)]) = accepted log ∪ if b : bool then {[ts]} else ∅.
Proof. unfold accepted. rewrite List.filter_app, map_app, list_to_set_app_L. destruct b; cbn; set_solver. Qed.

Section P.
Context (blocks : Z -> list Z) (corners : list (Z * list (Z * pt3))) (info : Z -> pinfo).
Context {V : Type} (st : settings) (gain_thr out_thr : R) (data : Z -> list (Z * grid)) (te : lstate V -> Z -> turn_env V).
Notation turnD := (turn blocks corners info st gain_thr out_thr data te).
Notation loopD := (nbv_loop blocks corners info st gain_thr out_thr data te).
Notation runD := (nbv_run blocks corners info st gain_thr out_thr data te).

Lemma turn_stale s ts b s' : turnD s ts = Ret (b, s') -> l_stale s' = if b then 0 else l_stale s + 1.
Proof.
  unfold turn. intros H. ob H [acc k1] E. destruct acc.
  - ob H [[k2 al] f] E2. ob H x3 E3. injection H as <- <-. reflexivity.
  - injection H as <- <-. reflexivity.
Qed.
(** the log of a loop, and every fact that holds initially and is preserved by turns *)
Lemma loop_log (Q : list (Z * bool) -> lstate V -> Prop) l :
  (forall h s ts b s', ts ∈ l -> Q h s -> turnD s ts = Ret (b, s') -> Q (h ++ [(ts, b)]) s') ->
  forall h s log s', Q h s -> l_stale s = tr h -> loopD l s = Ret (log, s') ->
  Q (h ++ log) s' /\ (exists rest, l = map fst log ++ rest /\ (rest <> [] -> st_stop st = true /\ stale_end (st_stale st) (h ++ log))) /\
  (l <> [] -> log <> []) /\
  forall p q, log = p ++ q -> p <> [] -> q <> [] -> ~ (st_stop st = true /\ stale_end (st_stale st) (h ++ p)).
Proof.
  induction l as [|ts l IH]; intros HQ h s log s' H0 Ht H; cbn [nbv_loop] in H.
  - injection H as <- <-. rewrite app_nil_r. split; [exact H0|]. split; [exists []; split; [reflexivity|congruence]|]. split; [congruence|]. intros p q E Hp Hq. symmetry in E. apply app_eq_nil in E as [-> _]. congruence.
  - ob H [acc s1] E. pose proof (turn_stale _ _ _ _ E) as E1. assert (T1 : l_stale s1 = tr (h ++ [(ts, acc)])) by (rewrite tr_snoc, E1, Ht; reflexivity).
    assert (Q1 : Q (h ++ [(ts, acc)]) s1) by (eapply HQ; [apply elem_of_list_here|exact H0|exact E]).
    destruct (st_stop st && (st_stale st <? l_stale s1)) eqn:B.
    + injection H as <- <-. apply andb_true_iff in B as [B1 B2]. apply Z.ltb_lt in B2. rewrite T1 in B2. apply tr_stale in B2.
      split; [exact Q1|]. split; [exists l; split; [reflexivity|auto]|]. split; [congruence|]. intros p q E2 Hp Hq. destruct p as [|a p]; [congruence|]. injection E2 as _ E2. symmetry in E2. apply app_eq_nil in E2 as [_ ->]. congruence.
    + ob H [log1 s2] E2. cbn [fst snd] in H. injection H as <- <-.
      destruct (IH (fun h0 s0 t b s'0 X2 => HQ h0 s0 t b s'0 (elem_of_list_further _ _ _ X2)) _ _ _ _ Q1 T1 E2) as (Q2 & (rest & R1 & R2) & R3 & R4).
      rewrite <- app_assoc in Q2, R2. cbn [app] in Q2, R2. split; [exact Q2|]. split; [exists rest; cbn; split; [congruence|exact R2]|]. split; [congruence|].
      intros p q E3 Hp Hq. destruct p as [|a p]; [congruence|]. injection E3 as <- E3. destruct p as [|a p].
      * intros [X1 X2]. apply tr_stale in X2. rewrite <- T1 in X2. apply andb_false_iff in B as [B|B]; [congruence|]. apply Z.ltb_ge in B. lia.
      * specialize (R4 (a :: p) q E3 ltac:(discriminate) Hq). rewrite <- app_assoc in R4. exact R4.
Qed.
(** C107: the candidates are tried in order; with early stopping the loop ends with the first candidate that ends a run of more
    than early_stop_threshold rejections, and not before; without, every candidate is tried. *)
Theorem C107_early l x all f log s' : runD l x all f = Ret (log, s') ->
  (exists rest, l = map fst log ++ rest /\ (rest <> [] -> st_stop st = true /\ stale_end (st_stale st) log)) /\
  (l <> [] -> log <> []) /\
  forall p q, log = p ++ q -> p <> [] -> q <> [] -> ~ (st_stop st = true /\ stale_end (st_stale st) p).
Proof. intros H. exact (proj2 (loop_log (fun _ _ => True) l (fun _ _ _ _ _ _ _ _ => I) [] (mkL x all f 0) log s' I eq_refl H)). Qed.

(** ** views *)
Notation kx s := (m_k (l_x s)).
Lemma turn_views s ts b s' : dated data -> dated_views (kx s) -> turnD s ts = Ret (b, s') ->
  dated_views (kx s') /\
  if b then
    exists k2 : calib V, (forall t, is_Some (k_views k2 !! t) -> t = ts \/ is_Some (k_views (kx s) !! t)) /\ (st_filter st = false -> times k2 = {[ts]} ∪ times (kx s)) /\
      (if st_marg st && (st_window st <? nb_views k2) then exists t, is_oldest k2 t /\ k_views (kx s') = delete t (k_views k2) else k_views (kx s') = k_views k2)
  else (first_detected (data ts) = None /\ k_views (kx s') = k_views (kx s)) \/ k_views (kx s') = delete ts (k_views (kx s)).
Proof.
  intros Hd Hs H. unfold turn in H. ob H [acc k1] E. apply nbv_views in E. destruct acc.
  - destruct (first_detected (data ts)) as [t0|] eqn:F; [|destruct E; discriminate]. apply (own_first ts) in F; [|apply Hd]. subst t0. destruct E as (v & Hg & Hv).
    assert (S1 : stamped k1) by (eapply stamped_insert; [exact Hs|exact Hv|intros c; rewrite Hg; apply own_grid_of, Hd]).
    ob H [[k2 al] f] E2. ob H x3 E3. injection H as <- <-. cbn [l_x].
    assert (A : stamped k2 /\ no_new k1 k2 /\ (st_filter st = false -> k2 = k1)).
    { destruct (st_filter st && (st_min st <=? nb_views k1)) eqn:B.
      - ob E2 [[n0 f0] k0] E4. injection E2 as <- _ _. apply remove_outliers_views in E4; [|exact S1]. split; [apply E4|]. split; [apply E4|]. apply andb_true_iff in B as [B _]. congruence.
      - injection E2 as <- _ _. split; [exact S1|]. split; [intros t; auto|auto]. }
    destruct A as (S2 & N2 & A2). split.
    + destruct (st_marg st && _).
      * apply marginalize_views in E3. destruct E3 as (t & _ & E3). eapply stamped_sub; [exact S2|]. intros t' w. rewrite E3. intros Hw. apply lookup_delete_Some in Hw. apply Hw.
      * injection E3 as <-. exact S2.
    + exists k2. split; [|split].
      * intros t Ht. apply N2 in Ht. rewrite Hv in Ht. destruct (decide (t = ts)) as [->|Hne]; [auto|]. rewrite lookup_insert_ne in Ht by auto. auto.
      * intros Hf. rewrite (A2 Hf). unfold times. rewrite Hv. apply dom_insert_L.
      * destruct (st_marg st && _).
        -- apply marginalize_views in E3. exact E3.
        -- injection E3 as <-. reflexivity.
  - injection H as <- <-. cbn [l_x m_k]. destruct (first_detected (data ts)) as [t0|] eqn:F.
    + apply (own_first ts) in F; [|apply Hd]. subst t0. split; [|auto]. eapply stamped_sub; [exact Hs|]. intros t w. rewrite E. intros Hw. apply lookup_delete_Some in Hw. apply Hw.
    + destruct E as [_ ->]. auto.
Qed.
Lemma turn_times s ts b s' : dated data -> dated_views (kx s) -> turnD s ts = Ret (b, s') -> times (kx s') ⊆ times (kx s) ∪ (if b then {[ts]} else ∅) /\ (b = false -> first_detected (data ts) <> None -> ts ∉ times (kx s')).
Proof.
  intros Hd Hs H. destruct (turn_views _ _ _ _ Hd Hs H) as [_ B]. destruct b.
  - destruct B as (k2 & B1 & _ & B2). split; [|discriminate]. intros t. unfold times. rewrite elem_of_union, elem_of_singleton, !elem_of_dom. intros Ht.
    assert (X : is_Some (k_views k2 !! t)).
    { destruct (st_marg st && _); [|rewrite B2 in Ht; exact Ht]. destruct B2 as (t0 & _ & B2). rewrite B2 in Ht. destruct Ht as [w Ht]. apply lookup_delete_Some in Ht. destruct Ht. eauto. }
    apply B1 in X. tauto.
  - split.
    + destruct B as [[_ B]|B]; unfold times; rewrite B; [set_solver|]. rewrite dom_delete_L. set_solver.
    + intros _ Hf. destruct B as [[B _]|B]; [congruence|]. unfold times. rewrite B, dom_delete_L. set_solver.
Qed.
(** C107: the views at the end are some of those at the beginning and of the accepted candidates. *)
Theorem C107_views l x all f log s' : dated data -> dated_views (m_k x) -> runD l x all f = Ret (log, s') ->
  times (kx s') ⊆ times (m_k x) ∪ accepted log.
Proof.
  intros Hd Hx H.
  destruct (loop_log (fun h s => dated_views (kx s) /\ times (kx s) ⊆ times (m_k x) ∪ accepted h) l) with (h := @nil (Z * bool)) (s := mkL x all f 0) (log := log) (s' := s') as [[_ Q2] _]; auto.
  - intros h s ts b s1 _ [Q1 Q2] E. split; [apply (turn_views _ _ _ _ Hd Q1 E)|]. destruct (turn_times _ _ _ _ Hd Q1 E) as [X _]. rewrite accepted_snoc. set_solver.
  - split; [exact Hx|]. set_solver.
Qed.
Lemma nb_times (k : calib V) : nb_views k = Z.of_nat (size (times k)).
Proof. unfold nb_views, times. rewrite size_dom. reflexivity. Qed.
(** C107: with marginalization, the number of views never exceeds sliding_window_size (or the number there was, if that is larger). *)
Theorem C107_window l x all f log s' : dated data -> dated_views (m_k x) -> st_marg st = true -> runD l x all f = Ret (log, s') ->
  Z.of_nat (size (times (kx s'))) <= Z.max (st_window st) (Z.of_nat (size (times (m_k x)))).
Proof.
  intros Hd Hx Hm H. set (B := Z.max (st_window st) (Z.of_nat (size (times (m_k x))))).
  destruct (loop_log (fun h s => dated_views (kx s) /\ Z.of_nat (size (times (kx s))) <= B) l) with (h := @nil (Z * bool)) (s := mkL x all f 0) (log := log) (s' := s') as [[_ Q2] _]; auto.
  - intros h s ts b s1 _ [Q1 Q2] E. pose proof (turn_views _ _ _ _ Hd Q1 E) as [Q3 X]. split; [exact Q3|]. destruct b.
    + destruct X as (k2 & X1 & _ & X2). rewrite Hm in X2. cbn [andb] in X2.
      assert (S2 : (size (times k2) <= size (times (kx s)) + 1)%nat).
      { assert (Sub : times k2 ⊆ {[ts]} ∪ times (kx s)) by (intros t; unfold times; rewrite elem_of_union, elem_of_singleton, !elem_of_dom; apply X1).
        apply subseteq_size in Sub. pose proof (size_union_alt {[ts]} (times (kx s))) as U. rewrite size_singleton in U. assert (W : (size (times (kx s) ∖ {[ts]}) <= size (times (kx s)))%nat) by (apply subseteq_size; set_solver). lia. }
      rewrite nb_times in X2. destruct (Z.ltb_spec (st_window st) (Z.of_nat (size (times k2)))) as [L|L].
      * destruct X2 as (t & [T1 _] & T2). unfold times in *. rewrite T2, dom_delete_L, size_difference by (apply singleton_subseteq_l, elem_of_dom; exact T1). rewrite size_singleton. lia.
      * unfold times in *. rewrite X2. unfold B. lia.
    + assert (Sub : times (kx s1) ⊆ times (kx s)) by (destruct X as [[_ X]|X]; unfold times; rewrite X, ?dom_delete_L; set_solver). apply subseteq_size in Sub. lia.
  - split; [exact Hx|]. unfold B. cbn. lia.
Qed.

(** C107: without the outlier filter, for distinct candidates that are not views yet: without marginalization the views at the
    end are those at the beginning and the accepted ones; with it, the newest sliding_window_size of them. *)
Definition newest (n : Z) (s all : gset Z) : Prop :=
  s ⊆ all /\ Z.of_nat (size s) = Z.min n (Z.of_nat (size all)) /\ forall a b, a ∈ s -> b ∈ all -> b ∉ s -> b < a.
Theorem C107_newest l x all f log s' : dated data -> dated_views (m_k x) -> base.NoDup l -> (forall ts, ts ∈ l -> ts ∉ times (m_k x)) ->
  st_filter st = false -> 0 <= st_window st -> (st_marg st = true -> Z.of_nat (size (times (m_k x))) <= st_window st) ->
  runD l x all f = Ret (log, s') ->
  if st_marg st then newest (st_window st) (times (kx s')) (times (m_k x) ∪ accepted log)
  else times (kx s') = times (m_k x) ∪ accepted log.
Proof.
  intros Hd Hx Hn Hl Hf Hw Hs H.
  set (Inv := fun (h : list (Z * bool)) (s : lstate V) => if st_marg st then newest (st_window st) (times (kx s)) (times (m_k x) ∪ accepted h)
     else times (kx s) = times (m_k x) ∪ accepted h).
  assert (G : forall l h (s : lstate V) log s', dated_views (kx s) /\ Inv h s -> base.NoDup l -> (forall ts, ts ∈ l -> ts ∉ times (m_k x) ∪ accepted h) -> loopD l s = Ret (log, s') -> Inv (h ++ log) s').
  2: { apply (G l [] (mkL x all f 0) log s'); auto.
       - split; [exact Hx|]. unfold Inv. cbn [kx l_x]. change (accepted []) with (∅ : gset Z). rewrite union_empty_r_L. destruct (st_marg st); [|reflexivity]. specialize (Hs eq_refl). split; [set_solver|]. split; [lia|set_solver].
       - intros ts Ht. unfold accepted. cbn. pose proof (Hl ts Ht). set_solver. }
  clear l Hn Hl H log s'. induction l as [|ts l IH]; intros h s log s' [Q1 Q2] Hn Hl H; cbn [nbv_loop] in H.
  - injection H as <- <-. rewrite app_nil_r. exact Q2.
  - ob H [acc s1] E. pose proof (turn_views _ _ _ _ Hd Q1 E) as [Q3 X]. pose proof (Hl ts (elem_of_list_here _ _)) as Hts. apply NoDup_cons in Hn as [Hn1 Hn2].
    assert (Q4 : Inv (h ++ [(ts, acc)]) s1).
    { unfold Inv in *. rewrite accepted_snoc. destruct acc.
      - destruct X as (k2 & _ & X1 & X2). specialize (X1 Hf). destruct (st_marg st); cbn [andb] in X2.
        + destruct Q2 as (N1 & N2 & N3). set (A := times (m_k x) ∪ accepted h) in *. rewrite assoc_L by apply _. fold A.
          assert (Ss : size (A ∪ {[ts]}) = S (size A)) by (rewrite size_union by (apply disjoint_singleton_r; exact Hts); rewrite size_singleton; lia).
          assert (S2 : size (times k2) = S (size (times (kx s)))) by (rewrite X1, size_union by (apply disjoint_singleton_l; intros Y; apply Hts, N1, Y); rewrite size_singleton; lia).
          rewrite nb_times, S2 in X2. destruct (Z.ltb_spec (st_window st) (Z.of_nat (S (size (times (kx s)))))) as [L|L].
          * destruct X2 as (m & [M1 M2] & M3). assert (M0 : m ∈ times k2) by (apply elem_of_dom; exact M1).
            assert (T1 : times (kx s1) = times k2 ∖ {[m]}) by (unfold times; rewrite M3, dom_delete_L; reflexivity). rewrite T1. split; [intros a Ha; rewrite X1 in Ha; apply elem_of_difference in Ha as [Ha _]; apply elem_of_union in Ha as [Ha|Ha]; apply elem_of_union; auto|]. split.
            { rewrite size_difference by set_solver. rewrite size_singleton, S2, Ss. lia. }
            intros a b Ha Hb Hb'. apply elem_of_difference in Ha as [Ha Ham]. apply not_elem_of_singleton in Ham.
            assert (Hma : m < a). { pose proof (M2 a (proj1 (elem_of_dom (k_views k2) a) Ha)). lia. }
            destruct (decide (b = m)) as [->|Hbm]; [exact Hma|]. assert (Hb2 : b ∉ times k2) by (intros Y; apply Hb', elem_of_difference; split; [exact Y|apply not_elem_of_singleton; exact Hbm]). rewrite X1 in Hb2.
            apply not_elem_of_union in Hb2 as [Hb3 Hbs]. assert (HbA : b ∈ A) by (apply elem_of_union in Hb as [Hb|Hb]; [exact Hb|contradiction]). rewrite X1 in M0. apply elem_of_union in M0 as [M0|M0].
            -- apply elem_of_singleton in M0. subst m. rewrite X1 in Ha. assert (Ha' : a ∈ times (kx s)) by (apply elem_of_union in Ha as [Ha|Ha]; [apply elem_of_singleton in Ha; contradiction|exact Ha]). exact (N3 a b Ha' HbA Hbs).
            -- pose proof (N3 m b M0 HbA Hbs). lia.
          * assert (T1 : times (kx s1) = times k2) by (unfold times; rewrite X2; reflexivity). rewrite T1, X1.
            assert (Eq : times (kx s) = A). { apply set_eq. intros a. split; [apply N1|]. intros Ha. destruct (decide (a ∈ times (kx s))) as [|Hna]; [assumption|]. exfalso.
              assert (Sub : {[a]} ∪ times (kx s) ⊆ A) by (apply union_subseteq; split; [apply singleton_subseteq_l; exact Ha|exact N1]). apply subseteq_size in Sub. rewrite size_union in Sub by (apply disjoint_singleton_l; exact Hna). rewrite size_singleton in Sub. lia. }
            rewrite Eq, (union_comm_L {[ts]} A). split; [reflexivity|]. split; [|intros; contradiction]. rewrite Ss. rewrite Eq in L. lia.
        + unfold times at 1. rewrite X2. change (dom (k_views k2)) with (times k2). rewrite X1, Q2, (union_comm_L {[ts]}), assoc_L by apply _. reflexivity.
      - assert (T1 : times (kx s1) = times (kx s)).
        { destruct X as [[_ X]|X]; unfold times; rewrite X; [reflexivity|]. rewrite delete_notin; [reflexivity|]. apply not_elem_of_dom. change (dom (k_views (kx s))) with (times (kx s)).
          destruct (st_marg st); [|rewrite Q2; exact Hts]. destruct Q2 as [N1 _]. intros Hin. apply Hts, N1, Hin. }
        rewrite T1. rewrite (union_empty_r_L (accepted h)). exact Q2. }
    destruct (st_stop st && _).
    + injection H as <- <-. exact Q4.
    + ob H [log1 s2] E2. cbn [fst snd] in H. injection H as <- <-. change ((ts, acc) :: log1) with ([(ts, acc)] ++ log1). rewrite app_assoc. apply (IH _ s1 _ _ (conj Q3 Q4) Hn2); [|exact E2].
      intros t Ht. rewrite accepted_snoc. pose proof (Hl t (elem_of_list_further _ _ _ Ht)). assert (t <> ts) by (intros ->; contradiction). destruct acc; set_solver.
Qed.
End P.

(** ** A calibration with a window of one view, and at most one rejection in a row *)
From Verif Require Import CalibExample CamMargEx.
Definition nx_st : settings := mkSettings false 0 true 1 true 1.
(** the candidates 7, 9 and 13 are informative *)
Definition nx_te (s : lstate Z) (ts : Z) : turn_env Z :=
  mkTurn (ex_env ts 50) (mkValues (fun _ => 0) (fun _ => 0) (fun _ => 0)) (if existsb (Z.eqb ts) [7; 9; 13] then Some XMinf else None)
         (fun _ _ => None) (fun _ => mkValues (fun _ => 0) (fun _ => 0) (fun _ => 0)) (fun _ => None) (fun _ => []) (fun ts => ex_env ts 50) (- ts).
Notation nx_run := (nbv_run mx_blocks ex_corners (mx_info false) nx_st 0%R 0%R ex_gs nx_te [9; 7; 11; 13; 15; 17; 19] mx_x0 true ∅).
(** 7 is older than the only view of the window and goes at once; the two rejections at the end stop the loop before 19 *)
Definition nx_check (o : outcome (list (Z * bool) * lstate Z)) : bool :=
  match o with
  | Ret (log, s) => bool_decide (log = [(9, true); (7, true); (11, false); (13, true); (15, false); (17, false)]) && bool_decide (times (m_k (l_x s)) = {[13]})
  | _ => false
  end.
Lemma nx_checked o : nx_check o = true -> exists log s, o = Ret (log, s) /\ log = [(9, true); (7, true); (11, false); (13, true); (15, false); (17, false)] /\ times (m_k (l_x s)) = {[13]}.
Proof.
  unfold nx_check. destruct o as [[log s]| |]; try discriminate. intros H. exists log, s.
  apply andb_true_iff in H as [H1 H2]. apply bool_decide_eq_true in H1. apply bool_decide_eq_true in H2. auto.
Qed.
Lemma nx_ok : exists log s, nx_run = Ret (log, s) /\ log = [(9, true); (7, true); (11, false); (13, true); (15, false); (17, false)] /\ times (m_k (l_x s)) = {[13]}.
Proof. apply nx_checked. vm_compute. reflexivity. Qed.
Lemma nx_none : times (m_k mx_x0) = ∅.
Proof. apply dom_empty_L. Qed.
Lemma nx_dated : dated ex_gs.
Proof. intros ts. unfold ex_gs. repeat constructor. Qed.
Lemma nx_newest : exists log s, nx_run = Ret (log, s) /\ newest 1 (times (m_k (l_x s))) (times (m_k mx_x0) ∪ accepted log) /\ (times (m_k mx_x0) ∪ accepted log) = {[7; 9; 13]}.
Proof.
  destruct nx_ok as (log & s & E & El & _). exists log, s. split; [exact E|]. split.
  - apply C107_newest in E; [exact E|exact nx_dated|..].
    + intros ts v c H. cbn in H. rewrite lookup_empty in H. discriminate H.
    + apply NoDup_ListNoDup. repeat constructor; cbn; lia.
    + intros ts _. rewrite nx_none. apply not_elem_of_empty.
    + reflexivity.
    + cbn. lia.
    + intros _. rewrite nx_none, size_empty. cbn. lia.
  - rewrite El. rewrite nx_none. unfold accepted. cbn. clear. set_solver.
Qed.

(** ** The state stays one of the reachable ones *)
Section Reach.
Context (blocks : Z -> list Z) (info : Z -> pinfo) (rows cols : Z) (size sp : R).
Context {V : Type} (ext_addr cam_addr : Z -> Z) (st : settings) (gain_thr out_thr : R) (data : Z -> list (Z * grid)) (te : lstate V -> Z -> turn_env V).
Notation corners := (fiducial_corners rows cols size sp).
Notation reachD := (mreach blocks info rows cols size sp ext_addr cam_addr).
(** what a turn gets: new objects, and the new prior's parameter blocks are those form_hessian puts there *)
Definition turn_ok (s : lstate V) (ts : Z) : Prop :=
  fresh_env blocks ext_addr cam_addr (te_env (te s ts)) (m_k (l_x s)) /\
  forall k1, add_nbv_view blocks corners (te_env (te s ts)) gain_thr (te_values (te s ts)) (te_info (te s ts)) (m_k (l_x s)) (data ts) = Ret (true, k1) ->
    prior_env blocks info (te_prior (te s ts)) (mkM k1 (m_prior (l_x s))) /\ typed info ext_addr cam_addr k1.
Fixpoint turns_ok (l : list Z) (s : lstate V) : Prop :=
  match l with
  | [] => True
  | ts :: t => turn_ok s ts /\ forall b s1, turn blocks corners info st gain_thr out_thr data te s ts = Ret (b, s1) -> turns_ok t s1
  end.
(** C107: without the outlier filter, from a reachable state and for distinct candidates that are not views yet, the loop leaves a
    reachable state: all that C28 and C105 say of those holds of it. *)
Theorem C107_reach base l x all f log s' : reachD base x -> (forall ts, ts ∈ l -> exists hs, recorded rows cols size sp hs (data ts)) ->
  dated data -> dated_views (m_k x) -> base.NoDup l -> (forall ts, ts ∈ l -> ts ∉ times (m_k x)) -> st_filter st = false ->
  turns_ok l (mkL x all f 0) ->
  nbv_run blocks corners info st gain_thr out_thr data te l x all f = Ret (log, s') -> reachD base (l_x s').
Proof.
  intros Hx Hrec Hd Hdv Hn Hl Hf Ht H. unfold nbv_run in H.
  assert (G : forall l' s log s', (forall ts, ts ∈ l' -> ts ∈ l) -> turns_ok l' s -> reachD base (l_x s) -> dated_views (m_k (l_x s)) -> base.NoDup l' -> (forall ts, ts ∈ l' -> ts ∉ times (m_k (l_x s))) ->
    nbv_loop blocks corners info st gain_thr out_thr data te l' s = Ret (log, s') -> reachD base (l_x s')).
  2: { apply (G l (mkL x all f 0) log s'); auto. }
  clear x all f log s' Hx Hdv Hn Hl Ht H. induction l' as [|ts l' IH]; intros s log s' Hin Ht Hr Hdv Hn Hl H; cbn [nbv_loop] in H.
  - injection H as _ <-. exact Hr.
  - ob H [acc s1] E. pose proof (turn_times blocks corners info st gain_thr out_thr data te _ _ _ _ Hd Hdv E) as [T1 _].
    pose proof (turn_views blocks corners info st gain_thr out_thr data te _ _ _ _ Hd Hdv E) as [Dv1 _].
    assert (Hts : ts ∈ l) by (apply Hin, elem_of_list_here). destruct Ht as [[F1 F2] Ht]. specialize (Ht _ _ E). destruct (Hrec ts Hts) as [hs Hhs].
    assert (Hnew : new_ts (m_k (l_x s)) (data ts)).
    { intros t Ht0. apply (own_first ts) in Ht0; [|apply Hd]. subst t. apply not_elem_of_dom, (Hl ts), elem_of_list_here. }
    assert (R1 : reachD base (l_x s1)).
    { unfold turn in E. rewrite Hf in E. ob E [a k1] E1. pose proof (M_nbv _ _ _ _ _ _ _ _ base (l_x s) _ _ _ _ hs _ _ _ Hr F1 Hhs Hnew E1) as Rk.
      destruct a.
      - cbn [andb] in E. cbn [obind] in E. ob E x3 E3. injection E as _ <-. cbn [l_x]. destruct (F2 k1 eq_refl) as [P1 P2].
        destruct (st_marg st && _); [|injection E3 as <-; exact Rk]. exact (M_marg _ _ _ _ _ _ _ _ base _ _ _ Rk P1 P2 E3).
      - injection E as _ <-. exact Rk. }
    destruct (st_stop st && _); [injection H as _ <-; exact R1|]. ob H [log1 s2] E2. injection H as _ <-. cbn [snd].
    apply NoDup_cons in Hn as [Hn1 Hn2]. apply (IH s1 log1 s2); auto.
    + intros t Htt. apply Hin, elem_of_list_further, Htt.
    + intros t Htt X. apply T1 in X. apply elem_of_union in X as [X|X]; [exact (Hl t (elem_of_list_further _ _ _ Htt) X)|]. destruct acc; [|set_solver]. apply elem_of_singleton in X. congruence.
Qed.
End Reach.

(** a run that marginalises meets the conditions *)
Notation ny_l := [7; 9].
Definition ny_s0 : lstate Z := mkL mx_x0 true ∅ 0.
Notation ny_turn := (turn mx_blocks ex_corners (mx_info false) nx_st 0%R 0%R ex_gs nx_te).
Definition ny_k (s : lstate Z) (ts : Z) : calib Z :=
  snd (got (false, ex_k0) (add_nbv_view mx_blocks ex_corners (te_env (nx_te s ts)) 0%R (te_values (nx_te s ts)) (te_info (nx_te s ts)) (m_k (l_x s)) (ex_gs ts))).
Definition ny_s1 : lstate Z := snd (got (false, ny_s0) (ny_turn ny_s0 7)).
Lemma ny_turn_ok s ts l : ex_pose ts ∉ c_pparams (k_solver (m_k (l_x s))) -> bool_decide (s_res (c_base (k_solver (m_k (l_x s)))) = list_to_set l) = true ->
  (forall r, In r l -> r < 0 \/ exists n' i, r = ex_id n' 0 0 i /\ n' <> ts) ->
  prior_ok false (- ts) (mkM (ny_k s ts) (m_prior (l_x s))) = true -> posed (ny_k s ts) = true ->
  turn_ok mx_blocks (mx_info false) 1 1 1%R 0%R ex_ext ex_cam 0%R ex_gs nx_te s ts.
Proof.
  intros H1 H2 H3 H4 H5. split; [apply mx_fresh; [exact H1|exact (out_id ts _ l H2 H3)]|].
  intros k1 E. assert (Ek : ny_k s ts = k1) by (unfold ny_k; rewrite E; reflexivity). rewrite Ek in H4, H5.
  split; [apply (prior_ok_env false), H4|apply posed_typed, H5].
Qed.
Lemma ny_turns_ok : turns_ok mx_blocks (mx_info false) 1 1 1%R 0%R ex_ext ex_cam nx_st 0%R 0%R ex_gs nx_te ny_l ny_s0.
Proof.
  split; [apply (ny_turn_ok ny_s0 7 []); [apply out_pose; vm_compute; reflexivity|vm_compute; reflexivity|intros r []|vm_compute; reflexivity..]|].
  intros b s1 E. assert (E1 : s1 = ny_s1). { unfold ny_s1. rewrite E. reflexivity. }
  subst s1. split; [|intros; exact I].
  apply (ny_turn_ok ny_s1 9 (ids 7)); [apply out_pose; vm_compute; reflexivity|vm_compute; reflexivity|intros r [<-|[<-|[]]]; right; eexists 7, _; (split; [reflexivity|lia])|vm_compute; reflexivity..].
Qed.
Lemma ny_reach : exists log s, nbv_run mx_blocks ex_corners (mx_info false) nx_st 0%R 0%R ex_gs nx_te ny_l mx_x0 true ∅ = Ret (log, s) /\
  log = [(7, true); (9, true)] /\ m_prior (l_x s) = Some (-9) /\ mreach mx_blocks (mx_info false) 1 1 1%R 0%R ex_ext ex_cam mx_base (l_x s).
Proof.
  assert (H : forall o, match o with Ret (log, s) => bool_decide (log = [(7, true); (9, true)]) && bool_decide (m_prior (l_x s) = Some (-9)) | _ => false end = true ->
    exists log (s : lstate Z), o = Ret (log, s) /\ log = [(7, true); (9, true)] /\ m_prior (l_x s) = Some (-9)).
  { intros [[log s]| |]; try discriminate. intros H. apply andb_true_iff in H as [H1 H2]. apply bool_decide_eq_true in H1. apply bool_decide_eq_true in H2. eauto. }
  destruct (H (nbv_run mx_blocks ex_corners (mx_info false) nx_st 0%R 0%R ex_gs nx_te ny_l mx_x0 true ∅)) as (log & s & E & E1 & E2); [vm_compute; reflexivity|].
  exists log, s. split; [exact E|]. split; [exact E1|]. split; [exact E2|].
  apply C107_reach with (base := mx_base) (ext_addr := ex_ext) (cam_addr := ex_cam) in E; [exact E|apply mx_reach0|intros ts _; exists (ex_hist ts); apply ex_recorded|exact nx_dated|..].
  - intros ts v c Hv. cbn in Hv. rewrite lookup_empty in Hv. discriminate Hv.
  - apply NoDup_ListNoDup. repeat constructor; cbn; lia.
  - intros ts _. rewrite nx_none. apply not_elem_of_empty.
  - reflexivity.
  - exact ny_turns_ok.
Qed.
