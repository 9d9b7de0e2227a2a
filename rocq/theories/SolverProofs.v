(** * Lemmas on the solver bookkeeping *)
From Verif Require Import Base SolverModel.
From stdpp Require Import gmap sets list.
Local Open Scope Z_scope.

Section S.
Context (blocks : Z -> list Z).
Notation add_residual := (add_residual blocks).
Notation remove_residual := (remove_residual blocks).
Notation c_remove_residual := (c_remove_residual blocks).
Notation c_remove_residuals := (c_remove_residuals blocks).
Notation c_remove_param := (c_remove_param blocks).

Lemma mget_insert m k v x : mget (<[k := v]> m) x = if decide (x = k) then v else mget m x.
Proof.
  unfold mget. destruct (decide (x = k)); subst.
  - rewrite lookup_insert; reflexivity.
  - rewrite lookup_insert_ne by congruence; reflexivity.
Qed.
Lemma add_fold l r : forall (m : gmap Z (gset Z)) x,
  foldl (fun m p => <[p := {[r]} ∪ mget m p]> m) m l !! x =
  if decide (x ∈ l) then Some ({[r]} ∪ mget m x) else m !! x.
Proof.
  induction l as [|p l IH]; intros m x; cbn [foldl].
  - destruct (decide (x ∈ [])) as [H|H]; auto. inversion H.
  - rewrite IH. rewrite mget_insert. destruct (decide (x ∈ l)) as [H|H].
    + rewrite (decide_True (P := x ∈ p :: l)) by now right.
      destruct (decide (x = p)); auto. subst. f_equal. set_solver.
    + destruct (decide (x = p)) as [E|E].
      * subst. rewrite lookup_insert. rewrite decide_True by now left. auto.
      * rewrite lookup_insert_ne by auto. rewrite decide_False; auto.
        rewrite elem_of_cons. tauto.
Qed.
Lemma rem_fold l r : forall (m : gmap Z (gset Z)) x,
  foldl (fun m p => <[p := mget m p ∖ {[r]}]> m) m l !! x =
  if decide (x ∈ l) then Some (mget m x ∖ {[r]}) else m !! x.
Proof.
  induction l as [|p l IH]; intros m x; cbn [foldl].
  - destruct (decide (x ∈ [])) as [H|H]; auto. inversion H.
  - rewrite IH. rewrite mget_insert. destruct (decide (x ∈ l)) as [H|H].
    + rewrite (decide_True (P := x ∈ p :: l)) by now right.
      destruct (decide (x = p)); auto. subst. f_equal. set_solver.
    + destruct (decide (x = p)) as [E|E].
      * subst. rewrite lookup_insert. rewrite decide_True by now left. auto.
      * rewrite lookup_insert_ne by auto. rewrite decide_False; auto.
        rewrite elem_of_cons. tauto.
Qed.
Lemma r2p_fold l r : forall (m : gmap Z (gset Z)) x,
  mget (foldl (fun m p => <[r := {[p]} ∪ mget m r]> m) m l) x =
  if decide (x = r) then list_to_set l ∪ mget m x else mget m x.
Proof.
  induction l as [|p l IH]; intros m x; cbn [foldl].
  - destruct (decide (x = r)); auto. cbn. now rewrite union_empty_l_L.
  - rewrite IH, mget_insert. destruct (decide (x = r)); auto. subst. cbn [list_to_set].
    set_solver.
Qed.
Lemma mget_lookup m x : mget m x = default ∅ (m !! x).
Proof. reflexivity. Qed.
Lemma mget_delete m k x : mget (delete k m) x = if decide (x = k) then ∅ else mget m x.
Proof.
  unfold mget. destruct (decide (x = k)); subst.
  - rewrite lookup_delete; reflexivity.
  - rewrite lookup_delete_ne by congruence; reflexivity.
Qed.

(** ** Base solver: what every history keeps *)
Record SInv (s : solver) : Prop := mkSInv {
  si_p2r : forall r p, r ∈ s_res s -> (r ∈ mget (s_p2r s) p <-> p ∈ blocks r);
  si_old : forall r p, r ∈ mget (s_p2r s) p -> p ∈ blocks r;
  si_r2p : forall r p, p ∈ mget (s_r2p s) r <-> r ∈ s_res s /\ p ∈ blocks r }.

Lemma SInv_new : SInv solver_new.
Proof.
  split; cbn; intros; rewrite ?mget_lookup, ?lookup_empty in *; cbn in *; set_solver.
Qed.
Lemma SInv_add_param s p : SInv s -> SInv (add_param s p).
Proof. intros [H1 H2 H3]; split; cbn; auto. Qed.
Lemma SInv_add_residual s r s' : SInv s -> add_residual s r = Ret s' -> SInv s'.
Proof.
  intros [H1 H2 H3] E. unfold SolverModel.add_residual in E.
  destruct (decide (r ∈ s_res s)) as [Hin|Hin]; [discriminate|]. injection E as <-.
  split; cbn; intros r0 p.
  - rewrite mget_lookup, add_fold. intros Hr. destruct (decide (p ∈ blocks r)) as [Hp|Hp]; cbn.
    + rewrite elem_of_union, elem_of_singleton. destruct (decide (r0 = r)); [subst; tauto|].
      rewrite H1 by set_solver. tauto.
    + fold (mget (s_p2r s) p). destruct (decide (r0 = r)) as [->|Hne].
      * split; [|tauto]. apply H2.
      * apply H1. set_solver.
  - rewrite mget_lookup, add_fold. destruct (decide (p ∈ blocks r)) as [Hp|Hp]; cbn.
    + rewrite elem_of_union, elem_of_singleton. intros [->|H]; auto.
    + apply H2.
  - rewrite r2p_fold. destruct (decide (r0 = r)) as [->|Hne].
    + rewrite elem_of_union, elem_of_list_to_set, H3. set_solver.
    + rewrite H3. set_solver.
Qed.
Lemma SInv_remove_residual s r s' : SInv s -> remove_residual s r = Ret s' -> SInv s'.
Proof.
  intros [H1 H2 H3] E. unfold SolverModel.remove_residual in E.
  destruct (decide (r ∈ s_res s)) as [Hin|Hin]; [|discriminate]. injection E as <-.
  split; cbn; intros r0 p.
  - rewrite mget_lookup, rem_fold. rewrite elem_of_difference, elem_of_singleton. intros [Hr Hne].
    destruct (decide (p ∈ blocks r)) as [Hp|Hp]; cbn.
    + rewrite elem_of_difference, elem_of_singleton, H1 by auto. tauto.
    + now apply H1.
  - rewrite mget_lookup, rem_fold. destruct (decide (p ∈ blocks r)) as [Hp|Hp]; cbn.
    + rewrite elem_of_difference. intros [H _]; auto.
    + apply H2.
  - rewrite mget_delete. destruct (decide (r0 = r)) as [->|Hne].
    + set_solver.
    + rewrite H3. set_solver.
Qed.

Lemma erase_residuals_spec l : forall res (r2p : gmap Z (gset Z)),
  base.NoDup l ->
  erase_residuals l res r2p =
  if decide (Forall (fun r => r ∈ res) l)
  then Ret (res ∖ list_to_set l, filter (fun kv => kv.1 ∉ l) r2p) else Throw Fatal.
Proof.
  induction l as [|r l IH]; intros res r2p Hnd; cbn [erase_residuals].
  - rewrite decide_True by constructor. f_equal. f_equal; [set_solver|].
    symmetry. apply map_filter_id. intros i x _. cbn. apply not_elem_of_nil.
  - inversion Hnd as [|? ? Hr Hnd']; subst. destruct (decide (r ∈ res)) as [Hin|Hin].
    + rewrite IH by auto.
      destruct (decide (Forall (fun r0 => r0 ∈ res ∖ {[r]}) l)) as [HF|HF].
      * rewrite decide_True.
        2:{ constructor; auto. eapply Forall_impl; [exact HF|]. cbn. set_solver. }
        f_equal. f_equal; [set_solver|].
        apply map_eq. intros k. apply option_eq. intros v. rewrite !map_filter_lookup_Some. cbn.
        rewrite lookup_delete_Some. rewrite not_elem_of_cons. split; intuition congruence.
      * rewrite decide_False; auto. intros HF2. apply HF. inversion HF2; subst.
        rewrite Forall_forall in *. intros x Hx. rewrite elem_of_difference, elem_of_singleton.
        split; auto. intros ->. contradiction.
    + rewrite decide_False; auto. intros HF. inversion HF; auto.
Qed.

Definition with_param (p : Z) (res : gset Z) : gset Z := filter (fun r => p ∈ blocks r) res.

(** exact effect of the base class's remove_param *)
Lemma remove_param_effect s p s' : SInv s -> remove_param s p = Ret s' ->
  p ∈ s_params s /\ s_params s' = s_params s ∖ {[p]} /\
  s_res s' = s_res s ∖ with_param p (s_res s) /\ s_p2r s' = delete p (s_p2r s) /\
  s_r2p s' = filter (fun kv => kv.1 ∉ with_param p (s_res s)) (s_r2p s).
Proof.
  intros [H1 H2 H3] E. unfold remove_param in E.
  destruct (decide (p ∈ s_params s)) as [Hp|Hp]; [|discriminate].
  destruct (s_p2r s !! p) as [rs|] eqn:Hl.
  - rewrite erase_residuals_spec in E by apply NoDup_elements.
    destruct (decide (Forall (fun r => r ∈ s_res s) (elements rs))) as [HF|HF]; [|discriminate].
    cbn in E. injection E as <-. cbn. split; [auto|]. split; [auto|].
    assert (Hrs : with_param p (s_res s) = rs).
    { apply set_eq. intros r. unfold with_param. rewrite elem_of_filter.
      assert (Hm : mget (s_p2r s) p = rs) by (rewrite mget_lookup, Hl; auto). split.
      - intros [Ha Hb]. rewrite <- Hm. apply H1; auto.
      - intros Hr. rewrite <- Hm in Hr. split; [apply (H2 _ _ Hr)|].
        rewrite Forall_forall in HF. apply HF. rewrite <- Hm. apply elem_of_elements. auto. }
    rewrite Hrs. split; [set_solver|]. split; auto.
    apply map_eq. intros k. apply option_eq. intros v. rewrite !map_filter_lookup_Some. cbn.
    now rewrite elem_of_elements.
  - injection E as <-. cbn. split; [auto|]. split; [auto|].
    assert (Hrs : with_param p (s_res s) = ∅).
    { apply set_eq. intros r. unfold with_param. rewrite elem_of_filter. split; [|set_solver].
      intros [Ha Hb]. apply (H1 r p Hb) in Ha. rewrite mget_lookup, Hl in Ha. auto. }
    rewrite Hrs. split; [set_solver|]. split; [now rewrite delete_notin|].
    symmetry. apply map_filter_id. intros i x _. cbn. set_solver.
Qed.
Lemma SInv_remove_param s p s' : SInv s -> remove_param s p = Ret s' -> SInv s'.
Proof.
  intros I E. destruct (remove_param_effect s p s' I E) as (E1 & E2 & E3 & E4 & E5).
  destruct I as [H1 H2 H3]. split.
  - intros r q Hr. rewrite E3 in Hr. unfold with_param in Hr.
    rewrite elem_of_difference, elem_of_filter in Hr. destruct Hr as [Hr Hn].
    rewrite E4, mget_delete. destruct (decide (q = p)) as [->|]; [|now apply H1].
    split; [set_solver|]. tauto.
  - intros r q. rewrite E4, mget_delete. destruct (decide (q = p)); [set_solver|apply H2].
  - intros r q. rewrite E3, E5. rewrite mget_lookup.
    destruct (decide (r ∈ with_param p (s_res s))) as [Hw|Hw].
    + rewrite map_filter_lookup_None_2; [cbn; set_solver|]. right. intros x _. cbn. tauto.
    + replace (filter (fun kv : Z * gset Z => kv.1 ∉ with_param p (s_res s)) (s_r2p s) !! r) with (s_r2p s !! r).
      { fold (mget (s_r2p s) r). rewrite H3. set_solver. }
      apply option_eq. intros v. rewrite map_filter_lookup_Some. cbn. tauto.
Qed.
Lemma fold_obind_throw {S} (step : S -> sop -> outcome S) h x :
  (forall s, x <> Ret s) -> forall s, fold_left (fun s o => obind s (fun s => step s o)) h x <> Ret s.
Proof.
  revert x. induction h as [|o h IH]; intros x Hx; cbn [fold_left]; auto.
  apply IH. destruct x; cbn; try congruence.
Qed.
Lemma srun_snoc h o : srun blocks (h ++ [o]) = obind (srun blocks h) (fun s => sstep blocks s o).
Proof. unfold srun. now rewrite fold_left_app. Qed.
Lemma crun_snoc h o : crun blocks (h ++ [o]) = obind (crun blocks h) (fun s => cstep blocks s o).
Proof. unfold crun. now rewrite fold_left_app. Qed.
Lemma SInv_run h : forall s, srun blocks h = Ret s -> SInv s.
Proof.
  induction h as [|o h IH] using rev_ind; intros s E.
  - injection E as <-. apply SInv_new.
  - rewrite srun_snoc in E. destruct (srun blocks h) as [s0| |] eqn:E0; cbn in E; try discriminate.
    specialize (IH s0 eq_refl). destruct o; cbn in E.
    + injection E as <-. now apply SInv_add_param.
    + eapply SInv_add_residual; eauto.
    + eapply SInv_remove_param; eauto.
    + eapply SInv_remove_residual; eauto.
Qed.
Lemma remove_param_succeeds s p : SInv s ->
  ((exists s', remove_param s p = Ret s') <->
   p ∈ s_params s /\ forall r, r ∈ mget (s_p2r s) p -> r ∈ s_res s).
Proof.
  intros I. unfold remove_param. destruct (decide (p ∈ s_params s)) as [Hp|Hp].
  2:{ split; [intros [s' E]; discriminate|tauto]. }
  rewrite mget_lookup. destruct (s_p2r s !! p) as [rs|]; cbn.
  - rewrite erase_residuals_spec by apply NoDup_elements.
    destruct (decide (Forall (fun r => r ∈ s_res s) (elements rs))) as [HF|HF]; cbn.
    + split; [|eauto]. intros _. split; auto. rewrite Forall_forall in HF. intros r Hr.
      apply HF. now apply elem_of_elements.
    + split; [intros [s' E]; discriminate|]. intros [_ H]. exfalso. apply HF. apply Forall_forall.
      intros r Hr. apply H. now apply elem_of_elements.
  - split; [|eauto]. intros _. split; auto. set_solver.
Qed.

(** ** Ceres solver *)
Record CInv (s : csolver) : Prop := mkCInv {
  ci_base : SInv (c_base s);
  ci_p2r : forall r p, r ∈ mget (s_p2r (c_base s)) p <-> r ∈ s_res (c_base s) /\ p ∈ blocks r;
  ci_pres : c_pres s = s_res (c_base s);
  ci_id : c_res2id s = s_res (c_base s);
  ci_pp : s_params (c_base s) ⊆ c_pparams s;
  ci_blk : forall r p, r ∈ s_res (c_base s) -> p ∈ blocks r -> p ∈ c_pparams s }.

Lemma CInv_new : CInv csolver_new.
Proof. split; cbn; try apply SInv_new; auto; set_solver. Qed.

Lemma c_remove_residual_effect s r : CInv s -> r ∈ s_res (c_base s) ->
  exists s', c_remove_residual s r = Ret s' /\
    s_res (c_base s') = s_res (c_base s) ∖ {[r]} /\ s_params (c_base s') = s_params (c_base s) /\
    s_p2r (c_base s') = (fun S : gset Z => S ∖ {[r]}) <$> s_p2r (c_base s) /\
    s_r2p (c_base s') = delete r (s_r2p (c_base s)) /\
    c_pparams s' = c_pparams s /\ c_pres s' = c_pres s ∖ {[r]} /\ c_res2id s' = c_res2id s ∖ {[r]}.
Proof.
  intros [I1 I2 I3 I4 I5 I6] Hr. unfold SolverModel.c_remove_residual, SolverModel.remove_residual.
  rewrite I3, I4. repeat (rewrite decide_True by auto; cbn [obind]).
  eexists; split; [reflexivity|]. cbn. repeat split; auto.
  apply map_eq. intros x. rewrite rem_fold, lookup_fmap.
  assert (Hm := I2 r x). rewrite mget_lookup in Hm. rewrite mget_lookup.
  destruct (s_p2r (c_base s) !! x) as [S|] eqn:Ex; cbn in *.
  - destruct (decide (x ∈ blocks r)) as [Hx|Hx]; auto. f_equal.
    apply set_eq. intros y. rewrite elem_of_difference, elem_of_singleton. split; [|tauto].
    intros Hy. split; auto. intros ->. tauto.
  - destruct (decide (x ∈ blocks r)) as [Hx|Hx]; auto. exfalso. assert (r ∈ (∅ : gset Z)) by tauto. set_solver.
Qed.
Lemma CInv_c_remove_residual s r s' : CInv s -> c_remove_residual s r = Ret s' -> CInv s'.
Proof.
  intros I E.
  assert (Hr : r ∈ s_res (c_base s)).
  { unfold SolverModel.c_remove_residual in E. destruct (decide (r ∈ s_res (c_base s))); auto. discriminate. }
  destruct (c_remove_residual_effect s r I Hr) as (s1 & E1 & F1 & F2 & F3 & F4 & F5 & F6 & F7).
  rewrite E in E1. injection E1 as <-. destruct I as [I1 I2 I3 I4 I5 I6].
  split.
  - unfold SolverModel.c_remove_residual in E. rewrite I3, I4 in E. repeat (rewrite decide_True in E by auto).
    destruct (remove_residual (c_base s) r) as [b| |] eqn:Eb; cbn in E; try discriminate.
    rewrite decide_True in E by auto. injection E as <-. cbn. eapply SInv_remove_residual; eauto.
  - intros r0 p. rewrite F1, F3, mget_lookup, lookup_fmap. specialize (I2 r0 p). rewrite mget_lookup in I2.
    destruct (s_p2r (c_base s) !! p); cbn in *; set_solver.
  - rewrite F6, F1, I3; auto.
  - rewrite F7, F1, I4; auto.
  - rewrite F2, F5; auto.
  - intros r0 p. rewrite F1, F5. intros H1 H2. apply (I6 r0 p); set_solver.
Qed.
Lemma c_remove_residuals_effect l : forall s, CInv s -> base.NoDup l -> Forall (fun r => r ∈ s_res (c_base s)) l ->
  exists s', c_remove_residuals l s = Ret s' /\ CInv s' /\
    s_res (c_base s') = s_res (c_base s) ∖ list_to_set l /\ s_params (c_base s') = s_params (c_base s) /\
    s_p2r (c_base s') = (fun S : gset Z => S ∖ list_to_set l) <$> s_p2r (c_base s) /\
    s_r2p (c_base s') = filter (fun kv => kv.1 ∉ l) (s_r2p (c_base s)) /\
    c_pparams s' = c_pparams s.
Proof.
  induction l as [|r l IH]; intros s I Hnd HF; cbn [SolverModel.c_remove_residuals].
  - exists s. split; auto. split; auto. repeat split; auto; try set_solver.
    + rewrite <- (map_fmap_id (s_p2r (c_base s))) at 1. apply map_fmap_ext. intros. cbn. set_solver.
    + symmetry. apply map_filter_id. intros i x _. cbn. apply not_elem_of_nil.
  - inversion Hnd as [|? ? Hr Hnd']; subst. inversion HF as [|? ? Hi HF']; subst.
    destruct (c_remove_residual_effect s r I Hi) as (s1 & E1 & F1 & F2 & F3 & F4 & F5 & F6 & F7).
    rewrite E1. cbn [obind].
    destruct (IH s1) as (s2 & E2 & I2 & G1 & G2 & G3 & G4 & G5).
    + eapply CInv_c_remove_residual; eauto.
    + auto.
    + rewrite Forall_forall in *. intros x Hx. rewrite F1. specialize (HF' x Hx).
      rewrite elem_of_difference, elem_of_singleton. split; auto. congruence.
    + exists s2. split; auto. split; auto.
      rewrite G1, G2, G3, G4, G5, F1, F2, F3, F4, F5. split; [set_solver|]. split; auto.
      split; [|split; auto].
      * rewrite <- map_fmap_compose. apply map_fmap_ext. intros. cbn. set_solver.
      * apply map_eq. intros k. apply option_eq. intros v. rewrite !map_filter_lookup_Some. cbn.
        rewrite lookup_delete_Some, not_elem_of_cons. intuition congruence.
Qed.
(** exact effect of ceres_solver_t::remove_param *)
Definition c_removed (s : csolver) (p : Z) : csolver :=
  let R := with_param p (s_res (c_base s)) in
  mkCsolver (mkSolver (s_res (c_base s) ∖ R) (s_params (c_base s) ∖ {[p]})
                      (delete p ((fun S : gset Z => S ∖ R) <$> s_p2r (c_base s)))
                      (filter (fun kv => kv.1 ∉ R) (s_r2p (c_base s))))
            (c_pparams s ∖ {[p]}) (s_res (c_base s) ∖ R) (s_res (c_base s) ∖ R).
Lemma c_remove_param_effect s p : CInv s ->
  c_remove_param s p = if decide (p ∈ s_params (c_base s)) then Ret (c_removed s p) else Throw Fatal.
Proof.
  intros I. unfold SolverModel.c_remove_param. destruct (decide (p ∈ s_params (c_base s))) as [Hp|Hp]; auto.
  set (s1 := mkCsolver _ _ _ _).
  assert (I1 : CInv s1).
  { destruct I as [[J1 J2 J3] I2 I3 I4 I5 I6]. split; cbn; auto. - split; cbn; auto. - set_solver. }
  set (R := with_param p (s_res (c_base s))).
  assert (Hfin : forall s3, CInv s3 -> s_res (c_base s3) = s_res (c_base s) ∖ R ->
     s_params (c_base s3) = s_params (c_base s) ∖ {[p]} ->
     s_p2r (c_base s3) = delete p ((fun S : gset Z => S ∖ R) <$> s_p2r (c_base s)) ->
     s_r2p (c_base s3) = filter (fun kv => kv.1 ∉ R) (s_r2p (c_base s)) ->
     c_pparams s3 = c_pparams s ->
     (if decide (p ∈ c_pparams s3)
      then Ret (mkCsolver (c_base s3) (c_pparams s3 ∖ {[p]}) (filter (fun r => p ∉ blocks r) (c_pres s3)) (c_res2id s3))
      else Throw StdExn) = Ret (c_removed s p)).
  { intros s3 J F1 F2 F3 F4 F5. rewrite F5. destruct I as [_ _ _ _ I5 _].
    rewrite decide_True by set_solver. f_equal. unfold c_removed. fold R.
    destruct s3 as [[a b c d] e f g]; cbn in *. destruct J as [_ _ J3 J4 _ _]; cbn in *.
    subst. f_equal. apply set_eq. intros r. rewrite elem_of_filter. unfold R, with_param.
    rewrite elem_of_difference, elem_of_filter. tauto. }
  assert (Hm : mget (s_p2r (c_base s)) p = R).
  { apply set_eq. intros r. unfold R, with_param. rewrite elem_of_filter. rewrite (ci_p2r s I). tauto. }
  rewrite mget_lookup in Hm.
  destruct (s_p2r (c_base s) !! p) as [rs|] eqn:El; cbn in Hm.
  - subst rs.
    destruct (c_remove_residuals_effect (elements R) s1) as (s2 & E2 & I2 & G1 & G2 & G3 & G4 & G5); auto.
    { apply NoDup_elements. }
    { apply Forall_forall. intros r Hr. apply elem_of_elements in Hr. unfold R, with_param in Hr.
      rewrite elem_of_filter in Hr. cbn. tauto. }
    rewrite E2. cbn [obind].
    rewrite list_to_set_elements_L in *.
    apply Hfin; cbn; auto.
    + destruct I2 as [[K1 K2 K3] J2 J3 J4 J5 J6]. split; cbn; auto.
      * split; cbn; auto.
        -- intros r q Hr. rewrite mget_delete. destruct (decide (q = p)) as [->|]; auto.
           split; [set_solver|]. intros Hb. exfalso. rewrite G1 in Hr. unfold R, with_param in Hr.
           rewrite elem_of_difference, elem_of_filter in Hr. tauto.
        -- intros r q. rewrite mget_delete. destruct (decide (q = p)); [set_solver|auto].
      * intros r q. rewrite mget_delete. destruct (decide (q = p)) as [->|]; auto.
        split; [set_solver|]. intros [Hr Hb]. exfalso. rewrite G1 in Hr. unfold R, with_param in Hr.
        rewrite elem_of_difference, elem_of_filter in Hr. tauto.
    + rewrite G3. auto.
    + rewrite G4. apply map_eq. intros k. apply option_eq. intros v. rewrite !map_filter_lookup_Some. cbn.
      now rewrite elem_of_elements.
  - cbn [obind]. apply Hfin; cbn; auto.
    + rewrite <- Hm. set_solver.
    + rewrite delete_notin by (rewrite lookup_fmap, El; auto).
      rewrite <- (map_fmap_id (s_p2r (c_base s))) at 1. apply map_fmap_ext. intros. cbn. rewrite <- Hm. set_solver.
    + symmetry. apply map_filter_id. intros i x _. cbn. rewrite <- Hm. set_solver.
Qed.
Lemma CInv_removed s p : CInv s -> CInv (c_removed s p).
Proof.
  intros [[K1 K2 K3] I2 I3 I4 I5 I6]. unfold c_removed. set (R := with_param p (s_res (c_base s))).
  assert (HR : forall r, r ∈ R <-> p ∈ blocks r /\ r ∈ s_res (c_base s)).
  { intros r. unfold R, with_param. now rewrite elem_of_filter. }
  assert (Hm : forall x r, r ∈ mget (delete p ((fun S : gset Z => S ∖ R) <$> s_p2r (c_base s))) x <->
                        x <> p /\ r ∈ s_res (c_base s) /\ x ∈ blocks r /\ r ∉ R).
  { intros x r. rewrite mget_delete. destruct (decide (x = p)) as [->|Hne]; [set_solver|].
    specialize (I2 r x). rewrite mget_lookup in *. rewrite lookup_fmap.
    destruct (s_p2r (c_base s) !! x); cbn in *.
    - rewrite elem_of_difference, I2. tauto.
    - split; [set_solver|]. intros (_ & A & B & _). exfalso. assert (r ∈ (∅:gset Z)) by tauto. set_solver. }
  split; cbn; auto.
  - split; cbn.
    + intros r q Hr. rewrite Hm. rewrite elem_of_difference in Hr. rewrite HR in *. split; [tauto|].
      intros Hq. split; [|tauto]. intros ->. tauto.
    + intros r q. rewrite Hm. tauto.
    + intros r q. rewrite elem_of_difference. rewrite mget_lookup.
      destruct (decide (r ∈ R)) as [Hw|Hw].
      * rewrite map_filter_lookup_None_2; [cbn; set_solver|]. right. intros x _. cbn. tauto.
      * replace (filter (fun kv : Z * gset Z => kv.1 ∉ R) (s_r2p (c_base s)) !! r) with (s_r2p (c_base s) !! r).
        { fold (mget (s_r2p (c_base s)) r). rewrite K3. tauto. }
        apply option_eq. intros v. rewrite map_filter_lookup_Some. cbn. tauto.
  - intros r q. rewrite Hm, elem_of_difference, HR. split; [tauto|]. intros [[A B] C].
    split; [intros ->; tauto|]. tauto.
  - set_solver.
  - intros r q. rewrite !elem_of_difference, HR, elem_of_singleton. intros [A B] C. split; [eauto|]. intros ->. tauto.
Qed.
Lemma CInv_run h : forall s, crun blocks h = Ret s -> CInv s.
Proof.
  induction h as [|o h IH] using rev_ind; intros s E.
  - injection E as <-. apply CInv_new.
  - rewrite crun_snoc in E. destruct (crun blocks h) as [s0| |] eqn:E0; cbn in E; try discriminate.
    specialize (IH s0 eq_refl). destruct o; cbn in E.
    + injection E as <-. destruct IH as [I1 I2 I3 I4 I5 I6].
      split; cbn; auto; [now apply SInv_add_param|set_solver|set_solver].
    + unfold c_add_residual in E. destruct (add_residual (c_base s0) r) as [b| |] eqn:Eb; cbn in E; try discriminate.
      destruct (decide (base.NoDup (blocks r))); [|discriminate]. injection E as <-.
      destruct IH as [I1 I2 I3 I4 I5 I6].
      assert (Ib : SInv b) by (eapply SInv_add_residual; eauto).
      unfold SolverModel.add_residual in Eb. destruct (decide (r ∈ s_res (c_base s0))) as [|Hin]; [discriminate|].
      injection Eb as <-. split; cbn; auto.
      * intros r0 p. rewrite mget_lookup, add_fold. destruct (decide (p ∈ blocks r)) as [Hp|Hp]; cbn.
        -- rewrite !elem_of_union, !elem_of_singleton, I2. split; [intros [->|]; tauto|tauto].
        -- fold (mget (s_p2r (c_base s0)) p). rewrite I2, elem_of_union, elem_of_singleton. split; [tauto|].
           intros [[->|] ?]; tauto.
      * now rewrite I3.
      * now rewrite I4.
      * set_solver.
      * intros r0 p. rewrite !elem_of_union, elem_of_singleton, elem_of_list_to_set. intros [->|Hr] Hb; eauto.
    + rewrite c_remove_param_effect in E by auto.
      destruct (decide (p ∈ s_params (c_base s0))); [|discriminate]. injection E as <-. now apply CInv_removed.
    + eapply CInv_c_remove_residual; eauto.
Qed.

(** registration discipline: residuals are added only after their parameters *)
Definition disciplined (h : list sop) : Prop := forall h1 r h2 s, h = h1 ++ AddRes r :: h2 ->
  crun blocks h1 = Ret s -> forall p, p ∈ blocks r -> p ∈ s_params (c_base s).
Lemma disciplined_run h : disciplined h -> forall s, crun blocks h = Ret s ->
  c_pparams s = s_params (c_base s).
Proof.
  induction h as [|o h IH] using rev_ind; intros D s E.
  - injection E as <-. auto.
  - rewrite crun_snoc in E. destruct (crun blocks h) as [s0| |] eqn:E0; cbn in E; try discriminate.
    assert (D' : disciplined h).
    { intros h1 r h2 s1 Eh. apply (D h1 r (h2 ++ [o])). rewrite Eh, <- app_assoc. auto. }
    specialize (IH D' s0 eq_refl).
    pose proof (CInv_run h s0 E0) as I. destruct o; cbn in E.
    + injection E as <-. cbn. now rewrite IH.
    + unfold c_add_residual in E. destruct (add_residual (c_base s0) r) as [b| |] eqn:Eb; cbn in E; try discriminate.
      destruct (decide (base.NoDup (blocks r))); [|discriminate]. injection E as <-. cbn.
      unfold SolverModel.add_residual in Eb. destruct (decide (r ∈ s_res (c_base s0))) as [|Hin]; [discriminate|].
      injection Eb as <-. cbn. rewrite IH.
      pose proof (D h r [] s0 eq_refl E0). set_solver.
    + rewrite c_remove_param_effect in E by auto.
      destruct (decide (p ∈ s_params (c_base s0))); [|discriminate]. injection E as <-. cbn. now rewrite IH.
    + assert (Hr : r ∈ s_res (c_base s0)).
      { unfold SolverModel.c_remove_residual in E. destruct (decide (r ∈ s_res (c_base s0))); auto. discriminate. }
      destruct (c_remove_residual_effect s0 r I Hr) as (s1 & E1 & F1 & F2 & F3 & F4 & F5 & F6 & F7).
      rewrite E in E1. injection E1 as <-. now rewrite F5, F2.
Qed.
End S.
