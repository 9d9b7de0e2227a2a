(** * Property theorems C20, C21 (solver bookkeeping) *)
From Verif Require Import Base SolverModel SolverProofs.
From stdpp Require Import gmap sets list.
Local Open Scope Z_scope.

Local Ltac by_dec := refine (bool_decide_unpack _ _); vm_compute; exact I.

(** ** Specification.  [blocks r] are the parameters residual [r] was built with. *)
Section Spec.
Context (blocks : Z -> list Z).
(** the two tables are mutually inverse, list the blocks of exactly the registered
    residuals, and mention no other residual *)
Definition tables_consistent (s : solver) : Prop :=
  (forall r p, r ∈ mget (s_p2r s) p <-> p ∈ mget (s_r2p s) r) /\
  (forall r p, p ∈ mget (s_r2p s) r <-> r ∈ s_res s /\ p ∈ blocks r).
(** a history in which residuals are added only after all their parameters *)
Definition registered_first (h : list sop) : Prop := forall h1 r h2 s, h = h1 ++ AddRes r :: h2 ->
  crun blocks h1 = Ret s -> forall p, p ∈ blocks r -> p ∈ s_params (c_base s).
End Spec.

(** ** C20, ceres back end: every history *)
Theorem C20_ceres_tables : forall blocks h s, crun blocks h = Ret s ->
  tables_consistent blocks (c_base s) /\
  (* the ceres problem holds the same residuals, and every registered parameter *)
  c_pres s = s_res (c_base s) /\ s_params (c_base s) ⊆ c_pparams s /\
  (* with parameters registered first, the tables mention only registered parameters
     and the ceres problem has exactly those *)
  (registered_first blocks h ->
     c_pparams s = s_params (c_base s) /\
     forall r p, r ∈ mget (s_p2r (c_base s)) p -> p ∈ s_params (c_base s)).
Proof.
  intros blocks h s E. pose proof (CInv_run blocks h s E) as [[J1 J2 J3] I2 I3 I4 I5 I6].
  split; [|split; [auto|split; [auto|]]].
  - split; auto. intros r p. rewrite I2, J3. tauto.
  - intros D. pose proof (disciplined_run blocks h D s E) as Hpp. split; auto.
    intros r p Hr. rewrite <- Hpp. apply I2 in Hr. eapply I6; apply Hr.
Qed.
Print Assumptions C20_ceres_tables.

(** Removing a registered parameter always succeeds and removes exactly the residuals that
    use it; everything else stays. *)
Theorem C20_ceres_remove_param : forall blocks h s p, crun blocks h = Ret s -> p ∈ s_params (c_base s) ->
  exists s', cstep blocks s (RemParam p) = Ret s' /\
    (forall r, r ∈ s_res (c_base s') <-> r ∈ s_res (c_base s) /\ p ∉ blocks r) /\
    (forall q, q ∈ s_params (c_base s') <-> q ∈ s_params (c_base s) /\ q <> p).
Proof.
  intros blocks h s p E Hp. pose proof (CInv_run blocks h s E) as I.
  exists (c_removed blocks s p). split.
  { cbn [cstep]. rewrite c_remove_param_effect by auto. now rewrite decide_True. }
  split.
  - intros r. cbn. unfold with_param. rewrite elem_of_difference, elem_of_filter. tauto.
  - intros q. cbn. rewrite elem_of_difference, elem_of_singleton. tauto.
Qed.
Print Assumptions C20_ceres_remove_param.

(** Adding and removing residuals does what it says. *)
Theorem C20_ceres_residuals : forall blocks h s r, crun blocks h = Ret s ->
  (forall s', cstep blocks s (AddRes r) = Ret s' ->
     r ∉ s_res (c_base s) /\ s_res (c_base s') = {[r]} ∪ s_res (c_base s) /\ s_params (c_base s') = s_params (c_base s)) /\
  (r ∈ s_res (c_base s) -> exists s', cstep blocks s (RemRes r) = Ret s' /\
     s_res (c_base s') = s_res (c_base s) ∖ {[r]} /\ s_params (c_base s') = s_params (c_base s)).
Proof.
  intros blocks h s r E. pose proof (CInv_run blocks h s E) as I. split.
  - intros s' E'. cbn in E'. unfold c_add_residual, add_residual in E'.
    destruct (decide (r ∈ s_res (c_base s))); cbn in E'; [discriminate|].
    destruct (decide (base.NoDup (blocks r))); [|discriminate]. injection E' as <-. auto.
  - intros Hr. destruct (c_remove_residual_effect blocks s r I Hr) as (s1 & E1 & F1 & F2 & _). eauto.
Qed.
Print Assumptions C20_ceres_residuals.

(** ** C20, base class (yac_solver_t): proved part.  The residual-to-parameter table is
    always exact, the parameter-to-residual table is exact for registered residuals, and a
    removal that does not throw removes exactly the parameter's residuals; what is missing
    is that the parameter-to-residual table never mentions removed residuals. *)
Theorem C20_base_tables_partial : forall blocks h s, srun blocks h = Ret s ->
  (forall r p, p ∈ mget (s_r2p s) r <-> r ∈ s_res s /\ p ∈ blocks r) /\
  (forall r p, r ∈ s_res s -> (r ∈ mget (s_p2r s) p <-> p ∈ blocks r)) /\
  (forall p s', sstep blocks s (RemParam p) = Ret s' ->
     (forall r, r ∈ s_res s' <-> r ∈ s_res s /\ p ∉ blocks r) /\
     (forall q, q ∈ s_params s' <-> q ∈ s_params s /\ q <> p)).
Proof.
  intros blocks h s E. pose proof (SInv_run blocks h s E) as I. split; [apply I|]. split; [apply I|].
  intros p s' E'. destruct (remove_param_effect blocks s p s' I E') as (E1 & E2 & E3 & _ & _). split.
  - intros r. rewrite E3. unfold with_param. rewrite elem_of_difference, elem_of_filter. tauto.
  - intros q. rewrite E2, elem_of_difference, elem_of_singleton. tauto.
Qed.
Print Assumptions C20_base_tables_partial.

(** the example problem: residual 100 uses parameters 1 and 2, residual 101 uses 2 and 3 *)
Definition ex_blocks (r : Z) : list Z := if r =? 100 then [1; 2] else if r =? 101 then [2; 3] else [].
Definition ex_hist : list sop := [AddParam 1; AddParam 2; AddParam 3; AddRes 100; AddRes 101].
Definition get_s {A} (d : A) (x : outcome A) : A := match x with Ret a => a | _ => d end.
Definition ex_state : solver := get_s solver_new (srun ex_blocks ex_hist).
Definition ex_cstate : csolver := get_s csolver_new (crun ex_blocks ex_hist).
Example ex_state_reached : srun ex_blocks ex_hist = Ret ex_state.
Proof. vm_compute. reflexivity. Qed.
Example ex_cstate_reached : crun ex_blocks ex_hist = Ret ex_cstate.
Proof. vm_compute. reflexivity. Qed.
Example C20_ex : 2 ∈ s_params (c_base ex_cstate) /\
  match c_remove_param ex_blocks ex_cstate 1 with Ret s => elements (s_res (c_base s)) = [101] | _ => False end.
Proof. split; [by_dec|]. vm_compute. reflexivity. Qed.

(** After removing parameter 1 the base class still lists residual 100 under parameter 2. *)
Theorem C20_base_tables_refuted : exists blocks h s, srun blocks h = Ret s /\ ~ tables_consistent blocks s.
Proof.
  exists ex_blocks, (ex_hist ++ [RemParam 1]), (get_s solver_new (srun ex_blocks (ex_hist ++ [RemParam 1]))).
  split; [vm_compute; reflexivity|]. intros [H _].
  assert (H1 : 100 ∈ mget (s_p2r (get_s solver_new (srun ex_blocks (ex_hist ++ [RemParam 1])))) 2).
  { by_dec. }
  apply H in H1. revert H1. by_dec.
Qed.
Print Assumptions C20_base_tables_refuted.

(** ** C21 *)
(** ceres back end: any two registered parameters can be removed in either order, with the
    same (exactly equal) final state *)
Theorem C21_ceres_removal_order : forall blocks h s p q, crun blocks h = Ret s -> p <> q ->
  p ∈ s_params (c_base s) -> q ∈ s_params (c_base s) ->
  exists s', obind (cstep blocks s (RemParam p)) (fun s1 => cstep blocks s1 (RemParam q)) = Ret s' /\
             obind (cstep blocks s (RemParam q)) (fun s1 => cstep blocks s1 (RemParam p)) = Ret s'.
Proof.
  intros blocks h s p q E Hne Hp Hq. pose proof (CInv_run blocks h s E) as I. cbn [cstep].
  rewrite !c_remove_param_effect by auto. rewrite !decide_True by auto. cbn [obind].
  rewrite !c_remove_param_effect by (now apply CInv_removed).
  rewrite !decide_True by (cbn; set_solver).
  eexists. split; [reflexivity|]. f_equal. unfold c_removed. cbn.
  set (R := s_res (c_base s)).
  assert (HR : R ∖ with_param blocks q R ∖ with_param blocks p (R ∖ with_param blocks q R) =
               R ∖ with_param blocks p R ∖ with_param blocks q (R ∖ with_param blocks p R)).
  { apply set_eq. intros r. unfold with_param. repeat (rewrite elem_of_difference || rewrite elem_of_filter). tauto. }
  rewrite HR. f_equal. 2:{ set_solver. } f_equal.
  - set_solver.
  - apply map_eq. intros k.
    destruct (decide (k = p)) as [->|Hkp].
    { rewrite lookup_delete. rewrite lookup_delete_ne by auto. rewrite lookup_fmap, lookup_delete. auto. }
    rewrite lookup_delete_ne by auto.
    destruct (decide (k = q)) as [->|Hkq].
    { rewrite lookup_delete. rewrite lookup_fmap, lookup_delete. auto. }
    rewrite lookup_delete_ne by auto. rewrite !lookup_fmap, !lookup_delete_ne, !lookup_fmap by auto.
    destruct (s_p2r (c_base s) !! k) as [S|] eqn:Ek; cbn; auto. f_equal.
    assert (HS : forall r, r ∈ S -> r ∈ R).
    { intros r Hr. pose proof (proj1 (ci_p2r blocks s I r k)). unfold mget in H. rewrite Ek in H. cbn in H. tauto. }
    apply set_eq. intros r. unfold with_param. repeat (rewrite elem_of_difference || rewrite elem_of_filter).
    specialize (HS r). tauto.
  - apply map_eq. intros k. apply option_eq. intros v. rewrite !map_filter_lookup_Some. cbn.
    unfold with_param. repeat (rewrite elem_of_difference || rewrite elem_of_filter). tauto.
Qed.
Print Assumptions C21_ceres_removal_order.
Example C21_ex : 1 ∈ s_params (c_base ex_cstate) /\ 2 ∈ s_params (c_base ex_cstate) /\
  100 ∈ with_param ex_blocks 1 (s_res (c_base ex_cstate)) /\ 100 ∈ with_param ex_blocks 2 (s_res (c_base ex_cstate)).
Proof. repeat split; by_dec. Qed.

(** base class: holds when the two parameters share no residual (and neither has been left
    with removed residuals by earlier removals) *)
Theorem C21_base_removal_order_partial : forall blocks h s p q, srun blocks h = Ret s -> p <> q ->
  p ∈ s_params s -> q ∈ s_params s ->
  (forall r, r ∈ mget (s_p2r s) p \/ r ∈ mget (s_p2r s) q -> r ∈ s_res s) ->
  (forall r, r ∈ s_res s -> ~ (p ∈ blocks r /\ q ∈ blocks r)) ->
  exists s', obind (sstep blocks s (RemParam p)) (fun s1 => sstep blocks s1 (RemParam q)) = Ret s' /\
             obind (sstep blocks s (RemParam q)) (fun s1 => sstep blocks s1 (RemParam p)) = Ret s'.
Proof.
  intros blocks h s p q E Hne Hp Hq Hst Hsh. pose proof (SInv_run blocks h s E) as I. cbn [sstep].
  assert (Two : forall a b, a <> b -> a ∈ s_params s -> b ∈ s_params s ->
    (forall r, r ∈ mget (s_p2r s) a \/ r ∈ mget (s_p2r s) b -> r ∈ s_res s) ->
    (forall r, r ∈ s_res s -> ~ (a ∈ blocks r /\ b ∈ blocks r)) ->
    exists s', obind (remove_param s a) (fun s1 => remove_param s1 b) = Ret s' /\
      s_params s' = s_params s ∖ {[a]} ∖ {[b]} /\
      s_res s' = s_res s ∖ with_param blocks a (s_res s) ∖ with_param blocks b (s_res s) /\
      s_p2r s' = delete b (delete a (s_p2r s)) /\
      s_r2p s' = filter (fun kv => kv.1 ∉ with_param blocks a (s_res s) ∪ with_param blocks b (s_res s)) (s_r2p s)).
  { clear p q Hne Hp Hq Hst Hsh. intros a b Hne Ha Hb Hst Hsh.
    destruct (proj2 (remove_param_succeeds blocks s a I)) as [s1 E1]; [split; auto|].
    destruct (remove_param_effect blocks s a s1 I E1) as (_ & A2 & A3 & A4 & A5).
    pose proof (SInv_remove_param blocks s a s1 I E1) as I1.
    assert (Hw : with_param blocks b (s_res s1) = with_param blocks b (s_res s)).
    { apply set_eq. intros r. rewrite A3. unfold with_param.
      repeat (rewrite elem_of_difference || rewrite elem_of_filter). specialize (Hsh r). tauto. }
    destruct (proj2 (remove_param_succeeds blocks s1 b I1)) as [s2 E2].
    { split; [rewrite A2; set_solver|]. intros r. rewrite A4, mget_delete, decide_False by auto.
      intros Hr. rewrite A3. assert (Hr' : r ∈ s_res s) by auto. pose proof (si_old blocks s I r b Hr).
      unfold with_param. rewrite elem_of_difference, elem_of_filter. specialize (Hsh r Hr'). tauto. }
    destruct (remove_param_effect blocks s1 b s2 I1 E2) as (_ & B2 & B3 & B4 & B5).
    exists s2. rewrite E1. cbn [obind]. split; auto. rewrite B2, B3, B4, B5, Hw, A2, A3, A4, A5.
    split; auto. split; [set_solver|]. split; auto.
    apply map_eq. intros k. apply option_eq. intros v. rewrite !map_filter_lookup_Some. cbn.
    rewrite elem_of_union. tauto. }
  destruct (Two p q) as (s1 & E1 & A1 & A2 & A3 & A4); auto.
  destruct (Two q p) as (s2 & E2 & B1 & B2 & B3 & B4); auto.
  { intros r [Hr|Hr]; auto. } { intros r Hr [X Y]. apply (Hsh r); auto. }
  exists s1. split; auto. rewrite E2. f_equal.
  destruct s1 as [a1 b1 c1 d1], s2 as [a2 b2 c2 d2]; cbn in *. subst. f_equal.
  - set_solver.
  - set_solver.
  - apply delete_commute.
  - apply map_eq. intros k. apply option_eq. intros v. rewrite !map_filter_lookup_Some. cbn. set_solver.
Qed.
Print Assumptions C21_base_removal_order_partial.
Example C21_base_ex : 1 ∈ s_params ex_state /\ 3 ∈ s_params ex_state /\
  (forall r, r ∈ mget (s_p2r ex_state) 1 \/ r ∈ mget (s_p2r ex_state) 3 -> r ∈ s_res ex_state) /\
  (forall r, r ∈ s_res ex_state -> ~ (1 ∈ ex_blocks r /\ 3 ∈ ex_blocks r)).
Proof.
  split; [by_dec|]. split; [by_dec|].
  split.
  - intros r Hr. assert (Hs : mget (s_p2r ex_state) 1 ∪ mget (s_p2r ex_state) 3 ⊆ s_res ex_state).
    { by_dec. } set_solver.
  - intros r _. unfold ex_blocks. destruct (r =? 100), (r =? 101); set_solver.
Qed.

(** base class: two parameters sharing a residual: after the first is removed the second
    cannot be removed (FATAL), in either order *)
Theorem C21_base_removal_order_refuted : exists blocks h s, srun blocks h = Ret s /\
  1 ∈ s_params s /\ 2 ∈ s_params s /\
  obind (sstep blocks s (RemParam 1)) (fun s1 => sstep blocks s1 (RemParam 2)) = Throw Fatal /\
  obind (sstep blocks s (RemParam 2)) (fun s1 => sstep blocks s1 (RemParam 1)) = Throw Fatal.
Proof.
  exists ex_blocks, ex_hist, ex_state. split; [vm_compute; reflexivity|].
  split; [by_dec|]. split; [by_dec|].
  split; vm_compute; reflexivity.
Qed.
Print Assumptions C21_base_removal_order_refuted.
