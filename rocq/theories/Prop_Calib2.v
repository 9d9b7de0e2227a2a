(** * Property theorems C30, C31 (next-best-view) *)
From Coq Require Import Reals Lra.
From Verif Require Import Base.
From stdpp Require Import gmap sets list.
From Verif Require Import AprilGridModel AprilGridSpec AprilGridProofs AprilGridIOModel SolverModel SolverProofs CalibModel CalibSpec CalibProofs CalibProofs2 CalibProofs3 CalibProofs4 CalibProofs5 CalibExample.
Local Open Scope Z_scope.

(** ** C30: a rejected candidate with a new timestamp leaves no trace, whatever values the
    optimiser had reached and whether the information could be computed or not.
    (exts ⊆ cams: there are no extrinsics without a camera.) *)
Theorem C30_rejected_view_restored_partial : forall (blocks : Z -> list Z) rows cols size sp (V : Type) ext_addr cam_addr base
    (k k' : calib V) e thr n info hs gs,
  0 <= rows -> 0 <= cols -> reach blocks rows cols size sp ext_addr cam_addr base k ->
  fresh_env blocks ext_addr cam_addr e k -> recorded rows cols size sp hs gs -> new_ts k gs ->
  (forall c, is_Some (k_exts k !! c) -> is_Some (k_cams k !! c)) ->
  add_nbv_view blocks (fiducial_corners rows cols size sp) e thr n info k gs = Ret (false, k') ->
  k_cams k' = k_cams k /\ k_exts k' = k_exts k /\ k_poses k' = k_poses k /\ k_views k' = k_views k /\
  k_vts k' = k_vts k /\ k_info k' = k_info k /\
  s_params (c_base (k_solver k')) = s_params (c_base (k_solver k)) /\
  s_res (c_base (k_solver k')) = s_res (c_base (k_solver k)) /\
  c_pparams (k_solver k') = c_pparams (k_solver k) /\ c_pres (k_solver k') = c_pres (k_solver k).
Proof.
  intros blocks rows cols size sp V ext_addr cam_addr base k k' e thr n info hs gs Hr Hc Hk F G N Hx.
  pose proof (reach_KInv blocks rows cols size sp Hr Hc ext_addr cam_addr base k Hk) as K.
  pose proof (recorded_ok blocks rows cols size sp Hr Hc ext_addr cam_addr hs gs G) as GO.
  unfold add_nbv_view.
  destruct (add_view blocks (fiducial_corners rows cols size sp) e k gs) as [[r k1]| |] eqn:Ea; cbn [obind]; try discriminate. cbn [fst snd].
  destruct (first_detected gs) as [ts|] eqn:Hfd.
  2: { rewrite add_view_undetected in Ea by auto. injection Ea as <- <-. intros E. injection E as <-. auto 10. }
  destruct (estimate_ret blocks rows cols size sp ext_addr cam_addr base k e gs ts _ K Hfd (N ts Hfd) Ea) as [T HT].
  destruct (add_view_new blocks rows cols size sp Hr Hc ext_addr cam_addr base k e gs (content_of hs) ts T K F GO Hfd (N ts Hfd) HT)
    as (k1' & v & E1 & K1 & A1 & A2 & _ & _ & _ & _ & A7 & _).
  rewrite Ea in E1. injection E1 as -> <-.
  destruct (cache_estimates k1) as [h| |] eqn:Eh; cbn [obind]; try discriminate.
  assert (Hrs : restore_estimates h (solved n k1) = k1).
  { apply restore_solved; auto. intros c. rewrite !keys_lookup, A1, A2. apply Hx. }
  rewrite Hrs. change (k_vts (solved n k1)) with (k_vts k1). rewrite A7, last_snoc.
  destruct (add_remove blocks rows cols size sp Hr Hc ext_addr cam_addr base k e gs (content_of hs) ts k1 K F GO Hfd (N ts Hfd) Ea)
    as (k2 & E2 & B1 & B2 & B3 & B4 & B5 & B6 & B7 & B8 & B9 & B10 & B11 & B12).
  rewrite E2. cbn [obind].
  destruct info as [i|]; [destruct (gain_below _ _ _)|]; intros E; try discriminate E; injection E as <-; auto 10.
Qed.
Print Assumptions C30_rejected_view_restored_partial.

(** the call itself never fails once the pose of the candidate could be estimated, and it rejects
    exactly when no grid is detected, the information cannot be computed or the gain is too small *)
Theorem C30_decision : forall (blocks : Z -> list Z) rows cols size sp (V : Type) ext_addr cam_addr base
    (k : calib V) e thr n info hs gs r k1,
  0 <= rows -> 0 <= cols -> reach blocks rows cols size sp ext_addr cam_addr base k ->
  fresh_env blocks ext_addr cam_addr e k -> recorded rows cols size sp hs gs -> new_ts k gs ->
  add_view blocks (fiducial_corners rows cols size sp) e k gs = Ret (r, k1) ->
  exists b k', add_nbv_view blocks (fiducial_corners rows cols size sp) e thr n info k gs = Ret (b, k') /\
    (b = true <-> r = true /\ exists i, info = Some i /\ gain_below (k_info k) i thr = false) /\
    (b = true -> k' = mkCalib (k_cams (solved n k1)) (k_exts (solved n k1)) (k_data k1) (k_poses (solved n k1))
                              (k_views k1) (k_vts k1) (k_solver k1) (default (k_info k) info)).
Proof.
  intros blocks rows cols size sp V ext_addr cam_addr base k e thr n info hs gs r k1 Hr Hc Hk F G N Ea.
  pose proof (reach_KInv blocks rows cols size sp Hr Hc ext_addr cam_addr base k Hk) as K.
  pose proof (recorded_ok blocks rows cols size sp Hr Hc ext_addr cam_addr hs gs G) as GO.
  unfold add_nbv_view. rewrite Ea. cbn [obind fst snd].
  destruct (first_detected gs) as [ts|] eqn:Hfd.
  2: { rewrite add_view_undetected in Ea by auto. injection Ea as <- <-. exists false, k. split; [reflexivity|].
       split; [split; [discriminate|intros [? _]; discriminate]|discriminate]. }
  destruct (estimate_ret blocks rows cols size sp ext_addr cam_addr base k e gs ts _ K Hfd (N ts Hfd) Ea) as [T HT].
  destruct (add_view_new blocks rows cols size sp Hr Hc ext_addr cam_addr base k e gs (content_of hs) ts T K F GO Hfd (N ts Hfd) HT)
    as (k1' & v & E1 & K1 & A1 & A2 & _ & A4 & _ & _ & A7 & _).
  rewrite Ea in E1. injection E1 as -> <-.
  destruct (cache_ok blocks rows cols size sp ext_addr cam_addr base k1 K1) as [h Eh]. rewrite Eh. cbn [obind].
  change (k_vts (solved n k1)) with (k_vts k1). rewrite A7, last_snoc.
  assert (Kr : KInv blocks rows cols size sp ext_addr cam_addr base (restore_estimates h (solved n k1)))
    by (apply restore_KInv, solved_KInv; auto).
  destruct (remove_view_ok blocks rows cols size sp Hr Hc ext_addr cam_addr base _ ts Kr) as (k3 & E3 & _).
  rewrite E3. cbn [obind]. change (k_info (solved n k1)) with (k_info k1). rewrite A4.
  destruct info as [i|].
  - destruct (gain_below (k_info k) i thr) eqn:Eg.
    + exists false, k3. split; [reflexivity|]. split; [|discriminate].
      split; [discriminate|]. intros [_ (i' & E' & H)]. injection E' as <-. congruence.
    + eexists true, _. split; [reflexivity|]. split; [|intros _; rewrite <- A7; reflexivity].
      split; [|auto]. intros _. split; auto. exists i. auto.
  - exists false, k3. split; [reflexivity|]. split; [|discriminate].
    split; [discriminate|]. intros [_ (i' & E' & H)]. discriminate.
Qed.
Print Assumptions C30_decision.
Example C30_ex : let n := mkValues (fun _ => 1) (fun _ => 2) (fun _ => 3) in
  exists k', add_nbv_view ex_blocks ex_corners (ex_env 2 60) 1%R n None ex_k1 (ex_gs 8) = Ret (false, k') /\
    k_vts k' = [7] /\ k_cams k' !! 0 = Some 10 /\
    fresh_env ex_blocks ex_ext ex_cam (ex_env 2 60) ex_k1 /\ recorded 1 1 1%R 0%R (ex_hist 8) (ex_gs 8) /\
    new_ts ex_k1 (ex_gs 8) /\ (forall c, is_Some (k_exts ex_k1 !! c) -> is_Some (k_cams ex_k1 !! c)).
Proof.
  cbv zeta. set (n := mkValues _ _ _).
  assert (H : match add_nbv_view ex_blocks ex_corners (ex_env 2 60) 1%R n None ex_k1 (ex_gs 8) with
    Ret (b, k') => Some (b, k_vts k', k_cams k' !! 0) | _ => None end = Some (false, [7], Some 10)) by (vm_compute; reflexivity).
  destruct (add_nbv_view ex_blocks ex_corners (ex_env 2 60) 1%R n None ex_k1 (ex_gs 8)) as [[b k']| |]; try discriminate.
  injection H as -> H1 H2. exists k'. split; [reflexivity|]. split; [auto|]. split; [auto|].
  split; [apply ex_fresh2|]. split; [apply ex_recorded|]. split.
  - intros ts H. assert (ts = 8) as -> by (vm_compute in H; injection H; auto).
    assert (Hd : bool_decide (8 ∈ dom (k_views ex_k1)) = false) by (vm_compute; reflexivity).
    apply bool_decide_eq_false in Hd. now apply not_elem_of_dom in Hd.
  - intros c. assert (Hc : k_cams ex_k1 = {[0 := 10]}) by (vm_compute; reflexivity).
    assert (He : k_exts ex_k1 = {[0 := 20]}) by (vm_compute; reflexivity). rewrite Hc, He.
    intros [x H]. apply lookup_singleton_Some in H. destruct H as [<- _]. rewrite lookup_singleton. eauto.
Qed.

(** Without "new timestamp" the claim is false: rejecting a candidate that has the timestamp of a
    view already in the problem removes that view and its pose. *)
Theorem C30_existing_timestamp_refuted : exists (n : values Z) k',
  ex_reach ex_k1 /\ fresh_env ex_blocks ex_ext ex_cam (ex_env 2 60) ex_k1 /\ recorded 1 1 1%R 0%R (ex_hist 7) (ex_gs 7) /\
  add_nbv_view ex_blocks ex_corners (ex_env 2 60) 1%R n None ex_k1 (ex_gs 7) = Ret (false, k') /\
  7 ∈ dom (k_views ex_k1) /\ 7 ∉ dom (k_views k') /\ 7 ∉ dom (k_poses k').
Proof.
  set (n := mkValues (fun _ : Z => 1) (fun _ : Z => 2) (fun _ : Z => 3)).
  set (o := add_nbv_view ex_blocks ex_corners (ex_env 2 60) 1%R n None ex_k1 (ex_gs 7)).
  assert (H : match o with Ret (b, k') => (b, bool_decide (7 ∉ dom (k_views k')), bool_decide (7 ∉ dom (k_poses k'))) | _ => (true, false, false) end
    = (false, true, true)) by (vm_compute; reflexivity).
  assert (E : exists b k', o = Ret (b, k') /\ (b, bool_decide (7 ∉ dom (k_views k')), bool_decide (7 ∉ dom (k_poses k'))) = (false, true, true)).
  { revert H. clearbody o. destruct o as [[b k']| |]; [|discriminate|discriminate]. exists b, k'. auto. }
  clear H. destruct E as (b & k' & E & H). pose proof (f_equal fst (f_equal fst H)) as H1. pose proof (f_equal snd (f_equal fst H)) as H2.
  pose proof (f_equal snd H) as H3. cbn [fst snd] in H1, H2, H3. subst b.
  apply bool_decide_eq_true in H2. apply bool_decide_eq_true in H3.
  exists n, k'. split; [apply ex_reach1|]. split; [apply ex_fresh2|]. split; [apply ex_recorded|]. split; [exact E|].
  split; [|split; auto]. refine (bool_decide_unpack _ _); vm_compute; exact I.
Qed.
Print Assumptions C30_existing_timestamp_refuted.

(** ** C31: the stored information only changes on acceptance, and then drops by at least twice
    the threshold (it is the log-determinant of the covariance: lower is better).  One call: *)
Theorem C31_gain_test : forall (blocks : Z -> list Z) corners (V : Type) (k k' : calib V) e thr n info gs b,
  add_nbv_view blocks corners e thr n info k gs = Ret (b, k') ->
  (b = false -> k_info k' = k_info k) /\
  (b = true -> exists i, info = Some i /\ k_info k' = i /\
     forall x y, k_info k = XF x -> i = XF y -> (1 / 2 * (x - y) >= thr)%R).
Proof.
  intros blocks corners V k k' e thr n info gs b. unfold add_nbv_view.
  assert (Hadd : forall r k1, add_view blocks corners e k gs = Ret (r, k1) -> k_info k1 = k_info k).
  { unfold add_view. intros r k1. destruct (first_detected gs) as [ts|]; [|intros H; injection H as _ <-; auto]. cbn [k_poses].
    destruct (k_poses k !! ts) as [p|] eqn:Ep; cbn [obind].
    - cbn [k_poses]. rewrite Ep. destruct p as [p val]. destruct (view_ctor _ _ _ _ _ _ _ _ _) as [x| |]; cbn [obind]; try discriminate.
      intros H. injection H as _ <-. reflexivity.
    - unfold add_pose. cbn [k_poses]. rewrite Ep. destruct (e_estimate e _ gs) as [T| |]; cbn [obind]; try discriminate.
      cbn [k_poses]. rewrite lookup_insert. destruct (view_ctor _ _ _ _ _ _ _ _ _) as [x| |]; cbn [obind]; try discriminate.
      intros H. injection H as _ <-. reflexivity. }
  assert (Hrem : forall (k1 : calib V) ts k2, remove_view blocks k1 ts = Ret k2 -> k_info k2 = k_info k1).
  { intros k1 ts k2. unfold remove_view. destruct (k_poses k1 !! ts) as [[p val]|]; cbn [obind].
    - destruct (if has_param (k_solver k1) p then c_remove_param blocks (k_solver k1) p else Ret (k_solver k1)) as [s| |]; cbn [obind]; try discriminate.
      cbn [k_views k_vts]. destruct (k_views k1 !! ts); [|intros H; injection H as <-; reflexivity].
      destruct (erase_first ts (k_vts k1)) as [l| |]; cbn [obind]; try discriminate. intros H. injection H as <-. reflexivity.
    - destruct (k_views k1 !! ts); [|intros H; injection H as <-; reflexivity].
      destruct (erase_first ts (k_vts k1)) as [l| |]; cbn [obind]; try discriminate. intros H. injection H as <-. reflexivity. }
  destruct (add_view blocks corners e k gs) as [[r k1]| |] eqn:Ea; cbn [obind]; try discriminate. cbn [fst snd].
  specialize (Hadd r k1 eq_refl).
  destruct r; [|intros H; injection H as <- <-; split; [auto|discriminate]].
  destruct (cache_estimates k1) as [h| |]; cbn [obind]; try discriminate.
  destruct (last (k_vts (solved n k1))) as [ts|]; [|discriminate].
  change (k_info (solved n k1)) with (k_info k1). rewrite Hadd.
  assert (Hrej : obind (remove_view blocks (restore_estimates h (solved n k1)) ts) (fun k3 => Ret (false, k3)) = Ret (b, k') ->
     b = false /\ k_info k' = k_info k).
  { destruct (remove_view blocks (restore_estimates h (solved n k1)) ts) as [k3| |] eqn:E3; cbn [obind]; try discriminate.
    intros H. injection H as <- <-. split; auto. apply Hrem in E3. rewrite E3. exact Hadd. }
  destruct info as [i|].
  - destruct (gain_below (k_info k) i thr) eqn:Eg.
    + intros H. apply Hrej in H. destruct H as [-> H]. split; [auto|discriminate].
    + intros H. injection H as <- <-. split; [discriminate|]. intros _. exists i. cbn. split; auto. split; auto.
      intros x y Ex Ey. rewrite Ex, Ey in Eg. cbn in Eg. destruct (Rlt_dec _ _) in Eg; [discriminate|]. lra.
  - intros H. apply Hrej in H. destruct H as [-> H]. split; [auto|discriminate].
Qed.
Print Assumptions C31_gain_test.

(** Any sequence of candidates, each with its own environment, optimiser outcome and information *)
Record candidate (V : Type) := mkCand { c_env : env V; c_values : values V; c_info : option xreal; c_grids : list (Z * grid) }.
Arguments c_env {V}. Arguments c_values {V}. Arguments c_info {V}. Arguments c_grids {V}.
(** the calls on the sequence; result: final state and number of accepted views *)
Inductive nbv_run {V} blocks corners thr : list (candidate V) -> calib V -> calib V -> nat -> Prop :=
| nbv_nil k : nbv_run blocks corners thr [] k k 0
| nbv_cons x l k k1 k2 (b : bool) m :
    add_nbv_view blocks corners (c_env x) thr (c_values x) (c_info x) k (c_grids x) = Ret (b, k1) ->
    nbv_run blocks corners thr l k1 k2 m ->
    nbv_run blocks corners thr (x :: l) k k2 ((if b then 1 else 0) + m).
Theorem C31_baseline_monotone : forall (V : Type) blocks corners thr l (k k' : calib V) m x,
  nbv_run blocks corners thr l k k' m ->
  (forall c i, In c l -> c_info c = Some i -> exists y, i = XF y) -> k_info k = XF x ->
  exists y, k_info k' = XF y /\ (y <= x - 2 * thr * INR m)%R.
Proof.
  intros V blocks corners thr l k k' m x H. revert x. induction H as [k|c l k k1 k2 b m E H IH]; intros x Hf Hx.
  - exists x. split; auto. simpl. lra.
  - destruct (C31_gain_test _ _ _ _ _ _ _ _ _ _ _ E) as [H1 H2]. destruct b.
    + destruct (H2 eq_refl) as (i & Ei & Ek & Hg). destruct (Hf c i (or_introl eq_refl) Ei) as [y0 Hy0].
      specialize (Hg x y0 Hx Hy0). destruct (IH y0) as (y & Ey & Hy); [intros; eapply Hf; eauto; right; auto|congruence|].
      exists y. split; auto. rewrite plus_INR. simpl (INR 1). lra.
    + rewrite H1 in IH by auto. destruct (IH x) as (y & Ey & Hy); [intros; eapply Hf; eauto; right; auto|auto|].
      exists y. split; auto.
Qed.
Print Assumptions C31_baseline_monotone.

(** With an infinite stored information (log of a zero determinant; not rejected by the NaN test)
    the gain inf - inf is NaN and the candidate is accepted although nothing was gained, so the
    test does not hold for all doubles. *)
Theorem C31_infinite_information_refuted : forall thr : R,
  exists (k k' : calib Z) n, ex_reach k /\ k_info k = XMinf /\
    add_nbv_view ex_blocks ex_corners (ex_env 1 50) thr n (Some XMinf) k (ex_gs 7) = Ret (true, k') /\ k_info k' = k_info k.
Proof.
  intros thr. set (k := mkCalib (k_cams ex_k0) (k_exts ex_k0) (k_data ex_k0) (k_poses ex_k0) (k_views ex_k0) (k_vts ex_k0) (k_solver ex_k0) XMinf : calib Z).
  set (n := mkValues (fun _ : Z => 1) (fun _ : Z => 2) (fun _ : Z => 3)).
  assert (Hk : ex_reach k).
  { apply R_init. exact ex_initial. }
  destruct (add_view ex_blocks ex_corners (ex_env 1 50) k (ex_gs 7)) as [[r k1]| |] eqn:Ea.
  2,3: exfalso; assert (H : is_ret (add_view ex_blocks ex_corners (ex_env 1 50) k (ex_gs 7)) = true) by (vm_compute; reflexivity);
       rewrite Ea in H; discriminate.
  assert (r = true) as ->.
  { assert (H : match add_view ex_blocks ex_corners (ex_env 1 50) k (ex_gs 7) with Ret (b, _) => b | _ => false end = true) by (vm_compute; reflexivity).
    now rewrite Ea in H. }
  destruct (C30_decision ex_blocks 1 1 1%R 0%R Z ex_ext ex_cam (list_to_set [0; 1]) k (ex_env 1 50) thr n (Some XMinf) (ex_hist 7) (ex_gs 7) true k1)
    as (b & k' & E & Hb & Hv); [lia|lia|exact Hk| |apply ex_recorded|intros ts _; reflexivity|exact Ea|].
  { destruct (ex_fresh0 1 50) as [A B C D]; [lia|]. split; [exact A|exact B|exact C|exact D]. }
  assert (b = true) as -> by (apply Hb; split; auto; exists XMinf; auto).
  exists k, k', n. split; auto. split; auto. split; [exact E|]. rewrite (Hv eq_refl). reflexivity.
Qed.
Print Assumptions C31_infinite_information_refuted.
