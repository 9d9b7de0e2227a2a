(** * C94, C95, C98: the motion-capture calibrator: first guess, bookkeeping, outliers *)
From Verif Require Import Base GeomModel GeomSpec GeomProofs Prop_Geom StatsModel Prop_Stats MocapModel MocapSpec MocapProofs MocapProofs2 MocapProofs3 MocapProofs4.
From Verif Require CalibModel Prop_Vi5 Prop_Vi9.
From Coq Require Import Reals Lra Sorted Permutation.
Local Open Scope Z_scope.

(** ** Specification *)
(** solvepnp answers with a rigid transform *)
Definition rigid_pnp (pnp : list R -> list corner -> option mat4) : Prop := forall c l T, pnp c l = Some T -> Rigid T.
(** the pose of the target in the camera can be estimated from a frame *)
Definition estimated (pnp : list R -> list corner -> option mat4) (cam : list R) (g : mgrid) (T_CF : mat4) : Prop := g_pts g <> [] /\ pnp cam (g_pts g) = Some T_CF.
Definition hopeless (pnp : list R -> list corner -> option mat4) (cam : list R) (g : mgrid) : Prop := forall T, ~ estimated pnp cam g T.
(** where the camera sees the target when the body is at [T_WM], the camera mounted at [T_MC], the target at [T_WF] *)
Definition sees (T_MC T_WM T_WF : mat4) : mat4 := mmul4 (mmul4 (tf_inv T_MC) (tf_inv T_WM)) T_WF.
(** the state's measurement of corner [k] at time [ts] is off by [r] *)
Definition off_by (proj : list R -> vec3 -> option vec2) (s : mocap) (ts : Z) (k : corner) (r : vec2) : Prop :=
  exists p z, mget ts (e_poses (m_est s)) = Some p /\
    proj (e_cam (m_est s)) (tf_point (sees (tf_pose (e_ext (m_est s))) (tf_pose p) (tf_pose (e_fid (m_est s)))) (k_pt k)) = Some z /\
    r = V2 (v2x (k_z k) - v2x z) (v2y (k_z k) - v2y z).
(** the residuals of all measurements in use that can be computed *)
Definition all_offs (proj : list R -> vec3 -> option vec2) (s : mocap) (rs : list vec2) : Prop :=
  exists os, Forall2 (fun x o => forall r, o = Some r <-> off_by proj s (snd (fst x)) (snd x) r) (in_use s) os /\
    rs = flat_map (fun o => match o with Some r => [r] | None => [] end) os.

Lemma tf_pose_vec T : Rigid T -> tf_pose (tf_vec T) = T.
Proof.
  intros (C & r & HC & ->). unfold tf_pose, tf_vec, tf_q. cbn [p_r p_q].
  assert (E1 : tf_trans (tf C r) = r) by (apply GeomProofs.V3_ext; reflexivity). rewrite E1. unfold tf_quat.
  assert (E3 : tf_rot (tf C r) = C) by (apply GeomProofs.M3_ext; reflexivity). rewrite E3. f_equal. apply GeomProofs.to_rot_of_rot; apply HC.
Qed.
Lemma estimated_iff pnp cam g T : estimated pnp cam g T <-> estimate pnp cam g = Some T.
Proof. unfold estimated, estimate. destruct (g_pts g) as [|k l]; [split; [intros (K & _); congruence|discriminate]|]. split; [tauto|]. intros H. split; [discriminate|exact H]. Qed.
Lemma hopeless_iff pnp cam g : hopeless pnp cam g <-> estimate pnp cam g = None.
Proof.
  unfold hopeless. split.
  - intros H. destruct (estimate pnp cam g) as [T|] eqn:E; [|auto]. exfalso. apply (H T), estimated_iff, E.
  - intros H T K. apply estimated_iff in K. congruence.
Qed.
Lemma residual_iff proj s ts k r : residual proj (m_est s) ts k = Some r <-> off_by proj s ts k r.
Proof.
  unfold residual, off_by, sees. destruct (mget ts (e_poses (m_est s))) as [p|]; [|split; [discriminate|intros (p & z & K & _); discriminate K]].
  destruct (proj _ _) as [z|] eqn:Ez.
  - split; [intros K; injection K as <-; exists p, z; auto|]. intros (p' & z' & E1 & E2 & ->). injection E1 as <-. rewrite Ez in E2. injection E2 as <-. reflexivity.
  - split; [discriminate|]. intros (p' & z' & E1 & E2 & _). injection E1 as <-. congruence.
Qed.
Lemma all_offs_iff proj s rs : all_offs proj s rs <-> rs = get_residuals proj s.
Proof.
  assert (G : forall l os, Forall2 (fun x o => forall r, o = Some r <-> off_by proj s (snd (fst x)) (snd x) r) l os ->
    flat_map (fun o => match o with Some r => [r] | None => [] end) os = flat_map (fun x : rid * Z * corner => match residual proj (m_est s) (snd (fst x)) (snd x) with Some r => [r] | None => [] end) l).
  { intros l os H. induction H as [|x o l os Hx H IH]; [reflexivity|]. cbn [flat_map]. rewrite IH. f_equal. destruct o as [r|].
    - assert (K := proj1 (Hx r) eq_refl). apply residual_iff in K. rewrite K. reflexivity.
    - destruct (residual _ _ _ _) as [r|] eqn:E; [|reflexivity]. apply residual_iff in E. apply Hx in E. discriminate E. }
  assert (U : flat_map (fun x : rid * Z * corner => match residual proj (m_est s) (snd (fst x)) (snd x) with Some r => [r] | None => [] end) (in_use s) = get_residuals proj s).
  { unfold in_use, get_residuals, view_residuals. induction (m_views s) as [|(t & v) l IH]; [reflexivity|]. cbn [flat_map fst snd]. rewrite flat_map_app, IH. f_equal.
    clear. induction (v_res v) as [|rc m IH]; [reflexivity|]. cbn [map flat_map fst snd]. rewrite IH. reflexivity. }
  split.
  - intros (os & H & ->). rewrite (G _ _ H). exact U.
  - intros ->. exists (map (fun x : rid * Z * corner => residual proj (m_est s) (snd (fst x)) (snd x)) (in_use s)). split.
    + clear. induction (in_use s) as [|x l IH]; [constructor|]. cbn [map]. constructor; [|exact IH]. intros r. apply residual_iff.
    + rewrite <- U. clear. induction (in_use s) as [|x l IH]; [reflexivity|]. cbn [map flat_map]. rewrite <- IH. reflexivity.
Qed.

Section T.
Context (pnp : list R -> list corner -> option mat4) (proj : list R -> vec3 -> option vec2)
        (slv : Z -> list (Z * corner) -> est -> values) (info : problem -> est -> option CalibModel.xreal)
        (shuffle : list Z -> list Z) (cfg : settings).

(** ** C94: the first guess *)
Lemma latest_last cam T_WF l g T r T_CF acc : estimate pnp cam g = Some T_CF -> (forall x, In x r -> estimate pnp cam (fst x) = None) ->
  latest (suggests pnp cam T_WF) (l ++ (g, T) :: r) acc = Some (mmul4 (mmul4 (tf_inv (tf_pose (tf_vec T))) T_WF) (tf_inv T_CF)).
Proof.
  intros Eg Hr. revert acc. induction l as [|x l IH]; intros acc; cbn [app latest]; [|apply IH].
  unfold suggests at 2. cbn [fst snd]. rewrite Eg. generalize (mmul4 (mmul4 (tf_inv (tf_pose (tf_vec T))) T_WF) (tf_inv T_CF)). intros X.
  induction r as [|y r IHr]; [reflexivity|]. cbn [latest]. unfold suggests at 2. rewrite (Hr y (or_introl eq_refl)). apply IHr. intros z Hz. apply Hr. right. exact Hz.
Qed.
Lemma combine_split {A B} (l : list (A * B)) : List.combine (map fst l) (map snd l) = l.
Proof. induction l as [|(a & b) l IH]; [reflexivity|]. cbn. rewrite IH. reflexivity. Qed.
(** The extrinsics come from the last frame in which the target's pose can be estimated, and from no other frame; the
    calibrator starts without views, with the pose of the body for every frame and the frames it can use. *)
Theorem C94_start : forall cam T_WF gs Ts l g T r T_CF,
  recording gs Ts -> Forall Rigid Ts -> Rigid T_WF -> rigid_pnp pnp ->
  List.combine gs Ts = l ++ (g, T) :: r -> estimated pnp cam g T_CF -> (forall x, In x r -> hopeless pnp cam (fst x)) ->
  exists s, construct pnp cam T_WF gs Ts = Ret s /\
    tf_pose (e_ext (m_est s)) = mmul4 (mmul4 (tf_inv T) T_WF) (tf_inv T_CF) /\ tf_pose (e_fid (m_est s)) = T_WF /\ e_cam (m_est s) = cam /\
    (forall g' T', In (g', T') (List.combine gs Ts) -> exists p, mget (g_ts g') (e_poses (m_est s)) = Some p /\ tf_pose p = T') /\
    map fst (e_poses (m_est s)) = map g_ts gs /\
    (forall ts g', In (ts, g') (m_grids s) <-> In g' gs /\ g_ts g' = ts /\ ~ hopeless pnp cam g') /\ m_views s = [] /\ consistent s.
Proof.
  intros cam T_WF gs Ts l g T r T_CF Rc RT RW Rp El Eg Hr. assert (Eg' := proj1 (estimated_iff _ _ _ _) Eg).
  assert (Hl : latest (suggests pnp cam T_WF) (List.combine gs Ts) None = Some (mmul4 (mmul4 (tf_inv (tf_pose (tf_vec T))) T_WF) (tf_inv T_CF))).
  { rewrite El. apply latest_last; [exact Eg'|]. intros x Hx. apply hopeless_iff, Hr, Hx. }
  assert (RC := Rp _ _ _ (proj2 Eg)).
  assert (Rall : forall g' T', In (g', T') (List.combine gs Ts) -> Rigid T').
  { intros g' T' H. apply in_combine_r in H. rewrite Forall_forall in RT. auto. }
  assert (RT1 : Rigid T) by (apply (Rall g); rewrite El; apply in_elt).
  rewrite (tf_pose_vec T RT1) in Hl.
  destruct (construct pnp cam T_WF gs Ts) as [s| |] eqn:Ec; rewrite (construct_ok pnp cam T_WF gs Ts Rc) in Ec; rewrite Hl in Ec; try discriminate Ec.
  destruct (construct_inv pnp cam T_WF gs Ts s Rc) as (I & V & O & K & _); [rewrite (construct_ok pnp cam T_WF gs Ts Rc), Hl; exact Ec|].
  assert (Es : s = Mocap (CalibModel.XF 0) (used_grids pnp cam (List.combine gs Ts)) [] [] 0 (Problem (map g_ts gs) []) (Est cam (tf_vec T_WF) (tf_vec (mmul4 (mmul4 (tf_inv T) T_WF) (tf_inv T_CF))) (map pose_of (List.combine gs Ts)))).
  { pose proof (f_equal (fun o => match o with Ret x => x | _ => s end) Ec) as E'. cbn beta iota in E'. symmetry. exact E'. }
  exists s. split; [reflexivity|]. rewrite Es in *. clear Es Ec. cbn [m_est e_ext e_fid e_cam e_poses m_grids m_views] in *.
  split; [apply tf_pose_vec; auto using Prop_Vi5.rigid_mul, Prop_Vi5.rigid_inv|]. split; [apply tf_pose_vec, RW|]. split; [reflexivity|].
  split; [|split; [exact K|split; [|split; [reflexivity|]]]].
  - intros g' T' H. exists (tf_vec T'). split; [|apply tf_pose_vec; eauto]. apply mget_in; [apply (i_pasc _ _ I)|]. apply (in_map pose_of _ _ H).
  - intros ts g'. unfold used_grids. destruct Rc as (_ & _ & Hlen).
    assert (Ef : map fst (List.combine gs Ts) = gs).
    { clear -Hlen. revert Ts Hlen. induction gs as [|a gs IH]; intros [|b Ts] H; try discriminate H; cbn; [reflexivity|]. f_equal. apply IH. cbn in H. lia. }
    rewrite Ef. split.
    + intros H. apply in_map_iff in H as (x & E & H). injection E as <- <-. apply filter_In in H as (H1 & H2). split; [auto|]. split; [auto|]. rewrite hopeless_iff. unfold estimable in H2. destruct (estimate pnp cam x); [discriminate|discriminate H2].
    + intros (H1 & <- & H2). apply in_map_iff. exists g'. split; [reflexivity|]. apply filter_In. split; [exact H1|]. rewrite hopeless_iff in H2. unfold estimable. destruct (estimate pnp cam g'); [reflexivity|congruence].
  - apply inv_consistent; [exact I|]. unfold Ord. cbn. constructor.
Qed.
(** With exact data - every estimated pose of the target is the one the camera, mounted at [X], sees - the first guess is
    [X], and a corner measured where it is seen has residual zero. *)
Theorem C94_exact : forall cam T_WF gs Ts X,
  recording gs Ts -> Forall Rigid Ts -> Rigid T_WF -> rigid_pnp pnp -> Rigid X ->
  (forall g T T_CF, In (g, T) (List.combine gs Ts) -> estimated pnp cam g T_CF -> T_CF = sees X T T_WF) ->
  (exists g, In g gs /\ ~ hopeless pnp cam g) ->
  exists s, construct pnp cam T_WF gs Ts = Ret s /\ tf_pose (e_ext (m_est s)) = X /\
    forall g T k, In (g, T) (List.combine gs Ts) -> proj cam (tf_point (sees X T T_WF) (k_pt k)) = Some (k_z k) -> off_by proj s (g_ts g) k (V2 0 0).
Proof.
  intros cam T_WF gs Ts X Rc RT RW Rp RX Hx (g0 & Hg0 & Hh0).
  assert (Hlen : length gs = length Ts) by (symmetry; apply Rc).
  assert (Sp : exists l g T r T_CF, List.combine gs Ts = l ++ (g, T) :: r /\ estimated pnp cam g T_CF /\ forall x, In x r -> hopeless pnp cam (fst x)).
  { assert (Ex : exists x, In x (List.combine gs Ts) /\ ~ hopeless pnp cam (fst x)).
    { clear -Hlen Hg0 Hh0. revert Ts Hlen. induction gs as [|a gs IH]; intros Ts Hlen; [destruct Hg0|]. destruct Ts as [|b Ts]; [discriminate Hlen|]. destruct Hg0 as [ -> |Hg0].
      - exists (g0, b). split; [left; reflexivity|exact Hh0].
      - destruct (IH Hg0 Ts) as (x & H1 & H2); [cbn in Hlen; lia|]. exists x. split; [right; exact H1|exact H2]. }
    revert Ex. generalize (List.combine gs Ts). clear. intros c. induction c as [|(g & T) c IH]; intros (x & Hx & Hn); [destruct Hx|].
    destruct (in_dec (fun a b : bool => bool_dec a b) true (map (fun y => estimable pnp cam (fst y)) c)) as [Hd|Hd].
    - apply in_map_iff in Hd as (y & Ey & Hy). destruct IH as (l & g' & T' & r & T_CF & E & H); [exists y; split; [exact Hy|]|].
      + rewrite hopeless_iff. unfold estimable in Ey. destruct (estimate pnp cam (fst y)); [discriminate|discriminate Ey].
      + exists ((g, T) :: l), g', T', r, T_CF. rewrite E. auto.
    - assert (Hc : forall y, In y c -> hopeless pnp cam (fst y)).
      { intros y Hy. rewrite hopeless_iff. destruct (estimate pnp cam (fst y)) eqn:E; [|auto]. exfalso. apply Hd. apply in_map_iff. exists y. split; [|exact Hy]. unfold estimable. rewrite E. reflexivity. }
      destruct Hx as [ <- |Hx]; [|exfalso; apply Hn, Hc, Hx]. cbn [fst] in Hn. destruct (estimate pnp cam g) as [T_CF|] eqn:E; [|exfalso; apply Hn, hopeless_iff, E].
      exists [], g, T, c, T_CF. split; [reflexivity|]. split; [apply estimated_iff, E|exact Hc]. }
  destruct Sp as (l & g & T & r & T_CF & El & Eg & Hr).
  destruct (C94_start cam T_WF gs Ts l g T r T_CF Rc RT RW Rp El Eg Hr) as (s & Es & Ee & Ef & Ec & Ep & _).
  assert (Rall : forall g' T', In (g', T') (List.combine gs Ts) -> Rigid T') by (intros g' T' H; apply in_combine_r in H; rewrite Forall_forall in RT; auto).
  assert (RT1 : Rigid T) by (apply (Rall g); rewrite El; apply in_elt).
  assert (EX : tf_pose (e_ext (m_est s)) = X).
  { rewrite Ee. rewrite (Hx g T T_CF); [|rewrite El; apply in_elt|exact Eg]. unfold sees. rewrite (mmul4_assoc (tf_inv X) (tf_inv T) T_WF).
    assert (RY : Rigid (mmul4 (tf_inv T) T_WF)) by auto using Prop_Vi5.rigid_mul, Prop_Vi5.rigid_inv.
    rewrite (proj1 (proj2 (C46_rigid_group _ _ (Prop_Vi5.rigid_inv X RX) RY))).
    rewrite (proj1 (proj2 (proj2 (C46_rigid_group X X RX RX)))).
    rewrite <- (mmul4_assoc (mmul4 (tf_inv T) T_WF)).
    rewrite (proj1 (proj1 (C46_tf_inv_two_sided _ RY))). apply mmul4_I_l. }
  exists s. split; [exact Es|]. split; [exact EX|]. intros g' T' k Hg' Hz. destruct (Ep g' T' Hg') as (p & E1 & E2).
  exists p, (k_z k). split; [exact E1|]. rewrite EX, E2, Ef, Ec. split; [exact Hz|]. f_equal; ring.
Qed.
(** Refuted: that the constructor needs no usable frame. When the target's pose cannot be estimated in any frame, the
    extrinsics are read uninitialised; with fewer body poses than frames the poses are read past their end. *)
Theorem C94_none_refuted : forall cam T_WF gs Ts, recording gs Ts -> (forall g, In g gs -> hopeless pnp cam g) -> construct pnp cam T_WF gs Ts = Undef.
Proof.
  intros cam T_WF gs Ts Rc H. rewrite (construct_ok pnp cam T_WF gs Ts Rc). assert (K : latest (suggests pnp cam T_WF) (List.combine gs Ts) None = None); [|rewrite K; reflexivity].
  apply latest_none. split; [reflexivity|]. intros x Hx. unfold suggests. destruct x as [g T]. cbn [fst snd]. assert (Hg := H g (in_combine_l _ _ _ _ Hx)). rewrite hopeless_iff in Hg. rewrite Hg. reflexivity.
Qed.
Theorem C94_short_refuted : forall cam T_WF gs Ts, (length Ts < length gs)%nat -> construct pnp cam T_WF gs Ts = Undef.
Proof.
  intros cam T_WF gs Ts H. unfold construct. assert (K : forall m, add_mocap_poses gs Ts m = Undef); [|rewrite K; reflexivity].
  revert Ts H. induction gs as [|g gs IH]; intros [|T Ts] H m; cbn in H; try lia; cbn [add_mocap_poses]; [reflexivity|]. apply IH. lia.
Qed.

(** ** C95: the views and the problem *)
Lemma show_ok s : show_results proj s = match get_reproj_errors proj s with [] => Undef | _ => Ret s end.
Proof.
  unfold show_results. destruct (get_reproj_errors proj s) as [|a l] eqn:E; [reflexivity|].
  destruct (C51_median (a :: l)) as (m & Em & _); [discriminate|]. rewrite Em. reflexivity.
Qed.
Lemma solve_ninv gs s : NInv gs [] s -> m_views s = [] -> exists s1 s2 s3 n s',
  add_views (m_grids s) s = Ret s1 /\ run_solver slv cfg (c_iter cfg) s1 = Ret s2 /\ filter_all proj cfg s2 = Ret (s3, n) /\ run_solver slv cfg (c_iter cfg) s3 = Ret s' /\
  NInv gs (rev (map fst gs)) s1 /\ NInv gs (rev (map fst gs)) s2 /\ NInv gs (rev (map fst gs)) s3 /\ NInv gs (rev (map fst gs)) s' /\ m_est s1 = m_est s /\ map fst (m_views s1) = map fst gs /\
  m_views s2 = m_views s1 /\ map fst (m_views s') = map fst gs /\
  solve proj slv cfg s = match get_reproj_errors proj s' with [] => Undef | _ => Ret s' end.
Proof.
  intros N V. assert (G := n_gs _ _ _ N). rewrite G.
  destruct (add_views_ninv gs gs [] s N) as (s1 & E1 & N1 & X1 & _ & V1 & P1 & _).
  { rewrite <- G. apply (i_gasc _ _ (n_inv _ _ _ N)). } { intros t g H. split; [exact H|intros []]. }
  rewrite app_nil_r in N1. rewrite V, app_nil_r in P1.
  assert (S1 : map fst (m_views s1) = map fst gs).
  { assert (A1 := i_asc _ _ (n_inv _ _ _ N1)). assert (A2 := i_gasc _ _ (n_inv _ _ _ N)). rewrite G in A2. unfold asc in A1, A2. clear -A1 A2 P1.
    revert A1 A2 P1. generalize (map fst (m_views s1)) (map fst gs). intros a b. revert b. induction a as [|x a IH]; intros b A1 A2 P.
    - apply Permutation_nil in P. auto.
    - destruct b as [|y b]; [apply Permutation_sym, Permutation_nil in P; discriminate P|].
      apply StronglySorted_inv in A1 as (A1 & B1). apply StronglySorted_inv in A2 as (A2 & B2). rewrite Forall_forall in B1, B2.
      assert (x = y).
      { assert (Hx : In x (y :: b)) by (eapply Permutation_in; [exact P|left; auto]). assert (Hy : In y (x :: a)) by (eapply Permutation_in; [apply Permutation_sym, P|left; auto]).
        destruct Hx as [ -> |Hx]; [auto|]. destruct Hy as [ -> |Hy]; [auto|]. specialize (B1 _ Hy). specialize (B2 _ Hx). lia. }
      subst y. f_equal. apply IH; auto. eapply Permutation_cons_inv, P. }
  assert (RS : forall t, NInv gs (rev (map fst gs)) t -> exists t', run_solver slv cfg (c_iter cfg) t = Ret t' /\ NInv gs (rev (map fst gs)) t' /\ m_views t' = m_views t).
  { intros t Nt. destruct (run_solver_inv slv cfg (c_iter cfg) t (n_inv _ _ _ Nt)) as (e & E & K & _ & I'). exists (with_est e t). split; [exact E|]. split; [|reflexivity].
    destruct Nt as [I O Gt D P Rj]. split; auto.
    - intros x Hx Hn. cbn [with_est m_est]. rewrite K. auto.
    - intros x Hx. cbn [with_est m_est m_views]. rewrite K. auto. }
  destruct (RS s1 N1) as (s2 & E2 & N2 & V2).
  destruct (filter_all_inv proj cfg [] s2 (n_inv _ _ _ N2)) as (s3 & E3 & I3 & V3 & X3 & G3 & O3 & _).
  assert (K3 : map fst (m_views s3) = map fst (m_views s2)) by (rewrite V3; apply keep_keys).
  assert (N3 : NInv gs (rev (map fst gs)) s3).
  { destruct N2 as [I O Gt D P Rj]. split; [exact I3| |congruence| | |].
    - unfold Ord. rewrite O3, K3. exact O.
    - intros x. rewrite K3. apply D.
    - intros x. rewrite X3. apply P.
    - intros x. rewrite K3, X3. apply Rj. }
  destruct (RS s3 N3) as (s' & E4 & N4 & V4).
  exists s1, s2, s3, (Z.of_nat (length (outliers proj (m_est s2) (thresholds proj cfg s2) (in_use s2)))), s'.
  split; [exact E1|]. split; [exact E2|]. split; [exact E3|]. split; [exact E4|]. split; [exact N1|]. split; [exact N2|]. split; [exact N3|]. split; [exact N4|]. split; [exact X1|]. split; [exact S1|].
  split; [exact V2|]. split; [rewrite V4, K3, V2; exact S1|]. unfold solve. rewrite G, E1. cbn [obind]. rewrite E2. cbn [obind]. rewrite E3. cbn [obind fst]. rewrite E4. cbn [obind]. apply show_ok.
Qed.
(** solve() on a fresh calibrator uses every usable frame and leaves views and problem consistent; it never aborts, and
    fails only when no reprojection error at all can be computed afterwards (the median of no errors is read). *)
Theorem C95_solve : forall cam T_WF gs Ts s, recording gs Ts -> construct pnp cam T_WF gs Ts = Ret s ->
  exists s', consistent s' /\ map fst (m_views s') = map fst (m_grids s) /\ m_grids s' = m_grids s /\
    solve proj slv cfg s = match get_reproj_errors proj s' with [] => Undef | _ => Ret s' end.
Proof.
  intros cam T_WF gs Ts s Rc E. destruct (construct_inv pnp cam T_WF gs Ts s Rc E) as (_ & V & _). assert (N := construct_ninv pnp cam T_WF gs Ts s Rc E).
  destruct (solve_ninv _ s N V) as (s1 & s2 & s3 & n & s' & _ & _ & _ & _ & _ & _ & _ & N' & _ & _ & _ & K & Es).
  exists s'. split; [apply inv_consistent; [apply (n_inv _ _ _ N')|apply (n_ord _ _ _ N')]|]. split; [exact K|]. split; [apply (n_gs _ _ _ N')|exact Es].
Qed.
(** The same for solve_nbv(), for every order of the frames: the views are among the usable frames. At every moment of the
    loop views and problem are consistent. *)
Lemma views_of s gs done : NInv gs done s -> forall ts, In ts (map fst (m_views s)) -> In ts done.
Proof. intros N. apply (n_done _ _ _ N). Qed.
Theorem C95_loop : forall cam T_WF gs Ts s l, recording gs Ts -> construct pnp cam T_WF gs Ts = Ret s ->
  NoDup l -> incl l (map fst (m_grids s)) ->
  exists s', nbv_loop proj slv info cfg l s = Ret s' /\ consistent s' /\ m_grids s' = m_grids s /\ incl (map fst (m_views s')) l.
Proof.
  intros cam T_WF gs Ts s l Rc E Nd Hl. assert (N := construct_ninv pnp cam T_WF gs Ts s Rc E).
  destruct (nbv_loop_ninv proj slv info cfg (m_grids s) l [] s N Nd) as (s' & E' & N'); [intros ts Hts; split; [apply Hl, Hts|intros []]|].
  exists s'. split; [exact E'|]. split; [apply inv_consistent; [apply (n_inv _ _ _ N')|apply (n_ord _ _ _ N')]|]. split; [apply (n_gs _ _ _ N')|].
  intros ts Hts. apply (n_done _ _ _ N') in Hts. rewrite app_nil_r in Hts. apply in_rev, Hts.
Qed.
Lemma solve_nbv_ninv cam T_WF gs Ts s : recording gs Ts -> construct pnp cam T_WF gs Ts = Ret s -> (forall l, Permutation (shuffle l) l) ->
  exists s1 s', nbv_loop proj slv info cfg (shuffle (nbv_timestamps s)) s = Ret s1 /\ run_solver slv cfg (c_iter cfg) s1 = Ret s' /\
    NInv (m_grids s) (rev (shuffle (map fst (m_grids s)))) s1 /\ NInv (m_grids s) (rev (shuffle (map fst (m_grids s)))) s' /\ m_views s' = m_views s1 /\
    solve_nbv proj slv info shuffle cfg s = match get_reproj_errors proj s' with [] => Undef | _ => Ret s' end.
Proof.
  intros Rc E Hs. assert (N := construct_ninv pnp cam T_WF gs Ts s Rc E). assert (I := n_inv _ _ _ N). destruct (construct_inv pnp cam T_WF gs Ts s Rc E) as (_ & _ & _ & _ & _ & Hne).
  rewrite (nbv_timestamps_all s I).
  assert (Nd : NoDup (shuffle (map fst (m_grids s)))) by (eapply Permutation_NoDup; [apply Permutation_sym, Hs|]; apply asc_nodup, (i_gasc _ _ I)).
  destruct (nbv_loop_ninv proj slv info cfg (m_grids s) (shuffle (map fst (m_grids s))) [] s N Nd) as (s1 & E1 & N1); [intros ts Hts; split; [apply (Permutation_in _ (Hs _)), Hts|intros []]|].
  rewrite app_nil_r in N1. destruct (run_solver_inv slv cfg (c_iter cfg) s1 (n_inv _ _ _ N1)) as (e & E2 & K & _ & I').
  exists s1, (with_est e s1). split; [exact E1|]. split; [exact E2|]. split; [exact N1|]. split.
  - destruct N1 as [I1 O Gt D P Rj]. split; auto.
    + intros x Hx Hn. cbn [with_est m_est]. rewrite K. auto.
    + intros x Hx. cbn [with_est m_est m_views]. rewrite K. auto.
  - split; [reflexivity|]. unfold solve_nbv. rewrite (nbv_timestamps_all s I). destruct (map fst (m_grids s)) eqn:Em; [apply map_eq_nil in Em; congruence|]. rewrite <- Em in *. rewrite E1. cbn [obind]. rewrite E2. cbn [obind]. apply show_ok.
Qed.
Theorem C95_nbv : forall cam T_WF gs Ts s, recording gs Ts -> construct pnp cam T_WF gs Ts = Ret s -> (forall l, Permutation (shuffle l) l) ->
  exists s', consistent s' /\ incl (map fst (m_views s')) (map fst (m_grids s)) /\ m_grids s' = m_grids s /\
    solve_nbv proj slv info shuffle cfg s = match get_reproj_errors proj s' with [] => Undef | _ => Ret s' end.
Proof.
  intros cam T_WF gs Ts s Rc E Hs. destruct (solve_nbv_ninv cam T_WF gs Ts s Rc E Hs) as (s1 & s' & _ & _ & _ & N' & _ & Es).
  exists s'. split; [apply inv_consistent; [apply (n_inv _ _ _ N')|apply (n_ord _ _ _ N')]|]. split; [|split; [apply (n_gs _ _ _ N')|exact Es]].
  intros ts Hts. apply (n_done _ _ _ N') in Hts. apply in_rev in Hts. apply (Permutation_in _ (Hs _)), Hts.
Qed.
(** Refuted: that solving can be repeated. A second solve() destroys the old views while their residuals stay in the
    problem: as soon as one measurement was left, the solver evaluates residuals that no longer exist. *)
Lemma add_views_dead gs : forall l s dead, Inv dead s -> m_grids s = gs -> incl l gs -> asc l -> (forall ts, In ts (map fst l) -> In ts (map fst (e_poses (m_est s)))) ->
  exists s' dead', add_views l s = Ret s' /\ Inv dead' s' /\ (forall x, In x dead -> In x dead') /\ (forall x, In x (in_use s) -> In (snd (fst x)) (map fst l) -> In x dead').
Proof.
  induction l as [|(t & g) l IH]; intros s dead I G Hi Al Hp.
  - exists s, dead. split; [reflexivity|]. split; [exact I|]. split; [auto|]. intros x _ [].
  - cbn [add_views]. destruct (add_view_inv dead g t s I) as (s1 & E1 & I1 & V1 & X1 & G1 & _); [rewrite G; apply Hi; left; reflexivity|apply Hp; left; reflexivity|].
    rewrite E1. cbn [obind]. apply asc_cons in Al as (Al1 & Al2).
    destruct (IH s1 _ I1) as (s' & dead' & E' & I' & D1 & D2); [congruence|intros x Hx; apply Hi; right; exact Hx|exact Al1|intros ts Hts; rewrite X1; apply Hp; right; exact Hts|].
    exists s', dead'. split; [exact E'|]. split; [exact I'|]. split; [intros x Hx; apply D1, in_app_iff; auto|].
    intros x Hx Hk. change (in_use s) with (used (m_views s)) in Hx. apply (Permutation_in _ (used_split t _ (i_asc _ _ I))) in Hx. apply in_app_iff in Hx as [Hx|Hx]; [apply D1, in_app_iff; auto|].
    assert (Nt : snd (fst x) <> t).
    { apply in_flat_map in Hx as ((u & w) & H1 & H2). apply in_map_iff in H2 as (rc & <- & _). apply filter_In in H1 as (_ & H1). cbn [fst snd] in *. destruct (Z.eqb_spec u t); [discriminate H1|auto]. }
    apply D2; [|destruct Hk as [Hk|Hk]; [cbn in Hk; congruence|exact Hk]].
    change (in_use s1) with (used (m_views s1)). rewrite V1. apply (Permutation_in _ (Permutation_sym (used_set t _ _ (i_asc _ _ I)))). apply in_app_iff. right. exact Hx.
Qed.
Theorem C95_again_refuted : forall cam T_WF gs Ts s s', recording gs Ts -> construct pnp cam T_WF gs Ts = Ret s ->
  solve proj slv cfg s = Ret s' -> in_use s' <> [] -> solve proj slv cfg s' = Undef.
Proof.
  intros cam T_WF gs Ts s s' Rc E Es Hu. destruct (construct_inv pnp cam T_WF gs Ts s Rc E) as (_ & V & _). assert (N := construct_ninv pnp cam T_WF gs Ts s Rc E).
  destruct (solve_ninv _ s N V) as (s1 & s2 & s3 & n & s'' & _ & _ & _ & _ & _ & _ & _ & N' & _ & _ & _ & K & Es').
  rewrite Es in Es'. destruct (get_reproj_errors proj s''); [discriminate Es'|]. injection Es' as <-. clear Es.
  destruct N' as [I O G D P Rj]. destruct (add_views_dead (m_grids s) (m_grids s) s' [] I G) as (t & dead & E1 & I1 & _ & D1); [apply incl_refl|rewrite <- G; apply (i_gasc _ _ I)| |].
  { intros ts Hts. apply (i_pose _ _ I). rewrite K. exact Hts. }
  unfold solve. rewrite G, E1. cbn [obind]. rewrite (run_solver_dead slv cfg (c_iter cfg) t dead I1); [reflexivity|].
  destruct (in_use s') as [|x m] eqn:Eu; [congruence|]. intros Kd. assert (H : In x dead); [|rewrite Kd in H; destruct H].
  apply D1; [left; reflexivity|]. rewrite <- K. assert (Hx : In x (in_use s')) by (rewrite Eu; left; reflexivity). apply in_flat_map in Hx as (tv & H1 & H2). apply in_map_iff in H2 as (rc & <- & _). exact (in_map fst _ _ H1).
Qed.
(** solve_nbv() after solve() fails in the same way at its first frame *)
Theorem C95_nbv_after_refuted : forall cam T_WF gs Ts s s', recording gs Ts -> construct pnp cam T_WF gs Ts = Ret s -> (forall l, Permutation (shuffle l) l) ->
  solve proj slv cfg s = Ret s' -> (forall ts v, In (ts, v) (m_views s') -> v_res v <> []) -> solve_nbv proj slv info shuffle cfg s' = Undef.
Proof.
  intros cam T_WF gs Ts s s' Rc E Hs Es Hu. destruct (construct_inv pnp cam T_WF gs Ts s Rc E) as (_ & V & _ & _ & _ & Hne). assert (N := construct_ninv pnp cam T_WF gs Ts s Rc E).
  destruct (solve_ninv _ s N V) as (s1 & s2 & s3 & n & s'' & _ & _ & _ & _ & _ & _ & _ & N' & _ & _ & _ & K & Es').
  rewrite Es in Es'. destruct (get_reproj_errors proj s''); [discriminate Es'|]. injection Es' as <-. clear Es.
  destruct N' as [I O G D P Rj]. unfold solve_nbv. rewrite (nbv_timestamps_all s' I), G. destruct (map fst (m_grids s)) eqn:Em; [apply map_eq_nil in Em; congruence|]. rewrite <- Em in *.
  destruct (shuffle (map fst (m_grids s))) as [|ts rr] eqn:Esh.
  { assert (Hp := Hs (map fst (m_grids s))). rewrite Esh, Em in Hp. apply Permutation_nil in Hp. discriminate Hp. }
  assert (Hts : In ts (map fst (m_grids s))) by (apply (Permutation_in _ (Hs _)); rewrite Esh; left; reflexivity).
  cbn [nbv_loop]. unfold nbv_step. rewrite G. destruct (mget_some _ _ Hts) as (g & Eg). rewrite Eg.
  assert (Hg : In (ts, g) (m_grids s')) by (rewrite G; apply mget_in; [rewrite <- G; apply (i_gasc _ _ I)|exact Eg]).
  assert (Hv : In ts (map fst (m_views s'))) by (rewrite K; exact Hts).
  destruct (add_view_inv [] g ts s' I Hg (i_pose _ _ I ts Hv)) as (t1 & E1 & I1 & _). rewrite E1. cbn [obind]. rewrite app_nil_r in I1.
  destruct (filter_all_inv proj cfg _ t1 I1) as (t2 & E2 & I2 & _). rewrite E2. cbn [obind fst].
  rewrite (run_solver_dead slv cfg 30 t2 _ I2); [reflexivity|]. unfold replaced. destruct (mget_some _ _ Hv) as (v & Ev). rewrite Ev.
  apply mget_in in Ev; [|apply (i_asc _ _ I)]. specialize (Hu ts v Ev). destruct (v_res v); [congruence|discriminate].
Qed.
(** and solve() after a solve_nbv() that rejected a frame looks for the body pose that went with it: it aborts *)
Lemma add_views_missing : forall l s, (forall t g, In (t, g) l -> g_ts g = t) -> (exists t, In t (map fst l) /\ ~ In t (map fst (e_poses (m_est s)))) -> add_views l s = Throw StdExn.
Proof.
  induction l as [|(t & g) l IH]; intros s Hl (t0 & H1 & H2); [destruct H1|]. cbn [add_views]. unfold add_view. rewrite (Hl t g (or_introl eq_refl)).
  destruct (mget t (e_poses (m_est s))) eqn:Ep; [|reflexivity]. cbn [obind]. apply IH; [intros; apply Hl; right; auto|]. exists t0. cbn [m_est]. split; [|exact H2].
  destruct H1 as [H1|H1]; [|exact H1]. cbn in H1. subst t0. exfalso. apply H2. eapply mget_key, Ep.
Qed.
Theorem C95_solve_after_nbv_refuted : forall cam T_WF gs Ts s s' ts, recording gs Ts -> construct pnp cam T_WF gs Ts = Ret s -> (forall l, Permutation (shuffle l) l) ->
  solve_nbv proj slv info shuffle cfg s = Ret s' -> In ts (map fst (m_grids s)) -> ~ In ts (map fst (m_views s')) -> solve proj slv cfg s' = Throw StdExn.
Proof.
  intros cam T_WF gs Ts s s' ts Rc E Hs Es Hts Hn. destruct (solve_nbv_ninv cam T_WF gs Ts s Rc E Hs) as (s1 & s'' & _ & _ & _ & N' & _ & Es').
  rewrite Es in Es'. destruct (get_reproj_errors proj s''); [discriminate Es'|]. injection Es' as <-. clear Es. destruct N' as [I O G D P Rj].
  unfold solve. rewrite add_views_missing; [reflexivity|intros t g Hg; apply (i_grids _ _ I t g Hg)|]. rewrite G. exists ts. split; [exact Hts|].
  destruct (Rj ts); [apply in_rev; rewrite rev_involutive; apply (Permutation_in _ (Permutation_sym (Hs _))), Hts|tauto|assumption].
Qed.

(** ** C98: outliers *)
Lemma consistent_filter s : consistent s -> exists s',
  filter_all proj cfg s = Ret (s', Z.of_nat (length (outliers proj (m_est s) (thresholds proj cfg s) (in_use s)))) /\
  m_views s' = map (keep proj (m_est s) (thresholds proj cfg s)) (m_views s) /\ m_est s' = m_est s /\ m_grids s' = m_grids s /\ m_order s' = m_order s /\ m_info s' = m_info s /\
  q_poses (m_prob s') = q_poses (m_prob s) /\
  q_res (m_prob s') = filter (fun x => negb (existsb (fun y => rid_eqb (fst (fst y)) (fst (fst x))) (outliers proj (m_est s) (thresholds proj cfg s) (in_use s)))) (q_res (m_prob s)).
Proof.
  intros C. unfold filter_all. change (in_use s) with (used (m_views s)).
  assert (Ni : NoDup (ids (used (m_views s)))) by (eapply Permutation_NoDup; [apply Permutation_map, (c_res _ C)|apply (c_ids _ C)]).
  rewrite filter_views_ok.
  - cbn [obind]. eexists. split; [reflexivity|]. repeat split.
  - exact Ni.
  - intros r Hr. eapply Permutation_in; [apply Permutation_map, Permutation_sym, (c_res _ C)|exact Hr].
  - apply (c_pts _ C).
Qed.
Definition large (rs : list vec2) (r : vec2) : Prop :=
  exists sx sy, Prop_Vi9.deviation (map v2x rs) sx /\ Prop_Vi9.deviation (map v2y rs) sy /\ (c_outlier cfg * sx < v2x r \/ c_outlier cfg * sy < v2y r)%R.
Lemma is_outlier_iff s rs ts k : all_offs proj s rs -> (is_outlier proj (m_est s) (thresholds proj cfg s) ts k = true <-> exists r, off_by proj s ts k r /\ large rs r).
Proof.
  intros H. apply all_offs_iff in H. unfold is_outlier, thresholds. rewrite <- H. unfold stddev2, var2, both. cbn [fst snd]. change (option_map sqrt (var ?x)) with (stddev x).
  assert (Len : length (map v2x rs) = length (map v2y rs)) by (rewrite !map_length; reflexivity).
  destruct (residual proj (m_est s) ts k) as [r|] eqn:Er.
  2: { split; [discriminate|]. intros (r & K & _). apply residual_iff in K. congruence. }
  assert (Eo := proj1 (residual_iff _ _ _ _ _) Er).
  destruct (stddev (map v2x rs)) as [sx|] eqn:Ex.
  - assert (Dx := Prop_Vi9.stddev_dev _ _ Ex). assert (Dy : exists sy, stddev (map v2y rs) = Some sy).
    { destruct (C51_var (map v2y rs)) as (m & v & _ & _ & _ & _ & _ & K & _); [rewrite <- Len; apply Dx|eauto]. }
    destruct Dy as (sy & Ey). assert (Dy := Prop_Vi9.stddev_dev _ _ Ey). rewrite Ey. cbn [option_map]. unfold above. rewrite orb_true_iff. split.
    + intros K. exists r. split; [exact Eo|]. exists sx, sy. split; [exact Dx|]. split; [exact Dy|]. destruct K as [K|K]; [left|right]; destruct (Rlt_dec _ _); auto; discriminate K.
    + intros (r' & K & sx' & sy' & Dx' & Dy' & K'). apply residual_iff in K. rewrite Er in K. injection K as <-. rewrite (Prop_Vi9.dev_unique _ _ _ Dx Dx'), (Prop_Vi9.dev_unique _ _ _ Dy Dy').
      destruct K' as [K'|K']; [left|right]; destruct (Rlt_dec _ _); auto; contradiction.
  - assert (Ey : stddev (map v2y rs) = None).
    { destruct (stddev (map v2y rs)) eqn:Ey; [|auto]. exfalso. assert (Dy := Prop_Vi9.stddev_dev _ _ Ey). destruct (C51_var (map v2x rs)) as (m & v & _ & _ & _ & _ & _ & K & _); [rewrite Len; apply Dy|congruence]. }
    rewrite Ey. cbn [option_map above orb]. split; [discriminate|]. intros (r' & _ & sx' & _ & Dx' & _). apply Prop_Vi9.dev_stddev in Dx'. congruence.
Qed.
Lemma keep_consistent s s' n : consistent s -> filter_all proj cfg s = Ret (s', n) -> consistent s'.
Proof.
  intros C E. destruct (consistent_filter s C) as (t & Et & V & X & G & O & _ & Qp & Qr). rewrite E in Et. injection Et as <- _.
  set (th := thresholds proj cfg s) in *. set (e := m_est s) in *.
  assert (Ni : NoDup (ids (used (m_views s)))) by (eapply Permutation_NoDup; [apply Permutation_map, (c_res _ C)|apply (c_ids _ C)]).
  assert (Pf : forall (f : rid * Z * corner -> bool) a b, Permutation a b -> Permutation (filter f a) (filter f b)).
  { clear. intros f a b H. induction H; cbn; auto; [destruct (f x); auto|destruct (f x), (f y); auto; apply perm_swap|etransitivity; eauto]. }
  split.
  - rewrite Qr. change (in_use s') with (used (m_views s')). rewrite V, used_keep. rewrite (Pf _ _ _ (c_res _ C)). change (in_use s) with (used (m_views s)).
    unfold inliers. erewrite filter_ext_in; [reflexivity|]. intros x Hx. cbn beta. f_equal.
    destruct (is_outlier proj e th (snd (fst x)) (snd x)) eqn:Eo.
    + apply existsb_exists. exists x. split; [apply filter_In; auto|apply rid_eqb_refl].
    + apply not_true_iff_false. intros K. apply existsb_exists in K as (y & K1 & K2). apply rid_eqb_eq in K2. apply filter_In in K1 as (K1 & K3).
      assert (x = y); [|congruence]. clear -Ni Hx K1 K2. induction (used (m_views s)) as [|z m IH]; [destruct Hx|]. cbn in Ni. inversion Ni as [|? ? N1 N2]; subst.
      destruct Hx as [ -> |Hx], K1 as [ -> |K1]; auto; exfalso; apply N1; [rewrite <- K2; apply in_map_iff; eauto|rewrite K2; apply in_map_iff; eauto].
  - rewrite Qr. assert (N := c_ids _ C). clear -N. induction (q_res (m_prob s)) as [|x m IH]; cbn; [constructor|]. cbn in N. inversion N as [|? ? N1 N2]; subst.
    destruct (negb _); cbn; [|auto]. constructor; auto. intros K. apply N1. apply in_map_iff in K as (y & E & K). apply filter_In in K as (K & _). apply in_map_iff. eauto.
  - rewrite V, keep_keys. apply (c_asc _ C).
  - rewrite V, keep_keys, O. apply (c_order _ C).
  - intros ts v Hv. rewrite V in Hv. apply in_map_iff in Hv as ((t & w) & Ek & Hw). unfold keep in Ek. cbn [fst snd] in Ek. injection Ek as _ <-. cbn [v_res v_pts]. split; [reflexivity|].
    destruct (c_pts _ C t w Hw) as (Ep & Nt). rewrite <- Ep in Nt. clear -Nt. unfold kept_res in *. induction (v_res w) as [|rc l IH]; cbn; [constructor|]. cbn in Nt. inversion Nt as [|? ? N1 N2]; subst.
    destruct (negb _); cbn; [|auto]. constructor; auto. intros K. apply N1. apply in_map_iff in K as (y & E & K). apply in_map_iff in K as (z & E' & K). apply filter_In in K as (K & _).
    rewrite <- E. apply in_map_iff. exists y. split; auto. apply in_map_iff. eauto.
  - rewrite V, keep_keys, X. apply (c_pose _ C).
  - rewrite Qp, X. apply (c_poses _ C).
Qed.
(** The outlier filter removes exactly the measurements in use one component of whose residual is larger than
    outlier_threshold standard deviations of this component over all measurements - from the problem, from the views and
    from the views' grids - reports their number, and never aborts. *)
Theorem C98_filter : forall s rs, consistent s -> all_offs proj s rs -> exists s' n, filter_all proj cfg s = Ret (s', n) /\ consistent s' /\
  (forall x, In x (in_use s') <-> In x (in_use s) /\ ~ exists r, off_by proj s (snd (fst x)) (snd x) r /\ large rs r) /\
  n = Z.of_nat (length (in_use s)) - Z.of_nat (length (in_use s')) /\ map fst (m_views s') = map fst (m_views s) /\ m_est s' = m_est s.
Proof.
  intros s rs C H. destruct (consistent_filter s C) as (s' & E & V & X & _). exists s', (Z.of_nat (length (outliers proj (m_est s) (thresholds proj cfg s) (in_use s)))).
  split; [exact E|]. split; [eapply keep_consistent; eauto|].
  assert (Eu : in_use s' = inliers proj (m_est s) (thresholds proj cfg s) (in_use s)) by (change (in_use s') with (used (m_views s')); rewrite V, used_keep; reflexivity).
  rewrite Eu. split; [|split; [|split; [rewrite V; apply keep_keys|exact X]]].
  - intros x. unfold inliers. rewrite filter_In, negb_true_iff, <- not_true_iff_false. rewrite (is_outlier_iff s rs _ _ H). reflexivity.
  - unfold outliers, inliers. clear. induction (in_use s) as [|x l IH]; [reflexivity|]. cbn [filter]. destruct (is_outlier _ _ _ _ _); cbn [negb length]; lia.
Qed.
(** Refuted: that outliers on either side are found. A residual with two components that are not positive is never
    removed, however large it is; and with fewer than two measurements nothing is removed. *)
Theorem C98_one_sided_refuted : forall s s' n x r, consistent s -> filter_all proj cfg s = Ret (s', n) -> (0 <= c_outlier cfg)%R ->
  In x (in_use s) -> off_by proj s (snd (fst x)) (snd x) r -> (v2x r <= 0)%R -> (v2y r <= 0)%R -> In x (in_use s').
Proof.
  intros s s' n x r C E Hc Hx Hr Px Py. destruct (C98_filter s _ C (proj2 (all_offs_iff proj s _) eq_refl)) as (t & m & Et & _ & Hi & _). rewrite E in Et. injection Et as <- <-.
  apply Hi. split; [exact Hx|]. intros (r' & K & sx & sy & (_ & Dx & _) & (_ & Dy & _) & L). apply residual_iff in Hr, K. rewrite Hr in K. injection K as <-. assert (0 <= c_outlier cfg * sx)%R by (apply Rmult_le_pos; auto). assert (0 <= c_outlier cfg * sy)%R by (apply Rmult_le_pos; auto). lra.
Qed.
Theorem C98_few : forall s s' n, consistent s -> filter_all proj cfg s = Ret (s', n) -> (length (in_use s) < 2)%nat -> n = 0 /\ in_use s' = in_use s.
Proof.
  intros s s' n C E L. destruct (consistent_filter s C) as (t & Et & V & _). rewrite E in Et. injection Et as <- ->.
  assert (Lr : (length (get_residuals proj s) < 2)%nat).
  { destruct (proj2 (all_offs_iff proj s _) eq_refl) as (os & H & K). rewrite K. assert (Lo := Prop_Vi9.forall2_len _ _ _ H). rewrite Lo in L. clear -L. destruct os as [|a [|b os]]; cbn in *; try lia. rewrite app_nil_r. destruct a; cbn; lia. }
  assert (No : forall ts k, is_outlier proj (m_est s) (thresholds proj cfg s) ts k = false).
  { intros ts k. apply not_true_iff_false. intros K. apply (is_outlier_iff s _ ts k (proj2 (all_offs_iff proj s _) eq_refl)) in K as (r & _ & sx & sy & (D & _) & _). rewrite map_length in D. lia. }
  change (in_use s') with (used (m_views s')). rewrite V, used_keep. change (used (m_views s)) with (in_use s). unfold outliers, inliers. clear -No. induction (in_use s) as [|x l (IH1 & IH2)]; [auto|]. cbn [filter]. rewrite !No. cbn [negb]. rewrite IH2. auto.
Qed.
End T.
