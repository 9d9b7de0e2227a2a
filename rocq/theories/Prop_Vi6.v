(** * C90: cost and Hessian of the visual-inertial calibrator *)
From Verif Require Import Base GeomModel EulerModel StatsModel ImuModel ImuSpec ViModel ViSpec ViProofs ViProofs2 ViProofs3 ViProofs4 ViProofs5 Prop_Vi2 Prop_Vi3 ViProofs6.
From Verif Require Import SolverLsqModel SolverLsqProofs ViHessModel.
From Coq Require Import Reals Lra Sorted Permutation.
Local Open Scope Z_scope.

(** ** Specification *)
(** a reprojection residual of the newest view *)
Definition newest (s : vi) (r : rid) : bool :=
  match last_view s, r with Some v, RCorner n _ _ => Nat.eqb n (v_id v) | _, _ => false end.
(** half the sum of squares of the residuals of a list of residual blocks *)
Definition half_squares (ev : rid -> option evaluated) (l : list (rid * list pid)) : R :=
  fold_right (fun x c => (match ev (fst x) with Some e => / 2 * sumn (e_n e) (fun k => e_val e k ^ 2) | None => 0 end + c)%R) 0%R l.
(** entry of J^T J for the derivatives by coordinate [a] of block [p] and coordinate [b] of block [q]: a sum over the
    rows of all residuals over both blocks *)
Definition normal_entry (ev : rid -> option evaluated) (l : list (rid * list pid)) (p q : pid) (a b : Z) : R :=
  fold_right (fun x c => (match ev (fst x) with
     | Some e => if pid_in p (snd x) && pid_in q (snd x) then sumn (e_n e) (fun k => e_jac e p k a * e_jac e q k b) else 0
     | None => 0 end + c)%R) 0%R l.
(** columns [i, i + size) of the matrix belong to block [p] *)
Definition columns_of (addr : pid -> Z) (o : list (Z * Z)) (p : pid) (i : Z) : Prop := order_find o (addr p) = Some i.
(** number of columns of a block: six for a pose, nine for speed and biases, two for the direction of gravity *)
Definition block_size (cam_size : Z -> Z) (p : pid) : Z :=
  match p with
  | PPose _ | PImuExt | PCamExt _ => 6
  | PSb _ => 9
  | PFid => 2
  | PDelay => 1
  | PCam c => cam_size c
  end.
(** what the pointers point to *)
Definition objects (cam_size : Z -> Z) (addr : pid -> Z) (info : Z -> pinfo) (fixed : list pid) : Prop :=
  (forall p q, addr p = addr q -> p = q) /\ (forall c, 0 <= cam_size c) /\
  forall p, info (addr p) = vi_info cam_size fixed p.

(** ** Cost *)
Lemma half_perm ev l l' : Permutation l l' -> half_squares ev l = half_squares ev l'.
Proof. unfold half_squares. induction 1; cbn [fold_right] in *; lra. Qed.
Lemma half_app ev l l' : half_squares ev (l ++ l') = (half_squares ev l + half_squares ev l')%R.
Proof. unfold half_squares in *. induction l as [|x l IH]; cbn [fold_right app] in *; lra. Qed.
Lemma normal_perm ev l l' p q a b : Permutation l l' -> normal_entry ev l p q a b = normal_entry ev l' p q a b.
Proof. unfold normal_entry. induction 1; cbn [fold_right] in *; lra. Qed.
Lemma cost_spec ev l : (forall x, In x l -> ev (fst x) <> None) -> vi_cost ev l = Ret (half_squares ev l).
Proof.
  induction l as [|[r ps] l IH]; intros H; cbn [vi_cost half_squares fold_right fst]; [reflexivity|].
  destruct (ev r) as [e|] eqn:E; [|exfalso; apply (H (r, ps)); cbn; auto].
  rewrite IH by (intros; apply H; cbn; auto). cbn [obind]. f_equal. f_equal.
  replace (5 / 10)%R with (/ 2)%R by lra. f_equal. apply sumn_ext. intros. lra.
Qed.
Lemma cost_fatal ev l : (exists x, In x l /\ ev (fst x) = None) -> vi_cost ev l = Throw Fatal.
Proof.
  induction l as [|[r ps] l IH]; intros (x & H & E); [destruct H|]. cbn [vi_cost].
  destruct (ev r) as [e|] eqn:Er; [|reflexivity]. destruct H as [ <- |H]; [cbn in E; congruence|].
  rewrite IH; eauto.
Qed.

Section T.
Context (z1 z3 : R) (pnp : list R -> list corner -> option mat4) (pick : nat -> Z -> list corner -> list corner)
        (slv : problem -> (pid -> list R) -> pid -> list R) (reproj : rid -> corner -> (pid -> list R) -> option (R * R))
        (cfg : settings).
Notation run := (vrun z1 z3 pnp pick slv reproj cfg).
Notation step := (vstep z1 z3 pnp pick slv reproj cfg).
Notation conf := (configure z1 z3).

Lemma functions_view v : v_imu v <> None -> view_functions v = of_view v.
Proof. unfold view_functions, of_view, corner_params, imu_params_of. destruct (v_imu v); [reflexivity|congruence]. Qed.
Lemma chained_init vs v : chained (vs ++ [v]) -> forall w, In w vs -> v_imu w <> None.
Proof.
  induction vs as [|x vs IH]; intros C w Hw; [destruct Hw|]. cbn [app] in C.
  destruct Hw as [ -> |Hw].
  - destruct vs as [|y vs]; cbn in C; destruct C as ((b & -> ) & _); discriminate.
  - apply IH; auto. destruct vs; cbn [app chained] in *; tauto.
Qed.
(** The residuals gathered are those of the problem without the reprojection residuals of the newest view. *)
Lemma functions_spec s : inv cfg s -> Permutation (functions s) (filter (fun x => negb (newest s (fst x))) (q_res (s_prob s))).
Proof.
  intros I. assert (C := v_core _ _ I). assert (Ch := v_chain _ _ I).
  apply Permutation_sym. etransitivity; [apply perm_filter; exact (i_res _ _ _ _ _ C)|].
  unfold all_res, functions. rewrite filter_app.
  replace (filter (fun x : rid * list pid => negb (newest s (fst x))) match s_prior s with Some (k, ps) => [(RPrior k, ps)] | None => [] end)
    with match s_prior s with Some (k, ps) => [(RPrior k, ps)] | None => [] end.
  2:{ destruct (s_prior s) as [[k ps]|]; [|reflexivity]. cbn. unfold newest. destruct (last_view s); reflexivity. }
  apply Permutation_app_tail. unfold last_view in *.
  assert (D : s_views s = [] \/ exists vs v, s_views s = vs ++ [v]).
  { destruct (rev (s_views s)) as [|v r] eqn:Er; [left|right].
    - apply (f_equal (@rev _)) in Er. rewrite rev_involutive in Er. auto.
    - exists (rev r), v. rewrite <- (rev_involutive (s_views s)), Er. reflexivity. }
  destruct D as [ -> |(vs & v & Ev)]; [constructor|].
  assert (Hn : forall r, newest s r = match r with RCorner n _ _ => Nat.eqb n (v_id v) | _ => false end).
  { intros r. unfold newest, last_view. rewrite Ev, rev_app_distr. cbn. reflexivity. }
  rewrite Ev in C, Ch |- *. rewrite !flat_map_app, filter_app. cbn [flat_map]. rewrite !app_nil_r.
  assert (Nv : v_imu v = None) by (eapply chained_last_none; eauto).
  apply Permutation_app.
  - rewrite (flat_map_ext_in view_functions of_view) by (intros w Hw; apply functions_view; eapply chained_init; eauto).
    rewrite filter_id; [reflexivity|]. intros [r ps] Hr. apply in_flat_map in Hr as (w & Hw & Hr).
    rewrite Hn. apply of_view_owned in Hr; [|apply (i_shape _ _ _ _ _ C); apply in_or_app; auto].
    assert (Hne : v_id w <> v_id v).
    { pose proof (i_ids _ _ _ _ _ C) as St. rewrite map_app in St. cbn in St. apply sorted_not_in in St.
      intros E. apply St. rewrite <- E. apply in_map. auto. }
    cbn [fst]. destruct r; cbn in *; auto. subst. apply negb_true_iff, Nat.eqb_neq. auto.
  - unfold view_functions. rewrite Nv. rewrite filter_none; [constructor|]. intros [r ps] Hr. rewrite Hn. cbn [fst].
    assert (Hc := Hr). apply of_view_owned in Hc; [|apply (i_shape _ _ _ _ _ C); apply in_or_app; right; left; reflexivity].
    unfold of_view in Hr. rewrite Nv, app_nil_r in Hr. apply in_flat_map in Hr as (x & Hx & Hr). apply in_map_iff in Hr as (rc & E & Hrc).
    inversion E; subst. destruct x as [c rs], rc as [r p]. cbn [fst snd] in *.
    destruct (i_shape _ _ _ _ _ C v (in_elt v vs []) c rs r p Hx Hrc) as (i & -> ). apply negb_false_iff, Nat.eqb_refl.
Qed.

(** *** C90, cost *)
(** The cost is half the sum of squares over all residuals of the problem except the reprojection residuals of the
    newest view; it fails exactly when one of them cannot be evaluated. *)
Theorem C90_cost_partial : forall os h s ev l, run h (conf os) = Ret s -> c_marg cfg = false \/ never is_reset h ->
  Permutation l (functions s) ->
  let counted := filter (fun x => negb (newest s (fst x))) (q_res (s_prob s)) in
  ((forall x, In x counted -> ev (fst x) <> None) -> vi_cost ev l = Ret (half_squares ev counted)) /\
  ((exists x, In x counted /\ ev (fst x) = None) -> vi_cost ev l = Throw Fatal).
Proof.
  intros os h s ev l E Hr P counted.
  assert (P' : Permutation l counted).
  { etransitivity; [exact P|]. apply functions_spec. apply (run_inv _ _ _ _ _ _ _ _ _ _ E Hr (configure_inv z1 z3 cfg os)). }
  split.
  - intros H. rewrite (cost_spec ev l); [rewrite (half_perm _ _ _ P'); reflexivity|].
    intros x Hx. apply H. eapply Permutation_in; eauto.
  - intros (x & Hx & Ex). apply cost_fatal. exists x. split; auto. eapply Permutation_in; [apply Permutation_sym; exact P'|auto].
Qed.
(** So the reprojection errors in the newest view have no influence on it, whatever they are. *)
Theorem C90_newest_refuted : forall os h s ev ev' l, run h (conf os) = Ret s -> c_marg cfg = false \/ never is_reset h ->
  Permutation l (functions s) -> (forall r, newest s r = false -> ev r = ev' r) -> vi_cost ev l = vi_cost ev' l.
Proof.
  intros os h s ev ev' l E Hr P H.
  assert (P' : forall x, In x l -> newest s (fst x) = false).
  { intros x Hx. pose proof (functions_spec s (run_inv _ _ _ _ _ _ _ _ _ _ E Hr (configure_inv z1 z3 cfg os))) as F.
    apply (Permutation_in _ P), (Permutation_in _ F), filter_In in Hx as (_ & Hx). apply negb_true_iff in Hx. auto. }
  clear P E. induction l as [|[r ps] l IH]; [reflexivity|]. cbn [vi_cost].
  rewrite <- (H r) by (apply (P' (r, ps)); left; reflexivity). rewrite IH by (intros; apply P'; right; auto). reflexivity.
Qed.

(** ** Blocks of a residual are distinct *)
Lemma dedup_nodup l : forall seen, NoDup (dedup seen l) /\ forall p, In p (dedup seen l) -> ~ In p seen.
Proof.
  induction l as [|x l IH]; intros seen; cbn [dedup]; [split; [constructor|intros p []]|].
  destruct (pid_in x seen) eqn:Ex; [apply IH|]. destruct (IH (x :: seen)) as (A & B). split.
  - constructor; auto. intros H. apply (B x H). left; reflexivity.
  - intros p [ <- |H] Hp; [apply pid_in_false in Ex; auto|]. apply (B p H). right; auto.
Qed.
Lemma remaining_nodup fixed marked ps : NoDup (remaining fixed marked ps).
Proof.
  unfold remaining. set (l := filter _ _).
  assert (N : NoDup l) by (apply nodup_filter, dedup_nodup). clearbody l.
  assert (K : forall ks, NoDup ks -> NoDup (flat_map (fun k => filter (is_kind k) l) ks)).
  { induction ks as [|k ks IH]; intros Hk; cbn [flat_map]; [constructor|]. inversion Hk; subst.
    apply nodup_app; [apply nodup_filter; auto|apply IH; auto|].
    intros p Hp Hq. apply filter_In in Hp as (_ & Hp). apply in_flat_map in Hq as (j & Hj & Hq). apply filter_In in Hq as (_ & Hq).
    unfold is_kind in *. destruct (kind p); [|discriminate]. apply Nat.eqb_eq in Hp, Hq. subst. contradiction. }
  apply K. repeat constructor; cbn; intuition congruence.
Qed.
Definition prior_ok (s : vi) : Prop := forall k ps, s_prior s = Some (k, ps) -> NoDup ps /\ ~ In PDelay ps.
Lemma step_prior e s s' : step e s = Ret s' -> prior_ok s -> prior_ok s'.
Proof.
  destruct e as [c g|ts a w| |]; cbn [vstep]; intros E Hp.
  - inversion E. unfold add_grid. destruct (s_started s); auto.
  - apply sample_spec in E.
    assert (V : forall gs s1 s2, view_step z1 z3 pnp pick cfg gs s1 s2 -> s_prior s2 = s_prior s1) by (intros gs s1 s2 []; subst; auto).
    assert (K : forall s1 s2, s_prior s2 = s_prior s1 -> prior_ok s1 -> prior_ok s2) by (intros s1 s2 Es H k ps; rewrite Es; apply H).
    destruct E as [_ -> |_ Hi _ _ []|_ _ _ -> |_ Hv Hw|s1 s2 _ H1 Hm Hw H2 -> ]; auto.
    + subst; auto.
    + apply V in Hv. apply (K s); auto.
    + intros k ps Ek. cbn in Ek.
      unfold marginalize in H2. cbn [with_x s_views s_prior s_prob] in H2. destruct (s_views s1) as [|v rest]; [discriminate|]. apply bind_ret in H2 as (r & _ & H2).
      destruct (v_imu v); [|discriminate]. inversion H2; subst s2. cbn in Ek. inversion Ek; subst.
      split; [apply remaining_nodup|]. intros H. apply remaining_in in H. tauto.
  - unfold solve in E. destruct (c_reject cfg).
    + apply bind_ret in E as (r & _ & E). inversion E; auto.
    + inversion E; auto.
  - inversion E; auto.
Qed.
Lemma run_prior os h s : run h (conf os) = Ret s -> prior_ok s.
Proof.
  assert (K : forall h s s', run h s = Ret s' -> prior_ok s -> prior_ok s').
  { clear. induction h as [|e h IH]; intros s s' E A; cbn [vrun] in E; [inversion E; subst; auto|].
    apply bind_ret in E as (s1 & E1 & E). apply (IH s1); auto. eapply step_prior; eauto. }
  intros E. apply (K _ _ _ E). intros k ps Hk. pose proof (setup_inv z1 z3 os vi_empty) as F. unfold configure in Hk.
  destruct F as (_ & F & _); cbn; auto. rewrite F in Hk. discriminate.
Qed.
Lemma functions_nodup s : inv cfg s -> prior_ok s -> forall x, In x (functions s) -> NoDup (snd x).
Proof.
  intros I Hp [r ps] Hx. unfold functions in Hx. apply in_app_iff in Hx as [Hx|Hx].
  - apply in_flat_map in Hx as (v & Hv & Hx). unfold view_functions in Hx. destruct (v_imu v) as [l|] eqn:El; [|destruct Hx].
    pose proof (chained_link _ (v_chain _ _ I) v l Hv El) as Lk.
    pose proof (chained_link_lt _ (v_chain _ _ I) (i_ids _ _ _ _ _ (v_core _ _ I)) v l Hv El) as Lt.
    apply in_app_iff in Hx as [Hx|[Hx|[]]].
    + apply in_flat_map in Hx as (y & _ & Hx). apply in_map_iff in Hx as (rc & Ex & _). inversion Ex; subst.
      unfold corner_params. cbn. repeat constructor; cbn; intuition congruence.
    + inversion Hx; subst. cbn. assert (l_i l <> l_j l) by (destruct Lk as ( -> & _); lia).
      repeat constructor; cbn; intuition congruence.
  - destruct (s_prior s) as [[k qs]|] eqn:Ep; [|destruct Hx]. destruct Hx as [Hx|[]]. inversion Hx; subst. apply (Hp k ps Ep).
Qed.
End T.
