From Coq Require Import Reals.
From Verif Require Import Base.
From stdpp Require Import gmap sets list sorting.
From Verif Require Import AprilGridModel AprilGridSpec AprilGridProofs AprilGridIOModel SolverModel SolverProofs CalibModel CalibSpec CalibProofs CalibProofs2 CalibProofs3 CalibProofs4 CalibProofs5.
From Verif Require Import SolverLsqModel MargHessModel CamMargModel.
Local Open Scope Z_scope.

Section F.
Context (blocks : Z -> list Z).
(** the solver without the residual [m] *)
Definition minus (m : Z) (s : gset Z) : gset Z := s ∖ {[m]}.
Definition bforget (m : Z) (s : solver) : solver :=
  mkSolver (minus m (s_res s)) (s_params s) (minus m <$> s_p2r s) (delete m (s_r2p s)).
Definition forget (m : Z) (s : csolver) : csolver :=
  mkCsolver (bforget m (c_base s)) (c_pparams s) (minus m (c_pres s)) (minus m (c_res2id s)).

Lemma mget_minus m (f : gmap Z (gset Z)) x : mget (minus m <$> f) x = minus m (mget f x).
Proof. unfold mget. rewrite lookup_fmap. destruct (f !! x); cbn; [reflexivity|]. unfold minus. set_solver. Qed.
Lemma minus_In m s r : r <> m -> r ∈ minus m s <-> r ∈ s.
Proof. unfold minus. set_solver. Qed.
Lemma minus_union m s r : r <> m -> {[r]} ∪ minus m s = minus m ({[r]} ∪ s).
Proof. unfold minus. set_solver. Qed.
Lemma minus_minus m s r : minus m s ∖ {[r]} = minus m (s ∖ {[r]}).
Proof. unfold minus. set_solver. Qed.
Lemma decide_iff {A : Type} (P Q : Prop) `{Decision P} `{Decision Q} (a b : A) : (P <-> Q) -> (if decide P then a else b) = (if decide Q then a else b).
Proof. intros E. destruct (decide P), (decide Q); tauto. Qed.
Lemma p2r_add m r (l : list Z) (f : gmap Z (gset Z)) : r <> m ->
  foldl (fun f p => <[p := {[r]} ∪ mget f p]> f) (minus m <$> f) l = minus m <$> foldl (fun f p => <[p := {[r]} ∪ mget f p]> f) f l.
Proof.
  intros H. apply map_eq. intros x. rewrite lookup_fmap, !(add_fold blocks), mget_minus, lookup_fmap.
  destruct (decide (x ∈ l)); cbn; [|reflexivity]. now rewrite minus_union.
Qed.
Lemma p2r_rem m r (l : list Z) (f : gmap Z (gset Z)) :
  foldl (fun f p => <[p := mget f p ∖ {[r]}]> f) (minus m <$> f) l = minus m <$> foldl (fun f p => <[p := mget f p ∖ {[r]}]> f) f l.
Proof.
  apply map_eq. intros x. rewrite lookup_fmap, !(rem_fold blocks), mget_minus, lookup_fmap.
  destruct (decide (x ∈ l)); cbn; [|reflexivity]. now rewrite minus_minus.
Qed.
Lemma r2p_add m r (l : list Z) : r <> m -> forall f : gmap Z (gset Z),
  foldl (fun f p => <[r := {[p]} ∪ mget f r]> f) (delete m f) l = delete m (foldl (fun f p => <[r := {[p]} ∪ mget f r]> f) f l).
Proof.
  intros H. induction l as [|p l IH]; intros f; cbn [foldl]; [reflexivity|].
  rewrite mget_delete, decide_False by exact H. rewrite <- IH. rewrite delete_insert_ne by congruence. reflexivity.
Qed.
Lemma forget_add_residual m s r : r <> m -> c_add_residual blocks (forget m s) r = Base.omap (forget m) (c_add_residual blocks s r).
Proof.
  intros H. unfold c_add_residual, add_residual. cbn [forget bforget c_base s_res s_params s_p2r s_r2p].
  rewrite (decide_iff (r ∈ minus m (s_res (c_base s))) (r ∈ s_res (c_base s))) by now apply minus_In.
  destruct (decide (r ∈ s_res (c_base s))); cbn [obind Base.omap]; [reflexivity|].
  destruct (decide (base.NoDup (blocks r))); cbn [obind Base.omap]; [|reflexivity].
  f_equal. unfold forget, bforget. cbn [c_base c_pparams c_pres c_res2id s_res s_params s_p2r s_r2p].
  rewrite p2r_add, r2p_add, !minus_union by exact H. reflexivity.
Qed.
Lemma forget_remove_residual m s r : r <> m -> c_remove_residual blocks (forget m s) r = Base.omap (forget m) (c_remove_residual blocks s r).
Proof.
  intros H. unfold c_remove_residual, remove_residual. cbn [forget bforget c_base c_pparams c_pres c_res2id s_res s_params s_p2r s_r2p].
  rewrite (decide_iff (r ∈ minus m (s_res (c_base s))) (r ∈ s_res (c_base s))) by now apply minus_In.
  rewrite (decide_iff (r ∈ minus m (c_res2id s)) (r ∈ c_res2id s)) by now apply minus_In.
  destruct (decide (r ∈ s_res (c_base s))) as [Hr|Hr]; [|reflexivity]. destruct (decide (r ∈ c_res2id s)); [|reflexivity].
  rewrite decide_True by now apply minus_In. cbn [obind].
  rewrite (decide_iff (r ∈ minus m (c_pres s)) (r ∈ c_pres s)) by now apply minus_In.
  destruct (decide (r ∈ c_pres s)); cbn [Base.omap obind]; [|reflexivity].
  f_equal. unfold forget, bforget. cbn [c_base c_pparams c_pres c_res2id s_res s_params s_p2r s_r2p].
  rewrite p2r_rem, !minus_minus. rewrite delete_commute. reflexivity.
Qed.
Lemma forget_remove_residuals m l : ~ In m l -> forall s, c_remove_residuals blocks l (forget m s) = Base.omap (forget m) (c_remove_residuals blocks l s).
Proof.
  induction l as [|r l IH]; intros H s; cbn [c_remove_residuals]; [reflexivity|].
  rewrite forget_remove_residual by (intros ->; apply H; left; reflexivity).
  destruct (c_remove_residual blocks s r) as [s1|e|]; cbn [Base.omap obind]; [|reflexivity..]. apply IH. intros X. apply H. right. exact X.
Qed.
Lemma forget_remove_param m s p : m ∉ mget (s_p2r (c_base s)) p -> c_remove_param blocks (forget m s) p = Base.omap (forget m) (c_remove_param blocks s p).
Proof.
  intros H. unfold c_remove_param. cbn [forget bforget c_base c_pparams c_pres c_res2id s_res s_params s_p2r s_r2p].
  destruct (decide (p ∈ s_params (c_base s))); [|reflexivity].
  rewrite lookup_fmap. unfold mget in H.
  set (s1 := mkCsolver (mkSolver (s_res (c_base s)) (s_params (c_base s) ∖ {[p]}) (s_p2r (c_base s)) (s_r2p (c_base s))) (c_pparams s) (c_pres s) (c_res2id s)).
  change (mkCsolver (mkSolver (minus m (s_res (c_base s))) (s_params (c_base s) ∖ {[p]}) (minus m <$> s_p2r (c_base s)) (delete m (s_r2p (c_base s)))) (c_pparams s) (minus m (c_pres s)) (minus m (c_res2id s))) with (forget m s1).
  assert (L : forall s3, (if decide (p ∈ c_pparams (forget m s3)) then Ret (mkCsolver (c_base (forget m s3)) (c_pparams (forget m s3) ∖ {[p]}) (filter (fun r => p ∉ blocks r) (c_pres (forget m s3))) (c_res2id (forget m s3))) else Throw StdExn)
    = Base.omap (forget m) (if decide (p ∈ c_pparams s3) then Ret (mkCsolver (c_base s3) (c_pparams s3 ∖ {[p]}) (filter (fun r => p ∉ blocks r) (c_pres s3)) (c_res2id s3)) else Throw StdExn)).
  { intros s3. cbn [forget c_pparams]. destruct (decide (p ∈ c_pparams s3)); cbn [Base.omap obind]; [|reflexivity]. f_equal. unfold forget. cbn [c_base c_pparams c_pres c_res2id].
    f_equal. apply set_eq. intros x. unfold minus. rewrite !elem_of_filter, !elem_of_difference, elem_of_filter. tauto. }
  destruct (s_p2r (c_base s) !! p) as [rs|] eqn:E; cbn [fmap option_fmap option_map].
  - replace (minus m rs) with rs by (unfold minus; cbn in H; set_solver).
    rewrite forget_remove_residuals by (rewrite <- elem_of_list_In, elem_of_elements; exact H).
    destruct (c_remove_residuals blocks (elements rs) s1) as [s2|ee|]; cbn [Base.omap obind]; [|reflexivity..].
    etransitivity; [|apply L]. cbn [forget bforget c_base c_pparams c_pres c_res2id s_res s_params s_p2r s_r2p]. unfold bforget. cbn [s_res s_params s_p2r s_r2p]. rewrite fmap_delete. reflexivity.
  - cbn [obind]. apply L.
Qed.
End F.

(** ** related outcomes *)
Definition LR {A B} (R : A -> B -> Prop) (x : outcome A) (y : outcome B) : Prop :=
  match x, y with
  | Ret a, Ret b => R a b
  | Throw e, Throw e' => e = e'
  | Undef, Undef => True
  | _, _ => False
  end.
Lemma LR_bind {A B C D} (R : A -> B -> Prop) (R' : C -> D -> Prop) x y f g : LR R x y -> (forall a b, R a b -> LR R' (f a) (g b)) -> LR R' (obind x f) (obind y g).
Proof. destruct x, y; cbn; try contradiction; auto. Qed.
Lemma LR_omap {A} (R : A -> A -> Prop) (f : A -> A) y : (forall b, y = Ret b -> R (f b) b) -> LR R (Base.omap f y) y.
Proof. destruct y; cbn; auto. Qed.

Section L.
Context (blocks : Z -> list Z) (corners : list (Z * list (Z * pt3))).
Context {V : Type}.
Definition good (m : Z) (s : csolver) : Prop := CInv blocks s /\ m ∈ s_res (c_base s).
Definition sim (m : Z) (sb sf : csolver) : Prop := sb = forget m sf /\ good m sf.

Lemma sim_add_residual m sb sf r : sim m sb sf -> r <> m -> LR (sim m) (c_add_residual blocks sb r) (c_add_residual blocks sf r).
Proof.
  intros (-> & Hc & Hm) Hr. rewrite forget_add_residual by exact Hr. apply LR_omap. intros b E. split; [reflexivity|].
  unfold c_add_residual, add_residual in E. destruct (decide (r ∈ s_res (c_base sf))) as [|Hn]; [discriminate E|]. cbn [obind] in E.
  destruct (decide (base.NoDup (blocks r))) as [Hd|]; [|discriminate E].
  destruct (CInv_add_residual blocks 0 0 (Z.le_refl 0) (Z.le_refl 0) sf r Hc Hn Hd) as (s' & E' & Hc' & _). unfold c_add_residual, add_residual in E'.
  rewrite decide_False in E' by exact Hn. cbn [obind] in E'. rewrite decide_True in E' by exact Hd. rewrite E in E'. injection E' as <-.
  split; [exact Hc'|]. injection E as <-. cbn. set_solver.
Qed.
Lemma sim_remove_residual m sb sf r : sim m sb sf -> r <> m -> LR (sim m) (c_remove_residual blocks sb r) (c_remove_residual blocks sf r).
Proof.
  intros (-> & Hc & Hm) Hr. rewrite forget_remove_residual by exact Hr. apply LR_omap. intros b E. split; [reflexivity|].
  split; [exact (CInv_c_remove_residual blocks sf r b Hc E)|].
  unfold c_remove_residual, remove_residual in E. destruct (decide (r ∈ s_res (c_base sf))) as [Hx|]; [|discriminate E].
  destruct (decide (r ∈ c_res2id sf)); [|discriminate E]. try rewrite decide_True in E by exact Hx. cbn [obind] in E.
  destruct (decide (r ∈ c_pres sf)); [|discriminate E]. injection E as <-. cbn. set_solver.
Qed.
Lemma sim_remove_param m sb sf p : sim m sb sf -> p ∉ blocks m -> LR (sim m) (c_remove_param blocks sb p) (c_remove_param blocks sf p).
Proof.
  intros (-> & Hc & Hm) Hp. rewrite forget_remove_param; [|rewrite (ci_p2r blocks sf Hc); tauto]. apply LR_omap. intros b E. split; [reflexivity|].
  rewrite (c_remove_param_effect blocks sf p Hc) in E. destruct (decide (p ∈ s_params (c_base sf))); [|discriminate E]. injection E as <-.
  split; [now apply CInv_removed|]. unfold c_removed, with_param. cbn. rewrite elem_of_difference, elem_of_filter. tauto.
Qed.
Lemma sim_add_param m sb sf p : sim m sb sf -> sim m (c_add_param sb p) (c_add_param sf p).
Proof. intros (-> & Hc & Hm). split; [reflexivity|]. split; [exact (CInv_add_param blocks 0 0 (Z.le_refl 0) (Z.le_refl 0) sf p Hc)|exact Hm]. Qed.

(** ** views *)
Definition pr_sim {A} (m : Z) (x y : A * csolver) : Prop := fst x = fst y /\ sim m (snd x) (snd y).
Lemma sim_mk_residuals m exts alloc cam tcs : (forall c t i, alloc c t i <> m) -> forall sb sf, sim m sb sf ->
  LR (pr_sim m) (mk_residuals blocks exts corners alloc cam tcs sb) (mk_residuals blocks exts corners alloc cam tcs sf).
Proof.
  intros Ha. induction tcs as [|[t c] tcs IH]; intros sb sf H; cbn [mk_residuals]; [split; [reflexivity|exact H]|].
  destruct (get_corner corners t c) as [x|e|]; cbn [obind]; [|reflexivity|exact I].
  destruct (existsb (Z.eqb cam) exts); [|reflexivity].
  eapply LR_bind; [apply (sim_add_residual m _ _ _ H), Ha|]. intros a b Hab.
  eapply LR_bind; [apply (IH a b Hab)|]. intros [a1 a2] [b1 b2] [E1 E2]. cbn in *. subst. split; [reflexivity|exact E2].
Qed.
Lemma sim_view_residuals m cams exts alloc gs : (forall c t i, alloc c t i <> m) -> forall f sb sf, sim m sb sf ->
  LR (pr_sim m) (view_residuals blocks cams exts corners alloc gs f sb) (view_residuals blocks cams exts corners alloc gs f sf).
Proof.
  intros Ha. induction gs as [|[cam g] gs IH]; intros f sb sf H; cbn [view_residuals]; [split; [reflexivity|exact H]|].
  destruct (negb (existsb (Z.eqb cam) cams)); [auto|]. destruct (negb (g_detected g)); [auto|].
  destruct (get_measurements g meas_nil) as [x|e|]; cbn [obind]; [|reflexivity|exact I].
  eapply LR_bind; [apply sim_mk_residuals; eassumption|]. intros [a1 a2] [b1 b2] [E1 E2]. cbn in *. subst. apply IH, E2.
Qed.
Lemma sim_view_ctor m cams exts alloc ts gs pose sb sf : (forall c t i, alloc c t i <> m) -> sim m sb sf ->
  LR (pr_sim m) (view_ctor blocks cams exts corners alloc ts gs pose sb) (view_ctor blocks cams exts corners alloc ts gs pose sf).
Proof.
  intros Ha H. unfold view_ctor. eapply LR_bind; [apply sim_view_residuals; eassumption|]. intros [a1 a2] [b1 b2] [E1 E2]. cbn in *. subst. split; [reflexivity|exact E2].
Qed.
Lemma filter_loop_sub err thx thy l : forall g s l' g' s' n, filter_loop blocks err thx thy l g s = Ret (l', g', s', n) -> forall r, In r l' -> In r l.
Proof.
  induction l as [|r l IH]; intros g s l' g' s' n E; cbn [filter_loop] in E.
  - injection E as <- _ _ _. tauto.
  - destruct (outlier err thx thy r).
    + destruct (remove g (vr_tag r) (vr_corner r)) as [[| |] g1]; [|discriminate E|discriminate E].
      destruct (has g1 (vr_tag r) (vr_corner r)) as [h|ee|]; cbn [obind] in E; [|discriminate E|discriminate E]. destruct h; [discriminate E|].
      destruct (g_nb g =? g_nb g1); [discriminate E|]. destruct (c_remove_residual blocks s (vr_id r)) as [s1|ee|]; cbn [obind] in E; [|discriminate E|discriminate E].
      destruct (filter_loop blocks err thx thy l g1 s1) as [[[[l2 g2] s2] n2]|ee|] eqn:E2; cbn [obind] in E; [|discriminate E|discriminate E].
      injection E as <- _ _ _. intros r' Hr. right. eapply IH; eauto.
    + destruct (filter_loop blocks err thx thy l g s) as [[[[l2 g2] s2] n2]|ee|] eqn:E2; cbn [obind] in E; [|discriminate E|discriminate E].
      injection E as <- _ _ _. intros r' [Hr|Hr]; [left; exact Hr|right; eapply IH; eauto].
Qed.
Lemma sim_filter_loop m err thx thy l : (forall r, In r l -> vr_id r <> m) -> forall g sb sf, sim m sb sf ->
  LR (fun x y => fst (fst x) = fst (fst y) /\ snd x = snd y /\ sim m (snd (fst x)) (snd (fst y))) (filter_loop blocks err thx thy l g sb) (filter_loop blocks err thx thy l g sf).
Proof.
  induction l as [|r l IH]; intros Hl g sb sf H; cbn [filter_loop]; [split; [reflexivity|split; [reflexivity|exact H]]|].
  assert (Hl' : forall r, In r l -> vr_id r <> m) by (intros r' Hr; apply Hl; right; exact Hr).
  destruct (outlier err thx thy r).
  - destruct (remove g (vr_tag r) (vr_corner r)) as [[| |] g1]; [|reflexivity|exact I].
    destruct (has g1 (vr_tag r) (vr_corner r)) as [h|ee|]; cbn [obind]; [|reflexivity|exact I]. destruct h; [reflexivity|].
    destruct (g_nb g =? g_nb g1); [reflexivity|].
    eapply LR_bind; [apply (sim_remove_residual m _ _ _ H), Hl; left; reflexivity|]. intros a b Hab.
    eapply LR_bind; [apply (IH Hl' g1 a b Hab)|]. intros [[[a1 a2] a3] a4] [[[b1 b2] b3] b4] (E1 & E2 & E3). cbn in *. injection E1 as -> ->. subst. auto.
  - eapply LR_bind; [apply (IH Hl' g sb sf H)|]. intros [[[a1 a2] a3] a4] [[[b1 b2] b3] b4] (E1 & E2 & E3). cbn in *. injection E1 as -> ->. subst. auto.
Qed.
Lemma sim_filter_cams m err thx thy cs : forall v sb sf, (forall c r, In r (v_res v c) -> vr_id r <> m) -> sim m sb sf ->
  LR (fun x y => fst (fst x) = fst (fst y) /\ snd x = snd y /\ sim m (snd (fst x)) (snd (fst y))) (filter_cams blocks err thx thy cs v sb) (filter_cams blocks err thx thy cs v sf).
Proof.
  induction cs as [|c cs IH]; intros v sb sf Hv H; cbn [filter_cams]; [split; [reflexivity|split; [reflexivity|exact H]]|].
  pose proof (sim_filter_loop m err thx thy (v_res v c) (Hv c) (v_grids v c) sb sf H) as L.
  destruct (filter_loop blocks err thx thy (v_res v c) (v_grids v c) sf) as [[[[l' g'] s'] n']|e|] eqn:E;
    destruct (filter_loop blocks err thx thy (v_res v c) (v_grids v c) sb) as [[[[l2 g2] s2] n2]|e2|]; cbn in L; try contradiction; cbn [obind]; [|exact L|exact I].
  destruct L as (E1 & E2 & E3). injection E1 as -> ->. subst n2.
  eapply LR_bind; [apply IH; [|exact E3]|].
  - intros c' r. cbn [v_res]. unfold fset. destruct (c' =? c); [|apply Hv]. intros Hr. apply (Hv c). eapply filter_loop_sub; eauto.
  - intros [[a1 a3] a4] [[b1 b3] b4] (F1 & F2 & F3). cbn in *. subst. auto.
Qed.

(** ** the calibrator *)
Definition kforget (m : Z) (k : calib V) : calib V := set_solver k (forget m (k_solver k)).
Definition ksim (m : Z) (kb kf : calib V) : Prop := kb = kforget m kf /\ good m (k_solver kf).
(** the environment whose pose estimate is the given one *)
Definition with_estimate (e : env V) (o : outcome V) : env V := mkEnv (e_pose e) (e_alloc e) (fun _ _ => o).
Definition seen_at (k : calib V) (ts : Z) : calib V :=
  mkCalib (k_cams k) (k_exts k) ({[ts]} ∪ k_data k) (k_poses k) (k_views k) (k_vts k) (k_solver k) (k_info k).
Definition estimate_of (e : env V) (k : calib V) (gs : list (Z * grid)) : outcome V :=
  match first_detected gs with None => Undef | Some ts => e_estimate e (seen_at k ts) gs end.
Lemma sim_add_view m e k gs : good m (k_solver k) -> (forall c t i, e_alloc e c t i <> m) ->
  LR (fun x y => fst x = fst y /\ ksim m (snd x) (snd y)) (add_view blocks corners (with_estimate e (estimate_of e k gs)) (kforget m k) gs) (add_view blocks corners e k gs).
Proof.
  intros G Ha. unfold add_view, estimate_of. destruct (first_detected gs) as [ts|]; [|split; [reflexivity|split; [reflexivity|exact G]]].
  fold (seen_at k ts). fold (seen_at (kforget m k) ts). cbn [kforget set_solver k_poses seen_at].
  eapply (LR_bind (ksim m)).
  - destruct (k_poses k !! ts) eqn:Ep; [split; [reflexivity|exact G]|]. unfold add_pose. cbn [k_poses seen_at kforget set_solver with_estimate e_estimate]. rewrite Ep.
    destruct (e_estimate e (seen_at k ts) gs) as [T|ee|]; cbn [obind]; [|reflexivity|exact I]. split; [reflexivity|]. apply (sim_add_param m (forget m (k_solver k))). split; [reflexivity|exact G].
  - intros kb kf (-> & G1). cbn [kforget set_solver k_poses k_cams k_exts k_data k_views k_vts k_solver k_info].
    destruct (k_poses kf !! ts) as [[p v]|]; [|exact I].
    eapply (LR_bind (pr_sim m)).
    + apply sim_view_ctor; [exact Ha|]. change (has_param (forget m (k_solver kf)) p) with (has_param (k_solver kf) p).
      destruct (has_param (k_solver kf) p); [split; [reflexivity|exact G1]|]. apply (sim_add_param m (forget m (k_solver kf))). split; [reflexivity|exact G1].
    + intros [a1 a2] [b1 b2] [E1 [-> G2]]. cbn in E1, G2 |- *. subst a1. split; [reflexivity|]. split; [reflexivity|exact G2].
Qed.
Lemma sim_remove_view m k ts : good m (k_solver k) -> (forall p v, k_poses k !! ts = Some (p, v) -> p ∉ blocks m) ->
  LR (ksim m) (remove_view blocks (kforget m k) ts) (remove_view blocks k ts).
Proof.
  intros G Hp. unfold remove_view. cbn [kforget set_solver k_poses k_cams k_exts k_data k_views k_vts k_solver k_info].
  eapply (LR_bind (ksim m)).
  - destruct (k_poses k !! ts) as [[p v]|]; [|split; [reflexivity|exact G]].
    eapply (LR_bind (sim m)).
    + change (has_param (forget m (k_solver k)) p) with (has_param (k_solver k) p). destruct (has_param (k_solver k) p); [|split; [reflexivity|exact G]].
      apply sim_remove_param; [split; [reflexivity|exact G]|]. eapply Hp. reflexivity.
    + intros a b [-> G1]. split; [reflexivity|exact G1].
  - intros kb kf (-> & G1). cbn [kforget set_solver k_views k_vts]. destruct (k_views kf !! ts); [|split; [reflexivity|exact G1]].
    destruct (erase_first ts (k_vts kf)) as [l|ee|]; cbn [obind]; [|reflexivity|exact I]. split; [reflexivity|exact G1].
Qed.
End L.
