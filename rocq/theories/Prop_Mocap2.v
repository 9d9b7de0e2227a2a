(** * C96, C97, C99: the motion-capture calibrator: selection of views, rejected views, results *)
From Verif Require Import Base GeomModel GeomSpec GeomProofs Prop_Geom StatsModel Prop_Stats MocapModel MocapSpec MocapProofs MocapProofs2 MocapProofs3 MocapProofs4 Prop_Mocap.
From Verif Require CalibModel Prop_Vi5 Prop_Vi9.
From Coq Require Import Reals Lra Sorted Permutation.
Import CalibModel (XF, XPinf, XMinf).
Local Open Scope Z_scope.

Section T.
Context (pnp : list R -> list corner -> option mat4) (proj : list R -> vec3 -> option vec2)
        (slv : Z -> list (Z * corner) -> est -> values) (info : problem -> est -> option CalibModel.xreal)
        (cfg : settings).

(** ** Specification *)
(** going from information measure [a] (log2 of the determinant of the covariance) to [b] is worth a view *)
Definition worth (a b : CalibModel.xreal) : Prop :=
  match a, b with
  | XF x, XF y => (c_gain cfg <= (x - y) / 2)%R
  | _, XMinf | XPinf, _ => True
  | _, _ => False
  end.
(** what the solver proposes in state [t] *)
Definition proposal (t : mocap) : values := slv 30 (map (fun x => (snd (fst x), snd x)) (q_res (m_prob t))) (m_est t).

Lemma worth_iff a b : worth a b <-> CalibModel.gain_below a b (c_gain cfg) = false.
Proof.
  unfold worth, CalibModel.gain_below. destruct a as [x| |], b as [y| |]; try tauto; try (split; [intros []|discriminate]).
  destruct (Rlt_dec (1 / 2 * (x - y)) (c_gain cfg)); split; intros; try discriminate; try lra; auto.
Qed.
Lemma loop_ind gs (P : list Z -> mocap -> Prop) :
  (forall done ts g s s1 s2 e3 s', NInv gs done s -> In (ts, g) gs -> ~ In ts done -> P done s -> turn proj info cfg ts s s1 s2 e3 s' -> NInv gs (ts :: done) s' ->
     m_info s2 = m_info s -> m_est s2 = m_est s -> Permutation (map fst (m_views s2)) (ts :: map fst (m_views s)) -> Inv [] s2 ->
     e3 = solved cfg (proposal s2) (q_res (m_prob s2)) (m_est s2) -> P (ts :: done) s') ->
  forall l done s, NInv gs done s -> P done s -> NoDup l -> (forall ts, In ts l -> In ts (map fst gs) /\ ~ In ts done) ->
  exists s', nbv_loop proj slv info cfg l s = Ret s' /\ NInv gs (rev l ++ done) s' /\ P (rev l ++ done) s'.
Proof.
  intros HP. induction l as [|ts l IH]; intros done s N Ps Nd Hl; [exists s; auto|]. cbn [nbv_loop].
  inversion Nd as [|? ? Nd1 Nd2]; subst. destruct (Hl ts (or_introl eq_refl)) as (H1 & H2). apply in_map_iff in H1 as ((t & g) & Et & Hg). cbn in Et. subst t.
  destruct (nbv_step_turn proj slv info cfg gs done ts g s N Hg H2) as (s1 & s2 & e3 & s' & E & N' & Tn & V1 & X1 & X2 & Ni & I1 & I2 & O1 & O2 & Ea & Ef & V2 & Pk & De).
  rewrite E. cbn [obind]. destruct (IH (ts :: done) s' N') as (s'' & E'' & N'' & P'').
  - eapply HP; eauto. unfold proposal. rewrite X2. exact De.
  - exact Nd2.
  - intros x Hx. destruct (Hl x (or_intror Hx)) as (K1 & K2). split; auto. intros [ -> |K]; auto.
  - exists s''. split; [exact E''|]. cbn [rev]. rewrite <- app_assoc. auto.
Qed.
Lemma prefix cam T_WF gs Ts s l ts s1 : recording gs Ts -> construct pnp cam T_WF gs Ts = Ret s ->
  NoDup (l ++ [ts]) -> incl (l ++ [ts]) (map fst (m_grids s)) -> nbv_loop proj slv info cfg l s = Ret s1 -> NInv (m_grids s) (rev l) s1 /\ ~ In ts (rev l) /\ exists g, In (ts, g) (m_grids s).
Proof.
  intros Rc E Nd Hl El. assert (N := construct_ninv pnp cam T_WF gs Ts s Rc E).
  destruct (nbv_loop_ninv proj slv info cfg (m_grids s) l [] s N) as (s' & E' & N').
  - apply nodup_app_l in Nd. exact Nd.
  - intros x Hx. split; [apply Hl, in_app_iff; auto|intros []].
  - rewrite El in E'. injection E' as <-. rewrite app_nil_r in N'. split; [exact N'|]. split.
    + intros K. apply in_rev in K. apply NoDup_remove in Nd as (_ & Nd). apply Nd, in_app_iff. auto.
    + assert (Hts : In ts (map fst (m_grids s))) by (apply Hl, in_elt). apply in_map_iff in Hts as ((t & g) & Et & Hg). cbn in Et. subst t. eauto.
Qed.

(** ** C96: which views are kept *)
(** A frame is tried on the problem of the views kept so far together with its own corners (state [t]: outliers removed,
    estimates not yet changed). It is kept when it is among the first four, when its information cannot be computed,
    or when it is worth it; only in the last case its information becomes the reference for the next ones. No other view
    is dropped. *)
Theorem C96_rule : forall cam T_WF gs Ts s l ts s1, recording gs Ts -> construct pnp cam T_WF gs Ts = Ret s ->
  NoDup (l ++ [ts]) -> incl (l ++ [ts]) (map fst (m_grids s)) -> nbv_loop proj slv info cfg l s = Ret s1 ->
  exists t e s2, nbv_step proj slv info cfg ts s1 = Ret s2 /\ consistent t /\ m_est t = m_est s1 /\ Permutation (map fst (m_views t)) (ts :: map fst (m_views s1)) /\
    e = solved cfg (proposal t) (q_res (m_prob t)) (m_est t) /\
    let early := (length (m_views s1) < 4)%nat in
    let kept := early \/ info (m_prob t) e = None \/ exists i, info (m_prob t) e = Some i /\ worth (m_info s1) i in
    (kept -> m_views s2 = m_views t) /\ (~ kept -> map fst (m_views s2) = map fst (m_views s1)) /\
    (forall i, ~ early -> info (m_prob t) e = Some i -> worth (m_info s1) i -> m_info s2 = i /\ m_est s2 = e) /\
    ((early \/ forall i, info (m_prob t) e = Some i -> ~ worth (m_info s1) i) -> m_info s2 = m_info s1).
Proof.
  intros cam T_WF gs Ts s l ts s1 Rc E Nd Hl El. destruct (prefix cam T_WF gs Ts s l ts s1 Rc E Nd Hl El) as (N & Hn & g & Hg).
  destruct (nbv_step_turn proj slv info cfg _ _ ts g s1 N Hg Hn) as (t1 & t2 & e3 & s2 & E2 & N2 & Tn & V1 & X1 & X2 & Ni & I1 & I2 & O1 & O2 & Ea & Ef & V2 & Pk & De).
  exists t2, e3, s2. split; [exact E2|]. split; [apply inv_consistent; auto|]. split; [exact X2|]. split; [exact Pk|]. split; [unfold proposal; rewrite X2; exact De|]. cbn zeta.
  destruct Tn as [L Hs|L Hi Hs _|i L Hi Hw Hs|i L Hi Hw _ Hv Ho Hf He].
  - subst s2. split; [reflexivity|]. split; [intros K; exfalso; apply K; auto|]. split; [intros i K; exfalso; apply K; auto|]. intros _. exact Ni.
  - subst s2. split; [reflexivity|]. split; [intros K; exfalso; apply K; auto|]. split; [intros i _ K; congruence|]. intros _. exact Ni.
  - subst s2. split; [reflexivity|]. split; [intros K; exfalso; apply K; right; right; exists i; split; auto; apply worth_iff, Hw|]. split; [intros j _ K _; rewrite Hi in K; injection K as ->; auto|].
    intros [K|K]; [lia|]. exfalso. apply (K i Hi), worth_iff, Hw.
  - assert (Nw : forall j, info (m_prob t2) e3 = Some j -> ~ worth (m_info s1) j) by (intros j K W; rewrite Hi in K; injection K as ->; apply worth_iff in W; congruence).
    split; [intros [K|[K|(j & K & W)]]; [lia|congruence|exfalso; eapply Nw; eauto]|]. split; [intros _; rewrite Hv; apply keep_keys|]. split; [intros j _ K W; exfalso; eapply Nw; eauto|]. intros _. exact Hf.
Qed.
(** Every view kept for its information beyond the fourth improves the measure by 2 * info_gain_threshold: when the measure
    is never below [B], their number is bounded. *)
Theorem C96_bound : forall cam T_WF gs Ts s l s' B, recording gs Ts -> construct pnp cam T_WF gs Ts = Ret s ->
  NoDup l -> incl l (map fst (m_grids s)) -> nbv_loop proj slv info cfg l s = Ret s' ->
  (0 < c_gain cfg)%R -> (forall q e, exists i, info q e = Some (XF i) /\ (B <= i)%R) ->
  (length (m_views s') <= 4)%nat \/ (2 * c_gain cfg * (INR (length (m_views s')) - 4) <= - B)%R.
Proof.
  intros cam T_WF gs Ts s l s' B Rc E Nd Hl El Hc Hi. assert (N := construct_ninv pnp cam T_WF gs Ts s Rc E).
  destruct (loop_ind (m_grids s) (fun _ t => exists x, m_info t = XF x /\
     ((length (m_views t) <= 4)%nat /\ x = 0%R \/ (4 < length (m_views t))%nat /\ (B <= x)%R /\ (2 * c_gain cfg * (INR (length (m_views t)) - 4) <= - x)%R))) with (l := l) (done := @nil Z) (s := s) as (s'' & E'' & _ & x & _ & Hx).
  - intros done ts g u s1 s2 e3 u' Nu Hg Hn (x & Ex & Hx) Tn _ Ni _ Pk _ _.
    assert (Lk : length (m_views s2) = S (length (m_views u))) by (rewrite <- (map_length fst), (Permutation_length Pk); cbn; rewrite map_length; reflexivity).
    destruct (Hi (m_prob s2) e3) as (i & Ei & Bi).
    destruct Tn as [L Hs|L Hif Hs _|j L Hif Hw Hs|j L Hif Hw _ Hv Ho Hf He].
    + subst u'. exists x. cbn [with_est m_info m_views]. split; [congruence|]. rewrite Lk. left. split; [lia|]. destruct Hx as [(_ & ->)|(K & _)]; [reflexivity|lia].
    + congruence.
    + rewrite Ei in Hif. injection Hif as <-. subst u'. cbn [with_info with_est m_info m_views]. exists i. split; [reflexivity|]. rewrite Lk. right. split; [lia|]. split; [exact Bi|].
      assert (W := proj2 (worth_iff _ _) Hw). rewrite Ex in W. cbn in W. rewrite S_INR. destruct Hx as [(K & ->)|(K & _ & K2)]; [|nra].
      assert (length (m_views u) = 4%nat) by lia. rewrite H. cbn [INR]. lra.
    + exists x. split; [congruence|]. rewrite Hv, map_length. exact Hx.
  - exact N.
  - exists 0%R. split; [|left; split; [|reflexivity]].
    + assert (K := construct_ok pnp cam T_WF gs Ts Rc). cbn zeta in K. rewrite E in K. destruct (latest _ _ _); [|discriminate K]. injection K as ->. reflexivity.
    + destruct (construct_inv pnp cam T_WF gs Ts s Rc E) as (_ & V & _). rewrite V. cbn. lia.
  - exact Nd.
  - intros ts Hts. split; [apply Hl, Hts|intros []].
  - rewrite El in E''. injection E'' as <-. destruct Hx as [(K & _)|(K & K1 & K2)]; [left; exact K|right; lra].
Qed.
(** Refuted: that a view is kept only for what it adds. The fifth view is compared with the measure 0, not with that of
    the four views before it: when no view ever changes the measure [c], the fifth is kept as soon as [c] is negative
    enough - and when it is not, none after the fourth, whatever they would add. *)
Lemma construct_info cam T_WF gs Ts s : recording gs Ts -> construct pnp cam T_WF gs Ts = Ret s -> m_info s = XF 0.
Proof. intros Rc E. assert (K := construct_ok pnp cam T_WF gs Ts Rc). cbn zeta in K. rewrite E in K. destruct (latest _ _ _); [|discriminate K]. injection K as ->. reflexivity. Qed.
Theorem C96_baseline_refuted : forall cam T_WF gs Ts s l s' c, recording gs Ts -> construct pnp cam T_WF gs Ts = Ret s ->
  NoDup l -> incl l (map fst (m_grids s)) -> nbv_loop proj slv info cfg l s = Ret s' ->
  (0 < c_gain cfg)%R -> (forall q e, info q e = Some (XF c)) ->
  length (m_views s') = Nat.min (length l) (if Rle_dec c (- 2 * c_gain cfg) then 5 else 4).
Proof.
  intros cam T_WF gs Ts s l s' c Rc E Nd Hl El Hc Hi. assert (N := construct_ninv pnp cam T_WF gs Ts s Rc E).
  set (n := if Rle_dec c (- 2 * c_gain cfg) then 5%nat else 4%nat).
  assert (Hn : (n = 5%nat /\ (c_gain cfg <= (0 - c) / 2)%R) \/ (n = 4%nat /\ (~ c_gain cfg <= (0 - c) / 2)%R)) by (unfold n; destruct (Rle_dec _ _); [left|right]; split; auto; lra).
  destruct (loop_ind (m_grids s) (fun done t => length (m_views t) = Nat.min (length done) n /\ m_info t = if Nat.ltb 4 (length (m_views t)) then XF c else XF 0)) with (l := l) (done := @nil Z) (s := s) as (s'' & E'' & _ & K & _).
  - intros done ts g u s1 s2 e3 u' Nu Hg Hnd (Hx & Hy) Tn _ Ni _ Pk _ _.
    assert (Lk : length (m_views s2) = S (length (m_views u))) by (rewrite <- (map_length fst), (Permutation_length Pk); cbn; rewrite map_length; reflexivity).
    cbn [length].
    destruct Tn as [L Hs|L Hif Hs _|j L Hif Hw Hs|j L Hif Hw _ Hv Ho Hf He].
    + subst u'. cbn [with_est m_info m_views]. rewrite Lk, Ni, Hy. destruct (Nat.ltb_spec 4 (length (m_views u))); destruct (Nat.ltb_spec 4 (S (length (m_views u)))); try lia. split; [|reflexivity]. lia.
    + rewrite Hi in Hif. discriminate Hif.
    + rewrite Hi in Hif. injection Hif as <-. subst u'. cbn [with_info with_est m_info m_views]. rewrite Lk. destruct (Nat.ltb_spec 4 (S (length (m_views u)))); [|lia]. split; [|reflexivity].
      apply worth_iff in Hw. rewrite Hy in Hw. destruct (Nat.ltb_spec 4 (length (m_views u))); cbn in Hw; [lra|]. destruct Hn as [(-> & _)|(_ & Hn)]; [|tauto]. lia.
    + rewrite Hi in Hif. injection Hif as <-. rewrite Hv, map_length, Hf. split; [|exact Hy]. assert (W : ~ worth (m_info u) (XF c)) by (intros W; apply worth_iff in W; congruence).
      rewrite Hy in W. destruct (Nat.ltb_spec 4 (length (m_views u))); [lia|]. destruct Hn as [(_ & Hn)|(-> & Hn)]; [exfalso; apply W; exact Hn|]. lia.
  - exact N.
  - destruct (construct_inv pnp cam T_WF gs Ts s Rc E) as (_ & V & _). rewrite V. split; [reflexivity|]. apply (construct_info cam T_WF gs Ts s Rc E).
  - exact Nd.
  - intros ts Hts. split; [apply Hl, Hts|intros []].
  - rewrite El in E''. injection E'' as <-. rewrite app_nil_r, rev_length in K. exact K.
Qed.
(** Refuted: that a view whose information cannot be computed is left out: when it never can, every frame is kept. *)
Theorem C96_failed_refuted : forall cam T_WF gs Ts s l s', recording gs Ts -> construct pnp cam T_WF gs Ts = Ret s ->
  NoDup l -> incl l (map fst (m_grids s)) -> nbv_loop proj slv info cfg l s = Ret s' -> (forall q e, info q e = None) ->
  Permutation (map fst (m_views s')) l.
Proof.
  intros cam T_WF gs Ts s l s' Rc E Nd Hl El Hi. assert (N := construct_ninv pnp cam T_WF gs Ts s Rc E).
  destruct (loop_ind (m_grids s) (fun done t => Permutation (map fst (m_views t)) done)) with (l := l) (done := @nil Z) (s := s) as (s'' & E'' & _ & K).
  - intros done ts g u s1 s2 e3 u' Nu Hg Hnd Hx Tn _ Ni _ Pk _ _.
    destruct Tn as [L Hs|L Hif Hs _|j L Hif Hw Hs|j L Hif Hw _ Hv Ho Hf He]; [| |rewrite Hi in Hif; discriminate Hif|rewrite Hi in Hif; discriminate Hif]; subst u'; cbn [restore with_est m_views]; rewrite Pk, Hx; reflexivity.
  - exact N.
  - destruct (construct_inv pnp cam T_WF gs Ts s Rc E) as (_ & V & _). rewrite V. constructor.
  - exact Nd.
  - intros ts Hts. split; [apply Hl, Hts|intros []].
  - rewrite El in E''. injection E'' as <-. rewrite app_nil_r in K. rewrite K. symmetry. apply Permutation_rev.
Qed.

(** ** C97: a rejected view *)
Lemma rejected_turn cam T_WF gs Ts s l ts s1 s2 : recording gs Ts -> construct pnp cam T_WF gs Ts = Ret s ->
  NoDup (l ++ [ts]) -> incl (l ++ [ts]) (map fst (m_grids s)) -> nbv_loop proj slv info cfg l s = Ret s1 -> nbv_step proj slv info cfg ts s1 = Ret s2 -> ~ In ts (map fst (m_views s2)) ->
  exists g t1 t2, In (ts, g) (m_grids s) /\ add_view g s1 = Ret t1 /\ consistent t1 /\ m_est t1 = m_est s1 /\ filter_all proj cfg t1 = Ret (t2, Z.of_nat (length (outliers proj (m_est s1) (thresholds proj cfg t1) (in_use t1)))) /\
    m_est t2 = m_est s1 /\
    q_res (m_prob s2) = filter (fun x => negb (existsb (fun y => rid_eqb (fst (fst y)) (fst (fst x))) (outliers proj (m_est s1) (thresholds proj cfg t1) (in_use t1)))) (q_res (m_prob s1)) /\
    m_views s2 = map (keep proj (m_est s1) (thresholds proj cfg t1)) (m_views s1) /\ m_order s2 = m_order s1 /\ m_info s2 = m_info s1 /\
    m_est s2 = Est (firstn 7 (e_cam (m_est s1)) ++ skipn 7 (e_cam (solved cfg (proposal t2) (q_res (m_prob t2)) (m_est s1)))) (e_fid (m_est s1)) (e_ext (m_est s1)) (mdel ts (e_poses (m_est s1))) /\
    consistent s1 /\ consistent s2.
Proof.
  intros Rc E Nd Hl El Es Hv. destruct (prefix cam T_WF gs Ts s l ts s1 Rc E Nd Hl El) as (N & Hn & g & Hg).
  destruct (nbv_step_turn proj slv info cfg _ _ ts g s1 N Hg Hn) as (t1 & t2 & e3 & s2' & E2 & N2 & Tn & V1 & X1 & X2 & Ni & I1 & I2 & O1 & O2 & Ea & Ef & V2 & Pk & De).
  rewrite Es in E2. injection E2 as <-.
  assert (Hk : In ts (map fst (m_views t2))) by (apply (Permutation_in _ (Permutation_sym Pk)); left; reflexivity).
  destruct Tn as [L Hs|L Hif Hs _|j L Hif Hw Hs|j L Hif Hw Hq Hvv Ho Hf He]; [subst s2; exfalso; apply Hv, Hk|subst s2; exfalso; apply Hv, Hk|subst s2; exfalso; apply Hv, Hk|].
  exists g, t1, t2. split; [exact Hg|]. split; [exact Ea|]. split; [apply inv_consistent; auto|]. split; [exact X1|]. split; [exact Ef|]. split; [exact X2|].
  split; [exact Hq|]. split; [exact Hvv|]. split; [exact Ho|]. split; [exact Hf|]. split; [|split; apply inv_consistent; [apply (n_inv _ _ _ N)|apply (n_ord _ _ _ N)|apply (n_inv _ _ _ N2)|apply (n_ord _ _ _ N2)]].
  rewrite He, De. unfold proposal. rewrite X2. reflexivity.
Qed.
(** The frame is rejected in state [s1] of the loop, which continues from [s2]; [t1] is the state with the frame added. *)
(** After a rejection the extrinsics, the target pose, the reference information, the order and the body poses of all
    other frames are those before the attempt (only the body pose of the frame itself is gone), and so are the camera
    parameters when they are fixed or at most seven. If no measurement counted as an outlier while the frame was in, views and
    measurements are those before, too. *)
Theorem C97_restored_partial : forall cam T_WF gs Ts s l ts s1 s2, recording gs Ts -> construct pnp cam T_WF gs Ts = Ret s ->
  NoDup (l ++ [ts]) -> incl (l ++ [ts]) (map fst (m_grids s)) -> nbv_loop proj slv info cfg l s = Ret s1 -> nbv_step proj slv info cfg ts s1 = Ret s2 -> ~ In ts (map fst (m_views s2)) ->
  e_ext (m_est s2) = e_ext (m_est s1) /\ e_fid (m_est s2) = e_fid (m_est s1) /\ m_info s2 = m_info s1 /\ m_order s2 = m_order s1 /\
  (forall t, t <> ts -> mget t (e_poses (m_est s2)) = mget t (e_poses (m_est s1))) /\ mget ts (e_poses (m_est s2)) = None /\
  map fst (m_views s2) = map fst (m_views s1) /\ (forall x, In x (in_use s2) -> In x (in_use s1)) /\
  (c_fix_cam cfg = true \/ (length (e_cam (m_est s1)) <= 7)%nat -> e_cam (m_est s2) = e_cam (m_est s1)) /\
  (forall g t1 rs, In (ts, g) (m_grids s) -> add_view g s1 = Ret t1 -> all_offs proj t1 rs ->
     (forall x r, In x (in_use t1) -> off_by proj t1 (snd (fst x)) (snd x) r -> ~ large cfg rs r) ->
     m_views s2 = m_views s1 /\ q_res (m_prob s2) = q_res (m_prob s1)).
Proof.
  intros cam T_WF gs Ts s l ts s1 s2 Rc E Nd Hl El Es Hv.
  destruct (rejected_turn cam T_WF gs Ts s l ts s1 s2 Rc E Nd Hl El Es Hv) as (g & t1 & t2 & Hg & Ea & C1 & X1 & Ef & X2 & Hq & Hvv & Ho & Hf & He & K1 & K2).
  rewrite He. cbn [e_ext e_fid e_poses e_cam]. split; [reflexivity|]. split; [reflexivity|]. split; [exact Hf|]. split; [exact Ho|].
  assert (Hm : forall m t, mget t (mdel ts m) = if t =? ts then None else @mget pose t m).
  { clear. induction m as [|(j & a) m IH]; intros t; cbn [mdel filter mget fst]; [destruct (t =? ts); reflexivity|]. fold (mdel ts m).
    destruct (Z.eqb_spec j ts) as [ -> |Nj]; cbn [negb mget]; rewrite IH.
    - destruct (Z.eqb_spec t ts); destruct (Z.eqb_spec ts t); try lia; reflexivity.
    - destruct (Z.eqb_spec t ts); destruct (Z.eqb_spec j t); try lia; reflexivity. }
  split; [intros t Ht; rewrite Hm; destruct (Z.eqb_spec t ts); [congruence|reflexivity]|]. split; [rewrite Hm, Z.eqb_refl; reflexivity|].
  split; [rewrite Hvv; apply keep_keys|].
  split; [intros x; change (in_use s2) with (used (m_views s2)); rewrite Hvv, used_keep; unfold inliers; rewrite filter_In; tauto|].
  split.
  - assert (Lc : length (e_cam (solved cfg (proposal t2) (q_res (m_prob t2)) (m_est s1))) = length (e_cam (m_est s1))).
    { unfold solved. destruct (q_res (m_prob t2)); [reflexivity|]. cbn [e_cam]. destruct (c_fix_cam cfg); [reflexivity|]. rewrite map_length, seq_length. reflexivity. }
    intros [K|K].
    + assert (Ec : e_cam (solved cfg (proposal t2) (q_res (m_prob t2)) (m_est s1)) = e_cam (m_est s1)) by (unfold solved; destruct (q_res (m_prob t2)); [reflexivity|]; cbn [e_cam]; rewrite K; reflexivity).
      rewrite Ec. apply firstn_skipn.
    + rewrite (skipn_all2 (n := 7)) by (rewrite Lc; exact K). rewrite app_nil_r. apply firstn_all2, K.
  - intros g' t1' rs Hg' Ea' Ho' Hno.
    assert (g' = g).
    { destruct (construct_inv pnp cam T_WF gs Ts s Rc E) as (I & _). apply mget_in in Hg, Hg'; try apply (i_gasc _ _ I). congruence. }
    subst g'. rewrite Ea in Ea'. injection Ea' as <-.
    assert (Ob : outliers proj (m_est s1) (thresholds proj cfg t1) (in_use t1) = []).
    { unfold outliers. assert (K : forall x, In x (in_use t1) -> is_outlier proj (m_est s1) (thresholds proj cfg t1) (snd (fst x)) (snd x) = false).
      { intros x Hx. apply not_true_iff_false. intros K. rewrite <- X1 in K. apply (is_outlier_iff proj cfg t1 rs _ _ Ho') in K as (r & K3 & K4). eapply Hno; eauto. }
      clear -K. induction (in_use t1) as [|x m IH]; [reflexivity|]. cbn [filter]. rewrite (K x (or_introl eq_refl)). apply IH. intros y Hy. apply K. right. exact Hy. }
    split.
    + rewrite Hvv. rewrite <- (map_id (m_views s1)) at 2. apply map_ext_in. intros (t & v) Htv. unfold keep. cbn [fst snd].
      assert (Hu : forall rc, In rc (v_res v) -> is_outlier proj (m_est s1) (thresholds proj cfg t1) t (snd rc) = false).
      { intros rc Hrc. apply not_true_iff_false. intros K. assert (In (fst rc, t, snd rc) (outliers proj (m_est s1) (thresholds proj cfg t1) (in_use t1))); [|rewrite Ob in *; auto].
        apply filter_In. split; [|exact K]. apply (Permutation_in _ (c_res _ C1)).
        assert (Hq1 : In (fst rc, t, snd rc) (q_res (m_prob s1))). { apply (Permutation_in _ (Permutation_sym (c_res _ K1))). apply in_flat_map. exists (t, v). split; [exact Htv|]. cbn [fst snd]. apply in_map_iff. exists rc. auto. }
        destruct (construct_inv pnp cam T_WF gs Ts s Rc E) as (I & _). destruct (i_grids _ _ I ts g Hg) as (G1 & G2 & _). rewrite (add_view_eq s1 ts g t1 Ea G1 G2). apply in_app_iff. left. exact Hq1. }
      assert (Ek : kept_res (is_outlier proj (m_est s1) (thresholds proj cfg t1) t) (v_res v) = v_res v).
      { unfold kept_res. clear -Hu. induction (v_res v) as [|rc m IH]; [reflexivity|]. cbn [filter]. rewrite (Hu rc (or_introl eq_refl)). cbn [negb]. f_equal. apply IH. intros y Hy. apply Hu. right. exact Hy. }
      rewrite Ek. destruct (c_pts _ K1 t v Htv) as (Ep & _). rewrite Ep. destruct v. reflexivity.
    + rewrite Hq, Ob. cbn [existsb negb]. clear. induction (q_res (m_prob s1)) as [|x m IH]; [reflexivity|]. cbn [filter]. rewrite IH. reflexivity.
Qed.
(** Refuted: that a rejection leaves no trace. Of a camera's eight parameters, when they are not fixed, the last one keeps the value
    the solver found with the rejected frame; and the measurements of other views that counted as outliers while it was in,
    by the deviation of all measurements including its own, are gone for good. *)
Theorem C97_eighth_refuted : forall cam T_WF gs Ts s l ts s1 s2, recording gs Ts -> construct pnp cam T_WF gs Ts = Ret s ->
  NoDup (l ++ [ts]) -> incl (l ++ [ts]) (map fst (m_grids s)) -> nbv_loop proj slv info cfg l s = Ret s1 -> nbv_step proj slv info cfg ts s1 = Ret s2 -> ~ In ts (map fst (m_views s2)) ->
  c_fix_cam cfg = false -> length (e_cam (m_est s1)) = 8%nat ->
  exists g t1 t2 n, In (ts, g) (m_grids s) /\ add_view g s1 = Ret t1 /\ filter_all proj cfg t1 = Ret (t2, n) /\
    (in_use t2 <> [] -> nth 7 (e_cam (m_est s2)) 0%R = n_cam (proposal t2) 7) /\ firstn 7 (e_cam (m_est s2)) = firstn 7 (e_cam (m_est s1)).
Proof.
  intros cam T_WF gs Ts s l ts s1 s2 Rc E Nd Hl El Es Hv Hc H8.
  destruct (rejected_turn cam T_WF gs Ts s l ts s1 s2 Rc E Nd Hl El Es Hv) as (g & t1 & t2 & Hg & Ea & C1 & X1 & Ef & X2 & Hq & Hvv & Ho & Hf & He & K1 & K2).
  exists g, t1, t2, (Z.of_nat (length (outliers proj (m_est s1) (thresholds proj cfg t1) (in_use t1)))). split; [exact Hg|]. split; [exact Ea|]. split; [exact Ef|].
  assert (C2 := keep_consistent proj cfg t1 t2 _ C1 Ef).
  rewrite He. cbn [e_cam]. assert (L7 : length (firstn 7 (e_cam (m_est s1))) = 7%nat) by (rewrite firstn_length, H8; reflexivity). split.
  - intros Hu. rewrite app_nth2 by (rewrite L7; lia). rewrite L7. change (7 - 7)%nat with 0%nat. unfold solved.
    destruct (q_res (m_prob t2)) as [|x m] eqn:Eq; [exfalso; apply Hu; assert (P := c_res _ C2); rewrite Eq in P; apply Permutation_nil in P; exact P|]. cbn [e_cam]. rewrite Hc, H8. reflexivity.
  - rewrite firstn_app, L7, firstn_firstn. cbn [Nat.min Nat.sub firstn]. rewrite app_nil_r. reflexivity.
Qed.
Theorem C97_outliers_refuted : forall cam T_WF gs Ts s l ts s1 s2 g t1 rs x r, recording gs Ts -> construct pnp cam T_WF gs Ts = Ret s ->
  NoDup (l ++ [ts]) -> incl (l ++ [ts]) (map fst (m_grids s)) -> nbv_loop proj slv info cfg l s = Ret s1 -> nbv_step proj slv info cfg ts s1 = Ret s2 -> ~ In ts (map fst (m_views s2)) ->
  In (ts, g) (m_grids s) -> add_view g s1 = Ret t1 -> all_offs proj t1 rs -> In x (in_use s1) -> off_by proj s1 (snd (fst x)) (snd x) r -> large cfg rs r -> ~ In x (in_use s2).
Proof.
  intros cam T_WF gs Ts s l ts s1 s2 g' t1' rs x r Rc E Nd Hl El Es Hv Hg' Ea' Hrs Hx Hr Hlg.
  destruct (rejected_turn cam T_WF gs Ts s l ts s1 s2 Rc E Nd Hl El Es Hv) as (g & t1 & t2 & Hg & Ea & C1 & X1 & Ef & X2 & Hq & Hvv & Ho & Hf & He & K1 & K2).
  assert (g' = g). { destruct (construct_inv pnp cam T_WF gs Ts s Rc E) as (I & _). apply mget_in in Hg, Hg'; try apply (i_gasc _ _ I). congruence. }
  subst g'. rewrite Ea in Ea'. injection Ea' as <-.
  change (in_use s2) with (used (m_views s2)). rewrite Hvv, used_keep. unfold inliers. rewrite filter_In. intros (_ & K). rewrite negb_true_iff, <- not_true_iff_false in K. apply K.
  rewrite <- X1. apply (is_outlier_iff proj cfg t1 rs _ _ Hrs). exists r. split; [|exact Hlg]. destruct Hr as (p & z & R1 & R2 & R3). exists p, z. rewrite X1. auto.
Qed.
End T.
