(** Outlier rejection, reset and whole histories (C85). *)
From Verif Require Import Base GeomModel EulerModel StatsModel ImuModel ViModel ViSpec ViProofs ViProofs2.
From Coq Require Import Reals Sorted Permutation.
Local Open Scope Z_scope.

Definition rin (r : rid) (l : list rid) : bool := if in_dec rid_eq r l then true else false.
Lemma rin_iff r l : rin r l = true <-> In r l.
Proof. unfold rin. destruct (in_dec rid_eq r l); split; intros; auto; discriminate. Qed.
Lemma rin_false r l : rin r l = false <-> ~ In r l.
Proof. unfold rin. destruct (in_dec rid_eq r l); split; intros; auto; try discriminate; contradiction. Qed.
Lemma filter_filter {A} (f g : A -> bool) l : filter f (filter g l) = filter (fun x => g x && f x) l.
Proof. induction l as [|x l IH]; cbn; auto. destruct (g x); cbn; [destruct (f x)|]; rewrite ?IH; auto. Qed.

Lemma remove_all_spec bad : forall q q', q_remove_all bad q = Ret q' ->
  q_res q' = filter (fun x => negb (rin (fst x) bad)) (q_res q) /\ q_params q' = q_params q /\ q_const q' = q_const q.
Proof.
  induction bad as [|r bad IH]; intros q q' E; cbn [q_remove_all] in E.
  - inversion E; subst. split; auto. rewrite filter_id; auto.
  - destruct (q_remove_res r q) as [q1| |] eqn:Er; try discriminate. cbn [obind] in E.
    destruct (remove_res_spec _ _ _ Er) as (_ & A & B & C). destruct (IH _ _ E) as (A1 & B1 & C1).
    rewrite A1, B1, C1, A, filter_filter. repeat split; auto. apply filter_ext_in. intros (r0 & ps) _. cbn [fst].
    destruct (rid_eq r r0) as [ -> |N].
    + cbn [andb]. symmetry. apply negb_false_iff, rin_iff. cbn; auto.
    + cbn [andb]. f_equal. destruct (rin r0 bad) eqn:Eb.
      * symmetry. apply rin_iff in Eb. apply rin_iff. cbn; auto.
      * symmetry. apply rin_false in Eb. apply rin_false. cbn. tauto.
Qed.
Lemma remove_all_ok bad : forall q, NoDup bad -> incl bad (map fst (q_res q)) -> exists q', q_remove_all bad q = Ret q'.
Proof.
  induction bad as [|r bad IH]; intros q N I; cbn [q_remove_all]; eauto.
  inversion N; subst. unfold q_remove_res. destruct (in_dec rid_eq r (map fst (q_res q))); [|exfalso; apply n, I; cbn; auto].
  cbn [obind]. apply IH; auto. cbn [q_res]. intros x Hx.
  assert (Hx' : In x (map fst (q_res q))) by (apply I; cbn; auto).
  apply in_map_iff in Hx' as (y & <- & Hy). apply in_map_iff. exists y. split; auto. apply filter_In. split; auto.
  destruct (rid_eq r (fst y)); auto. subst. contradiction.
Qed.
Lemma nodup_inj {A B} (f : A -> B) l x y : NoDup (map f l) -> In x l -> In y l -> f x = f y -> x = y.
Proof.
  induction l as [|a l IH]; cbn; intros N Hx Hy E; [contradiction|]. inversion N; subst.
  destruct Hx as [ -> |Hx], Hy as [ -> |Hy]; auto.
  - exfalso. apply H1. rewrite E. apply in_map; auto.
  - exfalso. apply H1. rewrite <- E. apply in_map; auto.
Qed.
Lemma fid_res_fst n fid : map fst (fid_res n fid) = map fst (flat_map snd fid).
Proof. unfold fid_res. rewrite !map_flat_map. apply flat_map_ext. intros [c rs]. cbn. rewrite map_map. reflexivity. Qed.
Lemma nodup_app_l {A} (l l' : list A) : NoDup (l ++ l') -> NoDup l.
Proof. induction l as [|x l IH]; cbn; intros N; [constructor|]. inversion N; subst. constructor; auto. rewrite in_app_iff in H1. auto. Qed.

Section F.
Context (reproj : rid -> corner -> (pid -> list R) -> option (R * R)) (cfg : settings).
Definition kept (x : pid -> list R) (sd : R) (v : view) : view :=
  View (v_id v) (v_ts v) (map (fun cl => (fst cl, filter (fun rc => negb (is_outlier reproj x (c_thresh cfg * sd)%R rc)) (snd cl))) (v_fid v)) (v_imu v).
Definition bad_ones (x : pid -> list R) (sd : R) (v : view) : list rid :=
  flat_map (fun cl => map fst (filter (is_outlier reproj x (c_thresh cfg * sd)%R) (snd cl))) (v_fid v).
Lemma bad_in x sd v r : In r (bad_ones x sd v) -> In r (map fst (flat_map snd (v_fid v))).
Proof.
  unfold bad_ones. rewrite map_flat_map, !in_flat_map. intros (cl & H1 & H2). exists cl. split; auto.
  apply in_map_iff in H2 as (rc & <- & H2). apply filter_In in H2 as (H2 & _). apply in_map; auto.
Qed.
Lemma kept_res x sd v : shaped (v_id v) (v_fid v) -> NoDup (map fst (of_view v)) ->
  of_view (kept x sd v) = filter (fun y => negb (rin (fst y) (bad_ones x sd v))) (of_view v).
Proof.
  intros Sh Nd. rewrite !of_view_eq. unfold kept. cbn [v_id v_fid v_imu]. rewrite filter_app. f_equal.
  - rewrite of_view_eq, map_app in Nd. apply nodup_app_l in Nd. rewrite fid_res_fst in Nd.
    unfold fid_res. rewrite flat_map_map, filter_flat_map. cbn [fst snd]. apply flat_map_ext_in. intros [c rs] Hc. cbn [fst snd].
    rewrite filter_map_comm. f_equal. apply filter_ext_in. intros rc Hrc. cbn [fst]. f_equal.
    destruct (is_outlier reproj x _ rc) eqn:Eo.
    + symmetry. apply rin_iff. unfold bad_ones. apply in_flat_map. exists (c, rs). split; auto. apply in_map. apply filter_In. auto.
    + symmetry. apply rin_false. unfold bad_ones. intros H. apply in_flat_map in H as ([c' rs'] & H1 & H2). apply in_map_iff in H2 as (rc' & H2 & H3).
      cbn [snd] in H3. apply filter_In in H3 as (H3 & H4).
      assert (E : rc' = rc).
      { apply (nodup_inj fst (flat_map snd (v_fid v))); auto; apply in_flat_map; [exists (c', rs')|exists (c, rs)]; auto. }
      subst. congruence.
  - destruct (v_imu v) as [l|]; auto. cbn [filter fst]. assert (E : rin (RImu (v_id v)) (bad_ones x sd v) = false).
    { apply rin_false. intros H. apply bad_in in H. apply in_map_iff in H as ((r & p) & H1 & H2). cbn in H1. subst r.
      apply in_flat_map in H2 as ([c rs] & H2 & H3). destruct (Sh _ _ _ _ H2 H3) as (i & Hi). discriminate. }
    rewrite E. reflexivity.
Qed.
Lemma filter_view_spec x v q v' q' : filter_view reproj cfg x v q = Ret (v', q') ->
  (exists es, all_errors reproj x v = Some es /\
     ((stddev es = None /\ v' = v /\ q' = q) \/
      (exists sd, stddev es = Some sd /\ v' = kept x sd v /\ q_remove_all (bad_ones x sd v) q = Ret q'))).
Proof.
  unfold filter_view. destruct (all_errors reproj x v) as [es|]; [|discriminate]. intros E. exists es. split; auto.
  destruct (stddev es) as [sd|]; [right|left; inversion E; auto]. exists sd. split; auto.
  fold (bad_ones x sd v) in E. destruct (q_remove_all (bad_ones x sd v) q) as [q1| |]; try discriminate. cbn [obind] in E. inversion E; auto.
Qed.
Lemma kept_shaped x sd v : shaped (v_id v) (v_fid v) -> shaped (v_id v) (v_fid (kept x sd v)).
Proof.
  intros Sh c rs r p H1 H2. cbn in H1. apply in_map_iff in H1 as ([c0 rs0] & H1 & H3). cbn in H1. inversion H1; subst.
  apply filter_In in H2 as (H2 & _). eauto.
Qed.
Lemma nodup_filter {A} (f : A -> bool) l : NoDup l -> NoDup (filter f l).
Proof. induction l as [|x l IH]; cbn; intros N; [constructor|]. inversion N; subst. destruct (f x); auto. constructor; auto. rewrite filter_In. tauto. Qed.
Lemma nodup_map_filter {A B} (g : A -> B) (f : A -> bool) l : NoDup (map g l) -> NoDup (map g (filter f l)).
Proof.
  induction l as [|x l IH]; cbn; intros N; [constructor|]. inversion N; subst. destruct (f x); cbn; auto. constructor; auto.
  intros H. apply H1. apply in_map_iff in H as (y & H & Hy). apply filter_In in Hy as (Hy & _). apply in_map_iff; eauto.
Qed.

Lemma filter_view_core x v q v' q' tl : filter_view reproj cfg x v q = Ret (v', q') ->
  shaped (v_id v) (v_fid v) -> NoDup (map fst (of_view v)) -> (forall r, In r (map fst tl) -> ~ owned r (v_id v)) ->
  Permutation (q_res q) (of_view v ++ tl) ->
  Permutation (q_res q') (of_view v' ++ tl) /\ q_params q' = q_params q /\ q_const q' = q_const q /\
  v_id v' = v_id v /\ v_ts v' = v_ts v /\ v_imu v' = v_imu v /\ shaped (v_id v') (v_fid v') /\ NoDup (map fst (of_view v')).
Proof.
  intros E Sh Nd Ht P. apply filter_view_spec in E as (es & _ & [(_ & -> & -> )|(sd & _ & -> & E)]).
  - repeat split; auto.
  - destruct (remove_all_spec _ _ _ E) as (A & B & C). rewrite A, B, C. split; [|repeat split; auto].
    + rewrite (perm_filter _ _ _ P), filter_app, <- kept_res by auto. rewrite (filter_id _ tl); auto.
      intros (r & ps) Hr. cbn [fst]. apply negb_true_iff, rin_false. intros Hb. apply bad_in in Hb.
      apply in_map_iff in Hb as ((r0 & p) & H1 & H2). cbn in H1. subst r0. apply in_flat_map in H2 as ([c rs] & H2 & H3).
      destruct (Sh _ _ _ _ H2 H3) as (i & -> ). apply (Ht (RCorner (v_id v) c i)); [|reflexivity]. apply (in_map fst) in Hr. exact Hr.
    + apply (kept_shaped x sd v); auto.
    + rewrite kept_res by auto. apply nodup_map_filter; auto.
Qed.
Definition key (v : view) := (v_id v, v_ts v, v_imu v).
Lemma filter_views_core x vs : forall q vs' q' tl, filter_views reproj cfg x vs q = Ret (vs', q') ->
  StronglySorted lt (map v_id vs) -> (forall v, In v vs -> shaped (v_id v) (v_fid v)) -> (forall v, In v vs -> NoDup (map fst (of_view v))) ->
  (forall v r, In v vs -> In r (map fst tl) -> ~ owned r (v_id v)) ->
  Permutation (q_res q) (flat_map of_view vs ++ tl) ->
  Permutation (q_res q') (flat_map of_view vs' ++ tl) /\ q_params q' = q_params q /\ q_const q' = q_const q /\
  map key vs' = map key vs /\ (forall v, In v vs' -> shaped (v_id v) (v_fid v)) /\ (forall v, In v vs' -> NoDup (map fst (of_view v))).
Proof.
  induction vs as [|v vs IH]; intros q vs' q' tl E Ss Sh Nd Ht P; cbn [filter_views] in E.
  - inversion E; subst. cbn in *. repeat split; auto; contradiction.
  - destruct (filter_view reproj cfg x v q) as [[v1 q1]| |] eqn:E1; try discriminate. cbn [obind fst snd] in E.
    destruct (filter_views reproj cfg x vs q1) as [[vs1 q2]| |] eqn:E2; try discriminate. cbn [obind fst snd] in E. inversion E; subst; clear E.
    cbn [map] in Ss. apply StronglySorted_inv in Ss as (S1 & S2). rewrite Forall_forall in S2.
    cbn [flat_map] in P. rewrite <- app_assoc in P.
    assert (Hv : In v (v :: vs)) by (cbn; auto).
    destruct (filter_view_core x v q v1 q1 (flat_map of_view vs ++ tl) E1 (Sh v Hv) (Nd v Hv)) as (A1 & A2 & A3 & A4 & A5 & A6 & A7 & A8); auto.
    { intros r Hr Ho. rewrite map_app, in_app_iff in Hr. destruct Hr as [Hr|Hr]; [|apply (Ht v r Hv Hr Ho)].
      rewrite map_flat_map in Hr. apply in_flat_map in Hr as (w & Hw & Hr). apply of_view_owned_fst in Hr; [|apply Sh; cbn; auto].
      specialize (S2 (v_id w) (in_map _ _ _ Hw)). destruct r; cbn in *; subst; try lia; contradiction. }
    destruct (IH q1 vs1 q' (of_view v1 ++ tl) E2 S1) as (B1 & B2 & B3 & B4 & B5 & B6).
    { intros; apply Sh; cbn; auto. } { intros; apply Nd; cbn; auto. }
    { intros w r Hw Hr Ho. rewrite map_app, in_app_iff in Hr. destruct Hr as [Hr|Hr]; [|apply (Ht w r (or_intror Hw) Hr Ho)].
      apply of_view_owned_fst in Hr; auto. rewrite A4 in Hr.
      specialize (S2 (v_id w) (in_map _ _ _ Hw)). destruct r; cbn in *; subst; try lia; contradiction. }
    { rewrite A1. rewrite !app_assoc. apply Permutation_app_tail, Permutation_app_comm. }
    split; [|split; [|split; [|split; [|split]]]]; try congruence.
    + rewrite B1. cbn [flat_map]. rewrite !app_assoc. apply Permutation_app_tail, Permutation_app_comm.
    + cbn [map]. unfold key at 1 3. rewrite A4, A5, A6. f_equal. auto.
    + intros w [ <- |Hw]; auto.
    + intros w [ <- |Hw]; auto.
Qed.
End F.
Lemma chained_key vs : forall vs', map key vs' = map key vs -> chained vs -> chained vs'.
Proof.
  induction vs as [|v vs IH]; intros [|v' vs'] E C; cbn [map] in E; try discriminate; auto.
  injection E as Ei Et El Er. cbn [chained] in *. destruct C as (C1 & C2). split; [|apply IH; auto].
  destruct vs as [|w vs], vs' as [|w' vs']; try discriminate Er.
  - congruence.
  - cbn [map] in Er. injection Er as Wi Wt Wl _. destruct C1 as (b & C1). exists b. congruence.
Qed.
Lemma core_filter reproj cfg x vs pr np nx q vs' q' : core vs pr np nx q -> filter_views reproj cfg x vs q = Ret (vs', q') ->
  core vs' pr np nx q' /\ map key vs' = map key vs /\ q_const q' = q_const q.
Proof.
  intros [A B C D E F G] Ef.
  destruct (filter_views_core reproj cfg x vs q vs' q' (match pr with Some (k, ps) => [(RPrior k, ps)] | None => [] end) Ef B D E) as (A1 & A2 & A3 & A4 & A5 & A6); [|exact A|].
  { intros v r Hv Hr Ho. destruct pr as [[k ps]|]; [|contradiction]. destruct Hr as [ <- |[]]. exact Ho. }
  assert (Ei : map v_id vs' = map v_id vs).
  { apply (f_equal (map (fun k => fst (fst k)))) in A4. rewrite !map_map in A4. exact A4. }
  assert (Hin : forall v, In v vs' -> exists w, In w vs /\ v_id w = v_id v).
  { intros v Hv. apply (in_map v_id) in Hv. rewrite Ei in Hv. apply in_map_iff in Hv as (w & H1 & H2). eauto. }
  assert (Hin' : forall v, In v vs -> exists w, In w vs' /\ v_id w = v_id v).
  { intros v Hv. apply (in_map v_id) in Hv. rewrite <- Ei in Hv. apply in_map_iff in Hv as (w & H1 & H2). eauto. }
  split; [|auto]. constructor; auto.
  - rewrite Ei; auto.
  - intros v Hv. destruct (Hin v Hv) as (w & Hw & <- ). auto.
  - intros p Pp. rewrite A2, F by auto. split; intros (v & Hv & Hb).
    + destruct (Hin' v Hv) as (w & Hw & Ew). exists w. split; auto. unfold block_of in *. rewrite Ew. auto.
    + destruct (Hin v Hv) as (w & Hw & Ew). exists w. split; auto. unfold block_of in *. rewrite Ew. auto.
  - intros k ps Ek. destruct (G _ _ Ek) as (G1 & v & rest & Ev & G2). split; auto. subst vs. destruct vs' as [|v' rest']; [discriminate|].
    cbn [map] in Ei. injection Ei as Ei _. exists v', rest'. split; auto. unfold block_of in *. rewrite Ei. auto.
Qed.

(** reset removes every view *)
Lemma drop_views vs : forall q q', q' = fold_left (fun q v => q_drop (PSb (v_id v)) (q_drop (PPose (v_id v)) q)) vs q ->
  (forall x, In x (q_params q') <-> In x (q_params q) /\ forall v, In v vs -> ~ block_of v x) /\
  (forall x, ~ per_view x -> In x (q_const q) -> In x (q_const q')) /\
  incl (q_res q') (q_res q) /\
  (forall v r ps, In v vs -> In (PPose (v_id v)) (q_params q) -> In (r, ps) (q_res q') -> ~ In (PPose (v_id v)) ps).
Proof.
  assert (K : forall p q x, In x (q_params (q_drop p q)) <-> In x (q_params q) /\ x <> p).
  { intros p q x. destruct (in_dec pid_eq p (q_params q)) as [H|H].
    - apply drop_spec; auto.
    - unfold q_drop. rewrite (proj2 (pid_in_false _ _) H). split; [|tauto]. intros Hx. split; auto. intros -> . auto. }
  assert (L : forall p q, incl (q_res (q_drop p q)) (q_res q)).
  { intros p q x Hx. unfold q_drop in Hx. destruct (pid_in p (q_params q)); auto. cbn in Hx. apply filter_In in Hx. tauto. }
  assert (M : forall p q r ps, In p (q_params q) -> In (r, ps) (q_res (q_drop p q)) -> ~ In p ps).
  { intros p q r ps Hp H. destruct (drop_spec _ _ Hp) as (E & _). rewrite E in H. apply filter_In in H as (_ & H). cbn in H.
    apply negb_true_iff, pid_in_false in H. auto. }
  induction vs as [|v vs IH]; intros q q' -> ; cbn [fold_left].
  - split; [|split; [|split]].
    + intros x. split; [intros H; split; auto; intros v []|tauto].
    + auto.
    + intros x; auto.
    + intros v r ps [].
  - destruct (IH (q_drop (PSb (v_id v)) (q_drop (PPose (v_id v)) q)) _ eq_refl) as (A & B & C & D).
    split; [|split; [|split]].
    + intros x. rewrite A, !K. unfold block_of. split.
      * intros (((H & N1) & N2) & H2). split; auto. intros w [ <- |Hw]; [tauto|apply H2; auto].
      * intros (H & H2). repeat split; auto; [intros ->; apply (H2 v); cbn; auto|intros ->; apply (H2 v); cbn; auto|intros w Hw; apply H2; cbn; auto].
    + intros x Nx Hx. apply B; auto. apply drop_const; [apply drop_const; auto|]; intros -> ; apply Nx; exact I.
    + intros x Hx. apply C in Hx. apply L in Hx. apply L in Hx. auto.
    + intros w r ps Hw Hp Hr. destruct (Nat.eq_dec (v_id w) (v_id v)) as [Ee|Ne].
      * rewrite Ee in *. apply C in Hr. apply L in Hr. apply (M _ _ _ _ Hp) in Hr. auto.
      * destruct Hw as [ -> |Hw]; [congruence|]. apply (D w r ps Hw); auto. rewrite !K. split; [split; auto; congruence|discriminate].
Qed.
