(** The calibrator's invariant (C85). *)
From Verif Require Import Base GeomModel EulerModel StatsModel ImuModel ViModel ViSpec ViProofs.
From Coq Require Import Reals Sorted Permutation.
Local Open Scope Z_scope.

Definition all_res (vs : list view) (pr : option (nat * list pid)) : list (rid * list pid) :=
  flat_map of_view vs ++ match pr with Some (k, ps) => [(RPrior k, ps)] | None => [] end.
Record core (vs : list view) (pr : option (nat * list pid)) (np nx : nat) (q : problem) : Prop := Core {
  i_res : Permutation (q_res q) (all_res vs pr);
  i_ids : StronglySorted lt (map v_id vs);
  i_next : forall v, In v vs -> (v_id v < nx)%nat;
  i_shape : forall v, In v vs -> shaped (v_id v) (v_fid v);
  i_nd : forall v, In v vs -> NoDup (map fst (of_view v));
  i_par : forall p, per_view p -> (In p (q_params q) <-> exists v, In v vs /\ block_of v p);
  i_prior : forall k ps, pr = Some (k, ps) -> (k < np)%nat /\ exists v rest, vs = v :: rest /\
    In (PPose (v_id v)) ps /\ In (PSb (v_id v)) ps /\ forall p, In p ps -> per_view p -> block_of v p }.

(** whom a residual belongs to *)
Definition owned (r : rid) (n : nat) : Prop := match r with RCorner m _ _ | RImu m => m = n | RPrior _ => False end.
Lemma of_view_owned v r ps : shaped (v_id v) (v_fid v) -> In (r, ps) (of_view v) -> owned r (v_id v).
Proof.
  intros Sh H. rewrite of_view_eq in H. apply in_app_iff in H as [H|H].
  - unfold fid_res in H. apply in_flat_map in H as ((c & rs) & H1 & H2). apply in_map_iff in H2 as ((r0 & p) & H2 & H3). cbn in H2.
    inversion H2; subst. destruct (Sh _ _ _ _ H1 H3) as (i & -> ). reflexivity.
  - destruct (v_imu v); [|contradiction]. destruct H as [H|[]]. inversion H; subst. reflexivity.
Qed.
Lemma of_view_owned_fst v r : shaped (v_id v) (v_fid v) -> In r (map fst (of_view v)) -> owned r (v_id v).
Proof. intros Sh H. apply in_map_iff in H as ((r0 & ps) & <- & H). eapply of_view_owned; eauto. Qed.
Lemma of_view_pose v r ps : (forall l, v_imu v = Some l -> l_i l = v_id v) -> In (r, ps) (of_view v) -> In (PPose (v_id v)) ps.
Proof.
  intros L H. rewrite of_view_eq in H. apply in_app_iff in H as [H|H].
  - unfold fid_res in H. apply in_flat_map in H as ((c & rs) & H1 & H2). apply in_map_iff in H2 as ((r0 & p) & H2 & H3).
    inversion H2; subst. cbn; auto.
  - destruct (v_imu v) as [l|]; [|contradiction]. destruct H as [H|[]]. inversion H; subst. rewrite (L _ eq_refl). cbn; auto.
Qed.
(** the blocks of a view's residuals *)
Lemma of_view_blocks v r ps p : (forall l, v_imu v = Some l -> l_i l = v_id v) -> In (r, ps) (of_view v) -> In p ps -> per_view p ->
  block_of v p \/ exists l, v_imu v = Some l /\ (p = PPose (l_j l) \/ p = PSb (l_j l)).
Proof.
  intros L H Hp Pv. rewrite of_view_eq in H. apply in_app_iff in H as [H|H].
  - unfold fid_res in H. apply in_flat_map in H as ((c & rs) & H1 & H2). apply in_map_iff in H2 as ((r0 & p0) & H2 & H3).
    inversion H2; subst. cbn in Hp. left. unfold block_of. intuition (subst; cbn in Pv; try contradiction; auto).
  - destruct (v_imu v) as [l|] eqn:E; [|contradiction]. destruct H as [H|[]]. inversion H; subst. rewrite (L _ eq_refl) in Hp.
    unfold block_of. cbn in Hp. intuition (subst; cbn in Pv; try contradiction; eauto 6).
Qed.

Lemma chained_link vs : chained vs -> forall v l, In v vs -> v_imu v = Some l -> l_i l = v_id v /\ l_ti l = v_ts v /\
  exists w, In w vs /\ l_j l = v_id w /\ l_tj l = v_ts w.
Proof.
  induction vs as [|v [|w r] IH]; cbn [chained]; intros C v0 l Hv Hl.
  - contradiction.
  - destruct C as (C & _). destruct Hv as [ <- |[]]. congruence.
  - destruct C as ((b & C) & C'). destruct Hv as [ <- |Hv].
    + rewrite C in Hl. inversion Hl; subst. cbn. repeat split. exists w. cbn; auto.
    + destruct (IH C' v0 l Hv Hl) as (A & B & x & D & F). repeat split; auto. exists x. cbn in D |- *. intuition.
Qed.
(** the next view's number is larger *)
Lemma chained_link_lt vs : chained vs -> StronglySorted lt (map v_id vs) -> forall v l, In v vs -> v_imu v = Some l -> (v_id v < l_j l)%nat.
Proof.
  induction vs as [|v [|w r] IH]; cbn [chained]; intros C Ss v0 l Hv Hl.
  - contradiction.
  - destruct C as (C & _). destruct Hv as [ <- |[]]. congruence.
  - destruct C as ((b & C) & C'). cbn [map] in Ss. apply StronglySorted_inv in Ss as (S1 & S2). destruct Hv as [ <- |Hv].
    + rewrite C in Hl. inversion Hl; subst. cbn. inversion S2; subst. auto.
    + apply IH; auto.
Qed.
Lemma chained_app vs v b w : chained (vs ++ [v]) -> v_imu w = None ->
  chained (vs ++ [View (v_id v) (v_ts v) (v_fid v) (Some (Link b (v_id v) (v_id w) (v_ts v) (v_ts w)));w]).
Proof.
  intros C Hw. induction vs as [|x vs IH]; cbn [app chained] in *.
  - cbn. eauto.
  - destruct vs as [|y vs]; cbn [app] in *.
    + destruct C as ((b0 & C) & C'). split; [exists b0; exact C|]. apply IH. exact C'.
    + destruct C as (C & C'). split; [exact C|]. apply IH. exact C'.
Qed.
Lemma chained_last_none vs v : chained (vs ++ [v]) -> v_imu v = None.
Proof.
  induction vs as [|x vs IH]; cbn [app]; intros C.
  - destruct C; auto.
  - destruct C as (_ & C). auto.
Qed.
Lemma set_link_app vs v l r : ~ In (v_id v) (map v_id vs) ->
  set_link (v_id v) l (vs ++ v :: r) = vs ++ View (v_id v) (v_ts v) (v_fid v) (Some l) :: r.
Proof.
  induction vs as [|x vs IH]; cbn; intros H.
  - rewrite Nat.eqb_refl. reflexivity.
  - destruct (Nat.eqb_spec (v_id x) (v_id v)); [exfalso; apply H; auto|]. rewrite IH; auto.
Qed.

Lemma sorted_app_lt (l : list nat) a : StronglySorted lt l -> (forall x, In x l -> (x < a)%nat) -> StronglySorted lt (l ++ [a]).
Proof.
  induction l as [|x l IH]; cbn; intros Ss H.
  - repeat constructor.
  - apply StronglySorted_inv in Ss as (S1 & S2). constructor; [apply IH; auto|].
    rewrite Forall_app. split; auto.
Qed.
Lemma sorted_not_in (l : list nat) a r : StronglySorted lt (l ++ a :: r) -> ~ In a l.
Proof.
  induction l as [|x l IH]; cbn; intros Ss; auto.
  apply StronglySorted_inv in Ss as (S1 & S2). intros [ -> |H]; [|apply (IH S1); auto].
  rewrite Forall_app in S2. destruct S2 as (_ & S2). inversion S2; lia.
Qed.

Lemma core_same vs pr np nx q q' : q_res q' = q_res q -> (forall p, per_view p -> (In p (q_params q') <-> In p (q_params q))) ->
  core vs pr np nx q -> core vs pr np nx q'.
Proof. intros A B []. constructor; auto; [rewrite A; auto|intros p Hp; rewrite B; auto]. Qed.

(** distinct residual blocks *)
Lemma nodup_views vs : StronglySorted lt (map v_id vs) -> (forall v, In v vs -> shaped (v_id v) (v_fid v)) ->
  (forall v, In v vs -> NoDup (map fst (of_view v))) -> NoDup (map fst (flat_map of_view vs)).
Proof.
  induction vs as [|v vs IH]; intros Ss Sh Nd; [constructor|].
  cbn [flat_map]. rewrite map_app. cbn [map] in Ss. apply StronglySorted_inv in Ss as (S1 & S2). apply nodup_app.
  - apply Nd; cbn; auto.
  - apply IH; auto; intros; [apply Sh|apply Nd]; cbn; auto.
  - intros r Hr Hr'. apply of_view_owned_fst in Hr; [|apply Sh; cbn; auto].
    rewrite map_flat_map in Hr'. apply in_flat_map in Hr' as (w & Hw & Hr'). apply of_view_owned_fst in Hr'; [|apply Sh; cbn; auto].
    rewrite Forall_forall in S2. specialize (S2 (v_id w) (in_map _ _ _ Hw)).
    destruct r; cbn in *; subst; try lia; contradiction.
Qed.
Lemma nodup_all vs pr np nx q : core vs pr np nx q -> NoDup (map fst (all_res vs pr)).
Proof.
  intros [A B C D E F G]. unfold all_res. rewrite map_app. apply nodup_app.
  - apply nodup_views; auto.
  - destruct pr as [[k ps]|]; cbn; repeat constructor; auto.
  - intros r Hr Hr'. destruct pr as [[k ps]|]; [|contradiction]. destruct Hr' as [ <- |[]]. cbn in Hr.
    rewrite map_flat_map in Hr. apply in_flat_map in Hr as (w & Hw & Hr). apply of_view_owned_fst in Hr; auto.
Qed.

Lemma core_new pick cfg s vs pr np n q gs fid q' ts : core vs pr np n q -> StronglySorted Z.lt (map fst gs) ->
  add_grids pick cfg s n gs (q_add (PSb n) (q_add (PPose n) q)) = Ret (fid, q') ->
  core (vs ++ [View n ts fid None]) pr np (S n) q'.
Proof.
  intros [A B C D E F G] Sg Eg. destruct (grids_spec _ _ _ _ _ _ _ _ Eg) as (R1 & _ & R2 & _ & R3 & R4 & R5 & _).
  rewrite !add_res_same in R1.
  assert (Eo : of_view (View n ts fid None) = fid_res n fid) by (rewrite of_view_eq; cbn; apply app_nil_r).
  constructor.
  - rewrite R1. unfold all_res. rewrite flat_map_app. cbn [flat_map]. rewrite Eo, app_nil_r. rewrite A. unfold all_res.
    rewrite <- !app_assoc. apply Permutation_app_head. apply Permutation_app_comm.
  - rewrite map_app. cbn. apply sorted_app_lt; auto. intros x Hx. apply in_map_iff in Hx as (v & <- & Hv). auto.
  - intros v Hv. apply in_app_iff in Hv as [Hv|[ <- |[]]]; cbn; [apply C in Hv; lia|lia].
  - intros v Hv. apply in_app_iff in Hv as [Hv|[ <- |[]]]; cbn; auto.
  - intros v Hv. apply in_app_iff in Hv as [Hv|[ <- |[]]]; auto. rewrite Eo. auto.
  - intros p Hp. split.
    + intros H. apply R5 in H as [H| -> ]; auto.
      * rewrite !add_in in H. destruct H as [[H| -> ]| -> ].
        -- apply F in H as (v & Hv & Hb); auto. exists v. rewrite in_app_iff. auto.
        -- exists (View n ts fid None). rewrite in_app_iff. cbn. split; auto. left. reflexivity.
        -- exists (View n ts fid None). rewrite in_app_iff. cbn. split; auto. right. reflexivity.
      * exists (View n ts fid None). rewrite in_app_iff. cbn. split; auto. left. reflexivity.
    + intros (v & Hv & Hb). apply R4. rewrite !add_in. apply in_app_iff in Hv as [Hv|[ <- |[]]].
      * left. left. apply F; eauto.
      * destruct Hb as [ -> | -> ]; cbn; auto.
  - intros k ps Ek. destruct (G _ _ Ek) as (G1 & v & rest & -> & G2). split; auto. exists v, (rest ++ [View n ts fid None]). split; auto.
Qed.

Lemma core_link vs v w pr np nx q b t0 t1 : core (vs ++ [v; w]) pr np nx q -> v_imu v = None ->
  core (vs ++ [View (v_id v) (v_ts v) (v_fid v) (Some (Link b (v_id v) (v_id w) t0 t1)); w]) pr np nx
    (q_add_res (RImu (v_id v)) (imu_params_of (v_id v) (v_id w)) q).
Proof.
  intros [A B C D E F G] Hv. set (v' := View (v_id v) _ _ _).
  destruct (add_res_spec (RImu (v_id v)) (imu_params_of (v_id v) (v_id w)) q) as (R1 & _ & R2).
  assert (Ev : of_view v' = of_view v ++ [(RImu (v_id v), imu_params_of (v_id v) (v_id w))]).
  { rewrite !of_view_eq. cbn. rewrite Hv, app_nil_r. reflexivity. }
  assert (Hi : forall x, In x (vs ++ [v'; w]) -> x = v' \/ In x (vs ++ [v; w])).
  { intros x Hx. rewrite in_app_iff in *. cbn in *. intuition. }
  assert (Hin : In v (vs ++ [v; w])) by (rewrite in_app_iff; cbn; auto).
  constructor.
  - rewrite R1, A. unfold all_res. rewrite !flat_map_app. cbn [flat_map]. rewrite Ev, !app_nil_r, <- !app_assoc.
    apply Permutation_app_head, Permutation_app_head. rewrite app_assoc. apply Permutation_sym. cbn [app]. apply Permutation_cons_append.
  - rewrite map_app in *. cbn in *. auto.
  - intros x Hx. apply Hi in Hx as [ -> |Hx]; [cbn; apply C, Hin|apply C, Hx].
  - intros x Hx. apply Hi in Hx as [ -> |Hx]; [cbn; apply D, Hin|apply D, Hx].
  - intros x Hx. apply Hi in Hx as [ -> |Hx]; [|apply E, Hx]. rewrite Ev, map_app. apply nodup_app.
    + apply E, Hin.
    + cbn. repeat constructor; auto.
    + intros r Hr [ <- |[]]. rewrite of_view_eq, Hv, app_nil_r in Hr. apply in_map_iff in Hr as ((r0 & p0) & Hr & Hr'). cbn in Hr. subst r0.
      unfold fid_res in Hr'. apply in_flat_map in Hr' as ((c & rs) & H1 & H2). apply in_map_iff in H2 as ((r1 & p1) & H2 & H3). inversion H2; subst.
      destruct (D _ Hin _ _ _ _ H1 H3) as (i & Hbad). discriminate.
  - intros p Hp. rewrite R2, F by auto. split.
    + intros [(x & Hx & Hb)|H].
      * apply in_app_iff in Hx as [Hx|[ <- |[ <- |[]]]].
        -- exists x. rewrite in_app_iff. auto.
        -- exists v'. rewrite in_app_iff. cbn. auto.
        -- exists w. rewrite in_app_iff. cbn. auto.
      * cbn in H. destruct H as [ <- |[ <- |[ <- |[ <- |[ <- |[]]]]]]; try (exfalso; exact Hp).
        -- exists v'. rewrite in_app_iff. cbn. split; auto. left; reflexivity.
        -- exists v'. rewrite in_app_iff. cbn. split; auto. right; reflexivity.
        -- exists w. rewrite in_app_iff. cbn. split; auto. left; reflexivity.
        -- exists w. rewrite in_app_iff. cbn. split; auto. right; reflexivity.
    + intros (x & Hx & Hb). left. apply Hi in Hx as [ -> |Hx]; [exists v; split; auto|eauto].
  - intros k ps Ek. destruct (G _ _ Ek) as (G1 & x & rest & Ex & G2). split; auto. destruct vs as [|y vs]; cbn [app] in *.
    + inversion Ex; subst. exists v', [w]. cbn. auto.
    + inversion Ex; subst. exists x, (vs ++ [v'; w]). auto.
Qed.
Lemma remaining_in fixed marked ps p : In p (remaining fixed marked ps) <-> In p ps /\ ~ In p marked /\ ~ In p fixed /\ p <> PDelay.
Proof.
  assert (K : forall l seen, In p (dedup seen l) <-> In p l /\ ~ In p seen).
  { induction l as [|x l IH]; intros seen; cbn; [intuition|]. destruct (pid_in x seen) eqn:E.
    - apply pid_in_iff in E. rewrite IH. split; [intuition|]. intros [[ -> |H] N]; [contradiction|auto].
    - apply pid_in_false in E. cbn. rewrite IH. cbn. split; [intros [ -> |[H N]]; auto; intuition|]. intros [[ -> |H] N]; auto.
      destruct (pid_eq x p); auto. right. intuition. }
  unfold remaining. rewrite in_flat_map. split.
  - intros (k & Hk & H). apply filter_In in H as (H & Ki). apply filter_In in H as (H & N). apply K in H as (H & _).
    rewrite andb_true_iff, !negb_true_iff, !pid_in_false in N. repeat split; try tauto. intros -> . discriminate.
  - intros (H & N1 & N2 & N3). assert (M : forall k, is_kind k p = true -> In p (filter (is_kind k)
      (filter (fun p => negb (pid_in p marked) && negb (pid_in p fixed)) (dedup [] ps)))).
    { intros k Hk. apply filter_In. split; auto. apply filter_In. split; [apply K; cbn; auto|].
      rewrite andb_true_iff, !negb_true_iff, !pid_in_false. auto. }
    destruct p; cbn in *; try congruence;
      [exists 3%nat|exists 3%nat|exists 4%nat|exists 2%nat|exists 0%nat|exists 1%nat]; (split; [cbn; tauto|apply M; reflexivity]).
Qed.
Lemma handed_over_in v l p : v_imu v = Some l -> (In p (handed_over v l) <-> exists r ps, In (r, ps) (of_view v) /\ In p ps).
Proof.
  intros Hl. unfold handed_over. rewrite in_app_iff, in_flat_map. rewrite of_view_eq, Hl. split.
  - intros [H|((c & rs) & H1 & H2)].
    + exists (RImu (v_id v)), (imu_params_of (l_i l) (l_j l)). rewrite in_app_iff. cbn [In]. auto.
    + apply in_flat_map in H2 as ((r & pt) & H3 & H4). exists r, (corner_params (v_id v) c). split; auto.
      apply in_app_iff. left. unfold fid_res. apply in_flat_map. exists (c, rs). split; auto. apply in_map_iff. exists (r, pt). auto.
  - intros (r & ps & H & Hp). apply in_app_iff in H as [H|[H|[]]].
    + unfold fid_res in H. apply in_flat_map in H as ((c & rs) & H1 & H2). apply in_map_iff in H2 as ((r0 & p0) & H2 & H3). inversion H2; subst.
      right. exists (c, rs). split; auto. apply in_flat_map. exists (r, p0). auto.
    + inversion H; subst. auto.
Qed.

Lemma core_marg v w rest b pr np nx q q1 fixed : core (v :: w :: rest) pr np nx q -> chained (v :: w :: rest) ->
  v_imu v = Some b -> (forall p, In p fixed -> ~ per_view p) ->
  match pr with None => q1 = q | Some (k, _) => q_remove_res (RPrior k) q = Ret q1 end ->
  let ps := remaining fixed [PPose (v_id v); PSb (v_id v)] (match pr with Some (_, ps) => ps | None => [] end ++ handed_over v b) in
  core (w :: rest) (Some (np, ps)) (S np) nx (q_add_res (RPrior np) ps (q_drop (PSb (v_id v)) (q_drop (PPose (v_id v)) q1))).
Proof.
  intros I Ch Hl Hf Hq ps. pose proof (nodup_all _ _ _ _ _ I) as Na. destruct I as [A B C D E F G].
  assert (Lk : l_i b = v_id v /\ l_j b = v_id w).
  { cbn [chained] in Ch. destruct Ch as ((b0 & Ch) & _). rewrite Hl in Ch. inversion Ch. auto. }
  destruct Lk as (Li & Lj).
  assert (Lall : forall x l, In x (v :: w :: rest) -> v_imu x = Some l -> l_i l = v_id x) by (intros; eapply chained_link; eauto).
  assert (P1 : Permutation (q_res q1) (flat_map of_view (v :: w :: rest)) /\ q_params q1 = q_params q).
  { destruct pr as [[k ps0]|].
    - destruct (remove_res_spec _ _ _ Hq) as (_ & R1 & R2 & _). split; auto. rewrite R1.
      rewrite (perm_filter _ _ _ A). unfold all_res. rewrite filter_app. cbn [filter fst].
      destruct (rid_eq (RPrior k) (RPrior k)); [|congruence]. rewrite app_nil_r, filter_id; [apply Permutation_refl|].
      intros (r & ps1) Hr. cbn [fst]. destruct (rid_eq (RPrior k) r); auto. subst. exfalso. unfold all_res in Na. rewrite map_app in Na.
      apply in_flat_map in Hr as (x & Hx & Hr). apply of_view_owned in Hr; [exact Hr|auto].
    - subst q1. split; auto. rewrite A. unfold all_res. rewrite app_nil_r. auto. }
  destruct P1 as (P1 & P2). cbn [map] in B. apply StronglySorted_inv in B as (B1 & B2).
  assert (Nv : forall x, In x (w :: rest) -> v_id x <> v_id v).
  { intros x Hx. rewrite Forall_forall in B2. specialize (B2 (v_id x)). change (In (v_id x) (map v_id (w :: rest)) -> (v_id v < v_id x)%nat) in B2.
    specialize (B2 (in_map _ _ _ Hx)). lia. }
  assert (Hp : In (PPose (v_id v)) (q_params q1)).
  { rewrite P2. apply F; [exact Logic.I|]. exists v. cbn. split; auto. left; auto. }
  destruct (drop_spec _ _ Hp) as (D1 & D2 & _).
  assert (Hs : In (PSb (v_id v)) (q_params (q_drop (PPose (v_id v)) q1))).
  { apply D2. split; [|discriminate]. rewrite P2. apply F; [exact Logic.I|]. exists v. cbn. split; auto. right; auto. }
  destruct (drop_spec _ _ Hs) as (D3 & D4 & _).
  destruct (add_res_spec (RPrior np) ps (q_drop (PSb (v_id v)) (q_drop (PPose (v_id v)) q1))) as (R1 & _ & R2).
  assert (Other : forall x r ps0 p, In x (w :: rest) -> In (r, ps0) (of_view x) -> block_of v p -> In p ps0 -> False).
  { intros x r ps0 p Hx Hr Hb Hp0. assert (Pp : per_view p) by (destruct Hb; subst; exact Logic.I).
    assert (Hx' : In x (v :: w :: rest)) by (right; auto).
    destruct (of_view_blocks x r ps0 p (fun l => Lall x l Hx') Hr Hp0 Pp) as [Hb'|(l & Hl' & Hb')].
    - apply (Nv x Hx). unfold block_of in *. destruct Hb as [ -> | -> ], Hb' as [Hb|Hb]; inversion Hb; auto.
    - assert (Hlt : (v_id x < l_j l)%nat).
      { cbn [chained] in Ch. destruct Ch as (_ & Ch). apply (chained_link_lt (w :: rest)); auto. }
      rewrite Forall_forall in B2. specialize (B2 (v_id x) (in_map v_id (w :: rest) x Hx)).
      destruct Hb as [ -> | -> ], Hb' as [Hb|Hb]; inversion Hb; lia. }
  assert (Pb : forall p, In p ps -> per_view p -> block_of w p).
    { intros p Hpp Pp. unfold ps in Hpp. apply remaining_in in Hpp as (H1 & H2 & H3 & H4). apply in_app_iff in H1 as [H1|H1].
      - destruct pr as [[k ps0]|]; [|contradiction]. destruct (G _ _ eq_refl) as (_ & y & r0 & Ey & _ & _ & Gb). inversion Ey; subst.
        specialize (Gb _ H1 Pp). exfalso. apply H2. cbn. destruct Gb; subst; auto.
      - apply (handed_over_in v b p Hl) in H1 as (r & ps0 & Hr & Hp0).
        destruct (of_view_blocks v r ps0 p (fun l => Lall v l (or_introl eq_refl)) Hr Hp0 Pp) as [Hb|(l & Hl' & Hb)].
        + exfalso. apply H2. cbn. destruct Hb; subst; auto.
        + rewrite Hl in Hl'. inversion Hl'; subst l. unfold block_of. rewrite Lj in Hb. tauto. }
  constructor.
  - rewrite R1, D3, D1. rewrite (perm_filter _ _ _ (perm_filter _ _ _ P1)). unfold all_res. apply Permutation_app_tail.
    cbn [flat_map]. rewrite !filter_app.
    rewrite (filter_none _ (of_view v)).
    + cbn [filter app]. rewrite <- !filter_app. change (of_view w ++ flat_map of_view rest) with (flat_map of_view (w :: rest)).
      rewrite (filter_id _ (flat_map of_view (w :: rest))).
      * rewrite (filter_id _ (flat_map of_view (w :: rest))); auto.
        intros (r & ps0) Hr. cbn [snd]. apply negb_true_iff, pid_in_false. intros Hb. apply in_flat_map in Hr as (x & Hx & Hr).
        apply (Other x r ps0 (PSb (v_id v)) Hx Hr); [right; reflexivity|auto].
      * intros (r & ps0) Hr. cbn [snd]. apply negb_true_iff, pid_in_false. intros Hb. apply in_flat_map in Hr as (x & Hx & Hr).
        apply (Other x r ps0 (PPose (v_id v)) Hx Hr); [left; reflexivity|auto].
    + intros (r & ps0) Hr. cbn [snd]. apply negb_false_iff, pid_in_iff. apply (of_view_pose v r ps0); auto. intros l; apply Lall; cbn; auto.
  - auto.
  - intros x Hx. apply C. right; auto.
  - intros x Hx. apply D. right; auto.
  - intros x Hx. apply E. right; auto.
  - intros p Pp. rewrite R2, D4, D2, P2, F by auto. split.
    + intros [[[(x & Hx & Hb) N1] N2]|H].
      * destruct Hx as [ <- |Hx]; [exfalso; destruct Hb; subst; auto|]. exists x. auto.
      * exists w. split; [cbn; auto|]. apply Pb; auto.
    + intros (x & Hx & Hb). left. assert (N := Nv x Hx). repeat split.
      * exists x. split; [right; auto|auto].
      * destruct Hb; subst; intros K; inversion K; auto.
      * destruct Hb; subst; intros K; inversion K; auto.
  - intros k ps0 Eq. inversion Eq; subst. split; [lia|]. exists w, rest. split; auto.
    assert (K : forall p, block_of w p -> In p ps).
    { intros p Hb. unfold ps. apply remaining_in. assert (Pp : per_view p) by (destruct Hb; subst; exact Logic.I). repeat split.
      - apply in_app_iff. right. apply (handed_over_in v b p Hl). exists (RImu (v_id v)), (imu_params_of (l_i b) (l_j b)). split.
        + rewrite of_view_eq, Hl, in_app_iff. cbn; auto.
        + rewrite Lj. destruct Hb; subst; cbn; auto.
      - assert (N : v_id w <> v_id v) by (apply Nv; cbn; auto). cbn. destruct Hb; subst; intros [K|[K|[]]]; inversion K; auto.
      - intros K. apply Hf in K. auto.
      - destruct Hb; subst; discriminate. }
    split; [apply K; left; auto|]. split; [apply K; right; auto|].
    auto.
Qed.
