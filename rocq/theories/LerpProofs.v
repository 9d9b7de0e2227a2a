From Verif Require Import Base GeomModel LerpModel LerpSpec.
From Coq Require Import Sorted.
Open Scope Z_scope.

Lemma secs_ratio a b : b <> 0 -> (secs a / secs b = IZR a / IZR b)%R.
Proof.
  intros H. unfold secs. field. apply not_0_IZR. auto.
Qed.

Lemma lerp_on_line t0 v0 t1 v1 l : t0 < t1 ->
  on_line (t0, v0) (t1, v1) l (lerp v0 v1 (secs (l - t0) / secs (t1 - t0))).
Proof.
  intros H. unfold on_line, lerp. simpl. rewrite secs_ratio by lia.
  generalize (IZR (l - t0) / IZR (t1 - t0))%R. intros x.
  destruct v0, v1; unfold vadd, vscale, vsub; simpl. f_equal; ring.
Qed.

Lemma lerp_points_spec t0 v0 t1 v1 ls : ascending ls ->
  let r := lerp_points t0 v0 t1 v1 ls in
  ls = map fst (fst r) ++ snd r /\ Forall (fun l => l <= t1) (map fst (fst r)) /\
  Forall (fun l => t1 < l) (snd r) /\
  (forall l v, In (l, v) (fst r) -> v = lerp v0 v1 (secs (l - t0) / secs (t1 - t0))).
Proof.
  induction ls as [|l ls IH]; intros A; simpl.
  - repeat split; auto. tauto.
  - inversion A as [|? ? A1 A2]; subst. destruct (Z.ltb_spec t1 l); simpl.
    + repeat split; auto; [|tauto]. constructor; auto.
      eapply Forall_impl; [|apply A2]. simpl; intros; lia.
    + specialize (IH A1). cbv zeta in IH. destruct (lerp_points t0 v0 t1 v1 ls) as [p q]; simpl in *.
      destruct IH as (E & F1 & F2 & F3). repeat split; auto; try congruence.
      intros l' v' [X|X]; auto. now inversion X.
Qed.

Lemma lerp_points_nonempty t0 v0 t1 v1 l ls : l <= t1 ->
  fst (lerp_points t0 v0 t1 v1 (l :: ls)) <> [].
Proof. intros. simpl. destruct (Z.ltb_spec t1 l); [lia|]. simpl. discriminate. Qed.

Lemma asc_app (a b : list Z) : ascending (a ++ b) -> ascending a /\ ascending b.
Proof.
  induction a as [|x a IH]; simpl; intros H; [split; auto; constructor|].
  inversion H; subst. apply Forall_app in H3 as [? ?]. destruct IH; auto. split; auto. constructor; auto.
Qed.
Lemma asc_snd_points t0 v0 t1 v1 ls : ascending ls -> ascending (snd (lerp_points t0 v0 t1 v1 ls)).
Proof.
  intros A. destruct (lerp_points_spec t0 v0 t1 v1 ls A) as (E & _).
  rewrite E in A. apply asc_app in A. tauto.
Qed.

Lemma in_combine_ab {A B} (l : list (A * B)) : combine (map fst l) (map snd l) = l.
Proof. induction l as [|[a b] l IH]; simpl; auto. now rewrite IH. Qed.
Lemma combine_app {A B} (a1 a2 : list A) (b1 b2 : list B) : length a1 = length b1 ->
  combine (a1 ++ a2) (b1 ++ b2) = combine a1 b1 ++ combine a2 b2.
Proof.
  revert b1; induction a1 as [|x a1 IH]; intros [|y b1]; simpl; intros; try discriminate; auto.
  now rewrite IH by lia.
Qed.

(** ** Any normal return: stamps are a prefix of the requested ones and the
    values lie on chords of the signal. *)
Lemma lerp_loop_chord s : forall ts vs ls t0 v0 rts rvs out,
  ascending ls -> ascending (t0 :: ts) -> Forall (fun l => t0 <= l) ls ->
  In (t0, v0) s -> (forall x, In x (combine ts vs) -> In x s) ->
  length rts = length rvs ->
  (forall l v, In (l, v) (combine rts rvs) -> on_chord s l v) ->
  lerp_loop false ls t0 v0 ts vs rts rvs = Ret out ->
  (exists used rest, ls = used ++ rest /\ fst out = rts ++ used) /\
  length (fst out) = length (snd out) /\
  (forall l v, In (l, v) (combine (fst out) (snd out)) -> on_chord s l v).
Proof.
  induction ts as [|t ts IH]; intros vs ls t0 v0 rts rvs out A At Hl H0 Hs Hlen Hr; simpl.
  - intros E; inversion E; subst; simpl. split; auto. exists [], ls. split; auto. now rewrite app_nil_r.
  - destruct vs as [|v vs]; [discriminate|]. destruct ls as [|l ls]; [discriminate|].
    inversion At as [|? ? At1 At2]; subst. inversion At2 as [|? ? T01 At3]; subst.
    destruct (Z.ltb_spec l t) as [L|L].
    + destruct (lerp_points_spec t0 v0 t v (l :: ls) A) as (E & F1 & F2 & F3).
      generalize (asc_snd_points t0 v0 t v _ A). intros A'.
      destruct (lerp_points t0 v0 t v (l :: ls)) as [p q]; simpl in E, F1, F2, F3, A' |- *.
      rewrite !app_nil_r. intros X.
      apply IH in X; auto.
      * destruct X as ((u & r & U1 & U2) & X2 & X3). split; auto.
        exists (map fst p ++ u), r. subst q. rewrite E, <- app_assoc. split; auto.
        rewrite U2. now rewrite <- app_assoc.
      * eapply Forall_impl; [|apply F2]. simpl; intros; lia.
      * apply Hs. left; auto.
      * intros x Hx. apply Hs. right; auto.
      * rewrite !app_length, !map_length. lia.
      * intros l' v' Hin. rewrite combine_app in Hin by auto. apply in_app_or in Hin as [Hin|Hin]; auto.
        rewrite in_combine_ab in Hin. exists (t0, v0), (t, v). simpl.
        assert (In l' (map fst p)) by (change l' with (fst (l', v')); now apply in_map).
        split; [auto|]. split; [apply Hs; left; auto|].
        rewrite Forall_forall in F1, Hl. split; [|split].
        -- split; [apply Hl; rewrite E; apply in_or_app; auto|apply F1; auto].
        -- lia.
        -- rewrite (F3 _ _ Hin). apply lerp_on_line. lia.
    + rewrite !app_nil_r. intros X. apply IH in X; auto.
      * constructor; auto. inversion At1; auto.
      * intros x Hx. apply Hs. right; auto.
Qed.

(** ** The dense case: total and exact. *)
Lemma neigh_cons {A} (x y : A) l : neighbours (x :: y :: l) x y.
Proof. exists [], l; auto. Qed.
Lemma neigh_tail {A} (x : A) l a b : neighbours l a b -> neighbours (x :: l) a b.
Proof. intros (p & q & ->). exists (x :: p), q. auto. Qed.

Lemma lerp_loop_dense : forall ts vs ls t0 v0 rts rvs pre,
  ascending ls -> ascending (t0 :: ts) -> Forall (fun l => t0 <= l) ls ->
  length vs = length ts -> dense ls (t0 :: ts) -> (ls = [] -> ts = []) ->
  Forall (fun l => l <= last (t0 :: ts) 0) ls -> (ts <> [] \/ ls = []) ->
  length rts = length rvs ->
  let s := pre ++ (t0, v0) :: combine ts vs in
  (forall l v, In (l, v) (combine rts rvs) -> interpolant s l v) ->
  exists rvs', lerp_loop false ls t0 v0 ts vs rts rvs = Ret (rts ++ ls, rvs') /\
    length rvs' = length (rts ++ ls) /\
    (forall l v, In (l, v) (combine (rts ++ ls) rvs') -> interpolant s l v).
Proof.
  induction ts as [|t ts IH]; intros vs ls t0 v0 rts rvs pre A At Hl Hv D H0 HL Hne Hlen s Hr; simpl.
  - destruct Hne as [Hne| -> ]; [congruence|]. rewrite app_nil_r. exists rvs. auto.
  - destruct vs as [|v vs]; [discriminate|].
    destruct ls as [|l ls]; [specialize (H0 eq_refl); discriminate|].
    inversion At as [|? ? At1 At2]; subst. inversion At2 as [|? ? T01 At3]; subst.
    destruct (D t0 t (neigh_cons _ _ _)) as (l' & Hin & L').
    assert (L : l < t).
    { destruct Hin as [ -> |Hin]; [lia|].
      inversion A as [|? ? A1 A2]; subst. rewrite Forall_forall in A2. apply A2 in Hin. lia. }
    destruct (Z.ltb_spec l t) as [_|]; [|lia].
    destruct (lerp_points_spec t0 v0 t v (l :: ls) A) as (E & F1 & F2 & F3).
    generalize (asc_snd_points t0 v0 t v _ A). intros A'.
    destruct (lerp_points t0 v0 t v (l :: ls)) as [p q]; simpl in E, F1, F2, F3, A' |- *.
    rewrite !app_nil_r.
    assert (Dq : dense q (t :: ts)).
    { intros a b N. destruct (D a b (neigh_tail _ _ _ _ N)) as (x & X1 & X2).
      exists x. split; auto. rewrite E in X1. apply in_app_or in X1 as [X1|X1]; auto.
      rewrite Forall_forall in F1. apply F1 in X1.
      destruct N as (p' & q' & N).
      assert (t <= a).
      { inversion At1 as [|? ? ? G]; subst. rewrite Forall_forall in G.
        destruct p' as [|z p']; simpl in N; injection N as N1 N2; [lia|].
        assert (t < a); [|lia]. apply G. rewrite N2. apply in_or_app. right; left; auto. }
      lia. }
    specialize (IH vs q t v (rts ++ map fst p) (rvs ++ map snd p) (pre ++ [(t0, v0)])).
    destruct IH as (rvs' & R1 & R2 & R3); auto.
    + eapply Forall_impl; [|apply F2]. simpl; intros; lia.
    + intros ->. destruct ts as [|t2 ts]; auto.
      destruct (Dq t t2 (neigh_cons _ _ _)) as (x & [] & _).
    + apply Forall_forall. intros x Hx. rewrite Forall_forall in HL.
      assert (HLx : x <= last (t0 :: t :: ts) 0) by (apply HL; rewrite E; apply in_or_app; auto).
      simpl in HLx. exact HLx.
    + destruct ts as [|t2 ts]; [right|left; discriminate].
      destruct q as [|x q]; auto. exfalso.
      assert (HLx : x <= last (t0 :: t :: []) 0).
      { rewrite Forall_forall in HL. apply HL. rewrite E. apply in_or_app. right; left; auto. }
      simpl in HLx. inversion F2; subst. lia.
    + rewrite !app_length, !map_length. lia.
    + intros l1 v1 Hi.
      replace ((pre ++ [(t0, v0)]) ++ (t, v) :: combine ts vs) with s
        by (unfold s; simpl; now rewrite <- app_assoc).
      rewrite combine_app in Hi by auto. apply in_app_or in Hi as [Hi|Hi]; auto.
      rewrite in_combine_ab in Hi.
      exists (t0, v0), (t, v). split; [|split].
      * exists pre, (combine ts vs). reflexivity.
      * assert (In l1 (map fst p)) by (change l1 with (fst (l1, v1)); now apply in_map).
        rewrite Forall_forall in F1, Hl. split; [|apply F1; auto].
        simpl. apply Hl. rewrite E. apply in_or_app. auto.
      * rewrite (F3 _ _ Hi). apply lerp_on_line. lia.
    + exists rvs'. rewrite R1.
      replace ((rts ++ map fst p) ++ q) with (rts ++ l :: ls) in *
        by (rewrite E, <- app_assoc; auto).
      replace ((pre ++ [(t0, v0)]) ++ (t, v) :: combine ts vs) with s in R3
        by (unfold s; simpl; now rewrite <- app_assoc).
      auto.
Qed.

(** ** Trimming a signal to a range *)
Lemma asc_last_max (l : list Z) : forall x, ascending l -> In x l -> x <= last l 0.
Proof.
  induction l as [|a l IH]; intros x A H; [destruct H|].
  inversion A as [|? ? A1 A2]; subst. destruct l as [|b l].
  - destruct H as [ -> |[]]. simpl. lia.
  - change (last (a :: b :: l) 0) with (last (b :: l) 0).
    destruct H as [ -> |H]; [|auto].
    inversion A2; subst. assert (b <= last (b :: l) 0) by (apply IH; auto; left; auto). lia.
Qed.
Lemma back_last (l : list Z) : l <> [] -> back l = Ret (last l 0).
Proof.
  intros H. destruct (exists_last H) as (l' & a & ->).
  unfold back. rewrite rev_app_distr. simpl. now rewrite last_last.
Qed.
Lemma asc_split_last (l : list Z) : l <> [] -> l = removelast l ++ [last l 0].
Proof. apply app_removelast_last. Qed.

Definition keep_stamps (lo hi : Z) (ts : list Z) (vs : list vec3) : list (Z * vec3) :=
  filter (fun x => (lo <=? fst x) && (fst x <=? hi)) (combine ts vs).

Lemma filter_combine_fst (f : Z -> bool) ts (vs : list vec3) : length ts = length vs ->
  map fst (filter (fun x => f (fst x)) (combine ts vs)) = filter f ts.
Proof.
  revert vs; induction ts as [|t ts IH]; intros [|v vs]; simpl; intros; try discriminate; auto.
  destruct (f t); simpl; rewrite IH by lia; auto.
Qed.

Lemma forallb_filter_id {A} (f : A -> bool) l : forallb f l = true -> filter f l = l.
Proof.
  induction l as [|x l IH]; simpl; auto. intros H. apply andb_prop in H as [H1 H2].
  rewrite H1, IH; auto.
Qed.

Lemma align_front_loop_spec lo ts : forall vs, ascending ts -> length ts = length vs ->
  (exists t, In t ts /\ lo <= t) ->
  exists ts' vs', align_front_loop lo ts vs = Ret (ts', vs') /\ length ts' = length vs' /\
    combine ts' vs' = filter (fun x => lo <=? fst x) (combine ts vs) /\ ascending ts'.
Proof.
  induction ts as [|t ts IH]; intros vs A L (x & Hx & Lx); [destruct Hx|].
  destruct vs as [|v vs]; [discriminate|].
  inversion A as [|? ? A1 A2]; subst. simpl.
  destruct (Z.ltb_spec t lo) as [H|H].
  - destruct (Z.leb_spec lo t); [lia|]. apply IH; auto.
    exists x. destruct Hx as [ -> |Hx]; [lia|auto].
  - exists (t :: ts), (v :: vs). split; auto. split; auto. split; auto.
    destruct (Z.leb_spec lo t); [|lia]. simpl. f_equal.
    symmetry. apply forallb_filter_id, forallb_forall.
    intros [y w] Hy. simpl. apply in_combine_l in Hy.
    rewrite Forall_forall in A2. apply A2 in Hy. apply Z.leb_le. lia.
Qed.
Lemma combine_rev {A B} (a : list A) (b : list B) : length a = length b ->
  combine (rev a) (rev b) = rev (combine a b).
Proof.
  revert b; induction a as [|x a IH]; intros [|y b]; simpl; intros; try discriminate; auto.
  rewrite combine_app by (rewrite !rev_length; lia). rewrite IH by lia. auto.
Qed.
Lemma filter_rev {A} (f : A -> bool) l : filter f (rev l) = rev (filter f l).
Proof.
  induction l as [|x l IH]; simpl; auto. rewrite filter_app, IH. simpl.
  destruct (f x); simpl; auto. now rewrite app_nil_r.
Qed.
Lemma desc_back_loop hi ts : forall vs, StronglySorted (fun x y => y < x) ts -> length ts = length vs ->
  (exists t, In t ts /\ t <= hi) ->
  exists ts' vs', align_back_loop hi ts vs = Ret (rev ts', rev vs') /\ length ts' = length vs' /\
    combine ts' vs' = filter (fun x => fst x <=? hi) (combine ts vs).
Proof.
  induction ts as [|t ts IH]; intros vs A L (x & Hx & Lx); [destruct Hx|].
  destruct vs as [|v vs]; [discriminate|].
  inversion A as [|? ? A1 A2]; subst. simpl.
  destruct (Z.ltb_spec hi t) as [H|H].
  - destruct (Z.leb_spec t hi); [lia|]. apply IH; auto.
    exists x. destruct Hx as [ -> |Hx]; [lia|auto].
  - exists (t :: ts), (v :: vs). split; auto. split; auto.
    destruct (Z.leb_spec t hi); [|lia]. simpl. f_equal.
    symmetry. apply forallb_filter_id, forallb_forall.
    intros [y w] Hy. simpl. apply in_combine_l in Hy.
    rewrite Forall_forall in A2. apply A2 in Hy. apply Z.leb_le. lia.
Qed.
Lemma asc_rev ts : ascending ts -> StronglySorted (fun x y => y < x) (rev ts).
Proof.
  induction ts as [|t ts IH]; intros A; simpl; [constructor|].
  inversion A as [|? ? A1 A2]; subst. specialize (IH A1).
  assert (F : Forall (fun y => t < y) (rev ts)) by (apply Forall_rev; auto).
  revert IH F. generalize (rev ts). intros l. induction l as [|y l IHl]; simpl; intros S F.
  - constructor; constructor.
  - inversion S; inversion F; subst. constructor; auto. apply Forall_app. split; auto.
Qed.
Lemma align_back_loop_spec hi ts vs : ascending ts -> length ts = length vs ->
  (exists t, In t ts /\ t <= hi) ->
  exists ts' vs', align_back_loop hi (rev ts) (rev vs) = Ret (ts', vs') /\ length ts' = length vs' /\
    combine ts' vs' = filter (fun x => fst x <=? hi) (combine ts vs).
Proof.
  intros A L (t & H1 & H2).
  destruct (desc_back_loop hi (rev ts) (rev vs)) as (ts' & vs' & E & L' & F).
  - apply asc_rev; auto.
  - rewrite !rev_length; auto.
  - exists t. rewrite <- in_rev. auto.
  - exists (rev ts'), (rev vs'). rewrite E. split; auto. split; [rewrite !rev_length; auto|].
    rewrite combine_rev by auto. rewrite F, combine_rev by auto. rewrite filter_rev, rev_involutive. auto.
Qed.
