(** * Invariants of the motion-capture calibrator *)
From Verif Require Import Base GeomModel StatsModel MocapModel.
From Coq Require Import Reals Lra Sorted Permutation.
Local Open Scope Z_scope.

(** ** Maps with ascending keys *)
Section Map.
Context {A : Type}.
Implicit Types m : list (Z * A).
Definition asc m : Prop := StronglySorted Z.lt (map fst m).
Lemma asc_cons k a m : asc ((k, a) :: m) <-> asc m /\ (forall j b, In (j, b) m -> k < j).
Proof.
  unfold asc. cbn [map fst]. split.
  - intros H. apply StronglySorted_inv in H as (H1 & H2). split; auto. intros j b Hj. rewrite Forall_forall in H2. apply H2. apply (in_map fst) in Hj. exact Hj.
  - intros (H1 & H2). constructor; auto. rewrite Forall_forall. intros j Hj. apply in_map_iff in Hj as ((j' & b) & <- & Hj). eapply H2, Hj.
Qed.
Lemma mset_in k a m j b : In (j, b) (mset k a m) -> (j = k /\ b = a) \/ (In (j, b) m).
Proof.
  induction m as [|(i & c) m IH]; cbn [mset]; [intros [H|[]]; injection H; auto|].
  destruct (k <? i) eqn:E1; [intros [H|H]; [injection H; auto|auto]|].
  destruct (k =? i) eqn:E2; [intros [H|H]; [injection H; auto|right; right; auto]|].
  intros [H|H]; [right; left; auto|]. destruct (IH H); auto. right. right. auto.
Qed.
Lemma asc_mset k a m : asc m -> asc (mset k a m).
Proof.
  induction m as [|(i & c) m IH]; cbn [mset]; intros H; [repeat constructor|].
  apply asc_cons in H as (H1 & H2).
  destruct (Z.ltb_spec k i) as [L|L].
  - apply asc_cons. split; [apply asc_cons; auto|]. intros j b [Hj|Hj]; [injection Hj as <- _; auto|]. specialize (H2 _ _ Hj). lia.
  - destruct (Z.eqb_spec k i) as [ -> |N]; [apply asc_cons; auto|]. apply asc_cons. split; [auto|].
    intros j b Hj. apply mset_in in Hj as [(-> & _)|Hj]; [lia|]. eapply H2, Hj.
Qed.
Lemma asc_mdel k m : asc m -> asc (mdel k m).
Proof.
  induction m as [|(i & c) m IH]; cbn [mdel filter]; intros H; [exact H|]. apply asc_cons in H as (H1 & H2). fold (mdel k m). cbn [fst].
  destruct (negb (i =? k)); [|auto]. apply asc_cons. split; auto. intros j b Hj. apply filter_In in Hj as (Hj & _). eapply H2, Hj.
Qed.
Lemma mget_in k m a : asc m -> (mget k m = Some a <-> In (k, a) m).
Proof.
  induction m as [|(i & c) m IH]; cbn [mget]; intros H; [split; [discriminate|intros []]|]. apply asc_cons in H as (H1 & H2).
  destruct (Z.eqb_spec i k) as [ -> |N].
  - split; [intros E; injection E as ->; left; auto|]. intros [E|E]; [injection E as ->; auto|]. specialize (H2 _ _ E). lia.
  - rewrite (IH H1). split; [right; auto|]. intros [E|E]; [injection E; congruence|auto].
Qed.
Lemma mget_none k m : mget k m = None <-> ~ In k (map fst m).
Proof.
  induction m as [|(i & c) m IH]; cbn [mget map fst In]; [tauto|]. destruct (Z.eqb_spec i k) as [ -> |N]; [split; [discriminate|tauto]|].
  rewrite IH. intuition.
Qed.
Lemma mget_some k m : In k (map fst m) -> exists a, mget k m = Some a.
Proof. destruct (mget k m) eqn:E; [eauto|]. apply mget_none in E. tauto. Qed.
Lemma mget_key k m a : mget k m = Some a -> In k (map fst m).
Proof. intros E. destruct (in_dec Z.eq_dec k (map fst m)); auto. apply mget_none in n. congruence. Qed.
Lemma mdel_notin k m : ~ In k (map fst m) -> mdel k m = m.
Proof.
  induction m as [|(i & c) m IH]; cbn [mdel filter map fst In]; intros H; [reflexivity|]. destruct (Z.eqb_spec i k) as [ -> |N]; [tauto|]. cbn [negb].
  fold (mdel k m). rewrite IH; auto.
Qed.
Lemma mset_perm k a m : asc m -> Permutation (mset k a m) ((k, a) :: mdel k m).
Proof.
  induction m as [|(i & c) m IH]; cbn [mset mdel filter]; intros H; [auto|]. apply asc_cons in H as (H1 & H2). fold (mdel k m). cbn [fst].
  assert (Hn : forall x, (forall j b, In (j, b) m -> x < j) -> ~ In x (map fst m)).
  { intros x Hx Hi. apply in_map_iff in Hi as ((j & b) & E & Hi). cbn in E. subst j. specialize (Hx _ _ Hi). lia. }
  destruct (Z.ltb_spec k i) as [L|L].
  - destruct (Z.eqb_spec i k); [lia|]. cbn [negb]. rewrite mdel_notin; auto. apply Hn. intros j b Hj. specialize (H2 _ _ Hj). lia.
  - destruct (Z.eqb_spec k i) as [ -> |N]; [rewrite Z.eqb_refl; cbn [negb]; rewrite mdel_notin; auto|].
    destruct (Z.eqb_spec i k); [lia|]. cbn [negb]. rewrite IH by auto. apply perm_swap.
Qed.
Lemma mdel_perm k m a : asc m -> mget k m = Some a -> Permutation m ((k, a) :: mdel k m).
Proof.
  induction m as [|(i & c) m IH]; cbn [mget mdel filter]; intros H; [discriminate|]. apply asc_cons in H as (H1 & H2). fold (mdel k m). cbn [fst].
  destruct (Z.eqb_spec i k) as [ -> |N].
  - intros E. injection E as ->. cbn [negb]. rewrite mdel_notin; auto. intros Hi. apply in_map_iff in Hi as ((j & b) & E & Hi). cbn in E. subst j. specialize (H2 _ _ Hi). lia.
  - intros E. cbn [negb]. rewrite (IH H1 E) at 1. apply perm_swap.
Qed.
Lemma mget_mset k a m j : asc m -> mget j (mset k a m) = if j =? k then Some a else mget j m.
Proof.
  induction m as [|(i & c) m IH]; cbn [mset mget]; intros H.
  - destruct (Z.eqb_spec k j); destruct (Z.eqb_spec j k); try lia; auto.
  - apply asc_cons in H as (H1 & H2). destruct (Z.ltb_spec k i) as [L|L].
    + cbn [mget]. destruct (Z.eqb_spec k j); destruct (Z.eqb_spec j k); try lia; auto.
    + destruct (Z.eqb_spec k i) as [ -> |N]; cbn [mget].
      * destruct (Z.eqb_spec i j); destruct (Z.eqb_spec j i); try lia; auto.
      * destruct (Z.eqb_spec i j) as [ -> |]; [destruct (Z.eqb_spec j k); [lia|auto]|apply IH; auto].
Qed.
Lemma mset_keys k a m : In k (map fst m) -> asc m -> map fst (mset k a m) = map fst m.
Proof.
  induction m as [|(i & c) m IH]; cbn [mset map fst In]; [tauto|]. intros Hk H. apply asc_cons in H as (H1 & H2).
  destruct (Z.ltb_spec k i) as [L|L].
  - destruct Hk as [ -> |Hk]; [lia|]. apply in_map_iff in Hk as ((j & b) & E & Hk). cbn in E. subst j. specialize (H2 _ _ Hk). lia.
  - destruct (Z.eqb_spec k i) as [ -> |N]; [reflexivity|]. cbn [map fst]. f_equal. apply IH; auto. destruct Hk; [lia|auto].
Qed.
Lemma mdel_keys k m : map fst (mdel k m) = filter (fun t => negb (t =? k)) (map fst m).
Proof. induction m as [|(i & c) m IH]; cbn [mdel filter map fst]; [reflexivity|]. fold (mdel k m). destruct (negb (i =? k)); cbn [map fst]; rewrite IH; reflexivity. Qed.
Lemma mset_app l k a b r : asc (l ++ (k, b) :: r) -> mset k a (l ++ (k, b) :: r) = l ++ (k, a) :: r.
Proof.
  induction l as [|(i & c) l IH]; cbn [app mset]; intros H.
  - rewrite Z.ltb_irrefl, Z.eqb_refl. reflexivity.
  - apply asc_cons in H as (H1 & H2). assert (L := H2 k b ltac:(apply in_elt)). destruct (Z.ltb_spec k i); [lia|]. destruct (Z.eqb_spec k i); [lia|]. rewrite IH; auto.
Qed.
Lemma mset_new k a m : asc m -> ~ In k (map fst m) -> Permutation (mset k a m) ((k, a) :: m).
Proof. intros H N. rewrite mset_perm by auto. rewrite mdel_notin; auto. Qed.
Lemma mdel_mset k a m : asc m -> ~ In k (map fst m) -> mdel k (mset k a m) = m.
Proof.
  induction m as [|(i & c) m IH]; cbn [mset mdel filter map fst In]; intros H N; [rewrite Z.eqb_refl; reflexivity|]. apply asc_cons in H as (H1 & H2).
  destruct (Z.ltb_spec k i) as [L|L].
  - cbn [filter fst]. rewrite Z.eqb_refl. destruct (Z.eqb_spec i k); [lia|]. cbn [negb]. f_equal. apply mdel_notin. tauto.
  - destruct (Z.eqb_spec k i) as [ -> |]; [tauto|]. cbn [filter fst]. destruct (Z.eqb_spec i k); [lia|]. cbn [negb]. f_equal. apply IH; auto.
Qed.
End Map.
Lemma asc_ext {A B} (m : list (Z * A)) (m' : list (Z * B)) : map fst m = map fst m' -> asc m -> asc m'.
Proof. unfold asc. intros ->; auto. Qed.
Lemma asc_nodup {A} (m : list (Z * A)) : asc m -> NoDup (map fst m).
Proof.
  induction m as [|(i & c) m IH]; intros H; [constructor|]. apply asc_cons in H as (H1 & H2). cbn [map fst]. constructor; auto.
  intros Hi. apply in_map_iff in Hi as ((j & b) & E & Hi). cbn in E. subst j. specialize (H2 _ _ Hi). lia.
Qed.
(** restoring poses *)
Lemma restore_poses_eq c cur : map fst c = map fst cur -> asc cur -> restore_poses c cur = c.
Proof.
  unfold restore_poses. intros E Hs.
  enough (K : forall c cur done, map fst c = map fst cur -> asc (done ++ cur) -> fold_left (fun m tp => mset (fst tp) (snd tp) m) c (done ++ cur) = done ++ c)
    by (exact (K c cur [] E Hs)).
  clear. induction c as [|(k & a) c IH]; intros [|(k' & b) cur] done E Hs; try discriminate E; [reflexivity|].
  cbn [map fst] in E. assert (E' := f_equal (hd 0) E). cbn in E'. subst k'. assert (E2 := f_equal (@tl Z) E). cbn [tl] in E2. clear E. cbn [fold_left fst snd].
  rewrite mset_app by auto. rewrite (app_assoc done [(k, a)] cur : done ++ (k, a) :: cur = _). rewrite IH; auto.
  - rewrite <- app_assoc. reflexivity.
  - eapply asc_ext; [|exact Hs]. rewrite <- app_assoc, !map_app. reflexivity.
Qed.
