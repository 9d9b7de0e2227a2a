From Coq Require Import List ZArith Reals Lra Lia Sorted.
From Verif Require Import Base GeomModel MotionModel MotionSpec.
Import ListNotations.
Local Open Scope Z_scope.

Lemma key_cmp_spec a b : match key_cmp a b with CLt => before a b | CEq => a = b | CGt => before b a end.
Proof.
  destruct a as [[n w] v], b as [[n' w'] v']. unfold key_cmp, before, cmp_z, cmp_r, cmp_then.
  destruct (Z.compare_spec n n') as [->|H|H]; [|left; exact H|left; exact H].
  destruct (Rlt_dec w w') as [H|H]; [right; split; [reflexivity|left; exact H]|].
  destruct (Rlt_dec w' w) as [H1|H1]; [right; split; [reflexivity|left; exact H1]|].
  assert (w = w') by lra. subst w'.
  destruct (Rlt_dec v v') as [H2|H2]; [right; split; [reflexivity|right; split; [reflexivity|exact H2]]|].
  destruct (Rlt_dec v' v) as [H3|H3]; [right; split; [reflexivity|right; split; [reflexivity|exact H3]]|].
  assert (v = v') by lra. subst. reflexivity.
Qed.
Lemma before_trans a b c : before a b -> before b c -> before a c.
Proof. destruct a as [[n w] v], b as [[n' w'] v'], c as [[n2 w2] v2]. unfold before. intros [H|[-> [H|[-> H]]]] [H2|[-> [H2|[-> H2]]]]; try (left; lia); right; (split; [reflexivity|]); first [left; lra|right; split; [reflexivity|lra]]. Qed.
Lemma before_irrefl a : ~ before a a.
Proof. destruct a as [[n w] v]. unfold before. intros [H|[_ [H|[_ H]]]]; [lia|lra|lra]. Qed.
Definition sorted (m : list (key * Z)) : Prop := StronglySorted (fun a b => before (fst a) (fst b)) m.
Lemma put_fst k ts m x : In x (put k ts m) -> fst x = k \/ In x m.
Proof.
  induction m as [|[k' t'] r IH]; cbn [put].
  - intros [<-|[]]. left. reflexivity.
  - pose proof (key_cmp_spec k k') as C. destruct (key_cmp k k').
    + intros [<-|H]; [left; reflexivity|right; exact H].
    + intros [<-|H]; [left; symmetry; exact C|right; right; exact H].
    + intros [<-|H]; [right; left; reflexivity|]. destruct (IH H) as [E|E]; [left; exact E|right; right; exact E].
Qed.
Lemma put_ok k ts m : sorted m -> sorted (put k ts m) /\ forall k' t', In (k', t') (put k ts m) <-> (k' = k /\ t' = ts) \/ (k' <> k /\ In (k', t') m).
Proof.
  induction m as [|[k1 t1] r IH]; intros H; cbn [put].
  - split; [repeat constructor|]. intros k' t'. cbn. split; [intros [E|[]]; injection E as <- <-; auto|intros [[-> ->]|[_ []]]; auto].
  - inversion H as [|? ? H1 H2]; subst. destruct (IH H1) as [I1 I2]. rewrite Forall_forall in H2. pose proof (key_cmp_spec k k1) as C. destruct (key_cmp k k1).
    + split.
      * constructor; [exact H|]. rewrite Forall_forall. intros x [<-|Hx]; [exact C|]. cbn. eapply before_trans; [exact C|apply (H2 x Hx)].
      * intros k' t'. split.
        -- intros [E|E]; [injection E as <- <-; auto|]. right. split; [|exact E]. intros ->. destruct E as [E|E]; [injection E as <- <-; exact (before_irrefl _ C)|].
           apply (before_irrefl k). eapply before_trans; [exact C|exact (H2 _ E)].
        -- intros [[-> ->]|[_ E]]; [left; reflexivity|right; exact E].
    + subst k1. split.
      * constructor; [exact H1|]. rewrite Forall_forall. intros x Hx. exact (H2 x Hx).
      * intros k' t'. split.
        -- intros [E|E]; [injection E as <- <-; auto|]. right. split; [|right; exact E]. intros ->. exact (before_irrefl _ (H2 _ E)).
        -- intros [[-> ->]|[Hn [E|E]]]; [left; reflexivity|injection E as E _; congruence|right; exact E].
    + split.
      * constructor; [exact I1|]. rewrite Forall_forall. intros x Hx. destruct (put_fst k ts r x Hx) as [E|E]; [cbn; rewrite E; exact C|exact (H2 x E)].
      * intros k' t'. cbn [In]. rewrite I2. split.
        -- intros [E|[E|[E1 E2]]]; [injection E as <- <-; right; split; [intros ->; exact (before_irrefl _ C)|left; reflexivity]|left; exact E|right; auto].
        -- intros [E|[E1 [E|E]]]; [auto|left; exact E|auto].
Qed.
Definition puts (es : list (key * Z)) : list (key * Z) := fold_left (fun m e => put (fst e) (snd e) m) es [].
Lemma puts_ok es : sorted (puts es) /\ forall k t, In (k, t) (puts es) <-> exists i, nth_error es i = Some (k, t) /\ forall j t', (i < j)%nat -> nth_error es j <> Some (k, t').
Proof.
  induction es as [|[k0 t0] es IH] using rev_ind.
  - split; [constructor|]. intros k t. split; [intros []|]. intros (i & E & _). destruct i; discriminate E.
  - unfold puts in *. rewrite fold_left_app. cbn [fold_left fst snd]. destruct IH as [I1 I2]. destruct (put_ok k0 t0 _ I1) as [P1 P2]. split; [exact P1|].
    intros k t. rewrite P2, I2. split.
    + intros [[-> ->]|[Hn (i & E & H)]].
      * exists (length es). split; [rewrite nth_error_app2 by lia; rewrite Nat.sub_diag; reflexivity|]. intros j t' Hj X. apply (nth_error_Some_length) in X || idtac.
        assert (Y : nth_error (es ++ [(k0, t0)]) j = None) by (apply nth_error_None; rewrite app_length; cbn; lia). congruence.
      * assert (Hi : (i < length es)%nat) by (apply nth_error_Some; congruence). exists i. split; [rewrite nth_error_app1 by exact Hi; exact E|]. intros j t' Hj X.
        destruct (lt_dec j (length es)) as [Hl|Hl]; [rewrite nth_error_app1 in X by exact Hl; exact (H j t' Hj X)|].
        rewrite nth_error_app2 in X by lia. destruct (j - length es)%nat as [|[|?]]; cbn in X; try discriminate X. injection X as X _. congruence.
    + intros (i & E & H). destruct (lt_dec i (length es)) as [Hl|Hl].
      * right. assert (Hn : k <> k0). { intros ->. apply (H (length es) t0 Hl). rewrite nth_error_app2 by lia. rewrite Nat.sub_diag. reflexivity. }
        split; [exact Hn|]. exists i. rewrite nth_error_app1 in E by exact Hl. split; [exact E|]. intros j t' Hj X. apply (H j t' Hj). rewrite nth_error_app1; [exact X|]. apply nth_error_Some. congruence.
      * left. rewrite nth_error_app2 in E by lia. destruct (i - length es)%nat as [|[|?]]; cbn in E; try discriminate E. injection E as <- <-. auto.
Qed.

Section M.
Context (camera : Z -> bool) (ext : Z -> option mat4).
Notation located := (located ext).
Notation locates := (locates ext).
Lemma tags_total l : frame_tags l = total l.
Proof.
  unfold frame_tags. assert (G : forall l n, fold_left (fun n s => n + sn_nb s) l n = n + total l).
  { clear. induction l as [|s l IH]; intros n; cbn [fold_left total]; [lia|]. rewrite IH. lia. }
  rewrite G. reflexivity.
Qed.
Lemma pose_located f T : (forall s, In s (snd f) -> camera (sn_cam s) = true) -> located f T -> frame_pose camera ext (snd f) = Ret (Some T).
Proof.
  intros K (l1 & s & l2 & P & E & E0 & H1 & H2 & H3 & ->). rewrite E0 in *. clear E0. induction l1 as [|x l1 IH]; cbn [app frame_pose].
  - rewrite (K s) by (cbn; left; reflexivity). rewrite H2, H3. reflexivity.
  - rewrite (K x) by (cbn; left; reflexivity). rewrite (H1 x) by (left; reflexivity). apply IH; [intros y Hy; apply K; cbn; right; exact Hy|intros y Hy; apply H1; right; exact Hy].
Qed.
Lemma pose_not f : (forall s, In s (snd f) -> camera (sn_cam s) = true) -> not_located f -> frame_pose camera ext (snd f) = Ret None.
Proof.
  unfold not_located. intros K H. induction (snd f) as [|x l IH]; cbn [frame_pose]; [reflexivity|].
  rewrite (K x) by (left; reflexivity). rewrite (H x) by (left; reflexivity). apply IH; [intros y Hy; apply K; right; exact Hy|intros y Hy; apply H; right; exact Hy].
Qed.
Lemma collect_ok fs es : known camera ext fs -> locates fs es -> collect camera ext fs = Ret (es, map (fun f => total (snd f)) fs).
Proof.
  intros K L. induction L as [|[ts l] T fs es Hf L IH|[ts l] fs es Hf L IH]; cbn [collect map]; [reflexivity| |].
  - change l with (snd (ts, l)) at 1. rewrite (pose_located (ts, l) T); [|intros s Hs; apply (K (ts, l) s); [left; reflexivity|exact Hs]|exact Hf]. cbn [obind].
    rewrite IH by (intros f s Hin Hs; apply (K f s); [right; exact Hin|exact Hs]). cbn [obind fst snd]. rewrite tags_total. reflexivity.
  - change l with (snd (ts, l)) at 1. rewrite (pose_not (ts, l)); [|intros s Hs; apply (K (ts, l) s); [left; reflexivity|exact Hs]|exact Hf]. cbn [obind].
    rewrite IH by (intros f s Hin Hs; apply (K f s); [right; exact Hin|exact Hs]). cbn [obind fst snd]. rewrite tags_total. reflexivity.
Qed.
Lemma locates_total fs : known camera ext fs -> exists es, locates fs es.
Proof.
  induction fs as [|f fs IH]; intros K; [exists []; constructor|]. destruct IH as [es L]; [intros g s Hg Hs; apply (K g s); [right; exact Hg|exact Hs]|].
  assert (D : (exists T, located f T) \/ not_located f).
  { assert (Kf : forall s, In s (snd f) -> ext (sn_cam s) <> None) by (intros s Hs; apply (K f s); [left; reflexivity|exact Hs]). clear K L. unfold not_located, MotionSpec.located.
    destruct f as [ts l]. cbn in *. induction l as [|x l IHl]; [right; intros x []|].
    destruct (sn_T x) as [P|] eqn:Ex.
    - left. destruct (ext (sn_cam x)) as [E|] eqn:Ee; [|exfalso; apply (Kf x); [left; reflexivity|exact Ee]]. exists (mmul4 E P), [], x, l, P, E. repeat split; auto. intros y [].
    - destruct IHl as [(T & l1 & s & l2 & P & E & -> & H1 & H2)|H]; [intros s Hs; apply Kf; right; exact Hs| |].
      + left. exists T, (x :: l1), s, l2, P, E. split; [reflexivity|]. split; [|exact H2]. intros y [<-|Hy]; [exact Ex|exact (H1 y Hy)].
      + right. intros y [<-|Hy]; [exact Ex|exact (H y Hy)]. }
  destruct D as [[T HT]|HN]; [exists ((fst f, T) :: es)|exists es]; constructor; assumption.
Qed.
Lemma locates_length fs es : locates fs es -> (length es <= length fs)%nat.
Proof. induction 1; cbn; lia. Qed.
Lemma locates_In fs es : locates fs es -> forall ts T, In (ts, T) es -> exists f, In f fs /\ fst f = ts /\ located f T.
Proof.
  induction 1 as [|f T fs es Hf L IH|f fs es Hf L IH]; intros ts' T' Hin; [destruct Hin| |].
  - destruct Hin as [E|Hin]; [injection E as <- <-; exists f; split; [left; reflexivity|auto]|]. destruct (IH _ _ Hin) as (g & Hg & E). exists g. split; [right; exact Hg|exact E].
  - destruct (IH _ _ Hin) as (g & Hg & E). exists g. split; [right; exact Hg|exact E].
Qed.
Lemma ordered_tl f fs : ordered (f :: fs) -> ordered fs /\ forall g, In g fs -> fst f < fst g.
Proof.
  intros O. split; [intros i j a b Hij Ha Hb; exact (O (S i) (S j) a b ltac:(lia) Ha Hb)|]. intros g Hg. apply In_nth_error in Hg as [n Hn]. exact (O 0%nat (S n) f g ltac:(lia) eq_refl Hn).
Qed.
Lemma locates_ordered fs es : locates fs es -> ordered fs -> StronglySorted (fun a b => fst a < fst b) es.
Proof.
  induction 1 as [|f T fs es Hf L IH|f fs es Hf L IH]; intros O; [constructor| |]; destruct (ordered_tl _ _ O) as [O1 O2]; [|exact (IH O1)].
  constructor; [exact (IH O1)|]. rewrite Forall_forall. intros [ts T'] Hin. destruct (locates_In _ _ L _ _ Hin) as (g & Hg & E & _). cbn. rewrite <- E. exact (O2 g Hg).
Qed.

Definition step_entry (es : list (Z * mat4)) (tags : list Z) (k : nat) : option (key * Z) :=
  match nth_error tags k, nth_error es (k - 1), nth_error es k with
  | Some n, Some (_, T0), Some (ts, T1) => Some ((- n, motion_w T0 T1, motion_v T0 T1), ts)
  | _, _, _ => None
  end.
Lemma loop_puts es tags : forall ks ens m, map (step_entry es tags) ks = map Some ens -> motion_loop es tags ks m = Ret (fold_left (fun m e => put (fst e) (snd e) m) ens m).
Proof.
  induction ks as [|k ks IH]; intros [|en ens] m H; try discriminate H; cbn [motion_loop fold_left]; [reflexivity|].
  cbn [map] in H. injection H as H1 H2. unfold motion_step. unfold step_entry in H1.
  destruct (nth_error tags k) as [n|]; [|discriminate H1]. destruct (nth_error es (k - 1)) as [[t0 T0]|]; [|discriminate H1]. destruct (nth_error es k) as [[t1 T1]|]; [|discriminate H1].
  injection H1 as <-. cbn [obind fst snd]. apply IH, H2.
Qed.
Lemma entries es tags : (length es <= length tags)%nat -> es <> [] -> exists ens, map (step_entry es tags) (seq 1 (length es - 2)) = map Some ens /\ length ens = (length es - 2)%nat.
Proof.
  intros Hl Hn. assert (G : forall ks, (forall k, In k ks -> (1 <= k < length es)%nat) -> exists ens, map (step_entry es tags) ks = map Some ens /\ length ens = length ks).
  { induction ks as [|k ks IH]; intros H; [exists []; auto|]. destruct IH as (ens & E & El); [intros x Hx; apply H; right; exact Hx|].
    destruct (H k (or_introl eq_refl)) as [K1 K2].
    destruct (nth_error tags k) as [n|] eqn:E1; [|apply nth_error_None in E1; lia]. destruct (nth_error es (k - 1)) as [[t0 T0]|] eqn:E2; [|apply nth_error_None in E2; lia].
    destruct (nth_error es k) as [[t1 T1]|] eqn:E3; [|apply nth_error_None in E3; lia].
    assert (Es : step_entry es tags k = Some ((- n, motion_w T0 T1, motion_v T0 T1), t1)) by (unfold step_entry; rewrite E1, E2, E3; reflexivity).
    eexists (_ :: ens). cbn [map length]. rewrite Es, E. split; [reflexivity|lia]. }
  destruct (G (seq 1 (length es - 2))) as (ens & E & El); [intros k Hk; apply in_seq in Hk; lia|]. exists ens. rewrite seq_length in El. auto.
Qed.
Lemma ens_nth fs es ens i x ts : map (step_entry es (map (fun f => total (snd f)) fs)) (seq 1 (length es - 2)) = map Some ens ->
  nth_error ens i = Some (x, ts) <-> (i < length es - 2)%nat /\ entry fs es (S i) x ts.
Proof.
  intros H. assert (H2 : nth_error (map Some ens) i = nth_error (map (step_entry es (map (fun f => total (snd f)) fs)) (seq 1 (length es - 2))) i) by congruence.
  assert (Hl : length ens = (length es - 2)%nat) by (apply (f_equal (@length _)) in H; rewrite !map_length, seq_length in H; lia).
  rewrite nth_error_map in H2. unfold entry. replace (S i - 1)%nat with i by lia. split.
  - intros E. rewrite E in H2. cbn in H2. assert (Hi : (i < length es - 2)%nat) by (rewrite <- Hl; apply nth_error_Some; congruence). split; [exact Hi|].
    rewrite nth_error_map, (nth_error_nth' _ 0%nat) in H2 by (rewrite seq_length; exact Hi). rewrite seq_nth in H2 by exact Hi. cbn [option_map Nat.add] in H2. injection H2 as H2. symmetry in H2.
    unfold step_entry in H2. replace (S i - 1)%nat with i in H2 by lia. rewrite nth_error_map in H2. destruct (nth_error fs (S i)) as [f|]; [|discriminate H2]. cbn [option_map] in H2.
    destruct (nth_error es i) as [[t0 T0]|]; [|discriminate H2]. destruct (nth_error es (S i)) as [[t1 T1]|]; [|discriminate H2]. injection H2 as <- <-. exists f, t0, T0, T1. auto.
  - intros [Hi (f & t0 & T0 & T1 & E1 & E2 & E3 & ->)]. rewrite nth_error_map, (nth_error_nth' (seq _ _) 0%nat) in H2 by (rewrite seq_length; exact Hi). rewrite seq_nth in H2 by exact Hi. cbn [option_map Nat.add] in H2.
    unfold step_entry in H2. replace (S i - 1)%nat with i in H2 by lia. rewrite nth_error_map, E1, E2, E3 in H2. cbn [option_map] in H2. destruct (nth_error ens i); [injection H2 as ->; reflexivity|discriminate H2].
Qed.
End M.
