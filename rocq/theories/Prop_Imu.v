(** * C37, C38: IMU buffer *)
From Verif Require Import Base GeomModel ImuModel ImuSpec.
From Coq Require Import Sorted Reals Lra.
Open Scope Z_scope.

Definition ofs (l : list sample) : imu_data :=
  Imu (map fst l) (map (fun s => fst (snd s)) l) (map (fun s => snd (snd s)) l).
Lemma ofs_aligned l : aligned (ofs l).
Proof. unfold aligned, ofs; simpl. now rewrite !map_length. Qed.
Lemma samples_ofs l : samples (ofs l) = l.
Proof.
  unfold samples, ofs; simpl. induction l as [|[t [a g]] l IH]; simpl; auto. now rewrite IH.
Qed.
Lemma ofs_samples b : aligned b -> b = ofs (samples b).
Proof.
  destruct b as [ts acc gyr]. unfold aligned, samples, ofs; simpl. intros [H1 H2].
  assert (ts = map fst (combine ts (combine acc gyr)) /\
          acc = map (fun s => fst (snd s)) (combine ts (combine acc gyr)) /\
          gyr = map (fun s => snd (snd s)) (combine ts (combine acc gyr))) as (A & B & C).
  { revert acc gyr H1 H2. induction ts as [|t ts IH]; intros [|a acc] [|g gyr]; simpl; intros; try discriminate; auto.
    destruct (IH acc gyr) as (A & B & C); try lia. repeat split; f_equal; auto. }
  now rewrite <- A, <- B, <- C.
Qed.
Lemma push_ofs l s : imu_push (ofs l) s = ofs (l ++ [s]).
Proof. unfold imu_push, imu_add, ofs; simpl. now rewrite !map_app. Qed.
Lemma add_ofs l t a g : imu_add (ofs l) t a g = ofs (l ++ [(t, (a, g))]).
Proof. unfold imu_add, ofs; simpl. now rewrite !map_app. Qed.
Lemma size_ofs l : imu_size (ofs l) = Z.of_nat (length l).
Proof. unfold imu_size, ofs; simpl. now rewrite map_length. Qed.

Lemma last_cons {A} (l : list A) : forall a d, last (a :: l) d = last l a.
Proof.
  induction l as [|x l IH]; intros a d; auto.
  change (last (a :: x :: l) d) with (last (x :: l) d). rewrite !IH. auto.
Qed.

Definition trim_l te prev l new_ := trim_loop te prev (i_ts (ofs l)) (i_acc (ofs l)) (i_gyr (ofs l)) new_.
Lemma trim_l_cons te prev t a g l new_ :
  trim_l te prev ((t, (a, g)) :: l) new_ =
    (if te <=? t then
       trim_l te (Some (t, (a, g))) l
         (imu_push (match prev with
                    | Some p => if imu_size new_ =? 0 then imu_push new_ p else new_
                    | None => new_ end) (t, (a, g)))
     else trim_l te (Some (t, (a, g))) l new_).
Proof. reflexivity. Qed.

Lemma trim_skip te pre : forall prev l new_, Forall (fun s => fst s < te) pre ->
  trim_l te prev (pre ++ l) new_ = trim_l te (last (map Some pre) prev) l new_.
Proof.
  induction pre as [|[t [a g]] pre IH]; intros prev l new_ F; auto.
  inversion F; subst. simpl app. rewrite trim_l_cons. simpl in H1.
  destruct (Z.leb_spec te t); [lia|]. rewrite IH by auto.
  change (map Some ((t, (a, g)) :: pre)) with (Some (t, (a, g)) :: map Some pre).
  now rewrite last_cons.
Qed.
Lemma trim_take te l : forall prev n, Forall (fun s => te <= fst s) l -> n <> [] ->
  trim_l te prev l (ofs n) = Ret (ofs (n ++ l)).
Proof.
  induction l as [|[t [a g]] l IH]; intros prev n F N.
  - rewrite app_nil_r. reflexivity.
  - inversion F; subst. rewrite trim_l_cons. simpl in H1. destruct (Z.leb_spec te t); [|lia].
    rewrite size_ofs. destruct n as [|x n]; [congruence|].
    destruct (Z.eqb_spec (Z.of_nat (length (x :: n))) 0) as [C|_]; [simpl in C; lia|].
    replace (match prev with Some _ => ofs (x :: n) | None => ofs (x :: n) end) with (ofs (x :: n)) by (destruct prev; auto).
    rewrite push_ofs, IH; auto; [now rewrite <- app_assoc|destruct n; discriminate].
Qed.

Lemma ss_app {A} (R : A -> A -> Prop) l1 l2 : StronglySorted R (l1 ++ l2) ->
  StronglySorted R l1 /\ StronglySorted R l2 /\ (forall x y, In x l1 -> In y l2 -> R x y).
Proof.
  induction l1 as [|a l1 IH]; simpl; intros H.
  - repeat split; auto; [constructor|]. intros ? ? [].
  - inversion H; subst. destruct IH as (I1 & I2 & I3); auto. apply Forall_app in H3 as [F1 F2].
    split; [constructor; auto|split; auto]. intros x y [ <- |Hx] Hy; auto.
    rewrite Forall_forall in F2; auto.
Qed.

(** C37: trimming at [t] keeps the sample immediately before [t] and everything
    from [t] on, in order, in all three deques. *)
Theorem C37_trim_keeps_one_before : forall b t pre x y post,
  aligned b -> in_order b -> samples b = pre ++ x :: y :: post -> fst x < t <= fst y ->
  exists b', imu_trim b t = Ret b' /\ aligned b' /\ samples b' = x :: y :: post.
Proof.
  intros b t pre x y post A O E H. exists (ofs (x :: y :: post)).
  split; [|split; [apply ofs_aligned|apply samples_ofs]].
  unfold in_order in O. rewrite E in O.
  assert (F1 : Forall (fun s => fst s < t) (pre ++ [x])).
  { apply ss_app in O as (_ & _ & O). apply Forall_forall. intros z Hz.
    apply in_app_or in Hz as [Hz|[ <- |[]]]; [|lia].
    assert (fst z < fst x); [|lia]. apply O; auto. left; auto. }
  assert (F2 : Forall (fun s => t <= fst s) (y :: post)).
  { apply ss_app in O as (_ & O & _). inversion O as [|? ? O1 _]; subst. inversion O1 as [|? ? _ O2]; subst.
    constructor; [lia|]. eapply Forall_impl; [|apply O2]. simpl; intros; lia. }
  rewrite (ofs_samples b A), E. unfold imu_trim.
  replace (pre ++ x :: y :: post) with ((pre ++ [x]) ++ y :: post) by (rewrite <- app_assoc; auto).
  assert (L : trim_l t None ((pre ++ [x]) ++ y :: post) imu_empty = Ret (ofs (x :: y :: post))).
  { rewrite trim_skip by auto. rewrite map_app. change (map Some [x]) with [Some x]. rewrite last_last. destruct y as [ty [ay gy]].
    rewrite trim_l_cons. inversion F2; subst. simpl in H2. destruct (Z.leb_spec t ty); [|lia].
    simpl (imu_size imu_empty =? 0). cbv iota. change imu_empty with (ofs []).
    rewrite !push_ofs. simpl app. rewrite trim_take; auto. discriminate. }
  unfold trim_l in L. simpl i_ts in *.
  destruct ((pre ++ [x]) ++ y :: post) as [|z l] eqn:EE; [destruct pre; discriminate|].
  simpl map. cbv iota. destruct (Z.ltb_spec t (fst z)).
  { exfalso. destruct pre as [|z' pre]; simpl in EE; inversion EE; subst; inversion F1; subst; lia. }
  exact L.
Qed.

(** C37: if the first sample is not before [t] nothing is removed. *)
Theorem C37_trim_nothing_before : forall b t y post,
  aligned b -> in_order b -> samples b = y :: post -> t <= fst y ->
  exists b', imu_trim b t = Ret b' /\ aligned b' /\ samples b' = samples b.
Proof.
  intros b t y post A O E H. unfold in_order in O. rewrite E in O |- *.
  rewrite (ofs_samples b A), E. exists (ofs (y :: post)).
  split; [|split; [apply ofs_aligned|apply samples_ofs]].
  unfold imu_trim. simpl i_ts. cbv iota. destruct (Z.ltb_spec t (fst y)); auto.
  change (trim_l t None (y :: post) imu_empty = Ret (ofs (y :: post))).
  destruct y as [ty [ay gy]]. rewrite trim_l_cons. simpl in H. destruct (Z.leb_spec t ty); [|lia].
  change imu_empty with (ofs []). rewrite push_ofs. simpl app. rewrite trim_take; auto; [|discriminate].
  inversion O as [|? ? _ F]; subst. eapply Forall_impl; [|apply F]. simpl; intros; lia.
Qed.

(** C37: a buffer that covers [t] is never emptied. *)
Theorem C37_trim_never_empties : forall b t s,
  aligned b -> in_order b -> In s (samples b) -> t <= fst s ->
  exists b', imu_trim b t = Ret b' /\ In s (samples b') /\
    (forall z, In z (samples b) -> t <= fst z -> In z (samples b')).
Proof.
  intros b t s A O Hs Ht.
  assert (K : forall l, StronglySorted (fun x y : sample => fst x < fst y) l -> In s l ->
     (exists y post, l = y :: post /\ t <= fst y) \/
     (exists pre x y post, l = pre ++ x :: y :: post /\ fst x < t <= fst y)).
  { induction l as [|x l IH]; intros S H; [destruct H|]. inversion S as [|? ? S1 S2]; subst.
    destruct (Z_le_gt_dec t (fst x)); [left; eauto|]. right.
    destruct H as [ -> |H]; [lia|]. destruct (IH S1 H) as [(y & post & -> & L)|(pre & x' & y & post & -> & L)].
    - exists [], x, y, post. split; auto. lia.
    - exists (x :: pre), x', y, post. auto. }
  destruct (K _ O Hs) as [(y & post & E & L)|(pre & x & y & post & E & L)].
  - destruct (C37_trim_nothing_before b t y post A O E L) as (b' & R1 & _ & R2).
    exists b'. rewrite R2. auto.
  - destruct (C37_trim_keeps_one_before b t pre x y post A O E L) as (b' & R1 & _ & R2).
    exists b'. split; auto. rewrite R2.
    assert (Q : forall z, In z (samples b) -> t <= fst z -> In z (x :: y :: post)).
    { intros z Hz Lz. rewrite E in Hz. apply in_app_or in Hz as [Hz|Hz]; auto.
      unfold in_order in O. rewrite E in O. apply ss_app in O as (_ & _ & O).
      specialize (O z x Hz (or_introl eq_refl)). lia. }
    auto.
Qed.

(** C37: when the whole buffer is before [t] everything is discarded, also the
    last sample, although it is the one immediately before [t]. *)
Theorem C37_all_before_emptied_refuted : forall b t,
  aligned b -> samples b <> [] -> (forall s, In s (samples b) -> fst s < t) ->
  imu_trim b t = Ret imu_empty.
Proof.
  intros b t A N F. rewrite (ofs_samples b A).
  destruct (samples b) as [|x l] eqn:E; [congruence|].
  unfold imu_trim. simpl i_ts. cbv iota.
  destruct (Z.ltb_spec t (fst x)). { specialize (F x (or_introl eq_refl)). lia. }
  change (trim_l t None (x :: l) imu_empty = Ret imu_empty).
  assert (G : Forall (fun s => fst s < t) (x :: l)) by (apply Forall_forall; auto).
  assert (X := trim_skip t (x :: l) None [] imu_empty G). rewrite app_nil_r in X. exact X.
Qed.

(** ** C38 *)
Definition ext_l junk t0 t1 k prev l buf n :=
  extract_loop junk t0 t1 k prev (i_ts (ofs l)) (i_acc (ofs l)) (i_gyr (ofs l)) buf n.
Lemma ext_l_cons junk t0 t1 k prev t a g l buf n :
  ext_l junk t0 t1 k prev ((t, (a, g)) :: l) buf n =
    (if t <? t0 then ext_l junk t0 t1 (S k) (Some (t, (a, g))) l buf n
     else
       let finish (buf : imu_data) (tk : Z) :=
         let buf := imu_add buf tk a g in
         if tk =? t1 then Ret (buf, n)
         else ext_l junk t0 t1 (S k) (Some (t, (a, g))) l buf k in
       if (imu_size buf =? 0) && (t0 <? t) then
         match prev with
         | None => Undef
         | Some p =>
             obind (int_ratio (t0 - fst p) (t - fst p)) (fun alpha =>
             finish (imu_add buf t0 (blend alpha junk a) (blend alpha junk g)) t)
         end
       else if t1 <? t then
         match prev with
         | None => Undef
         | Some p => obind (int_ratio (t1 - fst p) (t - fst p)) (fun _ => finish buf t1)
         end
       else finish buf t).
Proof. reflexivity. Qed.

Lemma ext_skip junk t0 t1 pre : forall k prev l n, Forall (fun s => fst s < t0) pre ->
  ext_l junk t0 t1 k prev (pre ++ l) imu_empty n =
  ext_l junk t0 t1 (k + length pre) (last (map Some pre) prev) l imu_empty n.
Proof.
  induction pre as [|[t [a g]] pre IH]; intros k prev l n F.
  - simpl. now rewrite Nat.add_0_r.
  - inversion F; subst. simpl app. rewrite ext_l_cons. simpl in H1.
    destruct (Z.ltb_spec t t0); [|lia]. rewrite IH by auto.
    change (map Some ((t, (a, g)) :: pre)) with (Some (t, (a, g)) :: map Some pre).
    rewrite last_cons. f_equal. simpl; lia.
Qed.

(** The samples strictly inside and the terminating one; [n] is not empty. *)
Lemma ext_mid junk t0 t1 e post : t1 <= fst e ->
  forall mid k p n rm, n <> [] -> Forall (fun s => t0 <= fst s < t1) mid -> t0 <= fst e ->
  fst (last mid p) <= t1 ->
  ext_l junk t0 t1 k (Some p) (mid ++ e :: post) (ofs n) rm =
    Ret (ofs (n ++ mid ++ [(t1, snd e)]), match mid with [] => rm | _ => k + length mid - 1 end)%nat.
Proof.
  intros He. induction mid as [|[t [a g]] mid IH]; intros k p n rm N F E0 Hp.
  - destruct e as [te [ae ge]]. simpl app. rewrite ext_l_cons. simpl in He, E0.
    destruct (Z.ltb_spec te t0); [lia|]. rewrite size_ofs.
    destruct (Z.eqb_spec (Z.of_nat (length n)) 0) as [C|_]; [destruct n; [congruence|simpl in C; lia]|].
    cbv zeta. simpl andb. cbv iota. simpl in Hp.
    destruct (Z.ltb_spec t1 te).
    + unfold int_ratio. destruct (Z.eqb_spec (te - fst p) 0); [lia|]. simpl. rewrite Z.eqb_refl, add_ofs. reflexivity.
    + assert (te = t1) by lia. subst te. rewrite Z.eqb_refl, add_ofs. reflexivity.
  - inversion F as [|? ? F1 F2]; subst. simpl in F1. simpl app. rewrite ext_l_cons.
    destruct (Z.ltb_spec t t0); [lia|]. rewrite size_ofs.
    destruct (Z.eqb_spec (Z.of_nat (length n)) 0) as [C|_]; [destruct n; [congruence|simpl in C; lia]|].
    cbv zeta. simpl andb. cbv iota. destruct (Z.ltb_spec t1 t); [lia|].
    destruct (Z.eqb_spec t t1); [lia|]. rewrite add_ofs.
    rewrite IH; auto.
    + f_equal. f_equal; [now rewrite <- app_assoc|]. destruct mid; simpl; lia.
    + destruct n; discriminate.
    + rewrite last_cons in Hp. exact Hp.
Qed.

Lemma pop_ofs l n : (n <= length l)%nat ->
  pop_n n (i_ts (ofs l)) = Ret (i_ts (ofs (skipn n l))) /\
  pop_n n (i_acc (ofs l)) = Ret (i_acc (ofs (skipn n l))) /\
  pop_n n (i_gyr (ofs l)) = Ret (i_gyr (ofs (skipn n l))).
Proof.
  intros H. unfold pop_n, ofs; simpl. rewrite !map_length.
  destruct (Nat.leb_spec n (length l)); [|lia].
  rewrite <- !(skipn_map _ n l). auto.
Qed.

(** C38: for an interval starting at a sample [m0], with [mid] the further
    samples before the end and [e] the first sample not before the end:
    the extract consists of these samples and a last one at exactly [t1]; the
    buffer keeps the last sample before [t1] and everything after it. The
    value of the last sample is that of [e], without interpolation (correct
    only if [e] is at [t1]).
    Missing: intervals that do not start at a sample, interpolation (refuted below). *)
Theorem C38_extract_partial : forall junk b t0 t1 pre m0 mid e post,
  aligned b -> in_order b -> samples b = pre ++ m0 :: mid ++ e :: post ->
  fst m0 = t0 -> fst (last mid m0) < t1 <= fst e ->
  exists out rest, imu_extract junk b t0 t1 = Ret (out, rest) /\ aligned out /\ aligned rest /\
    samples out = m0 :: mid ++ [(t1, snd e)] /\
    in_order out /\
    samples rest = last mid m0 :: e :: post.
Proof.
  intros junk b t0 t1 pre m0 mid e post A O E H0 H1.
  unfold in_order in O. rewrite E in O.
  apply ss_app in O as (O1 & O2 & O3). inversion O2 as [|? ? O4 O5]; subst.
  assert (Om := O4). apply ss_app in O4 as (O6 & O7 & O8).
  rewrite Forall_forall in O5.
  assert (Fpre : Forall (fun s => fst s < fst m0) pre).
  { apply Forall_forall. intros z Hz. apply O3; auto. left; auto. }
  assert (Fmid : Forall (fun s => fst m0 <= fst s < t1) mid).
  { apply Forall_forall. intros z Hz. split.
    - assert (fst m0 < fst z) by (apply O5, in_or_app; auto). lia.
    - assert (fst z <= fst (last mid m0)); [|lia].
      clear - O6 Hz. revert z Hz. induction mid as [|x mid IH]; intros z Hz; [destruct Hz|].
      inversion O6 as [|? ? S1 S2]; subst. destruct mid as [|y mid].
      + destruct Hz as [ <- |[]]. simpl; lia.
      + change (last (x :: y :: mid) m0) with (last (y :: mid) m0). destruct Hz as [ <- |Hz]; [|auto].
        inversion S2; subst. assert (fst y <= fst (last (y :: mid) m0)) by (apply IH; auto; left; auto). lia. }
  assert (Hm0 : fst m0 < t1).
  { destruct mid as [|x mid]; [simpl in H1; lia|]. inversion Fmid; subst. simpl in *. lia. }
  assert (Em : fst m0 <= fst e) by lia.
  set (l := pre ++ m0 :: mid ++ e :: post) in *.
  assert (L : ext_l junk (fst m0) t1 0 None l imu_empty 0 =
    Ret (ofs (m0 :: mid ++ [(t1, snd e)]), length pre + length mid)%nat).
  { unfold l. rewrite ext_skip by auto. destruct m0 as [tm [am gm]]. rewrite ext_l_cons. simpl in *.
    rewrite Z.ltb_irrefl. cbv zeta. simpl. destruct (Z.ltb_spec t1 tm); [lia|].
    destruct (Z.eqb_spec tm t1); [lia|].
    change imu_empty with (ofs []). rewrite add_ofs.
    rewrite (ext_mid junk tm t1 e post); auto; try lia; [|discriminate].
    simpl. f_equal. f_equal. destruct mid; simpl; lia. }
  assert (Hn : (length pre + length mid <= length l)%nat).
  { unfold l. rewrite app_length. simpl. rewrite app_length. lia. }
  destruct (pop_ofs l _ Hn) as (P1 & P2 & P3).
  exists (ofs (m0 :: mid ++ [(t1, snd e)])), (ofs (skipn (length pre + length mid) l)).
  split.
  { unfold imu_extract. rewrite (ofs_samples b A), E. unfold ext_l in L. rewrite L. cbn [obind].
    rewrite P1. cbn [obind]. rewrite P2. cbn [obind]. rewrite P3. reflexivity. }
  split; [apply ofs_aligned|]. split; [apply ofs_aligned|]. rewrite !samples_ofs.
  split; auto. split.
  - unfold in_order. rewrite samples_ofs. constructor.
    + clear - O6 Fmid. induction mid as [|x mid IH]; simpl; [constructor; constructor|].
      inversion O6; inversion Fmid; subst. constructor; auto. apply Forall_app. split; auto.
      constructor; auto. simpl. lia.
    + apply Forall_app. split; [|constructor; auto].
      apply Forall_forall. intros z Hz. apply O5, in_or_app. auto.
  - unfold l. rewrite skipn_app. rewrite skipn_all2 by lia. simpl app.
    replace (length pre + length mid - length pre)%nat with (length mid) by lia.
    change (m0 :: mid ++ e :: post) with ((m0 :: mid) ++ e :: post).
    assert (E2 : m0 :: mid = removelast (m0 :: mid) ++ [last mid m0]).
    { assert (NN : m0 :: mid <> []) by discriminate.
      assert (X := app_removelast_last m0 NN). rewrite (last_cons mid m0 m0) in X. exact X. }
    revert E2. generalize (removelast (m0 :: mid)). intros rl E2.
    assert (Lr : length rl = length mid).
    { apply (f_equal (@length sample)) in E2. rewrite app_length in E2. simpl length in E2. lia. }
    rewrite E2, <- app_assoc, skipn_app, skipn_all2 by lia. rewrite Lr, Nat.sub_diag. reflexivity.
Qed.

(** The next extraction can start from what is left: it holds a sample before
    [t1] and one at or after it (when the buffer did). *)
Theorem C38_rest_covers_next : forall junk b t0 t1 out rest pre m0 mid e post,
  aligned b -> in_order b -> samples b = pre ++ m0 :: mid ++ e :: post ->
  fst m0 = t0 -> fst (last mid m0) < t1 <= fst e ->
  imu_extract junk b t0 t1 = Ret (out, rest) ->
  exists x y post', samples rest = x :: y :: post' /\ fst x < t1 <= fst y.
Proof.
  intros junk b t0 t1 out rest pre m0 mid e post A O E H0 H1 R.
  destruct (C38_extract_partial junk b t0 t1 pre m0 mid e post A O E H0 H1) as (o & r & R' & _ & _ & _ & _ & S).
  rewrite R' in R. inversion R; subst. exists (last mid m0), e, post. split; auto.
Qed.

(** The start sample is not interpolated but uninitialised: when the interval
    starts between two samples [x] and [y], the first extracted sample carries
    whatever value the uninitialised variable held. *)
Theorem C38_start_uninitialised_refuted : forall junk b t0 t1 pre x y mid e post,
  aligned b -> in_order b -> samples b = pre ++ x :: y :: mid ++ e :: post ->
  fst x < t0 < fst y -> fst (last mid y) < t1 <= fst e ->
  exists out rest, imu_extract junk b t0 t1 = Ret (out, rest) /\
    samples out = (t0, (junk, junk)) :: y :: mid ++ [(t1, snd e)].
Proof.
  intros junk b t0 t1 pre x y mid e post A O E H0 H1.
  unfold in_order in O. rewrite E in O.
  apply ss_app in O as (O1 & O2 & O3). inversion O2 as [|? ? O4 O5]; subst.
  inversion O4 as [|? ? O6 O7]; subst. apply ss_app in O6 as (O8 & O9 & O10).
  rewrite Forall_forall in O7.
  assert (Fpre : Forall (fun s => fst s < t0) (pre ++ [x])).
  { apply Forall_forall. intros z Hz. apply in_app_or in Hz as [Hz|[ <- |[]]]; [|lia].
    assert (fst z < fst x); [|lia]. apply O3; auto. left; auto. }
  assert (Fmid : Forall (fun s => t0 <= fst s < t1) mid).
  { apply Forall_forall. intros z Hz. split.
    - assert (fst y < fst z) by (apply O7, in_or_app; auto). lia.
    - assert (fst z <= fst (last mid y)); [|lia].
      clear - O8 Hz. revert z Hz. induction mid as [|u mid IH]; intros z Hz; [destruct Hz|].
      inversion O8 as [|? ? S1 S2]; subst. destruct mid as [|v mid].
      + destruct Hz as [ <- |[]]. simpl; lia.
      + change (last (u :: v :: mid) y) with (last (v :: mid) y). destruct Hz as [ <- |Hz]; [|auto].
        inversion S2; subst. assert (fst v <= fst (last (v :: mid) y)) by (apply IH; auto; left; auto). lia. }
  assert (Hy : fst y < t1).
  { destruct mid as [|u mid]; [simpl in H1; lia|]. 
    assert (fst y < fst u) by (apply O7; left; auto). inversion Fmid; subst. lia. }
  set (l := pre ++ x :: y :: mid ++ e :: post) in *.
  assert (L : exists n, ext_l junk t0 t1 0 None l imu_empty 0 =
    Ret (ofs ((t0, (junk, junk)) :: y :: mid ++ [(t1, snd e)]), n) /\ (n <= length l)%nat).
  { replace l with ((pre ++ [x]) ++ y :: mid ++ e :: post) by (unfold l; rewrite <- app_assoc; auto).
    rewrite ext_skip by auto. rewrite map_app. change (map Some [x]) with [Some x]. rewrite last_last. destruct y as [ty [ay gy]]. rewrite ext_l_cons. simpl in H0, Hy.
    destruct (Z.ltb_spec ty t0); [lia|]. cbv zeta. change (imu_size imu_empty =? 0) with true.
    destruct (Z.ltb_spec t0 ty); [|lia]. simpl andb. cbv iota.
    unfold int_ratio. destruct (Z.eqb_spec (ty - fst x) 0); [lia|]. simpl obind.
    rewrite Z.quot_small by lia.
    destruct (Z.eqb_spec ty t1); [lia|].
    change imu_empty with (ofs []). rewrite !add_ofs.
    rewrite (ext_mid junk t0 t1 e post); auto; try lia; [|discriminate].
    eexists. split.
    - do 3 f_equal. simpl. do 3 f_equal; unfold blend, vadd, vscale; destruct junk; simpl; f_equal; ring.
    - rewrite !app_length. simpl. rewrite !app_length. simpl. destruct mid; simpl; lia. }
  destruct L as (n & L & Hn).
  destruct (pop_ofs l _ Hn) as (P1 & P2 & P3).
  exists (ofs ((t0, (junk, junk)) :: y :: mid ++ [(t1, snd e)])), (ofs (skipn n l)).
  split; [|apply samples_ofs].
  unfold imu_extract. rewrite (ofs_samples b A), E. unfold ext_l in L. rewrite L. cbn [obind].
  rewrite P1. cbn [obind]. rewrite P2. cbn [obind]. rewrite P3. reflexivity.
Qed.

(** The end sample is not interpolated: with accelerations 0 at time 10 and 8 at
    time 20 the extract up to time 15 ends with 8 instead of 4. *)
Theorem C38_end_not_interpolated_refuted : forall junk,
  let v (x : Z) := V3 (IZR x) 0 0 in
  exists out rest,
    imu_extract junk (Imu [10; 20] [v 0; v 8] [v 0; v 8]) 10 15 = Ret (out, rest) /\
    samples out = [(10, (v 0, v 0)); (15, (v 8, v 8))].
Proof. intros junk v. do 2 eexists. split; reflexivity. Qed.

(** An interval between two consecutive samples yields stamps out of order. *)
Theorem C38_short_interval_refuted : forall junk a b c,
  exists out rest, imu_extract junk (Imu [0; 10; 20] [a; b; c] [a; b; c]) 2 5 = Ret (out, rest) /\
    i_ts out = [2; 10; 5].
Proof. intros. do 2 eexists. split; reflexivity. Qed.

(** An interval starting before the first sample reads element -1. *)
Theorem C38_start_before_buffer_refuted : forall junk a b,
  imu_extract junk (Imu [10; 20] [a; b] [a; b]) 5 15 = Undef.
Proof. reflexivity. Qed.

(** Hypotheses are satisfiable. *)
Example C37_example : forall a b c d,
  imu_trim (Imu [0; 10; 20; 30] [a; b; c; d] [a; b; c; d]) 15 = Ret (Imu [10; 20; 30] [b; c; d] [b; c; d]).
Proof. reflexivity. Qed.
Example C38_example : forall junk a b c d, exists out rest,
  imu_extract junk (Imu [0; 10; 20; 30] [a; b; c; d] [a; b; c; d]) 10 20 = Ret (out, rest) /\
  out = Imu [10; 20] [b; c] [b; c] /\ rest = Imu [10; 20; 30] [b; c; d] [b; c; d].
Proof. intros. do 2 eexists. split; [|split]; reflexivity. Qed.
Example C38_in_order : forall a b c, in_order (Imu [0; 10; 20] [a; b; c] [a; b; c]) /\
  aligned (Imu [0; 10; 20] [a; b; c] [a; b; c]).
Proof. intros. split; [|split; reflexivity]. unfold in_order, samples; simpl. repeat constructor; simpl; lia. Qed.

Print Assumptions C37_trim_keeps_one_before.
Print Assumptions C38_extract_partial.
Print Assumptions C38_start_uninitialised_refuted.
