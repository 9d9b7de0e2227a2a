(** * C108: files with poses and IMU samples, character by character *)
From Coq Require Import Ascii String.
From Flocq Require Import Core.Raux.
From Verif Require Import Base TextModel TextProofs GeomModel GeomSpec Prop_Geom PoseFileModel PoseFileSpec PoseFileProofs.
Local Open Scope Z_scope.

Definition told (e : Z * (vec3 * quat)) : Z * mat4 := (fst e, tf (to_rot (snd (snd e))) (fst (snd e))).

Lemma Forall2_impl' {A B} (Pa Qa : A -> B -> Prop) l m : (forall a b, Pa a b -> Qa a b) -> Forall2 Pa l m -> Forall2 Qa l m.
Proof. intros H F. induction F; constructor; auto. Qed.
Lemma says_pose ls es : Forall2 PoseLine ls es -> Forall2 (fun l e => Says 7 l (Some e)) ls (map pose_row_of es).
Proof.
  induction 1 as [|l [ts [r q]] ls es [B H] F IH]; simpl; constructor; simpl; auto.
Qed.
Lemma says_imu ls es : Forall2 ImuLine ls es -> Forall2 (fun l e => Says 6 l (Some e)) ls (map imu_row_of es).
Proof.
  induction 1 as [|l [ts [r q]] ls es [B H] F IH]; simpl; constructor; simpl; auto.
Qed.
Lemma says_some k ls rs : Forall2 (fun l e => Says k l (Some e)) ls rs -> Forall2 (Says k) ls (map Some rs).
Proof. induction 1; simpl; constructor; auto. Qed.
Lemma said_some {A} (l : list A) : said (map Some l) = l.
Proof. induction l; simpl; f_equal; auto. Qed.
Lemma says_nonl k ls es : Forall2 (Says k) ls es -> Forall (fun l => ~ In newline l) ls.
Proof.
  induction 1 as [|l [[ts xs]|] ls es H F IH]; constructor; auto.
  - destruct H as (_ & _ & H). eapply line_nonl; eauto.
  - apply blank_nonl, H.
Qed.
Lemma says_last k h ls rs : Forall2 (fun l e => Says k l (Some e)) ls rs -> ls <> [] -> last (h :: ls) [hash] <> [].
Proof.
  intros F N. destruct ls as [|l ls]; [easy|]. clear N. revert h l rs F. induction ls as [|l' ls IH]; intros h l rs F.
  - inversion F as [|? [ts xs] ? ? (_ & _ & H) _]; subst. simpl. eapply line_nonl; eauto.
  - inversion F; subst. change (last (l :: l' :: ls) [hash] <> []). eapply IH; eauto.
Qed.
Lemma rows_count nl h ls : Header h -> Forall (fun l => ~ In newline l) ls -> (nl = false -> last (h :: ls) [hash] <> []) ->
  file_rows (unlines nl (h :: ls)) = S (length ls).
Proof. intros [N _] F L. unfold file_rows. rewrite getlines_unlines; auto. Qed.
Lemma unlines_nonempty h ls : ls <> [] -> forall nl, unlines nl (h :: ls) <> [].
Proof. intros N nl. destruct ls; [easy|]. simpl. destruct h; discriminate. Qed.
(** the number of rows and the text after the header *)
Lemma open_file k nl h ls rs : Header h -> Forall2 (fun l e => Says k l (Some e)) ls rs ->
  (file_rows (unlines nl (h :: ls)) = O /\ ls = [] /\ rs = []) \/
  (file_rows (unlines nl (h :: ls)) = S (length ls) /\ skip_line (unlines nl (h :: ls)) = Ret (unlines nl ls)).
Proof.
  intros Hh F. assert (NN := says_nonl _ _ _ (says_some _ _ _ F)).
  destruct ls as [|l ls].
  - inversion F; subst. destruct (unlines nl [h]) eqn:E.
    + left. auto.
    + right. rewrite <- E. split; [|apply skip_header; auto; rewrite E; discriminate].
      apply rows_count; auto. intros ->. simpl in *. rewrite app_nil_r in E. rewrite E. discriminate.
  - right. split; [|apply skip_header; auto; apply unlines_nonempty; discriminate].
    apply rows_count; auto. intros _. eapply says_last; eauto. discriminate.
Qed.
Lemma rows_all f k nl ls rs : ts_reader f -> Forall2 (fun l e => Says k l (Some e)) ls rs -> rows f k (length ls) (unlines nl ls) = Some rs.
Proof.
  intros Rd F. assert (H := rows_spec f k ls (map Some rs) Rd (says_some _ _ _ F) nl [] (length ls) (Forall_nil _)).
  simpl app in H. rewrite H. rewrite said_some. assert (L : length ls = length rs) by (clear -F; induction F; simpl; auto).
  rewrite L, Nat.leb_refl, firstn_all. reflexivity.
Qed.

Lemma last_app_cons {A} (a : list A) x b d : last (a ++ x :: b) d = last (x :: b) d.
Proof. induction a as [|y a IH]; auto. simpl app. rewrite <- IH. destruct (a ++ x :: b) eqn:E; [destruct a; discriminate|reflexivity]. Qed.
Lemma last_all {A} (Pa : A -> Prop) l d : Forall Pa l -> l <> [] -> Pa (last l d).
Proof. induction 1 as [|x l H F IH]; [easy|]. intros _. destruct l as [|y l]; [exact H|]. apply IH. discriminate. Qed.
Lemma said_app {A} (a b : list (option A)) : said (a ++ b) = said a ++ said b.
Proof. induction a as [|[x|] a IH]; simpl; auto. now rewrite IH. Qed.
Lemma Exists_split {A} (Pa : A -> Prop) l (X : Exists Pa l) : exists a x b, l = a ++ x :: b /\ True /\ Pa x.
Proof. induction X as [x l H|x l X (a & y & b & -> & _ & H)]; [exists [], x, l; auto|exists (x :: a), y, b; auto]. Qed.
Lemma says_any ls : Forall (fun l => Blank l \/ exists e, PoseLine l e) ls -> exists es, Forall2 (Says 7) ls es /\ (length (said es) <= length ls)%nat.
Proof.
  induction 1 as [|l ls [H|[[ts [r q]] [B H]]] F (es & G & Le)]; [exists []; split; [constructor|auto]| |].
  - exists (None :: es). split; [constructor; auto|]. simpl. lia.
  - exists (Some (pose_row_of (ts, (r, q))) :: es). split; [constructor; auto; simpl; auto|]. simpl. lia.
Qed.

(** Every line after the first says a time and a pose (decimal numbers, commas between, a final newline or not): [load_poses]
    gives exactly these, in order, and [load_pose] the first, or the identity without any. A file that does not open is fatal. *)
Theorem C108_load_poses :
  (forall h nl ls es, Header h -> Forall2 PoseLine ls es ->
    load_poses (Some (unlines nl (h :: ls))) = Ret (map told es) /\
    load_pose (Some (unlines nl (h :: ls))) = Ret (match es with e :: _ => snd (told e) | [] => I4 end)) /\
  load_poses None = Throw Fatal /\ load_pose None = Throw Fatal.
Proof.
  split; [|auto]. intros h nl ls es Hh F. apply says_pose in F.
  assert (R1 := rows_all scan_ld 7 nl ls _ ld_reader F).
  destruct (open_file 7 nl h ls _ Hh F) as [(E & -> & Er)|(E & Es)].
  - assert (es = []) as -> by (destruct es; [auto|discriminate]).
    unfold load_poses, load_pose. rewrite E. split; auto.
  - unfold load_poses, load_pose. rewrite E, Es. simpl obind. split.
    + apply load_poses_rows_some. exact R1.
    + destruct es as [|[t [p q]] es].
      * inversion F; subst. reflexivity.
      * inversion F as [|l ? ls' ? H F']; subst. simpl length. cbn [rows length] in R1.
        destruct (scan_row scan_ld 7 (unlines nl (l :: ls'))) as [[[ts xs] r]|]; [|discriminate].
        destruct (rows scan_ld 7 (length ls') r); [|discriminate]. injection R1 as -> -> _. simpl. destruct p, q. reflexivity.
Qed.
(** A line with too few numbers is fatal, and so is a blank one, wherever it stands. *)
Theorem C108_bad_line :
  (forall h nl ls es t ts xs rest, Header h -> Forall2 PoseLine ls es -> Line t ts xs -> int64 ts -> (length xs < 7)%nat ->
    Forall (fun l => ~ In newline l /\ l <> []) rest ->
    load_poses (Some (unlines nl (h :: ls ++ t :: rest))) = Throw Fatal) /\
  (forall h ls, Header h -> Forall (fun l => Blank l \/ exists e, PoseLine l e) ls -> Exists Blank ls ->
    load_poses (Some (unlines true (h :: ls))) = Throw Fatal).
Proof.
  split.
  - intros h nl ls es t ts xs rest Hh F H B L Fr. apply says_pose in F.
    assert (NN := says_nonl _ _ _ (says_some _ _ _ F)). destruct (line_nonl _ _ _ H) as [Nt Et].
    unfold load_poses. rewrite rows_count; auto.
    + rewrite skip_header; auto.
      * simpl obind. apply load_poses_rows_none.
        assert (X := rows_short scan_ld 7 ls _ t ts xs rest ld_reader F H B L nl [] (length (ls ++ t :: rest)) (Forall_nil _)).
        simpl app in X. apply X. rewrite app_length. simpl. lia.
      * apply unlines_nonempty. destruct ls; discriminate.
    + apply Forall_app. split; auto. constructor; auto. eapply Forall_impl; [|exact Fr]. simpl. tauto.
    + intros _. assert (Fl : Forall (fun l => l <> []) (t :: rest)) by (constructor; auto; eapply Forall_impl; [|exact Fr]; simpl; tauto).
      change (h :: ls ++ t :: rest) with ((h :: ls) ++ t :: rest). rewrite last_app_cons. apply (last_all _ _ _ Fl). discriminate.
  - intros h ls Hh F X.
    assert (E : exists es, Forall2 (Says 7) ls es /\ (length (said es) < length ls)%nat).
    { destruct (Exists_split _ _ X) as (a & l & b & -> & _ & Hl). apply Forall_app in F as [Fa Fb]. inversion Fb as [|? ? _ Fb']; subst.
      destruct (says_any a Fa) as (ea & Ga & La). destruct (says_any b Fb') as (eb & Gb & Lb).
      exists (ea ++ None :: eb). split; [apply Forall2_app; auto; constructor; auto|].
      rewrite said_app, !app_length. simpl. lia. }
    destruct E as (es & G & L).
    unfold load_poses. rewrite rows_count; auto; [|eapply says_nonl; eauto|discriminate].
    rewrite skip_header; auto; [|apply unlines_nonempty; destruct X; discriminate].
    simpl obind. apply load_poses_rows_none.
    assert (Y := rows_spec scan_ld 7 ls es ld_reader G true [] (length ls) (Forall_nil _)). simpl app in Y. rewrite Y.
    destruct (Nat.leb_spec (length ls) (length (said es))); [lia|reflexivity].
Qed.

(** ** Saving and loading *)
Lemma save_poses_rows_text ts ps s : save_poses_rows ts ps = Ret s ->
  (length ts <= length ps)%nat /\ s = concat (map (fun x => row_text (fst x) (pose_row (snd x))) (combine ts ps)).
Proof.
  revert ps s; induction ts as [|t ts IH]; intros ps s H; simpl in H.
  - injection H as <-. split; [simpl; lia|reflexivity].
  - destruct ps as [|T ps]; [discriminate|]. destruct (save_poses_rows ts ps) as [s'| |] eqn:E; try discriminate.
    simpl in H. injection H as <-. destruct (IH ps s' E) as [L ->]. split; [simpl; lia|reflexivity].
Qed.
Lemma concat_unlines (l : list (Z * list R)) : exists ls ys,
  concat (map (fun x => row_text (fst x) (snd x)) l) = unlines true ls /\
  Forall2 (fun y x => fst y = fst x /\ Forall2 (fun y x => Rabs (y - x) <= 1 / 2000000)%R (snd y) (snd x)) ys l /\
  Forall2 (fun t y => Line t (fst y) (snd y)) ls ys.
Proof.
  induction l as [|[t xs] l (ls & ys & E & F & G)]; [exists [], []; repeat split; constructor|].
  destruct (row_text_line t xs) as (s & zs & Es & Hs & Fz).
  exists (s :: ls), ((t, zs) :: ys). split; [|split; constructor; auto].
  simpl. rewrite Es, E. destruct ls as [|l' ls]; [now rewrite app_nil_r|now rewrite <- app_assoc].
Qed.

Lemma rot_close q q' : unitq q -> close (1 / 2000000) (qw q') (qw q) -> close (1 / 2000000) (qx q') (qx q) ->
  close (1 / 2000000) (qy q') (qy q) -> close (1 / 2000000) (qz q') (qz q) -> close33 (1 / 200000) (to_rot q') (to_rot q).
Proof.
  destruct q as [w x y z], q' as [w' x' y' z']. unfold unitq, qnorm2, close. simpl. intros U Hw Hx Hy Hz.
  assert (Bd : forall a b c d, (a * a + b * b + c * c + d * d = 1 -> -1 <= a <= 1)%R) by (intros; nra).
  assert (Bw : (-1 <= w <= 1)%R) by (apply (Bd w x y z); lra). assert (Bx : (-1 <= x <= 1)%R) by (apply (Bd x w y z); lra).
  assert (By : (-1 <= y <= 1)%R) by (apply (Bd y w x z); lra). assert (Bz : (-1 <= z <= 1)%R) by (apply (Bd z w x y); lra). clear Bd U.
  assert (Pr : forall a b a' b', (-1 <= a <= 1 -> -1 <= b <= 1 -> Rabs (a' - a) <= 1 / 2000000 -> Rabs (b' - b) <= 1 / 2000000 ->
                Rabs (a' * b' - a * b) <= 1 / 900000)%R).
  { intros a b a' b' Ha Hb Ea Eb. apply Rabs_le_inv in Ea. apply Rabs_le_inv in Eb. apply Rabs_le.
    replace (a' * b' - a * b)%R with ((a' - a) * (b' - b) + a * (b' - b) + b * (a' - a))%R by ring.
    set (u := (a' - a)%R) in *. set (v := (b' - b)%R) in *. clearbody u v. nra. }
  unfold close33, close, to_rot. simpl.
  pose proof (Pr w x w' x' Bw Bx Hw Hx). pose proof (Pr w y w' y' Bw By Hw Hy). pose proof (Pr w z w' z' Bw Bz Hw Hz).
  pose proof (Pr x x x' x' Bx Bx Hx Hx). pose proof (Pr x y x' y' Bx By Hx Hy). pose proof (Pr x z x' z' Bx Bz Hx Hz).
  pose proof (Pr y y y' y' By By Hy Hy). pose proof (Pr y z y' z' By Bz Hy Hz). pose proof (Pr z z z' z' Bz Bz Hz Hz).
  repeat match goal with H : (Rabs _ <= 1 / 900000)%R |- _ => apply Rabs_le_inv in H end. clear Pr Hw Hx Hy Hz.
  repeat match goal with |- _ /\ _ => split end; apply Rabs_le; lra.
Qed.

(** What save_poses writes, load_poses reads: the same times, translations within half a micrometre, rotation entries within 5e-6. *)
Theorem C108_round_trip : forall tps,
  Forall (fun tp : Z * mat4 => int64 (fst tp) /\ Rigid (snd tp)) tps ->
  exists s out, save_poses (map fst tps) (map snd tps) = Ret s /\ load_poses (Some s) = Ret out /\
    Forall2 (fun o tp : Z * mat4 => fst o = fst tp /\ close3 (1 / 2000000) (tf_trans (snd o)) (tf_trans (snd tp)) /\
                       close33 (1 / 200000) (tf_rot (snd o)) (tf_rot (snd tp))) out tps.
Proof.
  intros tps F.
  assert (Sv : save_poses_rows (map fst tps) (map snd tps) = Ret (concat (map (fun x => row_text (fst x) (snd x)) (map (fun tp => (fst tp, pose_row (snd tp))) tps)))).
  { clear F. induction tps as [|[t T] tps IH]; [reflexivity|]. simpl. rewrite IH. reflexivity. }
  unfold save_poses. rewrite Sv. simpl obind.
  destruct (concat_unlines (map (fun tp => (fst tp, pose_row (snd tp))) tps)) as (ls & ys & E & G & H). rewrite E.
  assert (X : exists es, Forall2 PoseLine ls es /\ Forall2 (fun e (tp : Z * mat4) => fst e = fst tp /\
     close3 (1 / 2000000) (fst (snd e)) (tf_trans (snd tp)) /\
     let q := tf_quat (snd tp) in let q' := snd (snd e) in
     close (1 / 2000000) (qw q') (qw q) /\ close (1 / 2000000) (qx q') (qx q) /\
     close (1 / 2000000) (qy q') (qy q) /\ close (1 / 2000000) (qz q') (qz q)) es tps).
  { clear E Sv. revert ls ys G H. induction F as [|[t T] tps [B _] F IH]; intros ls ys G H.
    - inversion G; subst. inversion H; subst. exists []. split; constructor.
    - inversion G as [|[t' zs] ? ys' ? [Et Ez] G']; subst. inversion H as [|l ? ls' ? Hl H']; subst.
      destruct (IH ls' ys' G' H') as (es & A1 & A2). simpl in Et, Ez, Hl. subst t'. clear IH G H G' H'. try unfold pose_row in Ez; cbn zeta in Ez.
      repeat match type of Ez with Forall2 _ _ (_ :: _) => let z := fresh "z" in let zs' := fresh "zs" in let Hz := fresh "Hz" in let Ez' := fresh "Ez" in inversion Ez as [|z ? zs' ? Hz Ez']; clear Ez; rename Ez' into Ez; subst end; inversion Ez; subst.
      match type of Hl with Line _ _ [?a; ?b; ?c; ?d; ?e; ?f; ?g] => exists ((t, (V3 a b c, Q g d e f)) :: es) end.
      split; constructor; auto.
      + simpl. auto.
      + simpl. unfold close3, close. simpl. repeat split; auto. }
  destruct X as (es & F1 & F2).
  exists (pose_header ++ [newline] ++ unlines true ls), (map told es). split; [reflexivity|]. split.
  - assert (U : pose_header ++ [newline] ++ unlines true ls = unlines true (pose_header :: ls)) by (destruct ls; reflexivity).
    rewrite U. apply (proj1 C108_load_poses); auto. split; [|vm_compute; discriminate].
    vm_compute. intros C. repeat (destruct C as [C|C]; [discriminate|]). destruct C.
  - clear -F F2. induction F2 as [|e tp es tps (H1 & H2 & H3) F2 IH]; [constructor|]. inversion F as [|? ? [_ Rg] F']; subst.
    simpl. constructor; auto. split; [exact H1|]. unfold told. simpl.
    destruct Rg as (C & r & HC & ET). destruct (proj1 C46_quaternion_conversion C HC) as [Q1 Q2].
    destruct tp as [t T]. simpl in *. subst T.
    assert (T1 : tf_trans (tf (to_rot (snd (snd e))) (fst (snd e))) = fst (snd e)) by (destruct (fst (snd e)); reflexivity).
    assert (T2 : tf_rot (tf (to_rot (snd (snd e))) (fst (snd e))) = to_rot (snd (snd e))) by (destruct (to_rot (snd (snd e))); reflexivity).
    assert (T3 : tf_rot (tf C r) = C) by (destruct C; reflexivity).
    rewrite T1, T2. split; [exact H2|]. unfold tf_quat in H3. rewrite T3 in *. rewrite <- Q1.
    apply rot_close; [exact Q2|tauto..].
Qed.
(** With fewer poses than times, the poses past the end are read. *)
Theorem C108_save_short : forall ts ps, (length ps < length ts)%nat -> save_poses ts ps = Undef.
Proof.
  intros ts ps L. unfold save_poses. assert (E : save_poses_rows ts ps = Undef); [|now rewrite E].
  revert ps L. induction ts as [|t ts IH]; intros ps L; [simpl in L; lia|]. destruct ps as [|T ps]; [reflexivity|].
  simpl. rewrite IH; [reflexivity|simpl in L; lia].
Qed.

(** ** IMU samples *)
Theorem C108_load_imu :
  (forall h nl ls es, Header h -> Forall2 ImuLine ls es ->
    load_imu_data (Some (unlines nl (h :: ls))) = Ret (map (fun e => let '(ts, (w, a)) := e in (ts, a, w)) es)) /\
  (forall h nl ls es t ts xs rest, Header h -> Forall2 ImuLine ls es -> Line t ts xs -> int64 ts -> (length xs < 6)%nat ->
    Forall (fun l => ~ In newline l /\ l <> []) rest ->
    load_imu_data (Some (unlines nl (h :: ls ++ t :: rest))) = Throw Fatal) /\
  load_imu_data None = Throw Fatal.
Proof.
  split; [|split; auto].
  - intros h nl ls es Hh F. apply says_imu in F. assert (R1 := rows_all scan_u64 6 nl ls _ u64_reader F).
    replace (map (fun e : Z * (vec3 * vec3) => let '(ts, (w, a)) := e in (ts, a, w)) es) with (map (fun e : Z * (vec3 * vec3) => (fst e, snd (snd e), fst (snd e))) es)
      by (apply map_ext; intros [? [? ?]]; reflexivity).
    destruct (open_file 6 nl h ls _ Hh F) as [(E & -> & Er)|(E & Es)].
    + assert (es = []) as -> by (destruct es; [auto|discriminate]). unfold load_imu_data. rewrite E. auto.
    + unfold load_imu_data. rewrite E, Es. simpl obind. apply load_imu_rows_some. exact R1.
  - intros h nl ls es t ts xs rest Hh F H B L Fr. apply says_imu in F.
    assert (NN := says_nonl _ _ _ (says_some _ _ _ F)). destruct (line_nonl _ _ _ H) as [Nt Et].
    unfold load_imu_data. rewrite rows_count; auto.
    + rewrite skip_header; auto.
      * simpl obind. apply load_imu_rows_none.
        assert (X := rows_short scan_u64 6 ls _ t ts xs rest u64_reader F H B L nl [] (length (ls ++ t :: rest)) (Forall_nil _)).
        simpl app in X. apply X. rewrite app_length. simpl. lia.
      * apply unlines_nonempty. destruct ls; discriminate.
    + apply Forall_app. split; auto. constructor; auto. eapply Forall_impl; [|exact Fr]. simpl. tauto.
    + intros _. assert (Fl : Forall (fun l => l <> []) (t :: rest)) by (constructor; auto; eapply Forall_impl; [|exact Fr]; simpl; tauto).
      change (h :: ls ++ t :: rest) with ((h :: ls) ++ t :: rest). rewrite last_app_cons. apply (last_all _ _ _ Fl). discriminate.
Qed.
(** save_imu_data then load_imu_data is not the identity: the first sample is lost (there is no header to skip), and in the others
    accelerations and angular velocities are exchanged. *)
Definition smp_t (x : Z * (vec3 * vec3)) : Z := fst x.
Definition smp_acc (x : Z * (vec3 * vec3)) : vec3 := fst (snd x).
Definition smp_gyr (x : Z * (vec3 * vec3)) : vec3 := snd (snd x).
Definition in_double (v : vec3) : Prop := (Rabs (vx v) < 10 ^ 309 /\ Rabs (vy v) < 10 ^ 309 /\ Rabs (vz v) < 10 ^ 309)%R.
Theorem C108_imu_swapped_refuted : forall l,
  Forall (fun x => int64 (smp_t x) /\ in_double (smp_acc x) /\ in_double (smp_gyr x)) l ->
  exists s out, save_imu_data (map smp_t l) (map smp_acc l) (map smp_gyr l) = Ret s /\ load_imu_data (Some s) = Ret out /\
    Forall2 (fun (o : Z * vec3 * vec3) x => fst (fst o) = smp_t x /\
       close3 (1 / 2000000) (snd (fst o)) (smp_gyr x) /\ close3 (1 / 2000000) (snd o) (smp_acc x)) out (tl l).
Proof.
  intros l F.
  set (rw := fun x : Z * (vec3 * vec3) => (smp_t x, let a := smp_acc x in let g := smp_gyr x in [vx a; vy a; vz a; vx g; vy g; vz g])).
  assert (Sv : forall l, save_imu_data (map smp_t l) (map smp_acc l) (map smp_gyr l) = Ret (concat (map (fun x => row_text (fst x) (snd x)) (map rw l)))).
  { clear. induction l as [|[t [a g]] l IH]; [reflexivity|]. simpl. rewrite IH. reflexivity. }
  rewrite Sv. destruct (concat_unlines (map rw l)) as (ls & ys & E & G & H). rewrite E.
  assert (X : exists es, Forall2 ImuLine ls es /\ Forall2 (fun (e x : Z * (vec3 * vec3)) => fst e = smp_t x /\
     close3 (1 / 2000000) (fst (snd e)) (smp_acc x) /\ close3 (1 / 2000000) (snd (snd e)) (smp_gyr x)) es l).
  { clear E Sv. revert ls ys G H. induction F as [|[t [a g]] l [B _] F IH]; intros ls ys G H.
    - inversion G; subst. inversion H; subst. exists []. split; constructor.
    - inversion G as [|[t' zs] ? ys' ? [Et Ez] G']; subst. inversion H as [|l0 ? ls' ? Hl H']; subst.
      destruct (IH ls' ys' G' H') as (es & A1 & A2). simpl in Et, Ez, Hl. subst t'. clear IH G H G' H'. try unfold pose_row in Ez; cbn zeta in Ez.
      repeat match type of Ez with Forall2 _ _ (_ :: _) => let z := fresh "z" in let zs' := fresh "zs" in let Hz := fresh "Hz" in let Ez' := fresh "Ez" in inversion Ez as [|z ? zs' ? Hz Ez']; clear Ez; rename Ez' into Ez; subst end; inversion Ez; subst.
      match type of Hl with Line _ _ [?a; ?b; ?c; ?d; ?e; ?f] => exists ((t, (V3 a b c, V3 d e f)) :: es) end.
      split; constructor; auto.
      + simpl. auto.
      + simpl. unfold close3, close. simpl. repeat split; auto. }
  destruct X as (es & F1 & F2).
  exists (unlines true ls). destruct l as [|x l].
  - inversion G; subst. inversion H; subst. exists []. repeat split; constructor.
  - inversion F2 as [|e ? es' ? He F2']; subst. inversion F1 as [|t ? ls' ? Ht F1']; subst.
    exists (map (fun e => let '(ts, (w, a)) := e in (ts, a, w)) es'). split; [reflexivity|]. split.
    + apply (proj1 C108_load_imu); auto. destruct e as [te [we ae]]. destruct Ht as [_ Ht]. split; [eapply line_nonl; eauto|].
      cbn [map concat] in E. change (row_text (fst (rw x)) (snd (rw x))) with (row_text (smp_t x) (snd (rw x))) in E. inversion F as [|? ? (B & Fa & Fg) _]; subst.
      assert (Ln : (length t <= length (row_text (smp_t x) (snd (rw x))))%nat).
      { destruct (row_text_line (smp_t x) (snd (rw x))) as (s0 & zs & Es & Hs & _). rewrite Es in E |- *.
        assert (N1 := proj1 (line_nonl _ _ _ Ht)). assert (N0 := proj1 (line_nonl _ _ _ Hs)). rewrite <- app_assoc in E. cbn [app] in E.
        assert (E' : exists r, t ++ newline :: r = unlines true (t :: ls')) by (destruct ls'; simpl; eauto).
        destruct E' as [r Er]. rewrite <- Er in E.
        assert (Bk := break_at_hit newline _ (concat (map (fun x => row_text (fst x) (snd x)) (map rw l))) N0).
        rewrite E in Bk. rewrite (break_at_hit newline t r N1) in Bk. injection Bk as -> _. rewrite app_length. simpl. lia. }
      assert (L2 := row_line_length (smp_t x) (snd (rw x)) 309 B).
      assert (Fx : Forall (fun x => Rabs x < 10 ^ 309)%R (snd (rw x))).
      { destruct Fa as (? & ? & ?), Fg as (? & ? & ?). unfold rw. cbn [snd]. repeat (constructor; [assumption|]). constructor. }
      specialize (L2 Fx). clear Fx. change (length (snd (rw x))) with 6%nat in L2; clear -Ln L2. lia.
    + clear -F2'. induction F2' as [|[te [we ae]] x0 es l0 (H1 & H2 & H3) F IH]; [constructor|]. simpl. constructor; auto.
Qed.

(** ** Restoring the camera poses of a calibration *)
Lemma set_all_spec es : forall l, set_all es l = map (fun tp => (fst tp, match last_at (fst tp) es with Some (r, q) => P r q | None => snd tp end)) l.
Proof.
  induction es as [|[t [r q]] es IH]; intros l; unfold set_all in *; simpl.
  - rewrite <- (map_id l) at 1. apply map_ext. intros []; reflexivity.
  - rewrite IH. unfold set_pose. rewrite map_map. apply map_ext. intros [u p]. simpl.
    destruct (Z.eqb_spec u t) as [-> |N]; simpl.
    + rewrite Z.eqb_refl. destruct (last_at t es) as [[]|]; reflexivity.
    + destruct (last_at u es) as [[]|]; auto. destruct (Z.eqb_spec t u); [congruence|reflexivity].
Qed.
(** The poses there are keep their times and order; one with a time in the file takes the last pose the file gives for it,
    the others stay; times only in the file are ignored. A line with too few numbers ends the reading, silently. *)
Theorem C108_camera_poses :
  (forall h nl ls es poses, Header h -> Forall2 PoseLine ls es ->
    load_camera_poses (Some (unlines nl (h :: ls))) poses =
    Ret (map (fun tp => (fst tp, match last_at (fst tp) es with Some (r, q) => P r q | None => snd tp end)) poses)) /\
  (forall h nl ls es poses t ts xs rest, Header h -> Forall2 PoseLine ls es -> Line t ts xs -> int64 ts -> (length xs < 7)%nat ->
    Forall (fun l => ~ In newline l /\ l <> []) rest ->
    load_camera_poses (Some (unlines nl (h :: ls ++ t :: rest))) poses = load_camera_poses (Some (unlines true (h :: ls))) poses) /\
  (forall poses, load_camera_poses None poses = Ret poses).
Proof.
  assert (G : forall h nl ls es poses, Header h -> Forall2 PoseLine ls es ->
    load_camera_poses (Some (unlines nl (h :: ls))) poses = Ret (set_all es poses)).
  { intros h nl ls es poses Hh F. apply says_pose in F. assert (R1 := rows_all scan_ld 7 nl ls _ ld_reader F).
    destruct (open_file 7 nl h ls _ Hh F) as [(E & -> & Er)|(E & Es)].
    - assert (es = []) as -> by (destruct es; [auto|discriminate]). unfold load_camera_poses. rewrite E. auto.
    - unfold load_camera_poses. rewrite E, Es. simpl obind. f_equal. apply load_camera_rows_some. exact R1. }
  split; [|split; [|reflexivity]].
  - intros. rewrite (G h nl ls es) by auto. f_equal. apply set_all_spec.
  - intros h nl ls es poses t ts xs rest Hh F H B L Fr. rewrite (G h true ls es) by auto.
    apply says_pose in F.
    assert (NN := says_nonl _ _ _ (says_some _ _ _ F)). destruct (line_nonl _ _ _ H) as [Nt Et].
    unfold load_camera_poses. rewrite rows_count; auto.
    + rewrite skip_header; auto.
      * simpl obind. f_equal. rewrite app_length. simpl length. 
        assert (K : forall ls es w n poses, spaces w -> Forall2 (fun l e => Says 7 l (Some e)) ls (map pose_row_of es) -> (length ls < n)%nat ->
                  load_camera_rows n (w ++ unlines nl (ls ++ t :: rest)) poses = set_all es poses).
        { clear -H B L. intros ls. induction ls as [|l ls IH]; intros es w n poses W F Ln; (destruct n as [|n]; [simpl in Ln; lia|]).
          - inversion F as [E'|]; subst. destruct es; [|discriminate].
            destruct (scan_row_spec scan_ld t ts xs ld_reader H B) as (w1 & _ & X).
            assert (E : exists r, unlines nl ([] ++ t :: rest) = t ++ r /\ (r = [] \/ exists r', r = newline :: r')).
            { simpl. destruct rest; [destruct nl|]; eauto. }
            destruct E as (r & -> & E). destruct (X w r W E) as [_ X2]. cbn [load_camera_rows]. rewrite X2 by auto. reflexivity.
          - destruct es as [|[te [re qe]] es]; [inversion F|]. cbn [map pose_row_of] in F. inversion F as [|? ? ? ? Hs F']; subst. destruct Hs as (B' & L' & Hl).
            destruct (scan_row_spec scan_ld l te _ ld_reader Hl B') as (w1 & Bw & X).
            assert (E : unlines nl ((l :: ls) ++ t :: rest) = l ++ newline :: unlines nl (ls ++ t :: rest)) by (destruct ls; reflexivity).
            rewrite E. destruct (X w (newline :: unlines nl (ls ++ t :: rest)) W) as [X1 _]; [eauto|]. simpl length in X1.
            cbn [load_camera_rows]. rewrite X1.
            replace (w1 ++ newline :: unlines nl (ls ++ t :: rest)) with ((w1 ++ [newline]) ++ unlines nl (ls ++ t :: rest)) by (now rewrite <- app_assoc).
            rewrite (IH es); auto.
            + unfold set_all. simpl. destruct re, qe. reflexivity.
            + apply spaces_app; [apply blank_spaces; auto|repeat constructor].
            + simpl in Ln. lia. }
        apply (K ls es [] _ poses (Forall_nil _) F). lia.
      * apply unlines_nonempty. destruct ls; discriminate.
    + apply Forall_app. split; auto. constructor; auto. eapply Forall_impl; [|exact Fr]. simpl. tauto.
    + intros _. assert (Fl : Forall (fun l => l <> []) (t :: rest)) by (constructor; auto; eapply Forall_impl; [|exact Fr]; simpl; tauto).
      change (h :: ls ++ t :: rest) with ((h :: ls) ++ t :: rest). rewrite last_app_cons. apply (last_all _ _ _ Fl). discriminate.
Qed.

(** ** Examples *)
Example pf_line : PoseLine (list_ascii_of_string "12,1.5,-2,.25,0,0,0,+1") (12, (V3 (3 / 2) (-2) (1 / 4), Q 1 0 0 0)).
Proof.
  assert (Dg : forall l, Forall (fun d => 0 <= d < 10) l -> Digits l (map digit_char l)) by (intros; split; auto).
  split; [unfold int64; lia|].
  exists (list_ascii_of_string "12"),
    [list_ascii_of_string "1.5"; list_ascii_of_string "-2"; list_ascii_of_string ".25"; list_ascii_of_string "0"; list_ascii_of_string "0"; list_ascii_of_string "0"; list_ascii_of_string "+1"], [].
  split; [|split; [|split; [constructor|reflexivity]]].
  - exists 1, [], [1; 2], (map digit_char [1; 2]). repeat split; try constructor; try lia; auto; repeat constructor; lia || discriminate.
  - assert (Z0 : Decimal (list_ascii_of_string "0") 0).
    { exists 1, [], [0], (map digit_char [0]). split; [constructor|]. split; [apply Dg; repeat constructor; lia|]. left. split; [discriminate|]. split; [reflexivity|]. unfold dval; simpl; lra. }
    simpl. repeat (constructor; [|]); auto.
    + exists 1, [], [1], (map digit_char [1]). split; [constructor|]. split; [apply Dg; repeat constructor; lia|].
      right. exists [5], (map digit_char [5]). split; [apply Dg; repeat constructor; lia|]. split; [discriminate|]. split; [reflexivity|]. unfold dval; simpl; lra.
    + exists (-1), ["-"%char], [2], (map digit_char [2]). split; [constructor|]. split; [apply Dg; repeat constructor; lia|].
      left. split; [discriminate|]. split; [reflexivity|]. unfold dval; simpl; lra. 
    + exists 1, [], [], []. split; [constructor|]. split; [apply (Dg []); constructor|].
      right. exists [2; 5], (map digit_char [2; 5]). split; [apply Dg; repeat constructor; lia|]. split; [discriminate|]. split; [reflexivity|]. unfold dval; simpl; lra.
    + exists 1, ["+"%char], [1], (map digit_char [1]). split; [constructor|]. split; [apply Dg; repeat constructor; lia|].
      left. split; [discriminate|]. split; [reflexivity|]. unfold dval; simpl; lra.
Qed.
Example pf_load : load_poses (Some (unlines false [pose_header; list_ascii_of_string "12,1.5,-2,.25,0,0,0,+1"])) = Ret [(12, tf I3 (V3 (3 / 2) (-2) (1 / 4)))].
Proof.
  destruct (proj1 C108_load_poses pose_header false [list_ascii_of_string "12,1.5,-2,.25,0,0,0,+1"] [(12, (V3 (3 / 2) (-2) (1 / 4), Q 1 0 0 0))]) as [H _].
  - split; [|vm_compute; discriminate]. vm_compute. intros C. repeat (destruct C as [C|C]; [discriminate|]). destruct C.
  - repeat constructor; apply pf_line.
  - rewrite H. unfold told. simpl. do 3 f_equal. unfold to_rot, I3. simpl. f_equal; f_equal; lra.
Qed.
Example pf_rigid : Forall (fun tp : Z * mat4 => int64 (fst tp) /\ Rigid (snd tp)) [(12, I4); (13, I4)].
Proof.
  assert (Rigid I4). { exists I3, (V3 0 0 0). split; [|reflexivity]. split; [unfold mmul, mtr, I3; simpl; f_equal; lra|unfold mdet, I3; simpl; lra]. }
  repeat constructor; simpl; auto; try lia.
Qed.
Print Assumptions C108_load_poses.
Print Assumptions C108_round_trip.
Print Assumptions C108_imu_swapped_refuted.
Print Assumptions C108_camera_poses.
