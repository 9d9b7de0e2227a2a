(** * C106: which frames the next-best-view calibration looks at, and in which order *)
From Coq Require Import List ZArith Reals Lra Lia Sorted.
From Verif Require Import Base GeomModel GeomSpec GeomProofs MotionModel MotionSpec MotionProofs.
Import ListNotations.
Local Open Scope Z_scope.

(** Whatever the data: if some frame has a pose, the candidates are exactly the frames with a pose other than the first and the
    last of them, each once, in the order of their keys; of several candidates with the same key only the latest is kept. The
    key counts the detections of the frame whose position in calib_data (not among the frames with a pose) is that of the
    candidate. *)
Theorem C106_candidates : forall camera ext fs es, known camera ext fs -> ordered fs -> locates ext fs es -> es <> [] ->
  exists m, calculate_motion camera ext fs = Ret m /\ StronglySorted (fun a b => before (fst a) (fst b)) m /\ NoDup (map snd m) /\
    forall x ts, In (x, ts) m <-> exists k, (1 <= k)%nat /\ (k + 1 < length es)%nat /\ entry fs es k x ts /\
      forall j ts', (k < j)%nat -> (j + 1 < length es)%nat -> ~ entry fs es j x ts'.
Proof.
  intros camera ext fs es K O L Hn. set (tags := map (fun f => total (snd f)) fs).
  assert (Hl : (length es <= length tags)%nat) by (unfold tags; rewrite map_length; exact (locates_length _ _ _ L)).
  destruct (entries es tags Hl Hn) as (ens & E & El). pose proof (puts_ok ens) as [P1 P2].
  exists (puts ens). split; [|split; [exact P1|]].
  - unfold calculate_motion. rewrite (collect_ok camera ext fs es K L). cbn [obind]. destruct es as [|e es]; [congruence|]. exact (loop_puts (e :: es) tags _ ens [] E).
  - assert (C : forall x ts, In (x, ts) (puts ens) <-> exists k, (1 <= k)%nat /\ (k + 1 < length es)%nat /\ entry fs es k x ts /\
      forall j ts', (k < j)%nat -> (j + 1 < length es)%nat -> ~ entry fs es j x ts').
    { intros x ts. rewrite P2. split.
      - intros (i & Ei & H). apply (ens_nth fs es ens i x ts E) in Ei as [Hi Ee]. exists (S i). split; [lia|]. split; [lia|]. split; [exact Ee|]. intros j ts' Hj Hj2 X.
        apply (H (j - 1)%nat ts'); [lia|]. apply (ens_nth fs es ens _ x ts' E). split; [lia|]. replace (S (j - 1)) with j by lia. exact X.
      - intros (k & H1 & H2 & Ee & H). exists (k - 1)%nat. split; [apply (ens_nth fs es ens _ x ts E); split; [lia|]; replace (S (k - 1)) with k by lia; exact Ee|].
        intros j t' Hj X. apply (ens_nth fs es ens j x t' E) in X as [X1 X2]. apply (H (S j) t'); [lia|lia|exact X2]. }
    split; [|exact C].
    (* one time, one position *)
    assert (D : forall x y ts, In (x, ts) (puts ens) -> In (y, ts) (puts ens) -> x = y).
    { intros x y ts Hx Hy. apply C in Hx as (k & A1 & A2 & (f & t0 & T0 & T & B1 & B2 & B3 & ->) & _). apply C in Hy as (k' & A1' & A2' & (f' & t0' & T0' & T' & B1' & B2' & B3' & ->) & _).
      pose proof (locates_ordered ext fs es L O) as S1.
      assert (G : forall l, StronglySorted (fun a b : Z * mat4 => fst a < fst b) l -> forall i j a b, (i < j)%nat -> nth_error l i = Some a -> nth_error l j = Some b -> fst a < fst b).
      { clear. induction 1 as [|a l H IH HF]; intros i j x y Hij Hx Hy; [destruct i; discriminate Hx|]. destruct j as [|j]; [lia|]. destruct i as [|i]; cbn in Hx, Hy.
        - injection Hx as <-. rewrite Forall_forall in HF. apply HF. eapply nth_error_In, Hy.
        - eapply IH; [|exact Hx|exact Hy]. lia. }
      destruct (lt_eq_lt_dec k k') as [[H|H]|H].
      - pose proof (G es S1 k k' _ _ H B3 B3') as X. cbn in X. lia.
      - subst k'. congruence.
      - pose proof (G es S1 k' k _ _ H B3' B3) as X. cbn in X. lia. }
    clear C P2. generalize dependent D. induction P1 as [|[x ts] m H IH HF]; intros D; cbn [map]; [constructor|]. constructor.
    + intros Hin. apply in_map_iff in Hin as ([y ts'] & Et & Hin). cbn in Et. subst ts'. rewrite Forall_forall in HF. pose proof (HF _ Hin) as X. cbn in X.
      rewrite (D x y ts) in X; [exact (before_irrefl _ X)|left; reflexivity|right; exact Hin].
    + apply IH. intros a b ts' Ha Hb. apply (D a b ts'); right; assumption.
Qed.
(** The timestamps _solve_nbv goes through (before shuffling): those of the candidates with a detection, in that order. *)
Theorem C106_stamps : forall camera ext fs m, calculate_motion camera ext fs = Ret m -> nbv_stamps camera ext fs =
  match filter (detected_at fs) (map snd m) with [] => Throw Fatal | l => Ret l end.
Proof. intros camera ext fs m E. unfold nbv_stamps. rewrite E. reflexivity. Qed.
(** [detected_at] is what it says *)
Theorem C106_detected : forall fs ts l, ordered fs -> In (ts, l) fs -> detected_at fs ts = true <-> exists s, In s l /\ sn_detected s = true.
Proof.
  intros fs ts l O H. assert (G : detected_at fs ts = existsb sn_detected l).
  { induction fs as [|[t l'] fs IH]; [destruct H|]. destruct (ordered_tl _ _ O) as [O1 O2]. cbn [detected_at]. destruct H as [H|H].
    - injection H as -> ->. rewrite Z.eqb_refl. reflexivity.
    - pose proof (O2 _ H) as X. cbn in X. destruct (Z.eqb_spec t ts); [lia|]. apply IH; assumption. }
  rewrite G, existsb_exists. firstorder.
Qed.

(** ** what the key measures *)
Lemma trace_rodrigues u t : vdot u u = 1%R -> (m00 (rodrigues u t) + m11 (rodrigues u t) + m22 (rodrigues u t) = 1 + 2 * cos t)%R.
Proof.
  destruct u as [x y z]. unfold vdot, rodrigues, madd, mscale, mmul, skew, I3. cbn. intros H.
  replace (_ + _ + _)%R with (3 - 2 * (1 - cos t) * (x * x + y * y + z * z))%R by ring. rewrite H. ring.
Qed.
(** A camera that has moved by [d] and turned by the angle [a] about any axis: the turn is [a], the displacement the length of [d]. *)
Theorem C106_motion : forall C0 r0 u a d, IsRot C0 -> vdot u u = 1%R -> (0 <= a <= PI)%R ->
  motion_w (tf C0 r0) (tf (mmul (rodrigues u a) C0) (vadd r0 d)) = a /\ motion_v (tf C0 r0) (tf (mmul (rodrigues u a) C0) (vadd r0 d)) = vnorm d.
Proof.
  intros C0 r0 u a d [HC HD] Hu Ha. split.
  - unfold motion_w. replace (tf_rot (tf (mmul (rodrigues u a) C0) (vadd r0 d))) with (mmul (rodrigues u a) C0) by (destruct C0; unfold rodrigues; reflexivity).
    replace (tf_rot (tf C0 r0)) with C0 by (destruct C0; reflexivity). rewrite mmul_assoc.
    assert (HT : mmul C0 (mtr C0) = I3) by (apply orth_right; assumption). rewrite HT, mmul_I_r. rewrite trace_rodrigues by exact Hu.
    replace ((1 + 2 * cos a - 1) / 2)%R with (cos a) by field. apply acos_cos. exact Ha.
  - unfold motion_v, vnorm. destruct r0, d. unfold vadd, vsub, tf_trans, vdot. cbn. f_equal. ring.
Qed.

(** ** what goes wrong *)
(** no frame with a pose: the loop bound wraps around *)
Theorem C106_no_pose_refuted : forall camera ext fs, known camera ext fs -> (forall f, In f fs -> not_located f) -> nbv_stamps camera ext fs = Undef.
Proof.
  intros camera ext fs K H. assert (L : locates ext fs []). { clear K. induction fs as [|f fs IH]; constructor; [apply H; left; reflexivity|apply IH; intros g Hg; apply H; right; exact Hg]. }
  unfold nbv_stamps, calculate_motion. rewrite (collect_ok camera ext fs [] K L). reflexivity.
Qed.
(** one or two: the program ends although there are views *)
Theorem C106_few_refuted : forall camera ext fs es, known camera ext fs -> ordered fs -> locates ext fs es -> es <> [] -> (length es <= 2)%nat -> nbv_stamps camera ext fs = Throw Fatal.
Proof.
  intros camera ext fs es K O L Hn Hl. destruct (C106_candidates camera ext fs es K O L Hn) as (m & E & _ & _ & C). rewrite (C106_stamps _ _ _ _ E).
  destruct m as [|[x ts] m]; [reflexivity|]. exfalso. destruct (proj1 (C x ts)) as (k & H1 & H2 & _); [left; reflexivity|lia].
Qed.
(** the first and the last frame with a pose are never used *)
Theorem C106_ends_refuted : forall camera ext fs es l ts T, known camera ext fs -> ordered fs -> locates ext fs es -> nbv_stamps camera ext fs = Ret l ->
  nth_error es 0 = Some (ts, T) \/ nth_error es (length es - 1) = Some (ts, T) -> ~ In ts l.
Proof.
  intros camera ext fs es l ts T K O L E H Hin. assert (Hn : es <> []) by (intros ->; destruct H as [H|H]; discriminate H).
  destruct (C106_candidates camera ext fs es K O L Hn) as (m & Em & _ & _ & C). rewrite (C106_stamps _ _ _ _ Em) in E.
  assert (Hm : In ts (map snd m)). { destruct (filter (detected_at fs) (map snd m)) as [|a l'] eqn:Ef; [discriminate E|]. injection E as <-. rewrite <- Ef in Hin. apply filter_In in Hin as [Hin _]. exact Hin. }
  apply in_map_iff in Hm as ([x ts'] & Et & Hm). cbn in Et. subst ts'. apply C in Hm as (k & H1 & H2 & (f & t0 & T0 & T1 & _ & _ & B & _) & _).
  pose proof (locates_ordered ext fs es L O) as S1.
  assert (G : forall l, StronglySorted (fun a b : Z * mat4 => fst a < fst b) l -> forall i j a b, (i < j)%nat -> nth_error l i = Some a -> nth_error l j = Some b -> fst a < fst b).
  { clear. induction 1 as [|a l H IH HF]; intros i j x y Hij Hx Hy; [destruct i; discriminate Hx|]. destruct j as [|j]; [lia|]. destruct i as [|i]; cbn in Hx, Hy.
    - injection Hx as <-. rewrite Forall_forall in HF. apply HF. eapply nth_error_In, Hy.
    - eapply IH; [|exact Hx|exact Hy]. lia. }
  destruct H as [H|H].
  - pose proof (G es S1 0%nat k _ _ ltac:(lia) H B) as X. cbn in X. lia.
  - pose proof (G es S1 k (length es - 1)%nat _ _ ltac:(lia) B H) as X. cbn in X. lia.
Qed.
(** a camera that stands still and detects the same number of corners in every frame: however many frames, one candidate *)
Theorem C106_static_refuted : forall camera ext fs es T n, known camera ext fs -> ordered fs -> locates ext fs es -> (3 <= length es)%nat ->
  (forall e, In e es -> snd e = T) -> (forall f, In f fs -> total (snd f) = n) ->
  exists x ts, calculate_motion camera ext fs = Ret [(x, ts)] /\ nth_error es (length es - 2) = Some (ts, T).
Proof.
  intros camera ext fs es T n K O L Hl HT Hf. assert (Hn : es <> []) by (intros ->; cbn in Hl; lia).
  destruct (C106_candidates camera ext fs es K O L Hn) as (m & E & S1 & _ & C). set (x0 := (- n, motion_w T T, motion_v T T) : key).
  assert (Hx : forall x ts, In (x, ts) m -> x = x0).
  { intros x ts H. apply C in H as (k & _ & _ & (f & t0 & T0 & T1 & B1 & B2 & B3 & ->) & _). apply nth_error_In in B1, B2, B3. apply HT in B2, B3. cbn in B2, B3. subst. rewrite (Hf f B1). reflexivity. }
  destruct (nth_error es (length es - 2)) as [[ts T1]|] eqn:E1; [|apply nth_error_None in E1; lia].
  assert (T1 = T) by (apply nth_error_In in E1; apply HT in E1; exact E1). subst T1.
  assert (Hin : In (x0, ts) m).
  { apply C. exists (length es - 2)%nat. split; [lia|]. split; [lia|]. split; [|intros j ts' H1 H2; lia].
    pose proof (locates_length _ _ _ L) as Hle. destruct (nth_error fs (length es - 2)) as [f|] eqn:E2; [|apply nth_error_None in E2; lia].
    destruct (nth_error es (length es - 2 - 1)) as [[t0 T0]|] eqn:E3; [|apply nth_error_None in E3; lia].
    assert (T0 = T) by (apply nth_error_In in E3; apply HT in E3; exact E3). subst T0. exists f, t0, T, T. rewrite (Hf f) by (eapply nth_error_In, E2). auto. }
  exists x0, ts. split; [|reflexivity]. rewrite E. f_equal. destruct m as [|[x t] m]; [destruct Hin|]. destruct m as [|[y t'] m].
  - destruct Hin as [Hin|[]]. rewrite Hin. reflexivity.
  - exfalso. inversion S1 as [|? ? _ HF]; subst. inversion HF as [|? ? HB _]; subst. cbn in HB. rewrite (Hx x t), (Hx y t') in HB; [exact (before_irrefl _ HB)|right; left; reflexivity|left; reflexivity].
Qed.

(** ** concrete data *)
Definition ex_f (ts n : Z) (T : option mat4) : frame := (ts, [mkSeen 0 n (0 <? n) T]).
Definition ex_camera (c : Z) : bool := true.
Definition ex_ext (c : Z) : option mat4 := Some I4.
Definition ex_T (x : R) : mat4 := tf I3 (V3 x 0 0).
(** the camera is not found in the first frame: frame 2 with 5 detections is preferred to frame 3 with 50 *)
Definition ex_fs : list frame := [ex_f 0 0 None; ex_f 1 60 (Some (ex_T 0)); ex_f 2 5 (Some (ex_T 1)); ex_f 3 50 (Some (ex_T 2)); ex_f 4 70 (Some (ex_T 3))].
Definition ex_es : list (Z * mat4) := map (fun p => (fst p, mmul4 I4 (ex_T (snd p)))) [(1, 0%R); (2, 1%R); (3, 2%R); (4, 3%R)].
Lemma ex_located ts n x : located ex_ext (ex_f ts n (Some (ex_T x))) (mmul4 I4 (ex_T x)).
Proof. exists [], (mkSeen 0 n (0 <? n) (Some (ex_T x))), [], (ex_T x), I4. repeat split; auto. intros y []. Qed.
Theorem C106_tags_refuted : known ex_camera ex_ext ex_fs /\ ordered ex_fs /\ locates ex_ext ex_fs ex_es /\ nbv_stamps ex_camera ex_ext ex_fs = Ret [2; 3] /\
  In (ex_f 2 5 (Some (ex_T 1))) ex_fs /\ In (ex_f 3 50 (Some (ex_T 2))) ex_fs.
Proof.
  split. { intros f s _ _. split; [reflexivity|discriminate]. }
  split. { intros i j f g Hij Hf Hg. do 5 (destruct i as [|i]; [injection Hf as <-; do 5 (destruct j as [|j]; [first [lia|injection Hg as <-; cbn; lia]|]); destruct j; discriminate Hg|]). destruct i; discriminate Hf. }
  split. { unfold ex_fs, ex_es. cbn [map fst snd]. apply L_none; [intros x [<-|[]]; reflexivity|]. do 4 (match goal with |- locates _ (ex_f ?t ?n (Some (ex_T ?x)) :: _) _ => apply (L_pose ex_ext (ex_f t n (Some (ex_T x)))); [apply ex_located|] end). constructor. }
  split. { reflexivity. }
  split; [do 2 right; left; reflexivity|do 3 right; left; reflexivity].
Qed.
