(** * C36: interp_poses and closest_poses *)
From Verif Require Import Base GeomModel LerpModel LerpSpec LerpProofs PosesModel.
From Coq Require Import Sorted Reals Lra Ascii.
Open Scope Z_scope.

(** ** Specification *)
(** Consecutive samples [a], [b] enclose the time [q], the second one by more than the threshold. *)
Definition bracket {P} (s : list (Z * P)) (thr q : Z) (a b : Z * P) : Prop :=
  neighbours s a b /\ fst a <= q /\ q + thr < fst b.
(** The pose [r] for time [q] is the interpolation of the enclosing samples. *)
Definition interpolates {P} (ip : P -> P -> R -> P) (s : list (Z * P)) (thr q : Z) (r : P) : Prop :=
  exists a b, bracket s thr q a b /\
    r = ip (snd a) (snd b) (IZR (q - fst a) / IZR (fst b - fst a))%R.
(** Each requested time comes after the interval used for the previous ones. *)
Definition separated {P} (s : list (Z * P)) (thr : Z) (qs : list Z) : Prop :=
  StronglySorted (fun q q' => forall a b, bracket s thr q a b -> fst b <= q') qs.
(** No sample is nearer to time [q] than [x]. *)
Definition nearest {P} (s : list (Z * P)) (q : Z) (x : Z * P) : Prop :=
  In x s /\ forall y, In y s -> Z.abs (fst x - q) <= Z.abs (fst y - q).

Section C36.
Context {P : Type} (ip : P -> P -> R -> P) (Id : P).

Lemma combine_nth_fst (ts : list Z) (ps : list P) x : In x (combine ts ps) -> In (fst x) ts.
Proof. destruct x. apply in_combine_l. Qed.

Lemma interp_loop_spec thr s : 0 < thr -> forall ts ps qs t0 p0 res pre,
  ascending (t0 :: ts) -> length ps = length ts -> qs <> [] ->
  s = pre ++ (t0, p0) :: combine ts ps ->
  (forall q, In q qs -> exists a b, neighbours ((t0, p0) :: combine ts ps) a b /\ fst a <= q /\ q + thr < fst b) ->
  separated s thr qs ->
  exists r, interp_loop ip thr qs t0 p0 ts ps res = Ret (res ++ r) /\ Forall2 (interpolates ip s thr) qs r.
Proof.
  intros T. induction ts as [|t ts IH]; intros ps qs t0 p0 res pre A L N S HB HS.
  - exfalso. destruct qs as [|q qs]; [congruence|].
    destruct (HB q (or_introl eq_refl)) as (a & b & (u & v & E) & _).
    destruct u as [|? [|? ?]]; simpl in E; discriminate.
  - destruct ps as [|p ps]; [discriminate|]. destruct qs as [|q qs]; [congruence|]. simpl.
    inversion A as [|? ? A1 A2]; subst. inversion A2 as [|? ? A3 A4]; subst.
    inversion HS as [|? ? HS1 HS2]; subst. rewrite Forall_forall in HS2.
    destruct (HB q (or_introl eq_refl)) as (a & b & (u & v & E) & H1 & H2).
    set (s := pre ++ (t0, p0) :: combine (t :: ts) (p :: ps)) in *.
    assert (S' : s = (pre ++ [(t0, p0)]) ++ (t, p) :: combine ts ps)
      by (unfold s; simpl; rewrite <- app_assoc; reflexivity).
    assert (Bq : bracket s thr q a b).
    { split; auto. exists (pre ++ u), v. unfold s. rewrite E, <- app_assoc. auto. }
    destruct u as [|w u].
    + simpl in E. inversion E; subst a b v; simpl in H1, H2. clear E.
      destruct (Z.ltb_spec (t - q) thr); [lia|]. destruct (Z.ltb_spec thr (t - q)); [|lia].
      assert (I : interpolates ip s thr q (ip p0 p (secs (q - t0) / secs (t - t0))%R)).
      { exists (t0, p0), (t, p). split; [|simpl; rewrite secs_ratio by lia; auto]. auto. }
      destruct qs as [|q' qs].
      * exists [ip p0 p (secs (q - t0) / secs (t - t0))%R]. split; auto.
      * destruct (IH ps (q' :: qs) t p (res ++ [ip p0 p (secs (q - t0) / secs (t - t0))%R])
                     (pre ++ [(t0, p0)])) as (r & R1 & R2); auto; [discriminate| |].
        -- intros x Hx. destruct (HB x (or_intror Hx)) as (a & b & (u & v & E) & G1 & G2).
           assert (t <= x) by (apply (HS2 x Hx _ _ Bq)).
           destruct u as [|w u]; simpl in E; inversion E; subst.
           ++ simpl in G1, G2. lia.
           ++ exists a, b. split; [exists u, v; auto|auto].
        -- exists (ip p0 p (secs (q - t0) / secs (t - t0))%R :: r). rewrite R1, <- app_assoc. split; auto.
    + simpl in E. inversion E as [[E0 E1]]. subst w.
      assert (Hta : t <= fst a).
      { destruct u as [|w u]; simpl in E1; inversion E1; subst; simpl; [lia|].
        assert (Hin : In a (combine ts ps)) by (rewrite H3; apply in_or_app; right; left; auto).
        apply combine_nth_fst in Hin. inversion A1 as [|? ? ? G]; subst.
        rewrite Forall_forall in G. apply G in Hin. lia. }
      destruct (Z.ltb_spec (t - q) thr); [|lia].
      destruct (IH ps (q :: qs) t p res (pre ++ [(t0, p0)])) as (r & R1 & R2); auto.
      2:{ exists r. split; auto. }
      intros x Hx.
      assert (Hxt : t <= x).
      { destruct Hx as [ <- |Hx]; [lia|]. generalize (HS2 x Hx _ _ Bq). lia. }
      destruct (HB x Hx) as (a' & b' & (u' & v' & E') & G1 & G2).
      destruct u' as [|w' u']; simpl in E'; inversion E'; subst.
      * simpl in G1, G2. lia.
      * exists a', b'. split; [exists u', v'; auto|auto].
Qed.

(** C36, interp_poses: if the samples are ascending, every requested time is
    enclosed by two consecutive samples (the later one more than the threshold
    after it) and no two requested times share an interval, the call returns
    one pose per requested time: the interpolation of the enclosing samples.
    Missing: requested times sharing an interval or closely followed by a
    sample (refuted below). *)
Theorem C36_interp_poses_partial : forall thr ts (ps : list P) qs,
  0 < thr -> ascending ts -> length ps = length ts -> qs <> [] ->
  (forall q, In q qs -> exists a b, bracket (combine ts ps) thr q a b) ->
  separated (combine ts ps) thr qs ->
  exists r, interp_poses ip Id ts ps qs thr = Ret r /\
    Forall2 (interpolates ip (combine ts ps) thr) qs r.
Proof.
  intros thr ts ps qs T A L N HB HS. unfold interp_poses.
  destruct qs as [|q qs]; [congruence|].
  destruct (HB q (or_introl eq_refl)) as (a0 & b0 & (u0 & v0 & E0) & H1 & H2).
  destruct ts as [|t ts]; [destruct u0; discriminate|].
  destruct ps as [|p ps]; [discriminate|]. simpl.
  assert (Ht : t - q < thr).
  { assert (t <= fst a0); [|lia].
    assert (Hin : In a0 (combine (t :: ts) (p :: ps))) by (rewrite E0; apply in_or_app; right; left; auto).
    apply combine_nth_fst in Hin. destruct Hin as [ <- |Hin]; [lia|].
    inversion A as [|? ? ? G]; subst. rewrite Forall_forall in G. apply G in Hin. lia. }
  destruct (Z.ltb_spec (t - q) thr); [|lia].
  apply (interp_loop_spec thr (combine (t :: ts) (p :: ps)) T ts ps (q :: qs) t p [] []); auto.
Qed.

(** Two requested times between the same samples (0, 10, 20 ms): the second one
    is extrapolated from the next interval with a negative parameter. *)
Theorem C36_shared_interval_refuted : forall p0 p1 p2, exists a,
  interp_poses ip Id [0; 10000000; 20000000] [p0; p1; p2] [2000000; 5000000] 1000000
    = Ret [ip p0 p1 (2/10); ip p1 p2 a] /\ (a < 0)%R.
Proof.
  intros. exists (secs (5000000 - 10000000) / secs (20000000 - 10000000))%R. split.
  - unfold interp_poses; simpl. do 2 f_equal. f_equal. unfold secs. simpl. lra.
  - unfold secs. simpl. lra.
Qed.
(** A sample less than a millisecond after the requested time becomes the start
    point: the pose is extrapolated backwards from the following interval. *)
Theorem C36_late_start_refuted : forall p0 p1 p2, exists a,
  interp_poses ip Id [0; 10000000; 20000000] [p0; p1; p2] [9500000] 1000000
    = Ret [ip p1 p2 a] /\ (a < 0)%R.
Proof.
  intros. exists (secs (9500000 - 10000000) / secs (20000000 - 10000000))%R. split.
  - reflexivity.
  - unfold secs. simpl. lra.
Qed.

(** ** closest_poses *)
(** C36: whenever closest_poses returns normally, it returned fewer poses than
    were requested; as soon as the last requested time is served it reads one
    element past the end of the target array. *)
Lemma closest_loop_short : forall ts (ps : list P) tgs dc pc res r,
  tgs <> [] -> closest_loop tgs dc pc ts ps res = Ret r -> (length r < length res + length tgs)%nat.
Proof.
  induction ts as [|t ts IH]; intros ps tgs dc pc res r N; simpl.
  - intros E; inversion E; subst. destruct tgs; [congruence|simpl; lia].
  - destruct ps as [|p ps]; [discriminate|]. destruct tgs as [|tg tgs]; [congruence|].
    destruct (_ <? dc). { apply IH; auto. }
    destruct (dc <? _).
    + destruct tgs as [|tg' tgs]; [discriminate|]. intros E. apply IH in E; [|discriminate].
      rewrite app_length in E. simpl in *. lia.
    + apply IH; auto.
Qed.
Theorem C36_closest_never_complete_refuted : forall ts (ps : list P) tgs r,
  closest_poses ts ps tgs = Ret r -> (length r < length tgs)%nat.
Proof.
  intros ts ps tgs r. unfold closest_poses.
  destruct ts; [discriminate|]. destruct ps; [discriminate|]. destruct tgs as [|tg tgs]; [discriminate|].
  intros E. apply closest_loop_short in E; [|discriminate]. exact E.
Qed.
Theorem C36_closest_out_of_bounds_refuted : forall p0 p1 p2 : P,
  closest_poses [0; 10; 20] [p0; p1; p2] [11] = Undef.
Proof. reflexivity. Qed.

(** The results that are returned: nearest poses, if requested times are at
    least as far apart as consecutive samples. *)
Definition gap_at_most (G : Z) (ts : list Z) : Prop := forall a b, neighbours ts a b -> b - a <= G.
Definition gap_at_least (G : Z) (ts : list Z) : Prop := forall a b, neighbours ts a b -> G <= b - a.

Lemma neigh_app {A} (u v : list A) a b : neighbours v a b -> neighbours (u ++ v) a b.
Proof. intros (p & q & ->). exists (u ++ p), q. now rewrite app_assoc. Qed.

Lemma closest_loop_spec G (s : list (Z * P)) : forall ts ps tgs dc pc res r done p lastp,
  closest_loop tgs dc pc ts ps res = Ret r ->
  length ps = length ts -> length done = length lastp ->
  s = combine done lastp ++ combine ts ps ->
  done <> [] -> ascending (done ++ ts) -> gap_at_most G (done ++ ts) -> gap_at_least G tgs ->
  tgs <> [] -> hd 0 done <= hd 0 tgs -> p = last done 0 ->
  (forall x, In x done -> Z.abs (p - hd 0 tgs) <= Z.abs (x - hd 0 tgs)) ->
  dc = Z.abs (p - hd 0 tgs) -> (exists tc, In (tc, pc) s /\ Z.abs (tc - hd 0 tgs) = dc) -> 0 <= G ->
  exists r', r = res ++ r' /\
   forall k q x, nth_error tgs k = Some q -> nth_error r' k = Some x -> exists t, nearest s q (t, x).
Proof.
  induction ts as [|t ts IH]; intros ps tgs dc pc res r done p lastp E L Ld S Nd A Gs Gt Nt Hh Ep Hn Edc Hc HG;
    simpl in E.
  - inversion E; subst. exists []. rewrite app_nil_r. split; auto.
    intros k q x _ H. destruct k; discriminate.
  - destruct ps as [|pt ps]; [discriminate|]. destruct tgs as [|tg tgs]; [congruence|].
    simpl in Hh, Hn, Edc, Hc.
    assert (D' : done ++ t :: ts = (done ++ [t]) ++ ts) by (rewrite <- app_assoc; auto).
    assert (S' : s = combine (done ++ [t]) (lastp ++ [pt]) ++ combine ts ps).
    { rewrite S, combine_app by auto. rewrite <- app_assoc. reflexivity. }
    assert (Hp : In p done).
    { rewrite Ep, (app_removelast_last 0 Nd), last_last. apply in_or_app; right; left; auto. }
    assert (Pt : p < t).
    { clear - A Hp. revert A Hp. induction done as [|x l IHl]; simpl; intros A Hp; [destruct Hp|].
      inversion A as [|? ? A1 A2]; subst. destruct Hp as [ <- |Hp]; auto.
      rewrite Forall_forall in A2. apply A2. apply in_or_app. right; left; auto. }
    assert (Hpt : In (t, pt) s) by (rewrite S; apply in_or_app; right; left; auto).
    assert (Hhd : hd 0 (done ++ [t]) = hd 0 done) by (destruct done; [congruence|auto]).
    destruct (Z.ltb_spec (Z.abs (t - tg)) dc) as [H|H].
    { eapply (IH ps (tg :: tgs)) with (done := done ++ [t]) (p := t) (lastp := lastp ++ [pt]); eauto.
      - rewrite !app_length. simpl. lia.
      - destruct done; discriminate.
      - now rewrite <- D'.
      - now rewrite <- D'.
      - rewrite Hhd. auto.
      - now rewrite last_last.
      - intros x Hx. simpl. apply in_app_or in Hx as [Hx|[ <- |[]]]; [|lia].
        specialize (Hn x Hx). lia. }
    destruct (Z.ltb_spec dc (Z.abs (t - tg))) as [H'|H'].
    2:{ eapply (IH ps (tg :: tgs)) with (done := done ++ [t]) (p := t) (lastp := lastp ++ [pt]); eauto.
      - rewrite !app_length. simpl. lia.
      - destruct done; discriminate.
      - now rewrite <- D'.
      - now rewrite <- D'.
      - rewrite Hhd. auto.
      - now rewrite last_last.
      - intros x Hx. simpl. apply in_app_or in Hx as [Hx|[ <- |[]]]; [|lia].
        specialize (Hn x Hx). lia.
      - simpl. lia. }
    destruct tgs as [|tg' tgs]; [discriminate|].
    assert (Ttg : tg < t) by lia.
    assert (HGt : G <= tg' - tg) by (apply Gt; exists [], tgs; auto).
    assert (HGp : t - p <= G).
    { apply Gs. exists (removelast done), ts. rewrite Ep, D'.
      rewrite (app_removelast_last 0 Nd) at 1. rewrite <- !app_assoc. reflexivity. }
    assert (Hafter : forall x, In x ts -> t < x).
    { intros x Hx. assert (A' : ascending (t :: ts)).
      { clear - A. induction done; simpl in *; auto. inversion A; auto. }
      inversion A' as [|? ? ? F]; subst. rewrite Forall_forall in F. auto. }
    assert (Hdone : forall x, In x done -> x <= p).
    { intros x Hx. rewrite Ep. apply asc_last_max; auto. eapply proj1, asc_app, A. }
    (* the last processed sample is at most G/2 after the target *)
    assert (HP2 : 2 * (p - tg) <= G).
    { destruct (Z_le_gt_dec p tg); [lia|].
      assert (exists q, In q done /\ neighbours (done ++ t :: ts) q p /\ (forall x, In x done -> x = p \/ x <= q)).
      { assert (E2 := app_removelast_last 0 Nd). rewrite <- Ep in E2.
        destruct (removelast done) as [|z l] eqn:El.
        - exfalso. rewrite E2 in Hh. simpl in Hh. lia.
        - assert (NN : z :: l <> []) by discriminate.
          assert (E3 := app_removelast_last 0 NN).
          exists (last (z :: l) 0). split; [|split].
          + rewrite E2. apply in_or_app. left. rewrite E3 at 2. apply in_or_app; right; left; auto.
          + exists (removelast (z :: l)), (t :: ts). rewrite E2, E3 at 1. rewrite <- !app_assoc. auto.
          + intros x Hx. rewrite E2 in Hx. apply in_app_or in Hx as [Hx|[ <- |[]]]; auto.
            right. apply asc_last_max; auto.
            rewrite E2 in A. eapply proj1, asc_app, (proj1 (asc_app _ _ A)). }
      destruct H0 as (q & Hq & Hqn & Hqm).
      assert (p - q <= G) by (apply Gs; auto).
      specialize (Hn q Hq). 
      assert (q < p).
      { clear - A Hqn. destruct Hqn as (u & v & Eu). rewrite Eu in A.
        apply asc_app in A as [_ A]. inversion A as [|? ? ? F]; subst. inversion F; auto. }
      lia. }
    destruct (IH ps (tg' :: tgs) (Z.abs (t - tg')) pt (res ++ [pc]) r (done ++ [t]) t (lastp ++ [pt]))
      as (r' & R1 & R2); auto.
    + rewrite !app_length. simpl. lia.
    + destruct done; discriminate.
    + now rewrite <- D'.
    + now rewrite <- D'.
    + intros a b Nab. apply Gt. now apply neigh_tail.
    + discriminate.
    + rewrite Hhd. simpl. lia.
    + now rewrite last_last.
    + intros x Hx. simpl. apply in_app_or in Hx as [Hx|[ <- |[]]]; [|lia].
      specialize (Hdone x Hx). lia.
    + exists t. auto.
    + exists (pc :: r'). split; [now rewrite R1, <- app_assoc|].
      intros k q x Hq Hx. destruct k as [|k].
      * simpl in Hq, Hx. inversion Hq; inversion Hx; subst q x.
        destruct Hc as (tc & Hc1 & Hc2). exists tc. split; auto. intros y Hy. simpl. rewrite Hc2.
        rewrite S in Hy. apply in_app_or in Hy as [Hy|Hy].
        -- apply combine_nth_fst in Hy. rewrite Edc. auto.
        -- apply combine_nth_fst in Hy. destruct Hy as [Hy|Hy]; [rewrite <- Hy; lia|].
           apply Hafter in Hy. lia.
      * simpl in Hq, Hx. apply (R2 k q x Hq Hx).
Qed.

(** C36, closest_poses, what holds of the poses returned before the last one. *)
Theorem C36_closest_poses_partial : forall G ts (ps : list P) tgs r,
  ascending ts -> length ps = length ts -> 0 <= G ->
  gap_at_most G ts -> gap_at_least G tgs -> hd 0 ts <= hd 0 tgs ->
  closest_poses ts ps tgs = Ret r ->
  forall k q x, nth_error tgs k = Some q -> nth_error r k = Some x ->
    exists t, nearest (combine ts ps) q (t, x).
Proof.
  intros G ts ps tgs r A L HG Gs Gt Hh E. unfold closest_poses in E.
  destruct ts as [|t ts]; [discriminate|]. destruct ps as [|p ps]; [discriminate|].
  destruct tgs as [|tg tgs]; [discriminate|].
  destruct (closest_loop_spec G (combine (t :: ts) (p :: ps)) ts ps (tg :: tgs) (Z.abs (t - tg)) p [] r [t] t [p])
    as (r' & R1 & R2); auto; try discriminate.
  - intros x [ <- |[]]. lia.
  - exists t. split; auto. left; auto.
  - simpl in R1. subst r'. auto.
Qed.

(** Requested times closer together than the samples: for 11 the pose at 20 is
    returned although the sample at 10 is nearer. *)
Theorem C36_closest_wrong_refuted : forall p0 p1 p2 p3 : P,
  closest_poses [0; 10; 20; 30] [p0; p1; p2; p3] [9; 11; 40] = Ret [p1; p2].
Proof. reflexivity. Qed.
End C36.

(** Hypotheses are satisfiable. *)
Example C36_interp_example :
  let s := combine [0; 10000000; 20000000] ["a"; "b"; "c"]%char in
  bracket s 1000000 5000000 (0, "a"%char) (10000000, "b"%char) /\
  bracket s 1000000 12000000 (10000000, "b"%char) (20000000, "c"%char) /\
  separated s 1000000 [5000000; 12000000].
Proof.
  cbv zeta. split; [|split].
  - split; [exists [], [(20000000, "c"%char)]; reflexivity|simpl; lia].
  - split; [exists [(0, "a"%char)], []; reflexivity|simpl; lia].
  - constructor; [constructor; [constructor|constructor]|]. constructor; [|constructor].
    intros a b ((u & v & E) & H1 & H2). destruct u as [|? [|? u]]; simpl in E; inversion E; subst; simpl in *; try lia.
    destruct u as [|? [|? ?]]; discriminate.
Qed.
Example C36_closest_example : closest_poses [0; 10; 20; 30; 40] [0; 1; 2; 3; 4] [9; 22; 50] = Ret [1; 2].
Proof. reflexivity. Qed.
Print Assumptions C36_interp_poses_partial.
Print Assumptions C36_closest_poses_partial.
