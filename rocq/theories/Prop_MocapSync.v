(** * C93: synchronisation of motion-capture poses with camera frames *)
From Verif Require Import Base GeomModel GeomSpec Prop_Geom InterpModel Prop_Interp MocapSyncModel.
From Coq Require Import Reals Lra Sorted.
Local Open Scope Z_scope.

(** ** Specification *)
Section S.
Context {P A : Type}.
(** the body was at [p] at time [t]: one of the recorded samples, with the time offset applied *)
Definition sample (off : Z) (bts : list Z) (ps : list P) (t : Z) (p : P) : Prop := In (t - off, p) (List.combine bts ps).
(** [a] is the interpolation at [g] between two samples around it; no other sample lies between these two, except one at
    [g] itself *)
Definition between (lerp : Z -> P -> Z -> P -> Z -> A) (off : Z) (bts : list Z) (ps : list P) (g : Z) (a : A) : Prop :=
  exists t0 p0 t1 p1, sample off bts ps t0 p0 /\ sample off bts ps t1 p1 /\ t0 <= g < t1 /\
    (forall t p, sample off bts ps t p -> t0 < t < t1 -> t = g) /\ a = lerp t0 p0 t1 p1 g.
(** between two consecutive frames the body was sampled (after the first, not after the second) *)
Definition sampled_between (off : Z) (bts : list Z) (gts : list Z) : Prop :=
  forall l g g' r, gts = l ++ g :: g' :: r -> exists b, In b bts /\ g < b + off <= g'.
End S.

(** ** Lemmas *)
Section L.
Context {P A : Type} (lerp : Z -> P -> Z -> P -> Z -> A).
Lemma sorted_app_lt (l : list Z) x r : StronglySorted Z.lt (l ++ x :: r) -> (forall y, In y l -> y < x) /\ (forall y, In y r -> x < y) /\ StronglySorted Z.lt r.
Proof.
  induction l as [|a l IH]; cbn [app]; intros H.
  - apply StronglySorted_inv in H as (H1 & H2). rewrite Forall_forall in H2. split; [intros y []|auto].
  - apply StronglySorted_inv in H as (H1 & H2). destruct (IH H1) as (A1 & A2 & A3). rewrite Forall_forall in H2. split; auto.
    intros y [ <- |Hy]; auto. apply H2, in_elt.
Qed.
Lemma combine_in (done bts : list Z) (dp ps : list P) : length dp = length done -> List.combine (done ++ bts) (dp ++ ps) = List.combine done dp ++ List.combine bts ps.
Proof. revert dp. induction done as [|x done IH]; intros [|y dp]; cbn; intros H; try discriminate; auto. f_equal. apply IH. lia. Qed.
(** the loop: samples [done] consumed, the last one that was stored at (t0, p0) *)
Lemma loop_ok off : forall (bts done : list Z) (ps dp : list P) gts t0 p0,
  StronglySorted Z.lt (done ++ bts) -> length ps = length bts -> length dp = length done -> StronglySorted Z.lt gts ->
  sample off done dp t0 p0 -> (forall g, In g gts -> t0 <= g) ->
  (forall t p, sample off done dp t p -> t0 < t -> match gts with g :: _ => t = g | [] => True end) ->
  sampled_between off (done ++ bts) gts -> (forall g, In g gts -> exists b, In b bts /\ g < b + off) ->
  exists l, lerp_loop lerp off bts ps gts t0 p0 = Ret l /\ Forall2 (between lerp off (done ++ bts) (dp ++ ps)) gts l.
Proof.
  induction bts as [|b bts IH]; intros done ps dp gts t0 p0 Sb Lp Ld Sg H0 Hg Hs Hb He.
  - destruct gts as [|g gts]; [|destruct (He g) as (b & [] & _); left; auto]. exists []. split; [reflexivity|constructor].
  - destruct ps as [|p ps]; [discriminate|]. cbn [lerp_loop]. destruct gts as [|g gts]; [exists []; split; [reflexivity|constructor]|].
    assert (Ha : forall X (x : X) (u v : list X), u ++ x :: v = (u ++ [x]) ++ v) by (intros; rewrite <- app_assoc; reflexivity).
    assert (Sb' := Sb). rewrite Ha in Sb'.
    assert (Hb' := Hb). rewrite Ha in Hb'.
    assert (Ld' : length (dp ++ [p]) = length (done ++ [b])) by (rewrite !app_length; cbn; lia).
    assert (Sd : forall t q, sample off (done ++ [b]) (dp ++ [p]) t q <-> sample off done dp t q \/ (t = b + off /\ q = p)).
    { intros t q. unfold sample. rewrite combine_in by auto. rewrite in_app_iff. cbn [List.combine In]. split.
      - intros [H|[H|[]]]; auto. injection H as H1 H2. right. split; [lia|auto].
      - intros [H|(H1 & H2)]; auto. right. left. f_equal; [lia|auto]. }
    destruct (sorted_app_lt _ _ _ Sb) as (B1 & B2 & B3).
    assert (Dl : forall t q, sample off done dp t q -> t < b + off).
    { intros t q H. unfold sample in H. apply in_combine_l in H. apply B1 in H. lia. }
    assert (Sg' := Sg). apply StronglySorted_inv in Sg' as (Sg1 & Sg2). rewrite Forall_forall in Sg2.
    cbn [length] in Lp.
    destruct (Z.ltb_spec (b + off) g) as [Hlt|Hge].
    + rewrite (Ha _ b), (Ha _ p). apply IH; auto.
      * apply Sd. auto.
      * intros g' [ <- |Hg']; [lia|]. specialize (Sg2 g' Hg'). lia.
      * intros t q H Ht. apply Sd in H as [H|(H & _)]; [|lia]. specialize (Dl t q H). lia.
      * intros g' Hg'. destruct (He g' Hg') as (c & [ <- |Hc] & Hc'); eauto. destruct Hg' as [ <- |Hg']; [lia|]. specialize (Sg2 g' Hg'). lia.
    + destruct (Z.ltb_spec g (b + off)) as [Hlt|Hge'].
      * destruct (IH (done ++ [b]) ps (dp ++ [p]) gts (b + off) p) as (l & El & Fl); auto.
        -- apply Sd. auto.
        -- intros g' Hg'. destruct gts as [|g1 gts]; [destruct Hg'|]. destruct (Hb [] g g1 gts eq_refl) as (c & Hc & Hcg).
           assert (b <= c).
           { apply in_app_iff in Hc as [Hc|[ <- |Hc]]; [|lia|specialize (B2 c Hc); lia]. exfalso.
             assert (exists q, In (c, q) (List.combine done dp)) as (q & Hq).
             { clear -Hc Ld. revert dp Ld. induction done as [|x done IHd]; intros [|y dp] Ld; try discriminate Ld; [destruct Hc|].
               destruct Hc as [ <- |Hc]; [exists y; left; auto|]. destruct (IHd Hc dp) as (q & Hq); [cbn in Ld; lia|]. exists q. right. auto. }
             assert (Hsq : sample off done dp (c + off) q) by (unfold sample; replace (c + off - off) with c by lia; exact Hq).
             specialize (Hs _ _ Hsq). specialize (Hg g (or_introl eq_refl)). lia. }
           assert (g1 <= g'). { destruct Hg' as [ <- |Hg']; [lia|]. apply StronglySorted_inv in Sg1 as (_ & Q1). rewrite Forall_forall in Q1. specialize (Q1 g' Hg'). lia. }
           lia.
        -- intros t q H Ht. apply Sd in H as [H|(H & _)]; [|lia]. specialize (Dl t q H). lia.
        -- intros l g1 g2 r E. apply (Hb' (g :: l) g1 g2 r). rewrite E. reflexivity.
        -- intros g' Hg'. destruct (He g' (or_intror Hg')) as (c & [ <- |Hc] & Hc'); eauto. exfalso.
           destruct gts as [|g1 gts]; [destruct Hg'|]. destruct (Hb [] g g1 gts eq_refl) as (c & Hc & Hcg).
           assert (b <= c).
           { apply in_app_iff in Hc as [Hc|[ <- |Hc]]; [|lia|specialize (B2 c Hc); lia]. exfalso.
             assert (exists q, In (c, q) (List.combine done dp)) as (q & Hq).
             { clear -Hc Ld. revert dp Ld. induction done as [|x done IHd]; intros [|y dp] Ld; try discriminate Ld; [destruct Hc|].
               destruct Hc as [ <- |Hc]; [exists y; left; auto|]. destruct (IHd Hc dp) as (q & Hq); [cbn in Ld; lia|]. exists q. right. auto. }
             assert (Hsq : sample off done dp (c + off) q) by (unfold sample; replace (c + off - off) with c by lia; exact Hq).
             specialize (Hs _ _ Hsq). specialize (Hg g (or_introl eq_refl)). lia. }
           assert (g1 <= g'). { destruct Hg' as [ <- |Hg']; [lia|]. apply StronglySorted_inv in Sg1 as (_ & Q1). rewrite Forall_forall in Q1. specialize (Q1 g' Hg'). lia. }
           lia.
        -- exists (lerp t0 p0 (b + off) p g :: l). rewrite El. split; [reflexivity|].
           rewrite (Ha _ b), (Ha _ p). constructor; [|exact Fl].
           assert (Sall : forall t q, sample off ((done ++ [b]) ++ bts) ((dp ++ [p]) ++ ps) t q -> sample off (done ++ [b]) (dp ++ [p]) t q \/ b + off < t).
           { intros t q H. unfold sample in H. rewrite combine_in in H by auto. apply in_app_iff in H as [H|H]; [left; exact H|].
             right. apply in_combine_l in H. specialize (B2 _ H). lia. }
           assert (Sin : forall t q, sample off (done ++ [b]) (dp ++ [p]) t q -> sample off ((done ++ [b]) ++ bts) ((dp ++ [p]) ++ ps) t q).
           { intros t q H. unfold sample. rewrite combine_in by auto. apply in_app_iff. left. exact H. }
           exists t0, p0, (b + off), p. split; [apply Sin, Sd; auto|]. split; [apply Sin, Sd; auto|].
           split; [split; [apply Hg; left; auto|auto]|]. split; [|reflexivity].
           intros t q H Ht. apply Sall in H as [H|H]; [|lia]. apply Sd in H as [H|(H & _)]; [|lia]. apply (Hs t q H). lia.
      * assert (b + off = g) by lia. cbn [tl]. rewrite (Ha _ b), (Ha _ p). apply IH; auto.
        -- apply Sd. auto.
        -- intros t q H1 Ht. apply Sd in H1 as [H1|(H1 & _)]; [|lia]. apply (Hs t q H1). lia.
        -- intros g' Hg'. destruct (He g' Hg') as (c & [ <- |Hc] & Hc'); eauto. destruct Hg' as [ <- |Hg']; [lia|]. specialize (Sg2 g' Hg'). lia.
Qed.
End L.

(** *** C93 *)
Section T.
Context {P A G : Type} (lerp : Z -> P -> Z -> P -> Z -> A) (id : P) (ts : G -> Z).
(** A recording with ascending body stamps and frames, the frames taken while the (shifted) body samples last, and the
    body sampled between any two frames: every frame inside the recording gets exactly one pose, the interpolation at its
    stamp between the two samples around it. *)
Theorem C93_sync_partial : forall (grids : list G) b bts (ps : list P) off, StronglySorted Z.lt (b :: bts) -> length ps = length (b :: bts) ->
  let kept := filter (fun g => (b <? ts g) && (ts g <? last (b :: bts) 0)) grids in
  kept <> [] -> StronglySorted Z.lt (map ts kept) -> (forall g, In g kept -> b + off < ts g < last (b :: bts) 0 + off) ->
  sampled_between off (b :: bts) (map ts kept) ->
  exists poses, lerp_body_poses lerp id ts grids (b :: bts) ps off = Ret (kept, poses) /\
    Forall2 (fun g a => between lerp off (b :: bts) ps (ts g) a) kept poses.
Proof.
  intros grids b bts ps off Sb Lp kept Hk Sk Hin Hb.
  destruct ps as [|p ps]; [discriminate|].
  assert (E1 : exists l, lerp_loop lerp off (b :: bts) (p :: ps) (map ts kept) 0 id = Ret l /\ Forall2 (between lerp off (b :: bts) (p :: ps)) (map ts kept) l).
  { clearbody kept. destruct kept as [|g kept]; [congruence|]. cbn [map lerp_loop].
    destruct (Hin g (or_introl eq_refl)) as (H1 & _). destruct (Z.ltb_spec (b + off) (ts g)) as [_|]; [|lia].
    apply (loop_ok lerp off bts [b] ps [p] (ts g :: map ts kept) (b + off) p); auto.
    - unfold sample. left. f_equal. lia.
    - intros x Hx. change (ts g :: map ts kept) with (map ts (g :: kept)) in Hx. apply in_map_iff in Hx as (y & <- & Hy). specialize (Hin y Hy). lia.
    - intros t q [H|[]] Ht. injection H as H _. lia.
    - intros x Hx. change (ts g :: map ts kept) with (map ts (g :: kept)) in Hx. apply in_map_iff in Hx as (y & <- & Hy). specialize (Hin y Hy).
      exists (last (b :: bts) 0). split; [|lia]. destruct bts as [|c bts]; [cbn in Hin; lia|].
      change (last (b :: c :: bts) 0) with (last (c :: bts) 0).
      assert (Hl := app_removelast_last 0 (l := c :: bts)). specialize (Hl ltac:(discriminate)). set (z := last (c :: bts) 0) in *. rewrite Hl. apply in_elt. }
  destruct E1 as (l & El & Fl). exists l. split.
  - unfold lerp_body_poses. change (filter (inside ts b (last (b :: bts) 0)) grids) with kept.
    destruct grids; [exfalso; apply Hk; reflexivity|]. destruct kept as [|k kept'] eqn:Ek; [congruence|]. rewrite El. reflexivity.
  - clear -Fl. revert l Fl. induction kept as [|k kept IH]; intros l Fl; inversion Fl; subst; constructor; auto.
Qed.
(** So poses of any motion for which the interpolation between two samples is exact are recovered exactly. *)
Theorem C93_exact_partial : forall (motion : Z -> P) (out : Z -> A) (grids : list G) b bts off, StronglySorted Z.lt (b :: bts) ->
  (forall t0 t1 t, t0 <= t < t1 -> lerp t0 (motion t0) t1 (motion t1) t = out t) ->
  let kept := filter (fun g => (b <? ts g) && (ts g <? last (b :: bts) 0)) grids in
  kept <> [] -> StronglySorted Z.lt (map ts kept) -> (forall g, In g kept -> b + off < ts g < last (b :: bts) 0 + off) ->
  sampled_between off (b :: bts) (map ts kept) ->
  lerp_body_poses lerp id ts grids (b :: bts) (map (fun t => motion (t + off)) (b :: bts)) off = Ret (kept, map (fun g => out (ts g)) kept).
Proof.
  intros motion out grids b bts off Sb Hl kept Hk Sk Hin Hb.
  destruct (C93_sync_partial grids b bts (map (fun t => motion (t + off)) (b :: bts)) off Sb (map_length _ _) Hk Sk Hin Hb) as (poses & E & F).
  rewrite E. do 2 f_equal. fold kept in F. clearbody kept. clear -F Hl. induction F as [|g a kept poses H F IH]; [reflexivity|]. cbn [map]. f_equal; [|exact IH].
  destruct H as (t0 & p0 & t1 & p1 & H0 & H1 & Ht & _ & -> ).
  assert (K : forall t p, sample off (b :: bts) (map (fun t => motion (t + off)) (b :: bts)) t p -> p = motion t).
  { intros t p H. unfold sample in H. revert H. generalize (b :: bts). intros l. induction l as [|x l IHl]; cbn [map List.combine]; intros []; auto.
    injection H as H2 <- . f_equal. lia. }
  rewrite (K _ _ H0), (K _ _ H1). apply Hl. exact Ht.
Qed.
(** Two frames between the same two samples: the second is extrapolated from samples that both lie after it. *)
Theorem C93_shared_interval_refuted : forall (g g' : G) p0 p1 p2, ts g = 10 -> ts g' = 20 ->
  lerp_body_poses lerp id ts [g; g'] [0; 100; 200] [p0; p1; p2] 0 = Ret ([g; g'], [lerp 0 p0 100 p1 10; lerp 100 p1 200 p2 20]).
Proof. intros g g' p0 p1 p2 E E'. unfold lerp_body_poses, inside. cbn [filter last]. rewrite E, E'. cbn. rewrite E, E'. reflexivity. Qed.
(** ... or gets no pose at all, so that the poses no longer correspond to the frames. *)
Theorem C93_too_few_refuted : forall (g g' : G) p0 p1, ts g = 10 -> ts g' = 20 ->
  lerp_body_poses lerp id ts [g; g'] [0; 100] [p0; p1] 0 = Ret ([g; g'], [lerp 0 p0 100 p1 10]).
Proof. intros g g' p0 p1 E E'. unfold lerp_body_poses, inside. cbn [filter last]. rewrite E, E'. cbn. rewrite E, E'. reflexivity. Qed.
(** A frame taken exactly at a sample does not get that sample's pose. *)
Theorem C93_coincident_refuted : forall (g : G) p0 p1 p2, ts g = 100 ->
  lerp_body_poses lerp id ts [g] [0; 100; 200] [p0; p1; p2] 0 = Ret ([g], [lerp 0 p0 200 p2 100]).
Proof. intros g p0 p1 p2 E. unfold lerp_body_poses, inside. cbn [filter last]. rewrite E. cbn. rewrite E. reflexivity. Qed.
(** No frame inside the recording: memory beyond the end of a vector is read. *)
Theorem C93_no_overlap_refuted : forall (grids : list G) b bts (ps : list P) off,
  (forall g, In g grids -> ts g <= b \/ last (b :: bts) 0 <= ts g) ->
  lerp_body_poses lerp id ts grids (b :: bts) ps off = Undef.
Proof.
  intros grids b bts ps off H. unfold lerp_body_poses.
  assert (E : filter (inside ts b (last (b :: bts) 0)) grids = []).
  { induction grids as [|g grids IH]; [reflexivity|]. cbn [filter]. unfold inside at 1.
    destruct (Z.ltb_spec b (ts g)), (Z.ltb_spec (ts g) (last (b :: bts) 0)); cbn [andb]; try (apply IH; intros; apply H; right; auto).
    destruct (H g (or_introl eq_refl)); lia. }
  rewrite E. destruct grids; reflexivity.
Qed.
End T.

(** ** With lerp_pose *)
(** What lerp_pose makes of it: positions are on the straight line between the neighbouring samples, at the right
    fraction; but the orientation runs backwards, so a body that turns is given wrong orientations: at a frame one third
    of the way from one sample to the next the orientation is that two thirds of the way. *)
Theorem C93_orientation_refuted : forall G (ts : G -> Z) (grids : list G) b bts (ps : list mat4) off kept poses,
  lerp_body_poses lerp_pose I4 ts grids (b :: bts) ps off = Ret (kept, poses) -> (forall p, In p ps -> Rigid p) ->
  Forall2 (fun g a => between lerp_pose off (b :: bts) ps (ts g) a) kept poses ->
  Forall2 (fun g a => exists t0 p0 t1 p1 T u theta, a = Some T /\ sample off (b :: bts) ps t0 p0 /\ sample off (b :: bts) ps t1 p1 /\ t0 <= ts g < t1 /\
     let f := (IZR (ts g - t0) / IZR (t1 - t0))%R in
     tf_trans T = vadd (vscale (1 - f) (tf_trans p0)) (vscale f (tf_trans p1)) /\
     vdot u u = 1%R /\ (0 <= theta <= PI)%R /\ tf_rot p1 = mmul (tf_rot p0) (rodrigues u theta) /\
     (cos (theta / 2) < eigen_one -> tf_rot T = mmul (tf_rot p0) (rodrigues u ((1 - f) * theta)))%R) kept poses.
Proof.
  intros G ts grids b bts ps off kept poses _ Hr F. induction F as [|g a kept poses H F IH]; constructor; auto.
  destruct H as (t0 & p0 & t1 & p1 & H0 & H1 & Ht & _ & -> ).
  assert (R0 : Rigid p0) by (apply Hr; eapply in_combine_r; exact H0). assert (R1 : Rigid p1) by (apply Hr; eapply in_combine_r; exact H1).
  destruct (C74_lerp_pose_partial t0 p0 t1 p1 (ts g) R0 R1) as (El & _); [lia|].
  destruct (C74_interp_pose_partial p0 p1 R0 R1) as (u & th & U & Th & E & H). destruct (H (IZR (ts g - t0) / IZR (t1 - t0))%R) as (A1 & A2 & _).
  exists t0, p0, t1, p1, (interp_pose p0 p1 (IZR (ts g - t0) / IZR (t1 - t0))), u, th. split; [exact El|]. split; [exact H0|]. split; [exact H1|]. split; [exact Ht|].
  split; [exact A1|]. split; [exact U|]. split; [exact Th|]. split; [exact E|]. intros L. apply A2. exact L.
Qed.
(** ** A concrete recording: four samples, three frames of which two are inside *)
Example C93_example : let bts := [0; 100; 200; 300] in let grids := [0; 150; 250] in
  let kept := filter (fun g => (0 <? g) && (g <? last bts 0)) grids in
  StronglySorted Z.lt bts /\ kept = [150; 250] /\ StronglySorted Z.lt kept /\ sampled_between 0 bts kept /\
  lerp_body_poses (fun _ p _ q _ => (p, q)) 0 (fun g => g) grids bts [0; 1; 2; 3] 0 = Ret ([150; 250], [(1, 2); (2, 3)]).
Proof.
  cbv zeta. split; [repeat (constructor; [|repeat (constructor; [lia|]); constructor]); constructor|]. split; [reflexivity|].
  split; [cbn; repeat (constructor; [|repeat (constructor; [lia|]); constructor]); constructor|]. split; [|reflexivity].
  intros l g g' r E. cbn in E. destruct l as [|x l]; [injection E as <- <- _; exists 200; cbn; intuition lia|].
  destruct l as [|y l]; [discriminate E|]. destruct l; discriminate E.
Qed.
