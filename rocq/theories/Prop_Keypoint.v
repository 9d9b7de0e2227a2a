(** * C60: key point selection *)
From Verif Require Import Base GeomModel StatsModel KeypointModel.
From Coq Require Import Reals Lra Permutation Sorted.
From Flocq Require Import Core.Core Relative.
Local Open Scope Z_scope.

Lemma Forall2_len {A B} (P : A -> B -> Prop) l l' : Forall2 P l l' -> length l = length l'.
Proof. induction 1; simpl; congruence. Qed.
Lemma lookup_perm (kps : list keypoint) index sorted :
  Permutation index (seq 0 (length kps)) -> Forall2 (fun i k => nth_error kps i = Some k) index sorted ->
  Permutation sorted kps.
Proof.
  intros HP HF.
  assert (E : forall d, sorted = map (fun i => nth i kps d) index).
  { intros d. clear HP. induction HF as [|i k is ks H HF IH]; simpl; auto. f_equal; auto. symmetry. now apply nth_error_nth. }
  destruct kps as [|k0 kps0]; [apply Permutation_sym, Permutation_nil in HP; subst; inversion HF; constructor|].
  set (kps := k0 :: kps0) in *. rewrite (E k0).
  transitivity (map (fun i => nth i kps k0) (seq 0 (length kps))); [now apply Permutation_map|].
  replace (map (fun i => nth i kps k0) (seq 0 (length kps))) with kps; auto.
  clear. generalize kps. intros l. induction l as [|x l IH]; auto. simpl. f_equal.
  rewrite <- seq_shift, map_map. exact IH.
Qed.
Lemma firstn_sorted {A} (R : A -> A -> Prop) n l : StronglySorted R l -> StronglySorted R (firstn n l).
Proof.
  revert l. induction n as [|n IH]; intros [|x l] H; simpl; try constructor; inversion_clear H.
  - auto.
  - apply Forall_forall. intros y Hy. rewrite Forall_forall in H1. apply H1. rewrite <- (firstn_skipn n l). apply in_app_iff. auto.
Qed.
Lemma sorted_split {A} (R : A -> A -> Prop) l1 l2 : StronglySorted R (l1 ++ l2) -> forall a b, In a l1 -> In b l2 -> R a b.
Proof.
  induction l1 as [|x l1 IH]; simpl; intros H a b Ha Hb; [tauto|]. inversion_clear H. destruct Ha as [ <- |Ha]; [|eauto].
  rewrite Forall_forall in H1. apply H1, in_app_iff. auto.
Qed.

(** sort_keypoints always returns, returns min(limit, n) key points (all of them for limit 0), in
    descending order of the integer part of the response, and none of the dropped ones is better. *)
Theorem C60_sort_partial : forall kps limit,
  (exists out, sort_keypoints kps limit out) /\
  forall out, sort_keypoints kps limit out ->
    length out = (match limit with O => length kps | _ => Nat.min limit (length kps) end) /\
    StronglySorted (fun a b => Ztrunc (kp_response b) <= Ztrunc (kp_response a)) out /\
    exists dropped, Permutation (out ++ dropped) kps /\
      forall a b, In a out -> In b dropped -> Ztrunc (kp_response b) <= Ztrunc (kp_response a).
Proof.
  intros kps limit. split.
  - (* a sorted index exists: insertion sort *)
    assert (H : forall l : list nat, (forall i, In i l -> (i < length kps)%nat) -> exists s, Permutation s l /\
      StronglySorted (fun i j => forall a b, nth_error kps i = Some a -> nth_error kps j = Some b -> int_response b <= int_response a) s).
    { set (key := fun i => match nth_error kps i with Some k => int_response k | None => 0 end).
      enough (G : forall l : list nat, exists s, Permutation s l /\ StronglySorted (fun i j => key j <= key i) s).
      { intros l _. destruct (G l) as (s & P & S). exists s. split; auto.
        clear P. induction S as [|x s S IH F]; constructor; auto.
        eapply Forall_impl; [|exact F]. intros y Hy a b Ha Hb. unfold key in Hy. rewrite Ha, Hb in Hy. exact Hy. }
      induction l as [|x l (s & P & S)]; [exists []; split; auto; constructor|].
      assert (I : exists s', Permutation s' (x :: s) /\ StronglySorted (fun i j => key j <= key i) s').
      { clear P. induction s as [|y s IHs].
        - exists [x]. split; auto. repeat constructor.
        - inversion_clear S as [|? ? S' F]. destruct (Z_le_dec (key y) (key x)) as [Hle|Hgt].
          + exists (x :: y :: s). split; auto. constructor; [constructor; auto|]. constructor; auto.
            eapply Forall_impl; [|exact F]. simpl. intros. lia.
          + destruct (IHs S') as (s' & P' & S''). exists (y :: s'). split.
            * rewrite P'. apply perm_swap.
            * constructor; auto. apply Forall_forall. intros z Hz. apply (Permutation_in _ P') in Hz.
              destruct Hz as [ <- |Hz]; [lia|]. rewrite Forall_forall in F. auto. }
      destruct I as (s' & P' & S'). exists s'. split; auto. rewrite P'. now constructor. }
    destruct (H (seq 0 (length kps))) as (s & P & S); [intros i Hi; apply in_seq in Hi; lia|].
    assert (L : exists sorted, Forall2 (fun i k => nth_error kps i = Some k) s sorted).
    { assert (HI : forall i, In i s -> (i < length kps)%nat) by (intros i Hi; apply (Permutation_in _ P) in Hi; apply in_seq in Hi; lia).
      clear P S. induction s as [|i s IH]; [exists []; constructor|].
      destruct IH as (ks & IH); [intros; apply HI; now right|].
      destruct (nth_error kps i) as [k|] eqn:E; [exists (k :: ks); now constructor|].
      apply nth_error_None in E. specialize (HI i ltac:(now left)). lia. }
    destruct L as (sorted & L). exists (take_limit limit sorted), s. split; auto. split; auto. exists sorted. auto.
  - intros out (index & P & SI & sorted & F & ->).
    pose proof (lookup_perm _ _ _ P F) as HP.
    assert (SS : StronglySorted (fun a b => Ztrunc (kp_response b) <= Ztrunc (kp_response a)) sorted).
    { clear P HP. induction F as [|i k is ks H F IH]; constructor; inversion_clear SI as [|? ? S' HF]; auto.
      apply Forall_forall. intros b Hb.
      assert (HE : exists j, In j is /\ nth_error kps j = Some b).
      { clear -F Hb. induction F as [|j c is ks H F IH]; [destruct Hb|]. destruct Hb as [ <- |Hb]; [exists j; split; auto; now left|].
        destruct (IH Hb) as (j' & A & B). exists j'. split; auto. now right. }
      destruct HE as (j & Hj & Eb). rewrite Forall_forall in HF. exact (HF j Hj k b H Eb). }
    pose proof (Permutation_length HP) as HL.
    destruct limit as [|n].
    + cbn [take_limit]. split; auto. split; auto. exists []. rewrite app_nil_r. split; auto. intros a b _ [].
    + unfold take_limit. split; [now rewrite firstn_length, HL|]. split; [now apply firstn_sorted|].
      exists (skipn (S n) sorted). rewrite firstn_skipn. split; auto. intros a b Ha Hb.
      rewrite <- (firstn_skipn (S n) sorted) in SS. exact (sorted_split _ _ _ SS a b Ha Hb).
Qed.

(** Not by the response itself: of two key points with responses 0.2 and 0.9 the weaker one can be
    the one kept. *)
Theorem C60_sort_refuted : exists k1 k2, (kp_response k1 < kp_response k2)%R /\ sort_keypoints [k1; k2] 1 [k1].
Proof.
  exists (Kp (V2 0 0) (2 / 10)), (Kp (V2 1 1) (9 / 10)). split; [cbn; lra|].
  assert (T : forall x, (0 <= x < 1)%R -> Ztrunc x = 0).
  { intros x Hx. rewrite Ztrunc_floor by lra. apply Zfloor_imp. simpl. lra. }
  exists [0%nat; 1%nat]. split; [reflexivity|]. split.
  - repeat constructor. cbn. intros a b Ea Eb. injection Ea as <-. injection Eb as <-.
    unfold int_response. cbn [kp_response]. rewrite !T by lra. lia.
  - eexists. split; [repeat constructor|]. reflexivity.
Qed.

(** ** The limit per cell *)
Lemma fmt32_int z : (Z.abs z <= 2 ^ 24) -> generic_format radix2 (FLT_exp (-149) 24) (IZR z).
Proof.
  intros H. destruct (Z.eq_dec (Z.abs z) (2 ^ 24)) as [E|E].
  - assert (G : generic_format radix2 (FLT_exp (-149) 24) (bpow radix2 24)) by (apply generic_format_bpow; unfold FLT_exp; lia).
    assert (B : bpow radix2 24 = IZR (2 ^ 24)) by reflexivity. rewrite B in G.
    destruct (Z.abs_spec z) as [[_ Hz]|[_ Hz]]; rewrite Hz in E.
    + now rewrite E.
    + replace z with (- (2 ^ 24)) by lia. rewrite opp_IZR. now apply generic_format_opp.
  - apply generic_format_FLT. exists (Float radix2 z 0).
    + unfold F2R. simpl. ring.
    + cbn [Fnum]. change (radix2 ^ 24) with (2 ^ 24). lia.
    + simpl. lia.
Qed.
Lemma b32_IZR z : Z.abs z <= 2 ^ 24 -> b32 (IZR z) = IZR z.
Proof. intros H. apply round_generic; [apply valid_rnd_N|now apply fmt32_int]. Qed.

(** For every count and grid below 2^24 the single precision limit per cell is the exact
    ceil(max_keypoints / cells): the least m with m * cells >= max_keypoints. *)
Theorem C60_max_per_cell : forall maxk rows cols, 0 <= maxk < 2 ^ 24 -> 0 < rows * cols < 2 ^ 24 ->
  (max_per_cell maxk rows cols - 1) * (rows * cols) < maxk <= max_per_cell maxk rows cols * (rows * cols).
Proof.
  intros a rows cols Ha Hb. set (b := rows * cols) in *. unfold max_per_cell. fold b.
  rewrite !b32_IZR by lia.
  assert (Hb0 : (0 < IZR b)%R) by (apply IZR_lt; lia).
  set (q := (IZR a / IZR b)%R).
  assert (Hq : (q * IZR b = IZR a)%R) by (unfold q; field; lra).
  set (m := Zceil q).
  assert (M : (IZR m - 1 < q <= IZR m)%R).
  { unfold m. split; [|apply Zceil_ub]. pose proof (Zceil_lb q). lra. }
  assert (R1 : (m - 1) * b < a <= m * b).
  { split; [apply lt_IZR|apply le_IZR]; rewrite mult_IZR, ?minus_IZR, <- Hq; [apply Rmult_lt_compat_r; lra|apply Rmult_le_compat_r; lra]. }
  enough (E : Zceil (b32 q) = m) by (rewrite E; exact R1).
  assert (Hm : 0 <= m <= 2 ^ 24) by nia.
  destruct (Z.eq_dec a 0) as [Z0|Z0].
  { assert (q = 0)%R by (unfold q; rewrite Z0; field; lra). unfold m. rewrite H. unfold b32. now rewrite round_0 by apply valid_rnd_N. }
  apply Zceil_imp. split.
  - assert (P : (IZR (m - 1) < b32 q)%R); [|exact P].
    assert (Ha1 : (1 <= IZR a)%R) by (apply IZR_le; lia).
    assert (Ha2 : (IZR a < IZR (2 ^ 24))%R) by (apply IZR_lt; lia).
    assert (Hb2 : (IZR b < IZR (2 ^ 24))%R) by (apply IZR_lt; lia).
    assert (Q : (/ IZR (2 ^ 24) < q)%R).
    { unfold q. apply Rlt_le_trans with (/ IZR b)%R.
      - apply Rinv_lt_contravar; auto. apply Rmult_lt_0_compat; lra.
      - unfold Rdiv. rewrite <- (Rmult_1_l (/ IZR b)) at 1. apply Rmult_le_compat_r; auto. left. now apply Rinv_0_lt_compat. }
    assert (Q0 : (0 < / IZR (2 ^ 24))%R) by (apply Rinv_0_lt_compat; lra).
    pose proof (relative_error_N_FLT radix2 (-149) 24 ltac:(lia) (fun x => negb (Z.even x)) q) as RE.
    assert (BP : bpow radix2 (-24) = (/ IZR (2 ^ 24))%R) by reflexivity.
    assert (RE' : (Rabs (b32 q - q) <= / IZR (2 ^ 24) * q)%R).
    { unfold b32, ZnearestE. eapply Rle_trans; [apply RE|].
      - rewrite Rabs_pos_eq by lra. apply Rle_trans with (bpow radix2 (-24)); [apply bpow_le; lia|rewrite BP; lra].
      - rewrite Rabs_pos_eq by lra. apply Rmult_le_compat_r; [lra|].
        rewrite <- BP. change (/ 2)%R with (bpow radix2 (-1)). rewrite <- bpow_plus. right. reflexivity. }
    apply Rabs_le_inv in RE'.
    apply Rmult_lt_reg_r with (IZR b); auto.
    apply Rlt_le_trans with (q * IZR b - / IZR (2 ^ 24) * q * IZR b)%R.
    + rewrite Rmult_assoc, Hq, <- mult_IZR.
      assert (IZR ((m - 1) * b) <= IZR a - 1)%R by (rewrite <- minus_IZR; apply IZR_le; lia).
      assert (/ IZR (2 ^ 24) * IZR a < 1)%R.
      { rewrite <- (Rinv_l (IZR (2 ^ 24))) by lra. now apply Rmult_lt_compat_l. }
      lra.
    + rewrite <- Rmult_minus_distr_r. apply Rmult_le_compat_r; lra.
  - rewrite <- (b32_IZR m) by lia. apply round_le; [apply FLT_exp_valid; reflexivity|apply valid_rnd_N|lra].
Qed.

(** ** The grid *)
Lemma steps_exist d n : 0 < d -> forall x, exists l, for_steps d n x l.
Proof.
  intros Hd x. remember (Z.to_nat (n - x)) as k eqn:Ek. revert x Ek.
  induction k as [k IH] using lt_wf_ind. intros x Ek. destruct (Z_lt_dec x n) as [Hx|Hx].
  - destruct (IH (Z.to_nat (n - (x + d))) ltac:(lia) (x + d) eq_refl) as (l & Hl). exists (x :: l). now constructor.
  - exists []. now constructor.
Qed.
Lemma steps_facts d n x l : 0 < d -> for_steps d n x l ->
  Forall (fun y => x <= y < n) l /\ Z.of_nat (length l) = Z.max 0 ((n - x + d - 1) / d).
Proof.
  intros Hd. induction 1 as [x Hx|x l Hx HS [F L]].
  - split; [constructor|]. cbn [length]. enough ((n - x + d - 1) / d <= 0) by lia.
    apply Z.lt_succ_r. apply Z.div_lt_upper_bound; lia.
  - split.
    + constructor; [lia|]. eapply Forall_impl; [|exact F]. cbn. lia.
    + cbn [length]. replace (n - x + d - 1) with (n - (x + d) + d - 1 + 1 * d) by ring. rewrite Z.div_add by lia.
      assert (0 <= (n - (x + d) + d - 1) / d) by (apply Z.div_pos; lia). lia.
Qed.
Lemma cells_len xs ys : length (cells xs ys) = (length xs * length ys)%nat.
Proof. unfold cells. induction xs as [|x xs IH]; simpl; auto. now rewrite app_length, map_length, IH. Qed.
Lemma cells_in xs ys x y : In (x, y) (cells xs ys) -> In x xs /\ In y ys.
Proof.
  unfold cells. intros H. apply in_flat_map in H as (x' & Hx & H). apply in_map_iff in H as (y' & E & Hy).
  injection E as -> ->. auto.
Qed.

(** Both grids, with the detector as a relation *)
Definition grid_rel (D : roi -> list vec2 -> Prop) (width height maxk rows cols : Z) (out : list vec2) : Prop :=
  exists dx dy xs ys parts, cell_size width cols = Ret dx /\ cell_size height rows = Ret dy /\
    for_steps dx width 0 xs /\ for_steps dy height 0 ys /\
    Forall2 (fun c part => exists pts, D (cell_roi dx dy width height (fst c) (snd c)) pts /\
       part = keep_cell (fst c) (snd c) (max_per_cell maxk rows cols) pts) (cells xs ys) parts /\
    out = concat parts.
Definition fast_rel (fast : roi -> list keypoint) (r : roi) (pts : list vec2) : Prop :=
  exists sorted, sort_keypoints (fast r) 0 sorted /\ pts = map kp_pt sorted.
Lemma Forall2_impl' {A B} (P Q : A -> B -> Prop) l l' : (forall a b, P a b -> Q a b) -> Forall2 P l l' -> Forall2 Q l l'.
Proof. intros H. induction 1; constructor; auto. Qed.
Lemma grid_fast_rel fast W H m r c out : grid_fast fast W H m r c out <-> grid_rel (fast_rel fast) W H m r c out.
Proof.
  split; intros (dx & dy & xs & ys & parts & A & B & C & D & E & F); exists dx, dy, xs, ys, parts; repeat split; auto;
    revert E; apply Forall2_impl'.
  - intros [x y] p (s & H1 & ->). exists (map kp_pt s). split; auto. exists s; auto.
  - intros [x y] p (pts & (s & H1 & ->) & ->). exists s; auto.
Qed.
Lemma grid_good_rel good W H m r c out : grid_good good W H m r c out <-> grid_rel (fun roi pts => pts = good roi) W H m r c out.
Proof.
  split.
  - intros (dx & dy & xs & ys & A & B & C & D & F). exists dx, dy, xs, ys.
    exists (map (fun c0 => keep_cell (fst c0) (snd c0) (max_per_cell m r c) (good (cell_roi dx dy W H (fst c0) (snd c0)))) (cells xs ys)).
    repeat split; auto.
    + clear. induction (cells xs ys); simpl; constructor; eauto.
    + rewrite F. clear. induction (cells xs ys); simpl; congruence.
  - intros (dx & dy & xs & ys & parts & A & B & C & D & E & F). exists dx, dy, xs, ys. repeat split; auto. rewrite F. clear -E.
    induction E as [|c0 p l l' (pts & -> & ->) E IH]; simpl; congruence.
Qed.
Lemma fast_rel_total fast r0 : exists pts, fast_rel fast r0 pts.
Proof. destruct (C60_sort_partial (fast r0) 0) as [(s & Hs) _]. exists (map kp_pt s), s. auto. Qed.
Lemma fast_rel_in fast r0 pts : fast_rel fast r0 pts -> forall p, In p pts -> In p (map kp_pt (fast r0)).
Proof.
  intros (s & Hs & ->) p Hp. destruct (C60_sort_partial (fast r0) 0) as [_ H]. destruct (H s Hs) as (_ & _ & d & P & _).
  apply in_map_iff in Hp as (k & <- & Hk). apply in_map. apply (Permutation_in _ P). apply in_app_iff. auto.
Qed.

Definition inside (w h : Z) (p : vec2) : Prop := (0 <= v2x p < IZR w /\ 0 <= v2y p < IZR h)%R.
Lemma cell_size_pos n c : 0 < c <= n -> exists d, cell_size n c = Ret d /\ 0 < d /\ d = n / c.
Proof.
  intros H. unfold cell_size. destruct (Z.eqb_spec c 0); [lia|]. exists (Z.quot n c).
  rewrite Z.quot_div_nonneg by lia. repeat split; auto. apply Z.div_str_pos. lia.
Qed.
Lemma keep_len x y m pts : (Z.of_nat (length (keep_cell x y m pts)) <= Z.max 1 m).
Proof. unfold keep_cell. rewrite firstn_length. lia. Qed.

Lemma grid_rel_total D W H m rows cols : (forall r0, exists pts, D r0 pts) -> 0 < cols <= W -> 0 < rows <= H ->
  exists out, grid_rel D W H m rows cols out.
Proof.
  intros HD HW HH. destruct (cell_size_pos _ _ HW) as (dx & Ex & Px & _). destruct (cell_size_pos _ _ HH) as (dy & Ey & Py & _).
  destruct (steps_exist dx W Px 0) as (xs & Hxs). destruct (steps_exist dy H Py 0) as (ys & Hys).
  assert (P : exists parts, Forall2 (fun c part => exists pts, D (cell_roi dx dy W H (fst c) (snd c)) pts /\
       part = keep_cell (fst c) (snd c) (max_per_cell m rows cols) pts) (cells xs ys) parts).
  { induction (cells xs ys) as [|c l (ps & IH)]; [exists []; constructor|].
    destruct (HD (cell_roi dx dy W H (fst c) (snd c))) as (pts & Hp). eexists (_ :: ps). constructor; eauto. }
  destruct P as (parts & P). exists (concat parts), dx, dy, xs, ys, parts. repeat split; auto.
Qed.
Lemma grid_rel_bound D W H m rows cols out : 0 < cols <= W -> 0 < rows <= H -> grid_rel D W H m rows cols out ->
  Z.of_nat (length out) <= ((W + W / cols - 1) / (W / cols)) * ((H + H / rows - 1) / (H / rows)) * Z.max 1 (max_per_cell m rows cols).
Proof.
  intros HW HH (dx & dy & xs & ys & parts & Ex & Ey & Hxs & Hys & F & ->).
  destruct (cell_size_pos _ _ HW) as (dx' & Ex' & Px & Dx). rewrite Ex in Ex'. injection Ex' as <-.
  destruct (cell_size_pos _ _ HH) as (dy' & Ey' & Py & Dy). rewrite Ey in Ey'. injection Ey' as <-.
  rewrite <- Dx, <- Dy.
  apply steps_facts in Hxs as [_ Lx]; auto. apply steps_facts in Hys as [_ Ly]; auto.
  rewrite Z.sub_0_r in Lx, Ly. rewrite Z.max_r in Lx, Ly by (apply Z.div_pos; lia). rewrite <- Lx, <- Ly, <- Nat2Z.inj_mul, <- cells_len.
  clear -F. induction F as [|c p l l' (pts & _ & ->) F IH]; [simpl; lia|].
  cbn [concat]. rewrite app_length. pose proof (keep_len (fst c) (snd c) (max_per_cell m rows cols) pts). cbn [length]. lia.
Qed.
Lemma grid_rel_inside (D : roi -> list vec2 -> Prop) W H m rows cols out : 0 < cols <= W -> 0 < rows <= H ->
  (forall r0 pts p, D r0 pts -> In p pts -> inside (roi_w r0) (roi_h r0) p) -> grid_rel D W H m rows cols out ->
  Forall (inside W H) out.
Proof.
  intros HW HH HD (dx & dy & xs & ys & parts & Ex & Ey & Hxs & Hys & F & ->).
  destruct (cell_size_pos _ _ HW) as (dx' & Ex' & Px & Dx). rewrite Ex in Ex'. injection Ex' as <-.
  destruct (cell_size_pos _ _ HH) as (dy' & Ey' & Py & Dy). rewrite Ey in Ey'. injection Ey' as <-.
  apply steps_facts in Hxs as [Fx _]; auto. apply steps_facts in Hys as [Fy _]; auto.
  assert (C : Forall (fun c => 0 <= fst c < W /\ 0 <= snd c < H) (cells xs ys)).
  { apply Forall_forall. intros [x y] Hc. apply cells_in in Hc as [A B]. rewrite Forall_forall in Fx, Fy. cbn. split; auto. }
  apply Forall_concat. clear -F C HD. induction F as [|c p l l' (pts & Hp & ->) F IH]; [constructor|].
  inversion_clear C as [|? ? Hc C']. constructor; auto.
  apply Forall_forall. intros q Hq. unfold keep_cell in Hq.
  assert (Hq' : In q (map (fun p => V2 (v2x p + IZR (fst c)) (v2y p + IZR (snd c))) pts)).
  { rewrite <- (firstn_skipn (Nat.max 1 (Z.to_nat (max_per_cell m rows cols)))). apply in_app_iff. auto. }
  apply in_map_iff in Hq' as (p0 & <- & Hp0). pose proof (HD _ _ _ Hp Hp0) as [I1 I2]. destruct Hc as [Hx Hy].
  unfold cell_roi in I1, I2. cbn [roi_w roi_h] in I1, I2.
  assert (B : forall x n d a, 0 <= x < n -> (0 <= a < IZR (if x + d >? n then n - x else d))%R -> (0 <= a + IZR x < IZR n)%R).
  { clear. intros x n d a Hx Ha. assert (0 <= IZR x)%R by (apply IZR_le; lia).
    destruct (Z.gtb_spec (x + d) n); [rewrite minus_IZR in Ha; lra|].
    assert (IZR (x + d) <= IZR n)%R by (apply IZR_le; lia). rewrite plus_IZR in *. lra. }
  split; cbn [v2x v2y]; eapply B; eauto.
Qed.

(** On any image at least as large as the grid both functions return; the number of points is at
    most visited cells x max(1, limit per cell), where cells of size (width / cols) x (height / rows)
    (rounded down) are visited until the image is covered; and all returned points lie in the image
    when the detector's points lie in the region it was given. *)
Theorem C60_grid : forall width height maxk rows cols, 0 < cols <= width -> 0 < rows <= height ->
  (forall fast, (exists out, grid_fast fast width height maxk rows cols out) /\
    forall out, grid_fast fast width height maxk rows cols out ->
      Z.of_nat (length out) <= ((width + width / cols - 1) / (width / cols)) * ((height + height / rows - 1) / (height / rows))
        * Z.max 1 (max_per_cell maxk rows cols) /\
      ((forall r0 k, In k (fast r0) -> inside (roi_w r0) (roi_h r0) (kp_pt k)) -> Forall (inside width height) out)) /\
  (forall good, (exists out, grid_good good width height maxk rows cols out) /\
    forall out, grid_good good width height maxk rows cols out ->
      Z.of_nat (length out) <= ((width + width / cols - 1) / (width / cols)) * ((height + height / rows - 1) / (height / rows))
        * Z.max 1 (max_per_cell maxk rows cols) /\
      ((forall r0 p, In p (good r0) -> inside (roi_w r0) (roi_h r0) p) -> Forall (inside width height) out)).
Proof.
  intros W H m rows cols HW HH. split.
  - intros fast. split.
    + destruct (grid_rel_total (fast_rel fast) W H m rows cols (fast_rel_total fast) HW HH) as (out & Ho). exists out. now apply grid_fast_rel.
    + intros out Ho. apply grid_fast_rel in Ho. split; [exact (grid_rel_bound _ _ _ _ _ _ _ HW HH Ho)|].
      intros HI. refine (grid_rel_inside _ _ _ _ _ _ _ HW HH _ Ho). intros r0 pts p HD Hp.
      apply (fast_rel_in _ _ _ HD) in Hp. apply in_map_iff in Hp as (k & <- & Hk). auto.
  - intros good. split.
    + destruct (grid_rel_total (fun r0 pts => pts = good r0) W H m rows cols ltac:(eauto) HW HH) as (out & Ho). exists out. now apply grid_good_rel.
    + intros out Ho. apply grid_good_rel in Ho. split; [exact (grid_rel_bound _ _ _ _ _ _ _ HW HH Ho)|].
      intros HI. refine (grid_rel_inside _ _ _ _ _ _ _ HW HH _ Ho). intros r0 pts p -> Hp. auto.
Qed.

(** When the grid divides the image, fewer than max_keypoints + rows * cols points are returned,
    and at most max_keypoints when the number of cells divides it. *)
Theorem C60_grid_bound_partial : forall width height maxk rows cols, 0 < cols -> 0 < rows -> 0 < width -> 0 < height ->
  (cols | width) -> (rows | height) -> 1 <= maxk < 2 ^ 24 -> rows * cols < 2 ^ 24 ->
  forall out, (exists fast, grid_fast fast width height maxk rows cols out) \/
              (exists good, grid_good good width height maxk rows cols out) ->
  Z.of_nat (length out) < maxk + rows * cols /\
  ((rows * cols | maxk) -> Z.of_nat (length out) <= maxk).
Proof.
  intros W H m rows cols Hc Hr PW PH [kw ->] [kh ->] Hm Hn out Ho.
  assert (Hkw : 0 < kw) by nia. assert (Hkh : 0 < kh) by nia.
  assert (HW : 0 < cols <= kw * cols) by nia. assert (HH : 0 < rows <= kh * rows) by nia.
  assert (B : Z.of_nat (length out) <= ((kw * cols + kw * cols / cols - 1) / (kw * cols / cols)) *
     ((kh * rows + kh * rows / rows - 1) / (kh * rows / rows)) * Z.max 1 (max_per_cell m rows cols)).
  { destruct Ho as [(f & Ho)|(f & Ho)].
    - exact (proj1 (proj2 (proj1 (C60_grid _ _ m _ _ HW HH) f) out Ho)).
    - exact (proj1 (proj2 (proj2 (C60_grid _ _ m _ _ HW HH) f) out Ho)). }
  rewrite !Z.div_mul in B by lia.
  assert (Q : forall k c, 0 < k -> (k * c + k - 1) / k = c).
  { intros k c Hk. replace (k * c + k - 1) with (k - 1 + c * k) by ring. rewrite Z.div_add by lia. rewrite Z.div_small by lia. lia. }
  rewrite !Q in B by auto.
  pose proof (C60_max_per_cell m rows cols ltac:(lia) ltac:(nia)) as C. set (p := max_per_cell m rows cols) in *.
  assert (Pp : 1 <= p) by nia. rewrite Z.max_r in B by lia. split; [nia|].
  intros [q Hq]. assert (p <= q) by nia. nia.
Qed.

(** In general it fails: a 2 x 1 image, 1 x 2 grid and max_keypoints = 1 gives two points (and so
    does max_keypoints = 0); a 10 x 1 image with a 1 x 6 grid visits ten cells and returns twenty
    points for max_keypoints = 12; an image narrower than the grid makes the loop endless. *)
Theorem C60_grid_refuted :
  (exists good out, grid_good good 2 1 1 1 2 out /\ length out = 2%nat) /\
  (exists good out, grid_good good 2 1 0 1 2 out /\ length out = 2%nat) /\
  (exists good out, grid_good good 10 1 12 1 6 out /\ length out = 20%nat) /\
  (forall width height maxk rows cols, 0 < width < cols -> (forall good out, ~ grid_good good width height maxk rows cols out) /\
     (forall fast out, ~ grid_fast fast width height maxk rows cols out)).
Proof.
  assert (M : forall m n p, 0 <= m < 2 ^ 24 -> 0 < 1 * n < 2 ^ 24 -> (p - 1) * n < m <= p * n -> max_per_cell m 1 n = p).
  { intros m n p A B C. pose proof (C60_max_per_cell m 1 n A B). nia. }
  assert (S2 : for_steps 1 2 0 [0; 1]) by (repeat (constructor; [lia|]; cbn [Z.add]); constructor; lia).
  assert (S1 : for_steps 1 1 0 [0]) by (repeat (constructor; [lia|]; cbn [Z.add]); constructor; lia).
  assert (S10 : for_steps 1 10 0 [0; 1; 2; 3; 4; 5; 6; 7; 8; 9]) by (repeat (constructor; [lia|]; cbn [Z.add]); constructor; lia).
  split; [|split; [|split]].
  - exists (fun _ => [V2 0 0]). eexists. split; [exists 1, 1, [0; 1], [0]; repeat split; auto|].
    rewrite (M 1 2 1) by lia. reflexivity.
  - exists (fun _ => [V2 0 0]). eexists. split; [exists 1, 1, [0; 1], [0]; repeat split; auto|].
    rewrite (M 0 2 0) by lia. reflexivity.
  - exists (fun _ => [V2 0 0; V2 0 0]). eexists. split; [exists 1, 1, [0; 1; 2; 3; 4; 5; 6; 7; 8; 9], [0]; repeat split; auto|].
    rewrite (M 12 6 2) by lia. reflexivity.
  - intros W H m rows cols HW.
    assert (N : forall dx xs, cell_size W cols = Ret dx -> ~ for_steps dx W 0 xs).
    { intros dx xs E. unfold cell_size in E. destruct (Z.eqb_spec cols 0); [lia|]. injection E as <-.
      rewrite Z.quot_small by lia. intros HS. remember 0 as x eqn:Ex in HS at 2. clear -HS Ex HW.
      induction HS as [x Hx|x l Hx HS IH]; [lia|]. apply IH. lia. }
    split.
    + intros good out (dx & dy & xs & ys & E & _ & HS & _). exact (N _ _ E HS).
    + intros fast out (dx & dy & xs & ys & parts & E & _ & HS & _). exact (N _ _ E HS).
Qed.
Print Assumptions C60_sort_partial.
Print Assumptions C60_sort_refuted.
Print Assumptions C60_max_per_cell.
Print Assumptions C60_grid.
Print Assumptions C60_grid_bound_partial.
Print Assumptions C60_grid_refuted.
