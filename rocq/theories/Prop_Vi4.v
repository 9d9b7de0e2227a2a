(** * C86: the IMU samples behind every view to view constraint *)
From Verif Require Import Base GeomModel EulerModel StatsModel ImuModel ImuSpec Prop_Imu PreintModel PreintSpec Prop_Preint2 ViModel ViSpec ViProofs ViProofs2 ViProofs3 ViProofs4 ViProofs5 ViProofs6 Prop_Vi Prop_Vi2 Prop_Vi3.
From Coq Require Import Reals Sorted Permutation.
Local Open Scope Z_scope.

Lemma rising_sorted l : StronglySorted (fun x y : sample => fst x < fst y) l -> rising l.
Proof.
  induction l as [|x [|y l] IH]; intros H; cbn [rising]; auto. apply StronglySorted_inv in H as (H1 & H2). split; [inversion H2; auto|apply IH; auto].
Qed.
Lemma buffer_ofs b : aligned b -> b = buffer (samples b).
Proof.
  intros (A & B). destruct b as [ts ac gy]. unfold buffer, samples. cbn [i_ts i_acc i_gyr] in *. f_equal.
  - revert ac gy A B. induction ts as [|t ts IH]; intros [|a ac] [|g gy] A B; cbn in *; try discriminate; auto. f_equal. apply IH; lia.
  - revert ac gy A B. induction ts as [|t ts IH]; intros [|a ac] [|g gy] A B; cbn in *; try discriminate; auto. f_equal. apply IH; lia.
  - revert ac gy A B. induction ts as [|t ts IH]; intros [|a ac] [|g gy] A B; cbn in *; try discriminate; auto. f_equal. apply IH; lia.
Qed.

Section T.
Context (z1 z3 : R) (pnp : list R -> list corner -> option mat4) (pick : nat -> Z -> list corner -> list corner)
        (slv : problem -> (pid -> list R) -> pid -> list R) (reproj : rid -> corner -> (pid -> list R) -> option (R * R))
        (cfg : settings).
Notation run := (vrun z1 z3 pnp pick slv reproj cfg).
Notation conf := (configure z1 z3).

(** Fed in chronological order, the views in the window are in strictly increasing order of time. *)
Theorem C86_order : forall os h s, run h (conf os) = Ret s -> c_marg cfg = false \/ never is_reset h -> chronological h ->
  StronglySorted Z.lt (map v_ts (s_views s)).
Proof. intros os h s E Hr C. apply (f_sorted h s). eapply run_flow; eauto. Qed.
(** Every IMU residual has samples in order of time that start no later than its first view and end no earlier than
    its second; they are samples that were handed over, and none between the two views is missing. *)
Theorem C86_samples : forall os h s v l, run h (conf os) = Ret s -> c_marg cfg = false \/ never is_reset h -> chronological h ->
  In v (s_views s) -> v_imu v = Some l ->
  l_ti l < l_tj l /\
  exists xs, l_buf l = buffer xs /\ rising xs /\ (5 <= length xs)%nat /\ covers xs (l_ti l) (l_tj l) /\
    (forall t a w, In (t, (a, w)) xs -> In (EImu t a w) h) /\
    (never is_reset h -> forall t a w, In (EImu t a w) h -> l_ti l <= t <= l_tj l -> In (t, (a, w)) xs).
Proof.
  intros os h s v l E Hr C Hv Hl. pose proof (run_flow _ _ _ _ _ _ _ os h s E Hr C) as F.
  destruct (f_links _ _ F v l Hv Hl) as [A O Lt Ln (x & r & Ef & Hf) (y & q & Eb & Hb) K1 K2].
  split; [auto|]. exists (samples (l_buf l)). split; [apply buffer_ofs; auto|]. split; [apply rising_sorted; exact O|]. split.
  { rewrite (ofs_samples _ A), size_ofs in Ln. lia. }
  split; [|auto]. exists x, y. rewrite Ef at 1. rewrite Eb, rev_app_distr. auto.
Qed.
(** So with no delay, or a negative one, every residual can be evaluated, whatever the estimates; with a delay that
    reaches past the last sample it reads outside the buffer. *)
Theorem C86_evaluates : forall os h s v l ip td x0 x1 s0 s1, run h (conf os) = Ret s -> c_marg cfg = false \/ never is_reset h -> chronological h ->
  In v (s_views s) -> v_imu v = Some l ->
  exists last, In last (i_ts (l_buf l)) /\ l_tj l <= last /\
  (l_tj l + td <= last -> exists e, imu_evaluate (l_buf l) ip (l_ti l) (l_tj l) td x0 x1 s0 s1 = Ret e) /\
  (last < l_tj l + td -> imu_evaluate (l_buf l) ip (l_ti l) (l_tj l) td x0 x1 s0 s1 = Undef).
Proof.
  intros os h s v l ip td x0 x1 s0 s1 E Hr C Hv Hl.
  destruct (C86_samples os h s v l E Hr C Hv Hl) as (Lt & xs & -> & Rs & Ln & (f & b & Hf & Hb & _ & Ht) & _).
  assert (N : xs <> []) by (intros -> ; cbn in Ln; lia).
  assert (Kb : exists xs', xs = xs' ++ [b]).
  { destruct (rev xs) as [|z q] eqn:Er; [discriminate|]. cbn in Hb. inversion Hb; subst z. exists (rev q). rewrite <- (rev_involutive xs), Er. reflexivity. }
  exists (fst b). split; [|split; [auto|]].
  { destruct Kb as (xs' & -> ). cbn [buffer i_ts]. rewrite map_app. apply in_or_app. right. left. reflexivity. }
  destruct (C84_outcome xs ip (l_ti l) (l_tj l) td x0 x1 s0 s1 Rs N) as (O1 & O2). split.
  - intros H. apply O1. split; [lia|]. split; [auto|]. exists b. auto.
  - intros H. apply O2. intros (_ & _ & b' & Hb' & Hle). rewrite Hb in Hb'. inversion Hb'; subst b'. lia.
Qed.
End T.

(** ** Examples *)
(** a decision procedure for [chronological] *)
Fixpoint check_one (x : event) (imu : bool) (l : list event) : bool :=
  match l with
  | [] => true
  | y :: r => match x, y with
              | EImu t _ _, EImu u _ _ => t <? u
              | EImu t _ _, EGrid _ g => t <=? g_ts g
              | EGrid _ g, EImu u _ _ => g_ts g <=? u
              | EGrid _ g, EGrid _ g' => negb imu || (g_ts g <? g_ts g')
              | _, _ => true
              end && check_one x (match y with EImu _ _ _ => true | _ => imu end) r
  end.
Fixpoint check (l : list event) : bool := match l with [] => true | x :: r => check_one x false r && check r end.
Lemma check_one_sound x l : forall imu, check_one x imu l = true -> forall mid y post, l = mid ++ y :: post ->
  match x, y with
  | EImu t _ _, EImu u _ _ => t < u
  | EImu t _ _, EGrid _ g => t <= g_ts g
  | EGrid _ g, EImu u _ _ => g_ts g <= u
  | EGrid _ g, EGrid _ g' => (imu = true \/ exists t a w, In (EImu t a w) mid) -> g_ts g < g_ts g'
  | _, _ => True
  end.
Proof.
  induction l as [|z l IH]; intros imu H mid y post E; [destruct mid; discriminate|].
  cbn [check_one] in H. apply andb_true_iff in H as (H1 & H2). destruct mid as [|m mid]; cbn in E; inversion E; subst z l.
  - destruct x, y; auto; try (apply Z.ltb_lt in H1; auto); try (apply Z.leb_le in H1; auto).
    intros [ -> |(t & a & w & [])]. cbn in H1. apply Z.ltb_lt in H1. auto.
  - specialize (IH _ H2 mid y post eq_refl). destruct x, y; auto. intros [ -> |(t & a & w & [ -> |H])]; apply IH; auto.
    + left. destruct m; auto.
    + right. eauto.
Qed.
Lemma check_sound l : check l = true -> chronological l.
Proof.
  intros H pre. revert l H. induction pre as [|p pre IH]; intros l H x mid y post E; subst l; cbn [app check] in H; apply andb_true_iff in H as (H1 & H2).
  - pose proof (check_one_sound _ _ _ H1 mid y post eq_refl) as K. destruct x, y; auto.
  - exact (IH _ H2 x mid y post eq_refl).
Qed.
(** the example of C85 is such a history *)
Example C86_example : chronological (ex_h 5) /\ never is_reset (ex_h 5) /\ summary (ex_run true 2 (ex_h 5)) <> None /\
  match ex_run true 2 (ex_h 5) with
  | Ret s => map (fun v => option_map (fun l => (l_ti l, l_tj l, i_ts (l_buf l))) (v_imu v)) (s_views s)
  | _ => [] end = [Some (195, 245, [190; 200; 210; 220; 230; 240; 250]); None].
Proof.
  split; [apply check_sound; vm_compute; reflexivity|]. split.
  { intros e H. assert (K : forallb (fun e => negb (is_reset e)) (ex_h 5) = true) by (vm_compute; reflexivity).
    rewrite forallb_forall in K. apply K in H. apply negb_true_iff in H. exact H. }
  split; [vm_compute; discriminate|vm_compute; reflexivity].
Qed.
(** An IMU that runs at twice the rate of the camera is too slow: with marginalisation the calibrator gives up. *)
Definition slow (n : nat) : list event :=
  flat_map (fun k => map (fun j => imu_at (20 * Z.of_nat k + 10 * j)) [0; 1] ++ [EGrid 0 (frame (20 * Z.of_nat k + 15))]) (seq 0 n) ++ [imu_at (20 * Z.of_nat n)].
Theorem C86_slow_imu_refuted : exists h, chronological h /\ ex_run true 5 h = Throw Fatal.
Proof. exists (slow 4). split; [apply check_sound; vm_compute; reflexivity|vm_compute; reflexivity]. Qed.
(** An IMU sample older than the frame handed over before it: the residual that results reads outside its buffer. *)
Definition late : list event :=
  map imu_at [0; 10; 20; 30; 40] ++ [EGrid 0 (frame 45); imu_at 50; imu_at 60; imu_at 70; EGrid 0 (frame 95); imu_at 80].
Theorem C86_late_imu_refuted : exists s v l, ex_run false 2 late = Ret s /\ In v (s_views s) /\ v_imu v = Some l /\
  forall ip x0 x1 s0 s1, imu_evaluate (l_buf l) ip (l_ti l) (l_tj l) 0 x0 x1 s0 s1 = Undef.
Proof.
  assert (K : match ex_run false 2 late with
    | Ret s => map (fun v => option_map (fun l => (l_ti l, l_tj l, l_buf l)) (v_imu v)) (s_views s)
    | _ => [] end = [Some (45, 95, buffer (map (fun t => (t, (vzero, vzero))) [0; 10; 20; 30; 40; 50; 60; 70; 80])); None]) by (vm_compute; reflexivity).
  destruct (ex_run false 2 late) as [s| |]; try discriminate K.
  destruct (s_views s) as [|v r] eqn:Ev; [discriminate K|]. cbn [map] in K. destruct (v_imu v) as [l|] eqn:El; [|discriminate K].
  exists s, v, l. split; [reflexivity|]. split; [rewrite Ev; left; reflexivity|]. split; [auto|]. cbn [option_map] in K.
  apply (f_equal (hd None)) in K. cbn [hd] in K.
  assert (K' : (l_ti l, l_tj l, l_buf l) = (45, 95, buffer (map (fun t => (t, (vzero, vzero))) [0; 10; 20; 30; 40; 50; 60; 70; 80]))).
  { exact (f_equal (fun o => match o with Some u => u | None => (0, 0, imu_empty) end) K). }
  pose proof (f_equal (fun u => fst (fst u)) K') as K1. pose proof (f_equal (fun u => snd (fst u)) K') as K2. pose proof (f_equal snd K') as K3. cbn [fst snd] in K1, K2, K3.
  rewrite K1, K2, K3. intros. apply C84_outcome.
  - cbn. lia.
  - discriminate.
  - intros (_ & _ & b & Hb & Hl). cbn in Hb. inversion Hb; subst b. cbn in Hl. lia.
Qed.
(** A first frame in which only the second camera sees the target: the calibrator gives up instead of waiting. *)
Definition ex_os2 : list setup := ex_os ++ [SCam 1 [] I4 true true].
Definition blind (ts : Z) : vgrid := VGrid ts false [].
Theorem C85_other_camera_refuted : exists h, chronological h /\ never is_reset h /\
  vrun 0 0 ex_pnp ex_pick ex_slv ex_reproj (ex_cfg false 2) h (configure 0 0 ex_os2) = Throw Fatal.
Proof.
  exists (map imu_at [0; 10; 20; 30] ++ [EGrid 0 (blind 35); EGrid 1 (frame 35); imu_at 40]). split; [apply check_sound; vm_compute; reflexivity|]. split.
  { intros e H. cbn in H. repeat destruct H as [ <- |H]; try reflexivity. destruct H. }
  vm_compute. reflexivity.
Qed.
