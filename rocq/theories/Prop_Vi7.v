(** * C90 (continued): the columns and the Hessian of the visual-inertial calibrator *)
From Verif Require Import Base GeomModel EulerModel StatsModel ImuModel ImuSpec ViModel ViSpec ViProofs ViProofs2 ViProofs3 ViProofs4 ViProofs5 Prop_Vi2 Prop_Vi3 ViProofs6.
From Verif Require Import SolverLsqModel SolverLsqProofs ViHessModel Prop_Vi6.
From Coq Require Import Reals Lra Sorted Permutation.
Local Open Scope Z_scope.

Section L.
Context (info : Z -> pinfo).
Definition is_free (p : Z) : bool := negb (pi_fixed (info p)).
Lemma sizes_perm l l' : Permutation l l' -> sum_sizes info l = sum_sizes info l'.
Proof. unfold sum_sizes. induction 1; cbn [fold_right] in *; lia. Qed.
Lemma sum_cons z k : sum_sizes info (z :: k) = pi_size (info z) + sum_sizes info k. Proof. reflexivity. Qed.
Lemma track_len all : let t := fold_left (track_block info) all track0 in
  NoDup (t_seen t) /\ (forall p, In p (t_seen t) <-> In p all) /\ t_len t = sum_sizes info (filter is_free (t_seen t)).
Proof.
  induction all as [|p all IH] using rev_ind; cbv zeta.
  - cbn. split; [constructor|]. split; [intros; tauto|reflexivity].
  - rewrite fold_left_app. cbn [fold_left]. cbv zeta in IH. set (t := fold_left (track_block info) all track0) in *. destruct IH as (N & I & Le).
    unfold track_block. destruct (existsb (Z.eqb p) (t_seen t)) eqn:E.
    + apply existsb_eqb in E. split; auto. split; auto. intros q. rewrite I, in_app_iff. cbn. apply I in E. intuition congruence.
    + assert (Np : ~ In p (t_seen t)) by (intros H; apply existsb_eqb in H; congruence).
      assert (K : forall q, In q (p :: t_seen t) <-> In q (all ++ [p])) by (intros q; rewrite in_app_iff; cbn; rewrite I; intuition).
      assert (N' : NoDup (p :: t_seen t)) by (constructor; auto).
      destruct (pi_fixed (info p)) eqn:Ef.
      * cbn [t_seen t_len filter]. unfold is_free at 1. rewrite Ef. cbn [negb]. auto.
      * destruct (pi_type (info p)); cbn [t_seen t_len filter]; unfold is_free at 1; rewrite Ef; cbn [negb];
          (split; [auto|split; [auto|]]); cbn [sum_sizes fold_right]; fold (sum_sizes info (filter is_free (t_seen t))); lia.
Qed.
End L.

Section H.
Context (cam_size : Z -> Z) (addr : pid -> Z) (info : Z -> pinfo) (fixed : list pid).
Hypothesis Ho : objects cam_size addr info fixed.
Context (l : list (rid * list pid)).
Notation size p := (pi_size (vi_info cam_size fixed p)).
Notation o := (vi_order addr info l).
Notation t := (vi_track addr info l).
Definition used_in (p : pid) : Prop := exists x, In x l /\ In p (snd x).
Lemma used_iff p : In (addr p) (map addr (flat_map snd l)) <-> used_in p.
Proof.
  rewrite in_map_iff. split.
  - intros (q & E & H). apply Ho in E. subst. apply in_flat_map in H as (x & Hx & H). exists x. auto.
  - intros (x & Hx & H). exists p. split; auto. apply in_flat_map. eauto.
Qed.
Lemma info_at p : info (addr p) = vi_info cam_size fixed p. Proof. apply Ho. Qed.
Lemma fixed_at p : pi_fixed (info (addr p)) = pid_in p fixed. Proof. rewrite info_at. destruct p; reflexivity. Qed.
Lemma type_at p : pi_type (info (addr p)) = TOther <-> p = PDelay.
Proof. rewrite info_at. destruct p; cbn; split; congruence. Qed.
Lemma size_nonneg p : 0 <= size p. Proof. destruct p; cbn; try lia. apply Ho. Qed.
Definition cols : list Z := t_ext t ++ t_pose t ++ t_sb t ++ t_cam t ++ t_fid t.
Lemma cols_perm : Permutation cols (columns t).
Proof.
  unfold cols, columns. generalize (t_ext t) as e, (t_pose t) as p, (t_sb t) as s, (t_cam t) as c, (t_fid t) as f. intros.
  rewrite (app_assoc s c), (app_assoc p (s ++ c)). etransitivity; [apply Permutation_app_comm|].
  rewrite <- !app_assoc. apply Permutation_app_head, Permutation_app_head, Permutation_app_head. apply Permutation_app_comm.
Qed.
Lemma cols_nodup : NoDup cols.
Proof. apply (Permutation_NoDup (Permutation_sym cols_perm)). eapply columns_NoDup, track_inv. Qed.
Lemma cols_in z : In z cols <-> exists p, z = addr p /\ used_in p /\ ~ In p fixed /\ p <> PDelay.
Proof.
  assert (K : In z cols <-> In z (columns t)) by (split; apply Permutation_in; [|apply Permutation_sym]; apply cols_perm).
  rewrite K, (columns_In info _ t z (track_inv info _)). split.
  - intros (Hz & Hf & Ht). apply in_map_iff in Hz as (p & <- & Hp). exists p. split; auto.
    rewrite fixed_at in Hf. apply pid_in_false in Hf. rewrite type_at in Ht. split; [|auto]. apply in_flat_map in Hp as (x & Hx & Hp). exists x; auto.
  - intros (p & -> & Hu & Hf & Hd). rewrite used_iff, fixed_at, type_at. apply pid_in_false in Hf. auto.
Qed.
Lemma cols_pid p : In (addr p) cols <-> used_in p /\ ~ In p fixed /\ p <> PDelay.
Proof. rewrite cols_in. split; [intros (q & E & H); apply Ho in E; subst; auto|intros H; exists p; auto]. Qed.
Lemma sum_cols : vi_length addr info l = sum_sizes info cols + (if in_dec pid_eq PDelay (flat_map snd l) then if pid_in PDelay fixed then 0 else 1 else 0).
Proof.
  unfold vi_length. destruct (track_len info (map addr (flat_map snd l))) as (N & I & Le). fold (vi_track addr info l) in N, I, Le.
  rewrite Le. clear Le.
  assert (Fr : forall z, In z (filter (is_free info) (t_seen t)) <-> exists p, z = addr p /\ used_in p /\ ~ In p fixed).
  { intros z. rewrite filter_In, I. unfold is_free. split.
    - intros (Hz & Hf). apply in_map_iff in Hz as (p & <- & Hp). exists p. apply in_flat_map in Hp as (x & Hx & Hp). split; auto.
      rewrite fixed_at in Hf. apply negb_true_iff in Hf. apply pid_in_false in Hf. split; [exists x; auto|auto].
    - intros (p & -> & Hu & Hf). rewrite used_iff, fixed_at. apply pid_in_false in Hf. rewrite Hf. auto. }
  assert (Nf := nodup_filter (is_free info) _ N). set (fr := filter _ _) in *. clearbody fr.
  assert (Du : In PDelay (flat_map snd l) <-> used_in PDelay).
  { rewrite in_flat_map. unfold used_in. reflexivity. }
  assert (Same : (~ used_in PDelay \/ In PDelay fixed) -> sum_sizes info fr = sum_sizes info cols).
  { intros Hd. apply sizes_perm. apply NoDup_Permutation; auto. apply cols_nodup. intros z. rewrite Fr, cols_in.
    split; intros (p & E & H1 & H2); exists p; (split; [auto|split; [auto|]]); [|tauto]. split; auto. intros -> . tauto. }
  destruct (in_dec pid_eq PDelay (flat_map snd l)) as [Hu|Hu]; rewrite Du in Hu.
  - destruct (pid_in PDelay fixed) eqn:Ef.
    + apply pid_in_iff in Ef. rewrite Same by auto. lia.
    + apply pid_in_false in Ef. assert (P : Permutation fr (addr PDelay :: cols)).
      { apply NoDup_Permutation; auto.
        - constructor; [|apply cols_nodup]. rewrite cols_pid. tauto.
        - intros z. rewrite Fr. cbn [In]. rewrite cols_in. split.
          + intros (p & -> & H1 & H2). destruct (pid_eq p PDelay) as [ -> |Hn]; [auto|right; exists p; auto].
          + intros [ <- |(p & -> & H1 & H2 & _)]; eauto. }
      rewrite (sizes_perm info _ _ P), sum_cons, info_at. cbn [vi_info pi_size]. lia.
  - rewrite Same by auto. lia.
Qed.
Lemma order_spec p i : columns_of addr o p i <-> exists l1 l2, cols = l1 ++ addr p :: l2 /\ i = sum_sizes info l1.
Proof. unfold columns_of, vi_order. fold cols. rewrite (assign_find info cols 0 (addr p) cols_nodup). cbn. reflexivity. Qed.
Lemma sizes_nonneg' l1 l2 : cols = l1 ++ l2 -> 0 <= sum_sizes info l1 /\ 0 <= sum_sizes info l2.
Proof.
  assert (K : forall k, (forall z, In z k -> In z cols) -> 0 <= sum_sizes info k).
  { induction k as [|z k IH]; intros H; [cbn; lia|]. rewrite sum_cons.
    assert (Hz : In z cols) by (apply H; left; auto). apply cols_in in Hz as (p & -> & _). rewrite info_at. pose proof (size_nonneg p).
    assert (0 <= sum_sizes info k) by (apply IH; intros; apply H; right; auto). lia. }
  intros E. split; apply K; intros z Hz; rewrite E; apply in_or_app; auto.
Qed.
Lemma order_range p i : columns_of addr o p i -> 0 <= i /\ i + size p <= sum_sizes info cols.
Proof.
  intros H. apply order_spec in H as (l1 & l2 & E & -> ). destruct (sizes_nonneg' _ _ E) as (A & B).
  rewrite E, sum_sizes_app. rewrite sum_cons in *. rewrite info_at in *.
  destruct (sizes_nonneg' (l1 ++ [addr p]) l2) as (_ & C); [rewrite <- app_assoc; auto|]. lia.
Qed.
Lemma order_disjoint p q i j c : columns_of addr o p i -> columns_of addr o q j -> i <= c < i + size p -> j <= c < j + size q -> p = q.
Proof.
  intros Hi Hj Ci Cj. destruct (pid_eq p q) as [|Hne]; auto. exfalso.
  apply order_spec in Hi as (l1 & l2 & E1 & -> ). apply order_spec in Hj as (m1 & m2 & E2 & -> ).
  assert (Hne' : addr p <> addr q) by (intros E; apply Hne; apply Ho; auto).
  destruct (split_two cols (addr p) (addr q) Hne' l1 l2 m1 m2 E1 E2) as [[k -> ]|[k -> ]].
  - destruct (sizes_nonneg' (l1 ++ [addr p]) (k ++ addr q :: m2)) as (_ & B); [rewrite E2, <- !app_assoc; reflexivity|].
    destruct (sizes_nonneg' (l1 ++ addr p :: k) (addr q :: m2)) as (_ & B2); [rewrite E2; reflexivity|].
    rewrite sum_sizes_app in *. rewrite ?sum_cons in *. rewrite ?info_at in *.
    assert (0 <= sum_sizes info k).
    { assert (K : forall z, In z k -> In z cols) by (intros z Hz; rewrite E2; apply in_or_app; left; apply in_or_app; right; right; auto).
      clear -K Ho. induction k as [|z k IH]; [cbn; lia|]. rewrite sum_cons.
      assert (Hz : In z cols) by (apply K; left; auto). apply cols_in in Hz as (x & -> & _). rewrite info_at. pose proof (size_nonneg x).
      assert (0 <= sum_sizes info k) by (apply IH; intros; apply K; right; auto). lia. }
    lia.
  - rewrite sum_sizes_app in *. rewrite ?sum_cons in *. rewrite ?info_at in *.
    assert (0 <= sum_sizes info k).
    { assert (K : forall z, In z k -> In z cols) by (intros z Hz; rewrite E1; apply in_or_app; left; apply in_or_app; right; right; auto).
      clear -K Ho. induction k as [|z k IH]; [cbn; lia|]. rewrite sum_cons.
      assert (Hz : In z cols) by (apply K; left; auto). apply cols_in in Hz as (x & -> & _). rewrite info_at. pose proof (size_nonneg x).
      assert (0 <= sum_sizes info k) by (apply IH; intros; apply K; right; auto). lia. }
    lia.
Qed.
Lemma order_some p : (exists i, columns_of addr o p i) <-> used_in p /\ ~ In p fixed /\ p <> PDelay.
Proof. unfold columns_of, vi_order. fold cols. rewrite assign_find_In. apply cols_pid. Qed.
Lemma order_cover c : 0 <= c < sum_sizes info cols -> exists p i, columns_of addr o p i /\ i <= c < i + size p.
Proof.
  intros Hc. destruct (assign_cover info cols 0 c Hc) as (l1 & z & l2 & E & H).
  assert (Hz : In z cols) by (rewrite E; apply in_or_app; right; left; auto). apply cols_in in Hz as (p & -> & _).
  exists p, (sum_sizes info l1). split; [apply order_spec; eauto|]. rewrite info_at in H. lia.
Qed.

(** *** rows *)
Context (ev : rid -> option evaluated).
Lemma jrow_at ps J k p i a : NoDup ps -> (forall q, In q ps -> q = PDelay -> In q fixed) -> (forall q, In q ps -> used_in q) ->
  columns_of addr o p i -> 0 <= a < size p ->
  jrow info o (map (fun q => (addr q, J q)) ps) k (i + a) = if pid_in p ps then J p k a else 0%R.
Proof.
  intros Hn Hd Hu Hp Ha. pose proof (proj1 (order_some p) (ex_intro _ i Hp)) as (_ & Fp & _).
  assert (Z0 : forall ps, (forall q, In q ps -> q = PDelay -> In q fixed) -> (forall q, In q ps -> used_in q) -> ~ In p ps ->
    jrow info o (map (fun q => (addr q, J q)) ps) k (i + a) = 0%R).
  { clear ps Hn Hd Hu. intros ps Hd Hu Np. apply jrow_zero. intros x Hx Hf. apply in_map_iff in Hx as (q & <- & Hq). cbn [fst] in *.
    rewrite fixed_at in Hf. apply pid_in_false in Hf.
    assert (Hs : exists j, columns_of addr o q j) by (apply order_some; split; [auto|split; [auto|]]; intros E; apply Hf, Hd; auto).
    destruct Hs as (j & Hj). destruct (in_blk _ _ _) eqn:Eb; [|reflexivity]. exfalso. apply Np.
    unfold order_at, in_blk in Eb. unfold columns_of in Hj. rewrite Hj, info_at in Eb.
    replace p with q; [auto|]. apply (order_disjoint q p j i (i + a)); auto; lia. }
  induction ps as [|q ps IH]; [reflexivity|]. inversion Hn; subst. cbn [map]. rewrite jrow_cons.
  destruct (pid_eq p q) as [ <- |Hne].
  - rewrite Z0; [| intros; apply Hd; cbn; auto | intros; apply Hu; cbn; auto | auto].
    assert (Ein : pid_in p (p :: ps) = true) by (apply pid_in_iff; left; auto). rewrite Ein.
    rewrite ent_free by (cbn [fst]; rewrite fixed_at; apply pid_in_false; auto). cbn [fst snd]. unfold order_at. unfold columns_of in Hp. rewrite Hp.
    rewrite info_at. replace (in_blk i (size p) (i + a)) with true by (unfold in_blk; symmetry; lia).
    replace (i + a - i) with a by lia. lra.
  - rewrite IH; [|auto|intros; apply Hd; cbn; auto|intros; apply Hu; cbn; auto].
    pose proof (Z0 [q]) as K. cbn [map] in K. rewrite jrow_cons in K. cbn [jrow fold_right] in K.
    replace (pid_in p (q :: ps)) with (pid_in p ps).
    2:{ destruct (pid_in p ps) eqn:E1; symmetry; [apply pid_in_iff in E1; apply pid_in_iff; right; auto|].
        apply pid_in_false in E1. apply pid_in_false. intros [E|E]; auto. }
    assert (K' : ent info o (addr q, J q) k (i + a) = 0%R).
    { assert (Kq : (ent info o (addr q, J q) k (i + a) + 0)%R = 0%R); [apply K|lra].
      - intros r [ <- |[]]. apply Hd. left; auto.
      - intros r [ <- |[]]. apply Hu. left; auto.
      - intros [E|[]]. auto. }
    rewrite K'. lra.
Qed.
Lemma hessian_entry H p q i j a b : vi_hessian ev addr info l = Ret H -> (forall x, In x l -> NoDup (snd x)) ->
  (~ used_in PDelay \/ In PDelay fixed) -> columns_of addr o p i -> columns_of addr o q j -> 0 <= a < size p -> 0 <= b < size q ->
  H (i + a) (j + b) = normal_entry ev l p q a b.
Proof.
  intros E Hn Hd Hi Hj Ha Hb. unfold vi_hessian in E. apply bind_ret in E as (rs & Er & E). inversion E; subst H. clear E.
  rewrite (proj1 (form_hessian_spec info o rs (i + a) (j + b))).
  assert (K : forall m rs, (forall x, In x m -> In x l) -> evaluate_all ev addr m = Ret rs ->
    sum_res (fun x => sumn (rs_n x) (fun k => (jrow info o (rs_blk x) k (i + a) * jrow info o (rs_blk x) k (j + b))%R)) rs = normal_entry ev m p q a b).
  { clear rs Er. induction m as [|x m IH]; intros rs Hm Er; cbn [evaluate_all] in Er; [inversion Er; reflexivity|].
    unfold evaluate1 in Er. destruct (ev (fst x)) as [e|] eqn:Ee; cbn [option_map] in Er; [|discriminate].
    apply bind_ret in Er as (ys & Ey & Er). inversion Er; subst rs. cbn [sum_res fold_right normal_entry].
    rewrite Ee. f_equal; [|apply IH; auto; intros; apply Hm; cbn; auto]. cbn [rs_n rs_blk].
    assert (Hx : In x l) by (apply Hm; left; auto).
    assert (D : forall r, In r (snd x) -> r = PDelay -> In r fixed).
    { intros r Hr -> . destruct Hd as [Hd|Hd]; auto. exfalso. apply Hd. exists x. auto. }
    assert (U : forall r, In r (snd x) -> used_in r) by (intros r Hr; exists x; auto).
    transitivity (sumn (e_n e) (fun k => ((if pid_in p (snd x) then e_jac e p k a else 0) * (if pid_in q (snd x) then e_jac e q k b else 0))%R)).
    { apply sumn_ext. intros k _. rewrite (jrow_at (snd x) (e_jac e) k p i a), (jrow_at (snd x) (e_jac e) k q j b); auto. }
    apply (sumn_if2 (e_n e) (pid_in p (snd x)) (pid_in q (snd x))). }
  apply K; auto.
Qed.
(** with a free delay nothing is ever written to the last row and column *)
Lemma hessian_last H n i c : vi_hessian ev addr info l = Ret H -> columns_of addr o (PPose n) i -> sum_sizes info cols <= c ->
  forall a, H a c = 0%R /\ H c a = 0%R.
Proof.
  intros E Hp Hc a. unfold vi_hessian in E. apply bind_ret in E as (rs & Er & E). inversion E; subst H. clear E.
  pose proof (order_range _ _ Hp) as Rp. cbn in Rp.
  assert (K : forall m rs, (forall x, In x m -> In x l) -> evaluate_all ev addr m = Ret rs ->
    forall y, In y rs -> forall k, jrow info o (rs_blk y) k c = 0%R).
  { clear rs Er. induction m as [|x m IH]; intros rs Hm Er y Hy k; cbn [evaluate_all] in Er; [inversion Er; subst; destruct Hy|].
    unfold evaluate1 in Er. destruct (ev (fst x)) as [e|]; cbn [option_map] in Er; [|discriminate].
    apply bind_ret in Er as (ys & Ey & Er). inversion Er; subst rs. destruct Hy as [ <- |Hy]; [|eapply IH; eauto; intros; apply Hm; cbn; auto].
    cbn [rs_blk]. apply jrow_zero. intros z Hz Hf. apply in_map_iff in Hz as (q & <- & Hq). cbn [fst] in *. rewrite fixed_at in Hf. apply pid_in_false in Hf.
    unfold order_at. rewrite info_at. unfold in_blk. destruct (order_find o (addr q)) as [j|] eqn:Ej.
    - pose proof (order_range q j Ej). lia.
    - assert (Eq : q = PDelay).
      { destruct (pid_eq q PDelay); auto. exfalso. destruct (proj2 (order_some q)) as (j & Hj).
        - split; [exists x; split; [apply Hm; left; auto|auto]|auto].
        - unfold columns_of in Hj. congruence. }
      subst q. cbn [vi_info pi_size]. lia. }
  assert (Z : forall f rs', (forall y, In y rs' -> f y = 0%R) -> sum_res f rs' = 0%R).
  { induction rs' as [|y rs' IH]; intros Hf; cbn [sum_res fold_right]; [reflexivity|]. fold (sum_res f rs'). rewrite (Hf y), IH; [lra| |]; intros; cbn; auto. apply Hf; cbn; auto. }
  split.
  - rewrite (proj1 (form_hessian_spec info o rs a c)). apply Z. intros y Hy. transitivity (sumn (rs_n y) (fun _ => 0%R)); [|apply sumn_0].
    apply sumn_ext. intros k _. rewrite (K l rs (fun x H => H) Er y Hy). lra.
  - rewrite (proj1 (form_hessian_spec info o rs c a)). apply Z. intros y Hy. transitivity (sumn (rs_n y) (fun _ => 0%R)); [|apply sumn_0].
    apply sumn_ext. intros k _. rewrite (K l rs (fun x H => H) Er y Hy). lra.
Qed.
End H.

(** a residual block of the problem that is counted is over block [p] *)
Definition involved (s : vi) (p : pid) : Prop :=
  exists x, In x (q_res (s_prob s)) /\ newest s (fst x) = false /\ In p (snd x).

Section T.
Context (z1 z3 : R) (pnp : list R -> list corner -> option mat4) (pick : nat -> Z -> list corner -> list corner)
        (slv : problem -> (pid -> list R) -> pid -> list R) (reproj : rid -> corner -> (pid -> list R) -> option (R * R))
        (cfg : settings).
Notation run := (vrun z1 z3 pnp pick slv reproj cfg).
Notation conf := (configure z1 z3).
Context (cam_size : Z -> Z) (addr : pid -> Z) (info : Z -> pinfo).

Lemma used_involved s l p : inv cfg s -> Permutation l (functions s) -> (used_in l p <-> involved s p).
Proof.
  intros I P. pose proof (functions_spec cfg s I) as F. split.
  - intros (x & Hx & Hp). apply (Permutation_in _ P), (Permutation_in _ F), filter_In in Hx as (Hx & Hn). apply negb_true_iff in Hn. exists x. auto.
  - intros (x & Hx & Hn & Hp). exists x. split; auto. apply (Permutation_in _ (Permutation_sym P)), (Permutation_in _ (Permutation_sym F)), filter_In.
    rewrite Hn. auto.
Qed.
(** *** C90, columns *)
(** With a fixed time delay, the blocks that own columns are exactly those of the counted residuals that are not
    fixed; each column of the matrix belongs to exactly one of them. *)
Theorem C90_layout_partial : forall os h s l, run h (conf os) = Ret s -> c_marg cfg = false \/ never is_reset h ->
  Permutation l (functions s) -> objects cam_size addr info (s_fixed s) -> In PDelay (s_fixed s) ->
  let o := vi_order addr info l in let size p := block_size cam_size p in
  (forall p, (exists i, columns_of addr o p i) <-> involved s p /\ ~ In p (s_fixed s)) /\
  (forall p i, columns_of addr o p i -> 0 <= i /\ i + size p <= vi_length addr info l) /\
  (forall c, 0 <= c < vi_length addr info l -> exists p i, columns_of addr o p i /\ i <= c < i + size p) /\
  (forall p q i j c, columns_of addr o p i -> columns_of addr o q j -> i <= c < i + size p -> j <= c < j + size q -> p = q).
Proof.
  intros os h s l E Hr P Ho Hd o size.
  assert (Sz : forall p, size p = pi_size (vi_info cam_size (s_fixed s) p)) by (intros []; reflexivity).
  setoid_rewrite Sz. clear Sz size. pose proof (run_inv _ _ _ _ _ _ _ _ _ _ E Hr (configure_inv z1 z3 cfg os)) as I.
  assert (Ln : vi_length addr info l = sum_sizes info (cols addr info l)).
  { rewrite (sum_cols cam_size addr info _ Ho l). apply pid_in_iff in Hd. rewrite Hd. destruct (in_dec _ _ _); lia. }
  split; [|split; [|split]].
  - intros p. unfold o. rewrite (order_some cam_size addr info _ Ho l p), (used_involved s l p I P). split; [tauto|].
    intros (H1 & H2). split; [auto|split; auto]. intros -> . auto.
  - intros p i H. rewrite Ln. apply (order_range cam_size addr info _ Ho l). auto.
  - intros c Hc. rewrite Ln in Hc. apply (order_cover cam_size addr info _ Ho l); auto.
  - intros p q i j c. apply (order_disjoint cam_size addr info _ Ho l).
Qed.
(** ... and the matrix is J^T J of these residuals with respect to these blocks. *)
Theorem C90_hessian_partial : forall os h s l ev H p q i j a b, run h (conf os) = Ret s -> c_marg cfg = false \/ never is_reset h ->
  Permutation l (functions s) -> objects cam_size addr info (s_fixed s) -> In PDelay (s_fixed s) ->
  vi_hessian ev addr info l = Ret H ->
  columns_of addr (vi_order addr info l) p i -> columns_of addr (vi_order addr info l) q j ->
  0 <= a < block_size cam_size p -> 0 <= b < block_size cam_size q ->
  H (i + a) (j + b) = normal_entry ev (filter (fun x => negb (newest s (fst x))) (q_res (s_prob s))) p q a b.
Proof.
  intros os h s l ev H p q i j a b E Hr P Ho Hd EH Hi Hj Ha Hb.
  assert (Sz : forall p, block_size cam_size p = pi_size (vi_info cam_size (s_fixed s) p)) by (intros []; reflexivity).
  rewrite Sz in Ha, Hb. clear Sz. pose proof (run_inv _ _ _ _ _ _ _ _ _ _ E Hr (configure_inv z1 z3 cfg os)) as I.
  rewrite (hessian_entry cam_size addr info _ Ho l ev H p q i j a b EH); auto.
  - apply normal_perm. etransitivity; [exact P|]. apply (functions_spec cfg); auto.
  - intros x Hx. apply (functions_nodup cfg s I); [|eapply Permutation_in; eauto]. eapply run_prior; eauto.
Qed.
(** It is formed exactly when all counted residuals can be evaluated. *)
Theorem C90_hessian_fails : forall os h s l ev, run h (conf os) = Ret s -> c_marg cfg = false \/ never is_reset h ->
  Permutation l (functions s) ->
  ((exists H, vi_hessian ev addr info l = Ret H) <-> forall x, In x (q_res (s_prob s)) -> newest s (fst x) = false -> ev (fst x) <> None) /\
  ((forall H, vi_hessian ev addr info l <> Ret H) -> vi_hessian ev addr info l = Throw Fatal).
Proof.
  intros os h s l ev E Hr P. pose proof (run_inv _ _ _ _ _ _ _ _ _ _ E Hr (configure_inv z1 z3 cfg os)) as I.
  assert (K : forall m, ((exists rs, evaluate_all ev addr m = Ret rs) <-> forall x, In x m -> ev (fst x) <> None) /\
              ((forall rs, evaluate_all ev addr m <> Ret rs) -> evaluate_all ev addr m = Throw Fatal)).
  { clear. induction m as [|x m (IH1 & IH2)]; cbn [evaluate_all].
    - split; [split; [intros _ x []|eauto]|intros H; exfalso; eapply H; eauto].
    - unfold evaluate1. destruct (ev (fst x)) as [e|] eqn:Ee; cbn [option_map].
      + split.
        * split.
          -- intros (rs & H) y [ <- |Hy]; [congruence|]. apply bind_ret in H as (ys & H & _). apply IH1; eauto.
          -- intros H. destruct (proj2 IH1) as (ys & Hy); [intros; apply H; cbn; auto|]. rewrite Hy. cbn. eauto.
        * intros H. destruct (evaluate_all ev addr m) as [ys|ex|]; cbn [obind] in *; [exfalso; eapply H; eauto| |]; apply IH2; discriminate.
      + split; [|auto]. split; [intros (rs & H); discriminate|]. intros H. exfalso. apply (H x); cbn; auto. }
  destruct (K l) as (K1 & K2). unfold vi_hessian. split.
  - split.
    + intros (H & EH) x Hx Hn. apply bind_ret in EH as (rs & Er & _). apply (proj1 K1); eauto.
      apply (Permutation_in _ (Permutation_sym P)), (Permutation_in _ (Permutation_sym (functions_spec cfg s I))), filter_In. rewrite Hn. auto.
    + intros H. destruct (proj2 K1) as (rs & Er).
      { intros x Hx. apply (Permutation_in _ P), (Permutation_in _ (functions_spec cfg s I)), filter_In in Hx as (Hx & Hn). apply H; auto. apply negb_true_iff; auto. }
      rewrite Er. cbn. eauto.
  - intros H. rewrite K2; [reflexivity|]. intros rs Er. rewrite Er in H. cbn in H. eapply H; eauto.
Qed.
(** With a free time delay and at least two views the delay has no column, yet the matrix has one more: its last row and
    column are zero, so it is singular whatever was measured. *)
Theorem C90_delay_refuted : forall os h s l ev H, run h (conf os) = Ret s -> c_marg cfg = false \/ never is_reset h ->
  Permutation l (functions s) -> objects cam_size addr info (s_fixed s) -> ~ In PDelay (s_fixed s) -> (2 <= length (s_views s))%nat ->
  vi_hessian ev addr info l = Ret H ->
  let n := vi_length addr info l in
  involved s PDelay /\ (forall i, ~ columns_of addr (vi_order addr info l) PDelay i) /\
  7 <= n /\ forall a, H a (n - 1) = 0%R /\ H (n - 1) a = 0%R.
Proof.
  intros os h s l ev H E Hr P Ho Hd Hv EH n. pose proof (run_inv _ _ _ _ _ _ _ _ _ _ E Hr (configure_inv z1 z3 cfg os)) as I.
  destruct (s_views s) as [|v [|w r]] eqn:Ev; cbn in Hv; try lia.
  pose proof (v_chain _ _ I) as Ch. rewrite Ev in Ch. destruct Ch as ((b & Eb) & _).
  assert (Hx : In (RImu (v_id v), imu_params_of (v_id v) (v_id w)) l).
  { apply (Permutation_in _ (Permutation_sym P)). unfold functions. rewrite Ev. apply in_or_app. left. cbn [flat_map]. apply in_or_app. left.
    unfold view_functions. rewrite Eb. apply in_or_app. right. left. reflexivity. }
  assert (U : used_in l PDelay) by (eexists; split; [exact Hx|cbn; auto 6]).
  assert (Up : used_in l (PPose (v_id v))) by (eexists; split; [exact Hx|cbn; auto 6]).
  destruct (proj2 (order_some cam_size addr info _ Ho l (PPose (v_id v)))) as (i & Hi).
  { split; auto. split; [|discriminate]. intros Hf. apply (v_fixed _ _ I) in Hf. apply Hf. exact Logic.I. }
  assert (Ln : n = sum_sizes info (cols addr info l) + 1).
  { unfold n. rewrite (sum_cols cam_size addr info _ Ho l). apply pid_in_false in Hd. rewrite Hd. destruct (in_dec _ _ _) as [|Hn]; [lia|].
    exfalso. apply Hn. apply in_flat_map. destruct U as (x & H1 & H2). eauto. }
  pose proof (order_range cam_size addr info _ Ho l _ _ Hi) as Rg. cbn in Rg.
  split; [apply (used_involved s l PDelay I P); auto|]. split.
  - intros j Hj. apply (proj1 (order_some cam_size addr info _ Ho l PDelay)); eauto.
  - split; [lia|]. apply (hessian_last cam_size addr info _ Ho l ev H (v_id v) i); auto. lia.
Qed.
End T.

(** ** A concrete calibrator (Prop_Vi3.v): two views, one corner kept in each, delay fixed; and with a free delay *)
Definition ex_addr (p : pid) : Z :=
  match p with PDelay => 0 | PImuExt => 1 | PFid => 2 | PCamExt c => 3 + 4 * (if c <? 0 then - (2 * c) - 1 else 2 * c)
  | PCam c => 4 + 4 * (if c <? 0 then - (2 * c) - 1 else 2 * c) | PPose n => 5 + 4 * Z.of_nat n | PSb n => 6 + 4 * Z.of_nat n end.
Definition ex_info (fixed : list pid) (z : Z) : pinfo :=
  if z =? 0 then vi_info (fun _ => 8) fixed PDelay else if z =? 1 then vi_info (fun _ => 8) fixed PImuExt else if z =? 2 then vi_info (fun _ => 8) fixed PFid else
  let k := (z - 3) / 4 in let c := if Z.even k then k / 2 else - ((k + 1) / 2) in
  let n := Z.to_nat k in
  match (z - 3) mod 4 with 0 => vi_info (fun _ => 8) fixed (PCamExt c) | 1 => vi_info (fun _ => 8) fixed (PCam c)
  | 2 => vi_info (fun _ => 8) fixed (PPose n) | _ => vi_info (fun _ => 8) fixed (PSb n) end.
Lemma code_inv c : let k := if c <? 0 then - (2 * c) - 1 else 2 * c in 0 <= k /\ (if Z.even k then k / 2 else - ((k + 1) / 2)) = c.
Proof.
  cbv zeta. destruct (c <? 0) eqn:E.
  - split; [lia|]. replace (Z.even (- (2 * c) - 1)) with false.
    + replace (- (2 * c) - 1 + 1) with ((- c) * 2) by lia. rewrite Z.div_mul by lia. lia.
    + replace (- (2 * c) - 1) with (1 + 2 * (- c - 1)) by lia. rewrite Z.even_add_mul_2. reflexivity.
  - split; [lia|]. rewrite Z.even_mul. cbn [orb Z.even]. replace (2 * c) with (c * 2) by lia. apply Z.div_mul. lia.
Qed.
Lemma ex_objects fixed : objects (fun _ => 8) ex_addr (ex_info fixed) fixed.
Proof.
  assert (K : forall p, ex_info fixed (ex_addr p) = vi_info (fun _ => 8) fixed p).
  { assert (D : forall k r, 0 <= k -> 0 <= r < 4 -> let z := 3 + r + 4 * k in (z =? 0) = false /\ (z =? 1) = false /\ (z =? 2) = false /\ (z - 3) / 4 = k /\ (z - 3) mod 4 = r).
    { intros k r Hk Hr. cbv zeta. repeat split; lia. }
    intros [| |c|c| |n|n]; try reflexivity; unfold ex_info; cbn [ex_addr].
    - destruct (code_inv c) as (A & B). set (k := if c <? 0 then _ else _) in *. destruct (D k 0 A ltac:(lia)) as (D1 & D2 & D3 & D4 & D5).
      replace (3 + 4 * k) with (3 + 0 + 4 * k) by lia. rewrite D1, D2, D3, D4, D5, B. reflexivity.
    - destruct (code_inv c) as (A & B). set (k := if c <? 0 then _ else _) in *. destruct (D k 1 A ltac:(lia)) as (D1 & D2 & D3 & D4 & D5).
      replace (4 + 4 * k) with (3 + 1 + 4 * k) by lia. rewrite D1, D2, D3, D4, D5, B. reflexivity.
    - destruct (D (Z.of_nat n) 2 ltac:(lia) ltac:(lia)) as (D1 & D2 & D3 & D4 & D5).
      replace (5 + 4 * Z.of_nat n) with (3 + 2 + 4 * Z.of_nat n) by lia. rewrite D1, D2, D3, D4, D5, Nat2Z.id. reflexivity.
    - destruct (D (Z.of_nat n) 3 ltac:(lia) ltac:(lia)) as (D1 & D2 & D3 & D4 & D5).
      replace (6 + 4 * Z.of_nat n) with (3 + 3 + 4 * Z.of_nat n) by lia. rewrite D1, D2, D3, D4, D5, Nat2Z.id. reflexivity. }
  split; [|split; [intros; lia|exact K]].
  intros p q. destruct p, q; cbn [ex_addr]; intros E; try reflexivity; repeat match goal with H : context [?c <? 0] |- _ => destruct (Z.ltb_spec c 0) end;
    first [exfalso; lia | f_equal; lia].
Qed.
Definition ex_ev (r : rid) : option evaluated := Some (Evaluated 2 (fun k => 1%R) (fun p k a => 1%R)).
Example C90_example : exists s l H, ex_run true 5 (ex_h 2) = Ret s /\ l = functions s /\ objects (fun _ => 8) ex_addr (ex_info (s_fixed s)) (s_fixed s) /\
  In PDelay (s_fixed s) /\ (2 <= length (s_views s))%nat /\ vi_hessian ex_ev ex_addr (ex_info (s_fixed s)) l = Ret H /\
  map fst l = [RCorner 0 0 0; RImu 0] /\ map fst (q_res (s_prob s)) = [RCorner 0 0 0; RCorner 1 0 0; RImu 0] /\
  vi_order ex_addr (ex_info (s_fixed s)) l = [(5, 0); (9, 6); (6, 12); (10, 21); (2, 30)] /\ vi_length ex_addr (ex_info (s_fixed s)) l = 32.
Proof.
  assert (K : match ex_run true 5 (ex_h 2) with Ret s => Some (s_fixed s, functions s, map fst (q_res (s_prob s)), length (s_views s)) | _ => None end =
    Some ([PImuExt; PDelay; PCam 0; PCamExt 0], [(RCorner 0 0 0, corner_params 0 0); (RImu 0, imu_params_of 0 1)], [RCorner 0 0 0; RCorner 1 0 0; RImu 0], 2%nat))
    by (vm_compute; reflexivity).
  destruct (ex_run true 5 (ex_h 2)) as [s| |] eqn:E; [|discriminate K|discriminate K]. clear E.
  assert (K1 : s_fixed s = [PImuExt; PDelay; PCam 0; PCamExt 0]) by (inversion K; reflexivity).
  assert (K2 : functions s = [(RCorner 0 0 0, corner_params 0 0); (RImu 0, imu_params_of 0 1)]) by (inversion K; reflexivity).
  assert (K3 : map fst (q_res (s_prob s)) = [RCorner 0 0 0; RCorner 1 0 0; RImu 0]) by (inversion K; reflexivity).
  assert (K4 : length (s_views s) = 2%nat) by (inversion K; reflexivity).
  eexists s, (functions s), _. split; [reflexivity|]. split; [reflexivity|]. split; [apply ex_objects|]. rewrite K1, K2, K4.
  split; [cbn; auto|]. split; [lia|]. split; [reflexivity|]. split; [reflexivity|]. split; [exact K3|]. split; vm_compute; reflexivity.
Qed.
Print Assumptions C90_cost_partial.
Print Assumptions C90_layout_partial.
Print Assumptions C90_hessian_partial.
Print Assumptions C90_delay_refuted.
