(** * Lemmas: searching the next best view *)
From Coq Require Import Reals Lra Sorted.
From Verif Require Import Base.
From stdpp Require Import gmap sets list.
From Verif Require Import AprilGridModel AprilGridSpec AprilGridProofs AprilGridIOModel SolverModel SolverProofs CalibModel CalibSpec CalibProofs CalibProofs2 CalibProofs3 CalibProofs4 CalibProofs5 NbvFindModel.
Local Open Scope Z_scope.

(** ** Selection *)
Lemma xlt_irrefl a : xlt a a = false.
Proof. destruct a; cbn; auto. destruct (Rlt_dec r r); [lra|auto]. Qed.
Lemma xlt_trans a b c : xlt a b = true -> xlt b c = true -> xlt a c = true.
Proof. destruct a, b, c; cbn; auto; try discriminate; repeat destruct (Rlt_dec _ _); auto; try discriminate; try lra. Qed.
Lemma xle_lt a b c : xlt b a = false -> xlt c a = true -> xlt c b = true.
Proof. destruct a, b, c; cbn; auto; try discriminate; repeat destruct (Rlt_dec _ _); auto; try discriminate; try lra. Qed.
Lemma xle_trans a b c : xlt b a = false -> xlt c b = false -> xlt c a = false.
Proof. destruct a, b, c; cbn; auto; try discriminate; repeat destruct (Rlt_dec _ _); auto; try discriminate; try lra. Qed.

Section Pick.
Context {X : Type} (sc : X -> option xreal).
Notation item := (Z * nat * X)%type.
Definition pick (cs : list item) (b : best) : best := fold_left (fun b cx => better b (fst (fst cx)) (snd (fst cx)) (sc (snd cx))) cs b.
Lemma pick_spec cs : forall b,
  (pick cs b = b /\ forall c i x v, In (c, i, x) cs -> sc x = Some v -> xlt v (snd b) = false) \/
  (exists l1 l2 c i x v, cs = l1 ++ (c, i, x) :: l2 /\ sc x = Some v /\ pick cs b = (c, i, v) /\ xlt v (snd b) = true /\
     (forall c' i' x' v', In (c', i', x') l1 -> sc x' = Some v' -> xlt v v' = true) /\
     (forall c' i' x' v', In (c', i', x') l2 -> sc x' = Some v' -> xlt v' v = false)).
Proof.
  induction cs as [|[[c i] x] cs IH]; intros b; [left; split; [reflexivity|intros ? ? ? ? []]|].
  cbn [pick fold_left fst snd]. change (fold_left _ cs ?b') with (pick cs b'). unfold better.
  destruct (sc x) as [v|] eqn:Es.
  - destruct (xlt v (snd b)) eqn:El.
    + destruct (IH (c, i, v)) as [[E H]|(l1 & l2 & c' & i' & x' & v' & -> & Ex & E & Hv & H1 & H2)]; cbn [snd] in *.
      * right. exists [], cs, c, i, x, v. split; [reflexivity|]. split; [auto|]. split; [auto|]. split; [auto|]. split; [intros ? ? ? ? []|exact H].
      * right. exists ((c, i, x) :: l1), l2, c', i', x', v'. split; [reflexivity|]. split; [auto|]. split; [auto|]. split; [eapply xlt_trans; eauto|]. split; auto.
        intros c2 i2 x2 v2 [Hh|Hh] Hs; [injection Hh as _ _ <-; congruence|eauto].
    + destruct (IH b) as [[E H]|(l1 & l2 & c' & i' & x' & v' & -> & Ex & E & Hv & H1 & H2)].
      * left. split; [auto|]. intros c2 i2 x2 v2 [Hh|Hh] Hs; [injection Hh as _ _ <-; congruence|eauto].
      * right. exists ((c, i, x) :: l1), l2, c', i', x', v'. split; [reflexivity|]. split; [auto|]. split; [auto|]. split; [auto|]. split; auto.
        intros c2 i2 x2 v2 [Hh|Hh] Hs; [|eauto]. injection Hh as _ _ <-. rewrite Es in Hs. injection Hs as <-. eapply xle_lt; eauto.
  - destruct (IH b) as [[E H]|(l1 & l2 & c' & i' & x' & v' & -> & Ex & E & Hv & H1 & H2)].
    + left. split; [auto|]. intros c2 i2 x2 v2 [Hh|Hh] Hs; [injection Hh as _ _ <-; congruence|eauto].
    + right. exists ((c, i, x) :: l1), l2, c', i', x', v'. split; [reflexivity|]. split; [auto|]. split; [auto|]. split; [auto|]. split; auto.
      intros c2 i2 x2 v2 [Hh|Hh] Hs; [injection Hh as _ _ <-; congruence|eauto].
Qed.
End Pick.

(** ** The order of the candidates *)
Lemma numbered_In {X} c (xs : list X) : forall i c' j x, In (c', j, x) (numbered c i xs) <-> c' = c /\ (i <= j)%nat /\ nth_error xs (j - i) = Some x.
Proof.
  induction xs as [|y xs IH]; intros i c' j x; cbn [numbered In].
  - split; [intros []|]. intros (_ & _ & H). destruct (j - i)%nat; discriminate.
  - rewrite IH. split.
    + intros [H|(-> & H1 & H2)]; [injection H as <- <- <-; split; [auto|]; split; [lia|]; rewrite Nat.sub_diag; reflexivity|].
      split; [auto|]. split; [lia|]. replace (j - i)%nat with (S (j - S i)) by lia. exact H2.
    + intros (-> & H1 & H2). destruct (Nat.eq_dec i j) as [->|Hne].
      * left. rewrite Nat.sub_diag in H2. injection H2 as ->. reflexivity.
      * right. split; [auto|]. split; [lia|]. replace (j - i)%nat with (S (j - S i)) in H2 by lia. exact H2.
Qed.
Lemma candidates_In {X} (poses : list (Z * list X)) c i x :
  In (c, i, x) (candidates poses) <-> exists xs, In (c, xs) poses /\ nth_error xs i = Some x.
Proof.
  unfold candidates. rewrite in_concat. split.
  - intros (l & Hl & Hx). apply in_map_iff in Hl as ([c' xs] & <- & Hin). cbn [fst snd] in Hx. apply numbered_In in Hx as (-> & _ & Hx).
    rewrite Nat.sub_0_r in Hx. eauto.
  - intros (xs & Hin & Hx). exists (numbered c 0 xs). split; [apply in_map_iff; exists (c, xs); auto|]. apply numbered_In. split; [auto|]. split; [lia|].
    rewrite Nat.sub_0_r. exact Hx.
Qed.
Definition before (a b : Z * nat) : Prop := fst a < fst b \/ fst a = fst b /\ (snd a < snd b)%nat.
Lemma numbered_sorted {X} c (xs : list X) : forall i, StronglySorted before (map fst (numbered c i xs)).
Proof.
  induction xs as [|y xs IH]; intros i; cbn [numbered map]; [constructor|]. constructor; [apply IH|]. apply List.Forall_forall. intros [c' j] H.
  apply in_map_iff in H as ([[c2 j2] x2] & E & H). cbn in E. injection E as -> ->. apply numbered_In in H as (-> & H & _). right. cbn. split; [auto|lia].
Qed.
Lemma candidates_sorted {X} (poses : list (Z * list X)) : StronglySorted Z.lt (map fst poses) -> StronglySorted before (map fst (candidates poses)).
Proof.
  induction poses as [|[c xs] poses IH]; [constructor|]. intros H. cbn in H. inversion H as [|? ? Hs Hf]; subst.
  unfold candidates. cbn [map concat fst snd]. change (concat (map (fun cx : Z * list X => numbered cx.1 0 cx.2) poses)) with (candidates poses).
  rewrite map_app. assert (G : forall l1 l2 : list (Z * nat), StronglySorted before l1 -> StronglySorted before l2 -> (forall a b, In a l1 -> In b l2 -> before a b) -> StronglySorted before (l1 ++ l2)).
  { induction l1 as [|a l1 IHl]; intros l2 H1 H2 H3; [exact H2|]. inversion H1 as [|? ? S1 F1]; subst. cbn. constructor; [apply IHl; auto; intros; apply H3; auto; right; auto|].
    apply List.Forall_forall. intros b Hb. apply in_app_iff in Hb as [Hb|Hb]; [exact (proj1 (List.Forall_forall _ _) F1 b Hb)|apply H3; [left; reflexivity|exact Hb]]. }
  apply G; [apply numbered_sorted|apply IH; exact Hs|]. intros [c1 i1] [c2 i2] H1 H2. left. cbn.
  apply in_map_iff in H1 as ([[a1 b1] x1] & E1 & H1). cbn in E1. injection E1 as -> ->. apply numbered_In in H1 as (-> & _).
  apply in_map_iff in H2 as ([[a2 b2] x2] & E2 & H2). cbn in E2. injection E2 as -> ->. apply candidates_In in H2 as (ys & H2 & _).
  apply (proj1 (List.Forall_forall _ _) Hf). apply in_map_iff. exists (c2, ys). auto.
Qed.
Lemma sorted_split (l1 l2 : list (Z * nat)) a : StronglySorted before (l1 ++ a :: l2) -> (forall b, In b l1 -> before b a) /\ (forall b, In b l2 -> before a b).
Proof.
  induction l1 as [|c l1 IH]; cbn; intros H; inversion H as [|? ? Hs Hf]; subst.
  - split; [intros ? []|]. intros b Hb. exact (proj1 (List.Forall_forall _ _) Hf b Hb).
  - destruct (IH Hs) as [H1 H2]. split; [|exact H2]. intros b [<-|Hb]; [|auto]. apply (proj1 (List.Forall_forall _ _) Hf). apply in_or_app. right. left. reflexivity.
Qed.
Lemma before_irrefl a : ~ before a a.
Proof. unfold before. lia. Qed.
Lemma before_asym a b : before a b -> before b a -> False.
Proof. unfold before. lia. Qed.

(** ** Trying a candidate leaves the calibrator as it was, but for its data *)
(** everything but the keys of calib_data and the solver's own indices *)
Definition same {V} (k k' : calib V) : Prop :=
  k_cams k' = k_cams k /\ k_exts k' = k_exts k /\ k_poses k' = k_poses k /\ k_views k' = k_views k /\
  k_vts k' = k_vts k /\ k_info k' = k_info k /\
  s_params (c_base (k_solver k')) = s_params (c_base (k_solver k)) /\
  s_res (c_base (k_solver k')) = s_res (c_base (k_solver k)) /\
  c_pparams (k_solver k') = c_pparams (k_solver k) /\ c_pres (k_solver k') = c_pres (k_solver k) /\
  c_res2id (k_solver k') = c_res2id (k_solver k).
Lemma same_refl {V} (k : calib V) : same k k.
Proof. unfold same. auto 15. Qed.
Lemma same_trans {V} (k1 k2 k3 : calib V) : same k1 k2 -> same k2 k3 -> same k1 k3.
Proof. unfold same. intuition congruence. Qed.

Section K.
Context (blocks : Z -> list Z) (rows cols : Z) (size sp : R).
Context (Hrows : 0 <= rows) (Hcols : 0 <= cols).
Context {V : Type}.
Context (ext_addr cam_addr : Z -> Z).
Notation corners := (fiducial_corners rows cols size sp).
Notation KInvD := (KInv blocks rows cols size sp ext_addr cam_addr).
Notation fresh_envD := (fresh_env blocks ext_addr cam_addr).
Notation grids_okD := (grids_ok rows cols size sp).

Lemma KInv_same base (k k' : calib V) : KInvD base k -> same k k' -> CInv blocks (k_solver k') -> KInvD base k'.
Proof.
  intros [A1 A2 A3 A4 A5 A6 A7 A8 A9 A10 A11] (E1 & E2 & E3 & E4 & E5 & E6 & E7 & E8 & E9 & E10 & E11) C.
  split; rewrite ?E1, ?E2, ?E3, ?E4, ?E5, ?E7, ?E8, ?E9; auto.
  intros ts v H. destruct (A11 ts v H) as (B1 & B2 & B3 & B4). split; [exact B1|]. split; [exact B2|]. split; [|exact B4].
  eapply view_okD_mono; [exact B3|]. intros r. rewrite E8. auto.
Qed.
Lemma fresh_same (e : env V) (k k' : calib V) : same k k' -> fresh_envD e k -> fresh_envD e k'.
Proof.
  intros (E1 & E2 & E3 & E4 & E5 & E6 & E7 & E8 & E9 & E10 & E11) [F1 F2 F3 F4]. split; rewrite ?E8, ?E9; auto.
Qed.
Definition ret_env (e : env V) (T : V) : env V := mkEnv (e_pose e) (e_alloc e) (fun _ _ => Ret T).
Lemma put_add base (k : calib V) e gs ts T : KInvD base k -> k_views k !! ts = None -> first_detected gs = Some ts ->
  add_view blocks corners e (put_pose e ts T k) gs = add_view blocks corners (ret_env e T) k gs.
Proof.
  intros K Hno Hfd.
  assert (Hpo : k_poses k !! ts = None).
  { destruct (k_poses k !! ts) eqn:E; auto. exfalso. destruct (proj1 (ki_dom K ts)) as [v Hv]; [rewrite E; eauto|congruence]. }
  unfold put_pose. rewrite Hpo. unfold add_view, add_pose. rewrite Hfd. cbn [k_poses k_cams k_exts k_data k_views k_vts k_solver k_info obind e_estimate ret_env e_pose e_alloc]. rewrite Hpo, lookup_insert.
  cbn [obind k_poses k_cams k_exts k_data k_views k_vts k_solver k_info]. rewrite lookup_insert. reflexivity.
Qed.
Lemma put_remove base (k : calib V) e ts T : KInvD base k -> fresh_envD e k -> k_views k !! ts = None ->
  exists k2, remove_view blocks (put_pose e ts T k) ts = Ret k2 /\ same k k2 /\ KInvD base k2 /\ k_data k2 = k_data k.
Proof.
  intros K F Hno.
  assert (Hpo : k_poses k !! ts = None).
  { destruct (k_poses k !! ts) eqn:E; auto. exfalso. destruct (proj1 (ki_dom K ts)) as [v Hv]; [rewrite E; eauto|congruence]. }
  assert (Hnp : e_pose e ∉ c_pparams (k_solver k)) by apply F.
  assert (Hnr : forall r, r ∈ s_res (c_base (k_solver k)) -> e_pose e ∉ blocks r).
  { intros r Hr Hb. apply Hnp. exact (ci_blk _ _ (ki_c K) r _ Hr Hb). }
  unfold put_pose, remove_view. rewrite Hpo. cbn [k_poses k_cams k_exts k_data k_views k_vts k_solver k_info]. rewrite lookup_insert.
  assert (C0 : CInv blocks (c_add_param (k_solver k) (e_pose e))) by (apply (CInv_add_param blocks rows cols Hrows Hcols), (ki_c K)).
  assert (Hin : e_pose e ∈ s_params (c_base (c_add_param (k_solver k) (e_pose e)))) by (cbn; set_solver).
  unfold has_param. rewrite bool_decide_eq_true_2 by exact Hin. rewrite (c_remove_param_effect blocks _ _ C0). destruct (decide _) as [_|Hc]; [|contradiction].
  cbn [obind k_views]. rewrite Hno. eexists. split; [reflexivity|].
  assert (Es : same k (mkCalib (k_cams k) (k_exts k) (k_data k) (delete ts (<[ts:=(e_pose e, T)]> (k_poses k))) (k_views k) (k_vts k) (c_removed blocks (c_add_param (k_solver k) (e_pose e)) (e_pose e)) (k_info k))).
  { pose proof (ki_pp K) as Hpp. pose proof (ci_pres _ _ (ki_c K)) as Hpr. pose proof (ci_id _ _ (ki_c K)) as Hid.
    assert (Hw : with_param blocks (e_pose e) (s_res (c_base (k_solver k))) = ∅).
    { apply set_eq. intros r. unfold with_param. rewrite elem_of_filter. split; [|set_solver]. intros [H1 H2]. exfalso. exact (Hnr r H2 H1). }
    unfold same, c_removed. cbn. rewrite ?Hw.
    split; [auto|]. split; [auto|]. split; [now apply delete_insert|]. split; [auto|]. split; [auto|]. split; [auto|].
    split; [apply set_eq; intros p; set_solver|]. split; [set_solver|]. split; [apply set_eq; intros p; set_solver|]. split; [rewrite Hpr; set_solver|rewrite Hid; set_solver]. }
  split; [exact Es|]. split; [|reflexivity]. apply (KInv_same base k); [exact K|exact Es|]. apply (CInv_removed blocks), C0.
Qed.

(** the residuals a candidate adds: one per corner seen by a camera whose grid is detected and that is calibrated *)
Definition adds (k : calib V) (e : env V) (gs : list (Z * grid)) (ms : Z -> content) (r : Z) : Prop :=
  exists cam g t c, In (cam, g) gs /\ g_detected g = true /\ is_Some (k_cams k !! cam) /\ corner_in rows cols t c /\ ms cam t c <> None /\ r = e_alloc e cam t c.
Lemma want_adds (k : calib V) e gs ms r :
  (exists cam x, In x (want rows cols (keys (k_cams k)) (e_alloc e) gs ms cam) /\ vr_id x = r) <-> adds k e gs ms r.
Proof.
  unfold want, adds. split.
  - intros (cam & x & Hx & <-). destruct (existsb _ gs && existsb _ _) eqn:E; [|destruct Hx]. apply andb_true_iff in E as [E1 E2].
    apply existsb_exists in E1 as ([c0 g] & Hg & E1). apply andb_true_iff in E1 as [Ec Ed]. cbn [fst snd] in *. apply Z.eqb_eq in Ec as ->.
    apply existsb_exists in E2 as (c1 & Hc1 & Ec). apply Z.eqb_eq in Ec as <-. apply keys_lookup in Hc1.
    apply in_map_iff in Hx as ([t c] & <- & Hx). apply (seen_In rows cols) in Hx as [H1 H2]. exists cam, g, t, c. auto 10.
  - intros (cam & g & t & c & Hg & Hd & Hc & H1 & H2 & ->).
    assert (E : existsb (fun cg => (fst cg =? cam) && g_detected (snd cg)) gs && existsb (Z.eqb cam) (keys (k_cams k)) = true).
    { apply andb_true_iff. split; apply existsb_exists; [exists (cam, g); split; [exact Hg|cbn; rewrite Z.eqb_refl, Hd; reflexivity]|].
      exists cam. split; [apply keys_lookup, Hc|apply Z.eqb_refl]. }
    exists cam, (res_at (e_alloc e) cam (t, c)). rewrite E. split; [apply in_map, seen_In; auto|reflexivity].
Qed.
Lemma undetected gs : first_detected gs = None -> forall cam g, In (cam, g) gs -> g_detected g = false.
Proof.
  induction gs as [|[c g] gs IH]; cbn; [intros _ ? ? []|]. destruct (g_detected g) eqn:E; [discriminate|]. intros H cam g' [Hh|Hh]; [injection Hh as <- <-; exact E|eauto].
Qed.
Definition is_detected (gs : list (Z * grid)) : bool := match first_detected gs with Some _ => true | None => false end.

Lemma try_ok base (k : calib V) ts x ms : KInvD base k -> fresh_envD (f_env x) k -> grids_okD (f_grids x) ms ->
  (forall cam g, In (cam, g) (f_grids x) -> g_ts g = ts) -> k_views k !! ts = None ->
  exists k2 N, try_cand blocks corners ts x k =
      Ret (f_calc x (<[ts := (e_pose (f_env x), f_pose x)]> (k_poses k)) ({[e_pose (f_env x)]} ∪ c_pparams (k_solver k)) N, k2) /\
    (forall r, r ∈ N <-> r ∈ c_pres (k_solver k) \/ adds k (f_env x) (f_grids x) ms r) /\
    same k k2 /\ KInvD base k2 /\ k_data k2 = (if is_detected (f_grids x) then {[ts]} else ∅) ∪ k_data k.
Proof.
  intros K F G Hts Hno. unfold try_cand, is_detected.
  assert (Hpo : k_poses k !! ts = None).
  { destruct (k_poses k !! ts) eqn:E; auto. exfalso. destruct (proj1 (ki_dom K ts)) as [v Hv]; [rewrite E; eauto|congruence]. }
  destruct (first_detected (f_grids x)) as [ts'|] eqn:Hfd.
  - assert (ts' = ts) as -> by (destruct (first_detected_In _ _ Hfd) as (c & g & Hin & _ & <-); eauto).
    rewrite (put_add base k (f_env x) (f_grids x) ts (f_pose x) K Hno Hfd).
    set (e := ret_env (f_env x) (f_pose x)).
    assert (F' : fresh_envD e k) by (destruct F as [F1 F2 F3 F4]; split; auto).
    destruct (add_view_new blocks rows cols size sp Hrows Hcols ext_addr cam_addr base k e (f_grids x) ms ts (f_pose x) K F' G Hfd Hno eq_refl)
      as (k1 & v & E1 & K1 & A1 & A2 & A3 & A4 & A5 & A6 & A7 & A8 & _ & A9 & A10 & A11).
    rewrite E1. cbn [obind snd].
    destruct (add_remove blocks rows cols size sp Hrows Hcols ext_addr cam_addr base k e (f_grids x) ms ts k1 K F' G Hfd Hno E1)
      as (k2 & E2 & B1 & B2 & B3 & B4 & B5 & B6 & B7 & B8 & B9 & B10 & B11 & B12).
    destruct (remove_view_ok blocks rows cols size sp Hrows Hcols ext_addr cam_addr base k1 ts K1) as (k2' & E2' & K2 & _).
    rewrite E2 in E2'. injection E2' as <-. rewrite E2. cbn [obind].
    exists k2, (c_pres (k_solver k1)). split.
    { rewrite A5, (ki_pp K1), A10, <- (ki_pp K). reflexivity. }
    split. { intros r. rewrite (ci_pres _ _ (ki_c K1)), A11, (ci_pres _ _ (ki_c K)), want_adds. reflexivity. }
    split; [unfold same; auto 15|]. split; [exact K2|exact B4].
  - rewrite add_view_undetected by exact Hfd. cbn [obind snd].
    destruct (put_remove base k (f_env x) ts (f_pose x) K F Hno) as (k2 & E2 & S2 & K2 & D2). rewrite E2. cbn [obind].
    exists k2, (c_pres (k_solver k)). split; [unfold put_pose; rewrite Hpo; reflexivity|]. split.
    { intros r. split; [auto|]. intros [H|(cam & g & t & c & Hin & Hd & _)]; [exact H|]. rewrite (undetected _ Hfd cam g Hin) in Hd. discriminate. }
    split; [exact S2|]. split; [exact K2|]. rewrite D2. set_solver.
Qed.

(** what is computed for a candidate: the problem with it, and with no other *)
Definition score_of (k : calib V) (ts : Z) (ms : fcand -> Z -> content) (x : fcand) (s : option xreal) : Prop :=
  exists N, (forall r, r ∈ N <-> r ∈ c_pres (k_solver k) \/ adds k (f_env x) (f_grids x) (ms x) r) /\
    s = f_calc x (<[ts := (e_pose (f_env x), f_pose x)]> (k_poses k)) ({[e_pose (f_env x)]} ∪ c_pparams (k_solver k)) N.
Lemma score_fun k ts ms x s s' : score_of k ts ms x s -> score_of k ts ms x s' -> s = s'.
Proof.
  intros (N & HN & ->) (N' & HN' & ->). f_equal. apply set_eq. intros r. rewrite HN, HN'. reflexivity.
Qed.
Lemma adds_same k k' e gs ms r : same k k' -> adds k' e gs ms r <-> adds k e gs ms r.
Proof. intros (E & _). unfold adds. rewrite E. reflexivity. Qed.
Lemma find_loop_ok base (k : calib V) ts ms cs : KInvD base k -> k_views k !! ts = None ->
  (forall c i x, In (c, i, x) cs -> fresh_envD (f_env x) k /\ grids_okD (f_grids x) (ms x) /\ (forall cam g, In (cam, g) (f_grids x) -> g_ts g = ts)) ->
  forall b k', same k k' -> KInvD base k' ->
  exists k2 (ss : list (option xreal)), Forall2 (fun cx s => score_of k ts ms (snd cx) s) cs ss /\
    find_loop blocks corners ts cs b k' = Ret (pick snd (map (fun p => (fst (fst p), (snd (fst p), snd p))) (combine cs ss)) b, k2) /\ same k k2 /\ KInvD base k2 /\
    k_data k2 = (if existsb (fun cx => is_detected (f_grids (snd cx))) cs then {[ts]} else ∅) ∪ k_data k'.
Proof.
  intros K Hno. induction cs as [|[[c i] x] cs IH]; intros HC b k' S' K'.
  - exists k', []. split; [constructor|]. split; [reflexivity|]. split; [exact S'|]. split; [exact K'|]. cbn. set_solver.
  - destruct (HC c i x (or_introl eq_refl)) as (F & G & Hts).
    assert (Hno' : k_views k' !! ts = None) by (destruct S' as (_ & _ & _ & E & _); rewrite E; exact Hno).
    destruct (try_ok base k' ts x (ms x) K' (fresh_same _ _ _ S' F) G Hts Hno') as (k2 & N & E2 & HN & S2 & K2 & D2).
    cbn [find_loop]. rewrite E2. cbn [obind fst snd].
    set (s := f_calc x _ _ _).
    destruct (IH (fun c' i' x' H => HC c' i' x' (or_intror H)) (better b c i s) k2 (same_trans _ _ _ S' S2) K2) as (k3 & ss & Hss & E3 & S3 & K3 & D3).
    exists k3, (s :: ss). split.
    { constructor; [|exact Hss]. pose proof S' as (Q1 & Q2 & Q3 & Q4 & Q5 & Q6 & Q7 & Q8 & Q9 & Q10 & Q11). exists N. split.
      - intros r. rewrite HN, Q10, (adds_same k k' _ _ _ r S'). reflexivity.
      - unfold s. cbn [snd]. rewrite Q3, Q9. reflexivity. }
    split; [exact E3|]. split; [exact S3|]. split; [exact K3|]. rewrite D3, D2. cbn [existsb snd].
    destruct (is_detected (f_grids x)), (existsb _ cs); cbn; set_solver.
Qed.
End K.
