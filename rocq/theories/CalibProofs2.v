From Coq Require Import Reals.
From Verif Require Import Base.
From stdpp Require Import gmap sets list.
From Verif Require Import AprilGridModel AprilGridSpec AprilGridProofs AprilGridIOModel SolverModel SolverProofs CalibModel CalibSpec CalibProofs.
Local Open Scope Z_scope.

Section K.
Context (blocks : Z -> list Z) (rows cols : Z) (size sp : R).
Context (Hrows : 0 <= rows) (Hcols : 0 <= cols).
Context {V : Type}.
(** the parameter objects of a camera: extrinsics and intrinsics *)
Context (ext_addr cam_addr : Z -> Z).
Notation corners := (fiducial_corners rows cols size sp).
Notation RepD := (Rep rows cols size sp).
Notation BookGeD := (BookGe rows cols).
Notation CInv := (CInv blocks).
Notation view_okD := (view_ok rows cols size sp).

Record KInv (base : gset Z) (k : calib V) : Prop := mkKInv {
  ki_c : CInv (k_solver k);
  ki_pp : c_pparams (k_solver k) = s_params (c_base (k_solver k));
  ki_cams : forall c, In c (keys (k_cams k)) -> In c (keys (k_exts k)) /\ ext_addr c ∈ base /\ cam_addr c ∈ base;
  ki_dom : forall ts, is_Some (k_poses k !! ts) <-> is_Some (k_views k !! ts);
  ki_nd : base.NoDup (k_vts k);
  ki_vts : forall ts, In ts (k_vts k) <-> is_Some (k_views k !! ts);
  ki_params : forall p, p ∈ s_params (c_base (k_solver k)) <-> p ∈ base \/ exists ts v, k_poses k !! ts = Some (p, v);
  ki_base : forall ts p v, k_poses k !! ts = Some (p, v) -> p ∉ base;
  ki_inj : forall ts ts' p v v', k_poses k !! ts = Some (p, v) -> k_poses k !! ts' = Some (p, v') -> ts = ts';
  ki_res : forall r, r ∈ s_res (c_base (k_solver k)) <->
     exists ts v cam x, k_views k !! ts = Some v /\ In x (v_res v cam) /\ vr_id x = r;
  ki_view : forall ts v, k_views k !! ts = Some v ->
     v_ts v = ts /\ (exists val, k_poses k !! ts = Some (v_pose v, val)) /\ view_okD v (k_solver k) /\
     forall cam x, In x (v_res v cam) -> In cam (keys (k_cams k)) /\
       blocks (vr_id x) = [ext_addr cam; v_pose v; cam_addr cam] /\ ext_addr cam ∈ base /\ cam_addr cam ∈ base }.

Notation fresh_env := (fresh_env blocks ext_addr cam_addr).
(** the grids passed in: at most one per camera; each represents some content on the target's
    corners (any history of add / remove / clear on a grid of the target's dimensions, C01) *)
Definition grids_ok (gs : list (Z * grid)) (ms : Z -> content) : Prop :=
  base.NoDup (map fst gs) /\
  forall cam g, In (cam, g) gs -> RepD g (ms cam) /\ BookGeD g (ms cam).

Lemma grid_of_In gs cam g : base.NoDup (map fst gs) -> In (cam, g) gs -> grid_of gs cam = g.
Proof.
  unfold grid_of. induction gs as [|[c0 g0] gs IH]; simpl; [tauto|]. intros Hnd Hin.
  inversion Hnd as [|? ? Hn Hd]; subst.
  destruct Hin as [E|Hin].
  - injection E as <- <-. now rewrite Z.eqb_refl.
  - destruct (Z.eqb_spec cam c0) as [->|]; [|auto]. exfalso. apply Hn, elem_of_list_In, in_map_iff.
    now exists (c0, g).
Qed.

Lemma want_In alloc cams gs ms cam x : In x (want rows cols cams alloc gs ms cam) ->
  In cam cams /\ (exists g, In (cam, g) gs /\ g_detected g = true) /\
  exists t c, x = mkVres (alloc cam t c) t c /\ corner_in rows cols t c /\ ms cam t c <> None.
Proof.
  unfold want. destruct (existsb _ gs) eqn:E1; [|intros []]. destruct (existsb _ cams) eqn:E2; [|intros []]. cbn [andb].
  intros Hx. apply in_map_iff in Hx. destruct Hx as ([t c] & <- & Hx). apply seen_In in Hx.
  split; [now apply existsb_eqb_In|]. split; [|exists t, c; auto].
  apply existsb_exists in E1. destruct E1 as ([c0 g] & Hg & E). simpl in E. exists g.
  assert (c0 = cam) as -> by lia. split; auto. destruct (g_detected g); auto. lia.
Qed.

Lemma want_view_ok alloc cams gs ms (s : csolver) ts pose :
  grids_ok gs ms ->
  (forall c t i c' t' i', alloc c t i = alloc c' t' i' -> c = c' /\ t = t' /\ i = i') ->
  (forall cam x, In x (want rows cols cams alloc gs ms cam) -> vr_id x ∈ s_res (c_base s)) ->
  view_okD (mkCview ts (grid_of gs) (want rows cols cams alloc gs ms) pose) s.
Proof.
  intros [Hnd Hg] Hinj Hreg. split; simpl.
  - intros c Hne. destruct (want rows cols cams alloc gs ms c) as [|x l] eqn:Ew; [congruence|]. rewrite <- Ew.
    destruct (want_In alloc cams gs ms c x) as (Hc & (g & Hin & Hd) & _); [rewrite Ew; simpl; auto|].
    rewrite (grid_of_In gs c g Hnd Hin). destruct (Hg c g Hin) as [HR HB]. exists (ms c).
    split; [auto|]. split; [auto|]. split.
    + unfold want. destruct (_ && _); [|constructor]. rewrite map_map. unfold corner_of; simpl.
      rewrite (map_ext _ (fun tc => tc)) by (intros []; reflexivity). rewrite map_id. apply (seen_NoDup blocks).
    + intros r Hr. apply want_In in Hr. destruct Hr as (_ & _ & t & i & -> & H1 & H2). simpl. auto.
  - intros c c' r r' Hr Hr' E. apply want_In in Hr. apply want_In in Hr'.
    destruct Hr as (_ & _ & t & i & -> & _). destruct Hr' as (_ & _ & t' & i' & -> & _). simpl in E.
    apply Hinj in E. destruct E as (-> & -> & ->). auto.
  - intros c r Hr. eapply Hreg; eauto.
Qed.

Lemma view_okD_mono v s s' : view_okD v s -> (forall r, r ∈ s_res (c_base s) -> r ∈ s_res (c_base s')) -> view_okD v s'.
Proof. intros [A B C] H. split; eauto. Qed.

Lemma first_detected_In gs ts : first_detected gs = Some ts -> exists c g, In (c, g) gs /\ g_detected g = true /\ g_ts g = ts.
Proof.
  induction gs as [|[c g] gs IH]; simpl; [discriminate|]. destruct (g_detected g) eqn:E.
  - intros H. injection H as <-. exists c, g. auto.
  - intros H. destruct (IH H) as (c' & g' & H1 & H2). exists c', g'. auto.
Qed.

(** add_view of a new timestamp *)
Lemma add_view_new base k e gs ms ts T : KInv base k -> fresh_env e k -> grids_ok gs ms ->
  first_detected gs = Some ts -> k_views k !! ts = None ->
  e_estimate e (mkCalib (k_cams k) (k_exts k) ({[ts]} ∪ k_data k) (k_poses k)
                        (k_views k) (k_vts k) (k_solver k) (k_info k)) gs = Ret T ->
  let w := want rows cols (keys (k_cams k)) (e_alloc e) gs ms in
  exists k' v, add_view blocks corners e k gs = Ret (true, k') /\ KInv base k' /\
    k_cams k' = k_cams k /\ k_exts k' = k_exts k /\ k_data k' = {[ts]} ∪ k_data k /\ k_info k' = k_info k /\
    k_poses k' = <[ts := (e_pose e, T)]> (k_poses k) /\ k_views k' = <[ts := v]> (k_views k) /\
    k_vts k' = k_vts k ++ [ts] /\
    (forall cam, v_res v cam = w cam) /\ v_grids v = grid_of gs /\ v_pose v = e_pose e /\
    s_params (c_base (k_solver k')) = {[e_pose e]} ∪ s_params (c_base (k_solver k)) /\
    (forall r, r ∈ s_res (c_base (k_solver k')) <-> r ∈ s_res (c_base (k_solver k)) \/
       exists cam x, In x (w cam) /\ vr_id x = r).
Proof.
  intros K F G Hfd Hno HT w.
  assert (Hpo : k_poses k !! ts = None).
  { destruct (k_poses k !! ts) eqn:E; auto. exfalso.
    destruct (proj1 (ki_dom _ _ K ts)) as [v Hv]; [rewrite E; eauto|congruence]. }
  unfold add_view. rewrite Hfd. cbn [k_poses]. rewrite Hpo. unfold add_pose. cbn [k_poses]. rewrite Hpo.
  rewrite HT. cbn [obind k_poses k_solver k_cams k_exts k_views k_vts k_info k_data]. rewrite lookup_insert.
  assert (Hhas : has_param (c_add_param (k_solver k) (e_pose e)) (e_pose e) = true).
  { unfold has_param. apply bool_decide_eq_true. cbn. set_solver. }
  rewrite Hhas. set (s0 := c_add_param (k_solver k) (e_pose e)).
  assert (I0 : CInv s0) by (apply (CInv_add_param blocks rows cols Hrows Hcols), (ki_c _ _ K)).
  destruct F as [Fp Fi Fn Fb].
  destruct (view_residuals_ok blocks rows cols size sp Hrows Hcols (keys (k_exts k)) (keys (k_cams k)) (e_alloc e)
              Fi (fun c t i => proj2 (Fb c t i)) ms gs (fun _ => []) s0 I0) as (s1 & f1 & E1 & I1 & W & P1 & R1 & Q1).
  { apply G. }
  { intros cam g Hin Hc _. split; [apply (proj2 G cam g Hin)|]. apply (ki_cams _ _ K cam Hc). }
  { auto. }
  { intros. cbn. apply Fn. }
  assert (W' : forall cam, f1 cam = w cam) by (intros; rewrite W; reflexivity). clear W.
  unfold view_ctor. rewrite E1. cbn [obind fst snd].
  set (v := mkCview ts (grid_of gs) f1 (e_pose e)).
  eexists _, v. split; [reflexivity|].
  assert (HR1 : forall r, r ∈ s_res (c_base s1) <-> r ∈ s_res (c_base (k_solver k)) \/ exists cam x, In x (w cam) /\ vr_id x = r).
  { intros r. rewrite R1. reflexivity. }
  assert (HP1 : s_params (c_base s1) = {[e_pose e]} ∪ s_params (c_base (k_solver k))) by (rewrite P1; reflexivity).
  assert (Hpn : e_pose e ∉ s_params (c_base (k_solver k))) by (rewrite <- (ki_pp _ _ K); auto).
  assert (Hwb : forall cam x, In x (w cam) -> In cam (keys (k_cams k)) /\ blocks (vr_id x) = [ext_addr cam; e_pose e; cam_addr cam] /\ ext_addr cam ∈ base /\ cam_addr cam ∈ base).
  { intros cam x Hx. apply want_In in Hx. destruct Hx as (Hc & _ & t & i & -> & _). simpl.
    destruct (Fb cam t i) as [-> _]. split; auto. split; auto. apply (ki_cams _ _ K cam Hc). }
  assert (Hbp : forall p, p ∈ base -> p ∈ s_params (c_base (k_solver k))) by (intros; apply (ki_params _ _ K); auto).
  split; [split; cbn [k_solver k_cams k_exts k_poses k_views k_vts]|].
  - exact I1.
  - rewrite HP1. apply set_eq. intros p. rewrite Q1. unfold s0. cbn. rewrite (ki_pp _ _ K).
    rewrite elem_of_union, elem_of_singleton. split; [|auto].
    intros [H|(cam & x & Hx & H)]; auto. destruct (Hwb cam x Hx) as (_ & Eb & B1 & B2). rewrite Eb in H.
    rewrite !elem_of_cons in H. destruct H as [->|[->|[->|H]]]; auto. inversion H.
  - apply K.
  - intros ts'. destruct (decide (ts' = ts)) as [->|Hne].
    + rewrite !lookup_insert. split; eauto.
    + rewrite !lookup_insert_ne by auto. apply K.
  - apply NoDup_app. split; [apply K|]. split; [|apply NoDup_singleton].
    intros x Hx Hx'. apply elem_of_list_singleton in Hx'. subst x. apply elem_of_list_In, (ki_vts _ _ K) in Hx.
    rewrite Hno in Hx. destruct Hx; discriminate.
  - intros ts'. rewrite in_app_iff, (ki_vts _ _ K). simpl. destruct (decide (ts' = ts)) as [->|Hne].
    + rewrite lookup_insert. split; eauto.
    + rewrite lookup_insert_ne by auto. split; [intros [H|[H|[]]]; auto; congruence|auto].
  - intros p. rewrite HP1, elem_of_union, elem_of_singleton, (ki_params _ _ K). split.
    + intros [->|[H|(ts' & val & H)]]; auto; right.
      * exists ts, T. apply lookup_insert.
      * exists ts', val. rewrite lookup_insert_ne; auto. congruence.
    + intros [H|(ts' & val & H)]; auto. destruct (decide (ts' = ts)) as [->|Hne].
      * rewrite lookup_insert in H. injection H as <- _. auto.
      * rewrite lookup_insert_ne in H by auto. right; right; eauto.
  - intros ts' p val. destruct (decide (ts' = ts)) as [->|Hne].
    + rewrite lookup_insert. intros H. injection H as <- _. auto.
    + rewrite lookup_insert_ne by auto. apply K.
  - assert (Hq : forall ts' p' val, k_poses k !! ts' = Some (p', val) -> p' <> e_pose e).
    { intros ts' p' val H ->. apply Hpn. apply (ki_params _ _ K). eauto. }
    intros t1 t2 p v1 v2. destruct (decide (t1 = ts)) as [->|H1]; destruct (decide (t2 = ts)) as [->|H2]; auto.
    + rewrite lookup_insert, lookup_insert_ne by auto. intros E H. injection E as <- _. apply Hq in H. congruence.
    + rewrite lookup_insert, lookup_insert_ne by auto. intros H E. injection E as <- _. apply Hq in H. congruence.
    + rewrite !lookup_insert_ne by auto. apply (ki_inj _ _ K).
  - intros r. rewrite HR1, (ki_res _ _ K). split.
    + intros [(ts' & v' & cam & x & H1 & H2 & H3)|(cam & x & Hx & <-)].
      * exists ts', v', cam, x. split; auto. rewrite lookup_insert_ne; auto. congruence.
      * exists ts, v, cam, x. split; [apply lookup_insert|]. split; auto. simpl. now rewrite W'.
    + intros (ts' & v' & cam & x & H1 & H2 & H3). destruct (decide (ts' = ts)) as [->|Hne].
      * rewrite lookup_insert in H1. injection H1 as <-. simpl in H2. rewrite W' in H2. right; eauto.
      * rewrite lookup_insert_ne in H1 by auto. left. exists ts', v', cam, x. auto.
  - intros ts' v'. destruct (decide (ts' = ts)) as [->|Hne].
    + rewrite !lookup_insert. intros E. injection E as <-. simpl. split; auto. split; [eauto|]. split.
      * unfold v. eapply (view_okD_mono (mkCview ts (grid_of gs) f1 (e_pose e)) s1); [|auto].
        destruct (want_view_ok (e_alloc e) (keys (k_cams k)) gs ms s1 ts (e_pose e) G Fi) as [A B C].
        { intros cam x Hx. apply HR1. right. eauto. }
        split; simpl in *; setoid_rewrite W'; auto.
      * intros cam x Hx. rewrite W' in Hx. apply Hwb; auto.
    + rewrite !lookup_insert_ne by auto. intros H. destruct (ki_view _ _ K ts' v' H) as (A & B & C & D).
      split; auto. split; auto. split; auto. eapply view_okD_mono; [exact C|]. intros r Hr. apply HR1. auto.
  - cbn. repeat (split; [auto; fail|]). auto.
Qed.
End K.
