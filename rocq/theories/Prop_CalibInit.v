(** * Property theorems C32 (fixed parameters through the initialisation phase) *)
From Verif Require Import Base.
From stdpp Require Import gmap.
From Verif Require Import CalibInitModel.
Local Open Scope Z_scope.

Lemma calib_initialize_spec {V} q (r r' : rig V) : calib_initialize q r = Ret r' ->
  (forall i, option_map (@p_fixed V) (r_cams r' !! i) = option_map (@p_fixed V) (r_cams r !! i)) /\
  (forall i, option_map (@p_fixed V) (r_exts r' !! i) = option_map (@p_fixed V) (r_exts r !! i)) /\
  (forall i p, r_cams r !! i = Some p -> p_fixed p = true -> r_cams r' !! i = Some p) /\
  (forall i p, r_exts r !! i = Some p -> p_fixed p = true -> r_exts r' !! i = Some p).
Proof.
  destruct q as [q|]; [|discriminate]. intros H. injection H as <-. cbn.
  split; [|split; [|split]]; intros i.
  - rewrite map_lookup_imap. destruct (r_cams r !! i) as [[[] ?]|]; reflexivity.
  - rewrite map_lookup_imap. destruct (r_exts r !! i) as [[[] ?]|]; reflexivity.
  - intros p Hp Hf. rewrite map_lookup_imap, Hp. cbn. unfold free. now rewrite Hf.
  - intros p Hp Hf. rewrite map_lookup_imap, Hp. cbn. unfold free. now rewrite Hf.
Qed.

(** what holds between the start and any later point of the phase *)
Definition cams_kept {V} (r r' : rig V) : Prop :=
  (forall i, option_map (@p_fixed V) (r_cams r' !! i) = option_map (@p_fixed V) (r_cams r !! i)) /\
  (forall i p, r_cams r !! i = Some p -> p_fixed p = true -> r_cams r' !! i = Some p).
Lemma cams_kept_refl {V} (r : rig V) : cams_kept r r.
Proof. split; auto. Qed.
Lemma cams_kept_trans {V} (a b c : rig V) : cams_kept a b -> cams_kept b c -> cams_kept a c.
Proof. intros [A1 A2] [B1 B2]. split; intros; [rewrite B1; auto|auto]. Qed.

Definition exts_after {V} (r r' : rig V) (i : Z) : Prop :=
  option_map (@p_fixed V) (r_exts r' !! i) = Some (i =? 0).

Lemma set_fixed_spec {V} b i (r r' : rig V) : set_fixed b i r = Ret r' ->
  r_cams r' = r_cams r /\ (forall j, j <> i -> r_exts r' !! j = r_exts r !! j) /\
  exists p, r_exts r !! i = Some p /\ r_exts r' !! i = Some (mkParam b (p_val p)).
Proof.
  unfold set_fixed. destruct (r_exts r !! i) as [p|] eqn:E; [|discriminate]. intros H. injection H as <-. cbn.
  split; auto. split; [intros; apply lookup_insert_ne; auto|]. exists p. split; auto. apply lookup_insert.
Qed.

Lemma init_camera_spec {V} qs i (r r' : rig V) : init_camera qs i r = Ret r' ->
  cams_kept r r' /\ (forall j, j <> i -> option_map (@p_fixed V) (r_exts r' !! j) = option_map (@p_fixed V) (r_exts r !! j)) /\
  (forall j p, j <> i -> r_exts r !! j = Some p -> p_fixed p = true -> r_exts r' !! j = Some p) /\
  (exists p, r_exts r !! i = Some p /\ r_exts r' !! i = Some (mkParam (i =? 0) (p_val p))).
Proof.
  unfold init_camera. destruct (set_fixed true i r) as [r1| |] eqn:E1; cbn; try discriminate.
  destruct (calib_initialize (qs i) r1) as [r2| |] eqn:E2; cbn; try discriminate. intros H.
  apply set_fixed_spec in E1. destruct E1 as (A1 & A2 & p & A3 & A4).
  apply calib_initialize_spec in E2. destruct E2 as (B1 & B2 & B3 & B4).
  assert (K2 : cams_kept r r2).
  { split; intros; [rewrite B1, A1; auto|]. apply B3; auto. now rewrite A1. }
  specialize (B4 i _ A4 eq_refl) as B4i.
  destruct (Z.eqb_spec i 0) as [->|Hi].
  - injection H as <-. split; [auto|]. split; [intros j Hj; rewrite B2, A2; auto|].
    split; [intros j q Hj Hq Hf; apply B4; auto; rewrite A2; auto|]. exists p. auto.
  - apply set_fixed_spec in H. destruct H as (C1 & C2 & p' & C3 & C4).
    rewrite B4i in C3. injection C3 as <-. cbn in C4.
    split; [split; intros; rewrite C1; apply K2; auto|]. split; [intros j Hj; rewrite C2, B2, A2; auto|].
    split; [intros j q Hj Hq Hf; rewrite C2 by auto; apply B4; auto; rewrite A2; auto|]. exists p. auto.
Qed.
Lemma init_cameras_spec {V} qs l : NoDup l -> forall (r r' : rig V), fold_o (init_camera qs) l r = Ret r' ->
  cams_kept r r' /\
  (forall j, ~ In j l -> option_map (@p_fixed V) (r_exts r' !! j) = option_map (@p_fixed V) (r_exts r !! j)) /\
  (forall j, In j l -> is_Some (r_exts r !! j) /\ option_map (@p_fixed V) (r_exts r' !! j) = Some (j =? 0)) /\
  (forall j p, r_exts r !! j = Some p -> p_fixed p = true -> j = 0 \/ ~ In j l -> r_exts r' !! j = Some p).
Proof.
  induction 1 as [|i l Hn Hd IH]; intros r r'; cbn.
  - intros H. injection H as <-. split; [apply cams_kept_refl|]. split; [auto|]. split; [intros ? []|auto].
  - destruct (init_camera qs i r) as [r1| |] eqn:E1; cbn; try discriminate. intros H.
    apply init_camera_spec in E1. destruct E1 as (A1 & A2 & A3 & p & A4 & A5).
    destruct (IH r1 r' H) as (B1 & B2 & B3 & B4).
    assert (Hnl : ~ In i l) by (intros Hx; apply Hn, elem_of_list_In; auto).
    split; [eapply cams_kept_trans; eauto|]. split; [|split].
    + intros j Hj. rewrite B2, A2; auto.
    + intros j [<-|Hj].
      * split; [rewrite A4; eauto|]. rewrite B2 by auto. rewrite A5. reflexivity.
      * destruct (B3 j Hj) as [C1 C2]. split; auto.
        destruct (Z.eq_dec j i) as [->|Hne]; [rewrite A4; eauto|].
        specialize (A2 j Hne). destruct (r_exts r !! j); eauto. destruct C1 as [? C1]. rewrite C1 in A2. discriminate.
    + intros j q Hq Hf Hj. destruct (Z.eq_dec j i) as [->|Hne].
      * assert (i = 0) as -> by (destruct Hj as [|Hj]; auto; exfalso; apply Hj; auto).
        rewrite A4 in Hq. injection Hq as ->. destruct q as [f v]. cbn in Hf. subst f. apply B4; auto.
      * apply B4; auto. destruct Hj as [|Hj]; auto.
Qed.
Lemma set_exts_spec {V} tf l : forall (r r' : rig V), fold_o (set_ext tf) l r = Ret r' ->
  r_cams r' = r_cams r /\
  (forall j, option_map (@p_fixed V) (r_exts r' !! j) = option_map (@p_fixed V) (r_exts r !! j)) /\
  (forall j, ~ In j l -> r_exts r' !! j = r_exts r !! j) /\
  (forall j, In j l -> exists p v, r_exts r' !! j = Some (mkParam p v) /\ tf j = Some v).
Proof.
  induction l as [|i l IH]; intros r r'; cbn.
  - intros H. injection H as <-. split; auto. split; auto. split; auto. intros ? [].
  - unfold set_ext at 1. destruct (tf i) as [v|] eqn:Et; cbn; try discriminate.
    destruct (r_exts r !! i) as [p|] eqn:Ep; cbn; try discriminate. intros H.
    destruct (IH _ _ H) as (A1 & A2 & A3 & A4). cbn in *. split; [auto|]. split; [|split].
    + intros j. rewrite A2. destruct (Z.eq_dec j i) as [->|]; [rewrite lookup_insert, Ep; reflexivity|rewrite lookup_insert_ne by auto; reflexivity].
    + intros j Hj. rewrite A3 by tauto. apply lookup_insert_ne. intros ->. tauto.
    + intros j [<-|Hj]; [|auto]. destruct (in_dec Z.eq_dec i l) as [Hi|Hi]; [auto|].
      rewrite A3 by auto. rewrite lookup_insert. eauto.
Qed.

Lemma cam_indices_In {V} (r : rig V) i : In i (cam_indices r) <-> is_Some (r_cams r !! i).
Proof.
  unfold cam_indices. rewrite <- elem_of_list_In, elem_of_list_fmap. split.
  - intros ([c v] & -> & H). apply elem_of_map_to_list in H. simpl. eauto.
  - intros [v H]. exists (i, v). split; auto. now apply elem_of_map_to_list.
Qed.

(** ** C32, what holds: camera intrinsics the user fixed keep flag and value, whatever the
    optimiser, the pose estimator and the camera chain deliver; after the phase the extrinsics of
    camera 0 are fixed and those of all other cameras are not. *)
Theorem C32_fixed_intrinsics_partial : forall V qs tf q (r r' : rig V), initialize qs tf q r = Ret r' ->
  (forall i, option_map (@p_fixed V) (r_cams r' !! i) = option_map (@p_fixed V) (r_cams r !! i)) /\
  (forall i p, r_cams r !! i = Some p -> p_fixed p = true -> r_cams r' !! i = Some p) /\
  (forall i, is_Some (r_cams r !! i) -> option_map (@p_fixed V) (r_exts r' !! i) = Some (i =? 0)) /\
  (* one camera only: the extrinsics of camera 0 keep their value if they were fixed *)
  (forall p, size (r_cams r) = 1%nat -> r_exts r !! 0 = Some p -> p_fixed p = true -> r_exts r' !! 0 = Some p).
Proof.
  intros V qs tf q r r' H. unfold initialize, initialize_intrinsics in H.
  destruct (fold_o (init_camera qs) (cam_indices r) r) as [r1| |] eqn:E1; cbn in H; try discriminate.
  apply init_cameras_spec in E1; [|apply NoDup_fst_map_to_list]. destruct E1 as (A1 & A2 & A3 & A4).
  assert (Hs : forall i, is_Some (r_cams r1 !! i) <-> is_Some (r_cams r !! i)).
  { intros i. destruct A1 as [A1 _]. specialize (A1 i).
    destruct (r_cams r1 !! i), (r_cams r !! i); split; intros []; eauto; discriminate. }
  unfold initialize_extrinsics in H. destruct (Nat.eqb_spec (size (r_cams r1)) 1) as [Hsz|Hsz].
  - injection H as <-. split; [apply A1|]. split; [apply A1|]. split.
    + intros i Hi. apply A3, cam_indices_In; auto.
    + intros p _ Hp Hf. apply A4; auto.
  - destruct (fold_o (set_ext tf) (cam_indices r1) r1) as [r2| |] eqn:E2; cbn in H; try discriminate.
    apply set_exts_spec in E2. destruct E2 as (B1 & B2 & B3 & B4).
    apply calib_initialize_spec in H. destruct H as (C1 & C2 & C3 & C4).
    split; [intros i; rewrite C1, B1; apply A1|]. split; [intros i p Hp Hf; apply C3; auto; rewrite B1; now apply A1|].
    split; [intros i Hi; rewrite C2, B2; apply A3, cam_indices_In; auto|].
    intros p Hone. exfalso. apply Hsz.
    assert (dom (r_cams r1) = dom (r_cams r)) as Hd by (apply set_eq; intros i; rewrite !elem_of_dom; apply Hs).
    rewrite <- !size_dom, Hd, size_dom. auto.
Qed.
Print Assumptions C32_fixed_intrinsics_partial.
Example C32_ex : let r := mkRig {[0 := mkParam true 5; 1 := mkParam false 6]} {[0 := mkParam true 0; 1 := mkParam true 7]} in
  let q := mkProp (fun i => i + 100) (fun i => i + 200) in
  initialize (fun _ => Some q) (fun i => Some (i + 300)) (Some q) r =
  Ret (mkRig {[0 := mkParam true 5; 1 := mkParam false 101]} {[0 := mkParam true 300; 1 := mkParam false 201]}).
Proof. reflexivity. Qed.

(** ** C32 as stated is false: extrinsics of a camera other than 0 that the user fixed are not
    fixed afterwards and have another value; and even the fixed extrinsics of camera 0 are
    overwritten when there are several cameras. *)
Theorem C32_fixed_extrinsics_refuted :
  exists (r r' : rig Z) qs tf q, initialize qs tf q r = Ret r' /\
    (exists p, r_exts r !! 1 = Some p /\ p_fixed p = true /\
       exists p', r_exts r' !! 1 = Some p' /\ p_fixed p' = false /\ p_val p' <> p_val p) /\
    (exists p, r_exts r !! 0 = Some p /\ p_fixed p = true /\
       exists p', r_exts r' !! 0 = Some p' /\ p_val p' <> p_val p).
Proof.
  exists (mkRig {[0 := mkParam true 5; 1 := mkParam false 6]} {[0 := mkParam true 0; 1 := mkParam true 7]}).
  eexists _, (fun _ => Some (mkProp (fun i => i + 100) (fun i => i + 200))), (fun i => Some (i + 300)),
    (Some (mkProp (fun i => i + 100) (fun i => i + 200))).
  split; [apply C32_ex|]. split.
  - exists (mkParam true 7). split; [reflexivity|]. split; [reflexivity|]. exists (mkParam false 201).
    split; [reflexivity|]. split; [reflexivity|]. discriminate.
  - exists (mkParam true 0). split; [reflexivity|]. split; [reflexivity|]. exists (mkParam true 300).
    split; [reflexivity|]. discriminate.
Qed.
Print Assumptions C32_fixed_extrinsics_refuted.
