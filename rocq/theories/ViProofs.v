(** Proofs about the visual-inertial calibrator's problem (C85, C87, C89). *)
From Verif Require Import Base GeomModel EulerModel StatsModel ImuModel ViModel ViSpec.
From Coq Require Import Reals Sorted Permutation.
Local Open Scope Z_scope.

Lemma perm_filter {A} (f : A -> bool) l l' : Permutation l l' -> Permutation (filter f l) (filter f l').
Proof.
  induction 1 as [|x l l' _ IH|x y l|l l' l'' _ IH1 _ IH2]; cbn; auto.
  - destruct (f x); auto.
  - destruct (f x), (f y); auto. apply perm_swap.
  - eapply perm_trans; eauto.
Qed.
Lemma filter_id {A} (f : A -> bool) l : (forall x, In x l -> f x = true) -> filter f l = l.
Proof. induction l as [|x l IH]; cbn; intros H; auto. rewrite H, IH; auto. Qed.
Lemma filter_none {A} (f : A -> bool) l : (forall x, In x l -> f x = false) -> filter f l = [].
Proof. induction l as [|x l IH]; cbn; intros H; auto. rewrite H, IH; auto. Qed.
Lemma filter_map_comm {A B} (f : B -> bool) (g : A -> B) l : filter f (map g l) = map g (filter (fun x => f (g x)) l).
Proof. induction l as [|x l IH]; cbn; auto. destruct (f (g x)); cbn; rewrite IH; auto. Qed.
Lemma filter_flat_map {A B} (f : B -> bool) (g : A -> list B) l : filter f (flat_map g l) = flat_map (fun x => filter f (g x)) l.
Proof. induction l as [|x l IH]; cbn; auto. rewrite filter_app, IH; auto. Qed.
Lemma flat_map_map {A B C} (f : A -> B) (g : B -> list C) l : flat_map g (map f l) = flat_map (fun x => g (f x)) l.
Proof. induction l as [|x l IH]; cbn; auto. rewrite IH; auto. Qed.
Lemma map_flat_map {A B C} (f : B -> C) (g : A -> list B) l : map f (flat_map g l) = flat_map (fun x => map f (g x)) l.
Proof. induction l as [|x l IH]; cbn; auto. rewrite map_app, IH; auto. Qed.
Lemma flat_map_ext_in {A B} (f g : A -> list B) l : (forall x, In x l -> f x = g x) -> flat_map f l = flat_map g l.
Proof. induction l as [|x l IH]; cbn; intros H; auto. rewrite H, IH; auto. Qed.
Lemma nodup_app {A} (l1 l2 : list A) : NoDup l1 -> NoDup l2 -> (forall r, In r l1 -> ~ In r l2) -> NoDup (l1 ++ l2).
Proof.
  intros N1 F N2. induction l1 as [|a l1 IH]; cbn; auto. inversion N1; subst. constructor.
  - rewrite in_app_iff. intros [Ha|Ha]; [contradiction|]. apply (N2 a); cbn; auto.
  - apply IH; auto. intros r Hr. apply N2. cbn; auto.
Qed.
Lemma pid_in_iff p l : pid_in p l = true <-> In p l.
Proof. unfold pid_in. destruct (in_dec pid_eq p l); split; intros; auto; discriminate. Qed.
Lemma pid_in_false p l : pid_in p l = false <-> ~ In p l.
Proof. unfold pid_in. destruct (in_dec pid_eq p l); split; intros; auto; try discriminate; contradiction. Qed.

(** ** The problem *)
Lemma add_res_same p q : q_res (q_add p q) = q_res q.
Proof. unfold q_add. destruct (pid_in p (q_params q)); reflexivity. Qed.
Lemma add_const_same p q : q_const (q_add p q) = q_const q.
Proof. unfold q_add. destruct (pid_in p (q_params q)); reflexivity. Qed.
Lemma add_in p q x : In x (q_params (q_add p q)) <-> In x (q_params q) \/ x = p.
Proof.
  unfold q_add. destruct (pid_in p (q_params q)) eqn:E; cbn.
  - apply pid_in_iff in E. split; auto. intros [H| -> ]; auto.
  - rewrite in_app_iff. cbn. intuition.
Qed.
Lemma fix_res p q : q_res (q_fix p q) = q_res q /\ q_params (q_fix p q) = q_params q.
Proof. unfold q_fix. destruct (pid_in p (q_const q)); auto. Qed.
Lemma fix_const p q x : In x (q_const (q_fix p q)) <-> In x (q_const q) \/ x = p.
Proof.
  unfold q_fix. destruct (pid_in p (q_const q)) eqn:E; cbn.
  - apply pid_in_iff in E. split; auto. intros [H| -> ]; auto.
  - rewrite in_app_iff. cbn. intuition.
Qed.
Lemma fold_add ps : forall q, let q' := fold_left (fun q p => q_add p q) ps q in
  q_res q' = q_res q /\ q_const q' = q_const q /\ (forall x, In x (q_params q') <-> In x (q_params q) \/ In x ps).
Proof.
  induction ps as [|p ps IH]; intros q; cbn.
  - intuition.
  - destruct (IH (q_add p q)) as (A & B & C). rewrite A, B, add_res_same, add_const_same. split; [auto|split; [auto|]].
    intros x. rewrite C, add_in. intuition.
Qed.
Lemma add_res_spec r ps q : q_res (q_add_res r ps q) = q_res q ++ [(r, ps)] /\ q_const (q_add_res r ps q) = q_const q /\
  (forall x, In x (q_params (q_add_res r ps q)) <-> In x (q_params q) \/ In x ps).
Proof.
  unfold q_add_res. destruct (fold_add ps q) as (A & B & C). cbn. rewrite A, B. auto.
Qed.
Lemma drop_spec p q : In p (q_params q) ->
  q_res (q_drop p q) = filter (fun x => negb (pid_in p (snd x))) (q_res q) /\
  (forall x, In x (q_params (q_drop p q)) <-> In x (q_params q) /\ x <> p) /\
  (forall x, In x (q_const (q_drop p q)) <-> In x (q_const q) /\ x <> p).
Proof.
  intros H. unfold q_drop. rewrite (proj2 (pid_in_iff _ _) H). cbn. split; [auto|]. split; intros x.
  - split; [intros K; apply in_remove in K; auto|intros [K1 K2]; apply in_in_remove; auto].
  - split; [intros K; apply in_remove in K; auto|intros [K1 K2]; apply in_in_remove; auto].
Qed.
Lemma drop_const p q x : In x (q_const q) -> x <> p -> In x (q_const (q_drop p q)).
Proof. intros H N. unfold q_drop. destruct (pid_in p (q_params q)); cbn; auto. apply in_in_remove; auto. Qed.
Lemma remove_res_spec r q q' : q_remove_res r q = Ret q' ->
  In r (map fst (q_res q)) /\ q_res q' = filter (fun x => if rid_eq r (fst x) then false else true) (q_res q) /\
  q_params q' = q_params q /\ q_const q' = q_const q.
Proof. unfold q_remove_res. destruct (in_dec rid_eq r (map fst (q_res q))); intros E; inversion E; subst; cbn; auto. Qed.

(** ** Corners and grids *)
Lemma corners_spec n c l : forall i q rs q', add_corners n c i l q = (rs, q') ->
  rs = map (fun k => (RCorner n c (i + fst k), snd k)) (combine (seq 0 (length l)) l) /\
  q_res q' = q_res q ++ map (fun rc => (fst rc, corner_params n c)) rs /\ q_const q' = q_const q /\
  (forall x, In x (q_params q') <-> In x (q_params q) \/ (l <> [] /\ In x (corner_params n c))).
Proof.
  induction l as [|p l IH]; intros i q rs q'.
  - cbn. intros E; inversion E; subst. cbn. rewrite app_nil_r. split; [auto|]. split; [auto|]. split; [auto|]. intuition.
  - cbn [add_corners]. destruct (add_corners n c (S i) l _) as [rs1 q1] eqn:E1. intros E; inversion E; subst. clear E.
    destruct (IH _ _ _ _ E1) as (A & B & C & D). destruct (add_res_spec (RCorner n c i) (corner_params n c) q) as (F & G & H).
    split; [|split; [|split]].
    + cbn [length seq combine map]. cbn [fst snd]. rewrite Nat.add_0_r. f_equal. rewrite A, <- seq_shift.
      clear. generalize (seq 0 (length l)) as s. revert l. induction l as [|p l IH]; intros [|k s]; cbn; auto.
      rewrite IH. f_equal. rewrite Nat.add_succ_r. reflexivity.
    + rewrite B, F. cbn. rewrite <- app_assoc. reflexivity.
    + congruence.
    + intros x. rewrite D, H. split.
      * intros [[K|K]|[_ K]]; auto; right; split; auto; discriminate.
      * intros [K|[_ K]]; auto.
Qed.
Lemma combine_snd {A} (l : list A) (s : list nat) : length s = length l -> map snd (combine s l) = l.
Proof. revert s. induction l as [|x l IH]; intros [|k s] E; cbn in *; auto; try discriminate. rewrite IH; auto. Qed.
Lemma combine_fst {A} (l : list A) (s : list nat) : length s = length l -> map fst (combine s l) = s.
Proof. revert s. induction l as [|x l IH]; intros [|k s] E; cbn in *; auto; try discriminate. rewrite IH; auto. Qed.

Definition shaped (n : nat) (fid : list (Z * list (rid * corner))) : Prop :=
  forall c rs r p, In (c, rs) fid -> In (r, p) rs -> exists i, r = RCorner n c i.
Definition fid_res (n : nat) (fid : list (Z * list (rid * corner))) : list (rid * list pid) :=
  flat_map (fun cam => map (fun rc => (fst rc, corner_params n (fst cam))) (snd cam)) fid.
Lemma of_view_eq v : of_view v = fid_res (v_id v) (v_fid v) ++
  match v_imu v with Some l => [(RImu (v_id v), imu_params_of (l_i l) (l_j l))] | None => [] end.
Proof. reflexivity. Qed.

Section P.
Context (pick : nat -> Z -> list corner -> list corner) (cfg : settings).

Lemma grids_spec s n gs : forall q fid q', add_grids pick cfg s n gs q = Ret (fid, q') ->
  q_res q' = q_res q ++ fid_res n fid /\ q_const q' = q_const q /\ shaped n fid /\
  (forall c rs, In (c, rs) fid -> In c (map fst gs)) /\
  (StronglySorted Z.lt (map fst gs) -> NoDup (map fst (fid_res n fid))) /\
  (forall x, In x (q_params q) -> In x (q_params q')) /\
  (forall x, per_view x -> In x (q_params q') -> In x (q_params q) \/ x = PPose n) /\
  (forall c rs, In (c, rs) fid <-> rs <> [] /\ exists g, In (c, g) gs /\ rs = map (fun k => (RCorner n c (fst k), snd k)) (combine (seq 0 (length (view_pts pick cfg n c g))) (view_pts pick cfg n c g))).
Proof.
  induction gs as [|[c g] gs IH]; intros q fid q' E; cbn [add_grids] in E.
  - inversion E; subst. cbn. rewrite app_nil_r. split; [auto|]. split; [auto|]. split; [intros c0 rs0 r p []|]. split; [intros c0 rs0 []|]. split; [constructor|].
    split; [auto|]. split; [auto|].
    intros c rs. split; [intros []|intros (_ & g & [] & _)].
  - assert (K : forall pts, view_pts pick cfg n c g = pts -> pts = [] /\ add_grids pick cfg s n gs q = Ret (fid, q') \/
       pts <> [] /\ known s c = true /\ exists rs q1 fid1, add_corners n c 0 pts q = (rs, q1) /\ add_grids pick cfg s n gs q1 = Ret (fid1, q') /\ fid = (c, rs) :: fid1).
    { intros pts Ep. rewrite Ep in E. destruct pts as [|p0 pts]; [left; auto|right]. split; [discriminate|].
      destruct (known s c); [|discriminate]. split; auto.
      destruct (add_corners n c 0 (p0 :: pts) q) as [rs q1]. destruct (add_grids pick cfg s n gs q1) as [[f1 q2]| |] eqn:Eg; try discriminate.
      cbn in E. inversion E; subst. exists rs, q1, f1. auto. }
    destruct (K _ eq_refl) as [[Ep E1]|(Ep & Ek & rs & q1 & f1 & E1 & E2 & -> )]; clear K E.
    + destruct (IH _ _ _ E1) as (A & B & C & D & F & G & H & I). split; [auto|]. split; [auto|]. split; [auto|]. split; [intros c0 rs0 K; right; eauto|].
      split; [intros Sd; apply F; cbn in Sd; inversion Sd; auto|]. split; [auto|]. split; [auto|].
      intros c0 rs0. split.
      * intros K. apply I in K as (K1 & g0 & K2 & K3). split; auto. exists g0. cbn; auto.
      * intros (K1 & g0 & [K2|K2] & K3); apply I; [|split; eauto].
        inversion K2; subst. rewrite Ep in K1. cbn in K1. congruence.
    + destruct (IH _ _ _ E2) as (A & B & C & D & F & G & H & I). destruct (corners_spec _ _ _ _ _ _ _ E1) as (A1 & A2 & A3 & A4).
      assert (Sh : forall r p, In (r, p) rs -> exists i, r = RCorner n c i).
      { intros r p Hr. rewrite A1 in Hr. apply in_map_iff in Hr as ((k & p') & Hr & _). cbn in Hr. inversion Hr; eauto. }
      split; [|split; [|split; [|split; [|split; [|split; [|split]]]]]].
      * rewrite A, A2, <- app_assoc. reflexivity.
      * congruence.
      * intros c0 rs0 r p [K|K] Hr; [inversion K; subst; eauto|eapply C; eauto].
      * intros c0 rs0 [K|K]; [inversion K; subst; cbn; auto|right; eauto].
      * intros Sd. cbn in Sd. apply StronglySorted_inv in Sd as (Sd1 & Sd2). unfold fid_res. cbn [flat_map fst snd].
        rewrite map_app.
        assert (N1 : NoDup (map fst (map (fun rc : rid * corner => (fst rc, corner_params n c)) rs))).
        { rewrite map_map. cbn. rewrite A1, map_map. cbn. 
          assert (Hm : map (fun x : nat * corner => RCorner n c (fst x)) (combine (seq 0 (length (view_pts pick cfg n c g))) (view_pts pick cfg n c g))
                     = map (fun k => RCorner n c k) (seq 0 (length (view_pts pick cfg n c g)))).
          { rewrite <- (map_map fst (fun k => RCorner n c k)), combine_fst; auto. apply seq_length. }
          rewrite Hm. apply FinFun.Injective_map_NoDup; [|apply seq_NoDup]. intros a b Hab. inversion Hab; auto. }
        specialize (F Sd1).
        assert (N2 : forall r, In r (map fst (map (fun rc : rid * corner => (fst rc, corner_params n c)) rs)) -> ~ In r (map fst (fid_res n f1))).
        { intros r Hr Hr'. rewrite map_map in Hr. apply in_map_iff in Hr as ((r0 & p0) & Hr1 & Hr2). cbn in Hr1. subst r0.
          destruct (Sh _ _ Hr2) as (i & -> ). unfold fid_res in Hr'. rewrite map_flat_map in Hr'.
          apply in_flat_map in Hr' as ((c' & rs') & H1 & H2). rewrite map_map in H2. apply in_map_iff in H2 as ((r1 & p1) & H2 & H3). cbn in H2. subst r1.
          destruct (C _ _ _ _ H1 H3) as (j & Hj). inversion Hj; subst c' j. apply D in H1.
          rewrite Forall_forall in Sd2. specialize (Sd2 _ H1). lia. }
        apply nodup_app; auto.
      * intros x Hx. apply G, A4. auto.
      * intros x Px Hx. apply H in Hx as [Hx|Hx]; auto. apply A4 in Hx as [Hx|[_ Hx]]; auto.
        cbn in Hx. intuition (subst; cbn in Px; try contradiction; auto).
      * intros c0 rs0. split.
        -- intros [K|K]; [inversion K; subst c0 rs0|].
           ++ split. { rewrite A1. destruct (view_pts pick cfg n c g); [congruence|discriminate]. }
              exists g. split; [cbn; auto|exact A1].
           ++ apply I in K as (K1 & g0 & K2 & K3). split; auto. exists g0. cbn; auto.
        -- intros (K1 & g0 & [K2|K2] & K3).
           ++ inversion K2; subst c0 g0. left. f_equal. rewrite A1, K3. reflexivity.
           ++ right. apply I. eauto.
Qed.
End P.
