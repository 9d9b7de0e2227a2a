(** * Lemmas: column layout and normal equations *)
From Coq Require Import Reals Lra.
From Verif Require Import Base SolverLsqModel.
From Coq Require Import ZifyBool ZifyNat.
Local Open Scope Z_scope.

Lemma existsb_eqb x l : existsb (Z.eqb x) l = true <-> In x l.
Proof.
  rewrite existsb_exists. split.
  - intros (y & Hy & E). apply Z.eqb_eq in E. now subst.
  - intros H. exists x. split; auto. apply Z.eqb_refl.
Qed.

(** ** sums *)
Section Sums.
Local Open Scope R_scope.
Lemma sumn_ext n f g : (forall i, (0 <= i < Z.of_nat n)%Z -> f i = g i) -> sumn n f = sumn n g.
Proof. induction n as [|n IH]; intros H; simpl; auto. rewrite IH, H; auto; intros; try apply H; lia. Qed.
Lemma sumn_plus n f g : sumn n (fun i => f i + g i) = sumn n f + sumn n g.
Proof. induction n as [|n IH]; simpl; [lra|]. rewrite IH. lra. Qed.
Lemma sumn_scal n c f : sumn n (fun i => c * f i) = c * sumn n f.
Proof. induction n as [|n IH]; simpl; [lra|]. rewrite IH. lra. Qed.
Lemma sumn_0 n : sumn n (fun _ => 0) = 0.
Proof. induction n as [|n IH]; simpl; [lra|]. rewrite IH. lra. Qed.
Lemma sumn_add n m f : sumn (n + m) f = sumn n f + sumn m (fun i => f (Z.of_nat n + i)%Z).
Proof.
  induction m as [|m IH]; simpl.
  - rewrite Nat.add_0_r. lra.
  - rewrite Nat.add_succ_r. simpl. rewrite IH. replace (Z.of_nat (n + m)) with (Z.of_nat n + Z.of_nat m)%Z by lia. lra.
Qed.
Lemma sumn_nonneg n f : (forall i, 0 <= f i) -> 0 <= sumn n f.
Proof. intros H. induction n as [|n IH]; simpl; [lra|]. specialize (H (Z.of_nat n)). lra. Qed.
Lemma sumn_swap n m (f : Z -> Z -> R) : sumn n (fun i => sumn m (fun j => f i j)) = sumn m (fun j => sumn n (fun i => f i j)).
Proof.
  induction n as [|n IH]; simpl.
  - symmetry. apply sumn_0.
  - rewrite IH. rewrite <- sumn_plus. reflexivity.
Qed.

End Sums.

Section L.
Context (info : Z -> pinfo).
Notation size p := (pi_size (info p)).
Definition sum_sizes (l : list Z) : Z := fold_right (fun p n => size p + n) 0 l.
Lemma sum_sizes_app l1 l2 : sum_sizes (l1 ++ l2) = sum_sizes l1 + sum_sizes l2.
Proof. induction l1; simpl; lia. Qed.

Definition tracked (t : ptype) (all : list Z) (p : Z) : Prop :=
  In p all /\ pi_fixed (info p) = false /\ pi_type (info p) = t.
Definition group (t : track) (ty : ptype) : list Z :=
  match ty with TPose => t_pose t | TSb => t_sb t | TCamera => t_cam t
              | TExtrinsics => t_ext t | TFiducial => t_fid t | TOther => [] end.
Definition others (all : list Z) : list Z :=
  filter (fun p => negb (pi_fixed (info p)) && match pi_type (info p) with TOther => true | _ => false end)
         (nodup Z.eq_dec all).

Definition columns (t : track) : list Z := t_pose t ++ t_sb t ++ t_cam t ++ t_ext t ++ t_fid t.

Record TInv (all : list Z) (t : track) : Prop := mkTInv {
  ti_seen : forall p, In p (t_seen t) <-> In p all;
  ti_grp : forall ty p, ty <> TOther -> (In p (group t ty) <-> tracked ty all p);
  ti_nd : forall ty, NoDup (group t ty);
  ti_len : (forall p, In p all -> pi_fixed (info p) = false -> pi_type (info p) <> TOther) ->
           t_len t = sum_sizes (columns t);
  ti_len0 : (forall p, 0 <= size p) -> sum_sizes (columns t) <= t_len t }.

Lemma NoDup_snoc (l : list Z) x : NoDup l -> ~ In x l -> NoDup (l ++ [x]).
Proof.
  induction l as [|y l IH]; intros Hn Hx; simpl.
  - repeat constructor; auto.
  - inversion Hn; subst. constructor.
    + rewrite in_app_iff. simpl. intros [H|[H|[]]]; [contradiction|]. subst. apply Hx. now left.
    + apply IH; auto. intros H. apply Hx. now right.
Qed.

Lemma track_block_inv all t p : TInv all t -> TInv (all ++ [p]) (track_block info t p).
Proof.
  intros [I1 I2 I3 I4 I5]. unfold track_block.
  destruct (existsb (Z.eqb p) (t_seen t)) eqn:Es.
  - apply existsb_eqb in Es. apply I1 in Es.
    assert (Hall : forall q, In q (all ++ [p]) <-> In q all).
    { intros q. rewrite in_app_iff. simpl. intuition. now subst. }
    split; auto.
    + intros q. now rewrite Hall.
    + intros ty q Ht. rewrite I2 by auto. unfold tracked. now rewrite Hall.
    + intros H. apply I4. intros q Hq. apply H. now apply Hall.
  - assert (Hp : ~ In p all). { intros H. apply I1 in H. apply existsb_eqb in H. congruence. }
    assert (Hg : forall ty, ty <> TOther -> ~ In p (group t ty)).
    { intros ty Ht H. apply I2 in H; auto. now destruct H. }
    destruct (pi_fixed (info p)) eqn:Ef.
    + split; cbn [t_seen t_len].
      * intros q. rewrite in_app_iff. simpl. rewrite I1. tauto.
      * intros ty q Ht. replace (group _ ty) with (group t ty) by (destruct ty; reflexivity).
        rewrite I2 by auto. unfold tracked. rewrite in_app_iff. simpl. intuition. subst. congruence.
      * intros ty. replace (group _ ty) with (group t ty) by (destruct ty; reflexivity). auto.
      * intros H. unfold columns. cbn. apply I4. intros q Hq. apply H. apply in_app_iff; auto.
      * intros H. apply I5. auto.
    + (* a new, free parameter *)
      set (t' := match pi_type (info p) with TPose => _ | _ => _ end).
      assert (Hs : t_seen t' = p :: t_seen t) by (unfold t'; destruct (pi_type (info p)); reflexivity).
      assert (Hl : t_len t' = t_len t + size p) by (unfold t'; destruct (pi_type (info p)); reflexivity).
      assert (Hgr : forall ty, ty <> TOther -> group t' ty = group t ty \/
                     (group t' ty = group t ty ++ [p] /\ ty = pi_type (info p))).
      { intros ty Ht. unfold t'. destruct (pi_type (info p)), ty; simpl; auto; congruence. }
      assert (Hgr2 : pi_type (info p) <> TOther -> group t' (pi_type (info p)) = group t (pi_type (info p)) ++ [p]).
      { intros Ht. unfold t'. destruct (pi_type (info p)); simpl; auto; congruence. }
      assert (Hc : sum_sizes (columns t') = sum_sizes (columns t) + match pi_type (info p) with TOther => 0 | _ => size p end).
      { unfold columns, t'. destruct (pi_type (info p)); cbn [t_pose t_sb t_cam t_ext t_fid];
          rewrite !sum_sizes_app; simpl; lia. }
      split.
      * intros q. rewrite Hs, in_app_iff. simpl. rewrite I1. tauto.
      * intros ty q Ht. unfold tracked. rewrite in_app_iff. simpl. specialize (I2 ty q Ht). unfold tracked in I2.
        destruct (Hgr ty Ht) as [E|[E Ety]]; rewrite E.
        -- rewrite I2. split; [tauto|]. intros [[Hq|[Hq|[]]] [Hf Hty]]; [tauto|]. subst q.
           exfalso. subst ty. rewrite Hgr2 in E by auto.
           apply (f_equal (@length Z)) in E. rewrite app_length in E. simpl in E. lia.
        -- rewrite in_app_iff. simpl. rewrite I2. subst ty. split.
           ++ intros [H|[H|[]]]; [tauto|]. subst q. tauto.
           ++ tauto.
      * intros ty. assert (Hty : ty = TOther \/ ty <> TOther) by (destruct ty; auto; right; discriminate).
        destruct Hty as [ -> |Hty]; [simpl; constructor|].
        destruct (Hgr ty Hty) as [E|[E Ety]]; rewrite E; auto. apply NoDup_snoc; auto.
      * intros H. rewrite Hl, Hc. rewrite I4.
        2:{ intros q Hq. apply H. apply in_app_iff; auto. }
        assert (Hpt : pi_type (info p) <> TOther) by (apply H; auto; apply in_app_iff; right; left; auto).
        destruct (pi_type (info p)); try lia. congruence.
      * intros H. rewrite Hl, Hc. specialize (I5 H). specialize (H p). destruct (pi_type (info p)); lia.
Qed.
Lemma track_inv all : TInv all (fold_left (track_block info) all track0).
Proof.
  induction all as [|p all IH] using rev_ind.
  - cbn. split.
    + intros p; simpl; tauto.
    + intros ty p Ht. unfold tracked. destruct ty; simpl; tauto.
    + intros ty. destruct ty; constructor.
    + intros _. reflexivity.
    + intros _. cbn. lia.
  - rewrite fold_left_app. cbn [fold_left]. now apply track_block_inv.
Qed.

Lemma columns_In all t p : TInv all t ->
  (In p (columns t) <-> In p all /\ pi_fixed (info p) = false /\ pi_type (info p) <> TOther).
Proof.
  intros I. unfold columns. rewrite !in_app_iff.
  pose proof (ti_grp all t I TPose p ltac:(discriminate)). pose proof (ti_grp all t I TSb p ltac:(discriminate)).
  pose proof (ti_grp all t I TCamera p ltac:(discriminate)). pose proof (ti_grp all t I TExtrinsics p ltac:(discriminate)).
  pose proof (ti_grp all t I TFiducial p ltac:(discriminate)). cbn [group] in *. unfold tracked in *.
  destruct (pi_type (info p)) eqn:E; intuition congruence.
Qed.
Lemma NoDup_app' (l1 l2 : list Z) : NoDup l1 -> NoDup l2 -> (forall x, In x l1 -> ~ In x l2) -> NoDup (l1 ++ l2).
Proof.
  induction l1 as [|x l1 IH]; simpl; intros H1 H2 Hd; auto. inversion H1; subst. constructor.
  - rewrite in_app_iff. intros [H|H]; [contradiction|]. apply (Hd x); auto.
  - apply IH; auto.
Qed.
Lemma columns_NoDup all t : TInv all t -> NoDup (columns t).
Proof.
  intros I.
  assert (Hd : forall ty1 ty2 p, ty1 <> ty2 -> ty1 <> TOther -> ty2 <> TOther -> In p (group t ty1) -> ~ In p (group t ty2)).
  { intros ty1 ty2 p Hne H1 H2 A B. apply (ti_grp all t I) in A; auto. apply (ti_grp all t I) in B; auto.
    destruct A as (_ & _ & A), B as (_ & _ & B). congruence. }
  pose proof (ti_nd all t I) as N. unfold columns.
  pose proof (N TPose); pose proof (N TSb); pose proof (N TCamera); pose proof (N TExtrinsics); pose proof (N TFiducial).
  cbn [group] in *.
  repeat apply NoDup_app'; auto; intros x Hx; rewrite ?in_app_iff; intros Hy;
    repeat match goal with H : _ \/ _ |- _ => destruct H end;
    match goal with A : In x (?f t), B : In x (?g t) |- _ =>
      let ty a := match a with t_pose => TPose | t_sb => TSb | t_cam => TCamera | t_ext => TExtrinsics | t_fid => TFiducial end in
      let a := ty f in let b := ty g in
      first [ exact (Hd a b x ltac:(discriminate) ltac:(discriminate) ltac:(discriminate) A B) ] end.
Qed.

(** ** assign *)
Lemma assign_find l : forall i0 p, NoDup l ->
  (forall i, order_find (assign info i0 l) p = Some i <->
     exists l1 l2, l = l1 ++ p :: l2 /\ i = i0 + sum_sizes l1).
Proof.
  induction l as [|q l IH]; intros i0 p Hn i; cbn [assign order_find].
  - split; [discriminate|]. intros ([|] & l2 & E & _); discriminate.
  - inversion Hn as [|? ? Hq Hn']; subst. destruct (Z.eqb_spec p q) as [->|Hne].
    + split.
      * intros E. injection E as <-. exists [], l. split; auto. simpl. lia.
      * intros (l1 & l2 & E & ->). destruct l1 as [|x l1]; [simpl; f_equal; lia|].
        injection E as -> E. exfalso. apply Hq. rewrite E. apply in_app_iff. right. now left.
    + rewrite (IH (i0 + size q) p Hn' i). split.
      * intros (l1 & l2 & -> & ->). exists (q :: l1), l2. split; auto. simpl. lia.
      * intros (l1 & l2 & E & ->). destruct l1 as [|x l1]; injection E as E1 E2; [congruence|].
        subst x. exists l1, l2. split; auto. simpl. lia.
Qed.
Lemma assign_find_In l i0 p : (exists i, order_find (assign info i0 l) p = Some i) <-> In p l.
Proof.
  revert i0. induction l as [|q l IH]; intros i0; cbn [assign order_find].
  - split; [intros [i H]; discriminate|intros []].
  - destruct (Z.eqb_spec p q) as [->|Hne].
    + split; [now left|eauto].
    + rewrite IH. simpl. intuition congruence.
Qed.
Lemma sum_sizes_nonneg l : (forall p, 0 <= size p) -> 0 <= sum_sizes l.
Proof. intros H. induction l; simpl; [lia|]. specialize (H a). lia. Qed.
Lemma assign_cover l : forall i0 c, i0 <= c < i0 + sum_sizes l ->
  exists l1 p l2, l = l1 ++ p :: l2 /\ i0 + sum_sizes l1 <= c < i0 + sum_sizes l1 + size p.
Proof.
  induction l as [|q l IH]; intros i0 c Hc; simpl in Hc; [lia|].
  destruct (Z_lt_dec c (i0 + size q)).
  - exists [], q, l. simpl. split; auto. lia.
  - destruct (IH (i0 + size q) c) as (l1 & p & l2 & -> & H); [lia|].
    exists (q :: l1), p, l2. split; auto. simpl. lia.
Qed.
(** two different entries: one lies entirely before the other *)
Lemma split_two (l : list Z) p q : p <> q -> forall l1 l2 m1 m2, l = l1 ++ p :: l2 -> l = m1 ++ q :: m2 ->
  (exists k, m1 = l1 ++ p :: k) \/ (exists k, l1 = m1 ++ q :: k).
Proof.
  intros Hne l1. revert l. induction l1 as [|x l1 IH]; intros l l2 m1 m2 E1 E2.
  - destruct m1 as [|y m1]; simpl in *; subst l.
    + injection E2 as E _. congruence.
    + injection E2 as <- _. left. exists m1. auto.
  - destruct m1 as [|y m1]; simpl in *; subst l.
    + injection E2 as <- _. right. exists l1. auto.
    + injection E2 as <- E2. destruct (IH _ l2 m1 m2 eq_refl E2) as [[k ->]|[k ->]]; [left|right]; exists k; auto.
Qed.

Local Open Scope R_scope.
(** ** rows of one residual *)
Variable o : list (Z * Z).
Definition ent (x : Z * (Z -> Z -> R)) (k a : Z) : R :=
  if pi_fixed (info (fst x)) then 0 else
  if in_blk (order_at o (fst x)) (size (fst x)) a then snd x k (a - order_at o (fst x))%Z else 0.
Definition jrow (bs : list (Z * (Z -> Z -> R))) (k a : Z) : R := fold_right (fun x s => ent x k a + s) 0 bs.

Lemma jrow_cons x bs k a : jrow (x :: bs) k a = ent x k a + jrow bs k a.
Proof. reflexivity. Qed.
Lemma ent_fixed x k a : pi_fixed (info (fst x)) = true -> ent x k a = 0.
Proof. unfold ent. now intros ->. Qed.
Lemma ent_free x k a : pi_fixed (info (fst x)) = false -> ent x k a =
  if in_blk (order_at o (fst x)) (size (fst x)) a then snd x k (a - order_at o (fst x))%Z else 0.
Proof. unfold ent. now intros ->. Qed.
Lemma sumn_if2 n (A B : bool) f g :
  sumn n (fun k => (if A then f k else 0) * (if B then g k else 0)) = if A && B then sumn n (fun k => f k * g k) else 0.
Proof.
  destruct A, B; cbn [andb]; auto; (transitivity (sumn n (fun _ => 0)); [apply sumn_ext; intros; lra|apply sumn_0]).
Qed.
Lemma sumn_if1 n (A : bool) f g :
  sumn n (fun k => - (if A then f k else 0) * g k) = if A then sumn n (fun k => - f k * g k) else 0.
Proof.
  destruct A; auto; (transitivity (sumn n (fun _ => 0)); [apply sumn_ext; intros; lra|apply sumn_0]).
Qed.
Lemma sum_ent2 n x y a c : pi_fixed (info (fst x)) = false -> pi_fixed (info (fst y)) = false ->
  sumn n (fun k => ent x k a * ent y k c) =
  if in_blk (order_at o (fst x)) (size (fst x)) a && in_blk (order_at o (fst y)) (size (fst y)) c
  then sumn n (fun k => snd x k (a - order_at o (fst x))%Z * snd y k (c - order_at o (fst y))%Z) else 0.
Proof.
  intros Hx Hy. rewrite <- (sumn_if2 n _ _ (fun k => snd x k (a - order_at o (fst x))%Z) (fun k => snd y k (c - order_at o (fst y))%Z)).
  apply sumn_ext. intros k _. now rewrite !ent_free by auto.
Qed.
Lemma sum_ent1 n x a r : pi_fixed (info (fst x)) = false ->
  sumn n (fun k => - ent x k a * r k) =
  if in_blk (order_at o (fst x)) (size (fst x)) a then sumn n (fun k => - snd x k (a - order_at o (fst x))%Z * r k) else 0.
Proof.
  intros Hx. rewrite <- (sumn_if1 n _ (fun k => snd x k (a - order_at o (fst x))%Z) r).
  apply sumn_ext. intros k _. now rewrite !ent_free by auto.
Qed.
Lemma hess_row_spec n p Ji bs : pi_fixed (info p) = false -> forall H a c,
  hess_row info o n p Ji bs H a c =
  H a c + sumn n (fun k => ent (p, Ji) k a * jrow bs k c + jrow bs k a * ent (p, Ji) k c).
Proof.
  intros Hp. induction bs as [|[q Jj] bs IH]; intros H a c; cbn [hess_row].
  - rewrite (sumn_ext n _ (fun _ => 0)), sumn_0 by (intros; simpl; lra). lra.
  - destruct (pi_fixed (info q)) eqn:Hq.
    + rewrite IH. f_equal. apply sumn_ext. intros k _. rewrite !jrow_cons, !(ent_fixed (q, Jj)) by auto. lra.
    + rewrite IH. unfold block_add, jtj.
      assert (Hk : sumn n (fun k => ent (p, Ji) k a * jrow ((q, Jj) :: bs) k c + jrow ((q, Jj) :: bs) k a * ent (p, Ji) k c)
        = sumn n (fun k => ent (p, Ji) k a * ent (q, Jj) k c + ent (q, Jj) k a * ent (p, Ji) k c) +
          sumn n (fun k => ent (p, Ji) k a * jrow bs k c + jrow bs k a * ent (p, Ji) k c)).
      { rewrite <- sumn_plus. apply sumn_ext. intros k _. rewrite !jrow_cons. lra. }
      rewrite Hk. rewrite (sumn_plus n (fun k => ent (p, Ji) k a * ent (q, Jj) k c)).
      set (T := sumn n (fun k => ent (p, Ji) k a * jrow bs k c + jrow bs k a * ent (p, Ji) k c)).
      rewrite !sum_ent2 by auto. cbn [fst snd].
      rewrite (sumn_ext n (fun k => Jj k (a - order_at o q)%Z * Ji k (c - order_at o p)%Z)
                          (fun k => Ji k (c - order_at o p)%Z * Jj k (a - order_at o q)%Z)) by (intros; lra).
      destruct (in_blk (order_at o p) (size p) a), (in_blk (order_at o q) (size q) c),
               (in_blk (order_at o q) (size q) a), (in_blk (order_at o p) (size p) c); cbn [andb]; lra.
Qed.
Lemma hess_blocks_spec n r bs : forall Hb a c,
  fst (hess_blocks info o n r bs Hb) a c = fst Hb a c + sumn n (fun k => jrow bs k a * jrow bs k c) /\
  snd (hess_blocks info o n r bs Hb) a = snd Hb a + sumn n (fun k => - jrow bs k a * r k).
Proof.
  induction bs as [|[p Ji] bs IH]; intros Hb a c; cbn [hess_blocks].
  - rewrite (sumn_ext n (fun k => jrow [] k a * jrow [] k c) (fun _ => 0)) by (intros; simpl; lra).
    rewrite (sumn_ext n (fun k => - jrow [] k a * r k) (fun _ => 0)) by (intros; simpl; lra).
    rewrite !sumn_0. lra.
  - destruct (pi_fixed (info p)) eqn:Hp.
    + destruct (IH Hb a c) as [-> ->]. split; f_equal; apply sumn_ext; intros k _;
        rewrite !jrow_cons, !(ent_fixed (p, Ji)) by auto; lra.
    + destruct (IH (hess_row info o n p Ji bs (block_add (fst Hb) (order_at o p) (order_at o p) (size p) (size p) (jtj n Ji Ji)),
         seg_add (snd Hb) (order_at o p) (size p) (fun a0 => sumn n (fun k => - Ji k a0 * r k))) a c) as [E1 E2].
      rewrite E1, E2. cbn [fst snd]. rewrite hess_row_spec by auto. split.
      * replace (sumn n (fun k => jrow ((p, Ji) :: bs) k a * jrow ((p, Ji) :: bs) k c)) with
          (sumn n (fun k => ent (p, Ji) k a * ent (p, Ji) k c) +
           (sumn n (fun k => ent (p, Ji) k a * jrow bs k c + jrow bs k a * ent (p, Ji) k c) +
            sumn n (fun k => jrow bs k a * jrow bs k c))).
        2:{ rewrite <- !sumn_plus. apply sumn_ext. intros k _. rewrite !jrow_cons. lra. }
        rewrite sum_ent2 by auto. cbn [fst snd].
        unfold block_add, jtj.
        destruct (in_blk (order_at o p) (size p) a), (in_blk (order_at o p) (size p) c); cbn [andb]; lra.
      * replace (sumn n (fun k => - jrow ((p, Ji) :: bs) k a * r k)) with
          (sumn n (fun k => - ent (p, Ji) k a * r k) + sumn n (fun k => - jrow bs k a * r k)).
        2:{ rewrite <- !sumn_plus. apply sumn_ext. intros k _. rewrite !jrow_cons. lra. }
        rewrite sum_ent1 by auto. unfold seg_add. cbn [fst snd].
        destruct (in_blk (order_at o p) (size p) a); lra.
Qed.
Definition sum_res (f : resid -> R) (rs : list resid) : R := fold_right (fun x s => f x + s) 0 rs.
Lemma form_hessian_spec rs a c :
  fst (form_hessian info o rs) a c = sum_res (fun x => sumn (rs_n x) (fun k => jrow (rs_blk x) k a * jrow (rs_blk x) k c)) rs /\
  snd (form_hessian info o rs) a = sum_res (fun x => sumn (rs_n x) (fun k => - jrow (rs_blk x) k a * rs_val x k)) rs.
Proof.
  unfold form_hessian.
  assert (G : forall rs Hb,
    fst (fold_left (fun Hb x => hess_blocks info o (rs_n x) (rs_val x) (rs_blk x) Hb) rs Hb) a c =
      fst Hb a c + sum_res (fun x => sumn (rs_n x) (fun k => jrow (rs_blk x) k a * jrow (rs_blk x) k c)) rs /\
    snd (fold_left (fun Hb x => hess_blocks info o (rs_n x) (rs_val x) (rs_blk x) Hb) rs Hb) a =
      snd Hb a + sum_res (fun x => sumn (rs_n x) (fun k => - jrow (rs_blk x) k a * rs_val x k)) rs).
  { clear rs. induction rs as [|x rs IH]; intros Hb; cbn [fold_left sum_res fold_right]; [lra|].
    destruct (IH (hess_blocks info o (rs_n x) (rs_val x) (rs_blk x) Hb)) as [-> ->].
    destruct (hess_blocks_spec (rs_n x) (rs_val x) (rs_blk x) Hb a c) as [-> ->].
    unfold sum_res. lra. }
  destruct (G rs (fun _ _ => 0, fun _ => 0)) as [-> ->]. cbn [fst snd]. lra.
Qed.

(** ** the stacked Jacobian *)
Definition blocks_disjoint (bs : list (Z * (Z -> Z -> R))) (a : Z) : Prop :=
  forall i j x y, nth_error bs i = Some x -> nth_error bs j = Some y -> i <> j ->
    pi_fixed (info (fst x)) = false -> pi_fixed (info (fst y)) = false ->
    in_blk (order_at o (fst x)) (size (fst x)) a = true -> in_blk (order_at o (fst y)) (size (fst y)) a = false.
Lemma blocks_disjoint_tl x bs a : blocks_disjoint (x :: bs) a -> blocks_disjoint bs a.
Proof. intros H i j y z Hi Hj Hne. apply (H (S i) (S j)); auto. Qed.
Lemma jrow_zero bs k a : (forall x, In x bs -> pi_fixed (info (fst x)) = false ->
    in_blk (order_at o (fst x)) (size (fst x)) a = false) -> jrow bs k a = 0.
Proof.
  induction bs as [|x bs IH]; intros H; cbn [jrow fold_right]; auto. fold (jrow bs k a).
  rewrite IH by (intros; apply H; simpl; auto). unfold ent. destruct (pi_fixed (info (fst x))) eqn:E; [lra|].
  rewrite H; simpl; auto. lra.
Qed.
Lemma jac_blocks_spec row n bs : forall J u a, blocks_disjoint bs a ->
  jac_blocks info o row n bs J u a =
  if in_blk row n u then
    (if existsb (fun x => negb (pi_fixed (info (fst x))) && in_blk (order_at o (fst x)) (size (fst x)) a) bs
     then jrow bs (u - row)%Z a else J u a)
  else J u a.
Proof.
  induction bs as [|[p Jp] bs IH]; intros J u a Hd; cbn [jac_blocks existsb].
  - destruct (in_blk row n u); auto.
  - pose proof (blocks_disjoint_tl _ _ _ Hd) as Hd'. cbn [fst]. destruct (pi_fixed (info p)) eqn:Hp.
    + rewrite IH by auto. cbn [negb andb orb]. destruct (in_blk row n u); auto.
      destruct (existsb _ bs); auto. rewrite jrow_cons, (ent_fixed (p, Jp)) by auto. lra.
    + rewrite IH by auto. cbn [negb andb]. destruct (in_blk row n u) eqn:Eu; cbn [andb]; auto.
      destruct (in_blk (order_at o p) (size p) a) eqn:Ea; cbn [orb].
      * assert (Hz : forall x, In x bs -> pi_fixed (info (fst x)) = false -> in_blk (order_at o (fst x)) (size (fst x)) a = false).
        { intros x Hx Hf. destruct (In_nth_error _ _ Hx) as [j Hj].
          apply (Hd O (S j) (p, Jp) x); auto. }
        replace (existsb _ bs) with false.
        2:{ symmetry. apply not_true_is_false. rewrite existsb_exists. intros (x & Hx & E).
            apply andb_prop in E. destruct E as [E1 E2]. rewrite Hz in E2; auto; try discriminate.
            now apply negb_true_iff in E1. }
        cbn [jrow fold_right]. fold (jrow bs (u - row)%Z a). rewrite jrow_zero by auto.
        unfold ent. cbn [fst snd]. rewrite Hp, Ea. lra.
      * destruct (existsb _ bs); auto. rewrite jrow_cons, (ent_free (p, Jp)) by auto. cbn [fst snd]. rewrite Ea. lra.
Qed.
Lemma jac_blocks_zero row n bs J u a : blocks_disjoint bs a -> (in_blk row n u = true -> J u a = 0) ->
  jac_blocks info o row n bs J u a = if in_blk row n u then jrow bs (u - row)%Z a else J u a.
Proof.
  intros Hd H0. rewrite jac_blocks_spec by auto. destruct (in_blk row n u) eqn:Eu; auto.
  destruct (existsb _ bs) eqn:Ee; auto. rewrite H0 by auto. symmetry. apply jrow_zero.
  intros x Hx Hf. apply not_true_is_false. intros E.
  assert (existsb (fun x => negb (pi_fixed (info (fst x))) && in_blk (order_at o (fst x)) (size (fst x)) a) bs = true).
  { apply existsb_exists. exists x. split; auto. rewrite Hf, E. auto. }
  congruence.
Qed.
Lemma form_jacobian_spec rs : forall row J r,
  (forall u, (row <= u)%Z -> r u = 0) ->
  forall a c, (forall u, (row <= u)%Z -> J u a = 0 /\ J u c = 0) ->
  (forall x, In x rs -> blocks_disjoint (rs_blk x) a /\ blocks_disjoint (rs_blk x) c) ->
  let J' := fst (form_jacobian info o row rs J r) in
  let r' := snd (form_jacobian info o row rs J r) in
  (forall u, (u < row)%Z -> J' u a = J u a /\ J' u c = J u c /\ r' u = r u) /\
  sumn (total_rows rs) (fun i => J' (row + i)%Z a * J' (row + i)%Z c) =
    sum_res (fun x => sumn (rs_n x) (fun k => jrow (rs_blk x) k a * jrow (rs_blk x) k c)) rs /\
  sumn (total_rows rs) (fun i => - J' (row + i)%Z a * r' (row + i)%Z) =
    sum_res (fun x => sumn (rs_n x) (fun k => - jrow (rs_blk x) k a * rs_val x k)) rs.
Proof.
  induction rs as [|x rs IH]; intros row J r Hr a c HJ Hd; cbn [form_jacobian].
  - cbv zeta. cbn. split; auto.
  - cbv zeta. destruct (Hd x ltac:(now left)) as [Hda Hdc].
    set (n := Z.of_nat (rs_n x)). set (J1 := jac_blocks info o row n (rs_blk x) J).
    set (r1 := fun a0 => if in_blk row n a0 then rs_val x (a0 - row)%Z else r a0).
    assert (Hout : forall u, in_blk row n u = true <-> (row <= u < row + n)%Z) by (intros; unfold in_blk; lia).
    assert (J1a : forall u, J1 u a = if in_blk row n u then jrow (rs_blk x) (u - row)%Z a else J u a).
    { intros u. apply jac_blocks_zero; auto. intros Hu. apply Hout in Hu. apply HJ. lia. }
    assert (J1c : forall u, J1 u c = if in_blk row n u then jrow (rs_blk x) (u - row)%Z c else J u c).
    { intros u. apply jac_blocks_zero; auto. intros Hu. apply Hout in Hu. apply HJ. lia. }
    destruct (IH (row + n)%Z J1 r1) with (a := a) (c := c) as (P1 & P2 & P3).
    { intros u Hu. unfold r1. destruct (in_blk row n u) eqn:E; [apply Hout in E; lia|]. apply Hr. lia. }
    { intros u Hu. rewrite J1a, J1c. destruct (in_blk row n u) eqn:E; [apply Hout in E; lia|]. apply HJ. lia. }
    { intros y Hy. apply Hd. now right. }
    cbv zeta in P1, P2, P3. set (F := form_jacobian info o (row + n)%Z rs J1 r1) in *.
    assert (Hlow : forall u, (row <= u < row + n)%Z ->
       fst F u a = jrow (rs_blk x) (u - row)%Z a /\ fst F u c = jrow (rs_blk x) (u - row)%Z c /\ snd F u = rs_val x (u - row)%Z).
    { intros u Hu. destruct (P1 u ltac:(lia)) as (-> & -> & ->). rewrite J1a, J1c. unfold r1.
      rewrite (proj2 (Hout u) Hu). auto. }
    split.
    { intros u Hu. destruct (P1 u ltac:(lia)) as (-> & -> & ->). rewrite J1a, J1c. unfold r1.
      destruct (in_blk row n u) eqn:E; [apply Hout in E; lia|]. auto. }
    cbn [total_rows fold_right sum_res]. fold (total_rows rs). rewrite !sumn_add. fold n.
    split.
    + f_equal.
      * apply sumn_ext. intros i Hi. destruct (Hlow (row + i)%Z ltac:(lia)) as (-> & -> & _).
        now replace (row + i - row)%Z with i by lia.
      * fold (sum_res (fun x0 => sumn (rs_n x0) (fun k => jrow (rs_blk x0) k a * jrow (rs_blk x0) k c)) rs).
        rewrite <- P2. apply sumn_ext. intros i _. now replace (row + (n + i))%Z with (row + n + i)%Z by lia.
    + f_equal.
      * apply sumn_ext. intros i Hi. destruct (Hlow (row + i)%Z ltac:(lia)) as (-> & _ & ->).
        now replace (row + i - row)%Z with i by lia.
      * fold (sum_res (fun x0 => sumn (rs_n x0) (fun k => - jrow (rs_blk x0) k a * rs_val x0 k)) rs).
        rewrite <- P3. apply sumn_ext. intros i _. now replace (row + (n + i))%Z with (row + n + i)%Z by lia.
Qed.
End L.
