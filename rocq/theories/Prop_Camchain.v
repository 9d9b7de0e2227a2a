(** * C26, C27: the camera chain. *)
From Coq Require Sorted.
From Verif Require Import Base.
From stdpp Require Import gmap list.
From Coq Require Import Lra.
From Verif Require Import GeomModel GeomSpec GeomProofs Prop_Geom CamchainModel CamchainSpec.
Local Open Scope Z_scope.

Lemma contains_stored c i j : contains c i j = true <-> exists T, stored c i j = Some T.
Proof.
  unfold contains, stored. destruct (exts c !! i) as [m|]; [destruct (m !! j) as [T|]|];
    split; intros H; try discriminate; eauto; destruct H; discriminate.
Qed.
Lemma contains_false c i j : contains c i j = false <-> stored c i j = None.
Proof.
  unfold contains, stored. destruct (exts c !! i) as [m|]; [destruct (m !! j) as [T|]|];
    split; intros H; try discriminate; auto.
Qed.
Lemma stored_put adj e i j T a b :
  stored (mkChain adj (put e i j T)) a b =
  if (a =? i) && (b =? j) then Some T else stored (mkChain adj e) a b.
Proof.
  unfold stored, put. simpl. destruct (Z.eqb_spec a i) as [ -> |N]; simpl.
  - rewrite lookup_insert. destruct (Z.eqb_spec b j) as [ -> |N'].
    + apply lookup_insert.
    + rewrite lookup_insert_ne by auto. destruct (e !! i); auto.
  - rewrite lookup_insert_ne by auto. reflexivity.
Qed.
Lemma stored_insert c i j T a b : i <> j ->
  stored (insert_ext c i j T) a b =
  if contains c i j then stored c a b
  else if (a =? i) && (b =? j) then Some T
  else if (a =? j) && (b =? i) then Some (tf_inv T) else stored c a b.
Proof.
  intros N. unfold insert_ext. destruct (contains c i j); auto.
  rewrite stored_put. rewrite stored_put. change (stored (mkChain _ (exts c)) a b) with (stored c a b).
  destruct (Z.eqb_spec a i), (Z.eqb_spec b j), (Z.eqb_spec a j), (Z.eqb_spec b i); simpl; auto; congruence.
Qed.

Definition Inv (c : camchain) : Prop := forall i j T, stored c i j = Some T ->
  i <> j /\ Rigid T /\ stored c j i = Some (tf_inv T).

Lemma rigid_inv T : Rigid T -> Rigid (tf_inv T) /\ tf_inv (tf_inv T) = T.
Proof. intros H. split; [apply C46_tf_inv_two_sided; auto|apply (C46_rigid_group T T); auto]. Qed.

Lemma Inv_sym c i j : Inv c -> stored c i j = None -> stored c j i = None.
Proof. intros I H. destruct (stored c j i) eqn:E; auto. apply I in E. destruct E as (_ & _ & E). congruence. Qed.

Lemma Inv_insert c i j T : i <> j -> Rigid T -> Inv c -> Inv (insert_ext c i j T).
Proof.
  intros N R I a b T'. rewrite !stored_insert by auto. destruct (contains c i j) eqn:C; [apply I|].
  destruct (rigid_inv T R) as [R' E].
  destruct (Z.eqb_spec a i), (Z.eqb_spec b j), (Z.eqb_spec a j), (Z.eqb_spec b i); simpl;
    try congruence; subst; intros H; try (injection H as <-);
    rewrite ?E; try (apply I in H); auto; try tauto.
Qed.

Lemma Inv_empty : Inv chain_empty.
Proof. intros i j T. unfold stored, chain_empty. simpl. rewrite lookup_empty. discriminate. Qed.

Lemma inserts_snoc h x : inserts (h ++ [x]) = insert_ext (inserts h) (fst (fst x)) (snd (fst x)) (snd x).
Proof. unfold inserts. rewrite fold_left_app. reflexivity. Qed.

Lemma first_insert_app h x i j : first_insert (h ++ [x]) i j =
  match first_insert h i j with Some T => Some T | None => first_insert [x] i j end.
Proof.
  induction h as [|[[a b] T] h IH]; simpl; auto.
  destruct ((a =? i) && (b =? j)); auto. destruct ((a =? j) && (b =? i)); auto.
Qed.
Lemma first_insert_none h i j : i <> j -> first_insert h i j = None <-> first_insert h j i = None.
Proof.
  intros N. induction h as [|[[a b] T] h IH]; simpl; [tauto|].
  destruct (Z.eqb_spec a i), (Z.eqb_spec b j), (Z.eqb_spec a j), (Z.eqb_spec b i); simpl; subst;
    try congruence; try tauto; split; discriminate.
Qed.

(** ** C26 *)
(** For every history of inserts between distinct cameras, [contains] is symmetric, the
    reverse extrinsic is the inverse, and what is stored is what the first insert of the
    pair determined. *)
Theorem C26_insert_history : forall h, (forall i j T, In ((i, j), T) h -> i <> j /\ Rigid T) ->
  forall i j,
    contains (inserts h) i j = contains (inserts h) j i /\
    (forall T, stored (inserts h) i j = Some T ->
       exists T', stored (inserts h) j i = Some T' /\ Inverse4 T T') /\
    (i <> j -> stored (inserts h) i j = first_insert h i j) /\ stored (inserts h) i i = None.
Proof.
  intros h H.
  assert (I : Inv (inserts h) /\ forall i j, i <> j -> stored (inserts h) i j = first_insert h i j).
  { induction h as [|[[a b] T] h IH] using rev_ind.
    - split; [apply Inv_empty|]. intros. unfold stored, inserts; simpl. rewrite lookup_empty. auto.
    - destruct IH as [IH1 IH2]. { intros i j T' K. apply H. apply in_or_app; auto. }
      destruct (H a b T) as [N R]; [apply in_or_app; simpl; auto|].
      rewrite inserts_snoc. simpl fst; simpl snd. split; [apply Inv_insert; auto|].
      intros i j Nij. rewrite stored_insert, first_insert_app, <- IH2 by auto.
      destruct (contains (inserts h) a b) eqn:C.
      + apply contains_stored in C. destruct C as [T' C].
        destruct (stored (inserts h) i j) eqn:S; auto. simpl.
        destruct (Z.eqb_spec a i), (Z.eqb_spec b j); simpl; try (subst; congruence);
        destruct (Z.eqb_spec a j), (Z.eqb_spec b i); simpl; try (subst; congruence); auto;
        subst; apply IH1 in C; destruct C as (_ & _ & C); congruence.
      + apply contains_false in C. pose proof (Inv_sym _ _ _ IH1 C) as C'.
        simpl. rewrite (Z.eqb_sym i a), (Z.eqb_sym j b), (Z.eqb_sym i b), (Z.eqb_sym j a).
        rewrite (andb_comm (b =? i)).
        destruct (Z.eqb_spec a i) as [E1|E1], (Z.eqb_spec b j) as [E2|E2],
          (Z.eqb_spec a j) as [E3|E3], (Z.eqb_spec b i) as [E4|E4]; simpl;
          destruct (stored (inserts h) i j) eqn:S; auto; exfalso; subst; congruence. }
  destruct I as [I F]. intros i j. split; [|split; [|split]].
  - destruct (contains (inserts h) i j) eqn:C; symmetry.
    + apply contains_stored in C. destruct C as [T C]. apply contains_stored.
      destruct (I _ _ _ C) as (_ & _ & E). eauto.
    + apply contains_false in C. apply contains_false. apply Inv_sym; auto.
  - intros T S. destruct (I _ _ _ S) as (_ & R & E). exists (tf_inv T). split; auto.
    apply C46_tf_inv_two_sided; auto.
  - auto.
  - destruct (stored (inserts h) i i) eqn:E; auto. apply I in E. destruct E as [E _]. congruence.
Qed.
(** inserting an extrinsic from a camera to itself breaks it *)
Theorem C26_self_insert_refuted : exists T, Rigid T /\
  stored (inserts [((0, 0), T)]) 0 0 = Some (tf_inv T) /\ ~ Inverse4 (tf_inv T) (tf_inv T).
Proof.
  set (T := tf I3 (V3 1 0 0)). assert (R : Rigid T).
  { exists I3, (V3 1 0 0). split; [apply (proj1 C46_rotation_group)|auto]. }
  exists T. split; auto. split.
  - unfold inserts. cbn [fold_left fst snd]. unfold insert_ext.
    replace (contains chain_empty 0 0) with false by reflexivity.
    rewrite stored_put. reflexivity.
  - intros [H _]. unfold T in H. rewrite tf_inv_tf, tf_mul in H.
    apply (f_equal n03) in H. unfold I4 in H. simpl in H. lra.
Qed.

(** ** the constructor *)
Section Ctor.
Context (estimate : Z -> view -> option mat4) (known : Z -> bool).
Context (HE : forall i v T, estimate i v = Some T -> Rigid T).

Definition ok_view (v : view) : bool := negb (negb (detected v) && (nb_detections v <? 12)).
Lemma ok_view_spec v : ok_view v = true <-> detected v = true \/ 12 <= nb_detections v.
Proof. unfold ok_view. destruct (detected v); simpl; [tauto|]. rewrite negb_true_iff, Z.ltb_ge. intuition discriminate. Qed.
Lemma get_spec vs i v : In (i, v) (get_aprilgrids vs) <-> sees vs i v.
Proof. unfold get_aprilgrids, sees. rewrite filter_In. simpl. fold (ok_view v). rewrite ok_view_spec. reflexivity. Qed.
Lemma get_sorted vs : ascending vs -> ascending (get_aprilgrids vs).
Proof.
  unfold ascending, get_aprilgrids. intros H. induction H as [|a l H IH F]; simpl; [constructor|].
  destruct (negb _); auto. constructor; auto. rewrite List.Forall_forall in *.
  intros x Hx. apply filter_In in Hx. apply F. tauto.
Qed.

(** what a time step contributes: the pair (first camera, other camera) *)
Lemma linked_get vs i j vi vj : ascending vs -> linked vs i j vi vj <->
  exists rest, get_aprilgrids vs = (i, vi) :: rest /\ In (j, vj) rest.
Proof.
  intros A. apply get_sorted in A. unfold linked. split.
  - intros (Si & Sj & L & M). apply get_spec in Si. apply get_spec in Sj.
    destruct (get_aprilgrids vs) as [|[k vk] rest] eqn:E; [contradiction|].
    assert (Hk : i <= k) by (apply (M k vk); apply get_spec; rewrite E; left; auto).
    inversion A as [|? ? A' F]; subst. rewrite List.Forall_forall in F.
    destruct Si as [Si|Si].
    + injection Si as -> ->. exists rest. split; auto. destruct Sj as [Sj|Sj]; auto.
      injection Sj as -> ->. lia.
    + apply F in Si. simpl in Si. lia.
  - intros (rest & E & Hj). rewrite E in A. inversion A as [|? ? A' F]; subst.
    rewrite List.Forall_forall in F.
    split; [apply get_spec; rewrite E; left; auto|].
    split; [apply get_spec; rewrite E; right; auto|].
    split; [apply F in Hj; simpl in Hj; lia|].
    intros k v K. apply get_spec in K. rewrite E in K. destruct K as [K|K]; [injection K as -> ->; lia|].
    apply F in K. simpl in K. lia.
Qed.

(** one link loop, with its effect on the stored extrinsics *)
Lemma link_ok ci gi rest : forall c c', Inv c ->
  (forall k v, In (k, v) rest -> ci < k) ->
  Sorted.StronglySorted (fun a b : Z * view => fst a < fst b) rest ->
  link estimate known ci gi rest c = Ret c' ->
  Inv c' /\ forall a b, (forall T, stored c a b = Some T -> stored c' a b = Some T) /\
   (stored c a b = None ->
     (exists v TiF TjF, a = ci /\ In (b, v) rest /\ estimate ci gi = Some TiF /\ estimate b v = Some TjF
        /\ stored c' a b = Some (mmul4 TiF (tf_inv TjF))) \/
     (exists v TiF TjF, b = ci /\ In (a, v) rest /\ estimate ci gi = Some TiF /\ estimate a v = Some TjF
        /\ stored c' a b = Some (tf_inv (mmul4 TiF (tf_inv TjF)))) \/
     (stored c' a b = None /\ ~ (a = ci /\ exists v, In (b, v) rest) /\ ~ (b = ci /\ exists v, In (a, v) rest))).
Proof.
  induction rest as [|[cj gj] rest IH]; intros c c' I L S H; simpl in H.
  - injection H as <-. split; auto. intros a b. split; auto. intros N. right. right.
    split; auto. split; intros (_ & v & []).
  - inversion S as [|? ? S' F]; subst. rewrite List.Forall_forall in F.
    destruct (known cj); [|discriminate].
    assert (Lj : ci < cj) by (apply (L cj gj); left; auto).
    assert (L' : forall k v, In (k, v) rest -> ci < k) by (intros; eapply L; right; eauto).
    assert (Dist : forall v, ~ In (cj, v) rest) by (intros v K; apply F in K; simpl in K; lia).
    destruct (contains c ci cj) eqn:C.
    + destruct (IH c c' I L' S' H) as [I' P]. split; auto. intros a b. destruct (P a b) as [P1 P2].
      split; auto. intros N. destruct (P2 N) as [(v & T1 & T2 & K)|[(v & T1 & T2 & K)|(K1 & K2 & K3)]].
      * left. exists v, T1, T2. destruct K as (? & ? & ? & ? & ?); repeat split; auto; right; auto.
      * right. left. exists v, T1, T2. destruct K as (? & ? & ? & ? & ?); repeat split; auto; right; auto.
      * apply contains_stored in C. destruct C as [T C]. right. right. split; auto. split.
        -- intros (-> & v & [K|K]); [injection K as -> ->; congruence|apply K2; eauto].
        -- intros (-> & v & [K|K]); [injection K as -> ->; apply I in C; destruct C as (_ & _ & C); congruence|apply K3; eauto].
    + destruct (estimate ci gi) as [TiF|] eqn:Ei; [|discriminate].
      destruct (estimate cj gj) as [TjF|] eqn:Ej; [|discriminate].
      set (T := mmul4 TiF (tf_inv TjF)) in *.
      assert (R : Rigid T).
      { pose proof (HE _ _ _ Ei) as Ri. pose proof (HE _ _ _ Ej) as Rj.
        apply (C46_rigid_group TiF (tf_inv TjF)); auto. apply rigid_inv; auto. }
      assert (Nij : ci <> cj) by lia.
      destruct (IH _ c' (Inv_insert c ci cj T Nij R I) L' S' H) as [I' P]. split; auto.
      intros a b. destruct (P a b) as [P1 P2]. rewrite stored_insert, C in P1, P2 by auto.
      apply contains_false in C. pose proof (Inv_sym _ _ _ I C) as C'.
      split.
      * intros T' K. apply P1.
        destruct (Z.eqb_spec a ci), (Z.eqb_spec b cj); simpl; try (subst; congruence);
        destruct (Z.eqb_spec a cj), (Z.eqb_spec b ci); simpl; try (subst; congruence); auto.
      * intros N.
        destruct (Z.eqb_spec a ci) as [Ea|Ea], (Z.eqb_spec b cj) as [Eb|Eb]; simpl in P1, P2.
        { left. exists gj, TiF, TjF. subst. repeat split; auto; try (left; reflexivity). }
        all: destruct (Z.eqb_spec a cj) as [Ea'|Ea'], (Z.eqb_spec b ci) as [Eb'|Eb']; simpl in P1, P2; try lia.
        all: try (right; left; exists gj, TiF, TjF; subst; repeat split; auto; left; reflexivity).
        all: destruct (P2 N) as [(v & T1 & T2 & K)|[(v & T1 & T2 & K)|(K1 & K2 & K3)]];
         [left; exists v, T1, T2; destruct K as (? & ? & ? & ? & ?); repeat split; auto; right; auto|right; left; exists v, T1, T2; destruct K as (? & ? & ? & ? & ?); repeat split; auto; right; auto|].
        all: right; right; split; auto; split;
         intros (E & v & [K|K]); try (injection K as <- <-); try lia; 
         first [solve [apply K2; eauto]|solve [apply K3; eauto]].
Qed.

Definition linkable (d : cam_data) : Prop := forall ts vs, In (ts, vs) d -> ascending vs.

(** the stored value: from the first time the pair is linked *)
Definition value_at (vs : list (Z * view)) (i j : Z) (T : mat4) : Prop :=
  (exists vi vj TiF TjF, linked vs i j vi vj /\ estimate i vi = Some TiF /\ estimate j vj = Some TjF
     /\ T = mmul4 TiF (tf_inv TjF)) \/
  (exists vi vj TiF TjF, linked vs j i vj vi /\ estimate i vi = Some TiF /\ estimate j vj = Some TjF
     /\ T = tf_inv (mmul4 TjF (tf_inv TiF))).

Lemma step_ok vs c c' : Inv c -> ascending vs -> step_ts estimate known vs c = Ret c' ->
  Inv c' /\ forall a b, (forall T, stored c a b = Some T -> stored c' a b = Some T) /\
   (stored c a b = None ->
     (exists T, stored c' a b = Some T /\ value_at vs a b T) \/
     (stored c' a b = None /\ forall vi vj, ~ linked vs a b vi vj /\ ~ linked vs b a vi vj)).
Proof.
  intros I A. unfold step_ts. pose proof (get_sorted vs A) as GS.
  pose proof (fun i j vi vj => linked_get vs i j vi vj A) as LG.
  destruct (get_aprilgrids vs) as [|[ci gi] [|x rest]].
  - intros H. injection H as <-. split; auto. intros a b. split; auto. intros N. right. split; auto.
    intros vi vj. split; rewrite LG; intros (r & E & _); discriminate.
  - intros H. injection H as <-. split; auto. intros a b. split; auto. intros N. right. split; auto.
    intros vi vj. split; rewrite LG; intros (r & E & K); injection E as -> -> <-; contradiction.
  - destruct (known ci); [|discriminate]. intros H.
    set (rs := x :: rest) in *. clearbody rs.
    inversion GS as [|? ? GS' F]; subst. rewrite List.Forall_forall in F.
    destruct (link_ok ci gi rs c c' I) as [I' P]; auto.
    { intros k v K. apply F in K. auto. }
    split; auto. intros a b. destruct (P a b) as [P1 P2]. split; auto. intros N.
    destruct (P2 N) as [(v & T1 & T2 & E & K & E1 & E2 & S)|[(v & T1 & T2 & E & K & E1 & E2 & S)|(S & K2 & K3)]].
    + left. eexists. split; [exact S|]. left. subst a. exists gi, v, T1, T2. split; auto.
      apply LG. eauto.
    + left. eexists. split; [exact S|]. right. subst b. exists v, gi, T2, T1. split; auto.
      apply LG. eauto.
    + right. split; auto. intros vi vj. split; rewrite LG; intros (r & E & K); injection E as -> -> ->.
      * apply K2. eauto.
      * apply K3. eauto.
Qed.

Lemma build_ok : forall d c c', Inv c -> linkable d -> build estimate known d c = Ret c' ->
  Inv c' /\ forall a b, (forall T, stored c a b = Some T -> stored c' a b = Some T) /\
   (stored c a b = None ->
     (exists T d1 ts vs d2, stored c' a b = Some T /\ d = d1 ++ (ts, vs) :: d2 /\ value_at vs a b T
        /\ ~ linked_somewhere d1 a b) \/
     (stored c' a b = None /\ ~ linked_somewhere d a b)).
Proof.
  induction d as [|[ts vs] d IH]; intros c c' I A H; simpl in H.
  - injection H as <-. split; auto. intros a b. split; auto. intros N. right. split; auto.
    intros (? & ? & ? & ? & [] & _).
  - destruct (step_ts estimate known vs c) as [c1|e|] eqn:S; try discriminate.
    destruct (step_ok vs c c1 I) as [I1 P]; auto. { apply (A ts). left; auto. }
    destruct (IH c1 c' I1) as [I' P']; auto. { intros t v K. apply (A t). right; auto. }
    split; auto. intros a b. destruct (P a b) as [Q1 Q2]. destruct (P' a b) as [R1 R2].
    split; auto. intros N. destruct (Q2 N) as [(T & E & V)|(E & NL)].
    + left. exists T, [], ts, vs, d. repeat split; auto. intros (? & ? & ? & ? & [] & _).
    + destruct (R2 E) as [(T & d1 & ts' & vs' & d2 & ST & -> & V & NL')|(E' & NL')].
      * left. exists T, ((ts, vs) :: d1), ts', vs', d2. repeat split; auto.
        intros (t & v & vi & vj & [K|K] & Lk); [injection K as <- <-; destruct (NL vi vj); tauto|].
        apply NL'. exists t, v, vi, vj. auto.
      * right. split; auto. intros (t & v & vi & vj & [K|K] & Lk); [injection K as <- <-; destruct (NL vi vj); tauto|].
        apply NL'. exists t, v, vi, vj. auto.
Qed.
End Ctor.

(** After building the chain from any camera data, with pose estimates that are rigid
    transforms: symmetric and inverse. *)
Theorem C26_constructor : forall estimate known d c,
  (forall i v T, estimate i v = Some T -> Rigid T) -> linkable d ->
  camchain_ctor estimate known d = Ret c ->
  forall i j, contains c i j = contains c j i /\
    (forall T, stored c i j = Some T -> exists T', stored c j i = Some T' /\ Inverse4 T T').
Proof.
  intros estimate known d c HE A H i j.
  destruct (build_ok estimate known HE d chain_empty c Inv_empty A H) as [I _].
  split.
  - destruct (contains c i j) eqn:C; symmetry.
    + apply contains_stored in C. destruct C as [T C]. apply contains_stored.
      destruct (I _ _ _ C) as (_ & _ & E). eauto.
    + apply contains_false in C. apply contains_false. apply Inv_sym; auto.
  - intros T S. destruct (I _ _ _ S) as (_ & R & E). exists (tf_inv T). split; auto.
    apply C46_tf_inv_two_sided; auto.
Qed.

(** ** C27 *)
(** The chain has an extrinsic exactly for the pairs (first camera that sees the target,
    other camera that sees it) of some time, namely the one estimated at the first such time. *)
Theorem C27_links : forall estimate known d c,
  (forall i v T, estimate i v = Some T -> Rigid T) -> linkable d ->
  camchain_ctor estimate known d = Ret c ->
  forall i j, (contains c i j = true <-> linked_somewhere d i j) /\
    (forall T, stored c i j = Some T -> exists d1 ts vs d2, d = d1 ++ (ts, vs) :: d2 /\
       value_at estimate vs i j T /\ ~ linked_somewhere d1 i j).
Proof.
  intros estimate known d c HE A H i j.
  destruct (build_ok estimate known HE d chain_empty c Inv_empty A H) as [I P].
  destruct (P i j) as [_ P2]. clear P.
  assert (N : stored chain_empty i j = None) by reflexivity.
  destruct (P2 N) as [(T & d1 & ts & vs & d2 & S & -> & V & NL)|(S & NL)].
  - split; [split|].
    + intros _. destruct V as [(vi & vj & T1 & T2 & L & _)|(vi & vj & T1 & T2 & L & _)];
      [exists ts, vs, vi, vj|exists ts, vs, vj, vi]; (split; [apply in_or_app; right; left; auto|auto]).
    + intros _. apply contains_stored. eauto.
    + intros T' S'. assert (T' = T) by congruence. subst. exists d1, ts, vs, d2. auto.
  - split; [split|].
    + intros C. apply contains_stored in C. destruct C as [T C]. congruence.
    + intros L. contradiction.
    + intros T S'. congruence.
Qed.

(** What find does, for every chain whatsoever: identity for equal cameras, the stored
    extrinsic for directly linked cameras, -1 (output untouched) when a camera was never
    linked, and otherwise an exception: the search loop throws std::out_of_range in its first
    iteration. *)
Theorem C27_find_complete : forall fuel c i j T0, (0 < fuel)%nat ->
  find fuel c i j T0 =
  if i =? j then Some (Ret (0, I4))
  else match stored c i j with
       | Some T => if bool_decide (is_Some (exts c !! j)) then Some (Ret (0, T)) else Some (Ret (-1, T0))
       | None => if bool_decide (is_Some (exts c !! i)) && bool_decide (is_Some (exts c !! j))
                 then Some (Throw OutOfRange) else Some (Ret (-1, T0))
       end.
Proof.
  intros fuel c i j T0 Hf. unfold find, stored. destruct (Z.eqb_spec i j); auto.
  destruct (exts c !! i) as [mi|]; destruct (exts c !! j) as [mj|]; simpl; auto;
    destruct (mi !! j) as [T|]; auto.
  destruct fuel; [lia|]. simpl. rewrite lookup_empty. reflexivity.
Qed.

(** find succeeds and is right for the directly linked pairs, and consistent in both
    directions; it fails for cameras that were never linked *)
Theorem C27_find_partial : forall estimate known d c fuel,
  (forall i v T, estimate i v = Some T -> Rigid T) -> linkable d ->
  camchain_ctor estimate known d = Ret c -> (0 < fuel)%nat ->
  forall i j T0, i <> j ->
  (linked_somewhere d i j -> exists T, find fuel c i j T0 = Some (Ret (0, T)) /\
     (exists T', find fuel c j i T0 = Some (Ret (0, T')) /\ Inverse4 T T') /\
     exists d1 ts vs d2, d = d1 ++ (ts, vs) :: d2 /\ value_at estimate vs i j T /\ ~ linked_somewhere d1 i j) /\
  ((forall k, ~ linked_somewhere d i k) -> find fuel c i j T0 = Some (Ret (-1, T0))).
Proof.
  intros estimate known d c fuel HE A H Hf i j T0 N.
  destruct (C27_links estimate known d c HE A H i j) as [L V].
  destruct (C26_constructor estimate known d c HE A H i j) as [Sy In].
  split.
  - intros Lk. apply L in Lk. apply contains_stored in Lk. destruct Lk as [T S].
    destruct (In T S) as (T' & S' & IV).
    assert (Ei : is_Some (exts c !! i)) by (unfold stored in S; destruct (exts c !! i); [eauto|discriminate]).
    assert (Ej : is_Some (exts c !! j)) by (unfold stored in S'; destruct (exts c !! j); [eauto|discriminate]).
    exists T. split; [|split].
    + rewrite C27_find_complete, S by auto. destruct (Z.eqb_spec i j); [congruence|].
      rewrite bool_decide_true; auto.
    + exists T'. split; auto. rewrite C27_find_complete, S' by auto. destruct (Z.eqb_spec j i); [congruence|].
      rewrite bool_decide_true; auto.
    + auto.
  - intros NL. rewrite C27_find_complete by auto. destruct (Z.eqb_spec i j); [congruence|].
    assert (Ni : forall k, stored c i k = None).
    { intros k. destruct (stored c i k) eqn:E; auto.
      destruct (C27_links estimate known d c HE A H i k) as [L' _].
      exfalso. apply (NL k). apply L'. apply contains_stored. eauto. }
    rewrite Ni.
    assert (Hi : exts c !! i = None \/ exts c !! i = Some ∅).
    { unfold stored in Ni. destruct (exts c !! i) as [m|]; auto. right. f_equal. apply map_empty. exact Ni. }
    destruct Hi as [Hi|Hi].
    + rewrite Hi. rewrite bool_decide_false; auto.
    + exfalso. revert Hi. clear - HE A H.
      (* no inner map of a built chain is empty *)
      assert (G : forall d c c', (forall k, exts c !! k <> Some ∅) -> build estimate known d c = Ret c' -> forall k, exts c' !! k <> Some ∅).
      { clear. intros d. induction d as [|[ts vs] d IH]; intros c c' P B; simpl in B; [injection B as <-; auto|].
        destruct (step_ts estimate known vs c) as [c1|e|] eqn:S; try discriminate.
        apply (IH c1); auto. revert S. unfold step_ts.
        destruct (get_aprilgrids vs) as [|[ci gi] [|x rest]]; try (intros S; injection S as <-; auto; fail).
        destruct (known ci); [|discriminate]. generalize (x :: rest). clear - P.
        intros rs. revert c P. induction rs as [|[cj gj] rs IH]; intros c P S; simpl in S.
        { injection S as <-; auto. }
        destruct (known cj); [|discriminate]. destruct (contains c ci cj) eqn:C; [apply (IH c); auto|].
        destruct (estimate ci gi); [|discriminate]. destruct (estimate cj gj); [|discriminate].
        eapply IH; [|exact S]. clear S IH. unfold insert_ext. rewrite C. cbn [exts]. unfold put.
        intros k. destruct (decide (k = cj)) as [ -> |]; [rewrite lookup_insert; intros K; injection K; apply insert_non_empty|].
        rewrite lookup_insert_ne by auto.
        destruct (decide (k = ci)) as [ -> |]; [rewrite lookup_insert; intros K; injection K; apply insert_non_empty|].
        rewrite lookup_insert_ne by auto. auto. }
      intros K. apply (G d chain_empty c) in K; auto.
Qed.

(** Three cameras that all see the target at the same time (camera 0 first): 1 and 2 are
    connected, even by a simultaneous view, but find(1, 2) throws; it also throws for two
    cameras connected only through a third one over time. *)
Definition see (k : Z) : view := mkView true 144 k.
Definition three_at_once : cam_data := [(10, [(0, see 0); (1, see 1); (2, see 2)])].
Definition chain_over_time : cam_data :=
  [(10, [(0, see 0); (1, see 1)]); (20, [(1, see 2); (2, see 3)])].
Definition est_id (i : Z) (v : view) : option mat4 := Some I4.
Theorem C27_connected_pair_refuted :
  (connected three_at_once 1 2 /\ exists c, camchain_ctor est_id (fun _ => true) three_at_once = Ret c /\
     forall fuel T0, (0 < fuel)%nat -> find fuel c 1 2 T0 = Some (Throw OutOfRange)) /\
  (connected chain_over_time 0 2 /\ exists c, camchain_ctor est_id (fun _ => true) chain_over_time = Ret c /\
     forall fuel T0, (0 < fuel)%nat -> find fuel c 0 2 T0 = Some (Throw OutOfRange)).
Proof.
  assert (S : forall vs k v, In (k, v) vs -> detected v = true -> sees vs k v) by (unfold sees; auto).
  split; split.
  - eapply conn_here; [left; reflexivity| |]; apply S; simpl; eauto.
  - eexists. split; [reflexivity|]. intros fuel T0 Hf. rewrite C27_find_complete by auto. reflexivity.
  - eapply conn_trans.
    + eapply (conn_here _ 10 _ 0 1); [left; reflexivity| |]; apply S; simpl; eauto.
    + eapply (conn_here _ 20 _ 1 2); [right; left; reflexivity| |]; apply S; simpl; eauto.
  - eexists. split; [reflexivity|]. intros fuel T0 Hf. rewrite C27_find_complete by auto. reflexivity.
Qed.

(** Examples: the hypotheses are met *)
Example C26_ex : linkable chain_over_time /\
  (forall i v T, est_id i v = Some T -> Rigid T) /\
  (exists c, camchain_ctor est_id (fun _ => true) chain_over_time = Ret c /\ contains c 1 0 = true) /\
  linked_somewhere chain_over_time 0 1 /\ forall k, ~ linked_somewhere chain_over_time 7 k.
Proof.
  split; [|split; [|split; [|split]]].
  - intros ts vs [K|[K|[]]]; injection K as <- <-; repeat constructor; simpl; lia.
  - intros i v T K. injection K as <-. exists I3, vzero. split; [apply (proj1 C46_rotation_group)|reflexivity].
  - eexists. split; reflexivity.
  - exists 10, [(0, see 0); (1, see 1)], (see 0), (see 1). split; [left; auto|]. left.
    unfold linked, sees; simpl. repeat split; auto; try lia.
    intros k v [[K|[K|[]]] _]; injection K as <- <-; lia.
  - intros k (ts & vs & vi & vj & [K|[K|[]]] & L); injection K as <- <-;
      destruct L as [(Si & Sj & _)|(Si & Sj & _)]; unfold sees in *; simpl in *;
      intuition congruence.
Qed.
Print Assumptions C26_constructor.
Print Assumptions C27_find_partial.
