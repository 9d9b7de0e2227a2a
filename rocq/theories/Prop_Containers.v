(** * Property theorems C16 - C19 (timeline, ordered set, vector and set helpers) *)
From Coq Require Import Sorting.Sorted Permutation.
From Verif Require Import Base AprilGridModel AprilGridProofs AprilGridProofs2 ContainersModel.
From Coq Require Import ZifyBool ZifyNat.
Local Open Scope Z_scope.

(** ** Lemmas: multimap *)
Section TL.
Context {E : Type}.
Implicit Type d : list (Z * E).
Definition le_keys (a b : Z * E) := fst a <= fst b.
Lemma mm_insert_perm k e d : Permutation (mm_insert k e d) ((k, e) :: d).
Proof.
  induction d as [|[k' e'] d IH]; simpl; auto.
  destruct (k <? k'); auto. rewrite IH. apply perm_swap.
Qed.
Lemma mm_insert_sorted k e d : StronglySorted le_keys d -> StronglySorted le_keys (mm_insert k e d).
Proof.
  induction d as [|[k' e'] d IH]; simpl; intros H.
  - repeat constructor.
  - inversion H as [|? ? H1 H2]; subst. destruct (Z.ltb_spec k k').
    + constructor; auto. constructor; [unfold le_keys; simpl; lia|].
      rewrite Forall_forall in H2 |- *. intros x Hx. specialize (H2 x Hx). unfold le_keys in *. simpl in *. lia.
    + constructor; auto. rewrite Forall_forall in H2 |- *. intros x Hx.
      apply (Permutation_in _ (mm_insert_perm k e d)) in Hx. destruct Hx as [<-|Hx]; [unfold le_keys; simpl; lia|auto].
Qed.
Lemma mm_insert_filter k e d k0 : StronglySorted le_keys d ->
  filter (fun x => fst x =? k0) (mm_insert k e d) =
  filter (fun x => fst x =? k0) d ++ (if k =? k0 then [(k, e)] else []).
Proof.
  induction d as [|[k' e'] d IH]; simpl; intros H.
  - destruct (k =? k0); auto.
  - inversion H as [|? ? H1 H2]; subst. destruct (Z.ltb_spec k k').
    + simpl. destruct (Z.eqb_spec k k0).
      * subst k0. destruct (Z.eqb_spec k' k); [lia|].
        assert (Hn : filter (fun x => fst x =? k) d = []).
        { clear IH. induction d as [|x d IHd]; simpl; auto. inversion H2; subst. inversion H1; subst.
          unfold le_keys in *. simpl in *. destruct (Z.eqb_spec (fst x) k); [lia|]. apply IHd; auto. constructor; auto. }
        rewrite Hn. reflexivity.
      * rewrite app_nil_r. reflexivity.
    + simpl. rewrite IH by auto. destruct (k' =? k0); reflexivity.
Qed.
Lemma equal_range_filter k d : StronglySorted le_keys d -> equal_range k d = filter (fun x => fst x =? k) d.
Proof.
  unfold equal_range. induction d as [|[k' e'] d IH]; simpl; intros H; auto.
  inversion H as [|? ? H1 H2]; subst. destruct (Z.ltb_spec k' k).
  - destruct (Z.eqb_spec k' k); [lia|]. auto.
  - simpl. destruct (Z.ltb_spec k k') as [Hlt|Hge].
    + destruct (Z.eqb_spec k' k); [lia|].
      symmetry. clear - Hlt H2. induction H2 as [|x d Hx Hd IHd]; simpl; auto.
      unfold le_keys in *. simpl in *. destruct (Z.eqb_spec (fst x) k); [lia|]. apply IHd; auto.
    + assert (k' = k) as -> by lia. rewrite Z.eqb_refl. f_equal.
      rewrite <- IH by auto. f_equal.
      (* nothing below k in the tail *)
      clear - H2. induction d as [|[a b] d IHd]; simpl; auto. inversion H2; subst.
      unfold le_keys in *; simpl in *. destruct (Z.ltb_spec a k); [lia|reflexivity].
Qed.

Lemma tl_run_inv (h : list (Z * E)) :
  StronglySorted le_keys (tl_data (tl_run h)) /\ Permutation (tl_data (tl_run h)) h /\
  (forall k, filter (fun x => fst x =? k) (tl_data (tl_run h)) = filter (fun x => fst x =? k) h) /\
  StronglySorted Z.lt (tl_ts (tl_run h)) /\ (forall k, In k (tl_ts (tl_run h)) <-> In k (map fst h)).
Proof.
  induction h as [|[k e] h IH] using rev_ind.
  - cbn. repeat split; try constructor; auto.
  - unfold tl_run. rewrite fold_left_app. cbn [fold_left fst snd]. fold (tl_run h).
    destruct IH as (I1 & I2 & I3 & I4 & I5). unfold tl_add. cbn [tl_data tl_ts].
    split; [now apply mm_insert_sorted|]. split.
    { rewrite mm_insert_perm, I2. apply Permutation_cons_append. }
    split.
    { intros k0. rewrite mm_insert_filter by auto. rewrite I3, filter_app. simpl. reflexivity. }
    split; [now apply set_insert_sorted|].
    intros k0. rewrite set_insert_In, map_app, in_app_iff, I5. simpl. intuition.
Qed.

End TL.

(** ** C16 *)
Theorem C16_timeline : forall (E : Type) (h : list (Z * E)),
  let t := tl_run h in
  (forall ts, get_events t ts = map snd (filter (fun x => fst x =? ts) h) /\
              nb_events t ts = Z.of_nat (length (filter (fun x => fst x =? ts) h))) /\
  StronglySorted Z.lt (tl_ts t) /\ (forall ts, In ts (tl_ts t) <-> exists e, In (ts, e) h) /\
  Permutation (tl_deletes t) (map snd h).
Proof.
  intros E h t. destruct (tl_run_inv h) as (I1 & I2 & I3 & I4 & I5). split.
  - intros ts. unfold get_events, nb_events. fold t in I1, I3. rewrite (equal_range_filter ts _ I1), I3. auto.
  - split; [exact I4|]. split.
    + intros ts. unfold t. rewrite (I5 ts), in_map_iff. split.
      * intros ([a b] & <- & H). eauto.
      * intros (e & H). exists (ts, e). auto.
    + unfold tl_deletes. apply Permutation_map. exact I2.
Qed.
Print Assumptions C16_timeline.
Example C16_ex : let h := [(5, 1%nat); (3, 2%nat); (5, 3%nat); (4, 4%nat); (3, 5%nat)] in
  get_events (tl_run h) 5 = [1%nat; 3%nat] /\ tl_ts (tl_run h) = [3; 4; 5].
Proof. split; reflexivity. Qed.

(** ** C17 *)
(** the items inserted since the last clear *)
Fixpoint since_clear (h acc : list os_op) : list os_op :=
  match h with
  | [] => acc
  | OsClear :: t => since_clear t []
  | OsInsert x :: t => since_clear t (acc ++ [OsInsert x])
  end.
Definition inserted (h : list os_op) : list Z :=
  flat_map (fun p => match p with OsInsert x => [x] | OsClear => [] end) (since_clear h []).
(** first occurrences, in order *)
Fixpoint firsts (l seen : list Z) : list Z :=
  match l with
  | [] => []
  | x :: t => if existsb (Z.eqb x) seen then firsts t seen else x :: firsts t (x :: seen)
  end.

Lemma set_count_In x s : set_count x s = (if existsb (Z.eqb x) s then 1 else 0).
Proof. induction s as [|y s IH]; simpl; auto. destruct (x =? y); simpl; auto. Qed.

Lemma firsts_snoc l : forall seen x, firsts (l ++ [x]) seen =
  firsts l seen ++ (if existsb (Z.eqb x) (seen ++ l) then [] else [x]).
Proof.
  induction l as [|y l IH]; intros seen x; simpl.
  - rewrite app_nil_r. destruct (existsb (Z.eqb x) seen); auto.
  - destruct (existsb (Z.eqb y) seen) eqn:Ey.
    + rewrite IH. f_equal.
      replace (existsb (Z.eqb x) (seen ++ y :: l)) with (existsb (Z.eqb x) (seen ++ l)); auto.
      rewrite !existsb_app. simpl. destruct (Z.eqb_spec x y); auto. subst. now rewrite Ey.
    + rewrite IH. simpl. f_equal. f_equal.
      replace (existsb (Z.eqb x) (seen ++ y :: l)) with ((x =? y) || existsb (Z.eqb x) (seen ++ l)); auto.
      rewrite !existsb_app. simpl. destruct (x =? y), (existsb (Z.eqb x) seen), (existsb (Z.eqb x) l); auto.
Qed.

Lemma set_insert_length x s : StronglySorted Z.lt s -> ~ In x s -> length (set_insert x s) = S (length s).
Proof.
  induction s as [|y s IH]; simpl; intros Hs Hn; auto.
  destruct (Z.ltb_spec x y); auto. destruct (Z.eqb_spec x y); [subst; tauto|].
  inversion Hs; subst. simpl. rewrite IH; auto.
Qed.

Lemma os_run_inv h :
  os_vec (os_run h) = firsts (inserted h) [] /\ StronglySorted Z.lt (os_set (os_run h)) /\
  (forall x, In x (os_set (os_run h)) <-> In x (inserted h)) /\
  length (os_set (os_run h)) = length (os_vec (os_run h)).
Proof.
  induction h as [|p h IH] using rev_ind.
  - cbn. repeat split; try constructor; auto.
  - assert (Hs : forall acc, since_clear (h ++ [p]) acc =
              match p with OsClear => [] | OsInsert x => since_clear h acc ++ [OsInsert x] end).
    { clear IH. induction h as [|q h IH]; intros acc; simpl; [destruct p; auto|]. destruct q; rewrite IH; destruct p; auto. }
    unfold inserted in *. rewrite Hs. unfold os_run. rewrite fold_left_app. cbn [fold_left]. fold (os_run h).
    destruct IH as (I1 & I2 & I3 & I4). destruct p as [x|]; cbn [os_step].
    + rewrite flat_map_app. cbn [flat_map]. rewrite app_nil_r.
      set (L := flat_map _ (since_clear h [])) in *.
      unfold os_insert. rewrite set_count_In.
      rewrite firsts_snoc. cbn [app].
      assert (Hex : existsb (Z.eqb x) (os_set (os_run h)) = existsb (Z.eqb x) L).
      { apply eq_true_iff_eq. rewrite !existsb_eqb_In. apply I3. }
      rewrite Hex. destruct (existsb (Z.eqb x) L) eqn:Ex; cbn [os_vec os_set Z.eqb].
      * rewrite app_nil_r. split; [exact I1|]. split; [exact I2|]. split; [|exact I4].
        intros y. rewrite I3, in_app_iff. simpl. apply existsb_eqb_In in Ex. intuition. now subst.
      * split; [now rewrite I1|]. split; [now apply set_insert_sorted|]. split.
        -- intros y. rewrite set_insert_In, I3, in_app_iff. simpl. intuition.
        -- rewrite set_insert_length, app_length; auto. { simpl. lia. }
           intros Hx. apply I3 in Hx. apply existsb_eqb_In in Hx. congruence.
    + cbn. repeat split; try constructor; auto.
Qed.

Lemma firsts_In l : forall seen x, In x (firsts l seen) <-> In x l /\ ~ In x seen.
Proof.
  induction l as [|y l IH]; intros seen x; simpl; [tauto|].
  destruct (existsb (Z.eqb y) seen) eqn:E.
  - rewrite IH. apply existsb_eqb_In in E. split; [tauto|]. intros [[ -> |H] Hn]; tauto.
  - simpl. rewrite IH. assert (~ In y seen) by (intros H; apply existsb_eqb_In in H; congruence). simpl.
    split.
    + intros [ <- |[H1 H2]]; [tauto|]. split; [tauto|]. tauto.
    + intros [[ -> |H1] H2]; [tauto|]. destruct (Z.eq_dec y x); [auto|]. right. split; auto. intros [|]; tauto.
Qed.
Lemma firsts_NoDup l : forall seen, NoDup (firsts l seen).
Proof.
  induction l as [|y l IH]; intros seen; simpl; [constructor|].
  destruct (existsb (Z.eqb y) seen); auto. constructor; auto. rewrite firsts_In. simpl. tauto.
Qed.

Theorem C17_ordered_set : forall h,
  os_vec (os_run h) = firsts (inserted h) [] /\
  NoDup (os_vec (os_run h)) /\
  (forall x, In x (os_vec (os_run h)) <-> In x (inserted h)) /\
  (forall x, os_count (os_run h) x = if existsb (Z.eqb x) (inserted h) then 1 else 0) /\
  os_size (os_run h) = Z.of_nat (length (os_vec (os_run h))) /\
  (os_empty (os_run h) = true <-> inserted h = []) /\
  (forall i, 0 <= i < os_size (os_run h) -> exists x, os_at (os_run h) i = Ret x /\ nth_error (os_vec (os_run h)) (Z.to_nat i) = Some x).
Proof.
  intros h. destruct (os_run_inv h) as (I1 & I2 & I3 & I4).
  split; [exact I1|]. split; [rewrite I1; apply firsts_NoDup|]. split.
  { intros x. rewrite I1, firsts_In. simpl. tauto. }
  split.
  { intros x. unfold os_count. rewrite set_count_In.
    replace (existsb (Z.eqb x) (os_set (os_run h))) with (existsb (Z.eqb x) (inserted h)); auto.
    apply eq_true_iff_eq. rewrite !existsb_eqb_In. symmetry. apply I3. }
  split; [unfold os_size; now rewrite I4|]. split.
  { unfold os_empty. destruct (os_set (os_run h)) as [|a s] eqn:Es.
    - split; auto. intros _. destruct (inserted h) as [|x l] eqn:El; auto.
      exfalso. apply (proj2 (I3 x)). simpl; auto.
    - split; [discriminate|]. intros El. exfalso. rewrite El in I3. apply (proj1 (I3 a)). simpl; auto. }
  intros i Hi. unfold os_size in Hi. rewrite I4 in Hi. unfold os_at, at_.
  destruct (Z.leb_spec 0 i); [|lia].
  destruct (nth_error (os_vec (os_run h)) (Z.to_nat i)) eqn:En; [eauto|]. apply nth_error_None in En. lia.
Qed.
Print Assumptions C17_ordered_set.
Example C17_ex : os_vec (os_run [OsInsert 9; OsClear; OsInsert 5; OsInsert 3; OsInsert 5; OsInsert 1]) = [5; 3; 1].
Proof. reflexivity. Qed.

(** ** C18 *)
Theorem C18_slice : forall (A : Type) (v : list A) m n, 0 <= m <= n -> n < Z.of_nat (length v) ->
  exists r, slice v m n = Ret r /\ Z.of_nat (length r) = n - m + 1 /\
    forall i, 0 <= i <= n - m -> nth_error r (Z.to_nat i) = nth_error v (Z.to_nat (m + i)).
Proof.
  intros A v m n H1 H2. unfold slice.
  replace ((0 <=? m) && (m <=? n + 1) && (n + 1 <=? Z.of_nat (length v))) with true by lia.
  eexists. split; [reflexivity|]. split.
  - rewrite firstn_length, skipn_length. lia.
  - intros i Hi. replace (Z.to_nat (m + i)) with (Z.to_nat m + Z.to_nat i)%nat by lia.
    assert (Hs : forall (l : list A) k j, nth_error (skipn k l) j = nth_error l (k + j)).
    { clear. induction l as [|a l IH]; intros [|k] j; simpl; auto. now destruct j. }
    rewrite <- Hs. generalize (skipn (Z.to_nat m) v) as l. intros l.
    assert (Hlt : (Z.to_nat i < Z.to_nat (n + 1 - m))%nat) by lia. revert Hlt.
    generalize (Z.to_nat i) as j, (Z.to_nat (n + 1 - m)) as k. clear.
    induction l as [|a l IH]; intros [|j] [|k] H; simpl; auto; try lia. apply IH. lia.
Qed.
Print Assumptions C18_slice.
(** outside 0 <= m <= n+1 <= size the call is undefined behaviour *)
Theorem C18_slice_domain : forall (A : Type) (v : list A) m n,
  slice v m n <> Undef <-> 0 <= m <= n + 1 /\ n + 1 <= Z.of_nat (length v).
Proof.
  intros A v m n. unfold slice.
  destruct ((0 <=? m) && (m <=? n + 1) && (n + 1 <=? Z.of_nat (length v))) eqn:E; split; intros H; try lia; congruence.
Qed.
Print Assumptions C18_slice_domain.
Theorem C18_extend : forall (A : Type) (x y : list A),
  length (extend x y) = (length x + length y)%nat /\
  (forall i, (i < length x)%nat -> nth_error (extend x y) i = nth_error x i) /\
  (forall i, nth_error (extend x y) (length x + i) = nth_error y i).
Proof.
  intros A x y. unfold extend. split; [apply app_length|]. split.
  - intros i Hi. now apply nth_error_app1.
  - intros i. rewrite nth_error_app2 by lia. f_equal. lia.
Qed.
Print Assumptions C18_extend.
(** pop_front removes the first element but does not keep the order: for vectors of at
    least three elements the last one becomes the first *)
Theorem C18_pop_front_partial : forall (A : Type) (x : A) t,
  exists r, pop_front (x :: t) = Ret r /\ Permutation r t /\
    (forall y m z, t = y :: m ++ [z] -> r = z :: y :: m).
Proof.
  intros A x t. unfold pop_front. eexists. split; [reflexivity|].
  destruct (exists_last (l := x :: t)) as (l & a & E); [discriminate|].
  destruct t as [|y t'].
  { simpl. split; [constructor|]. discriminate. }
  destruct (exists_last (l := y :: t')) as (l' & z & E'); [discriminate|].
  split.
  - rewrite E'. simpl. rewrite last_last.
    replace (match l' ++ [z] with [] => x | _ :: _ => z end) with z by (destruct l'; reflexivity).
    replace (match l' ++ [z] with [] => [] | _ :: _ => z :: removelast (l' ++ [z]) end) with (z :: removelast (l' ++ [z]))
      by (destruct l'; reflexivity).
    rewrite removelast_last. apply Permutation_cons_append.
  - intros y0 m z0 Ey. rewrite Ey. simpl.
    replace (match m ++ [z0] with [] => y0 | _ :: _ => last (m ++ [z0]) x end) with z0
      by (rewrite last_last; destruct m; reflexivity).
    replace (match m ++ [z0] with [] => [] | _ :: _ => y0 :: removelast (m ++ [z0]) end) with (y0 :: m)
      by (rewrite removelast_last; destruct m; reflexivity). reflexivity.
Qed.
Print Assumptions C18_pop_front_partial.
Theorem C18_pop_front_refuted : pop_front [1; 2; 3] = Ret [3; 2].
Proof. reflexivity. Qed.
Print Assumptions C18_pop_front_refuted.
Theorem C18_all_true : forall x, all_true x = true <-> forall b, In b x -> b = true.
Proof.
  induction x as [|b x IH].
  - split; [intros _ c []|reflexivity].
  - cbn [all_true]. destruct b; cbn [Bool.eqb].
    + rewrite IH. split.
      * intros H c [ <- |Hc]; auto.
      * intros H c Hc. apply H. now right.
    + split; [discriminate|]. intros H. apply H. now left.
Qed.
Print Assumptions C18_all_true.

(** ** C19 *)
Lemma set_union_spec a b : StronglySorted Z.lt a ->
  StronglySorted Z.lt (set_union a b) /\ forall x, In x (set_union a b) <-> In x a \/ In x b.
Proof.
  unfold set_union. revert a. induction b as [|y b IH]; intros a Ha; simpl.
  - split; auto. intros; tauto.
  - destruct (IH (set_insert y a)) as [S H]; [now apply set_insert_sorted|]. split; auto.
    intros x. rewrite H, set_insert_In. intuition.
Qed.
Theorem C19_set_union : forall a b, StronglySorted Z.lt a ->
  StronglySorted Z.lt (set_union a b) /\ forall x, In x (set_union a b) <-> In x a \/ In x b.
Proof. exact set_union_spec. Qed.
Print Assumptions C19_set_union.

Lemma set_diff_nil_r a : set_diff a [] = a.
Proof. destruct a; reflexivity. Qed.
Lemma set_diff_cons x a y b : set_diff (x :: a) (y :: b) =
  if x <? y then x :: set_diff a (y :: b) else if y <? x then set_diff (x :: a) b else set_diff a b.
Proof. reflexivity. Qed.
Lemma set_diff_spec a : forall b, StronglySorted Z.lt a -> StronglySorted Z.lt b ->
  StronglySorted Z.lt (set_diff a b) /\ forall x, In x (set_diff a b) <-> In x a /\ ~ In x b.
Proof.
  induction a as [|y a IHa].
  - intros b _ _. destruct b; simpl; split; try constructor; tauto.
  - induction b as [|z b IHb]; intros Ha Hb.
    + rewrite set_diff_nil_r. split; auto. simpl; tauto.
    + inversion Ha as [|? ? Ha' Fa]; inversion Hb as [|? ? Hb' Fb]; subst.
      rewrite Forall_forall in Fa, Fb. rewrite set_diff_cons.
      destruct (Z.ltb_spec y z); [|destruct (Z.ltb_spec z y)].
      * destruct (IHa (z :: b) Ha' Hb) as [S H']. split.
        -- constructor; auto. apply Forall_forall. intros x Hx. apply H' in Hx. apply Fa. tauto.
        -- intros x. simpl In at 1. rewrite H'. simpl. split.
           ++ intros [ <- |[Hx Hn]]; [|tauto]. split; auto. intros [ -> |Hy]; [lia|]. specialize (Fb _ Hy). lia.
           ++ intros [[ -> |Hx] Hn]; tauto.
      * destruct (IHb Ha Hb') as [S H']. split; auto.
        intros x. rewrite H'. simpl. split.
        -- intros [Hx Hn]. split; auto. intros [ -> |Hy]; [|tauto].
           destruct Hx as [ -> |Hx]; [lia|]. specialize (Fa _ Hx). lia.
        -- intros [Hx Hn]; split; auto.
      * assert (y = z) as -> by lia. destruct (IHa b Ha' Hb') as [S H']. split; auto.
        intros x. rewrite H'. simpl. split.
        -- intros [Hx Hn]. split; auto. intros [ -> |Hy]; [|tauto]. specialize (Fa _ Hx). lia.
        -- intros [[ -> |Hx] Hn]; tauto.
Qed.
Theorem C19_set_diff : forall a b, StronglySorted Z.lt a -> StronglySorted Z.lt b ->
  StronglySorted Z.lt (set_diff a b) /\ forall x, In x (set_diff a b) <-> In x a /\ ~ In x b.
Proof. exact set_diff_spec. Qed.
Print Assumptions C19_set_diff.

Lemma sym_diff_sorted a : forall b, StronglySorted Z.lt a -> StronglySorted Z.lt b -> StronglySorted Z.lt (sym_diff a b).
Proof.
  induction a as [|y a IHa].
  - intros b _ Hb. destruct b; auto.
  - induction b as [|z b IHb]; intros Ha Hb.
    + rewrite sym_diff_nil_r. auto.
    + inversion Ha as [|? ? Ha' Fa]; inversion Hb as [|? ? Hb' Fb]; subst.
      rewrite Forall_forall in Fa, Fb. rewrite sym_diff_cons.
      destruct (Z.ltb_spec y z); [|destruct (Z.ltb_spec z y)].
      * constructor; auto. apply Forall_forall. intros x Hx. apply sym_diff_In in Hx; auto.
        destruct Hx as [[Hx _]|[_ Hx]]; auto. destruct Hx as [ <- |Hx]; auto. specialize (Fb _ Hx). lia.
      * constructor; auto. apply Forall_forall. intros x Hx. apply sym_diff_In in Hx; auto.
        destruct Hx as [[Hx _]|[_ Hx]]; auto. destruct Hx as [ <- |Hx]; auto. specialize (Fa _ Hx). lia.
      * auto.
Qed.
Theorem C19_set_symmetric_diff : forall a b, StronglySorted Z.lt a -> StronglySorted Z.lt b ->
  StronglySorted Z.lt (sym_diff a b) /\
  forall x, In x (sym_diff a b) <-> (In x a /\ ~ In x b) \/ (~ In x a /\ In x b).
Proof. intros a b Ha Hb. split; [now apply sym_diff_sorted|]. now apply sym_diff_In. Qed.
Print Assumptions C19_set_symmetric_diff.

(** intersection *)
Definition cval (k : Z) (m : list (Z * Z)) : Z :=
  match find (fun kv => fst kv =? k) m with Some kv => snd kv | None => 0 end.
Definition occ (k : Z) (l : list Z) : Z := countb (Z.eqb k) l.

Lemma count_up_spec p m : NoDup (map fst m) ->
  NoDup (map fst (count_up p m)) /\
  (forall k, In k (map fst (count_up p m)) <-> k = p \/ In k (map fst m)) /\
  (forall k, cval k (count_up p m) = cval k m + (if k =? p then 1 else 0)).
Proof.
  induction m as [|[k0 v0] m IH]; intros Hnd.
  - cbn. repeat split; try (repeat constructor; simpl; tauto); try (simpl; intuition).
    unfold cval. cbn. destruct (Z.eqb_spec p k), (Z.eqb_spec k p); subst; auto; lia.
  - simpl in Hnd. inversion Hnd as [|? ? Hn Hnd']; subst. destruct (IH Hnd') as (I1 & I2 & I3).
    simpl. destruct (Z.eqb_spec p k0).
    + subst k0. split; [constructor; auto|]. split; [simpl; intuition|].
      intros k. unfold cval. simpl. destruct (Z.eqb_spec p k), (Z.eqb_spec k p); subst; simpl; lia.
    + split.
      * simpl. constructor; auto. intros H. apply I2 in H. destruct H; congruence.
      * split; [intros k; simpl; rewrite I2; tauto|].
        intros k. unfold cval. simpl. destruct (Z.eqb_spec k0 k).
        -- subst. destruct (Z.eqb_spec k p); [congruence|]. simpl. lia.
        -- apply I3.
Qed.
Lemma fold_count_spec l : forall m, NoDup (map fst m) ->
  let m' := fold_left (fun m p => count_up p m) l m in
  NoDup (map fst m') /\ (forall k, In k (map fst m') <-> In k l \/ In k (map fst m)) /\
  (forall k, cval k m' = cval k m + occ k l).
Proof.
  induction l as [|p l IH]; intros m Hnd; cbn [fold_left].
  - split; auto. split; [simpl; intuition|]. intros k. unfold occ. simpl. lia.
  - destruct (count_up_spec p m Hnd) as (C1 & C2 & C3).
    destruct (IH _ C1) as (I1 & I2 & I3). split; auto. split.
    + intros k. rewrite I2, C2. simpl. intuition.
    + intros k. rewrite I3, C3. unfold occ. simpl. lia.
Qed.
Lemma fold_fold vecs : forall m, fold_left (fun m v => fold_left (fun m p => count_up p m) v m) vecs m =
  fold_left (fun m p => count_up p m) (concat vecs) m.
Proof. induction vecs as [|v vecs IH]; intros m; simpl; auto. now rewrite fold_left_app, IH. Qed.

Lemma occ_concat k vecs : occ k (concat vecs) = fold_right Z.add 0 (map (occ k) vecs).
Proof. induction vecs; simpl; auto. unfold occ in *. rewrite countb_app. lia. Qed.

Lemma intersection_spec vecs :
  StronglySorted Z.lt (intersection vecs) /\
  forall x, In x (intersection vecs) <->
            In x (concat vecs) /\ fold_right Z.add 0 (map (occ x) vecs) = Z.of_nat (length vecs).
Proof.
  unfold intersection. rewrite fold_fold.
  destruct (fold_count_spec (concat vecs) [] ltac:(constructor)) as (I1 & I2 & I3). cbv zeta in *.
  set (m := fold_left (fun m p => count_up p m) (concat vecs) []) in *.
  assert (Hgen : forall (l : list (Z * Z)) s, StronglySorted Z.lt s ->
    let r := fold_left (fun s kv => if snd kv =? Z.of_nat (length vecs) then set_insert (fst kv) s else s) l s in
    StronglySorted Z.lt r /\ forall x, In x r <-> In x s \/ In (x, Z.of_nat (length vecs)) l).
  { induction l as [|[k v] l IH]; intros s Hs; cbn [fold_left fst snd].
    - split; auto. intros; simpl; tauto.
    - destruct (Z.eqb_spec v (Z.of_nat (length vecs))) as [E|E].
      + destruct (IH (set_insert k s) (set_insert_sorted k s Hs)) as [S H]. split; auto.
        intros x. rewrite H, set_insert_In. simpl. split.
        * intros [[ -> |Hx]|Hx]; auto. right. left. now rewrite E.
        * intros [Hx|[Hx|Hx]]; auto. inversion Hx; auto.
      + destruct (IH s Hs) as [S H]. split; auto. intros x. rewrite H. simpl. split; [tauto|].
        intros [Hx|[Hx|Hx]]; auto. inversion Hx; congruence. }
  destruct (Hgen m [] ltac:(constructor)) as [S H]. split; auto.
  intros x. rewrite H. simpl. rewrite <- occ_concat.
  assert (Hin : forall v, In (x, v) m <-> In x (map fst m) /\ cval x m = v).
  { intros v. clear - I1. unfold cval. induction m as [|[k0 v0] m IH]; simpl.
    - tauto.
    - simpl in I1. inversion I1 as [|? ? Hn Hnd]; subst. destruct (Z.eqb_spec k0 x).
      + subst. simpl. split.
        * intros [E|E]; [inversion E; auto|]. exfalso. apply Hn. apply in_map_iff. exists (x, v). auto.
        * intros [_ ->]. auto.
      + rewrite (IH Hnd). split.
        * intros [E|E]; [inversion E; congruence|tauto].
        * intros [[E|E] Hv]; [congruence|auto]. }
  rewrite Hin, I2, I3. simpl. unfold cval. simpl. intuition lia.
Qed.

Lemma occ_NoDup x l : NoDup l -> occ x l = if existsb (Z.eqb x) l then 1 else 0.
Proof.
  unfold occ. induction l as [|y l IH]; intros Hn; simpl; auto.
  inversion Hn; subst. rewrite IH by auto. destruct (Z.eqb_spec x y); simpl; auto.
  subst. destruct (existsb (Z.eqb y) l) eqn:E; auto. apply existsb_eqb_In in E. contradiction.
Qed.

(** For vectors without repeated elements (and at least one vector) the result is the
    set of common elements. *)
Theorem C19_intersection_partial : forall vecs, vecs <> [] -> Forall (fun v => NoDup v) vecs ->
  StronglySorted Z.lt (intersection vecs) /\
  forall x, In x (intersection vecs) <-> forall v, In v vecs -> In x v.
Proof.
  intros vecs Hne Hnd. destruct (intersection_spec vecs) as [S H]. split; [exact S|].
  intros x. rewrite H.
  assert (Hs : forall l, Forall (fun v => NoDup v) l ->
     fold_right Z.add 0 (map (occ x) l) <= Z.of_nat (length l) /\
     (fold_right Z.add 0 (map (occ x) l) = Z.of_nat (length l) <-> forall v, In v l -> In x v)).
  { induction l as [|v l IH]; intros Hl; simpl map; simpl fold_right; simpl length.
    - split; [lia|]. split; auto. intros _ v [].
    - inversion Hl; subst. destruct (IH ltac:(auto)) as [L1 L2]. rewrite occ_NoDup by auto.
      destruct (existsb (Z.eqb x) v) eqn:E.
      + split; [lia|]. apply existsb_eqb_In in E. split.
        * intros Heq. assert (Heq' : fold_right Z.add 0 (map (occ x) l) = Z.of_nat (length l)) by lia.
          intros w [ <- |Hw]; auto. apply L2; auto.
        * intros Hall. assert (fold_right Z.add 0 (map (occ x) l) = Z.of_nat (length l)).
          { apply L2. intros; apply Hall; simpl; auto. } lia.
      + split; [lia|]. split; [lia|]. intros Hall. exfalso.
        assert (In x v) by (apply Hall; simpl; auto). apply existsb_eqb_In in H0. congruence. }
  destruct (Hs vecs Hnd) as [_ Hs2]. rewrite Hs2. split; [tauto|]. intros Hall. split; auto.
  destruct vecs as [|v vecs]; [congruence|]. simpl. apply in_app_iff. left. apply Hall. simpl; auto.
Qed.
Print Assumptions C19_intersection_partial.
Example C19_ex : intersection [[3; 1; 2]; [2; 5; 3]; [3; 2]] = [2; 3].
Proof. reflexivity. Qed.
(** Repeated elements break it both ways. *)
Theorem C19_intersection_refuted :
  intersection [[1; 1]; [2]] = [1] /\ intersection [[1; 1]; [1]] = [].
Proof. split; reflexivity. Qed.
Print Assumptions C19_intersection_refuted.
