(** * C45, C63: configuration files *)
From Verif Require Import Base ConfigModel.
From Coq Require Import Reals String.
Open Scope nat_scope.

(** ** Specification *)
(** [key] leads to the node [n] in the tree [root]. *)
Inductive found : yaml -> list string -> yaml -> Prop :=
| found_here n : n <> YUndef -> found n [] n
| found_below l k key v n : ylookup l k = v -> found v key n -> found (YMap l) (k :: key) n.
(** [key] is absent: some prefix ends in a map or sequence (never in a scalar) without it. *)
Inductive missing : yaml -> list string -> Prop :=
| missing_here key : missing YUndef key
| missing_seq l k key : missing (YSeq l) (k :: key)
| missing_below l k key : missing (ylookup l k) key -> missing (YMap l) (k :: key).
(** The entries convert to the values. *)
Definition reals (l : list yaml) (v : list R) : Prop := Forall2 (fun n x => as_real n = Ret x) l v.

Lemma found_get root key n o : found root key n -> yaml_get_node root key o = Ret (Some n).
Proof.
  intros H. unfold yaml_get_node. assert (D : descend root key = Ret n /\ n <> YUndef).
  { induction H as [n H|l k key v n E H [IH N]]; [auto|]. split; auto. cbn [descend yfield obind]. now rewrite E. }
  destruct D as [D N]. rewrite D. cbn [obind]. destruct n; auto. congruence.
Qed.
Lemma missing_get root key : missing root key ->
  yaml_get_node root key true = Ret None /\ yaml_get_node root key false = Throw Fatal.
Proof.
  intros H. assert (D : descend root key = Ret YUndef).
  { induction H; auto.
    - induction key; auto.
    - cbn [descend yfield obind]. clear. induction key; auto. }
  unfold yaml_get_node. now rewrite D.
Qed.

Section Read.
Context {T : Type} (as_ : yaml -> outcome T) (HT : as_ YUndef = Throw StdExn).
Lemma read_seq_spec l k : forall i v, read_seq as_ (YSeq l) i k = Ret v ->
  List.length v = k /\ i + k <= max i (List.length l) /\ Forall2 (fun n x => as_ n = Ret x) (firstn k (skipn i l)) v.
Proof.
  induction k as [|k IH]; intros i v H.
  - injection H as <-. repeat split; auto; [lia|constructor].
  - cbn [read_seq yat obind] in H. destruct (as_ (nth i l YUndef)) as [x| |] eqn:E; try discriminate H. cbn [obind] in H.
    destruct (read_seq as_ (YSeq l) (S i) k) as [w| |] eqn:EW; try discriminate H. injection H as <-.
    apply IH in EW as (E1 & E2 & E3).
    assert (i < List.length l).
    { destruct (le_lt_dec (List.length l) i); auto. rewrite nth_overflow in E by auto. congruence. }
    split; [simpl; lia|]. split; [lia|].
    assert (S : skipn i l = nth i l YUndef :: skipn (S i) l).
    { clear -H. revert i H. induction l as [|a l IH]; intros i H; [simpl in H; lia|]. destruct i; [reflexivity|].
      cbn [skipn nth]. apply IH. simpl in H. lia. }
    rewrite S. cbn [firstn]. constructor; auto.
Qed.
Lemma read_seq_ok l k : forall i v, Forall2 (fun n x => as_ n = Ret x) (firstn k (skipn i l)) v -> i + k <= List.length l ->
  read_seq as_ (YSeq l) i k = Ret v.
Proof.
  induction k as [|k IH]; intros i v F H; [inversion F; reflexivity|].
  assert (S : skipn i l = nth i l YUndef :: skipn (S i) l).
  { clear -H. revert i H. induction l as [|a l IH]; intros i H; [simpl in H; lia|]. destruct i; [reflexivity|].
    cbn [skipn nth]. apply IH. simpl in H. lia. }
  rewrite S in F. cbn [firstn] in F. inversion F as [|? x ? w E F']; subst.
  cbn [read_seq yat obind]. rewrite E. cbn [obind]. rewrite (IH (Datatypes.S i) w) by (auto; lia). reflexivity.
Qed.
End Read.

(** C45: a vector type of [k] entries is read from exactly those nodes that hold a
    sequence of at least [k] convertible values; every other node throws. *)
Theorem C45_vector_partial : forall k root key n out optional, 1 <= k -> found root key n ->
  (forall l v, n = YSeq l -> k <= List.length l -> reals (firstn k l) v ->
     parse_vec as_real k root key out optional = Ret (0%Z, v)) /\
  (forall rv v, parse_vec as_real k root key out optional = Ret (rv, v) ->
     rv = 0%Z /\ List.length v = k /\ exists l, n = YSeq l /\ k <= List.length l /\ reals (firstn k l) v) /\
  parse_vec as_real k root key out optional <> Undef.
Proof.
  intros k root key n out optional Hk F. unfold parse_vec. rewrite (found_get _ _ _ _ F). cbn [obind].
  split; [|split].
  - intros l v -> HL HR. unfold yaml_check_vector. cbn [ysize].
    destruct (Nat.eqb_spec (List.length l) 0); [lia|]. cbn [andb obind].
    rewrite (read_seq_ok as_real l k 0 v); auto.
  - intros rv v H. unfold yaml_check_vector in H.
    destruct ((ysize n =? 0) && negb (ysize n =? k)) eqn:E; [discriminate|]. cbn [obind] in H.
    destruct n as [| |l|l].
    + cbn in E. destruct k; [lia|discriminate].
    + cbn in E. destruct k; [lia|discriminate].
    + destruct (read_seq as_real (YSeq l) 0 k) as [w| |] eqn:EW; try discriminate H. injection H as <- <-.
      apply read_seq_spec in EW as (E1 & E2 & E3); auto. split; auto. split; auto. exists l. cbn [skipn] in E3.
      split; [reflexivity|]. split; [lia|exact E3].
    + destruct k; [lia|]. cbn in H. discriminate.
  - unfold yaml_check_vector. destruct (_ && _); [discriminate|]. cbn [obind].
    assert (G : forall m i, read_seq as_real n i m <> Undef).
    { induction m as [|m IH]; intros i; [discriminate|]. cbn [read_seq].
      destruct (yat n i) as [e| |] eqn:EY; cbn [obind]; [|discriminate|destruct n; discriminate].
      destruct (as_real e) as [x| |] eqn:ER; cbn [obind]; [|discriminate|destruct e as [|[|] ?|?|?]; discriminate].
      specialize (IH (S i)). destruct (read_seq as_real n (S i) m); cbn [obind]; congruence. }
    specialize (G k 0). destruct (read_seq as_real n 0 k); cbn [obind]; congruence.
Qed.
(** C45 is false for longer sequences: the surplus values are ignored silently. *)
Theorem C45_long_vector_refuted : forall k xs extra out optional, 1 <= k -> List.length xs = k -> extra <> [] ->
  parse_vec as_real k (YMap [("v"%string, YSeq (map (fun x => YScalar (Some x) None) (xs ++ extra)))]) ["v"%string] out optional
    = Ret (0%Z, xs) /\ List.length (xs ++ extra) <> k.
Proof.
  intros k xs extra out optional Hk HL NE. split.
  - set (n := YSeq _). destruct (C45_vector_partial k (YMap [("v"%string, n)]) ["v"%string] n out optional Hk) as [C _].
    + apply (found_below _ _ _ n); [reflexivity|]. constructor. discriminate.
    + eapply C; [reflexivity| |].
      * rewrite map_length, app_length. lia.
      * rewrite map_app, firstn_app, map_length, HL, Nat.sub_diag. cbn [firstn]. rewrite app_nil_r.
        rewrite firstn_all2 by (rewrite map_length; lia).
        clear. induction xs; constructor; auto.
  - rewrite app_length. destruct extra; [congruence|simpl; lia].
Qed.
Example C45_vector_witness : found (YMap [("a"%string, YMap [("b"%string, YSeq [YScalar (Some 1%R) None])])]) ["a"; "b"]%string
  (YSeq [YScalar (Some 1%R) None]).
Proof. eapply found_below; [reflexivity|]. eapply found_below; [reflexivity|]. constructor. discriminate. Qed.

(** A matrix node. *)
Definition matrix_node (rows cols : Z) (data : yaml) (n : yaml) : Prop :=
  exists l r c, n = YMap l /\ ylookup l "rows" = r /\ ylookup l "cols" = c /\ ylookup l "data" = data /\
    as_int r = Ret rows /\ as_int c = Ret cols /\ data <> YUndef.
Lemma as_int_def r x : as_int r = Ret x -> is_defined r = true.
Proof. destruct r; auto; discriminate. Qed.
Lemma check_fields_ok rows cols data n : matrix_node rows cols data n -> check_fields n = Ret (rows, cols, data).
Proof.
  intros (l & r & c & -> & E1 & E2 & E3 & H1 & H2 & H3). unfold check_fields. cbn [yfield obind].
  rewrite E1, E2, E3, (as_int_def _ _ H1), (as_int_def _ _ H2), H1, H2. destruct data; auto. congruence.
Qed.
Lemma check_fields_inv n f : check_fields n = Ret f -> matrix_node (fst (fst f)) (snd (fst f)) (snd f) n.
Proof.
  intros H. unfold check_fields in H. destruct n as [|? ?|l|l]; try discriminate.
  cbn [yfield obind] in H.
  destruct (is_defined (ylookup l "rows") && is_defined (ylookup l "cols") && is_defined (ylookup l "data")) eqn:E; [|discriminate].
  destruct (as_int (ylookup l "rows")) as [r| |] eqn:E1; try discriminate. cbn [obind] in H.
  destruct (as_int (ylookup l "cols")) as [c| |] eqn:E2; try discriminate. injection H as <-.
  exists l, (ylookup l "rows"), (ylookup l "cols"). cbn [fst snd]. repeat split; auto.
  intros C. rewrite C in E. rewrite andb_false_r in E. discriminate.
Qed.

(** C45, fixed-size matrices: accepted exactly if "data" holds k * k convertible values
    and "rows" and "cols" are integers. *)
Theorem C45_fixed_matrix_partial : forall k root key n out optional, 1 <= k -> found root key n ->
  (forall rows cols l v, matrix_node rows cols (YSeq l) n -> List.length l = k * k -> reals l v ->
     parse_mat k root key out optional = Ret (0%Z, v)) /\
  (forall rv v, parse_mat k root key out optional = Ret (rv, v) ->
     rv = 0%Z /\ exists rows cols l, matrix_node rows cols (YSeq l) n /\ List.length l = k * k /\ reals l v).
Proof.
  intros k root key n out optional Hk F. unfold parse_mat. rewrite (found_get _ _ _ _ F). cbn [obind]. split.
  - intros rows cols l v M HL HR. unfold yaml_check_matrix. rewrite (check_fields_ok _ _ _ _ M). cbn [obind snd ysize].
    rewrite HL, Nat.eqb_refl. cbn [negb obind snd].
    rewrite (read_seq_ok as_real l (k * k) 0 v); auto; [|lia]. cbn [skipn]. rewrite <- HL, firstn_all. exact HR.
  - intros rv v H. unfold yaml_check_matrix in H.
    destruct (check_fields n) as [f| |] eqn:EF; try discriminate H. apply check_fields_inv in EF. cbn [obind] in H.
    destruct f as [[r c] d]. cbn [fst snd] in *.
    destruct (Nat.eqb_spec (ysize d) (k * k)) as [ES|]; [|discriminate]. cbn [negb obind snd] in H.
    destruct (read_seq as_real d 0 (k * k)) as [w| |] eqn:EW; try discriminate H. injection H as <- <-.
    split; auto. destruct d as [| |l|l].
    + cbn in ES. nia.
    + cbn in ES. nia.
    + cbn in ES. exists r, c, l. split; auto. split; auto. apply read_seq_spec in EW as (_ & _ & E3); auto.
      cbn [skipn] in E3. now rewrite <- ES, firstn_all in E3.
    + cbn in ES. destruct (k * k) eqn:EK; [nia|]. cbn in EW. discriminate.
Qed.
(** C45 is false: the rows and cols fields of a fixed-size matrix are not compared with
    anything: a 3 x 3 matrix is accepted with any rows and cols. *)
Theorem C45_fixed_dims_refuted : forall rows cols xs out optional, List.length xs = 9 ->
  parse_mat 3 (YMap [("m"%string, YMap [("rows"%string, YScalar None (Some rows)); ("cols"%string, YScalar None (Some cols));
     ("data"%string, YSeq (map (fun x => YScalar (Some x) None) xs))])]) ["m"%string] out optional = Ret (0%Z, xs).
Proof.
  intros rows cols xs out optional HL. set (n := YMap [("rows"%string, _); _; _]).
  destruct (C45_fixed_matrix_partial 3 (YMap [("m"%string, n)]) ["m"%string] n out optional ltac:(lia)) as [C _].
  - apply (found_below _ _ _ n); [reflexivity|]. constructor. discriminate.
  - eapply C.
    + eexists _, _, _. split; [reflexivity|]. repeat split; try reflexivity. discriminate.
    + rewrite map_length. auto.
    + clear. induction xs; constructor; auto.
Qed.
(** C45, dynamic matrices: accepted exactly if "data" holds at least rows * cols values. *)
Theorem C45_dynamic_matrix_partial : forall root key n out optional, found root key n ->
  forall rows cols, (0 < rows)%Z -> (0 < cols)%Z ->
  (forall l v, matrix_node rows cols (YSeq l) n -> Z.to_nat rows * Z.to_nat cols <= List.length l ->
     reals (firstn (Z.to_nat rows * Z.to_nat cols) l) v ->
     parse_matx root key out optional = Ret (0%Z, (rows, cols, v))) /\
  (forall rv v, parse_matx root key out optional = Ret (rv, (rows, cols, v)) ->
     rv = 0%Z /\ exists l, matrix_node rows cols (YSeq l) n /\ Z.to_nat rows * Z.to_nat cols <= List.length l /\
     reals (firstn (Z.to_nat rows * Z.to_nat cols) l) v).
Proof.
  intros root key n out optional F rows cols HR HC. unfold parse_matx. rewrite (found_get _ _ _ _ F). cbn [obind]. split.
  - intros l v M HL HV. unfold yaml_check_matrix. rewrite (check_fields_ok _ _ _ _ M). cbn [obind snd ysize].
    rewrite Nat.eqb_refl. cbn [negb obind].
    destruct (Z.ltb_spec rows 0); [lia|]. destruct (Z.ltb_spec cols 0); [lia|]. cbn [orb].
    rewrite (read_seq_ok as_real l _ 0 v); auto.
  - intros rv v H. unfold yaml_check_matrix in H.
    destruct (check_fields n) as [f| |] eqn:EF; try discriminate H. apply check_fields_inv in EF. cbn [obind] in H.
    destruct f as [[r c] d]. cbn [fst snd] in *. rewrite Nat.eqb_refl in H. cbn [negb obind] in H.
    destruct ((r <? 0) || (c <? 0))%Z; [discriminate|].
    destruct (read_seq as_real d 0 (Z.to_nat r * Z.to_nat c)) as [w| |] eqn:EW; try discriminate H.
    injection H as <- <- <- <-. split; auto.
    destruct d as [| |l|l]; try (destruct (Z.to_nat r * Z.to_nat c) eqn:EK; [nia|cbn in EW; discriminate]).
    exists l. split; auto. apply read_seq_spec in EW as (_ & E2 & E3); auto.
Qed.
(** C45 is false for dynamic matrices with more values than rows * cols. *)
Theorem C45_surplus_refuted : forall rows cols xs extra out optional, (0 < rows)%Z -> (0 < cols)%Z ->
  List.length xs = Z.to_nat rows * Z.to_nat cols -> extra <> [] ->
  parse_matx (YMap [("m"%string, YMap [("rows"%string, YScalar None (Some rows)); ("cols"%string, YScalar None (Some cols));
     ("data"%string, YSeq (map (fun x => YScalar (Some x) None) (xs ++ extra)))])]) ["m"%string] out optional
   = Ret (0%Z, (rows, cols, xs)) /\ List.length (xs ++ extra) <> Z.to_nat rows * Z.to_nat cols.
Proof.
  intros rows cols xs extra out optional HR HC HL NE. split.
  - set (n := YMap [("rows"%string, _); _; _]).
    destruct (C45_dynamic_matrix_partial (YMap [("m"%string, n)]) ["m"%string] n out optional) with (rows := rows) (cols := cols) as [C _]; auto.
    + apply (found_below _ _ _ n); [reflexivity|]. constructor. discriminate.
    + eapply C.
      * eexists _, _, _. split; [reflexivity|]. repeat split; try reflexivity. discriminate.
      * rewrite map_length, app_length. lia.
      * rewrite map_app, firstn_app, map_length, HL, Nat.sub_diag. cbn [firstn]. rewrite app_nil_r.
        rewrite firstn_all2 by (rewrite map_length; lia). clear. induction xs; constructor; auto.
  - rewrite app_length. destruct extra; [congruence|simpl; lia].
Qed.

(** ** C63 *)
(** A missing optional key returns -1 and leaves the variable unchanged, a missing
    mandatory key throws, for every kind of parse. *)
Theorem C63_missing_key : forall root key, missing root key ->
  (forall k out, parse_vec as_real k root key out true = Ret ((-1)%Z, out) /\ parse_vec as_real k root key out false = Throw Fatal) /\
  (forall k out, parse_vec as_int k root key out true = Ret ((-1)%Z, out) /\ parse_vec as_int k root key out false = Throw Fatal) /\
  (forall k out, parse_mat k root key out true = Ret ((-1)%Z, out) /\ parse_mat k root key out false = Throw Fatal) /\
  (forall out, parse_matx root key out true = Ret ((-1)%Z, out) /\ parse_matx root key out false = Throw Fatal) /\
  (forall out, parse_vecx as_real root key out true = Ret ((-1)%Z, out) /\ parse_vecx as_real root key out false = Throw Fatal) /\
  (forall out, parse_scalar as_real root key out true = Ret ((-1)%Z, out) /\ parse_scalar as_real root key out false = Throw Fatal) /\
  (forall out, parse_vector as_real root key out true = Ret ((-1)%Z, out) /\ parse_vector as_real root key out false = Throw Fatal) /\
  yaml_has_key root key = Ret 0%Z.
Proof.
  intros root key M. destruct (missing_get _ _ M) as [G1 G2].
  unfold parse_vec, parse_mat, parse_matx, parse_vecx, parse_scalar, parse_vector. rewrite G1, G2.
  repeat split; auto.
  unfold yaml_get_node in G1. unfold yaml_has_key. destruct (descend root key) as [n| |]; try discriminate G1; cbn [obind] in *.
  destruct (is_defined n); auto. discriminate G1.
Qed.
Example C63_witness : missing (YMap [("a"%string, YMap [("b"%string, YSeq [])])]) ["a"; "c"]%string.
Proof. apply missing_below. cbn. apply missing_below. cbn. constructor. Qed.
(** A present scalar or dynamic vector is returned as it is in the file, whatever the
    variable held; a scalar that does not convert throws. *)
Theorem C63_present : forall root key n, found root key n ->
  (forall x o out, as_real n = Ret x -> parse_scalar as_real root key out o = Ret (0%Z, x)) /\
  (forall o out, (forall x, as_real n <> Ret x) -> parse_scalar as_real root key out o = Throw Fatal) /\
  (forall l v o out, n = YSeq l -> reals l v -> parse_vecx as_real root key out o = Ret (0%Z, v)) /\
  yaml_has_key root key = Ret 1%Z.
Proof.
  intros root key n F. unfold parse_scalar, parse_vecx. repeat split.
  - intros x o out E. rewrite (found_get _ _ _ _ F). cbn [obind refatal]. now rewrite E.
  - intros o out N. rewrite (found_get _ _ _ _ F). cbn [obind].
    destruct (as_real n) as [x| |] eqn:E; cbn [obind refatal]; auto; [now destruct (N x)|].
    destruct n as [|[|] ?|?|?]; discriminate.
  - intros l v o out -> HR. rewrite (found_get _ _ _ _ F). cbn [obind ysize].
    rewrite (read_seq_ok as_real l _ 0 v); auto. cbn [skipn]. now rewrite firstn_all.
  - unfold yaml_has_key. assert (G := found_get _ _ _ false F). unfold yaml_get_node in G.
    destruct (descend root key) as [m| |]; try discriminate G. cbn [obind] in *.
    destruct (is_defined m); [auto|discriminate].
Qed.
(** C63 is false for std::vector variables: the values are appended to the old content. *)
Theorem C63_vector_appends_refuted : forall root key l v old o, found root key (YSeq l) -> reals l v ->
  parse_vector as_real root key old o = Ret (0%Z, old ++ v).
Proof.
  intros root key l v old o F H. unfold parse_vector. rewrite (found_get _ _ _ _ F). cbn [obind elements].
  assert (A : forall old, append_all as_real l old = Ret (old ++ v)).
  { clear - H. induction H as [|n x l v E F IH]; intros old; cbn [append_all]; [now rewrite app_nil_r|].
    rewrite E. cbn [obind]. rewrite IH, <- app_assoc. reflexivity. }
  rewrite A. reflexivity.
Qed.
Print Assumptions C45_dynamic_matrix_partial.
Print Assumptions C63_missing_key.
