(** * C41 (csv_data, load_iarrays), C42 (check_jacobian) *)
From Verif Require Import Base TextModel TextProofs DataModel DataSpec Prop_Data Prop_Data2.
From Coq Require Import Ascii Reals Lra.
Open Scope Z_scope.

(** A text file made of the given lines. *)
Definition file_of (lines : list text) : text := concat (map (fun l => l ++ [newline]) lines).
(** A comment line. *)
Definition comment (l : text) : Prop := exists b, l = hash :: b /\ ~ In newline b.

Lemma fgets_from_plain cur l s : ~ In newline l ->
  fgets_from cur (l ++ newline :: s) = (cur ++ l ++ [newline]) :: fgets_from [] s.
Proof.
  revert cur; induction l as [|c l IH]; intros cur H; simpl; auto.
  destruct (Ascii.eqb_spec c newline); [exfalso; apply H; left; auto|].
  rewrite IH by (intros C; apply H; right; auto). now rewrite <- app_assoc.
Qed.
Lemma fgets_file lines : Forall (fun l => ~ In newline l) lines ->
  fgets_lines (file_of lines) = map (fun l => l ++ [newline]) lines.
Proof.
  unfold fgets_lines, file_of. induction 1 as [|l lines H F IH]; simpl; auto.
  rewrite <- app_assoc. simpl. rewrite fgets_from_plain by auto. simpl. now rewrite IH.
Qed.
Lemma comment_is l : comment l -> is_comment (l ++ [newline]) = true /\ ~ In newline l.
Proof.
  intros (b & -> & H). split; [reflexivity|]. intros [C|C]; [discriminate|auto].
Qed.
Lemma plain_no_comment toks : Forall plain toks -> is_comment (join toks ++ [newline]) = false /\ ~ In newline (join toks) /\
  Forall field toks.
Proof.
  intros F.
  assert (FF : Forall field toks).
  { eapply Forall_impl; [|exact F]. intros t P. split; intros C; apply P in C; tauto. }
  split; [|split; auto; now apply join_no_newline].
  destruct toks as [|t [|u r]]; [reflexivity| |]; inversion F as [|? ? P0 ?]; subst.
  - destruct t as [|c t]; [reflexivity|]. simpl. apply Ascii.eqb_neq. apply (P0 c). left; auto.
  - rewrite join_cons2. destruct t as [|c t]; [reflexivity|]. simpl. apply Ascii.eqb_neq. apply (P0 c). left; auto.
Qed.

Lemma csv_rows_c_file cs rows : Forall comment cs -> Forall (Forall plain) rows ->
  csv_rows_c (Some (file_of (cs ++ map join rows))) = Ret (Z.of_nat (length rows)).
Proof.
  intros FC FR. unfold csv_rows_c. rewrite fgets_file.
  2:{ apply Forall_app. split; [eapply Forall_impl; [|exact FC]; intros; now apply comment_is|].
      apply Forall_forall. intros l Hl. apply in_map_iff in Hl as (t & <- & Ht).
      rewrite Forall_forall in FR. now apply plain_no_comment, FR. }
  f_equal. rewrite map_app, countb_app. 
  assert (A : countb (fun l => negb (is_comment l)) (map (fun l => l ++ [newline]) cs) = 0).
  { clear -FC. induction FC as [|c cs H F IH]; auto. cbn [map countb]. rewrite IH.
    destruct (comment_is c H) as [-> _]. reflexivity. }
  rewrite A. clear A FC. induction FR as [|r rows H F IH]; auto. cbn [map countb].
  destruct (plain_no_comment r H) as [-> _]. cbn [negb]. simpl length. lia.
Qed.

Definition tail_nul (n : nat) (buf : text) : Prop := forall k, (n <= k)%nat -> nth k buf nul = nul.
Lemma fgets_buf_tail n l buf : (length l <= n)%nat -> tail_nul n buf -> tail_nul n (fgets_buf l buf).
Proof.
  intros HL H k Hk. unfold fgets_buf. rewrite app_nth2 by lia.
  destruct (k - length l)%nat as [|j] eqn:E; [reflexivity|]. cbn [nth].
  assert (N : forall (b : text) m i, nth i (skipn m b) nul = nth (m + i) b nul).
  { clear. induction b as [|x b IH]; intros [|m] i; simpl; auto; destruct i; auto. }
  rewrite N. apply H. lia.
Qed.
Lemma tail_count n buf : tail_nul n buf -> count_char comma (skipn n buf) = 0.
Proof.
  revert n; induction buf as [|x buf IH]; intros [|n] H; try reflexivity.
  - cbn [skipn]. assert (E := H 0%nat ltac:(lia)). simpl in E. subst x.
    unfold count_char in *. cbn [countb]. assert (E := IH 0%nat). cbn [skipn] in E. rewrite E; [reflexivity|].
    intros k Hk. exact (H (S k) ltac:(lia)).
  - cbn [skipn]. apply IH. intros k Hk. exact (H (S k) ltac:(lia)).
Qed.
Lemma repeat_tail n : tail_nul n (repeat nul 1024).
Proof. intros k _. generalize 1024%nat. intros m. revert k. induction m; intros [|k]; simpl; auto. Qed.

Lemma csv_cols_c_file cs r0 rows : Forall comment cs -> Forall (Forall plain) (r0 :: rows) -> (2 <= length r0)%nat ->
  Forall (fun c => (length c <= length (join r0))%nat) cs ->
  csv_cols_c (Some (file_of (cs ++ map join (r0 :: rows)))) = Ret (Z.of_nat (length r0)).
Proof.
  intros FC FR L FL. unfold csv_cols_c. rewrite fgets_file.
  2:{ apply Forall_app. split; [eapply Forall_impl; [|exact FC]; intros; now apply comment_is|].
      apply Forall_forall. intros l Hl. apply in_map_iff in Hl as (t & <- & Ht).
      rewrite Forall_forall in FR. now apply plain_no_comment, FR. }
  f_equal. inversion FR as [|? ? P0 ?]; subst. destruct (plain_no_comment r0 P0) as (C0 & _ & F0).
  rewrite map_app. cbn [map].
  assert (G : forall buf, tail_nul (S (length (join r0))) buf ->
    count_char comma (skip_comments (map (fun l => l ++ [newline]) cs ++ (join r0 ++ [newline]) ::
      map (fun l => l ++ [newline]) (map join rows)) buf) = Z.of_nat (length r0) - 1).
  { clear FR. induction cs as [|c cs IH]; intros buf T.
    - cbn [map app skip_comments]. rewrite C0. unfold fgets_buf, count_char. rewrite countb_app, countb_app.
      cbn [countb]. fold (count_char comma (join r0)). rewrite count_join by (auto; intros ->; simpl in L; lia).
      change (Ascii.eqb newline comma) with false. change (Ascii.eqb nul comma) with false.
      rewrite app_length. simpl length. fold (count_char comma (skipn (S (length (join r0) + 1)) buf)).
      rewrite tail_count; [lia|]. intros k Hk. apply T. lia.
    - inversion FC; subst. inversion FL; subst. cbn [map app skip_comments].
      destruct (comment_is c H2) as [-> _]. apply IH; auto. apply fgets_buf_tail; auto.
      rewrite app_length. simpl. lia. }
  rewrite G by apply repeat_tail. destruct (Z.ltb_spec 0 (Z.of_nat (length r0) - 1)); lia.
Qed.

(** csv_data_line on one row of tokens. *)
Lemma data_tok t : forall s e i d, plain t -> csv_data_line (t ++ s) e i d = csv_data_line s (e ++ t) i d.
Proof.
  induction t as [|c t IH]; intros s e i d P; simpl app; [now rewrite app_nil_r|].
  destruct (plain_not_space _ P c (or_introl eq_refl)) as (A & B & C).
  cbn [csv_data_line]. rewrite A, B, C. cbn [orb]. rewrite IH by (intros x Hx; apply P; right; auto).
  now rewrite <- app_assoc.
Qed.
Lemma data_step t c s i d : plain t -> sep c ->
  csv_data_line (t ++ c :: s) [] i (Some d) =
    obind (wr d i (Some (atof t))) (fun d' => csv_data_line s [] (i + 1) (Some d')).
Proof.
  intros P Hc. rewrite data_tok by auto. simpl app. cbn [csv_data_line].
  destruct (sep_eqb c Hc) as [-> ->]. reflexivity.
Qed.
Lemma data_fill toks : forall a b, toks <> [] -> Forall plain toks -> length toks = length b ->
  csv_data_line (join toks ++ [newline]) [] (Z.of_nat (length a)) (Some (a ++ b)) =
    Ret (Some (a ++ map (fun t => Some (atof t)) toks)).
Proof.
  induction toks as [|v [|w xs] IH]; intros a b N F L; [congruence| |]; destruct b as [|x b]; try discriminate L; inversion F; subst.
  - destruct b; [|discriminate L]. cbn [join]. rewrite data_step by (auto; right; auto). rewrite wr_in. reflexivity.
  - rewrite join_cons2. rewrite <- app_assoc. rewrite <- app_comm_cons. rewrite data_step by (auto; left; auto).
    rewrite wr_in. cbn [obind]. set (v' := Some (atof v)).
    replace (Z.of_nat (length a) + 1) with (Z.of_nat (length (a ++ [v']))) by (rewrite app_length; simpl; lia).
    replace (a ++ v' :: b) with ((a ++ [v']) ++ b) by (rewrite <- app_assoc; auto).
    rewrite IH; auto; [|discriminate]. now rewrite <- app_assoc.
Qed.
Lemma data_null toks : Forall plain toks -> csv_data_line (join toks ++ [newline]) [] 0 None = Undef.
Proof.
  intros F. destruct toks as [|t [|u r]]; [reflexivity| |]; inversion F; subst.
  - cbn [join]. rewrite data_tok by auto. reflexivity.
  - rewrite join_cons2, <- app_assoc, data_tok by auto. reflexivity.
Qed.
Lemma upd_mid {A} (a : list A) x b v : upd (a ++ x :: b) (length a) v = a ++ v :: b.
Proof. induction a; simpl; auto. f_equal; auto. Qed.

Lemma data_comments cs : Forall comment cs -> forall ls i d,
  csv_data_loop (map (fun l => l ++ [newline]) cs ++ ls) i d = csv_data_loop ls i d.
Proof.
  induction 1 as [|c cs H F IH]; intros ls i d; auto. cbn [map app csv_data_loop].
  destruct (comment_is c H) as [-> _]. apply IH.
Qed.
Lemma data_loop c rows : forall done rest more, (1 <= c)%nat ->
  Forall (fun toks => length toks = c /\ Forall plain toks) rows -> length rest = length rows ->
  (forall x, In x rest -> x = Some (repeat None c)) ->
  csv_data_loop (map (fun l => l ++ [newline]) (map join rows) ++ more) (Z.of_nat (length done)) (done ++ rest) =
    csv_data_loop more (Z.of_nat (length done + length rows))
      (done ++ map (fun toks => Some (map (fun t => Some (atof t)) toks)) rows).
Proof.
  induction rows as [|r rows IH]; intros done rest more Hc F L A.
  - destruct rest; [|discriminate L]. simpl. now rewrite Nat.add_0_r.
  - destruct rest as [|x rest]; [discriminate L|]. inversion F as [|? ? [LR PR] F']; subst x0 l.
    cbn [map app csv_data_loop]. destruct (plain_no_comment r PR) as (-> & _ & _).
    rewrite Nat2Z.id. rewrite nth_error_app2 by lia. rewrite Nat.sub_diag. cbn [nth_error].
    rewrite (A x) by (left; auto).
    assert (DF := data_fill r [] (repeat None c)). cbn [length app] in DF. change (Z.of_nat 0) with 0 in DF.
    rewrite DF; [|intros ->; simpl in LR; lia|auto|now rewrite repeat_length].
    cbn [obind]. rewrite upd_mid. set (v := Some (map _ r)).
    replace (Z.of_nat (length done) + 1) with (Z.of_nat (length (done ++ [v]))) by (rewrite app_length; simpl; lia).
    replace (done ++ v :: rest) with ((done ++ [v]) ++ rest) by (rewrite <- app_assoc; auto).
    rewrite IH; auto; [|intros; apply A; right; auto].
    rewrite app_length. simpl length. rewrite <- app_assoc.
    replace (length done + 1 + length rows)%nat with (length done + S (length rows))%nat by lia. reflexivity.
Qed.
Lemma alloc_fill n : forall done rest c, (n <= length rest)%nat ->
  alloc_rows n (Z.of_nat (length done)) c (done ++ rest) =
    Ret (done ++ repeat (Some (repeat None (Z.to_nat c))) n ++ skipn n rest).
Proof.
  induction n as [|n IH]; intros done rest c H; [reflexivity|].
  destruct rest as [|x rest]; [simpl in H; lia|]. cbn [alloc_rows]. rewrite wr_in. cbn [obind].
  set (v := Some (repeat None (Z.to_nat c))).
  replace (Z.of_nat (length done) + 1) with (Z.of_nat (length (done ++ [v]))) by (rewrite app_length; simpl; lia).
  replace (done ++ v :: rest) with ((done ++ [v]) ++ rest) by (rewrite <- app_assoc; auto).
  rewrite IH by (simpl in H; lia). rewrite <- app_assoc. reflexivity.
Qed.
Lemma alloc_over n : forall done rest c, (length rest < n)%nat ->
  alloc_rows n (Z.of_nat (length done)) c (done ++ rest) = Undef.
Proof.
  induction n as [|n IH]; intros done rest c H; [lia|].
  cbn [alloc_rows]. destruct rest as [|x rest].
  - rewrite wr_out by (rewrite app_nil_r; lia). reflexivity.
  - rewrite wr_in. cbn [obind]. set (v := Some (repeat None (Z.to_nat c))).
    replace (Z.of_nat (length done) + 1) with (Z.of_nat (length (done ++ [v]))) by (rewrite app_length; simpl; lia).
    replace (done ++ v :: rest) with ((done ++ [v]) ++ rest) by (rewrite <- app_assoc; auto).
    apply IH. simpl in H; lia.
Qed.

(** The files csv_data is meant for: comments, then [r] rows of [c] tokens; the
    comments are not longer than the first row. *)
Definition table_file (r c : nat) (cs : list text) (rows : list (list text)) : Prop :=
  Forall comment cs /\ shape r c rows /\ Forall (Forall plain) rows /\
  Forall (fun l => (length l <= length (join (hd [] rows)))%nat) cs.

Lemma table_lines r c cs rows : table_file r c cs rows ->
  fgets_lines (file_of (cs ++ map join rows)) =
    map (fun l => l ++ [newline]) cs ++ map (fun l => l ++ [newline]) (map join rows).
Proof.
  intros (FC & _ & FR & _). rewrite fgets_file; [apply map_app|].
  apply Forall_app. split; [eapply Forall_impl; [|exact FC]; intros; now apply comment_is|].
  apply Forall_forall. intros l Hl. apply in_map_iff in Hl as (t & <- & Ht).
  rewrite Forall_forall in FR. now apply plain_no_comment, FR.
Qed.
Lemma table_counts r c cs rows : (1 <= r)%nat -> (2 <= c)%nat -> table_file r c cs rows ->
  csv_rows_c (Some (file_of (cs ++ map join rows))) = Ret (Z.of_nat r) /\
  csv_cols_c (Some (file_of (cs ++ map join rows))) = Ret (Z.of_nat c).
Proof.
  intros Hr Hc (FC & (SL & SC) & FR & FL). split.
  - rewrite csv_rows_c_file by auto. now rewrite SL.
  - destruct rows as [|r0 rows]; [simpl in SL; lia|]. inversion SC; subst.
    rewrite csv_cols_c_file; auto; lia.
Qed.

(** C41, csv_data: square tables are read token by token. *)
Theorem C41_csv_data_square_partial : forall c cs rows, (2 <= c)%nat -> table_file c c cs rows ->
  csv_data (Some (file_of (cs ++ map join rows))) =
    Ret (Z.of_nat c, Z.of_nat c, Some (map (fun toks => Some (map (fun t => Some (atof t)) toks)) rows)).
Proof.
  intros c cs rows Hc T. destruct (table_counts c c cs rows ltac:(lia) Hc T) as [E1 E2].
  unfold csv_data. rewrite E1. cbn [obind]. rewrite E2. cbn [obind].
  destruct (Z.eqb_spec (Z.of_nat c) (-1)); [lia|]. cbn [orb]. rewrite Nat2Z.id.
  assert (AF := alloc_fill c [] (repeat None c) (Z.of_nat c)). cbn [length app] in AF. change (Z.of_nat 0) with 0 in AF.
  rewrite AF by (rewrite repeat_length; lia). cbn [obind].
  rewrite skipn_all2 by (rewrite repeat_length; lia). rewrite app_nil_r, Nat2Z.id.
  rewrite (table_lines c c) by auto. destruct T as (FC & (SL & SC) & FR & FL).
  rewrite data_comments by auto.
  assert (DL := data_loop c rows [] (repeat (Some (repeat None c)) c) []). cbn [app length] in DL. change (Z.of_nat 0) with 0 in DL.
  rewrite app_nil_r in DL. rewrite DL; [reflexivity|lia| |rewrite repeat_length; auto|intros x Hx; now apply repeat_spec in Hx].
  clear -SC FR. induction rows; constructor; inversion SC; inversion FR; subst; auto.
Qed.
(** C41 is false for every other table: memory outside the allocation is accessed. *)
Theorem C41_csv_data_not_square_refuted : forall r c cs rows,
  (1 <= r)%nat -> (2 <= c)%nat -> r <> c -> table_file r c cs rows ->
  csv_data (Some (file_of (cs ++ map join rows))) = Undef.
Proof.
  intros r c cs rows Hr Hc HN T. destruct (table_counts r c cs rows ltac:(lia) Hc T) as [E1 E2].
  unfold csv_data. rewrite E1. cbn [obind]. rewrite E2. cbn [obind].
  destruct (Z.eqb_spec (Z.of_nat c) (-1)); [lia|]. destruct (Z.eqb_spec (Z.of_nat r) (-1)); [lia|].
  cbn [orb]. rewrite !Nat2Z.id.
  destruct (Nat.lt_ge_cases r c).
  - assert (AO := alloc_over c [] (repeat None r) (Z.of_nat c)). cbn [length app] in AO. change (Z.of_nat 0) with 0 in AO.
    rewrite AO by (rewrite repeat_length; lia). reflexivity.
  - assert (AF := alloc_fill c [] (repeat None r) (Z.of_nat c)). cbn [length app] in AF. change (Z.of_nat 0) with 0 in AF.
    rewrite AF by (rewrite repeat_length; lia). cbn [obind]. rewrite Nat2Z.id.
    rewrite (table_lines r c) by auto. destruct T as (FC & (SL & SC) & FR & FL).
    rewrite data_comments by auto.
    replace r with (c + (r - c))%nat by lia. rewrite repeat_app.
    assert (SK : skipn c (repeat None c ++ repeat (@None (list (option R))) (r - c)) = repeat None (r - c)).
    { rewrite skipn_app, skipn_all2 by (rewrite repeat_length; lia). rewrite repeat_length, Nat.sub_diag. reflexivity. }
    rewrite SK. rewrite <- (firstn_skipn c rows), !map_app.
    assert (F2 : Forall (fun toks => length toks = c /\ Forall plain toks) rows).
    { clear -SC FR. induction rows; constructor; inversion SC; inversion FR; subst; auto. }
    assert (L1 : length (firstn c rows) = c) by (apply firstn_length_le; lia).
    assert (L2 : length (skipn c rows) = (r - c)%nat) by (rewrite skipn_length; lia).
    destruct (skipn c rows) as [|row rest] eqn:ES; [simpl in L2; lia|].
    assert (PR : Forall plain row).
    { rewrite Forall_forall in FR. apply FR. rewrite <- (firstn_skipn c rows), ES. apply in_or_app. right; left; auto. }
    assert (GEN : forall rws done tl1 more, length rws = length tl1 -> (forall x, In x tl1 -> x = Some (repeat None c)) ->
       Forall (fun toks => length toks = c /\ Forall plain toks) rws ->
       csv_data_loop (map (fun l => l ++ [newline]) (map join rws) ++ map (fun l => l ++ [newline]) (map join (row :: rest)))
         (Z.of_nat (length done)) (done ++ tl1 ++ None :: more) = Undef).
    { clear - PR Hc. induction rws as [|r0 rws IH]; intros done tl1 more LL A F.
      - destruct tl1; [|discriminate LL]. cbn [map app csv_data_loop].
        destruct (plain_no_comment row PR) as (-> & _ & _). rewrite Nat2Z.id, nth_error_app2, Nat.sub_diag by lia.
        cbn [nth_error]. rewrite data_null by auto. reflexivity.
      - destruct tl1 as [|x tl1]; [discriminate LL|]. inversion F as [|? ? [LR P0] F']; subst x0 l.
        cbn [map app csv_data_loop]. destruct (plain_no_comment r0 P0) as (-> & _ & _).
        rewrite Nat2Z.id, nth_error_app2, Nat.sub_diag by lia. cbn [nth_error]. rewrite (A x) by (left; auto).
        assert (DF := data_fill r0 [] (repeat None c)). cbn [length app] in DF. change (Z.of_nat 0) with 0 in DF.
        rewrite DF; [|intros ->; simpl in LR; lia|auto|now rewrite repeat_length].
        cbn [obind]. rewrite upd_mid. set (v := Some (map _ r0)).
        replace (Z.of_nat (length done) + 1) with (Z.of_nat (length (done ++ [v]))) by (rewrite app_length; simpl; lia).
        replace (done ++ v :: tl1 ++ None :: more) with ((done ++ [v]) ++ tl1 ++ None :: more) by (rewrite <- app_assoc; auto).
        apply IH; auto. intros; apply A; right; auto. }
    destruct (r - c)%nat as [|m] eqn:EM; [lia|]. cbn [repeat].
    assert (GG := GEN (firstn c rows) [] (repeat (Some (repeat None c)) c) (repeat None m)).
    cbn [length app] in GG. change (Z.of_nat 0) with 0 in GG. rewrite GG.
    + reflexivity.
    + now rewrite repeat_length.
    + intros x Hx. now apply repeat_spec in Hx.
    + rewrite <- (firstn_skipn c rows) in F2. now apply Forall_app in F2.
Qed.
Example C41_table_witness : table_file 2 3 [[hash; comma]]
  [map dec_signed [1; 2; 3]; map dec_signed [4; -5; 6]] /\
  table_file 2 2 [] [map dec_signed [1; 2]; map dec_signed [4; -5]].
Proof.
  assert (FP : forall l, Forall plain (map dec_signed l)).
  { intros l. apply Forall_forall. intros t H. apply in_map_iff in H as (n & <- & _). apply dec_signed_plain. }
  assert (P : forall a b, Forall (Forall plain) [map dec_signed a; map dec_signed b]).
  { intros a b. constructor; [apply FP|constructor; [apply FP|constructor]]. }
  split; (split; [|split; [|split; [apply P|]]]).
  - constructor; [|constructor]. exists [comma]. split; auto. intros [C|[]]; discriminate.
  - split; [reflexivity|]. repeat constructor.
  - constructor; [|constructor]. vm_compute. repeat constructor.
  - constructor.
  - split; [reflexivity|]. repeat constructor.
  - constructor.
Qed.
(** A header comment longer than the data line leaves commas in the buffer: two
    columns are counted as three. *)
Theorem C41_long_header_refuted :
  csv_cols_c (Some (file_of [[hash; "a"; comma; "b"; comma; "c"; comma; "d"]%char;
                             join (map dec_signed [1; 2]); join (map dec_signed [3; 4])])) = Ret 3.
Proof. vm_compute. reflexivity. Qed.
(** A missing file makes every reader of this family call fclose(NULL). *)
Theorem C41_missing_file_refuted :
  csv_rows_c None = Undef /\ csv_cols_c None = Undef /\ csv_data None = Undef /\
  load_iarrays None = Undef /\ load_darrays None = Undef.
Proof. repeat split; reflexivity. Qed.

(** C41, load_iarrays: one array per line that is no comment, in order. *)
Theorem C41_load_iarrays : forall groups,
  (* a file: arrays, each preceded by any number of comments *)
  Forall (fun g => Forall comment (fst g) /\ Forall int32 (snd g) /\ Z.of_nat (length (snd g)) < 2 ^ 31) groups ->
  load_iarrays (Some (file_of (concat (map (fun g => fst g ++
      [join (map dec_signed (Z.of_nat (length (snd g)) :: snd g))]) groups)))) =
    Ret (map (fun g => Some (Z.of_nat (length (snd g)) :: snd g)) groups).
Proof.
  intros groups F.
  set (lin := fun g : list text * list Z => fst g ++ [join (map dec_signed (Z.of_nat (length (snd g)) :: snd g))]).
  assert (PL : forall l, Forall plain (map dec_signed l)).
  { intros l. apply Forall_forall. intros t H. apply in_map_iff in H as (n & <- & _). apply dec_signed_plain. }
  assert (FN : Forall (fun l => ~ In newline l) (concat (map lin groups))).
  { apply Forall_forall. intros l Hl. apply in_concat in Hl as (ls & H1 & H2).
    apply in_map_iff in H1 as (g & <- & Hg). rewrite Forall_forall in F. destruct (F g Hg) as (FC & _).
    unfold lin in H2. apply in_app_or in H2 as [H2|[ <- |[]]].
    - rewrite Forall_forall in FC. now apply comment_is, FC.
    - now apply plain_no_comment. }
  unfold load_iarrays, csv_rows_c. rewrite (fgets_file _ FN). cbn [obind].
  assert (CNT : countb (fun l => negb (is_comment l)) (map (fun l => l ++ [newline]) (concat (map lin groups))) =
                Z.of_nat (length groups)).
  { clear FN. induction F as [|g gs (FC & _) F IH]; auto. cbn [map concat]. rewrite map_app, countb_app, IH.
    unfold lin. rewrite map_app, countb_app. cbn [map countb].
    destruct (plain_no_comment (map dec_signed (Z.of_nat (length (snd g)) :: snd g)) (PL _)) as (C & _ & _).
    cbn [map] in C. rewrite C.
    assert (Z0 : countb (fun l => negb (is_comment l)) (map (fun l => l ++ [newline]) (fst g)) = 0).
    { clear - FC. induction FC as [|c cs H F IH]; auto. cbn [map countb]. rewrite IH.
      destruct (comment_is c H) as [-> _]. reflexivity. }
    rewrite Z0. cbn [negb]. simpl length. lia. }
  rewrite CNT, Nat2Z.id. clear CNT FN.
  assert (G : forall done, load_lines parse_iarray_line (map (fun l => l ++ [newline]) (concat (map lin groups)))
      (Z.of_nat (length done)) (done ++ repeat None (length groups)) =
      Ret (done ++ map (fun g => Some (Z.of_nat (length (snd g)) :: snd g)) groups)).
  { induction F as [|g gs (FC & FI & FL) F IH]; intros done; auto.
    cbn [map concat]. rewrite map_app. unfold lin at 1. rewrite map_app, <- app_assoc.
    assert (SK : forall ls i a, load_lines parse_iarray_line (map (fun l => l ++ [newline]) (fst g) ++ ls) i a =
                 load_lines parse_iarray_line ls i a).
    { clear - FC. induction FC as [|c cs H F IH]; intros ls i a; auto. cbn [map app load_lines].
      destruct (comment_is c H) as [-> _]. apply IH. }
    rewrite SK. cbn [map app load_lines].
    destruct (plain_no_comment (map dec_signed (Z.of_nat (length (snd g)) :: snd g)) (PL _)) as (C & _ & _).
    cbn [map] in C. rewrite C.
    rewrite (C41_iarray_exact (snd g)); auto.
    2:{ unfold int_line, strip_spaces. cbn [map]. clear - PL.
        assert (P : forall t, plain t -> filter (fun c => negb (Ascii.eqb c space)) t = t).
        { intros t H. induction t as [|c t IH]; auto. cbn [filter].
          destruct (plain_not_space _ H c (or_introl eq_refl)) as (-> & _). cbn [negb]. f_equal.
          apply IH. intros x Hx. apply H. right; auto. }
        rewrite filter_app. cbn [filter]. change (Ascii.eqb newline space) with false. cbn [negb]. f_equal.
        specialize (PL (Z.of_nat (length (snd g)) :: snd g)). cbn [map] in PL.
        induction PL as [|t [|u r] H F IH]; auto.
        rewrite join_cons2, filter_app. cbn [filter]. change (Ascii.eqb comma space) with false. cbn [negb].
        rewrite P by auto. rewrite IH. reflexivity. }
    cbn [obind length repeat]. rewrite wr_in. cbn [obind].
    set (v := Some (Z.of_nat (length (snd g)) :: snd g)).
    replace (Z.of_nat (length done) + 1) with (Z.of_nat (length (done ++ [v]))) by (rewrite app_length; simpl; lia).
    replace (done ++ v :: repeat None (length gs)) with ((done ++ [v]) ++ repeat None (length gs)) by (rewrite <- app_assoc; auto).
    rewrite IH. now rewrite <- app_assoc. }
  exact (G []).
Qed.

(** ** C42 *)
(** Two numbers differ by less than the threshold. *)
Definition agree (thr : R) (a b : entry) : Prop :=
  exists x y, a = Some x /\ b = Some y /\ (Rabs (x - y) < thr)%R.
Definition finite (m : jmat) : Prop :=
  forall i j, (i < j_rows m)%nat -> (j < j_cols m)%nat -> j_at m i j <> None.

(** C42 for non-empty matrices of the same shape without NaN: 0 exactly if every
    entry agrees, -1 otherwise. *)
Theorem C42_check_partial : forall f m thr,
  (0 < j_rows m)%nat -> (0 < j_cols m)%nat -> j_rows f = j_rows m -> j_cols f = j_cols m ->
  finite f -> finite m ->
  (check_jacobian f m thr = 0 /\
     forall i j, (i < j_rows m)%nat -> (j < j_cols m)%nat -> agree thr (j_at f i j) (j_at m i j)) \/
  (check_jacobian f m thr = -1 /\
     exists i j, (i < j_rows m)%nat /\ (j < j_cols m)%nat /\ ~ agree thr (j_at f i j) (j_at m i j)).
Proof.
  intros f m thr Hr Hc Er Ec Ff Fm. unfold check_jacobian. rewrite Er, Ec, !Nat.eqb_refl.
  destruct (Nat.eqb_spec (j_rows m * j_cols m) 0); [nia|]. cbn [negb].
  match goal with |- context [existsb ?p ?l] => destruct (existsb p l) eqn:E end.
  - right. split; auto. apply existsb_exists in E as (i & Hi & E). apply existsb_exists in E as (j & Hj & E).
    apply in_seq in Hi. apply in_seq in Hj. exists i, j. split; [lia|]. split; [lia|].
    intros (x & y & E1 & E2 & L). rewrite E1, E2 in E. simpl in E.
    destruct (Rle_dec thr (Rabs (x - y))); [lra|discriminate].
  - left. split; auto. intros i j Hi Hj.
    destruct (j_at f i j) as [x|] eqn:E1; [|exfalso; apply (Ff i j); auto; lia].
    destruct (j_at m i j) as [y|] eqn:E2; [|exfalso; now apply (Fm i j)].
    exists x, y. split; auto. split; auto. apply Rnot_le_lt. intros C.
    apply not_true_iff_false in E. apply E. apply existsb_exists. exists i. split; [apply in_seq; lia|].
    apply existsb_exists. exists j. split; [apply in_seq; lia|]. rewrite E1, E2. simpl.
    destruct (Rle_dec thr (Rabs (x - y))); auto.
Qed.
Example C42_witness : exists f m, finite f /\ finite m /\ j_rows f = 2%nat /\ j_cols f = 3%nat /\
  j_rows m = 2%nat /\ j_cols m = 3%nat /\ agree 1 (j_at f 1 2) (j_at m 1 2) /\ ~ agree 1 (j_at f 0 0) (j_at m 0 0).
Proof.
  exists (JMat 2 3 (fun i j => Some 0%R)), (JMat 2 3 (fun i j => Some (1 / (1 + INR i))%R)).
  repeat split; try (intros i j _ _; discriminate).
  - exists 0%R, (1 / (1 + 1))%R. simpl. repeat split; auto. rewrite Rabs_left; lra.
  - intros (x & y & E1 & E2 & L). simpl in E1, E2. injection E1 as <-. injection E2 as <-.
    rewrite Rabs_left in L; lra.
Qed.
(** C42 is false: empty or differently shaped matrices are reported as matching ... *)
Theorem C42_shape_mismatch_refuted : forall f m thr,
  (j_rows m * j_cols m = 0)%nat \/ (j_rows f * j_cols f = 0)%nat \/
  j_rows f <> j_rows m \/ j_cols f <> j_cols m ->
  check_jacobian f m thr = 0.
Proof.
  intros f m thr H. unfold check_jacobian.
  destruct (Nat.eqb_spec (j_rows m * j_cols m) 0); auto.
  destruct (Nat.eqb_spec (j_rows f * j_cols f) 0); auto.
  destruct (Nat.eqb_spec (j_rows f) (j_rows m)); cbn [negb]; auto.
  destruct (Nat.eqb_spec (j_cols f) (j_cols m)); cbn [negb]; auto. exfalso. tauto.
Qed.
(** ... and so is a Jacobian full of NaN, whatever the reference. *)
Theorem C42_nan_refuted : forall r c f thr,
  j_rows f = r -> j_cols f = c -> check_jacobian f (JMat r c (fun _ _ => None)) thr = 0.
Proof.
  intros r c f thr Er Ec. unfold check_jacobian. cbn [j_rows j_cols j_at]. rewrite Er, Ec, !Nat.eqb_refl.
  destruct (Nat.eqb (r * c) 0); auto. cbn [negb].
  match goal with |- context [existsb ?p ?l] => destruct (existsb p l) eqn:E end; auto.
  exfalso. apply existsb_exists in E as (i & _ & E). apply existsb_exists in E as (j & _ & E).
  destruct (j_at f i j); discriminate.
Qed.

Print Assumptions C41_csv_data_not_square_refuted.
Print Assumptions C41_load_iarrays.
Print Assumptions C42_check_partial.
