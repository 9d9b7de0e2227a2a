(** * C39, C40: bytes and CSV matrices *)
From Verif Require Import Base TextModel TextProofs DataModel DataSpec.
From Coq Require Import Ascii Reals Lra.
Open Scope Z_scope.

(** ** C39 *)
Lemma rd_window data off k i : (off + k <= length data)%nat -> (i < k)%nat ->
  rd data (Z.of_nat off + Z.of_nat i) = Ret (nth i (window data off k) 0).
Proof.
  intros H1 H2. unfold rd. destruct (Z.leb_spec 0 (Z.of_nat off + Z.of_nat i)); [|lia].
  rewrite <- Nat2Z.inj_add, Nat2Z.id.
  assert (E : nth_error (window data off k) i = nth_error data (off + i)).
  { unfold window. 
    replace data with (firstn off data ++ skipn off data) at 2 by apply firstn_skipn.
    rewrite nth_error_app2; rewrite firstn_length_le by lia; [|lia].
    replace (off + i - off)%nat with i by lia.
    rewrite <- (firstn_skipn k (skipn off data)) at 2.
    rewrite nth_error_app1; auto. rewrite firstn_length_le; [lia|rewrite skipn_length; lia]. }
  destruct (nth_error (window data off k) i) eqn:N.
  - rewrite <- E. now rewrite (nth_error_nth _ _ _ N).
  - exfalso. apply nth_error_None in N. unfold window in N.
    rewrite firstn_length_le in N; [lia|]. rewrite skipn_length. lia.
Qed.
Lemma window_bytes data off k : Forall byte data -> Forall byte (window data off k).
Proof.
  intros F. apply Forall_forall. intros x H. rewrite Forall_forall in F. apply F.
  unfold window in H.
  rewrite <- (firstn_skipn off data). apply in_or_app. right.
  rewrite <- (firstn_skipn k (skipn off data)). apply in_or_app. auto.
Qed.
Lemma window_length data off k : (off + k <= length data)%nat -> length (window data off k) = k.
Proof. intros H. unfold window. apply firstn_length_le. rewrite skipn_length. lia. Qed.

Lemma lor_low a b n : 0 <= n -> 0 <= b < 2 ^ n -> Z.lor (a * 2 ^ n) b = a * 2 ^ n + b.
Proof.
  intros Hn Hb.
  assert (L : Z.land (a * 2 ^ n) b = 0).
  { apply Z.bits_inj'. intros i Hi. rewrite Z.land_spec, Z.bits_0.
    destruct (Z.lt_ge_cases i n).
    - rewrite Z.mul_pow2_bits_low by lia. auto.
    - rewrite <- (Z.mod_small b (2 ^ n)) by lia. rewrite Z.mod_pow2_bits_high by lia.
      apply andb_false_r. }
  rewrite Z.add_nocarry_lxor by auto. symmetry. now apply Z.lxor_lor.
Qed.
Lemma shl_small b k : byte b -> 0 <= k <= 16 -> shl b k = b * 2 ^ k.
Proof.
  intros Hb Hk. unfold shl. rewrite Z.shiftl_mul_pow2 by lia. unfold wrap_s. unfold byte in Hb.
  assert (2 ^ k <= 2 ^ 16) by (apply Z.pow_le_mono_r; lia).
  assert (0 < 2 ^ k) by (apply Z.pow_pos_nonneg; lia).
  rewrite Z.mod_small; [lia|]. change (2 ^ 16) with 65536 in *. change (2 ^ (32 - 1)) with 2147483648.
  change (2 ^ 32) with 4294967296. nia.
Qed.
Lemma shl_24 b : byte b -> exists q, (q = 0 \/ q = -1) /\ shl b 24 = b * 2 ^ 24 + q * 2 ^ 32.
Proof.
  intros Hb. unfold shl. rewrite Z.shiftl_mul_pow2 by lia. unfold wrap_s. unfold byte in Hb.
  change (2 ^ (32 - 1)) with 2147483648. change (2 ^ 32) with 4294967296. change (2 ^ 24) with 16777216.
  destruct (Z.lt_ge_cases b 128).
  - exists 0. split; auto. rewrite Z.mod_small; lia.
  - exists (-1). split; auto.
    replace (b * 16777216 + 2147483648) with ((b * 16777216 - 2147483648) + 1 * 4294967296) by ring.
    rewrite Z.mod_add, Z.mod_small; lia.
Qed.
Lemma wrap_u_eq n x u q : 0 <= n -> x = u + q * 2 ^ n -> 0 <= u < 2 ^ n -> wrap_u n x = u.
Proof.
  intros Hn -> Hu. unfold wrap_u. rewrite Z.mod_add by lia. now apply Z.mod_small.
Qed.
Lemma wrap_s_ok n x : 1 <= n -> twos_complement n x (wrap_s n x).
Proof.
  intros Hn. unfold twos_complement, wrap_s.
  assert (P : 2 ^ n = 2 * 2 ^ (n - 1)) by (rewrite <- Z.pow_succ_r by lia; f_equal; lia).
  assert (0 < 2 ^ (n - 1)) by (apply Z.pow_pos_nonneg; lia).
  assert (B := Z.mod_pos_bound (x + 2 ^ (n - 1)) (2 ^ n) ltac:(lia)).
  split; [lia|]. exists ((x + 2 ^ (n - 1)) / 2 ^ n).
  assert (D := Z.div_mod (x + 2 ^ (n - 1)) (2 ^ n) ltac:(lia)). lia.
Qed.
Lemma twos_shift n x y v q : x = y + q * 2 ^ n -> twos_complement n x v -> twos_complement n y v.
Proof. intros -> [H [k Hk]]. split; auto. exists (k - q). lia. Qed.

Lemma or2 b0 b1 : byte b0 -> byte b1 -> Z.lor (shl b1 8) b0 = le_value [b0; b1].
Proof.
  intros H0 H1. rewrite shl_small by (auto; lia). rewrite lor_low by (unfold byte in *; lia).
  cbn [le_value]. change (2 ^ 8) with 256. ring.
Qed.
Lemma or4 b0 b1 b2 b3 : byte b0 -> byte b1 -> byte b2 -> byte b3 ->
  exists q, Z.lor (Z.lor (Z.lor (shl b3 24) (shl b2 16)) (shl b1 8)) b0 = le_value [b0; b1; b2; b3] + q * 2 ^ 32.
Proof.
  intros H0 H1 H2 H3. destruct (shl_24 b3 H3) as (q & _ & E). exists q. rewrite E.
  rewrite (shl_small b2 16), (shl_small b1 8) by (auto; lia). unfold byte in *.
  replace (b3 * 2 ^ 24 + q * 2 ^ 32) with ((b3 + q * 256) * 2 ^ 24) by (change (2 ^ 32) with (256 * 2 ^ 24); ring).
  rewrite (lor_low _ (b2 * 2 ^ 16) 24) by (change (2 ^ 24) with (256 * 2 ^ 16); lia).
  replace ((b3 + q * 256) * 2 ^ 24 + b2 * 2 ^ 16) with (((b3 + q * 256) * 256 + b2) * 2 ^ 16)
    by (change (2 ^ 24) with (256 * 2 ^ 16); ring).
  rewrite (lor_low _ (b1 * 2 ^ 8) 16) by (change (2 ^ 16) with (256 * 2 ^ 8); lia).
  replace ((((b3 + q * 256) * 256 + b2) * 2 ^ 16 + b1 * 2 ^ 8)) with ((((b3 + q * 256) * 256 + b2) * 256 + b1) * 2 ^ 8)
    by (change (2 ^ 16) with (256 * 2 ^ 8); ring).
  rewrite lor_low by (change (2 ^ 8) with 256; lia).
  cbn [le_value]. change (2 ^ 32) with 4294967296. change (2 ^ 8) with 256. ring.
Qed.
Lemma le_value_bound bs : Forall byte bs -> 0 <= le_value bs < 2 ^ (8 * Z.of_nat (length bs)).
Proof.
  induction 1 as [|b bs Hb F IH]; [simpl; lia|].
  cbn [le_value length]. rewrite Nat2Z.inj_succ.
  replace (8 * Z.succ (Z.of_nat (length bs))) with (8 + 8 * Z.of_nat (length bs)) by lia.
  rewrite Z.pow_add_r by lia. change (2 ^ 8) with 256. unfold byte in Hb. lia.
Qed.

(** C39: unsigned reads return the little-endian value of the bytes at the offset
    (and depend on nothing else), for every buffer and offset within bounds. *)
Theorem C39_unsigned : forall data off, Forall byte data ->
  ((off + 1 <= length data)%nat -> uint8 data (Z.of_nat off) = Ret (le_value (window data off 1))) /\
  ((off + 2 <= length data)%nat -> uint16 data (Z.of_nat off) = Ret (le_value (window data off 2))) /\
  ((off + 4 <= length data)%nat -> uint32 data (Z.of_nat off) = Ret (le_value (window data off 4))).
Proof.
  intros data off F. split; [|split]; intros H.
  - assert (R0 := rd_window data off 1 0 H ltac:(lia)). assert (L := window_length data off 1 H).
    assert (B := window_bytes data off 1 F).
    replace (Z.of_nat off + Z.of_nat 0) with (Z.of_nat off) in R0 by lia.
    destruct (window data off 1) as [|b0 [|? ?]]; try discriminate L.
    unfold uint8. rewrite R0. simpl. inversion B; subst. unfold wrap_u, byte in *.
    rewrite Z.mod_small by (change (2 ^ 8) with 256; lia). f_equal. lia.
  - assert (R0 := rd_window data off 2 0 H ltac:(lia)). assert (R1 := rd_window data off 2 1 H ltac:(lia)).
    assert (L := window_length data off 2 H). assert (B := window_bytes data off 2 F).
    replace (Z.of_nat off + Z.of_nat 0) with (Z.of_nat off) in R0 by lia.
    assert (V := le_value_bound _ B). rewrite L in V.
    destruct (window data off 2) as [|b0 [|b1 [|? ?]]]; try discriminate L.
    unfold uint16. change 1 with (Z.of_nat 1). rewrite R1, R0. cbn [obind nth].
    inversion B as [|? ? B0 B']; subst. inversion B'; subst. rewrite or2 by auto. f_equal.
    apply (wrap_u_eq _ _ _ 0); [lia| |exact V]. lia.
  - assert (R0 := rd_window data off 4 0 H ltac:(lia)). assert (R1 := rd_window data off 4 1 H ltac:(lia)).
    assert (R2 := rd_window data off 4 2 H ltac:(lia)). assert (R3 := rd_window data off 4 3 H ltac:(lia)).
    assert (L := window_length data off 4 H). assert (B := window_bytes data off 4 F).
    replace (Z.of_nat off + Z.of_nat 0) with (Z.of_nat off) in R0 by lia.
    assert (V := le_value_bound _ B). rewrite L in V.
    destruct (window data off 4) as [|b0 [|b1 [|b2 [|b3 [|? ?]]]]]; try discriminate L.
    unfold uint32. change 1 with (Z.of_nat 1). change 2 with (Z.of_nat 2). change 3 with (Z.of_nat 3).
    rewrite R3, R2, R1, R0. cbn [obind nth].
    inversion B as [|? ? B0 B']; subst. inversion B' as [|? ? B1 B'']; subst.
    inversion B'' as [|? ? B2 B''']; subst. inversion B'''; subst.
    destruct (or4 b0 b1 b2 b3) as [q ->]; auto. f_equal. apply (wrap_u_eq _ _ _ q); [lia|auto|exact V].
Qed.
(** C39: signed reads return the two's complement value. *)
Theorem C39_signed : forall data off, Forall byte data ->
  ((off + 1 <= length data)%nat -> exists v, int8 data (Z.of_nat off) = Ret v /\
     twos_complement 8 (le_value (window data off 1)) v) /\
  ((off + 2 <= length data)%nat -> exists v, int16 data (Z.of_nat off) = Ret v /\
     twos_complement 16 (le_value (window data off 2)) v) /\
  ((off + 4 <= length data)%nat -> exists v, sint32 data (Z.of_nat off) = Ret v /\
     twos_complement 32 (le_value (window data off 4)) v).
Proof.
  intros data off F. split; [|split]; intros H.
  - assert (R0 := rd_window data off 1 0 H ltac:(lia)). assert (L := window_length data off 1 H).
    replace (Z.of_nat off + Z.of_nat 0) with (Z.of_nat off) in R0 by lia.
    destruct (window data off 1) as [|b0 [|? ?]]; try discriminate L.
    unfold int8. rewrite R0. cbn [obind nth]. eexists. split; [reflexivity|].
    replace (le_value [b0]) with b0 by (cbn [le_value]; lia). apply wrap_s_ok; lia.
  - assert (R0 := rd_window data off 2 0 H ltac:(lia)). assert (R1 := rd_window data off 2 1 H ltac:(lia)).
    assert (L := window_length data off 2 H). assert (B := window_bytes data off 2 F).
    replace (Z.of_nat off + Z.of_nat 0) with (Z.of_nat off) in R0 by lia.
    destruct (window data off 2) as [|b0 [|b1 [|? ?]]]; try discriminate L.
    unfold int16. change 1 with (Z.of_nat 1). rewrite R1, R0. cbn [obind nth].
    inversion B as [|? ? B0 B']; subst. inversion B'; subst. rewrite or2 by auto.
    eexists. split; [reflexivity|]. apply wrap_s_ok; lia.
  - assert (R0 := rd_window data off 4 0 H ltac:(lia)). assert (R1 := rd_window data off 4 1 H ltac:(lia)).
    assert (R2 := rd_window data off 4 2 H ltac:(lia)). assert (R3 := rd_window data off 4 3 H ltac:(lia)).
    assert (L := window_length data off 4 H). assert (B := window_bytes data off 4 F).
    replace (Z.of_nat off + Z.of_nat 0) with (Z.of_nat off) in R0 by lia.
    destruct (window data off 4) as [|b0 [|b1 [|b2 [|b3 [|? ?]]]]]; try discriminate L.
    unfold sint32. change 1 with (Z.of_nat 1). change 2 with (Z.of_nat 2). change 3 with (Z.of_nat 3).
    rewrite R3, R2, R1, R0. cbn [obind nth].
    inversion B as [|? ? B0 B']; subst. inversion B' as [|? ? B1 B'']; subst.
    inversion B'' as [|? ? B2 B''']; subst. inversion B'''; subst.
    eexists. split; [reflexivity|].
    destruct (or4 b0 b1 b2 b3) as [q E]; auto.
    eapply twos_shift; [exact E|]. apply wrap_s_ok; lia.
Qed.
Example C39_witness : Forall byte [1; 2; 255; 128; 7] /\
  uint32 [1; 2; 255; 128; 7] 0 = Ret 2164195841 /\ sint32 [1; 2; 255; 128; 7] 0 = Ret (2164195841 - 2 ^ 32) /\
  int16 [1; 2; 255; 128; 7] 2 = Ret (33023 - 65536) /\ sint32 [1; 2; 255; 128; 7] 2 = Undef.
Proof. split; [repeat constructor; unfold byte; lia|]. repeat split; vm_compute; reflexivity. Qed.

(** ** C40 *)
Lemma join_cons2 t u r : join (t :: u :: r) = t ++ comma :: join (u :: r).
Proof. reflexivity. Qed.
Lemma csv_line_join row : csv_line row = join (map fmt_f row).
Proof.
  induction row as [|x row IH]; auto. destruct row as [|y row]; [simpl; now rewrite app_nil_r|].
  change (map fmt_f (x :: y :: row)) with (fmt_f x :: fmt_f y :: map fmt_f row).
  rewrite join_cons2. change (fmt_f y :: map fmt_f row) with (map fmt_f (y :: row)). rewrite <- IH.
  reflexivity.
Qed.
Lemma fmt_f_field x : field (fmt_f x).
Proof.
  assert (P := fmt_plain (if Rlt_dec x 0 then true else false) (micro x) (micro_pos x)).
  split; intros C; apply P in C; tauto.
Qed.
Lemma join_no_newline toks : Forall field toks -> ~ In newline (join toks).
Proof.
  induction toks as [|t [|u r] IH]; intros F; inversion F; subst.
  - intros [].
  - apply H1.
  - rewrite join_cons2. intros C. apply in_app_or in C as [C|[C|C]].
    + now apply H1.
    + discriminate.
    + now apply IH.
Qed.
Lemma count_join toks : Forall field toks -> toks <> [] ->
  count_char comma (join toks) = Z.of_nat (length toks) - 1.
Proof.
  assert (Z0 : forall t, ~ In comma t -> count_char comma t = 0).
  { induction t as [|c t IH]; intros H; auto. unfold count_char in *. cbn [countb].
    rewrite IH by (intros C; apply H; right; auto).
    destruct (Ascii.eqb_spec c comma); [exfalso; apply H; left; auto|lia]. }
  induction toks as [|t [|u r] IH]; intros F N; [congruence| |]; inversion F; subst.
  - apply Z0. apply H1.
  - rewrite join_cons2. unfold count_char in *. rewrite countb_app. cbn [countb].
    rewrite IH by (auto; discriminate). rewrite Z0 by apply H1. rewrite Ascii.eqb_refl.
    simpl length. lia.
Qed.
Lemma read_row_join toks : forall e, Forall field toks ->
  read_row (length toks) (Some (join toks)) e = map atof toks.
Proof.
  induction toks as [|t [|u r] IH]; intros e F; auto; inversion F; subst.
  - simpl. rewrite break_at_miss by apply H1. reflexivity.
  - rewrite join_cons2. cbn [length read_row getline_elem].
    rewrite break_at_hit by apply H1. cbn [fst snd map]. f_equal. apply (IH t). auto.
Qed.
Lemma read_rows_spec c : 1 <= c -> forall lines done rest r,
  length rest = length lines ->
  read_rows c (Z.of_nat (length done)) lines (Matx r c (done ++ rest)) =
    Ret (Matx r c (done ++ map (fun l => read_row (Z.to_nat c) (Some l) []) lines)).
Proof.
  intros Hc. induction lines as [|l lines IH]; intros done rest r HL.
  - destruct rest; [|discriminate]. reflexivity.
  - destruct rest as [|x rest]; [discriminate|]. cbn [read_rows].
    destruct (Z.ltb_spec c 1); [lia|]. unfold set_row, wr. cbn [m_data m_rows m_cols].
    assert (T : (0 <=? Z.of_nat (length done)) && (Z.of_nat (length done) <? Z.of_nat (length (done ++ x :: rest))) = true).
    { apply andb_true_intro. split; [apply Z.leb_le; lia|apply Z.ltb_lt; rewrite app_length; simpl; lia]. }
    rewrite T. cbn [omap obind]. rewrite Nat2Z.id.
    assert (U : forall v, upd (done ++ x :: rest) (length done) v = (done ++ [v]) ++ rest).
    { intros v. rewrite <- app_assoc. clear. induction done; simpl; auto. f_equal. auto. }
    rewrite U.
    replace (Z.of_nat (length done) + 1) with
      (Z.of_nat (length (done ++ [read_row (Z.to_nat c) (Some l) []]))) by (rewrite app_length; simpl; lia).
    rewrite IH by (simpl in HL; lia). cbn [map]. now rewrite <- app_assoc.
Qed.

(** C40: a file of rows of [c] >= 2 comma-separated fields (each line terminated) is
    read field by field; with [header] the first line is skipped. *)
Theorem C40_fields : forall c rows header,
  (2 <= c)%nat -> rows <> [] ->
  Forall (fun toks => length toks = c /\ Forall field toks) rows ->
  csv2mat (Some (concat (map (fun toks => join toks ++ [newline]) rows))) header =
    let body := if header : bool then tl rows else rows in
    Ret (0, Some (Matx (Z.of_nat (length body)) (Z.of_nat c) (map (map atof) body))).
Proof.
  intros c rows header Hc HN F.
  assert (GL : getlines (concat (map (fun toks => join toks ++ [newline]) rows)) = map join rows).
  { rewrite <- (getlines_lines (map join rows)).
    - now rewrite map_map.
    - intros l Hl. apply in_map_iff in Hl as (t & <- & Ht). apply join_no_newline.
      rewrite Forall_forall in F. now apply F. }
  unfold csv2mat, csv_rows, csv_cols. rewrite GL.
  destruct rows as [|r0 rows]; [congruence|]. inversion F as [|? ? [L0 F0] FR]; subst x l.
  cbn [map hd tl].
  rewrite count_join by (auto; intros ->; simpl in L0; lia). rewrite L0.
  destruct (Z.ltb_spec 0 (Z.of_nat c - 1)); [|lia].
  replace (1 + (Z.of_nat c - 1)) with (Z.of_nat c) by lia.
  assert (G : forall body, Forall (fun toks => length toks = c /\ Forall field toks) body ->
    forall k, k = Z.of_nat (length body) ->
    obind (zeros k (Z.of_nat c)) (fun data => obind (read_rows (Z.of_nat c) 0 (map join body) data)
      (fun d => Ret (0, Some d))) = Ret (0, Some (Matx (Z.of_nat (length body)) (Z.of_nat c) (map (map atof) body)))).
  { intros body FB k ->. unfold zeros.
    destruct (Z.ltb_spec (Z.of_nat (length body)) 0); [lia|]. destruct (Z.ltb_spec (Z.of_nat c) 0); [lia|].
    cbn [orb obind].
    assert (RS := read_rows_spec (Z.of_nat c) ltac:(lia) (map join body) []
      (repeat (repeat 0%R (Z.to_nat (Z.of_nat c))) (Z.to_nat (Z.of_nat (length body)))) (Z.of_nat (length body))).
    cbn [length app Z.of_nat] in RS. rewrite RS.
    2:{ rewrite repeat_length, map_length. lia. }
    cbn [obind app]. rewrite map_map. rewrite (map_ext_in _ (map atof) body); [reflexivity|]. intros toks Ht.
    rewrite Forall_forall in FB. destruct (FB _ Ht) as [LT FT]. rewrite Nat2Z.id, <- LT.
    now apply read_row_join. }
  destruct header.
  - apply G; auto. cbn [length]. rewrite map_length. lia.
  - change (join r0 :: map join rows) with (map join (r0 :: rows)). apply G; auto.
    rewrite map_length. auto.
Qed.
Example C40_fields_witness : Forall (fun toks => length toks = 2%nat /\ Forall field toks)
  [[dec_signed 1; dec_signed (-20)]; [dec_signed 3; fmt_f 4]].
Proof.
  assert (D : forall n, field (dec_signed n)).
  { intros n. assert (P := dec_signed_plain n). split; intros C; apply P in C; tauto. }
  repeat constructor; try apply D; apply fmt_f_field.
Qed.

(** C40, the part that holds: mat2csv then csv2mat gives back the shape and every
    entry within half a unit of the sixth decimal, for at least one row and two columns. *)
Theorem C40_round_trip_partial : forall r c A,
  (1 <= r)%nat -> (2 <= c)%nat -> shape r c A ->
  exists B, csv2mat (Some (mat2csv A)) false = Ret (0, Some (Matx (Z.of_nat r) (Z.of_nat c) B)) /\
            shape r c B /\ close_mat A B /\
            (Forall (Forall six_decimals) A -> B = A).
Proof.
  intros r c A Hr Hc [HA FA].
  assert (M : mat2csv A = concat (map (fun toks => join toks ++ [newline]) (map (map fmt_f) A))).
  { unfold mat2csv. rewrite map_map. f_equal. apply map_ext. intros row. now rewrite csv_line_join. }
  exists (map (map atof) (map (map fmt_f) A)). rewrite M. rewrite (C40_fields c).
  - cbv zeta. rewrite !map_length, HA. split; auto. split; [|split].
    + split; [now rewrite !map_length|]. apply Forall_forall. intros row H.
      apply in_map_iff in H as (x & <- & H). apply in_map_iff in H as (y & <- & H).
      rewrite !map_length. rewrite Forall_forall in FA. auto.
    + rewrite map_map. clear. induction A as [|row A IH]; constructor; auto.
      rewrite map_map. clear. induction row as [|x row IH]; constructor; auto. apply atof_fmt_f.
    + intros S. rewrite map_map. rewrite <- (map_id A) at 2. apply map_ext_in. intros row HR.
      rewrite map_map. rewrite <- (map_id row) at 2. apply map_ext_in. intros x Hx.
      rewrite Forall_forall in S. specialize (S row HR). rewrite Forall_forall in S.
      destruct (S x Hx) as [k ->]. apply atof_fmt_exact.
  - lia.
  - destruct A; [simpl in HA; lia|discriminate].
  - apply Forall_forall. intros toks H. apply in_map_iff in H as (row & <- & H).
    rewrite map_length. rewrite Forall_forall in FA. split; [auto|].
    apply Forall_forall. intros t Ht. apply in_map_iff in Ht as (x & <- & _). apply fmt_f_field.
Qed.
Example C40_witness : shape 2 3 [[1; 2; 3]; [4; 5.5; -6.25]]%R.
Proof. split; [reflexivity|]. repeat constructor. Qed.

(** C40 is false for a single column: the matrix read back has no columns at all. *)
Theorem C40_single_column_refuted : forall r A, shape r 1 A ->
  csv2mat (Some (mat2csv A)) false = Ret (0, Some (Matx (Z.of_nat r) 0 (repeat [] r))).
Proof.
  intros r A [HA FA].
  assert (M : mat2csv A = concat (map (fun toks => join toks ++ [newline]) (map (map fmt_f) A))).
  { unfold mat2csv. rewrite map_map. f_equal. apply map_ext. intros row. now rewrite csv_line_join. }
  assert (FF : Forall (fun toks => length toks = 1%nat /\ Forall field toks) (map (map fmt_f) A)).
  { apply Forall_forall. intros toks H. apply in_map_iff in H as (row & <- & H).
    rewrite map_length. rewrite Forall_forall in FA. split; [auto|].
    apply Forall_forall. intros t Ht. apply in_map_iff in Ht as (x & <- & _). apply fmt_f_field. }
  assert (GL : getlines (mat2csv A) = map join (map (map fmt_f) A)).
  { rewrite M. rewrite <- (map_map join (fun l => l ++ [newline])). apply getlines_lines.
      intros l Hl. apply in_map_iff in Hl as (t & <- & Ht). apply join_no_newline.
      rewrite Forall_forall in FF. now apply FF. }
  unfold csv2mat, csv_rows, csv_cols. rewrite GL, !map_length, HA.
  assert (C0 : count_char comma (hd [] (map join (map (map fmt_f) A))) = 0).
  { destruct A as [|row A]; [reflexivity|]. cbn [map hd]. inversion FF as [|? ? [L F0] ?]; subst.
    rewrite count_join by (auto; intros E; rewrite E in L; discriminate). rewrite L. reflexivity. }
  rewrite C0. cbn [Z.ltb Z.compare]. unfold zeros. destruct (Z.ltb_spec (Z.of_nat r) 0); [lia|].
  cbn [orb Z.ltb Z.compare obind Z.to_nat repeat]. rewrite Nat2Z.id.
  assert (G : forall ls k d, read_rows 0 k ls d = Ret d).
  { induction ls as [|l ls IH]; intros k d; simpl; auto. }
  rewrite G. reflexivity.
Qed.
(** A row with fewer fields than the first repeats its last value. *)
Theorem C40_short_row_refuted :
  csv2mat (Some (join [dec_signed 1; dec_signed 2; dec_signed 3] ++ [newline] ++
                 join [dec_signed 4; dec_signed 5] ++ [newline])) false =
    Ret (0, Some (Matx 2 3 [[1; 2; 3]; [4; 5; 5]]%R)).
Proof.
  assert (E : forall n, atof (dec_signed n) = IZR n) by apply atof_dec_signed.
  assert (E1 := E 1). assert (E2 := E 2). assert (E3 := E 3). assert (E4 := E 4). assert (E5 := E 5).
  unfold csv2mat.
  match goal with |- context [getlines ?s] =>
    let v := eval vm_compute in (getlines s) in change (getlines s) with v end.
  match goal with |- context [csv_rows ?s] =>
    let v := eval vm_compute in (csv_rows s) in change (csv_rows s) with v end.
  match goal with |- context [csv_cols ?s] =>
    let v := eval vm_compute in (csv_cols s) in change (csv_cols s) with v end.
  cbv - [atof IZR Rplus] . 
  cbv - [atof IZR Rplus] in E1, E2, E3, E4, E5. rewrite E1, E2, E3, E4, E5. reflexivity.
Qed.
Print Assumptions C39_signed.
Print Assumptions C40_round_trip_partial.
