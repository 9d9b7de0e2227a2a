(** * C41, C42: files of arrays, csv_data and check_jacobian *)
From Verif Require Import Base TextModel TextProofs DataModel DataSpec Prop_Data.
From Coq Require Import Ascii Reals Lra.
From Flocq Require Import Core.Raux.
Open Scope Z_scope.

Lemma wr_in {A} (a : list A) x b v : wr (a ++ x :: b) (Z.of_nat (length a)) v = Ret (a ++ v :: b).
Proof.
  unfold wr. assert (T : (0 <=? Z.of_nat (length a)) && (Z.of_nat (length a) <? Z.of_nat (length (a ++ x :: b))) = true).
  { apply andb_true_intro. split; [apply Z.leb_le; lia|apply Z.ltb_lt; rewrite app_length; simpl; lia]. }
  rewrite T, Nat2Z.id. f_equal. clear. induction a; simpl; auto. f_equal; auto.
Qed.
Lemma wr_0 {A} (x : A) b v : wr (x :: b) 0 v = Ret (v :: b).
Proof. exact (wr_in [] x b v). Qed.
Lemma wr_out {A} (a : list A) i v : Z.of_nat (length a) <= i -> wr a i v = Undef.
Proof.
  intros H. unfold wr. destruct (Z.ltb_spec i (Z.of_nat (length a))); [lia|]. now rewrite andb_false_r.
Qed.
Lemma ztrunc_Z n : Ztrunc (IZR n) = n. Proof. apply Ztrunc_IZR. Qed.

Lemma plain_not_space t : plain t -> forall c, In c t ->
  Ascii.eqb c space = false /\ Ascii.eqb c comma = false /\ Ascii.eqb c newline = false.
Proof.
  intros P c H. destruct (P c H) as (A & B & C & _).
  repeat split; apply Ascii.eqb_neq; auto.
Qed.

(** ** Integer lines *)
Lemma iarray_strip line : forall e i d, iarray_loop line e i d = iarray_loop (strip_spaces line) e i d.
Proof.
  induction line as [|c line IH]; intros e i d; auto. cbn [iarray_loop strip_spaces filter].
  destruct (Ascii.eqb c space) eqn:E; cbn [negb]; [apply IH|].
  cbn [iarray_loop]. rewrite E. destruct (Ascii.eqb c comma || Ascii.eqb c newline); [|apply IH].
  destruct (match d with Some d0 => Ret d0 | None => _ end); cbn [obind]; auto.
  destruct (to_int (atof e)); cbn [obind]; auto. destruct (wr a i a0); cbn [obind]; auto.
Qed.
Lemma iarray_tok t : forall s e i d, plain t -> iarray_loop (t ++ s) e i d = iarray_loop s (e ++ t) i d.
Proof.
  induction t as [|c t IH]; intros s e i d P; simpl app; [now rewrite app_nil_r|].
  destruct (plain_not_space _ P c (or_introl eq_refl)) as (A & B & C).
  cbn [iarray_loop]. rewrite A, B, C. cbn [orb]. rewrite IH by (intros x Hx; apply P; right; auto).
  now rewrite <- app_assoc.
Qed.
Definition sep (c : ascii) : Prop := c = comma \/ c = newline.
Lemma sep_eqb c : sep c -> Ascii.eqb c space = false /\ (Ascii.eqb c comma || Ascii.eqb c newline) = true.
Proof. intros [ -> | -> ]; split; reflexivity. Qed.
Lemma to_int_ok v : int32 v -> to_int (atof (dec_signed v)) = Ret v.
Proof.
  intros H. unfold to_int. rewrite atof_dec_signed, ztrunc_Z. unfold int32 in H.
  destruct (Z.leb_spec (- 2 ^ 31) v); [|lia]. destruct (Z.ltb_spec v (2 ^ 31)); [|lia]. reflexivity.
Qed.
Lemma iarray_step v c s i d : int32 v -> sep c ->
  iarray_loop (dec_signed v ++ c :: s) [] i (Some d) =
    obind (wr d i v) (fun d' => iarray_loop s [] (i + 1) (Some d')).
Proof.
  intros Hv Hc. rewrite iarray_tok by apply dec_signed_plain. simpl app. cbn [iarray_loop].
  destruct (sep_eqb c Hc) as [-> ->]. cbn [obind]. rewrite to_int_ok by auto. reflexivity.
Qed.
Lemma iarray_fill vs : forall a b, vs <> [] -> Forall int32 vs -> (length vs <= length b)%nat ->
  iarray_loop (join (map dec_signed vs) ++ [newline]) [] (Z.of_nat (length a)) (Some (a ++ b)) =
    Ret (Some (a ++ vs ++ skipn (length vs) b)).
Proof.
  induction vs as [|v [|w vs] IH]; intros a b N F L; [congruence| |]; inversion F; subst; destruct b as [|x b]; try (simpl in L; lia).
  - cbn [map join]. rewrite iarray_step by (auto; right; auto). rewrite wr_in. cbn [obind iarray_loop]. reflexivity.
  - cbn [map]. rewrite join_cons2. rewrite <- app_assoc. simpl app. rewrite iarray_step by (auto; left; auto).
    rewrite wr_in. cbn [obind].
    replace (Z.of_nat (length a) + 1) with (Z.of_nat (length (a ++ [v]))) by (rewrite app_length; simpl; lia).
    replace (a ++ v :: b) with ((a ++ [v]) ++ b) by (rewrite <- app_assoc; auto).
    change (dec_signed w :: map dec_signed vs) with (map dec_signed (w :: vs)).
    rewrite IH; auto; [|discriminate|simpl in *; lia]. rewrite <- app_assoc. reflexivity.
Qed.
Lemma iarray_overflow vs : forall a b, Forall int32 vs -> (length b < length vs)%nat ->
  iarray_loop (join (map dec_signed vs) ++ [newline]) [] (Z.of_nat (length a)) (Some (a ++ b)) = Undef.
Proof.
  induction vs as [|v [|w vs] IH]; intros a b F L; [simpl in L; lia| |]; inversion F; subst.
  - destruct b; [|simpl in L; lia]. cbn [map join]. rewrite iarray_step by (auto; right; auto).
    rewrite wr_out by (rewrite app_nil_r; lia). reflexivity.
  - cbn [map]. rewrite join_cons2. rewrite <- app_assoc. simpl app. rewrite iarray_step by (auto; left; auto).
    destruct b as [|x b].
    + rewrite wr_out by (rewrite app_nil_r; lia). reflexivity.
    + rewrite wr_in. cbn [obind].
      replace (Z.of_nat (length a) + 1) with (Z.of_nat (length (a ++ [v]))) by (rewrite app_length; simpl; lia).
      replace (a ++ v :: b) with ((a ++ [v]) ++ b) by (rewrite <- app_assoc; auto).
      change (dec_signed w :: map dec_signed vs) with (map dec_signed (w :: vs)).
      apply IH; auto. simpl in *; lia.
Qed.
Lemma iarray_start n c s : 0 <= n < 2 ^ 31 -> sep c ->
  iarray_loop (dec_signed n ++ c :: s) [] 0 None =
    iarray_loop s [] 1 (Some (n :: repeat 0 (Z.to_nat n))).
Proof.
  intros Hn Hc. rewrite iarray_tok by apply dec_signed_plain. simpl app. cbn [iarray_loop].
  destruct (sep_eqb c Hc) as [-> ->]. rewrite to_int_ok by (unfold int32; lia).
  unfold to_size. rewrite atof_dec_signed, ztrunc_Z.
  destruct (Z.leb_spec 0 n); [|lia]. destruct (Z.ltb_spec n (2 ^ 64)); [|lia]. cbn [andb omap obind].
  replace (Z.to_nat (n + 1)) with (S (Z.to_nat n)) by lia. cbn [repeat].
  rewrite wr_0. reflexivity.
Qed.

(** C41, integer arrays: a line announcing [n] values and holding at most [n] gives
    the count and the values, then zeros; nothing is written outside the allocation. *)
Theorem C41_iarray_values : forall n vs line,
  Z.of_nat (length vs) <= n < 2 ^ 31 -> Forall int32 vs -> int_line n vs line ->
  parse_iarray_line line = Ret (Some (n :: vs ++ repeat 0 (Z.to_nat n - length vs))).
Proof.
  intros n vs line Hn F HL. unfold parse_iarray_line. rewrite iarray_strip, HL. cbn [map].
  destruct vs as [|v vs].
  - cbn [map join]. rewrite iarray_start by (try lia; right; auto). cbn [iarray_loop app length].
    now rewrite Nat.sub_0_r.
  - cbn [map]. rewrite join_cons2, <- app_assoc. simpl app. rewrite iarray_start by (try lia; left; auto).
    change (dec_signed v :: map dec_signed vs) with (map dec_signed (v :: vs)).
    etransitivity; [apply (iarray_fill (v :: vs) [n] (repeat 0 (Z.to_nat n))); auto;
      [discriminate|rewrite repeat_length; simpl in Hn; simpl; lia]|].
    cbn [app]. simpl length. replace (Z.to_nat n) with (S (length vs) + (Z.to_nat n - S (length vs)))%nat at 1 by (simpl in Hn; lia).
    rewrite repeat_app. rewrite <- (repeat_length 0 (S (length vs))) at 1.
    change (S (length (repeat 0 (length vs)))) with (length (repeat 0 (S (length vs)))).
    rewrite skipn_app, skipn_all, Nat.sub_diag. reflexivity.
Qed.
(** In particular the announced number of values is returned exactly. *)
Corollary C41_iarray_exact : forall vs line,
  Z.of_nat (length vs) < 2 ^ 31 -> Forall int32 vs -> int_line (Z.of_nat (length vs)) vs line ->
  parse_iarray_line line = Ret (Some (Z.of_nat (length vs) :: vs)).
Proof.
  intros vs line H F HL. rewrite (C41_iarray_values (Z.of_nat (length vs)) vs); auto; [|lia].
  rewrite Nat2Z.id, Nat.sub_diag. cbn [repeat]. now rewrite app_nil_r.
Qed.
Example C41_witness : exists line, int_line 3 [10; -20; 7] line /\ In space line /\ Forall int32 [10; -20; 7].
Proof.
  exists (space :: join (map dec_signed [3; 10; -20; 7]) ++ [space; newline]).
  split; [vm_compute; reflexivity|]. split; [left; auto|]. repeat constructor; unfold int32; lia.
Qed.
(** C41 is false when a line holds more values than it announces: the values are
    written behind the allocation. *)
Theorem C41_iarray_overflow_refuted : forall n vs line,
  0 <= n < Z.of_nat (length vs) -> n < 2 ^ 31 -> Forall int32 vs -> int_line n vs line ->
  parse_iarray_line line = Undef.
Proof.
  intros n vs line Hn Hn' F HL. unfold parse_iarray_line. rewrite iarray_strip, HL. cbn [map].
  destruct vs as [|v vs]; [simpl in Hn; lia|].
  cbn [map]. rewrite join_cons2, <- app_assoc. simpl app. rewrite iarray_start by (try lia; left; auto).
  change (dec_signed v :: map dec_signed vs) with (map dec_signed (v :: vs)).
  apply (iarray_overflow (v :: vs) [n] (repeat 0 (Z.to_nat n))); auto. rewrite repeat_length. lia.
Qed.
(** A last line without newline loses its last value. *)
Theorem C41_unterminated_refuted : forall vs v,
  Z.of_nat (length vs) + 1 < 2 ^ 31 -> Forall int32 vs ->
  parse_iarray_line (join (map dec_signed (Z.of_nat (length vs) + 1 :: vs ++ [v]))) =
    Ret (Some (Z.of_nat (length vs) + 1 :: vs ++ [0])).
Proof.
  intros vs v H F. unfold parse_iarray_line. cbn [map].
  assert (J : forall us t, join (map dec_signed (us ++ [v])) = t ->
     forall a b, Forall int32 us -> (length us <= length b)%nat ->
     iarray_loop t [] (Z.of_nat (length a)) (Some (a ++ b)) = Ret (Some (a ++ us ++ skipn (length us) b))).
  { clear. induction us as [|u us IH]; intros t <- a b F L.
    - cbn [app map join]. rewrite <- (app_nil_r (dec_signed v)). rewrite iarray_tok by apply dec_signed_plain.
      reflexivity.
    - inversion F; subst. destruct b as [|x b]; [simpl in L; lia|].
      replace (join (map dec_signed ((u :: us) ++ [v]))) with (dec_signed u ++ comma :: join (map dec_signed (us ++ [v])))
        by (destruct us; reflexivity).
      rewrite iarray_step by (auto; left; auto). rewrite wr_in. cbn [obind].
      replace (Z.of_nat (length a) + 1) with (Z.of_nat (length (a ++ [u]))) by (rewrite app_length; simpl; lia).
      replace (a ++ u :: b) with ((a ++ [u]) ++ b) by (rewrite <- app_assoc; auto).
      rewrite (IH _ eq_refl); auto; [|simpl in L; lia]. rewrite <- app_assoc. reflexivity. }
  replace (join (dec_signed (Z.of_nat (length vs) + 1) :: map dec_signed (vs ++ [v])))
    with (dec_signed (Z.of_nat (length vs) + 1) ++ comma :: join (map dec_signed (vs ++ [v])))
    by (destruct vs; reflexivity).
  rewrite iarray_start by (try lia; left; auto).
  replace (Z.to_nat (Z.of_nat (length vs) + 1)) with (length vs + 1)%nat by lia. rewrite repeat_app.
  etransitivity; [apply (J vs _ eq_refl [Z.of_nat (length vs) + 1] (repeat 0 (length vs) ++ repeat 0 1) F);
    rewrite app_length, repeat_length; simpl; lia|]. cbn [app].
  rewrite <- (repeat_length 0 (length vs)) at 2. rewrite skipn_app, skipn_all, Nat.sub_diag. reflexivity.
Qed.

(** ** Real lines *)
Lemma darray_strip line : forall e i d, darray_loop line e i d = darray_loop (strip_spaces line) e i d.
Proof.
  induction line as [|c line IH]; intros e i d; auto. cbn [darray_loop strip_spaces filter].
  destruct (Ascii.eqb c space) eqn:E; cbn [negb]; [apply IH|].
  cbn [darray_loop]. rewrite E. destruct (Ascii.eqb c comma || Ascii.eqb c newline); [|apply IH].
  destruct (match d with Some d0 => Ret d0 | None => _ end); cbn [obind]; auto.
  destruct (wr a i (atof e)); cbn [obind]; auto.
Qed.
Lemma darray_tok t : forall s e i d, plain t -> darray_loop (t ++ s) e i d = darray_loop s (e ++ t) i d.
Proof.
  induction t as [|c t IH]; intros s e i d P; simpl app; [now rewrite app_nil_r|].
  destruct (plain_not_space _ P c (or_introl eq_refl)) as (A & B & C).
  cbn [darray_loop]. rewrite A, B, C. cbn [orb]. rewrite IH by (intros x Hx; apply P; right; auto).
  now rewrite <- app_assoc.
Qed.
Lemma fmt_f_plain x : plain (fmt_f x).
Proof. apply fmt_plain, micro_pos. Qed.
Lemma darray_step x c s i d : sep c ->
  darray_loop (fmt_f x ++ c :: s) [] i (Some d) =
    obind (wr d i (atof (fmt_f x))) (fun d' => darray_loop s [] (i + 1) (Some d')).
Proof.
  intros Hc. rewrite darray_tok by apply fmt_f_plain. simpl app. cbn [darray_loop].
  destruct (sep_eqb c Hc) as [-> ->]. reflexivity.
Qed.
Lemma darray_start n c s : 0 <= n < 2 ^ 31 -> sep c ->
  darray_loop (dec_signed n ++ c :: s) [] 0 None =
    obind (wr (repeat 0%R (Z.to_nat n)) 0 (IZR n)) (fun d => darray_loop s [] 1 (Some d)).
Proof.
  intros Hn Hc. rewrite darray_tok by apply dec_signed_plain. simpl app. cbn [darray_loop].
  destruct (sep_eqb c Hc) as [-> ->].
  unfold to_size. rewrite atof_dec_signed, ztrunc_Z.
  destruct (Z.leb_spec 0 n); [|lia]. destruct (Z.ltb_spec n (2 ^ 64)); [|lia]. reflexivity.
Qed.
Lemma darray_fill xs : forall a b, xs <> [] -> (length xs <= length b)%nat ->
  darray_loop (join (map fmt_f xs) ++ [newline]) [] (Z.of_nat (length a)) (Some (a ++ b)) =
    Ret (Some (a ++ map (fun x => atof (fmt_f x)) xs ++ skipn (length xs) b)).
Proof.
  induction xs as [|v [|w xs] IH]; intros a b N L; [congruence| |]; destruct b as [|x b]; try (simpl in L; lia).
  - cbn [map join]. rewrite darray_step by (auto; right; auto). rewrite wr_in. cbn [obind darray_loop]. reflexivity.
  - cbn [map]. rewrite join_cons2. rewrite <- app_assoc. simpl app. rewrite darray_step by (auto; left; auto).
    rewrite wr_in. cbn [obind].
    set (v' := atof (fmt_f v)).
    replace (Z.of_nat (length a) + 1) with (Z.of_nat (length (a ++ [v']))) by (rewrite app_length; simpl; lia).
    replace (a ++ v' :: b) with ((a ++ [v']) ++ b) by (rewrite <- app_assoc; auto).
    change (fmt_f w :: map fmt_f xs) with (map fmt_f (w :: xs)).
    rewrite IH; auto; [|discriminate|simpl in *; lia]. rewrite <- app_assoc. reflexivity.
Qed.
Lemma darray_overflow xs : forall a b, (length b < length xs)%nat ->
  darray_loop (join (map fmt_f xs) ++ [newline]) [] (Z.of_nat (length a)) (Some (a ++ b)) = Undef.
Proof.
  induction xs as [|v [|w xs] IH]; intros a b L; [simpl in L; lia| |].
  - destruct b; [|simpl in L; lia]. cbn [map join]. rewrite darray_step by (auto; right; auto).
    rewrite wr_out by (rewrite app_nil_r; lia). reflexivity.
  - cbn [map]. rewrite join_cons2. rewrite <- app_assoc. simpl app. rewrite darray_step by (auto; left; auto).
    destruct b as [|x b].
    + rewrite wr_out by (rewrite app_nil_r; lia). reflexivity.
    + rewrite wr_in. cbn [obind]. set (v' := atof (fmt_f v)).
      replace (Z.of_nat (length a) + 1) with (Z.of_nat (length (a ++ [v']))) by (rewrite app_length; simpl; lia).
      replace (a ++ v' :: b) with ((a ++ [v']) ++ b) by (rewrite <- app_assoc; auto).
      change (fmt_f w :: map fmt_f xs) with (map fmt_f (w :: xs)).
      apply IH; auto. simpl in *; lia.
Qed.
(** C41 is false for every well-formed line of reals: the last value is written one
    element behind the allocation. *)
Theorem C41_darray_overflow_refuted : forall xs line,
  Z.of_nat (length xs) < 2 ^ 31 -> real_line (Z.of_nat (length xs)) xs line ->
  parse_darray_line line = Undef.
Proof.
  intros xs line H HL. unfold parse_darray_line. rewrite darray_strip, HL.
  destruct xs as [|x xs].
  - cbn [map join]. rewrite darray_start by (try lia; right; auto). reflexivity.
  - cbn [map]. rewrite join_cons2, <- app_assoc. rewrite <- app_comm_cons. rewrite darray_start; [|lia|left; auto].
    rewrite Nat2Z.id. simpl length. cbn [repeat].
    rewrite wr_0. cbn [obind app].
    change (fmt_f x :: map fmt_f xs) with (map fmt_f (x :: xs)).
    set (z := IZR _). apply (darray_overflow (x :: xs) [z] (repeat 0%R (length xs))).
    rewrite repeat_length. simpl. lia.
Qed.
(** A line that announces more values than it holds is read within bounds. *)
Theorem C41_darray_partial : forall n xs line,
  Z.of_nat (length xs) < n < 2 ^ 31 -> real_line n xs line ->
  exists ys, parse_darray_line line = Ret (Some (IZR n :: ys ++ repeat 0%R (Z.to_nat n - 1 - length xs))) /\
             Forall2 (fun x y => (Rabs (y - x) <= 1 / 2000000)%R) xs ys.
Proof.
  intros n xs line H HL. exists (map (fun x => atof (fmt_f x)) xs).
  split; [|clear; induction xs; constructor; auto; apply atof_fmt_f].
  unfold parse_darray_line. rewrite darray_strip, HL.
  assert (exists m, n = Z.of_nat (S m)) as [m ->] by (exists (Z.to_nat n - 1)%nat; lia).
  rewrite Nat2Z.id. replace (S m - 1)%nat with m by lia.
  destruct xs as [|x xs].
  - cbn [map join]. rewrite darray_start; [|simpl length in H; lia|right; auto].
    rewrite Nat2Z.id. cbn [repeat]. rewrite wr_0. cbn [obind app darray_loop length map].
    now rewrite Nat.sub_0_r.
  - cbn [map]. rewrite join_cons2, <- app_assoc. rewrite <- app_comm_cons.
    rewrite darray_start; [|lia|left; auto].
    rewrite Nat2Z.id. cbn [repeat]. rewrite wr_0. cbn [obind app].
    change (fmt_f x :: map fmt_f xs) with (map fmt_f (x :: xs)).
    set (z := IZR _). simpl length in *.
    etransitivity; [apply (darray_fill (x :: xs) [z] (repeat 0%R m));
      [discriminate|rewrite repeat_length; simpl; lia]|].
    cbn [map app]. simpl length.
    replace m with (S (length xs) + (m - S (length xs)))%nat at 1 by lia.
    rewrite repeat_app. rewrite <- (repeat_length 0%R (S (length xs))) at 1.
    rewrite skipn_app, skipn_all, Nat.sub_diag. reflexivity.
Qed.
Example C41_darray_witness : real_line 2 [1.5; -2]%R (join (dec_signed 2 :: map fmt_f [1.5; -2]%R) ++ [newline]).
Proof.
  unfold real_line, strip_spaces. rewrite filter_app.
  assert (P : forall t, plain t -> filter (fun c => negb (Ascii.eqb c space)) t = t).
  { intros t H. induction t as [|c t IH]; auto. cbn [filter].
    destruct (plain_not_space _ H c (or_introl eq_refl)) as (-> & _). cbn [negb]. f_equal.
    apply IH. intros x Hx. apply H. right; auto. }
  cbn [map]. rewrite !join_cons2. rewrite !filter_app, (P (dec_signed 2)) by apply dec_signed_plain.
  cbn [filter]. rewrite filter_app, (P (fmt_f 1.5)) by apply fmt_f_plain. cbn [join filter].
  rewrite P by apply fmt_f_plain. reflexivity.
Qed.
Print Assumptions C41_iarray_values.
