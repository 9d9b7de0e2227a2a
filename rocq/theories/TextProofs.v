From Verif Require Import Base TextModel.
From Coq Require Import Ascii Reals Lra.
From Flocq Require Import Core.Core.
Open Scope Z_scope.

Lemma digit_roundtrip d : 0 <= d < 10 -> char_digit (digit_char d) = Some d.
Proof.
  intros H. unfold char_digit, digit_char.
  rewrite N_ascii_embedding by lia. rewrite Z2N.id by lia.
  destruct (Z.leb_spec 48 (48 + d)); [|lia]. destruct (Z.leb_spec (48 + d) 57); [|lia].
  cbn [andb]. f_equal. ring.
Qed.
Definition not_digit (s : text) : Prop := match s with c :: _ => char_digit c = None | [] => True end.

Lemma scan_stop acc n s : not_digit s -> scan_digits acc n s = (acc, n, s).
Proof. destruct s; simpl; auto. intros ->. auto. Qed.

Lemma scan_decw w : forall n acc k s, 0 <= n < 10 ^ Z.of_nat w -> not_digit s ->
  scan_digits acc k (decw w n ++ s) = (acc * 10 ^ Z.of_nat w + n, (k + w)%nat, s).
Proof.
  assert (G : forall w n acc k s, 0 <= n < 10 ^ Z.of_nat w ->
    scan_digits acc k (decw w n ++ s) = scan_digits (acc * 10 ^ Z.of_nat w + n) (k + w) s).
  { clear. induction w as [|w IH]; intros n acc k s H.
    - simpl in H. simpl. f_equal; lia.
    - simpl decw. rewrite <- app_assoc.
      rewrite Nat2Z.inj_succ, Z.pow_succ_r in H by lia.
      rewrite IH.
      2:{ split; [apply Z.div_pos; lia|]. apply Z.div_lt_upper_bound; lia. }
      cbn [app scan_digits]. rewrite digit_roundtrip by (apply Z.mod_pos_bound; lia).
      rewrite Nat2Z.inj_succ, Z.pow_succ_r by lia.
      f_equal; [|lia].
      rewrite (Z.div_mod n 10) at 3 by lia. ring. }
  intros. rewrite G by auto. now apply scan_stop.
Qed.

Lemma ndigits_bound fuel : forall n, 0 <= n <= Z.of_nat fuel -> n < 10 ^ Z.of_nat (ndigits fuel n).
Proof.
  induction fuel as [|f IH]; intros n H; simpl ndigits.
  - simpl. lia.
  - destruct (Z.ltb_spec n 10); [simpl; lia|].
    rewrite Nat2Z.inj_succ, Z.pow_succ_r by lia.
    assert (n / 10 < 10 ^ Z.of_nat (ndigits f (n / 10))).
    { apply IH. split; [apply Z.div_pos; lia|]. 
      assert (n / 10 <= n - 1); [|lia]. apply Z.lt_le_pred. apply Z.div_lt; lia. }
    generalize (Z.div_mod n 10 ltac:(lia)) (Z.mod_pos_bound n 10 ltac:(lia)). revert H1. generalize (10 ^ Z.of_nat (ndigits f (n / 10))). intros; lia.
Qed.
Lemma ndigits_pos fuel n : (1 <= ndigits fuel n)%nat.
Proof. destruct fuel; simpl; [lia|]. destruct (n <? 10); lia. Qed.

Lemma scan_dec n s : 0 <= n -> not_digit s ->
  scan_digits 0 0 (dec n ++ s) = (n, ndigits (Z.to_nat n) n, s).
Proof.
  intros H D. unfold dec. rewrite scan_decw; auto. split; auto. apply ndigits_bound. lia.
Qed.

Lemma decw_chars w : forall n c, 0 <= n -> In c (decw w n) -> exists d, 0 <= d < 10 /\ c = digit_char d.
Proof.
  induction w as [|w IH]; simpl; intros n c Hn H; [destruct H|].
  apply in_app_or in H as [H|[ <- |[]]]; [apply (IH (n / 10)); auto; apply Z.div_pos; lia|].
  exists (n mod 10). split; auto. apply Z.mod_pos_bound; lia.
Qed.
Lemma digit_not_sep d : 0 <= d < 10 -> digit_char d <> comma /\ digit_char d <> newline /\
  digit_char d <> minus /\ digit_char d <> space /\ digit_char d <> hash /\ digit_char d <> dot.
Proof.
  intros H.
  assert (E : forall c, digit_char d = c -> char_digit c = Some d) by (intros ? <-; apply digit_roundtrip; auto).
  repeat split; intros C; apply E in C; vm_compute in C; discriminate.
Qed.
Lemma decw_head w n s : (1 <= w)%nat -> 0 <= n -> exists d r, 0 <= d < 10 /\ decw w n ++ s = digit_char d :: r.
Proof.
  intros Hw Hn. destruct (decw w n) as [|c l] eqn:E.
  - exfalso. destruct w; [lia|]. simpl in E. destruct (decw w (n / 10)); discriminate.
  - destruct (decw_chars w n c Hn) as (d & Hd & ->); [rewrite E; left; auto|].
    exists d, (l ++ s). auto.
Qed.

(** Characters of a formatted number are no separators. *)
Definition plain (s : text) : Prop := forall c, In c s -> c <> comma /\ c <> newline /\ c <> space /\ c <> hash.
Lemma decw_plain w n : 0 <= n -> plain (decw w n).
Proof.
  intros Hn c H. apply decw_chars in H as (d & Hd & ->); auto.
  destruct (digit_not_sep d Hd) as (A & B & _ & C & D & _). auto.
Qed.
Lemma plain_app a b : plain a -> plain b -> plain (a ++ b).
Proof. intros A B c H. apply in_app_or in H as [H|H]; auto. Qed.
Lemma fmt_plain neg m : 0 <= m -> plain (fmt_micro neg m).
Proof.
  intros H. unfold fmt_micro. apply plain_app; [|apply plain_app; [|apply plain_app]].
  - destruct neg; intros c Hc; simpl in Hc; [destruct Hc as [ <- |[]]|destruct Hc].
    repeat split; discriminate.
  - apply decw_plain. apply Z.div_pos; lia.
  - intros c [ <- |[]]. repeat split; discriminate.
  - apply decw_plain. apply Z.mod_pos_bound; lia.
Qed.
Lemma dec_signed_plain n : plain (dec_signed n).
Proof.
  unfold dec_signed. destruct (Z.ltb_spec n 0).
  - intros c [ <- |H1]; [repeat split; discriminate|]. revert c H1. apply decw_plain. lia.
  - apply decw_plain. lia.
Qed.

Lemma fmt_nonempty neg m : fmt_micro neg m <> [].
Proof.
  unfold fmt_micro. destruct neg; simpl; [discriminate|].
  destruct (dec (m / 1000000)); discriminate.
Qed.

Lemma not_digit_comma s : not_digit (comma :: s).
Proof. reflexivity. Qed.

Lemma atof_unsigned_fmt m s : 0 <= m -> not_digit s ->
  atof_unsigned (dec (m / 1000000) ++ [dot] ++ decw 6 (m mod 1000000) ++ s) = (IZR m / 1000000)%R.
Proof.
  intros H D. unfold atof_unsigned. change ([dot] ++ decw 6 (m mod 1000000) ++ s) with (dot :: decw 6 (m mod 1000000) ++ s).
  rewrite scan_dec; [|apply Z.div_pos; lia|reflexivity]. rewrite Ascii.eqb_refl.
  rewrite scan_decw; auto.
  2:{ simpl Z.of_nat. apply Z.mod_pos_bound. lia. }
  simpl Z.of_nat. simpl Nat.add.
  assert (E := Z.div_mod m 1000000 ltac:(lia)). rewrite Z.mul_0_l, Z.add_0_l.
  apply (f_equal IZR) in E. rewrite plus_IZR, mult_IZR in E.
  revert E. generalize (IZR (m / 1000000)), (IZR (m mod 1000000)). intros a b E. rewrite E.
  simpl (10 ^ 6)%R. lra.
Qed.

Lemma atof_fmt neg m : 0 <= m ->
  atof (fmt_micro neg m) = ((if neg then -1 else 1) * (IZR m / 1000000))%R.
Proof.
  intros H. assert (U := atof_unsigned_fmt m [] H I). rewrite app_nil_r in U.
  unfold fmt_micro, atof. destruct neg.
  - simpl app. simpl in U. unfold atof_unsigned in *. rewrite Ascii.eqb_refl.
    rewrite U. lra.
  - rewrite app_nil_l.
    destruct (decw_head (ndigits (Z.to_nat (m / 1000000)) (m / 1000000)) (m / 1000000)
       ([dot] ++ decw 6 (m mod 1000000))) as (d & r & Hd & E).
    + apply ndigits_pos.
    + apply Z.div_pos; lia.
    + unfold dec in *. rewrite E in *.
      destruct (digit_not_sep d Hd) as (_ & _ & A & _).
      destruct (Ascii.eqb_spec (digit_char d) minus); [contradiction|]. rewrite U. lra.
Qed.

Lemma micro_pos x : 0 <= micro x.
Proof.
  unfold micro. rewrite <- (@Zrnd_IZR ZnearestE _ 0).
  apply (@Zrnd_le ZnearestE _). generalize (Rabs_pos x). lra.
Qed.
Lemma micro_err x : (Rabs (IZR (micro x) / 1000000 - Rabs x) <= 1 / 2000000)%R.
Proof.
  unfold micro. generalize (Znearest_half (fun z => negb (Z.even z)) (Rabs x * 1000000)).
  set (y := IZR (Znearest _ _)). intros H. apply Rabs_le_inv in H. apply Rabs_le. lra.
Qed.
(** Reading back a number printed with %f: at most half a unit of the sixth decimal away. *)
Lemma atof_fmt_f x : (Rabs (atof (fmt_f x) - x) <= 1 / 2000000)%R.
Proof.
  unfold fmt_f. rewrite atof_fmt by apply micro_pos.
  generalize (micro_err x). intros H. apply Rabs_le_inv in H.
  destruct (Rlt_dec x 0).
  - rewrite Rabs_left in H by auto. apply Rabs_le. lra.
  - rewrite Rabs_right in H by lra. apply Rabs_le. lra.
Qed.
Lemma atof_fmt_exact k : atof (fmt_f (IZR k / 1000000)) = (IZR k / 1000000)%R.
Proof.
  unfold fmt_f. rewrite atof_fmt by apply micro_pos.
  assert (M : micro (IZR k / 1000000) = Z.abs k).
  { unfold micro. replace (Rabs (IZR k / 1000000) * 1000000)%R with (IZR (Z.abs k)).
    - apply (@Zrnd_IZR ZnearestE _).
    - rewrite abs_IZR. unfold Rdiv. rewrite Rabs_mult, (Rabs_right (/ 1000000)) by lra. field. }
  rewrite M, abs_IZR. destruct (Rlt_dec (IZR k / 1000000) 0).
  - rewrite Rabs_left by lra. lra.
  - rewrite Rabs_right by lra. lra.
Qed.
(** Signed integers. *)
Lemma atof_dec_signed n : atof (dec_signed n) = IZR n.
Proof.
  unfold dec_signed. destruct (Z.ltb_spec n 0).
  - unfold atof. rewrite Ascii.eqb_refl. unfold atof_unsigned.
    rewrite <- (app_nil_r (dec (- n))). rewrite scan_dec; [|lia|exact I].
    rewrite opp_IZR. lra.
  - unfold atof.
    destruct (decw_head (ndigits (Z.to_nat n) n) n []) as (d & r & Hd & E); [apply ndigits_pos|lia|].
    unfold dec. rewrite app_nil_r in E. rewrite E.
    destruct (digit_not_sep d Hd) as (_ & _ & A & _).
    destruct (Ascii.eqb_spec (digit_char d) minus); [contradiction|].
    rewrite <- E. unfold atof_unsigned. fold (dec n). rewrite <- (app_nil_r (dec n)).
    rewrite scan_dec; [auto|lia|exact I].
Qed.

(** ** Lines *)
Lemma lines_from_plain cur l s : ~ In newline l ->
  lines_from cur (l ++ newline :: s) = (cur ++ l) :: lines_from [] s.
Proof.
  revert cur; induction l as [|c l IH]; intros cur H; simpl.
  - now rewrite app_nil_r.
  - destruct (Ascii.eqb_spec c newline); [exfalso; apply H; left; auto|].
    rewrite IH by (intros C; apply H; right; auto). now rewrite <- app_assoc.
Qed.
Lemma getlines_lines ls : (forall l, In l ls -> ~ In newline l) ->
  getlines (concat (map (fun l => l ++ [newline]) ls)) = ls.
Proof.
  unfold getlines. induction ls as [|l ls IH]; intros H; simpl; auto.
  rewrite <- app_assoc. simpl. rewrite lines_from_plain by (apply H; left; auto).
  simpl. rewrite IH; auto. intros; apply H; right; auto.
Qed.
Lemma break_at_hit c l s : ~ In c l -> break_at c (l ++ c :: s) = (l, Some s).
Proof.
  induction l as [|x l IH]; intros H; simpl.
  - now rewrite Ascii.eqb_refl.
  - destruct (Ascii.eqb_spec x c); [exfalso; apply H; left; auto|].
    rewrite IH by (intros C; apply H; right; auto). auto.
Qed.
Lemma break_at_miss c l : ~ In c l -> break_at c l = (l, None).
Proof.
  induction l as [|x l IH]; intros H; simpl; auto.
  destruct (Ascii.eqb_spec x c); [exfalso; apply H; left; auto|].
  rewrite IH by (intros C; apply H; right; auto). auto.
Qed.
