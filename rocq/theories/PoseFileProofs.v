From Coq Require Import Ascii String.
From Verif Require Import Base TextModel GeomModel TextProofs PoseFileModel PoseFileSpec.
From Flocq Require Import Core.Raux.
Local Open Scope Z_scope.

Definition stop (s : text) : Prop := match s with [] => True | c :: _ => char_digit c = None /\ c <> dot end.
Lemma stop_nd s : stop s -> not_digit s.
Proof. destruct s; simpl; tauto. Qed.

Lemma scan_digits_spec ds d : Digits ds d -> forall acc n s, not_digit s ->
  scan_digits acc n (d ++ s) = (fold_left (fun a d => a * 10 + d) ds acc, (n + length ds)%nat, s).
Proof.
  intros [H ->]. induction H as [|x ds Hx H IH]; intros acc n s D; simpl.
  - rewrite scan_stop by auto. f_equal; f_equal; lia.
  - rewrite digit_roundtrip by auto. rewrite IH by auto. f_equal. f_equal. lia.
Qed.
Lemma digits_head ds d : Digits ds d -> ds <> [] -> exists x r, 0 <= x < 10 /\ d = digit_char x :: r.
Proof. intros [H ->] N. destruct H as [|x ds Hx H]; [easy|]. simpl. eauto. Qed.
Lemma digit_char_code d : 0 <= d < 10 -> Z.of_N (N_of_ascii (digit_char d)) = 48 + d.
Proof. intros H. unfold digit_char. rewrite N_ascii_embedding by lia. rewrite Z2N.id; lia. Qed.
Lemma is_space_digit d : 0 <= d < 10 -> is_space (digit_char d) = false.
Proof.
  intros H. unfold is_space. rewrite digit_char_code by auto.
  destruct (Z.eqb_spec (48 + d) 32); [lia|]. destruct (Z.leb_spec 9 (48 + d)); [|lia]. destruct (Z.leb_spec (48 + d) 13); [lia|]. reflexivity.
Qed.
Lemma scan_sign_digit d s : 0 <= d < 10 -> scan_sign (digit_char d :: s) = (false, digit_char d :: s).
Proof.
  intros H. destruct (digit_not_sep d H) as (_ & _ & M & _). unfold scan_sign.
  destruct (Ascii.eqb_spec (digit_char d) minus); [congruence|].
  destruct (Ascii.eqb_spec (digit_char d) plus_sign) as [C|]; auto.
  exfalso. assert (E := digit_char_code d H). rewrite C in E. change (Z.of_N (N_of_ascii plus_sign)) with 43 in E. lia.
Qed.
(** the head of a number *)
Lemma scan_sign_spec g s d ds rest : Sign g s -> Digits ds d -> ds <> [] \/ (exists r, rest = dot :: r) ->
  exists b, (forall w, Forall (fun c => is_space c = true) w -> scan_sign (skip_ws (w ++ s ++ d ++ rest)) = (b, d ++ rest)) /\
            g = (if b then -1 else 1).
Proof.
  intros Sg D N.
  assert (K : forall w t, Forall (fun c => is_space c = true) w -> skip_ws (w ++ t) = skip_ws t).
  { intros w t F. induction F as [|c w Hc F IH]; auto. simpl. rewrite Hc. auto. }
  destruct Sg.
  - exists false. split; auto. intros w W. rewrite K by auto.
    destruct ds as [|x ds].
    + destruct N as [N|[r ->]]; [easy|]. destruct D as [_ ->]. reflexivity.
    + destruct (digits_head _ _ D ltac:(easy)) as (y & r & Hy & ->). cbn [app skip_ws]. rewrite is_space_digit by auto. apply scan_sign_digit; auto.
  - exists false. split; auto. intros w W. rewrite K by auto. reflexivity.
  - exists true. split; auto. intros w W. rewrite K by auto. reflexivity.
Qed.
Lemma scan_int_spec t n : Integer t n -> forall w rest, Forall (fun c => is_space c = true) w -> not_digit rest ->
  scan_int (w ++ t ++ rest) = Some (n, rest).
Proof.
  intros (g & s & ds & d & Sg & D & N & -> & ->) w rest W ND. unfold scan_int.
  destruct (scan_sign_spec g s d ds rest Sg D (or_introl N)) as (b & E & ->).
  rewrite <- (app_assoc s). rewrite (E w W). rewrite (scan_digits_spec _ _ D) by auto.
  destruct ds as [|x ds]; [easy|]. simpl (0 + _)%nat. fold (dval (x :: ds)). destruct b; do 2 f_equal; lia.
Qed.
Lemma scan_ld_spec t n : Integer t n -> int64 n -> forall w rest, Forall (fun c => is_space c = true) w -> not_digit rest ->
  scan_ld (w ++ t ++ rest) = Some (n, rest).
Proof. intros I B w rest W ND. unfold scan_ld. rewrite (scan_int_spec t n) by auto. unfold int64 in B. do 2 f_equal. lia. Qed.
Lemma scan_u64_spec t n : Integer t n -> int64 n -> forall w rest, Forall (fun c => is_space c = true) w -> not_digit rest ->
  scan_u64 (w ++ t ++ rest) = Some (n, rest).
Proof.
  intros I B w rest W ND. unfold scan_u64. rewrite (scan_int_spec t n) by auto. unfold int64 in B. do 2 f_equal.
  destruct (Z.leb_spec (2 ^ 64) (Z.abs n)); [lia|].
  destruct (Z.ltb_spec n 0).
  - assert (E : n mod 2 ^ 64 = n + 2 ^ 64).
    { symmetry. apply Z.mod_unique_pos with (q := -1); lia. }
    rewrite E. destruct (Z.leb_spec (2 ^ 63) (n + 2 ^ 64)); lia.
  - rewrite Z.mod_small by lia. destruct (Z.leb_spec (2 ^ 63) n); lia.
Qed.
Lemma scan_f_spec t x : Decimal t x -> forall rest, stop rest -> scan_f (t ++ rest) = Some (x, rest).
Proof.
  intros (g & s & ds & d & Sg & D & [(N & -> & ->)|(fs & f & F & N & -> & ->)]) rest ST; unfold scan_f.
  - destruct (scan_sign_spec g s d ds rest Sg D (or_introl N)) as (b & E & ->).
    rewrite <- app_assoc. specialize (E [] (Forall_nil _)). simpl app in E at 1. rewrite E.
    rewrite (scan_digits_spec _ _ D) by (apply stop_nd; auto). fold (dval ds).
    destruct ds as [|y ds]; [easy|]. simpl (0 + _)%nat.
    destruct rest as [|c r].
    + do 2 f_equal. rewrite mult_IZR. destruct b; simpl; lra.
    + destruct ST as [_ ST]. destruct (Ascii.eqb_spec c dot); [easy|]. do 2 f_equal. rewrite mult_IZR. destruct b; simpl; lra.
  - destruct (scan_sign_spec g s d ds (dot :: f ++ rest) Sg D (or_intror (ex_intro _ _ eq_refl))) as (b & E & ->).
    replace ((s ++ d ++ "."%char :: f) ++ rest) with (s ++ d ++ dot :: f ++ rest) by (now rewrite <- !app_assoc).
    specialize (E [] (Forall_nil _)). simpl app in E at 1. rewrite E.
    rewrite (scan_digits_spec _ _ D) by reflexivity. rewrite Ascii.eqb_refl.
    rewrite (scan_digits_spec _ _ F) by (apply stop_nd; auto). fold (dval ds). fold (dval fs). rewrite !Nat.add_0_l.
    destruct (length ds + length fs)%nat eqn:L; [exfalso; apply N; rewrite <- app_length in L; destruct (ds ++ fs); [auto|discriminate L]|].
    do 2 f_equal. destruct b; simpl; lra.
Qed.
Lemma scan_fs_spec l xs : Forall2 Decimal l xs -> forall rest, stop rest ->
  scan_fs (length xs) (flat_map (fun n => ","%char :: n) l ++ rest) = Some (xs, rest).
Proof.
  induction 1 as [|t x l xs H F IH]; intros rest ST; auto.
  simpl length. simpl flat_map. change (","%char) with comma. cbn [app scan_fs]. rewrite Ascii.eqb_refl, <- app_assoc.
  rewrite (scan_f_spec t x H).
  - rewrite IH by auto. reflexivity.
  - destruct l as [|y l]; [exact ST|]. split; [reflexivity|discriminate].
Qed.
(** fewer numbers than asked for *)
Lemma scan_fs_short l xs : Forall2 Decimal l xs -> forall k rest, (length xs < k)%nat -> stop rest ->
  match rest with c :: _ => c <> comma | [] => True end ->
  scan_fs k (flat_map (fun n => ","%char :: n) l ++ rest) = None.
Proof.
  induction 1 as [|t x l xs H F IH]; intros k rest L ST C; simpl in L; (destruct k as [|k]; [lia|]).
  - simpl. destruct rest as [|c r]; auto. destruct (Ascii.eqb_spec c comma); easy.
  - simpl flat_map. change (","%char) with comma. cbn [app scan_fs]. rewrite Ascii.eqb_refl, <- app_assoc.
    rewrite (scan_f_spec t x H).
    + rewrite IH; auto. lia.
    + destruct l as [|y l]; [exact ST|]. split; [reflexivity|discriminate].
Qed.

Notation spaces w := (Forall (fun c => is_space c = true) w).
Lemma blank_spaces w : Blank w -> spaces w.
Proof.
  intros H. eapply Forall_impl; [|exact H]. intros c I. unfold is_space.
  simpl in I. destruct I as [E|[E|[E|[E|[E|[]]]]]]; rewrite <- E; reflexivity.
Qed.
Lemma spaces_app a b : spaces a -> spaces b -> spaces (a ++ b).
Proof. intros A B. apply Forall_app. auto. Qed.
Lemma space_stop c : is_space c = true -> char_digit c = None /\ c <> dot /\ c <> comma.
Proof.
  intros H. split; [|split].
  - unfold char_digit. unfold is_space in H. destruct (Z.leb_spec 48 (Z.of_N (N_of_ascii c))); auto.
    exfalso. destruct (Z.eqb_spec (Z.of_N (N_of_ascii c)) 32); [lia|]. simpl in H. apply andb_prop in H as [_ H]. apply Z.leb_le in H. lia.
  - intros ->. discriminate.
  - intros ->. discriminate.
Qed.
Lemma spaces_stop w rest : spaces w -> w <> [] \/ rest = [] -> stop (w ++ rest).
Proof.
  intros W N. destruct W as [|c w Hc W]; simpl.
  - destruct N as [N| ->]; [easy|]. exact I.
  - destruct (space_stop c Hc) as (A & B & _). auto.
Qed.
Lemma scan_int_blank w : spaces w -> scan_int w = None.
Proof.
  intros W. unfold scan_int. replace (skip_ws w) with (@nil ascii); [reflexivity|].
  induction W as [|c w Hc W IH]; auto. simpl. now rewrite Hc.
Qed.

(** ** reading a row *)
Definition ts_reader (f : text -> option (Z * text)) : Prop :=
  (forall t n, Integer t n -> int64 n -> forall w rest, spaces w -> not_digit rest -> f (w ++ t ++ rest) = Some (n, rest)) /\
  (forall s, scan_int s = None -> f s = None).
Lemma ld_reader : ts_reader scan_ld.
Proof. split; [exact scan_ld_spec|]. intros s H. unfold scan_ld. now rewrite H. Qed.
Lemma u64_reader : ts_reader scan_u64.
Proof. split; [exact scan_u64_spec|]. intros s H. unfold scan_u64. now rewrite H. Qed.

Lemma scan_row_spec f t ts xs : ts_reader f -> Line t ts xs -> int64 ts -> exists w1, Blank w1 /\
  forall w rest, spaces w -> (rest = [] \/ exists r, rest = newline :: r) ->
  scan_row f (length xs) (w ++ t ++ rest) = Some (ts, xs, w1 ++ rest) /\
  (forall k, (length xs < k)%nat -> scan_row f k (w ++ t ++ rest) = None).
Proof.
  intros [Rd _] (ti & l & w1 & I & F & Bl & ->) B. exists w1. split; auto. intros w rest W E.
  assert (ST : stop (w1 ++ rest) /\ match w1 ++ rest with c :: _ => c <> comma | [] => True end).
  { apply blank_spaces in Bl. destruct Bl as [|c w1 Hc Bl].
    - destruct E as [-> |[r ->]]; simpl; auto. repeat split; discriminate.
    - simpl. destruct (space_stop c Hc) as (? & ? & ?). auto. }
  destruct ST as [ST NC].
  rewrite <- !app_assoc. unfold scan_row.
  rewrite (Rd ti ts I B w _ W).
  2:{ destruct l as [|y l]; [apply stop_nd, ST|reflexivity]. }
  split.
  - rewrite (scan_fs_spec l xs F _ ST). reflexivity.
  - intros k L. rewrite (scan_fs_short l xs F k _ L ST NC). reflexivity.
Qed.

(** ** all rows *)
Fixpoint rows (f : text -> option (Z * text)) (k n : nat) (s : text) : option (list (Z * list R)) :=
  match n with
  | O => Some []
  | S n' => match scan_row f k s with
            | None => None
            | Some (ts, xs, r) => match rows f k n' r with None => None | Some l => Some ((ts, xs) :: l) end
            end
  end.
(** a line and what it says: nothing, or a row *)
Definition Says (k : nat) (t : text) (e : option (Z * list R)) : Prop :=
  match e with None => Blank t | Some (ts, xs) => int64 ts /\ length xs = k /\ Line t ts xs end.
Fixpoint said {A} (es : list (option A)) : list A := match es with [] => [] | None :: r => said r | Some a :: r => a :: said r end.

Lemma rows_spec f k ls es : ts_reader f -> Forall2 (Says k) ls es -> forall nl w n, spaces w ->
  rows f k n (w ++ unlines nl ls) = if (n <=? length (said es))%nat then Some (firstn n (said es)) else None.
Proof.
  intros Rd F. induction F as [|t e ls es H F IH]; intros nl w n W.
  - simpl unlines. rewrite app_nil_r. destruct n; simpl; auto. unfold scan_row.
    rewrite (proj2 Rd) by (apply scan_int_blank; auto). reflexivity.
  - assert (SP : forall w1, spaces w1 -> spaces (w1 ++ [newline])) by (intros w1 B; apply spaces_app; [auto|repeat constructor]).
    assert (U : exists rest, unlines nl (t :: ls) = t ++ rest /\ (rest = [] \/ exists r, rest = newline :: r) /\
                forall w1 m, spaces w1 -> rows f k m (w1 ++ rest) = if (m <=? length (said es))%nat then Some (firstn m (said es)) else None).
    { destruct ls as [|l' ls].
      - exists (if nl then [newline] else []). split; [reflexivity|]. split; [destruct nl; eauto|].
        intros w1 m B. simpl unlines in IH.
        rewrite <- (app_nil_r (w1 ++ _)). apply (IH nl). destruct nl; [apply SP; auto|]. now rewrite app_nil_r.
      - exists (newline :: unlines nl (l' :: ls)). split; [reflexivity|]. split; [eauto|].
        intros w1 m B. replace (w1 ++ newline :: unlines nl (l' :: ls)) with ((w1 ++ [newline]) ++ unlines nl (l' :: ls)) by (now rewrite <- app_assoc).
        apply IH. apply SP; auto. }
    destruct U as (rest & -> & E & K).
    destruct e as [[ts xs]|]; simpl said.
    + destruct H as (B & L & H). destruct n as [|n]; [reflexivity|].
      destruct (scan_row_spec f t ts xs Rd H B) as (w1 & Bw & X). destruct (X w rest W E) as [X1 _]. rewrite L in X1.
      cbn [rows]. rewrite X1. rewrite K by (apply blank_spaces; auto).
      change (S n <=? length ((ts, xs) :: said es))%nat with (n <=? length (said es))%nat.
      destruct (n <=? length (said es))%nat; auto.
    + simpl in H. rewrite app_assoc. apply K. apply spaces_app; auto. apply blank_spaces; auto.
Qed.
(** good rows, then a line with too few numbers *)
Lemma rows_short f k ls es t ts xs rest : ts_reader f -> Forall2 (fun l e => Says k l (Some e)) ls es -> Line t ts xs -> int64 ts ->
  (length xs < k)%nat -> forall nl w n, spaces w -> (length ls < n)%nat ->
  rows f k n (w ++ unlines nl (ls ++ t :: rest)) = None.
Proof.
  intros Rd F H B L. induction F as [|l e ls es Hl F IH]; intros nl w n W Ln; (destruct n as [|n]; [simpl in Ln; lia|]); cbn [rows].
  - destruct (scan_row_spec f t ts xs Rd H B) as (w1 & _ & X).
    assert (E : exists r, unlines nl ([] ++ t :: rest) = t ++ r /\ (r = [] \/ exists r', r = newline :: r')).
    { simpl. destruct rest; [destruct nl|]; eauto. }
    destruct E as (r & -> & E). destruct (X w r W E) as [_ X2]. rewrite X2 by auto. reflexivity.
  - destruct e as [ts' xs']. destruct Hl as (B' & L' & Hl). destruct (scan_row_spec f l ts' xs' Rd Hl B') as (w1 & Bw & X).
    assert (E : unlines nl ((l :: ls) ++ t :: rest) = l ++ newline :: unlines nl (ls ++ t :: rest)) by (destruct ls; reflexivity).
    rewrite E. destruct (X w (newline :: unlines nl (ls ++ t :: rest)) W) as [X1 _]; [eauto|]. rewrite L' in X1. rewrite X1.
    replace (w1 ++ newline :: unlines nl (ls ++ t :: rest)) with ((w1 ++ [newline]) ++ unlines nl (ls ++ t :: rest)) by (now rewrite <- app_assoc).
    rewrite IH; auto; [|simpl in Ln; lia]. apply spaces_app; [apply blank_spaces; auto|repeat constructor].
Qed.

(** ** lines *)
Lemma getlines_unlines nl ls : Forall (fun l => ~ In newline l) ls -> (nl = false -> last ls [hash] <> []) -> getlines (unlines nl ls) = ls.
Proof.
  intros F N. unfold getlines. induction F as [|l ls H F IH]; [reflexivity|]. destruct ls as [|l' ls].
  - simpl. destruct nl.
    + change (["010"%char]) with ([newline]). rewrite lines_from_plain by auto. reflexivity.
    + rewrite app_nil_r. specialize (N eq_refl). simpl in N.
      assert (G : forall l cur, ~ In newline l -> lines_from cur l = match cur ++ l with [] => [] | _ => [cur ++ l] end).
      { clear. induction l as [|c l IH]; intros cur H; simpl.
        - rewrite app_nil_r. reflexivity.
        - destruct (Ascii.eqb_spec c newline); [exfalso; apply H; left; auto|]. rewrite IH by (intros C; apply H; right; auto).
          rewrite <- app_assoc. reflexivity. }
      rewrite G by auto. simpl. destruct l; [easy|reflexivity].
  - change (unlines nl (l :: l' :: ls)) with (l ++ newline :: unlines nl (l' :: ls)).
    rewrite lines_from_plain by auto. simpl app. f_equal. apply IH. exact N.
Qed.
Lemma skip_upto_line n h s : ~ In newline h -> (length h < n)%nat -> skip_upto n (h ++ newline :: s) = s.
Proof.
  revert n; induction h as [|c h IH]; intros n N L; (destruct n as [|n]; [simpl in L; lia|]); simpl.
  - reflexivity.
  - destruct (Ascii.eqb_spec c newline); [exfalso; apply N; left; auto|]. apply IH; [intros C; apply N; right; auto|simpl in L; lia].
Qed.
Lemma skip_upto_end n h : ~ In newline h -> (length h <= n)%nat -> skip_upto n h = [].
Proof.
  revert n; induction h as [|c h IH]; intros n N L; (destruct n as [|n]; [simpl in L|]); simpl; auto; [lia|].
  destruct (Ascii.eqb_spec c newline); [exfalso; apply N; left; auto|]. apply IH; [intros C; apply N; right; auto|simpl in L; lia].
Qed.
Lemma skip_header nl h ls : Header h -> unlines nl (h :: ls) <> [] -> skip_line (unlines nl (h :: ls)) = Ret (unlines nl ls).
Proof.
  intros [N L] NE. unfold skip_line. destruct (unlines nl (h :: ls)) eqn:E; [easy|]. rewrite <- E. f_equal.
  assert (LL : (length h < Z.to_nat (bufsiz - 1))%nat) by (unfold bufsiz; lia).
  destruct ls as [|l1 ls].
  - simpl unlines. destruct nl.
    + apply (skip_upto_line _ h []); auto.
    + rewrite app_nil_r. apply skip_upto_end; auto. lia.
  - apply (skip_upto_line _ h (unlines nl (l1 :: ls))); auto.
Qed.
Lemma blank_nonl t : Blank t -> ~ In newline t.
Proof.
  intros H C. unfold Blank in H. rewrite Forall_forall in H. apply H in C. simpl in C.
  destruct C as [E|[E|[E|[E|[E|[]]]]]]; discriminate E.
Qed.
Lemma digits_nonl ds d : Digits ds d -> ~ In newline d.
Proof. intros [F ->] C. apply in_map_iff in C as (x & E & I). rewrite Forall_forall in F. destruct (digit_not_sep x (F x I)) as (_ & A & _). auto. Qed.
Lemma sign_nonl g s : Sign g s -> ~ In newline s.
Proof. intros [] C; simpl in C; intuition discriminate. Qed.
Lemma line_nonl t ts xs : Line t ts xs -> ~ In newline t /\ t <> [].
Proof.
  intros (ti & l & w & (g & s & ds & d & Sg & D & N & -> & _) & F & B & ->). split.
  - intros C. apply in_app_or in C as [C|C]; [apply in_app_or in C as [C|C]; [eapply sign_nonl|eapply digits_nonl]; eauto|].
    apply in_app_or in C as [C|C]; [|eapply blank_nonl; eauto].
    apply in_flat_map in C as (n & I & [C|C]); [discriminate|].
    assert (exists x, Decimal n x) as (x & g' & s' & ds' & d' & Sg' & D' & H).
    { clear -F I. induction F as [|a b l xs H F IH]; [destruct I|]. destruct I as [ <- |I]; eauto. }
    destruct H as [(_ & -> & _)|(fs & f & F' & _ & -> & _)].
    + apply in_app_or in C as [C|C]; [exact (sign_nonl _ _ Sg' C)|exact (digits_nonl _ _ D' C)].
    + apply in_app_or in C as [C|C]; [exact (sign_nonl _ _ Sg' C)|]. apply in_app_or in C as [C|[C|C]]; [exact (digits_nonl _ _ D' C)|discriminate|exact (digits_nonl _ _ F' C)].
  - destruct (digits_head _ _ D N) as (x & r & _ & ->). destruct Sg; discriminate.
Qed.

(** ** printing *)
Lemma dval_snoc ds d : dval (ds ++ [d]) = dval ds * 10 + d.
Proof. unfold dval. rewrite fold_left_app. reflexivity. Qed.
Lemma decw_digits w : forall n, 0 <= n -> exists ds, Digits ds (decw w n) /\ length ds = w /\ (n < 10 ^ Z.of_nat w -> dval ds = n).
Proof.
  induction w as [|w IH]; intros n H.
  - exists []. repeat split; auto. simpl. intros; unfold dval; simpl; lia.
  - destruct (IH (n / 10)) as (ds & [D E] & L & V); [apply Z.div_pos; lia|].
    assert (M := Z.mod_pos_bound n 10 ltac:(lia)).
    exists (ds ++ [n mod 10]). split; [split|split].
    + apply Forall_app. split; auto.
    + simpl decw. rewrite E, map_app. reflexivity.
    + rewrite app_length, L. simpl. lia.
    + intros B. rewrite dval_snoc, V; [generalize (Z.div_mod n 10); lia|].
      rewrite Nat2Z.inj_succ, Z.pow_succ_r in B by lia. apply Z.div_lt_upper_bound; lia.
Qed.
Lemma dec_digits n : 0 <= n -> exists ds, Digits ds (dec n) /\ ds <> [] /\ dval ds = n.
Proof.
  intros H. unfold dec. destruct (decw_digits (ndigits (Z.to_nat n) n) n H) as (ds & D & L & V).
  exists ds. split; auto. split.
  - intros ->. generalize (ndigits_pos (Z.to_nat n) n). simpl in L. lia.
  - apply V. apply ndigits_bound. lia.
Qed.
Lemma dec_signed_Integer n : Integer (dec_signed n) n.
Proof.
  unfold dec_signed. destruct (Z.ltb_spec n 0).
  - destruct (dec_digits (- n)) as (ds & D & N & V); [lia|]. exists (-1), [minus], ds, (dec (- n)). repeat split; auto; try apply D; [constructor|lia].
  - destruct (dec_digits n) as (ds & D & N & V); [lia|]. exists 1, [], ds, (dec n). repeat split; auto; try apply D; [constructor|lia].
Qed.
Lemma fmt_f_Decimal x : exists y, Decimal (fmt_f x) y /\ (Rabs (y - x) <= 1 / 2000000)%R.
Proof.
  exists (atof (fmt_f x)). split; [|apply atof_fmt_f].
  unfold fmt_f. rewrite atof_fmt by apply micro_pos. assert (M := micro_pos x). set (m := micro x) in *. clearbody m.
  set (b := if Rlt_dec x 0 then true else false). clearbody b.
  destruct (dec_digits (m / 1000000)) as (ds & D & N & V); [apply Z.div_pos; lia|].
  assert (Mb := Z.mod_pos_bound m 1000000 ltac:(lia)).
  destruct (decw_digits 6 (m mod 1000000)) as (fs & F & L & W); [lia|].
  specialize (W ltac:(simpl; lia)).
  assert (Val : (IZR (m / 1000000) + IZR (m mod 1000000) / 10 ^ length fs = IZR m / 1000000)%R).
  { rewrite L. replace (IZR m) with (1000000 * IZR (m / 1000000) + IZR (m mod 1000000))%R.
    - simpl. lra.
    - rewrite <- mult_IZR, <- plus_IZR. f_equal. symmetry. apply Z.div_mod. lia. }
  exists (if b then -1 else 1), (if b then [minus] else []), ds, (dec (m / 1000000)).
  split; [destruct b; constructor|]. split; auto. right. exists fs, (decw 6 (m mod 1000000)).
  split; auto. split; [destruct ds; [easy|discriminate]|]. split; [reflexivity|].
  rewrite V, W, Val. destruct b; simpl; lra.
Qed.
Lemma row_text_line t xs : exists s ys, row_text t xs = s ++ [newline] /\ Line s t ys /\ Forall2 (fun y x => Rabs (y - x) <= 1 / 2000000)%R ys xs.
Proof.
  assert (E : exists ys, Forall2 Decimal (map fmt_f xs) ys /\ Forall2 (fun y x => Rabs (y - x) <= 1 / 2000000)%R ys xs).
  { induction xs as [|x xs (ys & F & G)]; [exists []; split; constructor|].
    destruct (fmt_f_Decimal x) as (y & D & C). exists (y :: ys). split; constructor; auto. }
  destruct E as (ys & F & G). exists (dec_signed t ++ flat_map (fun x => comma :: fmt_f x) xs), ys.
  split; [unfold row_text; now rewrite <- app_assoc|]. split; auto.
  exists (dec_signed t), (map fmt_f xs), []. split; [apply dec_signed_Integer|]. split; auto. split; [constructor|].
  rewrite app_nil_r. f_equal. clear. induction xs as [|x xs IH]; simpl; auto. now rewrite IH.
Qed.


(** ** the readers in terms of [rows] *)
Definition pose_row_of (e : Z * (vec3 * quat)) : Z * list R :=
  let '(ts, (r, q)) := e in (ts, [vx r; vy r; vz r; qx q; qy q; qz q; qw q]).
Definition imu_row_of (e : Z * (vec3 * vec3)) : Z * list R := let '(ts, (w, a)) := e in (ts, [vx w; vy w; vz w; vx a; vy a; vz a]).
Lemma scan_fs_length k : forall s xs r, scan_fs k s = Some (xs, r) -> length xs = k.
Proof.
  induction k as [|k IH]; intros s xs r H; simpl in H; [now injection H as <- <-|].
  destruct s as [|c s]; [discriminate|]. destruct (Ascii.eqb c comma); [|discriminate].
  destruct (scan_f s) as [[x s']|]; [|discriminate]. destruct (scan_fs k s') as [[ys s'']|] eqn:E; [|discriminate].
  injection H as <- <-. simpl. f_equal. eauto.
Qed.
Lemma scan_row_length f k s ts xs r : scan_row f k s = Some (ts, xs, r) -> length xs = k.
Proof.
  unfold scan_row. destruct (f s) as [[t s']|]; [|discriminate]. destruct (scan_fs k s') as [[ys s'']|] eqn:E; [|discriminate].
  intros H. injection H as <- <- <-. eapply scan_fs_length; eauto.
Qed.
Ltac len7 xs L := do 8 (destruct xs as [|? xs]; try discriminate L).
Lemma load_poses_rows_some n : forall s es, rows scan_ld 7 n s = Some (map pose_row_of es) ->
  load_poses_rows n s = Ret (map (fun e => (fst e, tf (to_rot (snd (snd e))) (fst (snd e)))) es).
Proof.
  induction n as [|n IH]; intros s es H; simpl in *.
  - injection H as H. destruct es; [reflexivity|discriminate].
  - destruct (scan_row scan_ld 7 s) as [[[ts xs] r]|]; [|discriminate].
    destruct (rows scan_ld 7 n r) as [l|] eqn:Er; [|discriminate]. injection H as H.
    destruct es as [|[t [p q]] es]; [discriminate|]. simpl in H. injection H as -> -> ->.
    rewrite (IH r es) by auto. simpl. destruct p, q. reflexivity.
Qed.
Lemma load_poses_rows_none n : forall s, rows scan_ld 7 n s = None -> load_poses_rows n s = Throw Fatal.
Proof.
  induction n as [|n IH]; intros s H; simpl in *; [discriminate|].
  destruct (scan_row scan_ld 7 s) as [[[ts xs] r]|] eqn:E; auto. apply scan_row_length in E.
  destruct (rows scan_ld 7 n r) as [l|] eqn:Er; [discriminate|]. rewrite IH by auto.
  len7 xs E. reflexivity.
Qed.
Lemma load_imu_rows_some n : forall s es, rows scan_u64 6 n s = Some (map imu_row_of es) ->
  load_imu_rows n s = Ret (map (fun e => (fst e, snd (snd e), fst (snd e))) es).
Proof.
  induction n as [|n IH]; intros s es H; simpl in *.
  - injection H as H. destruct es; [reflexivity|discriminate].
  - destruct (scan_row scan_u64 6 s) as [[[ts xs] r]|]; [|discriminate].
    destruct (rows scan_u64 6 n r) as [l|] eqn:Er; [|discriminate]. injection H as H.
    destruct es as [|[t [w a]] es]; [discriminate|]. simpl in H. injection H as -> -> ->.
    rewrite (IH r es) by auto. simpl. destruct w, a. reflexivity.
Qed.
Lemma load_imu_rows_none n : forall s, rows scan_u64 6 n s = None -> load_imu_rows n s = Throw Fatal.
Proof.
  induction n as [|n IH]; intros s H; simpl in *; [discriminate|].
  destruct (scan_row scan_u64 6 s) as [[[ts xs] r]|] eqn:E; auto. apply scan_row_length in E.
  destruct (rows scan_u64 6 n r) as [l|] eqn:Er; [discriminate|]. rewrite IH by auto.
  do 7 (destruct xs as [|? xs]; try discriminate E). reflexivity.
Qed.
Definition set_all (es : list (Z * (vec3 * quat))) (l : list (Z * pose)) : list (Z * pose) :=
  fold_left (fun l e => set_pose (fst e) (P (fst (snd e)) (snd (snd e))) l) es l.
Lemma load_camera_rows_some es : forall n s l, rows scan_ld 7 n s = Some (map pose_row_of es) -> load_camera_rows n s l = set_all es l.
Proof.
  induction es as [|[t [p q]] es IH]; intros n s l H.
  - destruct n as [|n]; [reflexivity|]. simpl in H. destruct (scan_row scan_ld 7 s) as [[[ts xs] r]|]; [|discriminate].
    destruct (rows scan_ld 7 n r); discriminate.
  - destruct n as [|n]; [discriminate|]. simpl in H. simpl load_camera_rows.
    destruct (scan_row scan_ld 7 s) as [[[ts xs] r]|]; [|discriminate].
    destruct (rows scan_ld 7 n r) as [l'|] eqn:Er; [|discriminate]. injection H as -> -> ->.
    rewrite (IH n r _ Er). unfold set_all. simpl. destruct p, q. reflexivity.
Qed.

(** ** length of a printed row *)
Lemma decw_length w : forall n, length (decw w n) = w.
Proof. induction w as [|w IH]; intros n; simpl; auto. rewrite app_length, IH. simpl. lia. Qed.
Lemma ndigits_le fuel : forall n d, 0 <= n < 10 ^ Z.of_nat d -> (1 <= d)%nat -> (ndigits fuel n <= d)%nat.
Proof.
  induction fuel as [|f IH]; intros n d H D; simpl; auto. destruct (Z.ltb_spec n 10); auto.
  destruct d as [|d]; [lia|]. rewrite Nat2Z.inj_succ, Z.pow_succ_r in H by lia.
  destruct d as [|d]; [simpl in H; lia|].
  apply le_n_S. apply IH; [|lia]. split; [apply Z.div_pos; lia|]. apply Z.div_lt_upper_bound; lia.
Qed.
Lemma dec_length n d : 0 <= n < 10 ^ Z.of_nat d -> (1 <= d)%nat -> (length (dec n) <= d)%nat.
Proof. intros H D. unfold dec. rewrite decw_length. now apply ndigits_le. Qed.
Lemma fmt_f_length x d : (Rabs x < 10 ^ d)%R -> (length (fmt_f x) <= d + 9)%nat.
Proof.
  intros H. unfold fmt_f, fmt_micro. rewrite !app_length, decw_length. simpl length.
  assert (length (dec (micro x / 1000000)) <= S d)%nat; [|destruct (Rlt_dec x 0); simpl; lia].
  apply dec_length; [|lia]. assert (M := micro_pos x). split; [apply Z.div_pos; lia|].
  apply Z.div_lt_upper_bound; [lia|].
  assert (E := micro_err x). apply Rabs_le_inv in E. apply lt_IZR. rewrite mult_IZR, Nat2Z.inj_succ, Z.pow_succ_r by lia.
  rewrite mult_IZR, <- pow_IZR. assert (0 < 10 ^ d)%R by (apply pow_lt; lra).
  assert (1 <= 10 ^ d)%R by (apply pow_R1_Rle; lra). lra.
Qed.
Lemma row_line_length t xs d : int64 t -> Forall (fun x => Rabs x < 10 ^ d)%R xs ->
  (length (row_text t xs) <= 21 + length xs * (d + 10))%nat.
Proof.
  intros I F. unfold row_text. rewrite !app_length. simpl (length [newline]).
  assert (length (dec_signed t) <= 20)%nat.
  { unfold dec_signed, int64 in *. assert (2 ^ 63 < 10 ^ Z.of_nat 19) by (vm_compute; reflexivity). destruct (Z.ltb_spec t 0).
    - simpl length. assert (length (dec (- t)) <= 19)%nat; [apply dec_length; lia|lia].
    - assert (length (dec t) <= 19)%nat; [apply dec_length; lia|lia]. }
  assert (length (flat_map (fun x => comma :: fmt_f x) xs) <= length xs * (d + 10))%nat; [|lia].
  clear -F. induction F as [|x xs H F IH]; [simpl; lia|]. simpl. rewrite app_length. apply fmt_f_length in H. lia.
Qed.
