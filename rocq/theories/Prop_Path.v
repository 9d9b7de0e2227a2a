(** * C44: path helpers *)
From Verif Require Import Base TextModel PathModel.
From Coq Require Import Ascii.
Open Scope nat_scope.

(** ** Specification *)
(** The pieces between slashes, empty ones included, and the non-empty ones. *)
Fixpoint pieces (cur p : text) : list text :=
  match p with
  | [] => [cur]
  | c :: p' => if Ascii.eqb c slash then cur :: pieces [] p' else pieces (cur ++ [c]) p'
  end.
Definition nonempty (s : text) : bool := match s with [] => false | _ => true end.
Definition components (p : text) : list text := filter nonempty (pieces [] p).
(** A path written without redundant slashes. *)
Fixpoint inter (ws : list text) : text :=
  match ws with
  | [] => []
  | [w] => w
  | w :: r => w ++ slash :: inter r
  end.
Definition path_of (absolute : bool) (ws : list text) : text :=
  (if absolute then [slash] else []) ++ inter ws.
Definition component (w : text) : Prop := w <> [] /\ ~ In slash w.

(** ** path_split *)
Lemma split_pieces p : forall s,
  split_loop p s = filter nonempty (pieces s p) ++ (if nonempty (last (pieces s p) []) then [] else [[]]).
Proof.
  assert (PN : forall q s, pieces s q <> []).
  { induction q as [|c q IH]; intros s; simpl; [discriminate|]. destruct (Ascii.eqb c slash); [discriminate|apply IH]. }
  induction p as [|c p IH]; intros s.
  - destruct s; reflexivity.
  - cbn [split_loop pieces]. destruct (Ascii.eqb c slash) eqn:E.
    + cbn [negb]. rewrite andb_true_r.
      assert (L : last (s :: pieces [] p) [] = last (pieces [] p) []).
      { destruct (pieces [] p) eqn:EP; [now apply PN in EP|reflexivity]. }
      rewrite L. destruct s as [|x s]; cbn [negb filter nonempty]; rewrite IH; reflexivity.
    + rewrite andb_false_r. cbn [negb]. apply IH.
Qed.
Lemma pieces_last q : forall s c, c <> slash -> nonempty (last (pieces s (q ++ [c])) []) = true.
Proof.
  assert (PN : forall q s, pieces s q <> []).
  { induction q0 as [|c q0 IH]; intros s; simpl; [discriminate|]. destruct (Ascii.eqb c slash); [discriminate|apply IH]. }
  induction q as [|x q IH]; intros s c H; cbn [app pieces].
  - destruct (Ascii.eqb_spec c slash); [contradiction|]. cbn [pieces last]. destruct s; reflexivity.
  - destruct (Ascii.eqb x slash); [|apply IH; auto].
    specialize (IH [] c H). destruct (pieces [] (q ++ [c])) eqn:E; [now apply PN in E|exact IH].
Qed.
Lemma pieces_last_slash q : forall s, nonempty (last (pieces s (q ++ [slash])) []) = false.
Proof.
  assert (PN : forall q s, pieces s q <> []).
  { induction q0 as [|c q0 IH]; intros s; simpl; [discriminate|]. destruct (Ascii.eqb c slash); [discriminate|apply IH]. }
  induction q as [|x q IH]; intros s; cbn [app pieces].
  - rewrite Ascii.eqb_refl. reflexivity.
  - destruct (Ascii.eqb x slash); [|apply IH].
    specialize (IH []). destruct (pieces [] (q ++ [slash])) eqn:E; [now apply PN in E|exact IH].
Qed.
(** C44, path_split: the non-empty components of every path that does not end in a slash. *)
Theorem C44_path_split_partial : forall q c, c <> slash -> path_split (q ++ [c]) = components (q ++ [c]).
Proof.
  intros q c H. unfold path_split, components. rewrite split_pieces, pieces_last by auto. apply app_nil_r.
Qed.
(** For the empty path and after a trailing slash an empty component is added. *)
Theorem C44_trailing_slash_refuted : forall p, p = [] \/ (exists q, p = q ++ [slash]) ->
  path_split p = components p ++ [[]].
Proof.
  intros p [ -> |[q -> ]]; [reflexivity|]. unfold path_split, components.
  rewrite split_pieces, pieces_last_slash. reflexivity.
Qed.

Lemma split_word w : forall s p, ~ In slash w -> split_loop (w ++ p) s = split_loop p (s ++ w).
Proof.
  induction w as [|c w IH]; intros s p H; simpl app; [now rewrite app_nil_r|].
  cbn [split_loop]. destruct (Ascii.eqb_spec c slash); [exfalso; apply H; left; auto|].
  rewrite andb_false_r. cbn [negb]. rewrite IH by (intros C; apply H; right; auto). now rewrite <- app_assoc.
Qed.
Lemma inter_cons2 w v r : inter (w :: v :: r) = w ++ slash :: inter (v :: r).
Proof. reflexivity. Qed.
Lemma split_inter ws : ws <> [] -> Forall component ws -> path_split (inter ws) = ws.
Proof.
  unfold path_split. induction ws as [|w [|v r] IH]; intros N F; [congruence| |]; inversion F as [|? ? [H1 H2] F']; subst.
  - cbn [inter]. rewrite <- (app_nil_r w). rewrite split_word by auto. simpl. now rewrite app_nil_r.
  - rewrite inter_cons2, split_word by auto. simpl app. cbn [split_loop]. rewrite Ascii.eqb_refl.
    destruct w as [|x w]; [congruence|]. cbn [negb andb]. f_equal. apply IH; auto. discriminate.
Qed.
Lemma split_path abs ws : ws <> [] -> Forall component ws -> path_split (path_of abs ws) = ws.
Proof.
  intros N F. destruct abs; [|now apply split_inter]. change (path_of true ws) with (slash :: inter ws).
  unfold path_split. cbn [split_loop]. rewrite Ascii.eqb_refl. cbn [negb andb]. now apply split_inter.
Qed.

(** ** paths_join *)
Lemma text_eqb_eq a : forall b, text_eqb a b = true <-> a = b.
Proof.
  induction a as [|x a IH]; intros [|y b]; simpl; split; intros H; try discriminate; auto.
  - apply andb_prop in H as [H1 H2]. apply Ascii.eqb_eq in H1. apply IH in H2. congruence.
  - injection H as -> ->. rewrite Ascii.eqb_refl. cbn [andb]. now apply IH.
Qed.
Lemma count_up_spec k R : Forall (fun w => w <> dotdot) R -> count_up (repeat dotdot k ++ R) = k.
Proof.
  intros F. unfold count_up. rewrite filter_app, app_length.
  assert (A : filter (fun s => text_eqb s dotdot) R = []).
  { induction F as [|w R H F IH]; auto. cbn [filter]. destruct (text_eqb w dotdot) eqn:E; auto.
    apply text_eqb_eq in E. contradiction. }
  rewrite A. simpl length. rewrite Nat.add_0_r. clear. induction k; simpl; auto.
Qed.
Lemma pop_n_ok k : forall A, k <= length A -> pop_n k A = Ret (firstn (length A - k) A).
Proof.
  induction k as [|k IH]; intros A H.
  - rewrite Nat.sub_0_r, firstn_all. reflexivity.
  - destruct A as [|a A]; [simpl in H; lia|]. cbn [pop_n].
    destruct (exists_last (l := a :: A) ltac:(discriminate)) as (B & b & E). rewrite E, removelast_last.
    rewrite E in H. rewrite app_length in *. simpl in H. rewrite IH by lia.
    rewrite firstn_app. replace (length B + length [b] - S k - length B) with 0 by (simpl; lia).
    cbn [firstn]. rewrite app_nil_r. f_equal. f_equal. simpl; lia.
Qed.
Lemma pop_n_over k : forall A, length A < k -> pop_n k A = Undef.
Proof.
  induction k as [|k IH]; intros A H; [lia|]. destruct A as [|a A]; [reflexivity|]. cbn [pop_n].
  apply IH. destruct (exists_last (l := a :: A) ltac:(discriminate)) as (B & b & E). rewrite E, removelast_last.
  rewrite E, app_length in H. simpl in H. lia.
Qed.
Lemma ws_inter ws : ws <> [] -> with_slashes ws = inter ws ++ [slash].
Proof.
  unfold with_slashes. induction ws as [|w [|v r] IH]; intros N; [congruence| |].
  - simpl. now rewrite app_nil_r.
  - rewrite inter_cons2. cbn [map concat] in *. rewrite IH by discriminate.
    now rewrite <- !app_assoc.
Qed.
Lemma inter_last ws : ws <> [] -> Forall component ws -> exists q c, inter ws = q ++ [c] /\ c <> slash.
Proof.
  induction ws as [|w [|v r] IH]; intros N F; [congruence| |]; inversion F as [|? ? [H1 H2] F']; subst.
  - destruct (exists_last H1) as (q & c & E). exists q, c. split; auto.
    intros ->. apply H2. rewrite E. apply in_or_app. right; left; auto.
  - destruct IH as (q & c & E & H); auto; [discriminate|]. exists (w ++ slash :: q), c. split; auto.
    rewrite inter_cons2, E. now rewrite <- app_assoc.
Qed.
Lemma drop_slashes_n n : forall r, (forall c r', r = c :: r' -> c <> slash) -> r <> [] ->
  drop_slashes (repeat slash n ++ r) = r.
Proof.
  induction n as [|n IH]; intros r H N.
  - destruct r as [|c [|d r]]; [congruence|reflexivity|]. cbn [repeat app drop_slashes].
    destruct (Ascii.eqb_spec c slash); auto. exfalso. eapply H; eauto.
  - cbn [repeat app drop_slashes]. destruct (repeat slash n ++ r) eqn:E.
    { apply app_eq_nil in E. tauto. }
    rewrite Ascii.eqb_refl, <- E. now apply IH.
Qed.
Lemma trim_path abs ws n : ws <> [] -> Forall component ws ->
  trim_slashes ((if abs : bool then [slash] else []) ++ inter ws ++ repeat slash n) = Ret (path_of abs ws).
Proof.
  intros N F. destruct (inter_last ws N F) as (q & c & E & H).
  set (pre := if abs then [slash] else []). unfold trim_slashes.
  assert (NE : pre ++ inter ws ++ repeat slash n <> []).
  { rewrite E. intros C. apply app_eq_nil in C as [_ C]. apply app_eq_nil in C as [C _].
    apply app_eq_nil in C as [_ C]. discriminate. }
  assert (RV : rev (drop_slashes (rev (pre ++ inter ws ++ repeat slash n))) = pre ++ inter ws).
  { rewrite app_assoc, rev_app_distr.
    assert (RR : rev (repeat slash n) = repeat slash n).
    { clear. induction n; auto. cbn [repeat rev]. rewrite IHn. clear. induction n; auto. cbn [repeat app]. now rewrite IHn. }
    rewrite RR, drop_slashes_n; [apply rev_involutive| |].
    - rewrite E, app_assoc, rev_app_distr. simpl. intros x r' C. injection C as <- _. auto.
    - rewrite E, app_assoc, rev_app_distr. discriminate. }
  destruct (pre ++ inter ws ++ repeat slash n) eqn:EQ; [congruence|]. now rewrite RV.
Qed.

Lemma head_abs abs ws : ws <> [] -> Forall component ws ->
  match path_of abs ws with c :: _ => if Ascii.eqb c slash then [slash] else [] | [] => [] end =
  (if abs then [slash] else []).
Proof.
  intros N F. destruct abs; [reflexivity|]. unfold path_of. cbn [app].
  destruct ws as [|w r]; [congruence|]. inversion F as [|? ? [H1 H2] ?]; subst.
  destruct w as [|c w]; [congruence|].
  assert (C : Ascii.eqb c slash = false) by (apply Ascii.eqb_neq; intros ->; apply H2; left; auto).
  destruct r; simpl; now rewrite C.
Qed.
Lemma component_dotdot : component dotdot.
Proof. split; [discriminate|]. intros [C|[C|[]]]; discriminate. Qed.

(** C44, paths_join: each leading ".." of the second path removes one component of
    the first, for paths without redundant slashes. *)
Theorem C44_paths_join_partial : forall abs A k R,
  A <> [] -> Forall component A -> Forall component R -> Forall (fun w => w <> dotdot) R ->
  k <= length A -> repeat dotdot k ++ R <> [] -> (abs = true \/ firstn (length A - k) A ++ R <> []) ->
  paths_join (path_of abs A) (path_of false (repeat dotdot k ++ R)) =
    Ret (path_of abs (firstn (length A - k) A ++ R)).
Proof.
  intros abs A k R NA FA FR FD HK NB NF. unfold paths_join.
  assert (FB : Forall component (repeat dotdot k ++ R)).
  { apply Forall_app. split; auto. apply Forall_forall. intros w H. apply repeat_spec in H. subst. apply component_dotdot. }
  rewrite !split_path, count_up_spec by auto. rewrite pop_n_ok by auto. cbn [obind].
  rewrite head_abs by auto.
  rewrite skipn_app, skipn_all2 by (rewrite repeat_length; lia). rewrite repeat_length, Nat.sub_diag. cbn [skipn app].
  assert (WS : with_slashes (firstn (length A - k) A) ++ with_slashes R = with_slashes (firstn (length A - k) A ++ R)).
  { unfold with_slashes. now rewrite map_app, concat_app. }
  rewrite WS.
  destruct (list_eq_dec (list_eq_dec ascii_dec) (firstn (length A - k) A ++ R) []) as [E|E].
  - rewrite E. destruct NF as [ -> |NF]; [|congruence]. reflexivity.
  - rewrite ws_inter by auto. apply (trim_path abs _ 1); auto. apply Forall_app. split; auto.
    apply Forall_forall. intros w H. rewrite Forall_forall in FA. apply FA.
    rewrite <- (firstn_skipn (length A - k) A). apply in_or_app; auto.
Qed.
Definition w (c : ascii) : text := [c].
Example C44_join_witness :
  paths_join (path_of true [w "a"; w "b"]%char) (path_of false (repeat dotdot 1 ++ [w "c"]%char)) =
    Ret (path_of true [w "a"; w "c"]%char) /\ Forall component [w "a"; w "b"]%char.
Proof.
  split; [reflexivity|]. repeat constructor; try discriminate; intros [C|[]]; discriminate.
Qed.
(** More ".." than components: pop_back on an empty vector. *)
Theorem C44_too_many_up_refuted : forall abs A k R,
  A <> [] -> Forall component A -> Forall component R -> Forall (fun w => w <> dotdot) R -> length A < k ->
  paths_join (path_of abs A) (path_of false (repeat dotdot k ++ R)) = Undef.
Proof.
  intros abs A k R NA FA FR FD HK. unfold paths_join.
  assert (FB : Forall component (repeat dotdot k ++ R)).
  { apply Forall_app. split; auto. apply Forall_forall. intros x H. apply repeat_spec in H. subst. apply component_dotdot. }
  assert (repeat dotdot k ++ R <> []) by (destruct k; [lia|discriminate]).
  rewrite !split_path, count_up_spec by auto. rewrite pop_n_over by auto. reflexivity.
Qed.
(** Going up from a single relative component yields the empty string, whose
    length - 1 wraps around: out-of-bounds read. *)
Theorem C44_empty_result_refuted : forall a, component a -> paths_join a dotdot = Undef.
Proof.
  intros a H. unfold paths_join.
  assert (E : path_split a = [a]) by (apply (split_inter [a]); [discriminate|constructor; auto]).
  rewrite E. cbn [path_split split_loop dotdot negb andb]. simpl.
  destruct a as [|c a]; [destruct H; congruence|]. destruct (Ascii.eqb_spec c slash) as [->|]; [|reflexivity].
  exfalso. apply (proj2 H). left; auto.
Qed.
(** A trailing slash on the first path swallows one "..", and a ".." that is not
    leading removes the wrong components. *)
Theorem C44_join_wrong_refuted :
  paths_join (path_of false [w "a"; w "b"] ++ [slash])%char (path_of false [dotdot; w "c"])%char =
    Ret (path_of false [w "a"; w "b"; w "c"]%char) /\
  paths_join (path_of false [w "a"; w "b"])%char (path_of false [w "c"; dotdot; w "d"])%char =
    Ret (path_of false [w "a"; dotdot; w "d"]%char).
Proof. split; reflexivity. Qed.

(** ** The other helpers *)
Lemma find_last_hit p a c b : p c = true -> (forall x, In x b -> p x = false) ->
  find_last p (a ++ c :: b) = Some (length a).
Proof.
  intros Hc Hb. assert (N : find_last p b = None).
  { clear - Hb. induction b as [|x b IH]; auto. cbn [find_last].
    rewrite IH by (intros; apply Hb; right; auto). now rewrite (Hb x) by (left; auto). }
  induction a as [|x a IH]; cbn [app find_last length].
  - now rewrite N, Hc.
  - now rewrite IH.
Qed.
Lemma find_last_miss p b : (forall x, In x b -> p x = false) -> find_last p b = None.
Proof.
  intros Hb. induction b as [|x b IH]; auto. cbn [find_last].
  rewrite IH by (intros; apply Hb; right; auto). now rewrite (Hb x) by (left; auto).
Qed.
Lemma find_first_hit p a c b : p c = true -> (forall x, In x a -> p x = false) ->
  find_first p (a ++ c :: b) = Some (length a).
Proof.
  intros Hc Ha. induction a as [|x a IH]; cbn [app find_first length].
  - now rewrite Hc.
  - rewrite (Ha x) by (left; auto). rewrite IH by (intros; apply Ha; right; auto). reflexivity.
Qed.
Lemma find_first_miss p a : (forall x, In x a -> p x = false) -> find_first p a = None.
Proof.
  intros Ha. induction a as [|x a IH]; auto. cbn [find_first].
  rewrite (Ha x) by (left; auto). rewrite IH by (intros; apply Ha; right; auto). reflexivity.
Qed.
Lemma mem_in c set : mem c set = true <-> In c set.
Proof.
  unfold mem. rewrite existsb_exists. split.
  - intros (x & H & E). apply Ascii.eqb_eq in E. now subst.
  - intros H. exists c. split; auto. apply Ascii.eqb_refl.
Qed.
Lemma mem_out c set : mem c set = false <-> ~ In c set.
Proof. rewrite <- mem_in. symmetry. apply not_true_iff_false. Qed.
Lemma firstn_len {A} (a b : list A) : firstn (length a) (a ++ b) = a.
Proof. rewrite firstn_app, Nat.sub_diag. cbn [firstn]. now rewrite firstn_all, app_nil_r. Qed.
Lemma skipn_len {A} (a b : list A) : skipn (length a) (a ++ b) = b.
Proof. rewrite skipn_app, Nat.sub_diag, skipn_all. reflexivity. Qed.

(** C44: directory and file part of a path with a separator. *)
Theorem C44_dir_and_name : forall d sep f, sep = slash \/ sep = backslash ->
  ~ In slash f -> ~ In backslash f ->
  dir_name (d ++ sep :: f) = d /\ parse_fname (d ++ sep :: f) = f.
Proof.
  intros d sep f HS H1 H2. unfold dir_name, parse_fname, find_last_of. split.
  - rewrite find_last_hit; [apply firstn_len| |].
    + apply mem_in. simpl. destruct HS; auto.
    + intros x Hx. apply mem_out. intros [ <- |[ <- |[]]]; contradiction.
  - rewrite find_last_hit.
    + replace (length d + 1) with (length (d ++ [sep])) by (rewrite app_length; auto).
      replace (d ++ sep :: f) with ((d ++ [sep]) ++ f) by (now rewrite <- app_assoc). apply skipn_len.
    + apply mem_in. simpl. destruct HS; auto.
    + intros x Hx. apply mem_out. intros [ <- |[ <- |[]]]; contradiction.
Qed.
(** Without a separator the "directory" is the path itself. *)
Theorem C44_dir_name_refuted : forall f, ~ In slash f -> ~ In backslash f ->
  dir_name f = f /\ parse_fname f = f.
Proof.
  intros f H1 H2. unfold dir_name, parse_fname, find_last_of.
  rewrite !find_last_miss; auto; intros x Hx; apply mem_out; intros [ <- |[ <- |[]]]; contradiction.
Qed.
(** C44: name and extension around the last dot. *)
Theorem C44_extension : forall a e, ~ In dot e ->
  remove_ext (a ++ dot :: e) = a /\ parse_fext (a ++ dot :: e) = Ret (dot :: e).
Proof.
  intros a e H. unfold remove_ext, parse_fext, find_last_of. split.
  - rewrite find_last_hit; [apply firstn_len|apply Ascii.eqb_refl|].
    intros x Hx. apply Ascii.eqb_neq. intros ->. contradiction.
  - rewrite find_last_hit; [now rewrite skipn_len|apply mem_in; left; auto|].
    intros x Hx. apply mem_out. intros [ <- |[]]. contradiction.
Qed.
(** Without a dot parse_fext throws; remove_ext returns the name. *)
Theorem C44_no_dot_refuted : forall a, ~ In dot a -> parse_fext a = Throw OutOfRange /\ remove_ext a = a.
Proof.
  intros a H. unfold remove_ext, parse_fext, find_last_of. rewrite !find_last_miss; auto.
  - intros x Hx. apply Ascii.eqb_neq. intros ->. contradiction.
  - intros x Hx. apply mem_out. intros [ <- |[]]. contradiction.
Qed.
(** A dot in a directory name is taken for the extension. *)
Theorem C44_dotted_directory_refuted : forall d e f, ~ In dot (e ++ slash :: f) ->
  remove_ext (d ++ dot :: e ++ slash :: f) = d /\ parse_fext (d ++ dot :: e ++ slash :: f) = Ret (dot :: e ++ slash :: f).
Proof. intros d e f H. now apply C44_extension. Qed.

(** C44: strip removes exactly the target characters at both ends. *)
Theorem C44_strip : forall t s1 m s2,
  (forall x, In x s1 -> In x t) -> (forall x, In x s2 -> In x t) ->
  (exists c, In c m /\ ~ In c t) -> (forall c r, m = c :: r -> ~ In c t) -> (forall c q, m = q ++ [c] -> ~ In c t) ->
  strip (s1 ++ m ++ s2) t = m /\ strip_end (s1 ++ m ++ s2) t = s1 ++ m.
Proof.
  intros t s1 m s2 H1 H2 (c0 & Hc0 & _) Hf Hl.
  destruct m as [|c m]; [destruct Hc0|]. 
  destruct (exists_last (l := c :: m) ltac:(discriminate)) as (q & d & E).
  assert (FL : find_last_not_of (s1 ++ (c :: m) ++ s2) t = Some (length (s1 ++ q))).
  { rewrite E, <- app_assoc. simpl app. rewrite app_assoc. unfold find_last_not_of. apply find_last_hit.
    - rewrite (proj2 (mem_out d t)); auto. eapply Hl; eauto.
    - intros x Hx. rewrite (proj2 (mem_in x t)); auto. }
  assert (FF : find_first_not_of (s1 ++ (c :: m) ++ s2) t = Some (length s1)).
  { simpl app. unfold find_first_not_of. apply find_first_hit.
    - rewrite (proj2 (mem_out c t)); auto. eapply Hf; eauto.
    - intros x Hx. rewrite (proj2 (mem_in x t)); auto. }
  unfold strip, strip_end. rewrite FF, FL. split.
  - rewrite skipn_len. replace (length (s1 ++ q) - length s1 + 1) with (length (c :: m)).
    + apply firstn_len.
    + rewrite E, !app_length. simpl. lia.
  - replace (length (s1 ++ q) + 1) with (length (s1 ++ c :: m)).
    + rewrite app_assoc. apply firstn_len.
    + rewrite E, !app_length. simpl. lia.
Qed.
Example C44_strip_witness : strip [space; "a"; space; "b"; space; space]%char [space] = ["a"; space; "b"]%char.
Proof. reflexivity. Qed.
(** A string of target characters only is returned unchanged by strip, but emptied by strip_end. *)
Theorem C44_strip_all_refuted : forall t s, (forall x, In x s -> In x t) -> strip s t = s /\ strip_end s t = [].
Proof.
  intros t s H. unfold strip, strip_end, find_first_not_of, find_last_not_of.
  rewrite find_first_miss, find_last_miss; auto; intros x Hx; now rewrite (proj2 (mem_in x t)) by auto.
Qed.
(** file_copy writes exactly the source, whatever its length. *)
Theorem C44_file_copy : forall n src, 0 < n -> copy_loop (S (length src)) n src [] = Some src.
Proof.
  intros n src Hn.
  assert (G : forall fuel s out, length s < fuel -> copy_loop fuel n s out = Some (out ++ s)).
  { induction fuel as [|f IH]; intros s out H; [lia|]. cbn [copy_loop].
    destruct (firstn n s) as [|c r] eqn:E.
    - destruct s; [now rewrite app_nil_r|]. destruct n; [lia|discriminate].
    - rewrite IH.
      + rewrite <- app_assoc, <- E, firstn_skipn. reflexivity.
      + destruct s; [destruct n; discriminate|]. rewrite skipn_length. simpl length in *. lia. }
  apply G. lia.
Qed.
Print Assumptions C44_paths_join_partial.
