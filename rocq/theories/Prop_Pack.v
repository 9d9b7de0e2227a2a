(** * C43: packing matrices *)
From Verif Require Import Base PackModel.
From Coq Require Import PeanoNat.
Open Scope nat_scope.

Section Pack.
Context {A : Type}.
Implicit Types (m : mtx A) (x : list A).

(** Same shape and same coefficients within it. *)
Definition same (a b : mtx A) : Prop :=
  rows a = rows b /\ cols a = cols b /\ forall i j, i < rows a -> j < cols a -> coeff a i j = coeff b i j.

Lemma load_col_spec n : forall j i idx x y r, load_col n j i idx x y = Ret r ->
  fst r = idx + n /\ rows (snd r) = rows y /\ cols (snd r) = cols y /\
  (forall a b, coeff (snd r) a b =
     if (j <=? a) && (a <? j + n) && (b =? i) then nth (idx + (a - j)) x (coeff y a b) else coeff y a b).
Proof.
  induction n as [|n IH]; intros j i idx x y r H; cbn [load_col] in H.
  - injection H as <-. simpl. repeat split; auto; try lia. intros a b.
    destruct (Nat.leb_spec j a); destruct (Nat.ltb_spec a (j + 0)); cbn [andb]; auto; lia.
  - destruct (nth_error x idx) as [v|] eqn:E; [|discriminate].
    apply IH in H as (H1 & H2 & H3 & H4). cbn [rows cols setc] in *.
    split; [lia|]. split; auto. split; auto. intros a b. rewrite H4. cbn [setc coeff].
    destruct (Nat.eqb_spec b i) as [->|NB]; [|rewrite !andb_false_r; destruct (Nat.eqb_spec a j); auto].
    rewrite !andb_true_r.
    destruct (Nat.eqb_spec a j) as [->|NA].
    + destruct (Nat.leb_spec (S j) j); [lia|]. cbn [andb].
      destruct (Nat.leb_spec j j); [|lia]. destruct (Nat.ltb_spec j (j + S n)); [|lia]. cbn [andb].
      rewrite Nat.sub_diag, Nat.add_0_r. symmetry. now apply nth_error_nth.
    + destruct (Nat.leb_spec (S j) a), (Nat.leb_spec j a); try lia; cbn [andb]; auto.
      destruct (Nat.ltb_spec a (S j + n)), (Nat.ltb_spec a (j + S n)); try lia; cbn [andb]; auto.
      f_equal. lia.
Qed.
Lemma load_col_ok n : forall j i idx x y, idx + n <= length x -> exists r, load_col n j i idx x y = Ret r.
Proof.
  induction n as [|n IH]; intros j i idx x y H; cbn [load_col]; [eauto|].
  destruct (nth_error x idx) eqn:E; [|apply nth_error_None in E; lia]. apply IH. lia.
Qed.
Lemma load_cols_spec n : forall i idx x y r, load_cols n i idx x y = Ret r ->
  rows (snd r) = rows y /\ cols (snd r) = cols y /\
  (forall a b, a < rows y -> coeff (snd r) a b =
     if (i <=? b) && (b <? i + n) then nth (idx + (b - i) * rows y + a) x (coeff y a b) else coeff y a b).
Proof.
  induction n as [|n IH]; intros i idx x y r H; cbn [load_cols] in H.
  - injection H as <-. simpl. repeat split; auto. intros a b _.
    destruct (Nat.leb_spec i b); destruct (Nat.ltb_spec b (i + 0)); cbn [andb]; auto; lia.
  - destruct (load_col (rows y) 0 i idx x y) as [c| |] eqn:E; try discriminate. cbn [obind] in H.
    apply load_col_spec in E as (E1 & E2 & E3 & E4). apply IH in H as (H1 & H2 & H3).
    rewrite E2 in *. split; [congruence|]. split; [congruence|]. intros a b Ha.
    rewrite H3 by auto. rewrite !E4, E1.
    destruct (Nat.leb_spec 0 a); [|lia]. destruct (Nat.ltb_spec a (0 + rows y)); [|lia]. cbn [andb].
    destruct (Nat.eqb_spec b i) as [->|NB].
    + destruct (Nat.leb_spec (S i) i); [lia|]. cbn [andb]. destruct (Nat.leb_spec i i); [|lia].
      destruct (Nat.ltb_spec i (i + S n)); [|lia]. cbn [andb]. f_equal. rewrite Nat.sub_diag. lia.
    + destruct (Nat.leb_spec (S i) b), (Nat.leb_spec i b); try lia; cbn [andb]; auto.
      destruct (Nat.ltb_spec b (S i + n)), (Nat.ltb_spec b (i + S n)); try lia; cbn [andb]; auto.
      f_equal. replace (b - i) with (S (b - S i)) by lia. lia.
Qed.
Lemma load_cols_ok n : forall i idx x y, idx + n * rows y <= length x -> exists r, load_cols n i idx x y = Ret r.
Proof.
  induction n as [|n IH]; intros i idx x y H; cbn [load_cols]; [eauto|]. simpl in H.
  destruct (load_col_ok (rows y) 0 i idx x y ltac:(lia)) as [c E]. rewrite E. cbn [obind].
  apply load_col_spec in E as (E1 & E2 & _). apply IH. rewrite E1, E2. lia.
Qed.
Lemma load_col_over n : forall j i idx x y, 0 < n -> length x < idx + n -> load_col n j i idx x y = Undef.
Proof.
  induction n as [|n IH]; intros j i idx x y Hn H; [lia|]. cbn [load_col].
  destruct (nth_error x idx) eqn:E; auto.
  assert (idx < length x) by (apply nth_error_Some; congruence).
  apply IH; lia.
Qed.
Lemma load_cols_over n : forall i idx x y, idx <= length x -> length x < idx + n * rows y -> load_cols n i idx x y = Undef.
Proof.
  induction n as [|n IH]; intros i idx x y H1 H2; cbn [load_cols]; [simpl in H2; lia|]. simpl in H2.
  destruct (le_lt_dec (idx + rows y) (length x)) as [L|L].
  - destruct (load_col_ok (rows y) 0 i idx x y L) as [c E]. rewrite E. cbn [obind].
    apply load_col_spec in E as (E1 & E2 & _). apply IH; rewrite ?E1, ?E2; lia.
  - destruct (rows y) as [|r] eqn:ER; [lia|]. rewrite load_col_over by lia. reflexivity.
Qed.

(** C43: load_matrix fills column by column: entry (j, i) is x[i * rows + j]; a
    vector that is too short is read out of bounds. *)
Theorem C43_layout : forall x r c y0,
  (r * c <= length x -> exists m, load_matrix x r c y0 = Ret m /\ rows m = r /\ cols m = c /\
     forall i j, i < r -> j < c -> nth_error x (j * r + i) = Some (coeff m i j)) /\
  (length x < r * c -> load_matrix x r c y0 = Undef).
Proof.
  intros x r c y0. unfold load_matrix. split; intros H.
  - destruct (load_cols_ok c 0 0 x (Mtx r c y0)) as [q E]; [cbn [rows]; lia|].
    rewrite E. exists (snd q). apply load_cols_spec in E as (E1 & E2 & E3). cbn [rows cols] in *.
    split; auto. split; auto. split; auto. intros i j Hi Hj. rewrite E3 by auto.
    destruct (Nat.leb_spec 0 j); [|lia]. destruct (Nat.ltb_spec j (0 + c)); [|lia]. cbn [andb].
    rewrite Nat.sub_0_r, Nat.add_0_l. apply nth_error_nth'. nia.
  - rewrite load_cols_over; cbn [rows]; auto; lia.
Qed.

Lemma fold_app {B C} (f : B -> C) l : forall acc, fold_left (fun a b => a ++ [f b]) l acc = acc ++ map f l.
Proof. induction l as [|b l IH]; intros acc; simpl; [now rewrite app_nil_r|]. rewrite IH, <- app_assoc. reflexivity. Qed.
Lemma fold_flat {B C} (f : B -> list C) (g : list C -> B -> list C) l :
  (forall acc b, g acc b = acc ++ f b) -> forall acc, fold_left g l acc = acc ++ concat (map f l).
Proof.
  intros H. induction l as [|b l IH]; intros acc; simpl; [now rewrite app_nil_r|]. rewrite H, IH, <- app_assoc. reflexivity.
Qed.
Lemma unload_eq m x : unload_matrix m x = x ++ concat (mat2vec m false).
Proof.
  unfold unload_matrix, mat2vec. apply fold_flat. intros acc b. apply (fold_app (fun j => coeff m j b)).
Qed.
Lemma mat2array_eq m : mat2array m = concat (mat2vec m true).
Proof.
  unfold mat2array, mat2vec.
  rewrite (fold_flat (fun i => map (fun j => coeff m i j) (seq 0 (cols m)))); auto.
  intros acc b. apply (fold_app (fun j => coeff m b j)).
Qed.
Lemma nth_concat (l : list (list A)) n : Forall (fun v => length v = n) l -> forall k i, i < n ->
  nth_error (concat l) (k * n + i) = match nth_error l k with Some v => nth_error v i | None => None end.
Proof.
  induction 1 as [|v l H F IH]; intros k i Hi; simpl.
  - destruct (nth_error (@nil A) (k * n + i)) eqn:E; [apply nth_error_In in E; destruct E|]. destruct k; auto.
  - destruct k as [|k].
    + simpl. rewrite nth_error_app1 by lia. reflexivity.
    + cbn [nth_error]. rewrite <- IH by auto. rewrite nth_error_app2 by (simpl; lia). f_equal. simpl. lia.
Qed.
Lemma nth_error_seq n k : k < n -> nth_error (seq 0 n) k = Some k.
Proof.
  intros H. rewrite (nth_error_nth' (seq 0 n) 0) by (rewrite seq_length; auto). now rewrite seq_nth.
Qed.
Lemma nth_error_mapseq {B} (f : nat -> B) n k : k < n -> nth_error (map f (seq 0 n)) k = Some (f k).
Proof. intros H. rewrite nth_error_map, nth_error_seq by auto. reflexivity. Qed.
Lemma concat_len {B} (l : list (list B)) n : Forall (fun v => length v = n) l -> length (concat l) = length l * n.
Proof. induction 1; simpl; auto. rewrite app_length. lia. Qed.
Lemma cols_len m : Forall (fun v => length v = rows m) (mat2vec m false).
Proof.
  apply Forall_forall. intros v H. unfold mat2vec in H. apply in_map_iff in H as (j & <- & _).
  now rewrite map_length, seq_length.
Qed.
Lemma rows_len m : Forall (fun v => length v = cols m) (mat2vec m true).
Proof.
  apply Forall_forall. intros v H. unfold mat2vec in H. apply in_map_iff in H as (j & <- & _).
  now rewrite map_length, seq_length.
Qed.

(** C43: unpacking lists the entries column by column behind what the vector held. *)
Theorem C43_unload_layout : forall m x,
  exists v, unload_matrix m x = x ++ v /\ length v = rows m * cols m /\
  forall i j, i < rows m -> j < cols m -> nth_error v (j * rows m + i) = Some (coeff m i j).
Proof.
  intros m x. exists (concat (mat2vec m false)). split; [apply unload_eq|]. split.
  - rewrite (concat_len _ (rows m)) by apply cols_len. unfold mat2vec. rewrite map_length, seq_length. lia.
  - intros i j Hi Hj. rewrite (nth_concat _ (rows m)) by (auto using cols_len).
    unfold mat2vec. rewrite nth_error_mapseq by auto. now rewrite nth_error_mapseq.
Qed.

(** C43: packing and unpacking are inverse, both ways, for an empty output vector. *)
Theorem C43_matrix_round_trip : forall m y0,
  exists m', load_matrix (unload_matrix m []) (rows m) (cols m) y0 = Ret m' /\ same m' m.
Proof.
  intros m y0. destruct (C43_unload_layout m []) as (v & E & L & H). rewrite E. cbn [app].
  destruct (C43_layout v (rows m) (cols m) y0) as [C _]. destruct C as (m' & E1 & E2 & E3 & E4); [lia|].
  exists m'. split; auto. split; auto. split; auto. intros i j Hi Hj. rewrite E2 in Hi. rewrite E3 in Hj.
  specialize (E4 i j Hi Hj). specialize (H i j Hi Hj). congruence.
Qed.
Theorem C43_vector_round_trip : forall x r c y0, length x = r * c ->
  exists m, load_matrix x r c y0 = Ret m /\ unload_matrix m [] = x.
Proof.
  intros x r c y0 H. destruct (C43_layout x r c y0) as [C _]. destruct C as (m & E1 & E2 & E3 & E4); [lia|].
  exists m. split; auto. destruct (C43_unload_layout m []) as (v & E & L & HV). rewrite E. cbn [app].
  rewrite E2, E3 in *.
  assert (NE : forall k, nth_error v k = nth_error x k).
  { intros k. destruct (le_lt_dec (r * c) k) as [G|G].
    - rewrite !(proj2 (nth_error_None _ _)); auto; lia.
    - assert (r <> 0) by (destruct r; lia).
      assert (K : k = (k / r) * r + k mod r) by (rewrite (Nat.div_mod k r) at 1 by auto; lia).
      assert (k mod r < r) by (apply Nat.mod_upper_bound; auto).
      assert (k / r < c) by (apply Nat.div_lt_upper_bound; auto).
      rewrite K. rewrite HV, E4 by auto. reflexivity. }
  clear -NE. revert v NE. induction x as [|a x IH]; intros [|b v] NE; auto.
  - specialize (NE 0). discriminate.
  - specialize (NE 0). discriminate.
  - assert (N0 := NE 0). injection N0 as ->. f_equal. apply IH. intros k. exact (NE (S k)).
Qed.
(** C43 is false when the output vector is not empty: its old content stays in front
    and the matrix read back is another one. *)
Theorem C43_nonempty_output_refuted : forall m a x y0, 0 < rows m -> 0 < cols m -> coeff m 0 0 <> a ->
  exists m', load_matrix (unload_matrix m (a :: x)) (rows m) (cols m) y0 = Ret m' /\ ~ same m' m.
Proof.
  intros m a x y0 Hr Hc NE. destruct (C43_unload_layout m (a :: x)) as (v & E & L & _). rewrite E.
  destruct (C43_layout ((a :: x) ++ v) (rows m) (cols m) y0) as [C _].
  destruct C as (m' & E1 & E2 & E3 & E4); [rewrite app_length; simpl; lia|].
  exists m'. split; auto. intros (_ & _ & S). specialize (S 0 0). specialize (E4 0 0 Hr Hc). cbn in E4.
  injection E4 as E4. rewrite E2, E3 in S. rewrite <- S in NE by auto. congruence.
Qed.
(** mat2array is row-major: entry (i, j) at i * cols + j. *)
Theorem C43_mat2array_layout : forall m,
  length (mat2array m) = rows m * cols m /\
  forall i j, i < rows m -> j < cols m -> nth_error (mat2array m) (i * cols m + j) = Some (coeff m i j).
Proof.
  intros m. rewrite mat2array_eq. split.
  - rewrite (concat_len _ (cols m)) by apply rows_len. unfold mat2vec. now rewrite map_length, seq_length.
  - intros i j Hi Hj. rewrite (nth_concat _ (cols m)) by (auto using rows_len).
    unfold mat2vec. rewrite nth_error_mapseq by auto. now rewrite nth_error_mapseq.
Qed.
(** mat2vec: the rows or the columns. *)
Theorem C43_mat2vec_layout : forall m,
  length (mat2vec m true) = rows m /\ length (mat2vec m false) = cols m /\
  forall i j, i < rows m -> j < cols m ->
    (exists v, nth_error (mat2vec m true) i = Some v /\ nth_error v j = Some (coeff m i j) /\ length v = cols m) /\
    (exists v, nth_error (mat2vec m false) j = Some v /\ nth_error v i = Some (coeff m i j) /\ length v = rows m).
Proof.
  intros m. unfold mat2vec. rewrite !map_length, !seq_length. split; auto. split; auto. intros i j Hi Hj.
  split; rewrite nth_error_mapseq by auto; eexists; (split; [reflexivity|]);
    rewrite nth_error_mapseq by auto; (split; [reflexivity|]); now rewrite map_length, seq_length.
Qed.
(** vecs2mat: point k in homogeneous coordinates in column k. *)
Theorem C43_vecs2mat_layout : forall (one : A) (vs : list (A * A * A)) y0,
  rows (vecs2mat one vs y0) = 4 /\ cols (vecs2mat one vs y0) = length vs /\
  forall k (x y z : A), nth_error vs k = Some (x, y, z) ->
    coeff (vecs2mat one vs y0) 0 k = x /\ coeff (vecs2mat one vs y0) 1 k = y /\
    coeff (vecs2mat one vs y0) 2 k = z /\ coeff (vecs2mat one vs y0) 3 k = one.
Proof.
  intros one vs y0. unfold vecs2mat.
  match goal with |- context [fold_left ?g vs] => set (f := g) end.
  assert (G : forall (vs : list (A * A * A)) idx m, rows (snd (fold_left f vs (idx, m))) = rows m /\
     cols (snd (fold_left f vs (idx, m))) = cols m /\
     (forall a b, b < idx -> coeff (snd (fold_left f vs (idx, m))) a b = coeff m a b) /\
     (forall k (x y z : A), nth_error vs k = Some (x, y, z) ->
       coeff (snd (fold_left f vs (idx, m))) 0 (idx + k) = x /\ coeff (snd (fold_left f vs (idx, m))) 1 (idx + k) = y /\
       coeff (snd (fold_left f vs (idx, m))) 2 (idx + k) = z /\ coeff (snd (fold_left f vs (idx, m))) 3 (idx + k) = one)).
  { induction vs0 as [|[[x y] z] l IH]; intros idx m.
    - simpl. repeat split; auto; destruct k; discriminate.
    - cbn [fold_left]. change (f (idx, m) (x, y, z)) with (S idx, setc (setc (setc (setc m 0 idx x) 1 idx y) 2 idx z) 3 idx one).
      destruct (IH (S idx) (setc (setc (setc (setc m 0 idx x) 1 idx y) 2 idx z) 3 idx one)) as (R & C & K & N).
      split; [exact R|]. split; [exact C|]. split.
      + intros a b Hb. rewrite K by lia. cbn [setc coeff].
        destruct (Nat.eqb_spec b idx); [lia|]. now rewrite !andb_false_r.
      + intros k x' y' z' HK. destruct k as [|k].
        * injection HK as <- <- <-. rewrite Nat.add_0_r, !K by lia. cbn [setc coeff].
          rewrite !Nat.eqb_refl. simpl. auto.
        * replace (idx + S k) with (S idx + k) by lia. now apply N. }
  destruct (G vs 0 (Mtx 4 (length vs) y0)) as (R & C & _ & N). split; [exact R|]. split; [exact C|].
  intros k x y z H. apply (N k x y z H).
Qed.
(** array2vec never delivers its result. *)
Theorem C43_array2vec_refuted : forall x y : list A, array2vec x y = y.
Proof. reflexivity. Qed.
(** hstack / vstack keep both blocks. *)
Theorem C43_hstack : forall a b : mtx A, rows a = rows b -> exists c, hstack a b = Ret c /\
  rows c = rows a /\ cols c = cols a + cols b /\
  (forall i j, j < cols a -> coeff c i j = coeff a i j) /\ (forall i j, coeff c i (cols a + j) = coeff b i j).
Proof.
  intros a b H. unfold hstack. rewrite H, Nat.eqb_refl. eexists. split; [reflexivity|]. cbn [rows cols coeff].
  repeat split; auto; intros i j.
  - intros HJ. destruct (Nat.ltb_spec j (cols a)); [auto|lia].
  - destruct (Nat.ltb_spec (cols a + j) (cols a)); [lia|]. f_equal. lia.
Qed.
Theorem C43_vstack : forall a b : mtx A, cols a = cols b -> exists c, vstack a b = Ret c /\
  rows c = rows a + rows b /\ cols c = cols a /\
  (forall i j, i < rows a -> coeff c i j = coeff a i j) /\ (forall i j, coeff c (rows a + i) j = coeff b i j).
Proof.
  intros a b H. unfold vstack. rewrite H, Nat.eqb_refl. eexists. split; [reflexivity|]. cbn [rows cols coeff].
  repeat split; auto; intros i j.
  - intros HJ. destruct (Nat.ltb_spec i (rows a)); [auto|lia].
  - destruct (Nat.ltb_spec (rows a + i) (rows a)); [lia|]. f_equal. lia.
Qed.
End Pack.
Example C43_witness : let m := Mtx 2 3 (fun i j => 10 * i + j) in
  unload_matrix m [] = [0; 10; 1; 11; 2; 12] /\ mat2array m = [0; 1; 2; 10; 11; 12] /\
  omap (fun m' => map (fun j => map (fun i => coeff m' i j) [0; 1]) [0; 1; 2]) (load_matrix [0; 10; 1; 11; 2; 12] 2 3 (fun _ _ => 99))
    = Ret [[0; 10]; [1; 11]; [2; 12]].
Proof. repeat split; reflexivity. Qed.
Print Assumptions C43_matrix_round_trip.
