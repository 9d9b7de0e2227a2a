(** * C51, C59, C67: statistics, binomial coefficients, linspace, random helpers *)
From Verif Require Import Base GeomModel StatsModel.
From Coq Require Import Reals Lra Lia List Permutation Sorted Psatz.
From Flocq Require Import Core.Core Relative.
Import ListNotations.
Local Open Scope R_scope.

(** ** Specification *)
(** textbook sum over a list *)
Definition Sum (f : R -> R) (l : list R) : R := fold_right (fun x s => f x + s) 0 l.
Definition N (l : list R) : R := INR (length l).
(** number of values with a property *)
Fixpoint count (P : R -> Prop) (dec : forall x, {P x} + {~ P x}) (l : list R) : nat :=
  match l with [] => O | x :: l' => (if dec x then 1 else 0) + count P dec l' end%nat.
Definition count_le (m : R) := count (fun x => x <= m) (fun x => Rle_dec x m).
Definition count_ge (m : R) := count (fun x => m <= x) (fun x => Rle_dec m x).
(** n! / (k! (n-k)!) *)
Definition binom_coeff (n k : nat) : R := INR (fact n) / (INR (fact k) * INR (fact (n - k))).

(** ** sums *)
Lemma fold_left_sum (g : R -> R) l : forall a, fold_left (fun s x => s + g x) l a = a + Sum g l.
Proof. induction l as [|x l IH]; simpl; intros; [lra|]. rewrite IH. lra. Qed.
Lemma fold_left_id l a : fold_left Rplus l a = a + Sum (fun x => x) l.
Proof. exact (fold_left_sum (fun x => x) l a). Qed.
Lemma Sum_ext f g l : (forall x, f x = g x) -> Sum f l = Sum g l.
Proof. intros H. induction l; simpl; auto. now rewrite H, IHl. Qed.
Lemma Sum_lin a b f g l : Sum (fun x => a * f x + b * g x) l = a * Sum f l + b * Sum g l.
Proof. induction l; simpl; lra. Qed.
Lemma Sum_const c l : Sum (fun _ => c) l = c * N l.
Proof. unfold N. induction l as [|x l IH]; [simpl; lra|]. change (length (x :: l)) with (S (length l)). rewrite S_INR. simpl. lra. Qed.
Lemma Sum_pos f l : (forall x, 0 <= f x) -> 0 <= Sum f l.
Proof. intros H. induction l; simpl; [lra|]. generalize (H a). lra. Qed.
Lemma Sum_perm f l l' : Permutation l l' -> Sum f l = Sum f l'.
Proof. induction 1; simpl; lra. Qed.
Lemma N_pos l : l <> [] -> 0 < N l.
Proof. unfold N. destruct l; [congruence|]. intros _. apply lt_0_INR. simpl. lia. Qed.

(** ** C51: mean, variance, standard deviation, root mean square *)
Theorem C51_mean : forall x, x <> [] ->
  StatsModel.sum x = Sum (fun v => v) x /\
  exists m, mean x = Some m /\ N x * m = Sum (fun v => v) x /\
  Sum (fun v => v - m) x = 0 /\
  (forall lo hi, (forall v, In v x -> lo <= v <= hi) -> lo <= m <= hi).
Proof.
  intros x Hx. assert (P := N_pos _ Hx). split.
  { unfold StatsModel.sum. rewrite fold_left_id. lra. }
  unfold mean, fdiv. fold (N x). destruct Req_EM_T; [lra|].
  rewrite fold_left_id, Rplus_0_l. eexists. split; [reflexivity|]. repeat split.
  - field. lra.
  - rewrite (Sum_ext _ (fun v => 1 * v + (-1) * (Sum (fun v => v) x / N x))) by (intros; lra).
    rewrite (Sum_lin 1 (-1) (fun v => v) (fun _ => Sum (fun v => v) x / N x)), Sum_const. field. lra.
  - apply Rmult_le_reg_l with (N x); auto. replace (N x * (Sum (fun v => v) x / N x)) with (Sum (fun v => v) x) by (field; lra).
    rewrite Rmult_comm, <- Sum_const. clear - H. induction x as [|a x IH]; simpl; [lra|].
    assert (lo <= a <= hi) by (apply H; now left). assert (Sum (fun _ => lo) x <= Sum (fun v => v) x) by (apply IH; intros; apply H; now right). lra.
  - apply Rmult_le_reg_l with (N x); auto. replace (N x * (Sum (fun v => v) x / N x)) with (Sum (fun v => v) x) by (field; lra).
    rewrite Rmult_comm, <- Sum_const. clear - H. induction x as [|a x IH]; simpl; [lra|].
    assert (lo <= a <= hi) by (apply H; now left). assert (Sum (fun v => v) x <= Sum (fun _ => hi) x) by (apply IH; intros; apply H; now right). lra.
Qed.

Theorem C51_var : forall x, (2 <= length x)%nat ->
  exists m v, mean x = Some m /\ var x = Some v /\ 0 <= v /\
  (N x - 1) * v = Sum (fun a => (a - m) ^ 2) x /\
  (N x - 1) * v = Sum (fun a => a ^ 2) x - N x * m ^ 2 /\
  stddev x = Some (sqrt v) /\ sqrt v ^ 2 = v.
Proof.
  intros x Hx. assert (NE : x <> []) by (destruct x; simpl in *; [lia|congruence]).
  destruct (C51_mean x NE) as (_ & m & Em & Hm & _). exists m. unfold stddev, var. rewrite Em.
  assert (P : 2 <= N x) by (unfold N; change 2 with (INR 2); now apply le_INR).
  unfold fdiv. fold (N x). destruct Req_EM_T; [lra|].
  rewrite (fold_left_sum (fun a => (a - m) ^ 2)), Rplus_0_l.
  set (S2 := Sum (fun a => (a - m) ^ 2) x).
  assert (V : 0 <= S2) by (apply Sum_pos; intros; apply pow2_ge_0).
  assert (V' : 0 <= S2 / (N x - 1)).
  { apply Rmult_le_pos; auto. apply Rlt_le, Rinv_0_lt_compat. lra. }
  exists (S2 / (N x - 1)). repeat split; auto.
  - field. lra.
  - replace ((N x - 1) * (S2 / (N x - 1))) with S2 by (field; lra). unfold S2.
    rewrite (Sum_ext _ (fun a => 1 * (1 * a ^ 2 + (- 2 * m) * a) + m ^ 2 * 1)) by (intros; ring).
    rewrite (Sum_lin 1 (m ^ 2) (fun a => 1 * a ^ 2 + (- 2 * m) * a) (fun _ => 1)).
    rewrite (Sum_lin 1 (- 2 * m) (fun a => a ^ 2) (fun a => a)), Sum_const, <- Hm. ring.
  - rewrite <- Rsqr_pow2. now apply Rsqr_sqrt.
Qed.
(** the two degenerate cases: an empty vector has no mean, a single value no variance *)
Theorem C51_degenerate : mean [] = None /\ rmse [] = None /\ (forall a, var [a] = None) /\ var [] = None.
Proof.
  unfold mean, rmse, var, mean, fdiv. simpl. repeat split; intros; repeat (destruct Req_EM_T; try lra; auto).
Qed.
Theorem C51_rmse : forall x, x <> [] -> exists e, rmse x = Some e /\ 0 <= e /\
  N x * e ^ 2 = Sum (fun a => a ^ 2) x /\
  (forall m v, mean x = Some m -> var x = Some v -> e ^ 2 = m ^ 2 + (N x - 1) / N x * v).
Proof.
  intros x Hx. assert (P := N_pos _ Hx). unfold rmse, fdiv. fold (N x). destruct Req_EM_T; [lra|].
  rewrite (fold_left_sum (fun a => a * a)), Rplus_0_l. simpl option_map. eexists. split; [reflexivity|].
  rewrite (Sum_ext (fun a => a * a) (fun a => a ^ 2)) by (intros; ring).
  assert (Q : 0 <= Sum (fun a => a ^ 2) x / N x).
  { apply Rmult_le_pos; [apply Sum_pos; intros; apply pow2_ge_0|]. now apply Rlt_le, Rinv_0_lt_compat. }
  assert (E : sqrt (Sum (fun a => a ^ 2) x / N x) ^ 2 = Sum (fun a => a ^ 2) x / N x).
  { rewrite <- Rsqr_pow2. now apply Rsqr_sqrt. }
  repeat split; [apply sqrt_pos|rewrite E; field; lra|].
  intros m v Hm Hv. rewrite E. destruct x as [|a [|b x]]; [congruence| |].
  - destruct C51_degenerate as (_ & _ & D & _). rewrite D in Hv. discriminate.
  - destruct (C51_var (a :: b :: x)) as (m' & v' & A & B & _ & _ & C & _); [simpl; lia|].
    rewrite Hm in A. rewrite Hv in B. injection A as <-. injection B as <-.
    apply Rmult_eq_reg_l with (N (a :: b :: x)); [|lra].
    replace (N (a :: b :: x) * (Sum (fun a0 => a0 ^ 2) (a :: b :: x) / N (a :: b :: x)))
      with (Sum (fun a0 => a0 ^ 2) (a :: b :: x)) by (field; lra).
    replace (N (a :: b :: x) * (m ^ 2 + (N (a :: b :: x) - 1) / N (a :: b :: x) * v))
      with (N (a :: b :: x) * m ^ 2 + (N (a :: b :: x) - 1) * v) by (field; lra). lra.
Qed.
Theorem C51_max : forall x, x <> [] ->
  exists m, StatsModel.max x = Ret m /\ In m x /\ forall v, In v x -> v <= m.
Proof.
  intros [|x0 x] H; [congruence|]. unfold StatsModel.max. change (rd (x0 :: x) 0) with (Ret x0). cbn [obind].
  set (f := fun m xi => if Rlt_dec m xi then xi else m).
  assert (G : forall l a, (fold_left f l a = a \/ In (fold_left f l a) l) /\ a <= fold_left f l a /\
             forall v, In v l -> v <= fold_left f l a).
  { induction l as [|b l IH]; intros a; simpl; [repeat split; auto; [lra|intros ? []]|].
    destruct (IH (f a b)) as (A & B & C). assert (D : a <= f a b /\ b <= f a b /\ (f a b = a \/ f a b = b)).
    { unfold f. destruct Rlt_dec; repeat split; auto; lra. }
    destruct D as (D1 & D2 & D3). repeat split.
    - destruct A as [A|A]; auto. destruct D3 as [D3|D3]; [left|right; left]; congruence.
    - lra.
    - intros v [ <- |Hv]; [lra|auto]. }
  destruct (G (x0 :: x) x0) as (A & _ & C). eexists. split; [reflexivity|]. split; auto.
  destruct A as [A|A]; auto. rewrite A. now left.
Qed.

(** ** median *)
Lemma insert_perm a l : Permutation (a :: l) (insert_sorted a l).
Proof.
  induction l as [|b l IH]; simpl; auto. destruct Rle_dec; auto.
  rewrite perm_swap. now constructor.
Qed.
Lemma sort_perm l : Permutation l (std_sort l).
Proof. induction l as [|a l IH]; simpl; auto. rewrite <- insert_perm. now constructor. Qed.
Lemma insert_sorted_ok a l : StronglySorted Rle l -> StronglySorted Rle (insert_sorted a l).
Proof.
  induction 1 as [|b l S IH F]; simpl; [constructor; constructor|]. destruct Rle_dec as [L|L].
  - constructor; [now constructor|]. constructor; auto. eapply Forall_impl; [|exact F]. simpl; intros; lra.
  - constructor; auto. apply Forall_forall. intros x Hx. apply (Permutation_in x (Permutation_sym (insert_perm a l))) in Hx.
    destruct Hx as [ <- |Hx]; [lra|]. rewrite Forall_forall in F. auto.
Qed.
Lemma sort_sorted l : StronglySorted Rle (std_sort l).
Proof. induction l; simpl; [constructor|]. now apply insert_sorted_ok. Qed.
Lemma sorted_app_R l1 l2 : StronglySorted Rle (l1 ++ l2) -> forall x y, In x l1 -> In y l2 -> x <= y.
Proof.
  induction l1 as [|a l1 IH]; simpl; intros H x y Hx Hy; [contradiction|].
  apply StronglySorted_inv in H as [H F]. destruct Hx as [ <- |Hx]; auto.
  rewrite Forall_forall in F. apply F. apply in_or_app. auto.
Qed.
Lemma count_app P d l1 l2 : count P d (l1 ++ l2) = (count P d l1 + count P d l2)%nat.
Proof. induction l1; simpl; auto. rewrite IHl1. lia. Qed.
Lemma count_all (P : R -> Prop) d l : (forall x, In x l -> P x) -> count P d l = length l.
Proof.
  intros H. induction l as [|a l IH]; simpl; auto. destruct (d a) as [|C]; [|exfalso; apply C, H; now left].
  simpl. f_equal. apply IH. intros. apply H. now right.
Qed.
Lemma count_perm P d l l' : Permutation l l' -> count P d l = count P d l'.
Proof. induction 1; simpl; lia. Qed.

(** The median of a non-empty vector: the mean of the two middle values of the sorted vector
    (which are the same position when the length is odd); at least half of the values are on
    either side of it, and it does not depend on the order of the input. *)
Theorem C51_median : forall v, v <> [] ->
  exists m, median v = Ret m /\
  (length v <= 2 * count_le m v)%nat /\ (length v <= 2 * count_ge m v)%nat /\
  (exists s, Permutation v s /\ StronglySorted Rle s /\
     2 * m = nth ((length v - 1) / 2) s 0 + nth (length v / 2) s 0) /\
  (forall v', Permutation v v' -> median v' = Ret m).
Proof.
  intros v Hv.
  assert (RD : forall (l : list R) n, (n < length l)%nat -> rd l (Z.of_nat n) = Ret (nth n l 0)).
  { intros l n Hn. unfold rd. destruct (Z.leb_spec 0 (Z.of_nat n)); [|lia]. rewrite Nat2Z.id.
    rewrite (nth_error_nth' l 0 Hn). auto. }
  assert (MED : forall w, w <> [] -> median w =
     Ret ((nth ((length w - 1) / 2) (std_sort w) 0 + nth (length w / 2) (std_sort w) 0) / 2)).
  { intros w Hw. unfold median. rewrite <- (Permutation_length (sort_perm w)).
    set (n := length w). assert (n <> 0)%nat by (unfold n; destruct w; simpl; congruence).
    assert (L : length (std_sort w) = n) by (symmetry; apply Permutation_length, sort_perm).
    assert (D2 := Nat.div_mod n 2). assert (M2 := Nat.mod_upper_bound n 2).
    assert (ZN : (Z.of_nat n / 2)%Z = Z.of_nat (n / 2)) by (rewrite Nat2Z.inj_div; auto).
    assert (ZM : (Z.of_nat n mod 2)%Z = Z.of_nat (n mod 2)) by (rewrite Nat2Z.inj_mod; auto).
    rewrite ZN, ZM. destruct (Z.eqb_spec (Z.of_nat (n mod 2)) 1) as [E|E].
    - assert ((n - 1) / 2 = n / 2)%nat.
      { symmetry. apply (Nat.div_unique (n - 1) 2 (n / 2) 0); lia. }
      rewrite RD by (rewrite L; apply Nat.div_lt; lia). rewrite H0. f_equal. lra.
    - assert (n mod 2 = 0)%nat by lia.
      assert ((n - 1) / 2 = n / 2 - 1)%nat.
      { symmetry. apply (Nat.div_unique (n - 1) 2 (n / 2 - 1) 1); lia. }
      rewrite RD by (rewrite L; apply Nat.div_lt; lia). cbn [obind].
      replace (Z.of_nat (n / 2) - 1)%Z with (Z.of_nat (n / 2 - 1)) by lia.
      rewrite RD by (rewrite L; assert (n / 2 < n)%nat by (apply Nat.div_lt; lia); lia). cbn [obind].
      rewrite H1. f_equal. lra. }
  set (s := std_sort v). set (n := length v).
  assert (NN : n <> 0%nat) by (unfold n; destruct v; simpl; congruence).
  assert (L : length s = n) by (symmetry; apply Permutation_length, sort_perm).
  assert (SS : StronglySorted Rle s) by apply sort_sorted.
  set (i := ((n - 1) / 2)%nat). set (j := (n / 2)%nat).
  assert (IJ : (i <= j < n /\ n <= 2 * (i + 1) /\ 2 * j <= n)%nat).
  { unfold i, j. assert (D2 := Nat.div_mod n 2). assert (M2 := Nat.mod_upper_bound n 2).
    assert (D3 := Nat.div_mod (n - 1) 2). assert (M3 := Nat.mod_upper_bound (n - 1) 2). lia. }
  assert (NTH : forall a b, (a <= b < n)%nat -> nth a s 0 <= nth b s 0).
  { intros a b Hab. destruct (Nat.eq_dec a b) as [ -> |Ne]; [lra|].
    rewrite <- (firstn_skipn b s). rewrite (app_nth1 _ _) by (rewrite firstn_length; lia).
    rewrite (app_nth2 (firstn b s)) by (rewrite firstn_length; lia).
    rewrite firstn_length, Nat.min_l, Nat.sub_diag by lia.
    apply (sorted_app_R (firstn b s) (skipn b s)); [now rewrite firstn_skipn| |].
    - apply nth_In. rewrite firstn_length. lia.
    - apply nth_In. rewrite skipn_length. lia. }
  set (m := (nth i s 0 + nth j s 0) / 2).
  assert (HIJ : nth i s 0 <= nth j s 0) by (apply NTH; lia).
  exists m. repeat split.
  - apply MED; auto.
  - unfold count_le. rewrite (count_perm _ _ _ _ (sort_perm v)). fold s.
    rewrite <- (firstn_skipn (i + 1) s), count_app, (count_all _ _ (firstn (i + 1) s)).
    + rewrite firstn_length. fold n. lia.
    + intros x Hx. apply In_nth with (d := 0) in Hx as (k & K1 & <-). rewrite firstn_length in K1.
      replace (nth k (firstn (i + 1) s) 0) with (nth k s 0).
      * assert (nth k s 0 <= nth i s 0) by (apply NTH; lia). unfold m. lra.
      * rewrite <- (firstn_skipn (i + 1) s) at 1. rewrite app_nth1; auto. rewrite firstn_length. lia.
  - unfold count_ge. rewrite (count_perm _ _ _ _ (sort_perm v)). fold s.
    rewrite <- (firstn_skipn j s), count_app, (count_all _ _ (skipn j s)).
    + rewrite skipn_length. fold n. lia.
    + intros x Hx. apply In_nth with (d := 0) in Hx as (k & K1 & <-). rewrite skipn_length in K1.
      replace (nth k (skipn j s) 0) with (nth (j + k) s 0).
      * assert (nth j s 0 <= nth (j + k) s 0) by (apply NTH; lia). unfold m. lra.
      * rewrite <- (firstn_skipn j s) at 1. rewrite app_nth2; rewrite firstn_length; [f_equal; lia|lia].
  - exists s. repeat split; auto; [apply sort_perm|]. unfold m, i, j, n. lra.
  - intros v' Pv. rewrite MED.
    + rewrite <- (Permutation_length Pv). fold n. fold i. fold j.
      replace (std_sort v') with s; auto.
      assert (UNIQ : forall l l', StronglySorted Rle l -> StronglySorted Rle l' -> Permutation l l' -> l = l').
      { clear. induction l as [|a l IH]; intros l' S S' P.
        - now apply Permutation_nil in P.
        - destruct l' as [|b l']; [symmetry in P; apply Permutation_nil in P; discriminate|].
          assert (a = b).
          { inversion S; inversion S'; subst. rewrite Forall_forall in H2, H6.
            assert (A : In b (a :: l)) by (eapply Permutation_in; [symmetry; eauto|now left]).
            assert (B : In a (b :: l')) by (eapply Permutation_in; [eauto|now left]).
            destruct A as [|A]; auto. destruct B as [|B]; auto. apply H2 in A. apply H6 in B. lra. }
          subst b. f_equal. apply IH; [inversion S|inversion S'|]; auto. now apply Permutation_cons_inv in P. }
      apply UNIQ; auto; [apply sort_sorted|]. unfold s. now rewrite <- !sort_perm.
    + intros ->. apply Hv. symmetry in Pv. now apply Permutation_nil in Pv.
Qed.
Theorem C51_median_empty_refuted : median [] = Undef /\ StatsModel.max [] = Undef.
Proof. split; reflexivity. Qed.
Example C51_median_ex : exists m, median [3; 1; 2; 10] = Ret m /\ m = 5 / 2.
Proof.
  unfold median, std_sort, insert_sorted, fold_right.
  repeat (destruct Rle_dec; try lra). eexists. split; [reflexivity|]. lra.
Qed.
Print Assumptions C51_mean.
Print Assumptions C51_var.
Print Assumptions C51_rmse.
Print Assumptions C51_max.
Print Assumptions C51_median.

(** ** binomial *)
Lemma binom_coeff_C n k : binom_coeff n k = C n k.
Proof. reflexivity. Qed.
Lemma fact_pos n : 0 < INR (fact n).
Proof. apply lt_0_INR, lt_O_fact. Qed.
Theorem C51_binomial : forall n k, (k <= n)%nat ->
  StatsModel.binomial (INR n) (INR k) (binom_coeff n k) /\
  (forall v, StatsModel.binomial (INR n) (INR k) v -> v = binom_coeff n k).
Proof.
  assert (EX : forall n k, (k <= n)%nat -> StatsModel.binomial (INR n) (INR k) (binom_coeff n k)).
  { induction n as [|n IH]; intros k Hk.
    - assert (k = 0)%nat by lia. subst. unfold binom_coeff; simpl. replace (1 / (1 * 1)) with 1 by field. constructor. now left.
    - destruct (Nat.eq_dec k 0) as [ -> |K0].
      { unfold binom_coeff. rewrite Nat.sub_0_r. replace (INR (fact (S n)) / (INR (fact 0) * INR (fact (S n)))) with 1.
        - constructor. now left. - generalize (fact_pos (S n)). intros. simpl (fact 0). simpl (INR 1). field. lra. }
      destruct (Nat.eq_dec k (S n)) as [ -> |K1].
      { unfold binom_coeff. rewrite Nat.sub_diag. replace (INR (fact (S n)) / (INR (fact (S n)) * INR (fact 0))) with 1.
        - constructor. now right. - generalize (fact_pos (S n)). intros. simpl (fact 0). simpl (INR 1). field. lra. }
      destruct k as [|k]; [lia|]. rewrite (binom_coeff_C (S n)), <- pascal by lia. constructor.
      + intros [A|A].
        * change 0 with (INR 0) in A. now apply INR_eq in A.
        * apply INR_eq in A. lia.
      + rewrite !S_INR. replace (INR n + 1 - 1) with (INR n) by ring. replace (INR k + 1 - 1) with (INR k) by ring.
        rewrite <- binom_coeff_C. apply IH. lia.
      + rewrite (S_INR n). replace (INR n + 1 - 1) with (INR n) by ring.
        rewrite <- binom_coeff_C. apply IH. lia. }
  assert (DET : forall n k v, StatsModel.binomial n k v -> forall v', StatsModel.binomial n k v' -> v = v').
  { induction 1 as [n k B|n k v1 v2 NB H1 IH1 H2 IH2]; intros v' H'; inversion H'; subst; auto; try contradiction.
    now rewrite (IH1 _ H0), (IH2 _ H3). }
  intros n k Hk. split; auto. intros v Hv. eapply DET; eauto.
Qed.
(** The call returns exactly for the trivial arguments and for integers 0 <= k <= n;
    otherwise the recursion never ends. *)
Theorem C51_binomial_domain : forall n k,
  (exists v, StatsModel.binomial n k v) <->
  k = 0 \/ k = n \/ exists N K, (K <= N)%nat /\ n = INR N /\ k = INR K.
Proof.
  intros n k. split.
  - intros [v H]. induction H as [n k [B|B]|n k v1 v2 NB H1 IH1 H2 IH2]; auto. right; right.
    destruct IH2 as [A|[A|(p & q & A & B & D)]]; [tauto| |].
    + destruct IH1 as [E|[E|(p' & q' & A' & B' & D')]].
      * exists 2%nat, 1%nat. simpl. repeat split; try lia; lra.
      * exfalso. apply NB. right. lra.
      * exists (S p'), (S q'). rewrite !S_INR. repeat split; [lia|lra|lra].
    + exists (S p), q. rewrite S_INR. repeat split; [lia|lra|lra].
  - intros [ -> |[ -> |(p & q & A & -> & -> )]].
    + exists 1. constructor. now left.
    + exists 1. constructor. now right.
    + exists (binom_coeff p q). now apply C51_binomial.
Qed.
Theorem C51_binomial_diverges_refuted : forall v, ~ StatsModel.binomial 2 3 v.
Proof.
  intros v H. destruct (proj1 (C51_binomial_domain 2 3) (ex_intro _ v H)) as [A|[A|(p & q & A & B & D)]]; try lra.
  assert (INR q <= INR p) by now apply le_INR. lra.
Qed.
Print Assumptions C51_binomial.
Print Assumptions C51_binomial_domain.

(** ** means of vectors: the reciprocal of the size is a single precision number *)
Lemma b32_int n : (n <= 2 ^ 24)%nat -> b32 (INR n) = INR n.
Proof.
  intros H. apply round_generic; auto with typeclass_instances.
  rewrite INR_IZR_INZ. apply generic_format_FLT.
  destruct (Nat.eq_dec n (2 ^ 24)) as [ -> |Ne].
  - apply FLT_spec with (Float radix2 1 24); [|simpl; lia|simpl; lia].
    unfold F2R; simpl Fnum; simpl Fexp. rewrite Rmult_1_l.
    replace (Z.of_nat (2 ^ 24)) with (2 ^ 24)%Z by (rewrite Nat2Z.inj_pow; reflexivity).
    change (bpow radix2 24) with (IZR (Z.pow_pos 2 24)). reflexivity.
  - apply FLT_spec with (Float radix2 (Z.of_nat n) 0); [|simpl|simpl; lia].
    + unfold F2R; simpl. lra.
    + assert (n < 2 ^ 24)%nat by lia. apply inj_lt in H0. rewrite Nat2Z.inj_pow in H0. simpl in H0 |- *. lia.
Qed.
Lemma recip_bound n : (1 <= n <= 2 ^ 24)%nat ->
  exists k, recip_f32 n = Some k /\ Rabs (k - / INR n) <= / 2 ^ 24 * / INR n.
Proof.
  intros [H1 H2]. assert (P : 1 <= INR n) by (change 1 with (INR 1); now apply le_INR).
  unfold recip_f32. rewrite b32_int by auto. unfold fdiv. destruct Req_EM_T; [lra|]. simpl option_map.
  exists (b32 (1 / INR n)). split; auto. replace (1 / INR n) with (/ INR n) by (field; lra).
  assert (Q : INR n <= IZR (2 ^ 24)).
  { rewrite INR_IZR_INZ. apply IZR_le. rewrite Nat2Z.inj_le in H2. rewrite Nat2Z.inj_pow in H2. auto. }
  assert (B := relative_error_N_FLT radix2 (-149) 24 eq_refl (fun x => negb (Z.even x)) (/ INR n)).
  eapply Rle_trans; [apply B|].
  - rewrite Rabs_right by (apply Rle_ge, Rlt_le, Rinv_0_lt_compat; lra).
    apply Rle_trans with (/ IZR (2 ^ 24)).
    + change (IZR (2 ^ 24)) with (bpow radix2 24). rewrite <- bpow_opp. apply bpow_le. simpl. lia.
    + apply Rinv_le_contravar; lra.
  - rewrite Rabs_right by (apply Rle_ge, Rlt_le, Rinv_0_lt_compat; lra).
    apply Rmult_le_compat_r; [apply Rlt_le, Rinv_0_lt_compat; lra|].
    right. replace (bpow radix2 (- (24) + 1)) with (/ 8388608) by reflexivity.
    replace (2 ^ 24) with 16777216 by (simpl; ring). field.
Qed.
Lemma fold2 (l : list vec2) : forall a, fold_left (fun a v => V2 (v2x a + v2x v) (v2y a + v2y v)) l a =
  V2 (v2x a + Sum (fun x => x) (map v2x l)) (v2y a + Sum (fun x => x) (map v2y l)).
Proof. induction l as [|v l IH]; intros [x y]; simpl; [f_equal; lra|]. rewrite IH; simpl. f_equal; lra. Qed.
Lemma fold3 (l : list vec3) : forall a, fold_left vadd l a =
  V3 (vx a + Sum (fun x => x) (map vx l)) (vy a + Sum (fun x => x) (map vy l)) (vz a + Sum (fun x => x) (map vz l)).
Proof. induction l as [|v l IH]; intros [x y z]; simpl; [f_equal; lra|]. rewrite IH; simpl. f_equal; lra. Qed.
(** relative error of at most 2^-24 in every coordinate for up to 2^24 vectors *)
Definition close_mean (m : R) (x : list R) : Prop :=
  Rabs (m - Sum (fun v => v) x / N x) <= / 2 ^ 24 * Rabs (Sum (fun v => v) x / N x).
Lemma close_scale k (x : list R) n : length x = n -> (1 <= n)%nat ->
  Rabs (k - / INR n) <= / 2 ^ 24 * / INR n -> close_mean (k * (0 + Sum (fun v => v) x)) x.
Proof.
  intros L H K. unfold close_mean, N. rewrite L, Rplus_0_l.
  assert (P : 1 <= INR n) by (change 1 with (INR 1); now apply le_INR).
  replace (k * Sum (fun v => v) x - Sum (fun v => v) x / INR n) with ((k - / INR n) * Sum (fun v => v) x) by (field; lra).
  unfold Rdiv. rewrite !Rabs_mult. rewrite (Rabs_right (/ INR n)) by (apply Rle_ge, Rlt_le, Rinv_0_lt_compat; lra).
  replace (/ 2 ^ 24 * (Rabs (Sum (fun v => v) x) * / INR n)) with ((/ 2 ^ 24 * / INR n) * Rabs (Sum (fun v => v) x)) by ring.
  apply Rmult_le_compat_r; auto. apply Rabs_pos.
Qed.
Theorem C51_vector_mean_partial :
  (forall x, (1 <= length x <= 2 ^ 24)%nat -> exists m, mean2 x = Some m /\
     close_mean (v2x m) (map v2x x) /\ close_mean (v2y m) (map v2y x)) /\
  (forall x, (1 <= length x <= 2 ^ 24)%nat -> exists m, mean3 x = Some m /\
     close_mean (vx m) (map vx x) /\ close_mean (vy m) (map vy x) /\ close_mean (vz m) (map vz x)).
Proof.
  split; intros x H; destruct (recip_bound _ H) as (k & E & B).
  - unfold mean2. rewrite E, fold2. simpl. eexists. split; [reflexivity|]. simpl.
    split; apply close_scale with (length x); auto; try apply map_length; lia.
  - unfold mean3. rewrite E, fold3. unfold vscale; cbn [vx vy vz vzero]. eexists. split; [reflexivity|]. simpl.
    repeat split; apply close_scale with (length x); auto; try apply map_length; lia.
Qed.
(** It is not the mean: three equal vectors (1,0) do not average to (1,0). *)
Theorem C51_vector_mean_refuted : mean2 [V2 1 0; V2 1 0; V2 1 0] <> Some (V2 1 0).
Proof.
  unfold mean2, recip_f32. simpl length. rewrite b32_int.
  2:{ apply Nat.le_trans with (2 ^ 2)%nat; [simpl; lia|]. apply Nat.pow_le_mono_r; lia. }
  unfold fdiv.
  destruct Req_EM_T as [C|_]; [simpl in C; lra|]. simpl option_map. cbv iota.
  simpl fold_left. intros H. injection H as H _.
  assert (G : generic_format radix2 (FLT_exp (-149) 24) (b32 (1 / INR 3))).
  { apply generic_format_round; [apply FLT_exp_valid; reflexivity|apply valid_rnd_N]. }
  simpl in H. replace (1 + 1 + 1) with 3 in H by ring.
  assert (E : b32 (1 / INR 3) = 1 / 3) by (simpl; replace (1 + 1 + 1) with 3 by ring; lra).
  rewrite E in G. apply FLT_format_generic in G; [|reflexivity].
  destruct G as [[m e] Hf _ _]. unfold F2R in Hf; simpl in Hf.
  destruct (Z_le_gt_dec 0 e) as [P|P].
  - rewrite <- IZR_Zpower in Hf by auto. rewrite <- mult_IZR in Hf.
    assert (3 * IZR (m * radix2 ^ e) = 1) by lra. rewrite <- mult_IZR in H0. apply eq_IZR in H0. lia.
  - assert (Q : IZR (3 * m) = IZR (2 ^ (- e))).
    { rewrite mult_IZR. change (2 ^ (- e))%Z with (radix2 ^ (- e))%Z. rewrite IZR_Zpower by lia.
      assert (bpow radix2 (- e) * bpow radix2 e = 1) by (rewrite <- bpow_plus; replace (- e + e)%Z with 0%Z by lia; reflexivity).
      apply Rmult_eq_reg_r with (bpow radix2 e); [|apply Rgt_not_eq, bpow_gt_0]. rewrite H0. lra. }
    apply eq_IZR in Q.
    assert (forall n, 0 <= n -> (2 ^ n mod 3 = 1 \/ 2 ^ n mod 3 = 2))%Z as M.
    { intros n Hn. pattern n. apply natlike_ind; [left; reflexivity| |exact Hn].
      intros y Hy IH. rewrite Z.pow_succ_r by auto. rewrite Z.mul_mod by lia. destruct IH as [-> | ->]; simpl; [right|left]; reflexivity. }
    specialize (M (- e)%Z ltac:(lia)). rewrite <- Q, Z.mul_comm, Z.mod_mul in M by lia. lia.
Qed.
Theorem C51_vector_stats : forall v,
  var2 v = (var (map v2x v), var (map v2y v)) /\
  stddev2 v = (stddev (map v2x v), stddev (map v2y v)) /\
  rmse2 v = (rmse (map v2x v), rmse (map v2y v)).
Proof. intros. repeat split. Qed.
Print Assumptions C51_vector_mean_partial.
Print Assumptions C51_vector_mean_refuted.

(** ** C59 *)
Theorem C59_linspace : forall a b n, (1 <= n)%Z ->
  let l := linspace a b n in
  Z.of_nat (length l) = n /\ nth 0 l 0 = a /\
  ((2 <= n)%Z -> last l 0 = b /\
     forall i, (0 <= i < n)%Z -> nth (Z.to_nat i) l 0 = a + IZR i * ((b - a) / IZR (n - 1))).
Proof.
  intros a b n Hn l. unfold l, linspace. destruct (Z.eqb_spec n 0); [lia|].
  destruct (Z.eqb_spec n 1) as [ -> |N1]; [repeat split; simpl; auto; lia|].
  set (d := (b - a) / IZR (n - 1)).
  set (f := fun i => a + d * IZR i).
  assert (LEN : length (map f (zrange (n - 1))) = Z.to_nat (n - 1)).
  { unfold zrange. now rewrite !map_length, seq_length. }
  assert (NTH : forall i, (0 <= i < n - 1)%Z -> nth (Z.to_nat i) (map f (zrange (n - 1))) 0 = f i).
  { intros i Hi. unfold zrange. rewrite map_map.
    rewrite nth_indep with (d' := (fun x => f (Z.of_nat x)) 0%nat) by (rewrite map_length, seq_length; lia).
    rewrite (map_nth (fun x => f (Z.of_nat x))), seq_nth by lia. f_equal. lia. }
  assert (NZ : IZR (n - 1) <> 0) by (apply IZR_neq; lia).
  repeat split.
  - rewrite app_length, LEN. simpl. lia.
  - rewrite app_nth1 by (rewrite LEN; lia). change 0%nat with (Z.to_nat 0). rewrite NTH by lia. unfold f. lra.
  - apply last_last.
  - intros i Hi. destruct (Z.eq_dec i (n - 1)) as [ -> |Ne].
    + rewrite app_nth2 by (rewrite LEN; lia). rewrite LEN, Nat.sub_diag. simpl. unfold d. field. auto.
    + rewrite app_nth1 by (rewrite LEN; lia). rewrite NTH by lia. unfold f. lra.
Qed.
(** no elements for a count of zero; one element, the end, for a negative count *)
Theorem C59_degenerate : forall a b, linspace a b 0 = [] /\ forall n, (n < 0)%Z -> linspace a b n = [b].
Proof.
  intros. split; [reflexivity|]. intros n Hn. unfold linspace. destruct (Z.eqb_spec n 0); [lia|].
  destruct (Z.eqb_spec n 1); [lia|]. unfold zrange. replace (Z.to_nat (n - 1)) with 0%nat by lia. reflexivity.
Qed.
Example C59_ex : linspace 0 1 3 = [0 + (1 - 0) / 2 * 0; 0 + (1 - 0) / 2 * 1; 1].
Proof. reflexivity. Qed.
Print Assumptions C59_linspace.

(** ** C67 random helpers and comparisons *)
(** randf(ub, lb) lies between lb and ub, and both ends are reached *)
Theorem C67_randf : forall rnd ub lb, (0 <= rnd <= RAND_MAX)%Z ->
  Rmin lb ub <= randf rnd ub lb <= Rmax lb ub.
Proof.
  intros rnd ub lb H. unfold randf.
  assert (M : 0 < IZR RAND_MAX) by (apply IZR_lt; reflexivity).
  assert (F : 0 <= IZR rnd / IZR RAND_MAX <= 1).
  { split.
    - apply Rmult_le_pos; [apply IZR_le; lia|]. now apply Rlt_le, Rinv_0_lt_compat.
    - apply Rmult_le_reg_r with (IZR RAND_MAX); auto. unfold Rdiv. rewrite Rmult_assoc, Rinv_l, Rmult_1_r by lra.
      rewrite Rmult_1_l. apply IZR_le. lia. }
  set (f := IZR rnd / IZR RAND_MAX) in *. unfold Rmin, Rmax. destruct Rle_dec; nra.
Qed.
(** randi(ub, lb) as computed: a number in [ub, ub + |lb| - 1] — not a number between lb and ub *)
Theorem C67_randi_partial : forall rnd ub lb, (0 <= rnd)%Z -> lb <> 0%Z ->
  exists r, randi rnd ub lb = Ret r /\ (ub <= r <= ub + Z.abs lb - 1)%Z.
Proof.
  intros rnd ub lb H1 H2. unfold randi. destruct (Z.eqb_spec lb 0); [contradiction|].
  eexists. split; [reflexivity|].
  assert (A := Z.rem_bound_pos rnd (Z.abs lb) H1). rewrite Z.rem_abs_r in A by auto. lia.
Qed.
Theorem C67_randi_refuted :
  ~ (forall rnd ub lb, (0 <= rnd <= RAND_MAX)%Z -> (lb <= ub)%Z ->
       exists r, randi rnd ub lb = Ret r /\ (lb <= r <= ub)%Z) /\
  randi 7 10 5 = Ret 12%Z /\ (forall rnd ub, randi rnd ub 0 = Undef).
Proof.
  split; [|split; [reflexivity|reflexivity]]. intros H.
  destruct (H 7%Z 10%Z 5%Z) as (r & E & B); [unfold RAND_MAX; lia|lia|]. injection E as <-. lia.
Qed.
(** fltcmp compares with tolerance 1e-4: it is reflexive, symmetric up to sign, agrees with the
    order outside the tolerance, and sign is its comparison with zero *)
Theorem C67_fltcmp : forall a b,
  (fltcmp a b = 0%Z <-> Rabs (a - b) <= 1 / 10000) /\
  (fltcmp a b = 1%Z <-> b + 1 / 10000 < a) /\ (fltcmp a b = (-1)%Z <-> a + 1 / 10000 < b) /\
  fltcmp b a = (- fltcmp a b)%Z /\ sign a = fltcmp a 0.
Proof.
  assert (K : forall a b, (fltcmp a b = 0%Z <-> Rabs (a - b) <= 1 / 10000) /\
    (fltcmp a b = 1%Z <-> b + 1 / 10000 < a) /\ (fltcmp a b = (-1)%Z <-> a + 1 / 10000 < b)).
  { intros a b. unfold fltcmp. unfold Rabs. destruct (Rcase_abs (a - b)); destruct Rle_dec; [ | destruct Rlt_dec | | destruct Rlt_dec];
    repeat split; intros; try discriminate; auto; try lra. }
  intros a b. destruct (K a b) as (A & B & D). repeat split; try apply A; try apply B; try apply D.
  - unfold fltcmp. rewrite (Rabs_minus_sym b a). destruct Rle_dec as [|L]; auto.
    destruct (Rlt_dec a b), (Rlt_dec b a); auto; try lra.
    exfalso. apply L. replace (a - b) with 0 by lra. rewrite Rabs_R0. lra.
  - unfold sign. destruct (Z.eqb_spec (fltcmp a 0) 0) as [E|E]; [congruence|].
    clear A B D. unfold fltcmp in *. revert E. destruct Rle_dec; intros E; [exfalso; now apply E|]. destruct (Rlt_dec 0 a), (Rlt_dec a 0); auto; try lra.
    exfalso. apply n. replace (a - 0) with 0 by lra. rewrite Rabs_R0. lra.
Qed.
(** it is not an equivalence: equality within tolerance is not transitive *)
Theorem C67_fltcmp_transitive_refuted :
  exists a b c, fltcmp a b = 0%Z /\ fltcmp b c = 0%Z /\ fltcmp a c <> 0%Z.
Proof.
  exists 0, (1 / 10000), (2 / 10000). repeat split.
  - apply C67_fltcmp. rewrite Rabs_left; lra.
  - apply C67_fltcmp. rewrite Rabs_left; lra.
  - intros H. apply C67_fltcmp in H. rewrite Rabs_left in H; lra.
Qed.
Print Assumptions C67_randf.
Print Assumptions C67_randi_partial.
Print Assumptions C67_fltcmp.
