From Coq Require Import Reals Lra Lia.
From Verif Require Import Base GeomModel GeomSpec GeomProofs ImuModel PreintModel PreintSpec.
From Coquelicot Require Import Coquelicot.
Local Open Scope R_scope.

Lemma buf_ts l : i_ts (buffer l) = map fst l. Proof. reflexivity. Qed.
Lemma buf_acc l : i_acc (buffer l) = map (fun s => fst (snd s)) l. Proof. reflexivity. Qed.
Lemma buf_gyr l : i_gyr (buffer l) = map (fun s => snd (snd s)) l. Proof. reflexivity. Qed.
(** the loop as a recursion over the samples *)
Section Loop.
Context (redo : bool) (ip : imu_params) (bg ba : vec3) (t_end : Z).
Definition body (p n : sample) (s : pint) : pint * bool :=
  imu_body redo ip bg ba t_end (fst p) (snd (snd p)) (fst (snd p)) (fst n) (snd (snd n)) (fst (snd n)) s.
Fixpoint lloop (p : sample) (l : list sample) (s : pint) : pint * bool :=
  match l with
  | nil => (s, false)
  | n :: r => let (s', stop) := body p n s in if stop then (s', true) else lloop n r s'
  end.

Lemma rd_map {A B} (f : A -> B) (l : list A) k a : nth_error l k = Some a -> rd (map f l) (Z.of_nat k) = Ret (f a).
Proof.
  intros H. unfold rd. assert (0 <=? Z.of_nat k = true)%Z as -> by (apply Z.leb_le; lia).
  rewrite Nat2Z.id, nth_error_map, H. reflexivity.
Qed.
Lemma rd_out {A} (l : list A) k : (length l <= k)%nat -> rd l (Z.of_nat k) = Undef.
Proof.
  intros H. unfold rd. assert (0 <=? Z.of_nat k = true)%Z as -> by (apply Z.leb_le; lia).
  rewrite Nat2Z.id. assert (nth_error l k = None) as -> by (apply nth_error_None; lia). reflexivity.
Qed.
Lemma loop_list l : forall r p k s extra,
  nth_error l k = Some p -> skipn (S k) l = r ->
  imu_loop redo ip bg ba (buffer l) t_end (map Z.of_nat (seq k (length r)) ++ extra) s =
  let (s', stop) := lloop p r s in
  if stop then Ret s' else imu_loop redo ip bg ba (buffer l) t_end extra s'.
Proof.
  induction r as [|n r IH]; intros p k s extra Hk Hr; [reflexivity|].
  assert (Hn : nth_error l (S k) = Some n).
  { rewrite <- (firstn_skipn (S k) l), Hr. assert (length (firstn (S k) l) = S k).
    { apply firstn_length_le. assert (k < length l)%nat by (apply nth_error_Some; congruence). lia. }
    rewrite nth_error_app2, H, Nat.sub_diag by lia. reflexivity. }
  assert (Hr' : skipn (S (S k)) l = r).
  { clear - Hr. revert l Hr. induction (S k) as [|m IHm]; intros l Hr; [cbn in Hr; subst; reflexivity|].
    destruct l as [|y l]; [discriminate|]. exact (IHm l Hr). }
  cbn [length seq map app imu_loop].
  replace (Z.of_nat k + 1)%Z with (Z.of_nat (S k)) by lia.
  rewrite buf_gyr, buf_acc, buf_ts.
  rewrite !(rd_map _ l k p Hk), !(rd_map _ l (S k) n Hn). cbn [obind].
  assert (E : (Z.of_nat (S k) =? imu_size (buffer l) = false)%Z).
  { unfold imu_size, buffer. cbn [i_ts]. rewrite map_length.
    assert (S k < length l)%nat by (apply nth_error_Some; congruence). apply Z.eqb_neq. lia. }
  rewrite E. cbn [obind].
  change (imu_body redo ip bg ba t_end (fst p) (snd (snd p)) (fst (snd p)) (fst n) (snd (snd n)) (fst (snd n)) s) with (body p n s).
  cbn [lloop]. destruct (body p n s) as [s' stop]. destruct stop; [reflexivity|].
  apply (IH n (S k) s' extra Hn Hr').
Qed.
Lemma loop_prop p r s : imu_loop redo ip bg ba (buffer (p :: r)) t_end (zrange (imu_size (buffer (p :: r)) - 1)) s =
  Ret (fst (lloop p r s)).
Proof.
  pose proof (loop_list (p :: r) r p 0 s nil eq_refl eq_refl) as H.
  rewrite app_nil_r in H.
  replace (zrange (imu_size (buffer (p :: r)) - 1)) with (map Z.of_nat (seq 0 (length r))).
  - rewrite H. destruct (lloop p r s) as [s' [|]]; reflexivity.
  - unfold zrange, imu_size, buffer. cbn [i_ts]. rewrite map_length. cbn [length].
    replace (Z.of_nat (S (length r)) - 1)%Z with (Z.of_nat (length r)) by lia. rewrite Nat2Z.id. reflexivity.
Qed.
Lemma loop_redo p r s : imu_loop redo ip bg ba (buffer (p :: r)) t_end (zrange (imu_size (buffer (p :: r)))) s =
  let (s', stop) := lloop p r s in if stop then Ret s' else Undef.
Proof.
  pose proof (loop_list (p :: r) r p 0 s (Z.of_nat (length r) :: nil) eq_refl eq_refl) as H.
  replace (zrange (imu_size (buffer (p :: r)))) with (map Z.of_nat (seq 0 (length r)) ++ (Z.of_nat (length r) :: nil)).
  - rewrite H. destruct (lloop p r s) as [s' [|]]; [reflexivity|].
    cbn [imu_loop]. replace (Z.of_nat (length r) + 1)%Z with (Z.of_nat (S (length r))) by lia.
    assert (exists x, nth_error (p :: r) (length r) = Some x) as [x Hx].
    { destruct (nth_error (p :: r) (length r)) eqn:E; [eauto|]. apply nth_error_None in E. cbn in E. lia. }
    rewrite buf_gyr, buf_acc. rewrite !(rd_map _ _ _ _ Hx). cbn [obind].
    rewrite rd_out by (rewrite map_length; cbn; lia). reflexivity.
  - unfold zrange, imu_size, buffer. cbn [i_ts]. rewrite map_length. cbn [length]. rewrite Nat2Z.id.
    replace (S (length r)) with (length r + 1)%nat by lia. rewrite seq_app, map_app. reflexivity.
Qed.

(** what one pass does to the stamp *)
Lemma body_skip p n s : (fst n < e_ts s)%Z \/ (Z.min (fst n) t_end <= e_ts s)%Z -> body p n s = (s, false).
Proof.
  intros H. unfold body, imu_body. destruct (fst n - e_ts s <? 0)%Z eqn:A; [reflexivity|]. apply Z.ltb_ge in A.
  destruct (t_end <? fst n)%Z eqn:B; [apply Z.ltb_lt in B|apply Z.ltb_ge in B].
  - assert (t_end - e_ts s <=? 0 = true)%Z as -> by (apply Z.leb_le; lia). reflexivity.
  - assert (fst n - e_ts s <=? 0 = true)%Z as -> by (apply Z.leb_le; lia). reflexivity.
Qed.
Lemma body_go p n s : (e_ts s < Z.min (fst n) t_end)%Z ->
  e_ts (fst (body p n s)) = Z.min (fst n) t_end /\ e_started (fst (body p n s)) = true /\
  e_Dt (fst (body p n s)) = e_Dt s + secs (Z.min (fst n) t_end - e_ts s) /\
  e_n (fst (body p n s)) = (e_n s + 1)%Z /\
  snd (body p n s) = (t_end <=? fst n)%Z.
Proof.
  intros H. unfold body, imu_body. assert (fst n - e_ts s <? 0 = false)%Z as -> by (apply Z.ltb_ge; lia).
  destruct (t_end <? fst n)%Z eqn:B; [apply Z.ltb_lt in B|apply Z.ltb_ge in B].
  - assert (t_end - e_ts s <=? 0 = false)%Z as -> by (apply Z.leb_gt; lia).
    cbn [fst snd imu_step e_ts e_started e_Dt e_n].
    rewrite Z.min_r by lia. rewrite Z.eqb_refl. repeat split. symmetry. apply Z.leb_le. lia.
  - assert (fst n - e_ts s <=? 0 = false)%Z as -> by (apply Z.leb_gt; lia).
    cbn [fst snd imu_step e_ts e_started e_Dt e_n]. rewrite Z.min_l by lia. repeat split.
    destruct (Z.eqb_spec (fst n) t_end) as [->|N]; symmetry; [apply Z.leb_le|apply Z.leb_gt]; lia.
Qed.

Definition back_of (p : sample) (l : list sample) : Z := fst (last l p).
Lemma rising_le p l : rising (p :: l) -> (fst p <= back_of p l)%Z.
Proof.
  revert p. induction l as [|n l IH]; intros p H; [unfold back_of; cbn; lia|].
  destruct H as [H1 H2]. specialize (IH n H2). unfold back_of in *.
  replace (last (n :: l) p) with (last l n); [lia|].
  clear. revert n p. induction l as [|a l IH]; intros; [reflexivity|]. cbn [last]. destruct l; [reflexivity|apply IH].
Qed.
Lemma back_cons p n l : back_of p (n :: l) = back_of n l.
Proof.
  unfold back_of. f_equal. revert n p. induction l as [|a l IH]; intros; [reflexivity|]. cbn [last]. destruct l; [reflexivity|apply IH].
Qed.

(** nothing happens when the window is empty *)
Lemma loop_empty : forall l p s, (t_end <= e_ts s)%Z -> lloop p l s = (s, false).
Proof.
  induction l as [|n l IH]; intros p s H; [reflexivity|]. cbn [lloop].
  rewrite body_skip by lia. apply IH; assumption.
Qed.
(** the window is not covered: the loop runs through *)
Lemma loop_short : forall l p s, rising (p :: l) -> (back_of p l < t_end)%Z -> snd (lloop p l s) = false.
Proof.
  induction l as [|n l IH]; intros p s Hr H; [reflexivity|]. cbn [lloop]. rewrite back_cons in H.
  destruct Hr as [H1 H2]. pose proof (rising_le n l H2).
  destruct (Z.lt_ge_cases (e_ts s) (Z.min (fst n) t_end)) as [G|G].
  - destruct (body_go p n s G) as (_ & _ & _ & _ & E). destruct (body p n s) as [s' stop]. cbn [snd] in E. subst stop.
    assert (t_end <=? fst n = false)%Z as -> by (apply Z.leb_gt; lia). apply IH; assumption.
  - rewrite body_skip by lia. apply IH; assumption.
Qed.
(** induction over the steps taken *)
Lemma loop_ind (J : pint -> Prop) (t0 : Z) (l0 : list sample) :
  (t0 < t_end)%Z ->
  (forall p n s, adjacent l0 p n -> (fst p < fst n)%Z -> J s ->
     (e_started s = false -> e_ts s = t0 /\ (fst p <= t0)%Z) -> (e_started s = true -> e_ts s = fst p /\ (t0 < fst p)%Z) ->
     (e_ts s < Z.min (fst n) t_end)%Z -> J (fst (body p n s))) ->
  forall l p s, (forall p' n', adjacent (p :: l) p' n' -> adjacent l0 p' n') -> rising (p :: l) -> (t_end <= back_of p l)%Z -> J s ->
  (e_ts s < t_end)%Z ->
  (e_started s = false -> e_ts s = t0 /\ (fst p <= t0)%Z) -> (e_started s = true -> e_ts s = fst p /\ (t0 < fst p)%Z) ->
  J (fst (lloop p l s)) /\ e_ts (fst (lloop p l s)) = t_end /\ snd (lloop p l s) = true /\ (e_n s < e_n (fst (lloop p l s)))%Z
  /\ e_started (fst (lloop p l s)) = true.
Proof.
  intros Ht Hstep. induction l as [|n l IH]; intros p s Ha Hr Hb Hj Hlt Hs0 Hs1.
  - exfalso. unfold back_of in Hb. cbn in Hb. destruct (e_started s); [destruct (Hs1 eq_refl)|destruct (Hs0 eq_refl)]; lia.
  - cbn [lloop]. destruct Hr as [H1 H2]. rewrite back_cons in Hb.
    assert (Ha' : forall p' n', adjacent (n :: l) p' n' -> adjacent l0 p' n') by (intros; apply Ha; constructor; assumption).
    destruct (Z.lt_ge_cases (e_ts s) (Z.min (fst n) t_end)) as [G|G].
    + pose proof (body_go p n s G) as (E1 & E2 & E3 & E4 & E5).
      assert (Hj' : J (fst (body p n s))) by (apply Hstep; auto; apply Ha; constructor).
      destruct (body p n s) as [s' stop]. cbn [fst snd] in *. subst stop.
      destruct (t_end <=? fst n)%Z eqn:B; [apply Z.leb_le in B|apply Z.leb_gt in B].
      * cbn [fst snd]. repeat split; auto; lia.
      * destruct (IH n s') as (A1 & A2 & A3 & A4 & A5); auto; try lia; try congruence.
        -- intros _. split; [lia|]. destruct (e_started s); [destruct (Hs1 eq_refl)|destruct (Hs0 eq_refl)]; lia.
        -- repeat split; auto; lia.
    + rewrite body_skip by lia. apply IH; auto.
      * intros E. destruct (Hs0 E). split; lia.
      * intros E. destruct (Hs1 E). lia.
Qed.
End Loop.

Lemma covers_inv l t0 t1 : covers l t0 t1 -> exists p r, l = p :: r /\ (fst p <= t0)%Z /\ (t1 <= back_of p r)%Z.
Proof.
  intros (f & b & H1 & H2 & H3 & H4). destruct l as [|p r]; [discriminate|]. injection H1 as ->.
  exists f, r. split; [reflexivity|]. split; [assumption|].
  unfold back_of. destruct (exists_last (l := f :: r)) as (l' & x & E); [discriminate|].
  rewrite E, rev_app_distr in H2. cbn in H2. injection H2 as ->.
  assert (last (f :: r) f = last r f) as <- by (destruct r; reflexivity).
  rewrite E. rewrite last_last. assumption.
Qed.
Lemma rev_hd p r : hd_error (rev (map fst (p :: r))) = Some (back_of p r).
Proof.
  destruct (exists_last (l := p :: r)) as (l' & x & E); [discriminate|].
  rewrite E, map_app, rev_app_distr. cbn. f_equal. unfold back_of.
  assert (last (p :: r) p = last r p) as <- by (destruct r; reflexivity). rewrite E, last_last. reflexivity.
Qed.
Lemma propagation_eq p r ip T x t0 t1 :
  propagation (buffer (p :: r)) ip T x t0 t1 =
  if (t0 <? fst p)%Z then Throw Fatal else if (back_of p r <? t1)%Z then Throw Fatal else
  let s := fst (lloop false ip (sb_bg x) (sb_ba x) t1 p r (pint0 t0)) in
  let (T', x') := propagated ip T x s in Ret (PropOut (e_n s) T' x' (out_covariance T s) (out_jacobian T s)).
Proof.
  unfold propagation. pose proof (rev_hd p r) as H. rewrite loop_prop.
  unfold buffer at 1 2. cbn [i_ts].
  change (map fst (p :: r)) with (fst p :: map fst r) at 1.
  destruct (rev (map fst (p :: r))) as [|b q]; [discriminate|]. injection H as ->. reflexivity.
Qed.
