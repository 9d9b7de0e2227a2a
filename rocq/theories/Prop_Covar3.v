(** * C101: assembling the covariance matrix from ceres' blocks *)
From Coq Require Import Reals Lra.
From Verif Require Import Base SolverLsqModel SolverLsqProofs MargHessModel CovarModel CovarSpec CovarProofs.
From Coq Require Import ZifyBool ZifyNat.
Local Open Scope Z_scope.

Section C101.
Context (info : Z -> pinfo) (L : list Z) (cov : Z -> Z -> option (Z -> Z -> R)) (K : Z -> Z -> Z -> Z -> R).
Hypothesis SZ : forall p, 0 <= pi_size (info p).
Hypothesis ND : NoDup L.
Hypothesis FR : forall p, In p L -> pi_fixed (info p) = false.
Hypothesis HC : forall p q, In p L -> In q L ->
  exists B, cov p q = Some B /\ forall a b, 0 <= a < pi_size (info p) -> 0 <= b < pi_size (info q) -> B a b = K p a q b.
Hypothesis HK : forall p a q b, K p a q b = K q b p a.

Lemma cc_find l : forall i p, NoDup l -> (forall p, In p l -> pi_fixed (info p) = false) -> order_find (cc_indices info i l) p = order_find (assign info i l) p.
Proof using.
  clear SZ ND FR HC HK.
  assert (A : forall x y p, order_find (x ++ y) p = match order_find x p with Some i => Some i | None => order_find y p end).
  { induction x as [|[q i] x IH]; intros y p; [reflexivity|]. cbn [app order_find]. destruct (_ =? _); [reflexivity|apply IH]. }
  assert (N : forall l i p, ~ In p l -> order_find (assign info i l) p = None).
  { induction l0 as [|q l0 IH]; intros i p Hp; [reflexivity|]. cbn [assign order_find]. destruct (Z.eqb_spec p q) as [->|_]; [exfalso; apply Hp; left; reflexivity|].
    apply IH. intros X. apply Hp. right. exact X. }
  induction l as [|q l IH]; intros i p Hn Hf; [reflexivity|]. inversion Hn as [|? ? Hq Hn']; subst. cbn [cc_indices]. rewrite (Hf q (or_introl eq_refl)).
  rewrite A, IH by (auto; intros; apply Hf; right; assumption). cbn [assign order_find].
  destruct (Z.eqb_spec p q) as [->|Hne]; [rewrite N by exact Hq; reflexivity|]. destruct (order_find _ p); reflexivity.
Qed.
Lemma cc_filter : filter (free info) L = L.
Proof using FR.
  revert FR. clear. intros FR. induction L as [|p l IH]; [reflexivity|]. cbn [filter]. unfold free at 1. rewrite (FR p (or_introl eq_refl)). cbn [negb]. f_equal. apply IH. intros q Hq. apply FR. right. exact Hq.
Qed.
Let o := cc_indices info 0 L.
Let n := cc_size info L.
Lemma at_col p a : In p L -> 0 <= a < pi_size (info p) -> column info L p a (order_at o p + a).
Proof using ND FR.
  clear HC HK K cov. intros Hp Ha. apply (column_order info L ND). destruct (proj2 (assign_find_In info L 0 p) Hp) as (i & Hi). exists i. split; [exact Hi|].
  unfold order_at, o. rewrite cc_find by assumption. rewrite Hi. clear SZ. lia.
Qed.
Lemma fits p : In p L -> 0 <= order_at o p /\ order_at o p + pi_size (info p) <= n.
Proof using SZ ND FR.
  clear HC HK K cov. intros Hp. destruct (proj2 (assign_find_In info L 0 p) Hp) as (i & Hi). unfold order_at, o. rewrite cc_find by assumption. rewrite Hi.
  apply (assign_find info L 0 p ND) in Hi as (l1 & l2 & E & ->). assert (En : n = sum_sizes info L) by (unfold n, cc_size; rewrite cc_filter; reflexivity). rewrite En, E, sum_sizes_app.
  pose proof (sum_sizes_nonneg info l1 SZ). pose proof (sum_sizes_nonneg info l2 SZ). change (sum_sizes info (p :: l2)) with (pi_size (info p) + sum_sizes info l2). lia.
Qed.
Definition agree (Sx : Z -> Z -> Prop) (C : Z -> Z -> R) : Prop :=
  forall p a q b c d, column info L p a c -> column info L q b d -> Sx p q -> C c d = K p a q b.
Lemma set_agree Sx C p q B : In p L -> In q L -> agree Sx C -> (forall a b, 0 <= a < pi_size (info p) -> 0 <= b < pi_size (info q) -> B a b = K p a q b) ->
  exists C', block_set n C (order_at o p) (order_at o q) (pi_size (info p)) (pi_size (info q)) B = Ret C' /\
    agree (fun x y => Sx x y \/ x = p /\ y = q) C'.
Proof.
  intros Hp Hq HA HB. destruct (fits p Hp), (fits q Hq). unfold block_set. replace (_ && _)%bool with true by lia. eexists. split; [reflexivity|].
  intros x a y b c d Hx Hy HS. cbv beta. destruct (_ && _)%bool eqn:E.
  - unfold in_blk in E. assert (Ea : 0 <= c - order_at o p < pi_size (info p)) by lia. assert (Eb : 0 <= d - order_at o q < pi_size (info q)) by lia.
    pose proof (at_col p _ Hp Ea) as X1. pose proof (at_col q _ Hq Eb) as X2. replace (order_at o p + (c - order_at o p)) with c in X1 by lia. replace (order_at o q + (d - order_at o q)) with d in X2 by lia.
    destruct (column_unique info L ND SZ FR _ _ _ _ _ Hx X1) as [-> ->]. destruct (column_unique info L ND SZ FR _ _ _ _ _ Hy X2) as [-> ->]. apply HB; assumption.
  - destruct HS as [HS|[-> ->]]; [eapply HA; eassumption|]. exfalso. unfold in_blk in E.
    apply (column_order info L ND) in Hx as (i & Hi & -> & Ha). apply (column_order info L ND) in Hy as (j & Hj & -> & Hb).
    unfold CovarProofs.o in Hi, Hj.
    assert (order_at o p = i) by (unfold order_at, o; rewrite cc_find, Hi by assumption; reflexivity).
    assert (order_at o q = j) by (unfold order_at, o; rewrite cc_find, Hj by assumption; reflexivity). lia.
Qed.
Lemma agree_mono (S1 S2 : Z -> Z -> Prop) C : (forall x y, S2 x y -> S1 x y) -> agree S1 C -> agree S2 C.
Proof. intros H A p a q b c d X Y W. eapply A; eauto. Qed.
Lemma row_agree qs : forall p same Sx C, In p L -> incl qs L -> (same = true -> exists t, qs = p :: t) -> agree Sx C ->
  exists C', cc_row info cov o n p same qs C = Ret (Some C') /\ agree (fun x y => Sx x y \/ x = p /\ In y qs \/ y = p /\ In x qs) C'.
Proof.
  induction qs as [|q qs IH]; intros p same Sx C Hp Hi Hs HA.
  - exists C. split; [reflexivity|]. revert HA. apply agree_mono. cbn [In]. tauto.
  - assert (Hq : In q L) by (apply Hi; left; reflexivity). assert (Hi' : incl qs L) by (intros x Hx; apply Hi; right; exact Hx).
    cbn [cc_row]. destruct (HC p q Hp Hq) as (B & -> & HB). destruct (set_agree Sx C p q B Hp Hq HA HB) as (C1 & -> & A1). cbn [obind].
    destruct same.
    + destruct (Hs eq_refl) as (t & Et). injection Et as -> _. cbn [obind]. destruct (IH p false _ C1 Hp Hi' ltac:(discriminate) A1) as (C' & HC' & A'). exists C'. split; [exact HC'|].
      revert A'. apply agree_mono. cbn [In]. intros x y. intuition congruence.
    + destruct (set_agree _ C1 q p (fun a b => B b a) Hq Hp A1) as (C2 & -> & A2). { intros a b Ha Hb. rewrite HB by assumption. apply HK. }
      cbn [obind]. destruct (IH p false _ C2 Hp Hi' ltac:(discriminate) A2) as (C' & HC' & A'). exists C'. split; [exact HC'|].
      revert A'. apply agree_mono. cbn [In]. intros x y. intuition congruence.
Qed.
Lemma rows_agree ps : forall Sx C, incl ps L -> agree Sx C ->
  exists C', cc_rows info cov o n ps C = Ret (Some C') /\ agree (fun x y => Sx x y \/ In x ps /\ In y ps) C'.
Proof.
  induction ps as [|p ps IH]; intros Sx C Hi HA.
  - exists C. split; [reflexivity|]. revert HA. apply agree_mono. cbn [In]. tauto.
  - destruct (row_agree (p :: ps) p true Sx C ltac:(apply Hi; left; reflexivity) Hi ltac:(eauto) HA) as (C1 & E & A1). cbn [cc_rows]. rewrite E. cbn [obind].
    destruct (IH _ C1 ltac:(intros x Hx; apply Hi; right; exact Hx) A1) as (C' & HC' & A'). exists C'. split; [exact HC'|].
    revert A'. apply agree_mono. cbn [In]. intros x y. intuition congruence.
Qed.
End C101.

(** C101: if none of the parameters is fixed and ceres has the covariance [K] of their components, the matrix returned
    has the covariance of component [a] of [p] and component [b] of [q] where their columns meet. *)
Theorem C101_ceres_partial : forall info cov K params, (forall p, 0 <= pi_size (info p)) -> NoDup params ->
  (forall p, In p params -> pi_fixed (info p) = false) ->
  (forall p q, In p params -> In q params ->
    exists B, cov p q = Some B /\ forall a b, 0 <= a < pi_size (info p) -> 0 <= b < pi_size (info q) -> B a b = K p a q b) ->
  (forall p a q b, K p a q b = K q b p a) ->
  exists C, ceres_covariance info cov true params = Ret (Some C) /\
    cc_size info params = fold_right (fun p s => pi_size (info p) + s) 0 params /\
    forall p a q b c d, column info params p a c -> column info params q b d -> C c d = K p a q b.
Proof.
  intros info cov K params SZ ND FR HC HK. destruct (rows_agree info params cov K SZ ND FR HC HK params (fun _ _ => False) (fun _ _ => 0%R)) as (C & E & A).
  - intros x Hx. exact Hx.
  - intros p a q b c d _ _ [].
  - exists C. split; [exact E|]. split; [unfold cc_size; rewrite (cc_filter info params FR); reflexivity|].
    intros p a q b c d Hc Hd. apply A; [exact Hc|exact Hd|]. right. split; eapply column_in; eassumption.
Qed.

(** Failure is reported if and only if ceres could not compute the covariance or has none of two of the parameters. *)
Theorem C101_failure_partial : forall info cov params, (forall p, 0 <= pi_size (info p)) -> NoDup params ->
  (forall p, In p params -> pi_fixed (info p) = false) ->
  (forall p q, cov p q = None -> cov q p = None) ->
  ceres_covariance info cov false params = Ret None /\
  (ceres_covariance info cov true params = Ret None <-> exists p q, In p params /\ In q params /\ cov p q = None) /\
  exists r, ceres_covariance info cov true params = Ret r.
Proof.
  intros info cov params SZ ND FR SY. split; [reflexivity|].
  assert (BS : forall p q C M, In p params -> In q params -> exists C', block_set (cc_size info params) C (order_at (cc_indices info 0 params) p) (order_at (cc_indices info 0 params) q) (pi_size (info p)) (pi_size (info q)) M = Ret C').
  { intros p q C M Hp Hq. destruct (fits info params SZ ND FR p Hp), (fits info params SZ ND FR q Hq). unfold block_set. replace (_ && _)%bool with true by lia. eauto. }
  assert (RW : forall qs p same C, In p params -> incl qs params ->
    exists r, cc_row info cov (cc_indices info 0 params) (cc_size info params) p same qs C = Ret r /\ (r = None <-> exists q, In q qs /\ cov p q = None)).
  { induction qs as [|q qs IH]; intros p same C Hp Hi.
    - exists (Some C). split; [reflexivity|]. split; [discriminate|]. intros (q & [] & _).
    - assert (Hq : In q params) by (apply Hi; left; reflexivity). assert (Hi' : incl qs params) by (intros x Hx; apply Hi; right; exact Hx).
      cbn [cc_row]. destruct (cov p q) as [B|] eqn:EB.
      + destruct (BS p q C B Hp Hq) as (C1 & ->). cbn [obind].
        assert (X : exists C2, (if same then Ret C1 else block_set (cc_size info params) C1 (order_at (cc_indices info 0 params) q) (order_at (cc_indices info 0 params) p) (pi_size (info q)) (pi_size (info p)) (fun a b => B b a)) = Ret C2).
        { destruct same; [eauto|]. apply BS; assumption. }
        destruct X as (C2 & ->). cbn [obind]. destruct (IH p false C2 Hp Hi') as (r & -> & Hr). exists r. split; [reflexivity|]. rewrite Hr. split.
        * intros (x & Hx & E). exists x. split; [right; exact Hx|exact E].
        * intros (x & [<-|Hx] & E); [congruence|]. exists x. auto.
      + exists None. split; [reflexivity|]. split; [|reflexivity]. intros _. exists q. split; [left; reflexivity|exact EB]. }
  assert (RS : forall ps C, incl ps params -> exists r, cc_rows info cov (cc_indices info 0 params) (cc_size info params) ps C = Ret r /\
     (r = None <-> exists p q, In p ps /\ In q ps /\ cov p q = None)).
  { induction ps as [|p ps IH]; intros C Hi.
    - exists (Some C). split; [reflexivity|]. split; [discriminate|]. intros (p & q & [] & _).
    - cbn [cc_rows]. destruct (RW (p :: ps) p true C ltac:(apply Hi; left; reflexivity) Hi) as (r & -> & Hr). cbn [obind]. destruct r as [C1|].
      + destruct (IH C1 ltac:(intros x Hx; apply Hi; right; exact Hx)) as (r & -> & Hr'). exists r. split; [reflexivity|]. rewrite Hr'. split.
        * intros (x & y & Hx & Hy & E). exists x, y. cbn [In]. auto.
        * intros (x & y & Hx & Hy & E). assert (N : forall q, In q (p :: ps) -> cov p q <> None). { intros q Hq E'. enough (Some C1 = None) by discriminate. apply Hr. eauto. }
          destruct Hx as [<-|Hx]; [exfalso; apply (N y Hy E)|]. destruct Hy as [<-|Hy]; [exfalso; apply (N x (or_intror Hx)); apply SY; exact E|]. exists x, y. auto.
      + exists None. split; [reflexivity|]. split; [|reflexivity]. intros _. destruct (proj1 Hr eq_refl) as (q & Hq & E). exists p, q. cbn [In]. auto. }
  destruct (RS params (fun _ _ => 0%R)) as (r & E & Hr); [intros x Hx; exact Hx|]. unfold ceres_covariance. rewrite E. split; [|eauto].
  rewrite <- Hr. split; [intros X; injection X as ->; reflexivity|intros ->; reflexivity].
Qed.

(** A fixed parameter among those asked for has index 0 and overwrites the covariance of the first one (ceres' covariance of
    a constant is zero); a larger one is written past the end of the matrix. *)
Definition w3_info (p : Z) : pinfo := mkPinfo TExtrinsics (2 <=? p) (if p =? 3 then 6 else 1).
Theorem C101_fixed_refuted :
  (exists info cov C, (forall p q, exists B, cov p q = Some B) /\
    (forall B, cov 1 1 = Some B -> B 0 0 = 1%R) /\ ceres_covariance info cov true [1; 2] = Ret (Some C) /\ column info [1] 1 0 0 /\ C 0 0 = 0%R) /\
  exists info cov, (forall p q, exists B, cov p q = Some B) /\ ceres_covariance info cov true [1; 3] = Undef.
Proof.
  split.
  - exists w3_info, (fun p q => Some (fun _ _ => if (p =? 1) && (q =? 1) then 1%R else 0%R)). eexists. split; [eauto|]. split; [intros B E; injection E as <-; reflexivity|].
    split; [reflexivity|]. split; [exists [], []; split; [reflexivity|]; split; [cbn; lia|reflexivity]|]. cbn. reflexivity.
  - exists w3_info, (fun p q => Some (fun _ _ => 0%R)). split; [eauto|]. reflexivity.
Qed.

(** Example: parameters with one and two components *)
Theorem C101_ex : exists info cov K params, (forall p, 0 <= pi_size (info p)) /\ NoDup params /\
  (forall p, In p params -> pi_fixed (info p) = false) /\
  (forall p q, In p params -> In q params ->
    exists B, cov p q = Some B /\ forall a b, 0 <= a < pi_size (info p) -> 0 <= b < pi_size (info q) -> B a b = K p a q b) /\
  (forall p a q b, K p a q b = K q b p a) /\ column info params 2 1 2 /\ column info params 1 0 0 /\
  (forall C, ceres_covariance info cov true params = Ret (Some C) -> C 2 0 = 3%R).
Proof.
  exists (fun p => mkPinfo TExtrinsics false (Z.max 0 p)), (fun p q => Some (fun a b => IZR (p + a + (q + b) - 1))), (fun p a q b => IZR (p + a + (q + b) - 1)), [1; 2].
  split; [intros p; cbn; lia|]. split; [repeat constructor; cbn; intuition lia|]. split; [reflexivity|]. split; [intros p q _ _; eexists; split; [reflexivity|]; reflexivity|].
  split; [intros p a q b; f_equal; lia|]. split; [exists [1], []; split; [reflexivity|]; split; [cbn; lia|reflexivity]|]. split; [exists [], [2]; split; [reflexivity|]; split; [cbn; lia|reflexivity]|].
  intros C E. injection E as <-. reflexivity.
Qed.
