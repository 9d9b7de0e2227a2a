(** * Concrete problems for C102 *)
From Coq Require Import Reals Lra.
From Verif Require Import Base SolverLsqModel SolverLsqProofs MargHessModel CovarModel CovarSpec CovarProofs CovarProofs2.
Local Open Scope Z_scope.

(** 1: a camera with one component, fixed if [b]; 2: the pose of the only view; 3: the pose of the candidate view *)
Definition n_info (b : bool) (p : Z) : pinfo := if p =? 1 then mkPinfo TCamera b 1 else mkPinfo TPose false 6.
Definition z0 : Z -> R := fun _ => 0%R.
Definition diag2 : Z -> Z -> R := fun k a => if k =? a then (if a =? 0 then 2%R else 1%R) else 0%R.
Definition diag1 : Z -> Z -> R := fun k a => if k =? a then 1%R else 0%R.
(** the camera is not estimated *)
Definition rs_f : list resid := [mkResid 6 z0 [(1, fun k _ => 1%R); (2, diag2)]].
Definition news_f : list resid := [mkResid 6 z0 [(1, fun k _ => 1%R); (3, diag1)]].
(** the camera is seen in the candidate view only *)
Definition rs_u : list resid := [mkResid 6 z0 [(2, diag2)]].
Definition news_u (v : R) : list resid := [mkResid 7 z0 [(3, diag1); (1, fun k _ => if k =? 6 then v else 0%R)]].
(** the camera is seen in both *)
Definition rs_e : list resid := [mkResid 7 z0 [(1, fun k _ => if k =? 0 then 1%R else 0%R); (2, fun k a => if k =? a + 1 then 1%R else 0%R)]].
Definition news_e : list resid := [mkResid 9 z0 [(3, diag1); (1, fun k _ => if 6 <=? k then 1%R else 0%R)]].

Lemma in13 a : (a < 13)%nat -> In a [0; 1; 2; 3; 4; 5; 6; 7; 8; 9; 10; 11; 12]%nat.
Proof. intros H. change (In a (seq 0 13)). apply in_seq. lia. Qed.
Ltac split13 H := apply in13 in H; cbn [In] in H; repeat (destruct H as [<-|H]); try (destruct H).
Ltac entries a b Ha Hb := split13 Ha; split13 Hb; vm_compute; try lra.

Lemma hess_f : exists H, nbv_hessian (n_info true) rs_f news_f = Ret H /\
  forall a b : nat, (a < 13)%nat -> (b < 13)%nat ->
  H (Z.of_nat a) (Z.of_nat b) = (if Nat.eqb a b then (if Nat.eqb a 0 then 4 else if Nat.eqb a 12 then 0 else 1) else 0)%R.
Proof. eexists. split; [reflexivity|]. intros a b Ha Hb. entries a b Ha Hb. Qed.
Lemma hess_u v : exists H, nbv_hessian (n_info false) rs_u (news_u v) = Ret H /\
  forall a b : nat, (a < 13)%nat -> (b < 13)%nat ->
  H (Z.of_nat a) (Z.of_nat b) = (if Nat.eqb a b then (if Nat.eqb a 0 then 4 else if Nat.eqb a 12 then 0 else if Nat.eqb a 6 then 1 + v * v else 1) else 0)%R.
Proof. eexists. split; [reflexivity|]. intros a b Ha Hb. entries a b Ha Hb. Qed.
(** the Jacobian of the last problem *)
Definition jac_e (k c : Z) : R :=
  if c =? 0 then stacked (rs_e ++ news_e) 1 k 0 else if c <? 7 then stacked (rs_e ++ news_e) 2 k (c - 1) else stacked (rs_e ++ news_e) 3 k (c - 7).
Lemma gram_e (a b : nat) : (a < 13)%nat -> (b < 13)%nat ->
  sumn 16 (fun k => jac_e k (Z.of_nat a) * jac_e k (Z.of_nat b))%R = (if Nat.eqb a b then (if Nat.eqb a 0 then 4 else 1) else 0)%R.
Proof. intros Ha Hb. entries a b Ha Hb. Qed.
Lemma jac_e_col p a c k : column (n_info false) [1; 2; 3] p a c -> jac_e k c = stacked (rs_e ++ news_e) p k a.
Proof.
  intros (l1 & l2 & E & Ha & ->). unfold jac_e.
  destruct l1 as [|q1 [|q2 [|q3 [|q4 l1]]]]; cbn [app fold_right] in *.
  - injection E as <- <-. change (pi_size (n_info false 1)) with 1 in Ha. replace a with 0 by lia. reflexivity.
  - injection E as <- <- <-. change (pi_size (n_info false 1)) with 1. change (pi_size (n_info false 2)) with 6 in Ha.
    destruct (Z.eqb_spec (1 + 0 + a) 0); [lia|]. destruct (Z.ltb_spec (1 + 0 + a) 7); [|lia]. f_equal. lia.
  - injection E as <- <- <- <-. change (pi_size (n_info false 1)) with 1. change (pi_size (n_info false 2)) with 6. change (pi_size (n_info false 3)) with 6 in Ha.
    destruct (Z.eqb_spec (1 + (6 + 0) + a) 0); [lia|]. destruct (Z.ltb_spec (1 + (6 + 0) + a) 7); [lia|]. f_equal. lia.
  - exfalso. injection E as _ _ _ E. discriminate E.
  - exfalso. apply (f_equal (@length Z)) in E. cbn in E. rewrite app_length in E. cbn in E. lia.
Qed.
Lemma ln4_2 : ln 4 = (ln 2 + ln 2)%R.
Proof. replace 4%R with (2 * 2)%R by lra. apply ln_mult; lra. Qed.
Lemma ln2_pos : (0 < ln 2)%R.
Proof. rewrite <- ln_1. apply ln_increasing; lra. Qed.
Lemma new_undef info rs news p : (forall q, involves rs q -> pi_fixed (info q) = false -> pi_type (info q) <> TPose) ->
  involves news p -> ~ involves rs p -> pi_fixed (info p) = false -> nbv_hessian info rs news = Undef.
Proof.
  intros HP Hn Ho Hf. unfold nbv_hessian, nbv_order_new.
  assert (E : nbv_seen info TPose (blocks_of rs) = []).
  { destruct (nbv_seen info TPose (blocks_of rs)) as [|q l] eqn:E; [reflexivity|]. exfalso.
    assert (K : In q (nbv_seen info TPose (blocks_of rs))) by (rewrite E; left; reflexivity).
    apply CovarProofs2.seen_in in K as (K1 & K2 & K3). apply (HP q K1 K2). unfold has_type in K3. destruct (pi_type (info q)); congruence. }
  rewrite E. cbn [rev]. set (new := filter _ _).
  assert (Hin : In p new).
  { apply filter_In. split.
    - destruct Hn as (x & Hx & Hp). apply in_concat. exists (map fst (rs_blk x)). split; [apply in_map_iff; exists x; auto|exact Hp].
    - change (nbv_order info (blocks_of rs)) with (assign info 0 (CovarProofs2.nbv_list info rs)). rewrite CovarProofs2.find_none; [unfold free; rewrite Hf; reflexivity|].
      rewrite CovarProofs2.list_in. tauto. }
  destruct new; [destruct Hin|reflexivity].
Qed.
