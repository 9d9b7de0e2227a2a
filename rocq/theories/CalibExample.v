(** A concrete calibrator (one camera, a target with one tag) for examples and refutations. *)
From Coq Require Import Reals.
From Verif Require Import Base.
From stdpp Require Import gmap sets list countable.
From Verif Require Import AprilGridModel AprilGridSpec AprilGridProofs AprilGridIOModel SolverModel SolverProofs CalibModel CalibSpec.
Local Open Scope Z_scope.

(** call number [n] creates pose object 3n+2 and residual objects encode (n, cam, tag, corner) *)
Definition ex_ext (c : Z) : Z := 3 * c.
Definition ex_cam (c : Z) : Z := 3 * c + 1.
Definition ex_pose (n : Z) : Z := 3 * n + 2.
Definition ex_id (n c t i : Z) : Z := Zpos (encode (n, c, t, i)).
Definition ex_blocks (r : Z) : list Z :=
  match r with
  | Zpos p => match (decode p : option (Z * Z * Z * Z)) with
              | Some (n, c, _, _) => [ex_ext c; ex_pose n; ex_cam c]
              | None => []
              end
  | _ => []
  end.
Definition ex_env (n : Z) (v : Z) : env Z := mkEnv (ex_pose n) (ex_id n) (fun _ _ => Ret v).
Definition ex_solver : csolver := match crun ex_blocks (map AddParam [0; 1]) with Ret s => s | _ => csolver_new end.
Definition ex_k0 : calib Z := mkCalib {[0 := 10]} {[0 := 20]} ∅ ∅ ∅ [] ex_solver (XF 0).
(** the grid seen at time [ts]: corner 0 at (1,2), corner 3 at (5,6) *)
Definition ex_ops : list op := [OpAdd 0 0 (1, 2)%R; OpAdd 0 3 (5, 6)%R].
Definition ex_hist (ts : Z) : list (Z * (Z * list op)) := [(0, (ts, ex_ops))].
Definition ex_grid (ts : Z) : grid := snd (run (new_grid ts 1 1 1 0) ex_ops).
Definition ex_gs (ts : Z) : list (Z * grid) := [(0, ex_grid ts)].
Notation ex_corners := (fiducial_corners 1 1 1%R 0%R).
Notation ex_reach := (reach ex_blocks 1 1 1%R 0%R ex_ext ex_cam (list_to_set [0; 1])).

Lemma ex_id_inj n c t i n' c' t' i' : ex_id n c t i = ex_id n' c' t' i' -> n = n' /\ c = c' /\ t = t' /\ i = i'.
Proof. unfold ex_id. intros H. injection H as H. apply (encode_inj (A:=Z*Z*Z*Z)) in H. injection H; auto. Qed.
Lemma ex_blocks_id n c t i : ex_blocks (ex_id n c t i) = [ex_ext c; ex_pose n; ex_cam c].
Proof. unfold ex_blocks, ex_id. now rewrite decode_encode. Qed.
Lemma ex_fresh n v (k : calib Z) : ex_pose n ∉ c_pparams (k_solver k) ->
  (forall c t i, ex_id n c t i ∉ s_res (c_base (k_solver k))) -> fresh_env ex_blocks ex_ext ex_cam (ex_env n v) k.
Proof.
  intros H1 H2. split; cbn [ex_env e_pose e_alloc]; auto.
  - intros c t i c' t' i' H. apply ex_id_inj in H. tauto.
  - intros c t i. rewrite ex_blocks_id. split; auto. unfold ex_ext, ex_cam, ex_pose.
    repeat constructor; rewrite ?elem_of_cons, ?elem_of_nil; try lia; tauto.
Qed.
Lemma ex_recorded ts : recorded 1 1 1%R 0%R (ex_hist ts) (ex_gs ts).
Proof.
  split.
  - constructor; [intros H; inversion H|constructor].
  - constructor; [|constructor]. split; [reflexivity|]. split; [repeat constructor; lia|].
    vm_compute. reflexivity.
Qed.
Lemma ex_initial : initial ex_blocks ex_ext ex_cam (list_to_set [0; 1]) ex_k0.
Proof.
  split; [auto|]. split; [auto|]. split; [auto|]. split.
  - exists [0; 1]. split; reflexivity.
  - intros c [v H]. cbn in H. apply lookup_singleton_Some in H. destruct H as [<- _]. cbn.
    split; [eauto|]. unfold ex_ext, ex_cam. set_solver.
Qed.
Lemma ex_reach0 : ex_reach ex_k0.
Proof. apply R_init, ex_initial. Qed.
Lemma ex_fresh0 n v : 0 <= n -> fresh_env ex_blocks ex_ext ex_cam (ex_env n v) ex_k0.
Proof.
  intros Hn. apply ex_fresh.
  - change (c_pparams (k_solver ex_k0)) with ({[1]} ∪ ({[0]} ∪ ∅) : gset Z). unfold ex_pose. set_solver by lia.
  - intros c t i. change (s_res (c_base (k_solver ex_k0))) with (∅ : gset Z). set_solver.
Qed.
(** the calibrator with one view, at time 7 *)
Definition ex_k1 : calib Z := match add_view ex_blocks ex_corners (ex_env 1 50) ex_k0 (ex_gs 7) with Ret (_, k) => k | _ => ex_k0 end.
Lemma ex_add1 : add_view ex_blocks ex_corners (ex_env 1 50) ex_k0 (ex_gs 7) = Ret (true, ex_k1).
Proof.
  unfold ex_k1. assert (H : match add_view ex_blocks ex_corners (ex_env 1 50) ex_k0 (ex_gs 7) with Ret (b, _) => b | _ => false end = true) by (vm_compute; reflexivity).
  destruct (add_view ex_blocks ex_corners (ex_env 1 50) ex_k0 (ex_gs 7)) as [[[] k]| |]; auto; discriminate.
Qed.
Lemma ex_reach1 : ex_reach ex_k1.
Proof.
  eapply (R_add _ _ _ _ _ _ _ _ ex_k0 (ex_env 1 50) (ex_hist 7) (ex_gs 7)); [apply ex_reach0|apply ex_fresh0; lia|apply ex_recorded| |apply ex_add1].
  intros ts _. reflexivity.
Qed.
(** ... that view removed again *)
Definition ex_k1r : calib Z := match remove_view ex_blocks ex_k1 7 with Ret k => k | _ => ex_k0 end.
Definition is_ret {A} (o : outcome A) : bool := match o with Ret _ => true | _ => false end.
Lemma ex_remove1 : remove_view ex_blocks ex_k1 7 = Ret ex_k1r.
Proof.
  unfold ex_k1r. assert (H : is_ret (remove_view ex_blocks ex_k1 7) = true) by (vm_compute; reflexivity).
  destruct (remove_view ex_blocks ex_k1 7); auto; discriminate.
Qed.
(** a second view with the same timestamp; then removed *)
Definition ex_k2 : calib Z := match add_view ex_blocks ex_corners (ex_env 2 60) ex_k1 (ex_gs 7) with Ret (_, k) => k | _ => ex_k0 end.
Lemma ex_add2 : add_view ex_blocks ex_corners (ex_env 2 60) ex_k1 (ex_gs 7) = Ret (true, ex_k2).
Proof.
  unfold ex_k2. assert (H : match add_view ex_blocks ex_corners (ex_env 2 60) ex_k1 (ex_gs 7) with Ret (b, _) => b | _ => false end = true) by (vm_compute; reflexivity).
  destruct (add_view ex_blocks ex_corners (ex_env 2 60) ex_k1 (ex_gs 7)) as [[[] k]| |]; auto; discriminate.
Qed.
Definition ex_k2r : calib Z := match remove_view ex_blocks ex_k2 7 with Ret k => k | _ => ex_k0 end.
Lemma ex_remove2 : remove_view ex_blocks ex_k2 7 = Ret ex_k2r.
Proof.
  unfold ex_k2r. assert (H : is_ret (remove_view ex_blocks ex_k2 7) = true) by (vm_compute; reflexivity).
  destruct (remove_view ex_blocks ex_k2 7); auto; discriminate.
Qed.
Lemma ex_fresh2 : fresh_env ex_blocks ex_ext ex_cam (ex_env 2 60) ex_k1.
Proof.
  apply ex_fresh.
  - intros H. assert (Hb : bool_decide (ex_pose 2 ∈ c_pparams (k_solver ex_k1)) = true) by now apply bool_decide_eq_true.
    vm_compute in Hb. discriminate.
  - intros c t i H. assert (Hs : bool_decide (s_res (c_base (k_solver ex_k1)) = {[ex_id 1 0 0 0; ex_id 1 0 0 3]}) = true) by (vm_compute; reflexivity).
    apply bool_decide_eq_true in Hs.
    rewrite Hs, elem_of_union, !elem_of_singleton in H. destruct H as [H|H]; apply ex_id_inj in H; lia.
Qed.
