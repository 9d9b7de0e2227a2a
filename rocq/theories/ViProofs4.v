(** What each call of the calibrator does, and the invariant of whole histories (C85-C89). *)
From Verif Require Import Base GeomModel EulerModel StatsModel ImuModel ViModel ViSpec ViProofs ViProofs2 ViProofs3.
From Coq Require Import Reals Sorted Permutation.
Local Open Scope Z_scope.

Lemma bind_ret {A B} (x : outcome A) (f : A -> outcome B) b : obind x f = Ret b -> exists a, x = Ret a /\ f a = Ret b.
Proof. destruct x as [a| |]; cbn; intros E; try discriminate. eauto. Qed.

Section S.
Context (z1 z3 : R) (pnp : list R -> list corner -> option mat4) (pick : nat -> Z -> list corner -> list corner)
        (slv : problem -> (pid -> list R) -> pid -> list R) (reproj : rid -> corner -> (pid -> list R) -> option (R * R))
        (cfg : settings).

Lemma gm_set_keys c g m : StronglySorted Z.lt (map fst m) -> StronglySorted Z.lt (map fst (gm_set c g m)) /\
  (forall d h, In (d, h) (gm_set c g m) -> (d = c /\ h = g) \/ In (d, h) m).
Proof.
  induction m as [|[d h] m IH]; cbn [gm_set]; intros Ss.
  - split; [repeat constructor|]. intros d h [E|[]]. inversion E; auto.
  - cbn [map fst] in Ss. apply StronglySorted_inv in Ss as (S1 & S2). destruct (IH S1) as (I1 & I2). destruct (Z.ltb_spec c d).
    + split.
      * cbn. constructor; [constructor; auto|]. constructor; auto. rewrite Forall_forall in *. intros x Hx. apply S2 in Hx. lia.
      * intros d0 h0 [E|E]; [inversion E; auto|auto].
    + destruct (Z.eqb_spec c d).
      * subst. split; [cbn; constructor; auto|]. intros d0 h0 [E|E]; [inversion E; auto|cbn; auto].
      * split.
        -- cbn. constructor; auto. rewrite Forall_forall. intros x Hx. apply in_map_iff in Hx as ((d0 & h0) & <- & Hx). cbn.
           apply I2 in Hx as [(-> & _)|Hx]; [lia|]. rewrite Forall_forall in S2. apply S2. apply (in_map fst) in Hx. exact Hx.
        -- intros d0 h0 [E|E]; [cbn; auto|]. apply I2 in E as [E|E]; cbn; auto.
Qed.

(** new_view *)
Lemma new_view_spec n ts gs T sb s s' : new_view pick cfg n ts gs T sb s = Ret s' ->
  exists fid q, add_grids pick cfg s n gs (q_add (PSb n) (q_add (PPose n) (s_prob s))) = Ret (fid, q) /\
  s' = Vi (s_started s) (s_init s) (s_running s) (s_cams s) (s_fixed s) (s_gbuf s) (s_imu s)
     (S n) (s_views s ++ [View n ts fid None]) (s_prior s) (s_nprior s) q
     (set_x (PSb n) sb (set_x (PPose n) (of_mat T) (s_x s))) (s_fid s).
Proof.
  unfold new_view. intros E. apply bind_ret in E as ((fid & q) & E1 & E2). inversion E2. eauto.
Qed.
Lemma last_view_spec s v : last_view s = Some v -> exists vs, s_views s = vs ++ [v].
Proof.
  unfold last_view. destruct (rev (s_views s)) as [|w r] eqn:E; [discriminate|]. intros H; inversion H; subst.
  exists (rev r). rewrite <- (rev_involutive (s_views s)), E. reflexivity.
Qed.
Lemma last_view_none s : last_view s = None -> s_views s = [].
Proof. unfold last_view. destruct (rev (s_views s)) as [|w r] eqn:E; [|discriminate]. intros _. rewrite <- (rev_involutive (s_views s)), E. reflexivity. Qed.

(** the speed and biases of a new view *)
Definition next_sb (T : mat4) (ts : Z) (v : view) (s : vi) : list R :=
  of_vec (vscale (/ (IZR (ts - v_ts v) * / 10 ^ 9)) (vsub (tf_trans T) (tf_trans (tf_at (s_x s) (PPose (v_id v)))))) ++
  of_vec (seg3 3 (s_x s (PSb (v_id v)))) ++ of_vec (seg3 6 (s_x s (PSb (v_id v)))).

Record view_step (gs : gmap) (s s' : vi) : Prop := ViewStep {
  vs_c : Z; vs_g : vgrid; vs_det : first_detected gs = Some (vs_c, vs_g); vs_init : s_init s = true;
  vs_T : mat4; vs_F : mat4; vs_est : estimate_sensor_pose z1 z3 pnp gs s = Ret (vs_T, vs_F);
  vs_old : list view; vs_v : view; vs_views : s_views s = vs_old ++ [vs_v];
  vs_f : list (Z * list (rid * corner)); vs_q : problem;
  vs_grids : add_grids pick cfg s (s_next s) gs (q_add (PSb (s_next s)) (q_add (PPose (s_next s)) (s_prob s))) = Ret (vs_f, vs_q);
  vs_many : 5 <= imu_size (s_imu s);
  vs_b : imu_data; vs_trim : if c_marg cfg then imu_trim (s_imu s) (g_ts vs_g) = Ret vs_b else vs_b = s_imu s;
  vs_eq : s' = Vi (s_started s) (s_init s) (s_running s) (s_cams s) (s_fixed s) (s_gbuf s) vs_b (S (s_next s))
     (set_link (v_id vs_v) (Link (s_imu s) (v_id vs_v) (s_next s) (v_ts vs_v) (g_ts vs_g)) (s_views s ++ [View (s_next s) (g_ts vs_g) vs_f None]))
     (s_prior s) (s_nprior s) (q_add_res (RImu (v_id vs_v)) (imu_params_of (v_id vs_v) (s_next s)) vs_q)
     (set_x (PSb (s_next s)) (next_sb vs_T (g_ts vs_g) vs_v s) (set_x (PPose (s_next s)) (of_mat vs_T) (s_x s))) (Some vs_F) }.
Lemma add_view_spec gs s s' : add_view z1 z3 pnp pick cfg gs s = Ret s' ->
  (s' = s /\ (s_init s = false \/ first_detected gs = None)) \/ view_step gs s s'.
Proof.
  unfold add_view. destruct (s_init s) eqn:Ei; cbn [negb]; [|intros E; inversion E; auto].
  destruct (first_detected gs) as [[c g]|] eqn:Ed; [|intros E; inversion E; auto].
  intros E. apply bind_ret in E as ((T & F) & E1 & E). cbn [fst snd] in E.
  destruct (last_view (set_fid F s)) as [v|] eqn:El; [|discriminate].
  apply last_view_spec in El as (vs & El). cbn [set_fid s_views] in El.
  apply bind_ret in E as (s1 & E2 & E). apply new_view_spec in E2 as (fid & q & E2 & -> ).
  cbn [set_fid s_imu s_next s_prob s_x s_views s_started s_running s_cams s_fixed s_gbuf s_prior s_nprior s_fid s_init] in E, E2.
  cbv zeta in E. destruct (Z.ltb_spec (imu_size (s_imu s)) 5); [discriminate|]. right.
  assert (E2' : add_grids pick cfg s (s_next s) gs (q_add (PSb (s_next s)) (q_add (PPose (s_next s)) (s_prob s))) = Ret (fid, q)).
  { rewrite <- E2. clear. generalize (q_add (PSb (s_next s)) (q_add (PPose (s_next s)) (s_prob s))) as q0.
    induction gs as [|[c g] gs IH]; intros q0; cbn [add_grids]; auto. change (known (set_fid F s) c) with (known s c).
    destruct (view_pts pick cfg (s_next s) c g); auto. destruct (known s c); auto. destruct (add_corners (s_next s) c 0 (c0 :: l) q0). rewrite IH. auto. }
  clear E2. unfold with_views, with_imu in E.
  cbn [set_fid s_imu s_next s_prob s_x s_views s_started s_running s_cams s_fixed s_gbuf s_prior s_nprior s_fid s_init] in E.
  destruct (c_marg cfg) eqn:Em.
  - apply bind_ret in E as (b & Eb & E). inversion E; subst s'.
    econstructor; eauto; rewrite Em; auto.
  - inversion E; subst s'. econstructor; eauto; rewrite Em; auto.
Qed.

(** initialize *)
Record init_step (gs : gmap) (s s' : vi) : Prop := InitStep {
  is_g : vgrid; is_get : gm_get 0 gs = Some is_g; is_known : known s 0 = true;
  is_T : mat4; is_est : estimate pnp s 0 is_g = Some is_T;
  is_s : vi; is_W : mat4;
  is_case : (s_fid s = None /\
     let C_WS := initial_attitude (s_imu s) in
     let T_WF := mmul4 (mmul4 (tf C_WS vzero) (mmul4 (tf_inv (tf_at (s_x s) PImuExt)) (tf_at (s_x s) (PCamExt 0)))) is_T in
     is_W = tf C_WS (vscale (-1) (tf_trans T_WF)) /\ is_s = set_fiducial z1 z3 (tf (tf_rot T_WF) vzero) s) \/
     (exists T, s_fid s = Some T /\ exists f, fiducial_pose z1 z3 s = Ret f /\
        is_W = mmul4 (mmul4 (fst f) (tf_inv is_T)) (tf_at (s_x s) PImuExt) /\ is_s = set_fid (snd f) s);
  is_f : list (Z * list (rid * corner)); is_q : problem;
  is_grids : add_grids pick cfg is_s (s_next s) gs (q_add (PSb (s_next s)) (q_add (PPose (s_next s)) (s_prob is_s))) = Ret (is_f, is_q);
  is_eq : s' = Vi (s_started s) true (s_running s) (s_cams s) (s_fixed s) (s_gbuf s) (s_imu s) (S (s_next s))
     (s_views s ++ [View (s_next s) (g_ts is_g) is_f None]) (s_prior s) (s_nprior s) is_q
     (set_x (PSb (s_next s)) (repeat 0%R 9) (set_x (PPose (s_next s)) (of_mat is_W) (s_x is_s))) (s_fid is_s) }.
Lemma initialize_spec gs s s' : initialize z1 z3 pnp pick cfg gs s = Ret s' -> init_step gs s s'.
Proof.
  unfold initialize. destruct (gm_get 0 gs) as [g|] eqn:Eg; [|discriminate]. destruct (known s 0) eqn:Ek; [|discriminate].
  destruct (estimate pnp s 0 g) as [T|] eqn:Ee; [|discriminate]. intros E.
  apply bind_ret in E as ((W & s0) & E0 & E). apply bind_ret in E as (s1 & E1 & E). cbn [fst snd] in E1.
  apply new_view_spec in E1 as (fid & q & E1 & -> ). cbn in E. inversion E; subst s'. clear E.
  destruct (s_fid s) as [TF|] eqn:Ef.
  - apply bind_ret in E0 as (f & E2 & E3). inversion E3; subst W s0.
    econstructor; eauto. right. exists TF. split; [exact Ef|]. exists f. auto.
  - inversion E0; subst W s0. econstructor; eauto.
Qed.

(** one IMU sample: the state after the buffers are updated *)
Definition sampled (ts : Z) (a w : vec3) (gb : gmap) (s : vi) : vi :=
  Vi true (s_init s) (s_running s) (s_cams s) (s_fixed s) gb (imu_add (s_imu s) ts a w)
     (s_next s) (s_views s) (s_prior s) (s_nprior s) (s_prob s) (s_x s) (s_fid s).
Inductive sample_step (ts : Z) (a w : vec3) (s s' : vi) : Prop :=
| ss_wait : length (s_gbuf s) <> length (s_cams s) -> s' = sampled ts a w (s_gbuf s) s -> sample_step ts a w s s'
| ss_init : length (s_gbuf s) = length (s_cams s) -> s_init s = false -> imu_size (imu_add (s_imu s) ts a w) > 2 ->
    first_detected (s_gbuf s) <> None -> init_step (s_gbuf s) (sampled ts a w [] s) s' -> sample_step ts a w s s'
| ss_drop : length (s_gbuf s) = length (s_cams s) ->
    (s_init s = false /\ imu_size (imu_add (s_imu s) ts a w) <= 2) \/ first_detected (s_gbuf s) = None ->
    (c_marg cfg && over_window cfg s = false) -> s' = sampled ts a w [] s -> sample_step ts a w s s'
| ss_view : length (s_gbuf s) = length (s_cams s) -> view_step (s_gbuf s) (sampled ts a w [] s) s' ->
    c_marg cfg && over_window cfg s' = false -> sample_step ts a w s s'
| ss_marg s1 s2 : length (s_gbuf s) = length (s_cams s) ->
    (s1 = sampled ts a w [] s \/ view_step (s_gbuf s) (sampled ts a w [] s) s1) ->
    c_marg cfg = true -> over_window cfg s1 = true -> marginalize (with_x (slv (s_prob s1) (s_x s1)) s1) = Ret s2 ->
    s' = set_running s2 -> sample_step ts a w s s'.
Lemma sample_spec ts a w s s' : add_imu_sample z1 z3 pnp pick slv cfg ts a w s = Ret s' -> sample_step ts a w s s'.
Proof.
  unfold add_imu_sample. cbn [s_gbuf s_cams s_init s_imu s_views s_prior s_nprior s_prob s_x s_fid s_started s_running s_fixed s_next].
  fold (sampled ts a w (s_gbuf s) s). fold (sampled ts a w [] s).
  destruct (Nat.eqb_spec (length (s_gbuf s)) (length (s_cams s))) as [El|El]; cbn [negb].
  2:{ intros E. inversion E. apply ss_wait; auto. }
  destruct (negb (s_init s) && (imu_size (imu_add (s_imu s) ts a w) >? 2)) eqn:Eb.
  - apply andb_true_iff in Eb as (Eb1 & Eb2). apply negb_true_iff in Eb1. apply Z.gtb_lt in Eb2.
    destruct (first_detected (s_gbuf s)) as [[c g]|] eqn:Ed.
    + intros E. apply initialize_spec in E. apply ss_init; auto; [lia|congruence].
    + intros E. apply bind_ret in E as (s3 & E3 & E). apply add_view_spec in E3 as [( -> & _)|[c g Hd]]; [|congruence].
      destruct (c_marg cfg && over_window cfg (sampled ts a w [] s)) eqn:Ew.
      * apply andb_true_iff in Ew as (W1 & W2). apply bind_ret in E as (s4 & E4 & E). inversion E; subst s'.
        eapply ss_marg; eauto.
      * inversion E; subst. eapply ss_drop; eauto.
  - intros E. apply bind_ret in E as (s3 & E3 & E). apply add_view_spec in E3 as [( -> & Hd)|Hv].
    + destruct (c_marg cfg && over_window cfg (sampled ts a w [] s)) eqn:Ew.
      * apply andb_true_iff in Ew as (W1 & W2). apply bind_ret in E as (s4 & E4 & E). inversion E; subst s'.
        eapply ss_marg; eauto.
      * inversion E; subst. eapply ss_drop; eauto.
        destruct Hd as [Hd|Hd]; [|auto]. left. split; auto. cbn [sampled s_init] in Hd. rewrite Hd in Eb. cbn [negb andb] in Eb.
        destruct (Z.gtb_spec (imu_size (imu_add (s_imu s) ts a w)) 2); [discriminate|lia].
    + destruct (c_marg cfg && over_window cfg s3) eqn:Ew.
      * apply andb_true_iff in Ew as (W1 & W2). apply bind_ret in E as (s4 & E4 & E). inversion E; subst s'.
        eapply ss_marg; eauto.
      * inversion E; subst. eapply ss_view; eauto.
Qed.
End S.
