(** * C99: results of the motion-capture calibrator; examples for C94-C99 *)
From Verif Require Import Base GeomModel GeomSpec GeomProofs Prop_Geom StatsModel Prop_Stats MocapModel MocapSpec MocapProofs MocapProofs2 MocapProofs3 MocapProofs4 Prop_Mocap Prop_Mocap2.
From Verif Require CalibModel Prop_Vi5 Prop_Vi9.
From Coq Require Import Reals Lra Sorted Permutation.
Import CalibModel (XF, XPinf, XMinf).
Local Open Scope Z_scope.

Section T.
Context (pnp : list R -> list corner -> option mat4) (proj : list R -> vec3 -> option vec2)
        (slv : Z -> list (Z * corner) -> est -> values) (info : problem -> est -> option CalibModel.xreal)
        (shuffle : list Z -> list Z) (cfg : settings).

(** what stays of the estimates [e0] *)
Record Kept (gs : list (Z * mgrid)) (e0 e : est) : Prop := MkKept {
  k_cam : c_fix_cam cfg = true -> e_cam e = e_cam e0;
  k_fid : c_fix_fid cfg = true -> e_fid e = e_fid e0;
  k_val : forall ts p, In (ts, p) (e_poses e) -> c_fix_poses cfg = true \/ ~ In ts (map fst gs) -> In (ts, p) (e_poses e0);
  k_sub : incl (map fst (e_poses e)) (map fst (e_poses e0));
  k_all : forall ts, In ts (map fst (e_poses e0)) -> ~ In ts (map fst gs) -> In ts (map fst (e_poses e)) }.
Lemma kept_refl gs e : Kept gs e e.
Proof. split; auto. apply incl_refl. Qed.
Lemma kept_trans gs a b c : Kept gs a b -> Kept gs b c -> Kept gs a c.
Proof. intros [A1 A2 A3 A4 A5] [B1 B2 B3 B4 B5]. split; auto; [intros H; rewrite B1; auto|intros H; rewrite B2; auto|eapply incl_tran; eauto]. Qed.
Lemma kept_solved gs v rs e : (forall x, In x rs -> In (snd (fst x)) (map fst gs)) -> Kept gs e (solved cfg v rs e).
Proof.
  intros H. unfold solved. destruct rs as [|x0 rs]; [apply kept_refl|]. generalize dependent (x0 :: rs). intros l H.
  assert (Ek : map fst (map (fun tp : Z * pose => (fst tp, if c_fix_poses cfg then snd tp else if existsb (fun x : rid * Z * corner => snd (fst x) =? fst tp) l then MocapModel.n_pose v (fst tp) else snd tp)) (e_poses e)) = map fst (e_poses e)) by (rewrite map_map; reflexivity).
  split; cbn [e_cam e_fid e_poses].
  - intros ->. reflexivity.
  - intros ->. reflexivity.
  - intros ts p Hp K. apply in_map_iff in Hp as ((t & q) & Eq & Hp). cbn [fst snd] in Eq. injection Eq as -> <-. destruct (c_fix_poses cfg); [exact Hp|]. destruct K as [K|K]; [discriminate K|].
    destruct (existsb _ l) eqn:Ex; [|exact Hp]. exfalso. apply K. apply existsb_exists in Ex as (x & Hx & Ex). apply Z.eqb_eq in Ex. subst ts. apply H, Hx.
  - rewrite Ek. apply incl_refl.
  - rewrite Ek. auto.
Qed.
Lemma stamps s (gs : list (Z * mgrid)) done : Inv [] s -> (forall ts, In ts (map fst (m_views s)) -> In ts done) -> incl done (map fst gs) -> forall x, In x (q_res (m_prob s)) -> In (snd (fst x)) (map fst gs).
Proof.
  intros I D Hd x Hx. apply (Permutation_in _ (i_res _ _ I)) in Hx. rewrite app_nil_r in Hx. apply in_flat_map in Hx as (tv & H1 & H2). apply in_map_iff in H2 as (rc & <- & _). cbn [fst snd].
  apply Hd, D. apply in_map, H1.
Qed.
Lemma loop_kept cam T_WF gs Ts s l : recording gs Ts -> construct pnp cam T_WF gs Ts = Ret s -> NoDup l -> incl l (map fst (m_grids s)) ->
  exists s', nbv_loop proj slv info cfg l s = Ret s' /\ NInv (m_grids s) (rev l) s' /\ Kept (m_grids s) (m_est s) (m_est s').
Proof.
  intros Rc E Nd Hl. assert (N := construct_ninv pnp cam T_WF gs Ts s Rc E).
  destruct (loop_ind proj slv info cfg (m_grids s) (fun done t => incl done (map fst (m_grids s)) /\ Kept (m_grids s) (m_est s) (m_est t))) with (l := l) (done := @nil Z) (s := s) as (s' & E' & N' & _ & K).
  - intros done ts g u s1 s2 e3 u' Nu Hg Hn (Hd & Hx) Tn Nu' Ni X2 Pk I2 De.
    assert (Hts : In ts (map fst (m_grids s))) by (apply in_map_iff; exists (ts, g); auto).
    assert (Hd' : incl (ts :: done) (map fst (m_grids s))) by (intros x [ <- |K]; auto). split; [exact Hd'|].
    assert (K3 : Kept (m_grids s) (m_est u) e3).
    { rewrite De, <- X2. apply kept_solved. apply (stamps s2 (m_grids s) (ts :: done) I2); [|exact Hd']. intros x Hxx. apply (Permutation_in _ Pk) in Hxx as [ <- |Hxx]; [left; auto|right; apply (n_done _ _ _ Nu), Hxx]. }
    assert (Kc : c_fix_cam cfg = true -> firstn 7 (e_cam (m_est u)) ++ skipn 7 (e_cam e3) = e_cam (m_est u)) by (intros Hc; rewrite (k_cam _ _ _ K3 Hc); apply firstn_skipn).
    destruct Tn as [L Hs|L Hif Hs He|j L Hif Hw Hs|j L Hif Hw _ Hv Ho Hf He].
    + subst u'. eapply kept_trans; [exact Hx|exact K3].
    + eapply kept_trans; [exact Hx|]. rewrite He. split; cbn [e_cam e_fid e_poses]; auto. apply incl_refl.
    + subst u'. eapply kept_trans; [exact Hx|exact K3].
    + eapply kept_trans; [exact Hx|]. rewrite He. split; cbn [e_cam e_fid e_poses]; auto.
      * intros x p Hp _. apply filter_In in Hp. tauto.
      * rewrite mdel_keys. intros x Hxx. apply filter_In in Hxx. tauto.
      * intros x Hxx Hnn. rewrite mdel_keys. apply filter_In. split; [exact Hxx|]. destruct (Z.eqb_spec x ts); [subst; tauto|reflexivity].
  - exact N.
  - split; [intros x []|apply kept_refl].
  - exact Nd.
  - intros ts Hts. split; [apply Hl, Hts|intros []].
  - exists s'. rewrite app_nil_r in N'. auto.
Qed.
Lemma solve_kept cam T_WF gs Ts s s' : recording gs Ts -> construct pnp cam T_WF gs Ts = Ret s -> solve proj slv cfg s = Ret s' ->
  map fst (m_views s') = map fst (m_grids s) /\ map fst (e_poses (m_est s')) = map fst (e_poses (m_est s)) /\ Kept (m_grids s) (m_est s) (m_est s').
Proof.
  intros Rc E Es. destruct (construct_inv pnp cam T_WF gs Ts s Rc E) as (_ & V & _). assert (N := construct_ninv pnp cam T_WF gs Ts s Rc E).
  destruct (solve_ninv proj slv cfg _ s N V) as (s1 & s2 & s3 & n & s'' & E1 & E2 & E3 & E4 & N1 & N2 & N3 & N' & X1 & S1 & V2 & K & Es').
  rewrite Es in Es'. destruct (get_reproj_errors proj s''); [discriminate Es'|]. injection Es' as <-. split; [exact K|].
  assert (Rr : forall t t', NInv (m_grids s) (rev (map fst (m_grids s))) t -> run_solver slv cfg (c_iter cfg) t = Ret t' -> Kept (m_grids s) (m_est t) (m_est t') /\ map fst (e_poses (m_est t')) = map fst (e_poses (m_est t))).
  { intros t t' Nt Et. destruct (run_solver_inv slv cfg (c_iter cfg) t (n_inv _ _ _ Nt)) as (e & Ee & Ke & De & _). rewrite Et in Ee. injection Ee as ->. cbn [with_est m_est]. split; [|exact Ke]. rewrite De. apply kept_solved.
    apply (stamps t (m_grids s) (rev (map fst (m_grids s))) (n_inv _ _ _ Nt) (n_done _ _ _ Nt)). intros x Hx. apply in_rev, Hx. }
  destruct (Rr s1 s2 N1 E2) as (K1 & P1). destruct (Rr s3 s' N3 E4) as (K2 & P2).
  assert (X3 : m_est s3 = m_est s2). { destruct (filter_all_inv proj cfg [] s2 (n_inv _ _ _ N2)) as (t & Et & _ & _ & Xt & _). rewrite E3 in Et. injection Et as <- _. exact Xt. }
  rewrite X3 in K2, P2. rewrite X1 in K1, P1. split; [congruence|]. eapply kept_trans; eauto.
Qed.
Lemma nbv_kept cam T_WF gs Ts s s' : recording gs Ts -> construct pnp cam T_WF gs Ts = Ret s -> (forall l, Permutation (shuffle l) l) -> solve_nbv proj slv info shuffle cfg s = Ret s' ->
  NInv (m_grids s) (rev (shuffle (map fst (m_grids s)))) s' /\ Kept (m_grids s) (m_est s) (m_est s').
Proof.
  intros Rc E Hs Es. destruct (solve_nbv_ninv pnp proj slv info shuffle cfg cam T_WF gs Ts s Rc E Hs) as (s1 & s'' & E1 & E2 & N1 & N2 & _ & Es').
  rewrite Es in Es'. destruct (get_reproj_errors proj s''); [discriminate Es'|]. injection Es' as <-. split; [exact N2|].
  destruct (construct_inv pnp cam T_WF gs Ts s Rc E) as (I & _). rewrite (nbv_timestamps_all s I) in E1.
  assert (Hi : incl (shuffle (map fst (m_grids s))) (map fst (m_grids s))) by (intros x Hx; apply (Permutation_in _ (Hs _)), Hx).
  destruct (loop_kept cam T_WF gs Ts s (shuffle (map fst (m_grids s))) Rc E) as (t & Et & _ & K1); [eapply Permutation_NoDup; [apply Permutation_sym, Hs|]; apply asc_nodup, (i_gasc _ _ I)|exact Hi|].
  rewrite E1 in Et. injection Et as <-. eapply kept_trans; [exact K1|].
  destruct (run_solver_inv slv cfg (c_iter cfg) s1 (n_inv _ _ _ N1)) as (e & Ee & _ & De & _). rewrite E2 in Ee. injection Ee as ->. cbn [with_est m_est]. rewrite De. apply kept_solved.
  apply (stamps s1 (m_grids s) _ (n_inv _ _ _ N1) (n_done _ _ _ N1)). intros x Hx. apply Hi, in_rev, Hx.
Qed.

(** ** C99: the saved results *)
(** After solve() the table of body poses has a row for every frame of the recording; the number of rows announced is that
    of the frames in which the target's pose could be estimated (C94). *)
Theorem C99_rows_solve : forall cam T_WF gs Ts s s', recording gs Ts -> construct pnp cam T_WF gs Ts = Ret s -> solve proj slv cfg s = Ret s' ->
  map fst (snd (print_mocap_poses s')) = map g_ts gs /\ fst (print_mocap_poses s') = Z.of_nat (length (m_grids s)).
Proof.
  intros cam T_WF gs Ts s s' Rc E Es. destruct (construct_inv pnp cam T_WF gs Ts s Rc E) as (_ & _ & _ & Kp & _). destruct (solve_kept cam T_WF gs Ts s s' Rc E Es) as (K1 & K2 & _).
  unfold print_mocap_poses. cbn [fst snd]. rewrite map_map. cbn [fst]. rewrite <- (map_length fst), K1, map_length. split; [|reflexivity]. rewrite <- Kp, <- K2. reflexivity.
Qed.
(** After solve_nbv() the rows are the frames of the views kept and those in which the pose could not be estimated; the
    number announced is that of the views kept. *)
Theorem C99_rows_nbv : forall cam T_WF gs Ts s s', recording gs Ts -> construct pnp cam T_WF gs Ts = Ret s -> (forall l, Permutation (shuffle l) l) -> solve_nbv proj slv info shuffle cfg s = Ret s' ->
  (forall ts, In ts (map fst (snd (print_mocap_poses s'))) <-> In ts (map g_ts gs) /\ (In ts (map fst (m_views s')) \/ ~ In ts (map fst (m_grids s)))) /\
  fst (print_mocap_poses s') = Z.of_nat (length (m_views s')) /\
  Z.of_nat (length (snd (print_mocap_poses s'))) = fst (print_mocap_poses s') + (Z.of_nat (length gs) - Z.of_nat (length (m_grids s))).
Proof.
  intros cam T_WF gs Ts s s' Rc E Hs Es. destruct (construct_inv pnp cam T_WF gs Ts s Rc E) as (I0 & _ & _ & Kp & Gp & _). destruct (nbv_kept cam T_WF gs Ts s s' Rc E Hs Es) as ([I O G D P Rj] & [_ _ _ Ks Ka]).
  assert (Hd : forall ts, In ts (rev (shuffle (map fst (m_grids s)))) <-> In ts (map fst (m_grids s))).
  { intros ts. rewrite <- in_rev. split; apply Permutation_in; [apply Hs|apply Permutation_sym, Hs]. }
  assert (Hk : forall ts, In ts (map fst (e_poses (m_est s'))) <-> In ts (map g_ts gs) /\ (In ts (map fst (m_views s')) \/ ~ In ts (map fst (m_grids s)))).
  { intros ts. rewrite <- Kp. split.
    - intros H. split; [apply Ks, H|]. destruct (in_dec Z.eq_dec ts (map fst (m_grids s))) as [Hg|Hg]; [|auto]. destruct (Rj ts); [apply Hd, Hg|auto|tauto].
    - intros (H1 & [H2|H2]); [apply (i_pose _ _ I), H2|apply Ka; auto]. }
  unfold print_mocap_poses. cbn [fst snd]. rewrite map_map. cbn [fst]. change (map (fun x : Z * pose => fst x) (e_poses (m_est s'))) with (map fst (e_poses (m_est s'))). split; [exact Hk|]. split; [reflexivity|].
  rewrite map_length. rewrite <- (map_length fst (e_poses (m_est s'))).
  set (F := map g_ts gs) in *. set (Gk := map fst (m_grids s)) in *.
  assert (NF : NoDup F) by (rewrite <- Kp; apply asc_nodup, (i_pasc _ _ I0)).
  assert (NG : NoDup Gk) by (apply asc_nodup, (i_gasc _ _ I0)).
  assert (NV : NoDup (map fst (m_views s'))) by (apply asc_nodup, (i_asc _ _ I)).
  set (rest := filter (fun t => if in_dec Z.eq_dec t Gk then false else true) F).
  assert (Hr : forall t, In t rest <-> In t F /\ ~ In t Gk) by (intros t; unfold rest; rewrite filter_In; destruct (in_dec Z.eq_dec t Gk); intuition discriminate).
  assert (Vg : forall t, In t (map fst (m_views s')) -> In t Gk) by (intros t Ht; apply Hd, D, Ht).
  assert (NR : NoDup rest) by (apply NoDup_filter, NF).
  assert (P1 : Permutation (map fst (e_poses (m_est s'))) (map fst (m_views s') ++ rest)).
  { apply NoDup_Permutation; [apply asc_nodup, (i_pasc _ _ I)|apply nodup_app_i; auto; intros x Hx Hx'; apply Hr in Hx' as (_ & Hx'); apply Hx', Vg, Hx|].
    intros x. rewrite Hk, in_app_iff, Hr. split; [intros (A & [B|B]); auto|]. intros [A|A]; [|tauto]. split; [|auto]. rewrite <- Kp. apply Gp, Vg, A. }
  assert (P2 : Permutation F (Gk ++ rest)).
  { apply NoDup_Permutation; [exact NF|apply nodup_app_i; auto; intros x Hx Hx'; apply Hr in Hx' as (_ & Hx'); auto|].
    intros x. rewrite in_app_iff, Hr. split; [intros A; destruct (in_dec Z.eq_dec x Gk); auto|]. intros [A|A]; [rewrite <- Kp; apply Gp, A|tauto]. }
  apply Permutation_length in P1, P2. rewrite app_length in P1, P2. unfold F, Gk in P2. rewrite !map_length in P2. rewrite P1, map_length. lia.
Qed.
(** Refuted: that the header tells the number of rows. As soon as one frame cannot be used, it does not. *)
Theorem C99_header_refuted : forall cam T_WF gs Ts s s' g, recording gs Ts -> construct pnp cam T_WF gs Ts = Ret s -> In g gs -> hopeless pnp cam g ->
  solve proj slv cfg s = Ret s' \/ ((forall l, Permutation (shuffle l) l) /\ solve_nbv proj slv info shuffle cfg s = Ret s') ->
  fst (print_mocap_poses s') < Z.of_nat (length (snd (print_mocap_poses s'))).
Proof.
  intros cam T_WF gs Ts s s' g Rc E Hg Hh Es.
  assert (Lt : (length (m_grids s) < length gs)%nat).
  { assert (K := construct_ok pnp cam T_WF gs Ts Rc). cbn zeta in K. rewrite E in K. destruct (latest _ _ _); [|discriminate K]. injection K as ->. cbn [m_grids]. unfold used_grids. rewrite map_length.
    assert (Ef : map fst (List.combine gs Ts) = gs).
    { destruct Rc as (_ & _ & Hl). clear -Hl. revert Ts Hl. induction gs as [|a gs IH]; intros [|T Ts] H; try discriminate H; cbn; [reflexivity|]. f_equal. apply IH. cbn in H. lia. }
    rewrite Ef. apply hopeless_iff in Hh. clear -Hg Hh.
    assert (Le : forall l, (length (filter (estimable pnp cam) l) <= length l)%nat) by (induction l as [|a l IH]; cbn; [lia|]; destruct (estimable pnp cam a); cbn; lia).
    induction gs as [|a gs IH]; [destruct Hg|]. cbn [filter length]. destruct Hg as [ -> |Hg].
    - unfold estimable at 1. rewrite Hh. specialize (Le gs). lia.
    - specialize (IH Hg). destruct (estimable pnp cam a); cbn [length]; lia. }
  destruct Es as [Es|(Hs & Es)].
  - destruct (C99_rows_solve cam T_WF gs Ts s s' Rc E Es) as (K1 & K2). rewrite K2. rewrite <- (map_length fst (snd (print_mocap_poses s'))), K1, map_length. lia.
  - destruct (C99_rows_nbv cam T_WF gs Ts s s' Rc E Hs Es) as (_ & _ & K). rewrite K. lia.
Qed.
(** What was to be fixed is unchanged in the results: camera parameters, target pose, body poses; a frame that cannot be
    used keeps its recorded body pose in any case. *)
Theorem C99_fixed : forall cam T_WF gs Ts s s', recording gs Ts -> Forall Rigid Ts -> Rigid T_WF -> construct pnp cam T_WF gs Ts = Ret s ->
  solve proj slv cfg s = Ret s' \/ ((forall l, Permutation (shuffle l) l) /\ solve_nbv proj slv info shuffle cfg s = Ret s') ->
  (c_fix_cam cfg = true -> e_cam (m_est s') = cam) /\ (c_fix_fid cfg = true -> tf_pose (e_fid (m_est s')) = T_WF) /\
  (forall ts p, In (ts, p) (snd (print_mocap_poses s')) -> c_fix_poses cfg = true \/ ~ In ts (map fst (m_grids s)) ->
     exists g T, In (g, T) (List.combine gs Ts) /\ g_ts g = ts /\ tf_pose p = T).
Proof.
  intros cam T_WF gs Ts s s' Rc RT RW E Es.
  assert (K : Kept (m_grids s) (m_est s) (m_est s')) by (destruct Es as [Es|(Hs & Es)]; [apply (solve_kept cam T_WF gs Ts s s' Rc E Es)|apply (nbv_kept cam T_WF gs Ts s s' Rc E Hs Es)]).
  assert (K0 := construct_ok pnp cam T_WF gs Ts Rc). cbn zeta in K0. rewrite E in K0. destruct (latest _ _ _) as [X|]; [|discriminate K0]. injection K0 as E0.
  assert (E1 : m_est s = Est cam (tf_vec T_WF) (tf_vec X) (map pose_of (List.combine gs Ts))) by (rewrite E0; reflexivity). clear E0. rewrite E1 in K. destruct K as [Kc Kf Kv _ _]. cbn [e_cam e_fid e_poses] in *.
  split; [exact Kc|]. split; [intros H; rewrite (Kf H); apply tf_pose_vec, RW|].
  intros ts p Hp H. unfold print_mocap_poses in Hp. cbn [snd] in Hp. apply in_map_iff in Hp as ((t & q) & Eq & Hp). cbn [fst snd] in Eq. injection Eq as -> <-.
  apply Kv in Hp; [|exact H]. apply in_map_iff in Hp as ((g & T) & Eg & Hp). unfold pose_of in Eg. cbn [fst snd] in Eg. injection Eg as <- <-.
  exists g, T. split; [exact Hp|]. split; [reflexivity|]. assert (Rt : Rigid T) by (apply in_combine_r in Hp; rewrite Forall_forall in RT; auto).
  rewrite (tf_pose_vec T Rt). apply tf_pose_vec, Rt.
Qed.
End T.

(** ** Examples *)
(** six frames, one corner each; body, target and camera coincide; every reprojection is at the origin, unless the corner
    is in the plane of the camera *)
Definition ex_k (z d : R) (i : Z) : corner := Corner i 0 (V2 z 0) (V3 0 0 d).
Definition ex_g (z d : R) (i : Z) : mgrid := MGrid i true [ex_k z d i].
Definition ex_gs : list mgrid := [ex_g 1 1 1; ex_g 0 0 2; ex_g 0 0 3; ex_g 0 0 4; ex_g (-1) 1 5; ex_g 0 0 6].
Definition ex_Ts : list mat4 := [I4; I4; I4; I4; I4; I4].
Definition ex_cam : list R := [1; 1; 0; 0; 0; 0; 0; 0]%R.
Definition ex_pnp (_ : list R) (_ : list corner) : option mat4 := Some I4.
Definition ex_proj (_ : list R) (p : vec3) : option vec2 := if Req_EM_T (vz p) 0 then None else Some (V2 0 0).
Definition ex_info (c : R) (_ : problem) (_ : est) : option CalibModel.xreal := Some (XF c).
Definition ex_slv (_ : Z) (_ : list (Z * corner)) (e : est) : values := Values (fun _ => 7%R) (e_fid e) (e_ext e) (fun _ => tf_vec I4).
Definition ex_cfg (fix_cam : bool) : settings := Settings fix_cam true true (1 / 2) 1 50.
Lemma rigid_I : Rigid I4.
Proof. exists I3, vzero. split; [|symmetry; apply tf_I]. split; [apply mmul_I_l|]. unfold mdet, I3. cbn. ring. Qed.
Lemma ex_recording : recording ex_gs ex_Ts.
Proof.
  split; [|split; [|reflexivity]].
  - repeat (constructor; [split; [repeat constructor; intros []|split; [intros _; discriminate|reflexivity]]|]). constructor.
  - unfold ex_gs. cbn [map ex_g g_ts]. repeat constructor.
Qed.
Lemma ex_rigid : Forall Rigid ex_Ts.
Proof. repeat constructor; apply rigid_I. Qed.
Lemma ex_construct : exists s, construct ex_pnp ex_cam I4 ex_gs ex_Ts = Ret s /\ map fst (m_grids s) = [1; 2; 3; 4; 5; 6] /\ length (e_cam (m_est s)) = 8%nat /\ tf_pose (e_ext (m_est s)) = I4 /\
  m_next s = 0%nat /\ m_views s = [] /\ (forall t, In t [1; 2; 3; 4; 5; 6] -> mget t (e_poses (m_est s)) = Some (tf_vec I4)) /\ tf_pose (e_fid (m_est s)) = I4 /\
  (forall t g, In (t, g) (m_grids s) <-> In g ex_gs /\ g_ts g = t).
Proof.
  assert (RI := rigid_I).
  assert (II : tf_inv I4 = I4) by (apply (C46_rigid_group I4 I4 RI RI)).
  assert (K := construct_ok ex_pnp ex_cam I4 ex_gs ex_Ts ex_recording). cbn zeta in K.
  destruct (latest _ _ _) as [X|] eqn:El; [|exfalso; apply latest_none in El as (_ & El); specialize (El (ex_g 1 1 1, I4) (or_introl eq_refl)); discriminate El].
  assert (EX : X = I4).
  { unfold ex_gs, ex_Ts in El. cbn [List.combine latest] in El. unfold suggests in El. cbn [fst snd ex_g estimate g_pts ex_pnp] in El. unfold estimate in El. cbn [g_pts] in El. unfold ex_pnp in El. injection El as <-.
    rewrite (tf_pose_vec I4 RI), II, !mmul4_I_l. reflexivity. }
  rewrite EX in K. eexists. split; [exact K|]. cbn [m_grids m_est e_cam e_ext m_next m_views e_poses e_fid]. split; [reflexivity|]. split; [reflexivity|]. split; [apply tf_pose_vec, RI|]. split; [reflexivity|]. split; [reflexivity|].
  split; [|split; [apply tf_pose_vec, RI|]].
  - intros t Ht. repeat (destruct Ht as [ <- |Ht]; [reflexivity|]). destruct Ht.
  - intros t g. change (used_grids ex_pnp ex_cam (List.combine ex_gs ex_Ts)) with (map (fun g => (g_ts g, g)) ex_gs). rewrite in_map_iff. split; [intros (x & Ex & Hx); injection Ex as <- <-; auto|]. intros (H & <-). exists g. auto.
Qed.
(** C94: the camera's true place, I4, is found *)
Example C94_example : exists s, construct ex_pnp ex_cam I4 ex_gs ex_Ts = Ret s /\ tf_pose (e_ext (m_est s)) = I4 /\ off_by ex_proj s 5 (Corner 9 0 (V2 0 0) (V3 0 0 1)) (V2 0 0).
Proof.
  assert (RI := rigid_I). assert (II : tf_inv I4 = I4) by (apply (C46_rigid_group I4 I4 RI RI)).
  destruct (C94_exact ex_pnp ex_proj ex_cam I4 ex_gs ex_Ts I4 ex_recording ex_rigid RI) as (s & E & X & H).
  - intros c l T K. injection K as <-. exact RI.
  - exact RI.
  - intros g T T_CF H (_ & K). injection K as <-. assert (ET : T = I4) by (apply in_combine_r in H; repeat (destruct H as [ <- |H]; [reflexivity|]); destruct H). subst T. unfold sees. rewrite II, !mmul4_I_l. reflexivity.
  - exists (ex_g 1 1 1). split; [left; reflexivity|]. intros K. apply (K I4). split; [discriminate|reflexivity].
  - exists s. split; [exact E|]. split; [exact X|]. change 5 with (g_ts (ex_g (-1) 1 5)). apply (H (ex_g (-1) 1 5) I4).
    + right. right. right. right. left. reflexivity.
    + unfold sees. rewrite II, !mmul4_I_l. unfold ex_proj. destruct (Req_EM_T _ _) as [K|K]; [|reflexivity]. exfalso. revert K. unfold tf_point, mapp4, I4. cbn. lra.
Qed.
(** C96, C97: of the six frames, when the measure never changes, four are kept with measure 0 and five with -10 *)
Lemma ex_loop c b l : NoDup l -> incl l [1; 2; 3; 4; 5; 6] -> exists s s', construct ex_pnp ex_cam I4 ex_gs ex_Ts = Ret s /\ nbv_loop ex_proj ex_slv (ex_info c) (ex_cfg b) l s = Ret s' /\
  length (m_views s') = Nat.min (length l) (if Rle_dec c (- 2 * 1) then 5 else 4) /\ incl (map fst (m_views s')) l.
Proof.
  intros Nd Hl. destruct ex_construct as (s & E & G & _). exists s.
  destruct (C95_loop ex_pnp ex_proj ex_slv (ex_info c) (ex_cfg b) ex_cam I4 ex_gs ex_Ts s l ex_recording E Nd) as (s' & E' & _ & _ & H); [rewrite G; exact Hl|].
  exists s'. split; [exact E|]. split; [exact E'|]. split; [|exact H].
  apply (C96_baseline_refuted ex_pnp ex_proj ex_slv (ex_info c) (ex_cfg b) ex_cam I4 ex_gs ex_Ts s l s' c ex_recording E Nd); [rewrite G; exact Hl|exact E'|cbn; lra|reflexivity].
Qed.
Lemma ex_nodup : NoDup [1; 2; 3; 4; 5; 6].
Proof. repeat (constructor; [cbn; lia|]). constructor. Qed.
Example C96_example : (exists s s', construct ex_pnp ex_cam I4 ex_gs ex_Ts = Ret s /\ nbv_loop ex_proj ex_slv (ex_info (-10)) (ex_cfg true) [1; 2; 3; 4; 5; 6] s = Ret s' /\ length (m_views s') = 5%nat) /\
  (exists s s', construct ex_pnp ex_cam I4 ex_gs ex_Ts = Ret s /\ nbv_loop ex_proj ex_slv (ex_info 0) (ex_cfg true) [1; 2; 3; 4; 5; 6] s = Ret s' /\ length (m_views s') = 4%nat).
Proof.
  split.
  - destruct (ex_loop (-10) true [1; 2; 3; 4; 5; 6] ex_nodup (incl_refl _)) as (s & s' & E & E' & L & _). exists s, s'. split; [exact E|]. split; [exact E'|]. destruct (Rle_dec _ _); [exact L|lra].
  - destruct (ex_loop 0 true [1; 2; 3; 4; 5; 6] ex_nodup (incl_refl _)) as (s & s' & E & E' & L & _). exists s, s'. split; [exact E|]. split; [exact E'|]. destruct (Rle_dec _ _); [lra|exact L].
Qed.
Lemma ex_reject b : exists s s1 s2, construct ex_pnp ex_cam I4 ex_gs ex_Ts = Ret s /\ nbv_loop ex_proj ex_slv (ex_info 0) (ex_cfg b) [1; 2; 3; 4] s = Ret s1 /\
  nbv_step ex_proj ex_slv (ex_info 0) (ex_cfg b) 5 s1 = Ret s2 /\ ~ In 5 (map fst (m_views s2)) /\ length (m_views s1) = 4%nat.
Proof.
  assert (Nd : NoDup ([1; 2; 3; 4] ++ [5])) by (repeat (constructor; [cbn; lia|]); constructor).
  assert (Hl : incl ([1; 2; 3; 4] ++ [5]) [1; 2; 3; 4; 5; 6]) by (intros x; cbn; lia).
  destruct (ex_loop 0 b [1; 2; 3; 4]) as (s & s1 & E & E1 & L & Hi); [repeat (constructor; [cbn; lia|]); constructor|intros x; cbn; lia|]. destruct (Rle_dec _ _) as [K|_]; [exfalso; lra|]. cbn [length Nat.min] in L.
  destruct ex_construct as (s' & E' & G & _). rewrite E in E'. injection E' as <-.
  destruct (C96_rule ex_pnp ex_proj ex_slv (ex_info 0) (ex_cfg b) ex_cam I4 ex_gs ex_Ts s [1; 2; 3; 4] 5 s1 ex_recording E Nd) as (t & e & s2 & E2 & _ & _ & _ & _ & K); [rewrite G; exact Hl|exact E1|].
  cbn zeta in K. destruct K as (_ & K & _). exists s, s1, s2. split; [exact E|]. split; [exact E1|]. split; [exact E2|]. split; [|exact L]. rewrite K; [intros H; apply Hi in H; cbn in H; lia|].
  assert (Ei : m_info s1 = XF 0).
  { destruct (loop_ind ex_proj ex_slv (ex_info 0) (ex_cfg b) (m_grids s) (fun _ t => m_info t = XF 0)) with (l := [1; 2; 3; 4]) (done := @nil Z) (s := s) as (s1' & E1' & _ & Hx).
    - intros done ts g u u1 u2 e3 u' _ _ _ Hx Tn _ Ni _ _ _ _. destruct Tn as [? Hs|? ? Hs _|j ? Hj ? Hs|j ? ? ? _ _ _ Hf _]; [subst u'; cbn; congruence|subst u'; cbn; congruence|injection Hj as <-; subst u'; reflexivity|congruence].
    - apply (construct_ninv ex_pnp ex_cam I4 ex_gs ex_Ts s ex_recording E).
    - apply (construct_info ex_pnp ex_cam I4 ex_gs ex_Ts s ex_recording E).
    - repeat (constructor; [cbn; lia|]); constructor.
    - intros x Hx. rewrite G. split; [cbn in *; lia|intros []].
    - rewrite E1 in E1'. injection E1' as <-. exact Hx. }
  intros [W|[W|(i & W1 & W2)]]; [lia|discriminate W|]. injection W1 as <-. rewrite Ei in W2. cbn in W2. lra.
Qed.
(** C97: with free camera parameters, the rejected fifth frame leaves the solver's value 7 in the eighth parameter *)
Example C97_example : exists s s1 s2, construct ex_pnp ex_cam I4 ex_gs ex_Ts = Ret s /\ nbv_loop ex_proj ex_slv (ex_info 0) (ex_cfg true) [1; 2; 3; 4] s = Ret s1 /\
  nbv_step ex_proj ex_slv (ex_info 0) (ex_cfg true) 5 s1 = Ret s2 /\ ~ In 5 (map fst (m_views s2)) /\ e_ext (m_est s2) = e_ext (m_est s1) /\ e_cam (m_est s2) = e_cam (m_est s1) /\ m_order s2 = m_order s1.
Proof.
  destruct (ex_reject true) as (s & s1 & s2 & E & E1 & E2 & Hn & _). exists s, s1, s2. destruct ex_construct as (s' & E' & G & _). rewrite E in E'. injection E' as <-.
  destruct (C97_restored_partial ex_pnp ex_proj ex_slv (ex_info 0) (ex_cfg true) ex_cam I4 ex_gs ex_Ts s [1; 2; 3; 4] 5 s1 s2 ex_recording E) as (K1 & _ & _ & K2 & _ & _ & _ & _ & K3 & _); auto.
  - repeat (constructor; [cbn; lia|]); constructor.
  - rewrite G. intros x; cbn; lia.
  - split; [exact E|]. split; [exact E1|]. split; [exact E2|]. split; [exact Hn|]. split; [exact K1|]. split; [apply K3; left; reflexivity|exact K2].
Qed.
Example C97_eighth_example : exists s s1 s2, construct ex_pnp ex_cam I4 ex_gs ex_Ts = Ret s /\ nbv_loop ex_proj ex_slv (ex_info 0) (ex_cfg false) [1; 2; 3; 4] s = Ret s1 /\
  nbv_step ex_proj ex_slv (ex_info 0) (ex_cfg false) 5 s1 = Ret s2 /\ ~ In 5 (map fst (m_views s2)) /\ c_fix_cam (ex_cfg false) = false /\ length (e_cam (m_est s1)) = 8%nat.
Proof.
  destruct (ex_reject false) as (s & s1 & s2 & E & E1 & E2 & Hn & _). exists s, s1, s2. split; [exact E|]. split; [exact E1|]. split; [exact E2|]. split; [exact Hn|]. split; [reflexivity|].
  destruct ex_construct as (s' & E' & G & L8 & _). rewrite E in E'. injection E' as <-.
  destruct (loop_ind ex_proj ex_slv (ex_info 0) (ex_cfg false) (m_grids s) (fun _ t => length (e_cam (m_est t)) = 8%nat)) with (l := [1; 2; 3; 4]) (done := @nil Z) (s := s) as (s1' & E1' & _ & Hx).
  - intros done ts g u u1 u2 e3 u' _ _ _ Hx Tn _ _ X2 _ _ De.
    assert (L3 : length (e_cam e3) = 8%nat).
    { rewrite De, X2. unfold solved. destruct (q_res (m_prob u2)); [exact Hx|]. cbn [e_cam ex_cfg c_fix_cam]. rewrite map_length, seq_length. exact Hx. }
    assert (Lc : length (firstn 7 (e_cam (m_est u)) ++ skipn 7 (e_cam e3)) = 8%nat) by (rewrite app_length, firstn_length, skipn_length, L3, Hx; reflexivity).
    destruct Tn as [? Hs|? ? Hs He|j ? Hj ? Hs|j ? ? ? _ _ _ _ He]; [subst u'; exact L3|rewrite He; exact Lc|subst u'; exact L3|rewrite He; exact Lc].
  - apply (construct_ninv ex_pnp ex_cam I4 ex_gs ex_Ts s ex_recording E).
  - exact L8.
  - repeat (constructor; [cbn; lia|]); constructor.
  - intros x Hx. rewrite G. split; [cbn in *; lia|intros []].
  - rewrite E1 in E1'. injection E1' as <-. exact Hx.
Qed.
(** C95, C98, C99: the target's pose cannot be estimated in frame 1; frame 6 is measured exactly *)
Definition ex_pnp2 (_ : list R) (l : list corner) : option mat4 := if existsb (fun k => k_tag k =? 1) l then None else Some I4.
Definition ex_proj2 (_ : list R) (_ : vec3) : option vec2 := Some (V2 0 0).
Lemma ex_construct2 : exists s, construct ex_pnp2 ex_cam I4 ex_gs ex_Ts = Ret s /\ In (6, ex_g 0 0 6) (m_grids s).
Proof.
  assert (K := construct_ok ex_pnp2 ex_cam I4 ex_gs ex_Ts ex_recording). cbn zeta in K.
  destruct (latest _ _ _) as [X|] eqn:El; [|exfalso; apply latest_none in El as (_ & El); specialize (El (ex_g 0 0 2, I4) (or_intror (or_introl eq_refl))); discriminate El].
  eexists. split; [exact K|]. cbn [m_grids]. unfold used_grids. apply in_map_iff. exists (ex_g 0 0 6). split; [reflexivity|]. apply filter_In. split; [cbn; tauto|reflexivity].
Qed.
Lemma ex_solve : exists s s1 s', construct ex_pnp2 ex_cam I4 ex_gs ex_Ts = Ret s /\ add_views (m_grids s) s = Ret s1 /\ consistent s1 /\ solve ex_proj2 ex_slv (ex_cfg true) s = Ret s' /\ in_use s' <> [].
Proof.
  destruct ex_construct2 as (s & E & H6). exists s.
  destruct (construct_inv ex_pnp2 ex_cam I4 ex_gs ex_Ts s ex_recording E) as (I0 & V & _). assert (N := construct_ninv ex_pnp2 ex_cam I4 ex_gs ex_Ts s ex_recording E).
  destruct (solve_ninv ex_proj2 ex_slv (ex_cfg true) _ s N V) as (s1 & s2 & s3 & n & s' & E1 & E2 & E3 & E4 & N1 & N2 & N3 & N' & X1 & S1 & Vw2 & K & Es).
  destruct (add_views_ninv (m_grids s) (m_grids s) [] s N (i_gasc _ _ I0)) as (t & Et & _ & _ & _ & _ & _ & Hp); [intros; split; [assumption|intros []]|]. rewrite E1 in Et. injection Et as <-.
  assert (Hv : In 6 (map fst (m_views s1))) by (rewrite S1; apply in_map_iff; exists (6, ex_g 0 0 6); auto).
  apply in_map_iff in Hv as ((t6 & v) & Ev & Hv). cbn in Ev. subst t6.
  assert (Hpts := Hp 6 v Hv (fun f => f) _ H6). destruct (i_pts _ _ (n_inv _ _ _ N1) 6 v Hv) as (Hr & _). rewrite Hpts in Hr. destruct (v_res v) as [|rc [|? ?]] eqn:Erc; try discriminate Hr. cbn in Hr. injection Hr as Hr.
  assert (Hu : In (fst rc, 6, snd rc) (in_use s2)).
  { unfold in_use. rewrite Vw2. apply in_flat_map. exists (6, v). split; [exact Hv|]. cbn [fst snd]. rewrite Erc. left. reflexivity. }
  assert (P6 : exists p, mget 6 (e_poses (m_est s2)) = Some p).
  { apply mget_some. apply (i_pose _ _ (n_inv _ _ _ N2)). rewrite Vw2, S1. apply in_map_iff. exists (6, ex_g 0 0 6). auto. }
  destruct P6 as (p & P6).
  assert (C2 : consistent s2) by (apply inv_consistent; [apply (n_inv _ _ _ N2)|apply (n_ord _ _ _ N2)]).
  assert (Hu3 : In (fst rc, 6, snd rc) (in_use s3)).
  { apply (C98_one_sided_refuted ex_proj2 (ex_cfg true) s2 s3 n _ (V2 0 0) C2 E3); [cbn; lra|exact Hu| |cbn; lra|cbn; lra].
    cbn [fst snd]. exists p, (V2 0 0). split; [exact P6|]. split; [reflexivity|]. rewrite Hr. unfold ex_k. cbn. f_equal; lra. }
  assert (V4 : m_views s' = m_views s3 /\ map fst (e_poses (m_est s')) = map fst (e_poses (m_est s3))).
  { destruct (run_solver_inv ex_slv (ex_cfg true) 50 s3 (n_inv _ _ _ N3)) as (e & Ee & Ke & _). assert (E4' := E4). cbn [ex_cfg c_iter] in E4'. rewrite Ee in E4'. injection E4' as <-. split; [reflexivity|exact Ke]. }
  destruct V4 as (V4 & P4).
  assert (Hu' : In (fst rc, 6, snd rc) (in_use s')) by (unfold in_use; rewrite V4; exact Hu3).
  exists s1, s'. split; [exact E|]. split; [exact E1|]. split; [apply inv_consistent; [apply (n_inv _ _ _ N1)|apply (n_ord _ _ _ N1)]|]. split; [|intros Kn; rewrite Kn in Hu'; destruct Hu'].
  rewrite Es. destruct (get_reproj_errors ex_proj2 s') eqn:Eg; [|reflexivity]. exfalso. unfold get_reproj_errors in Eg. apply map_eq_nil in Eg.
  assert (Hk : In 6 (map fst (m_views s'))) by (rewrite K; apply in_map_iff; exists (6, ex_g 0 0 6); auto). destruct (mget_some _ _ (i_pose _ _ (n_inv _ _ _ N') 6 Hk)) as (p' & P6').
  assert (Ho : residual ex_proj2 (m_est s') 6 (snd rc) = Some (V2 0 0)).
  { apply residual_iff. exists p', (V2 0 0). split; [exact P6'|]. split; [reflexivity|]. rewrite Hr. unfold ex_k. cbn. f_equal; lra. }
  apply in_flat_map in Hu' as (tv & H1 & H2). apply in_map_iff in H2 as (rc' & Erc' & H2).
  assert (Hres : In (V2 0 0) (get_residuals ex_proj2 s')); [|rewrite Eg in Hres; destruct Hres].
  apply in_flat_map. exists tv. split; [exact H1|]. apply in_flat_map. exists rc'. split; [exact H2|].
  pose proof (f_equal (fun x => snd (fst x)) Erc') as F1. pose proof (f_equal snd Erc') as F2. cbn in F1, F2. rewrite F1, F2, Ho. left. reflexivity.
Qed.
Example C95_example : exists s s', construct ex_pnp2 ex_cam I4 ex_gs ex_Ts = Ret s /\ solve ex_proj2 ex_slv (ex_cfg true) s = Ret s' /\ consistent s' /\ solve ex_proj2 ex_slv (ex_cfg true) s' = Undef.
Proof.
  destruct ex_solve as (s & s1 & s' & E & _ & _ & Es & Hu). exists s, s'. split; [exact E|]. split; [exact Es|]. split.
  - destruct (C95_solve ex_pnp2 ex_proj2 ex_slv (ex_cfg true) ex_cam I4 ex_gs ex_Ts s ex_recording E) as (t & C & _ & _ & Et). rewrite Es in Et. destruct (get_reproj_errors ex_proj2 t); [discriminate Et|]. injection Et as <-. exact C.
  - apply (C95_again_refuted ex_pnp2 ex_proj2 ex_slv (ex_cfg true) ex_cam I4 ex_gs ex_Ts s s' ex_recording E Es Hu).
Qed.
Example C99_example : exists s s', construct ex_pnp2 ex_cam I4 ex_gs ex_Ts = Ret s /\ solve ex_proj2 ex_slv (ex_cfg true) s = Ret s' /\
  fst (print_mocap_poses s') < Z.of_nat (length (snd (print_mocap_poses s'))) /\ tf_pose (e_fid (m_est s')) = I4.
Proof.
  destruct ex_solve as (s & s1 & s' & E & _ & _ & Es & Hu). exists s, s'. split; [exact E|]. split; [exact Es|]. split.
  - eapply (C99_header_refuted ex_pnp2 ex_proj2 ex_slv (ex_info 0) (fun l => l) (ex_cfg true)); [exact ex_recording|exact E|left; reflexivity| |left; exact Es]. intros T (_ & K). discriminate K.
  - eapply (C99_fixed ex_pnp2 ex_proj2 ex_slv (ex_info 0) (fun l => l) (ex_cfg true)); [exact ex_recording|exact ex_rigid|exact rigid_I|exact E|left; exact Es|reflexivity].
Qed.
(** C98: of the residuals 1 and -1, with threshold one half, 1 is removed and -1 stays; C97: so a rejected frame can take
    measurements of others with it *)
Lemma dev_pm : Prop_Vi9.deviation [1; -1]%R (sqrt 2).
Proof.
  split; [cbn; lia|]. split; [apply sqrt_pos|]. exists 0%R. unfold Prop_Stats.N, Sum. cbn [length INR fold_right map]. split; [lra|].
  replace (sqrt 2 ^ 2)%R with 2%R by (symmetry; rewrite <- Rsqr_pow2; apply Rsqr_sqrt; lra). lra.
Qed.
Lemma dev_00 : Prop_Vi9.deviation [0; 0]%R 0.
Proof. split; [cbn; lia|]. split; [lra|]. exists 0%R. unfold Prop_Stats.N, Sum. cbn [length INR fold_right map]. split; lra. Qed.
Example C98_example : large (ex_cfg true) [V2 1 0; V2 (-1) 0] (V2 1 0) /\ ~ large (ex_cfg true) [V2 1 0; V2 (-1) 0] (V2 (-1) 0).
Proof.
  assert (S2 : (1 < sqrt 2 < 2)%R).
  { assert (K := Rsqr_sqrt 2 ltac:(lra)). unfold Rsqr in K. assert (P := sqrt_pos 2). split; nra. }
  split.
  - exists (sqrt 2), 0%R. split; [exact dev_pm|]. split; [exact dev_00|]. left. cbn. lra.
  - intros (sx & sy & D1 & D2 & K). cbn [map v2x v2y] in D1, D2. rewrite (Prop_Vi9.dev_unique _ _ _ D1 dev_pm), (Prop_Vi9.dev_unique _ _ _ D2 dev_00) in K. cbn in K. destruct K; lra.
Qed.

(** ** The reported errors *)
(** Every reported reprojection error is the distance in the image between a corner's measurement and the projection of its
    point, for a corner of a view; corners that cannot be projected are left out. *)
Theorem C95_errors : forall proj s x, In x (get_reproj_errors proj s) <->
  exists ts v r k p z, In (ts, v) (m_views s) /\ In (r, k) (v_res v) /\ mget ts (e_poses (m_est s)) = Some p /\
    proj (e_cam (m_est s)) (tf_point (mmul4 (mmul4 (tf_inv (tf_pose (e_ext (m_est s)))) (tf_inv (tf_pose p))) (tf_pose (e_fid (m_est s)))) (k_pt k)) = Some z /\
    x = sqrt ((v2x z - v2x (k_z k)) ^ 2 + (v2y z - v2y (k_z k)) ^ 2).
Proof.
  intros proj s x. unfold get_reproj_errors, get_residuals. split.
  - intros H. apply in_map_iff in H as (e & <- & H). apply in_flat_map in H as ((ts & v) & Hv & H). apply in_flat_map in H as ((r & k) & Hk & H). cbn [fst snd] in *.
    unfold residual in H. destruct (mget ts (e_poses (m_est s))) as [p|] eqn:Ep; [|destruct H].
    destruct (proj (e_cam (m_est s)) _) as [z|] eqn:Ez; [|destruct H]. destruct H as [<-|[]]. exists ts, v, r, k, p, z. repeat (split; [assumption|]). cbn [v2x v2y]. f_equal. ring.
  - intros (ts & v & r & k & p & z & Hv & Hk & Ep & Ez & ->). apply in_map_iff. eexists. split; [|apply in_flat_map; exists (ts, v); split; [exact Hv|]; apply in_flat_map; exists (r, k); split; [exact Hk|]; cbn [fst snd]; unfold residual; rewrite Ep, Ez; left; reflexivity].
    cbn [v2x v2y]. f_equal. ring.
Qed.
