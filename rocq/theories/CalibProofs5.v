From Coq Require Import Reals.
From Verif Require Import Base.
From stdpp Require Import gmap sets list.
From Verif Require Import AprilGridModel AprilGridSpec AprilGridProofs AprilGridIOModel SolverModel SolverProofs CalibModel CalibSpec CalibProofs CalibProofs2 CalibProofs3 CalibProofs4.
Local Open Scope Z_scope.

Section K.
Context (blocks : Z -> list Z) (rows cols : Z) (size sp : R).
Context (Hrows : 0 <= rows) (Hcols : 0 <= cols).
Context {V : Type}.
Context (ext_addr cam_addr : Z -> Z).
Notation corners := (fiducial_corners rows cols size sp).
Notation CInv := (CInv blocks).
Notation view_okD := (view_ok rows cols size sp).
Notation KInvD := (KInv blocks rows cols size sp ext_addr cam_addr).
Notation fresh_envD := (fresh_env blocks ext_addr cam_addr).
Notation grids_okD := (grids_ok rows cols size sp).
Notation reachD := (reach blocks rows cols size sp ext_addr cam_addr).

Lemma recorded_ok hs gs : recorded rows cols size sp hs gs -> grids_okD gs (content_of hs).
Proof.
  intros [Hnd HF]. assert (Hm : map fst gs = map fst hs).
  { clear Hnd. induction HF as [|h cg hs gs [E _] _ IH]; simpl; congruence. }
  split; [now rewrite Hm|].
  clear Hm. induction HF as [|[c0 [ts ops]] [c1 g1] hs gs (E & Hops & Hrun) HF IH]; intros cam g; simpl in *; [tauto|].
  inversion Hnd as [|? ? Hn Hd]; subst c1. subst.
  unfold content_of. simpl. intros [Hin|Hin].
  - injection Hin as <- <-. rewrite Z.eqb_refl.
    destruct (run_books rows cols size sp Hrows Hcols ops (new_grid ts rows cols size sp) nothing) as (g' & E & HR & _ & HB & _); auto.
    { apply Rep_new. }
    rewrite Hrun in E. injection E as <-. split; auto. apply HB, BookGe_new.
  - destruct (Z.eqb_spec cam c0) as [->|]; [|now apply IH].
    exfalso. apply Hn. clear -Hin HF. induction HF as [|[c [ts ops]] [c1 g1] hs gs (E & _) HF IH]; simpl in *; [tauto|].
    apply elem_of_cons. destruct Hin as [Hin|Hin]; [injection Hin as -> ->; auto|auto].
Qed.

Lemma initial_KInv base (k : calib V) : initial blocks ext_addr cam_addr base k -> KInvD base k.
Proof.
  intros (A1 & A2 & A3 & (ps & E & Eb) & A5).
  assert (Hd : disciplined blocks (map AddParam ps)).
  { intros h1 r h2 s Eh. exfalso. assert (In (AddRes r) (map AddParam ps)) by (rewrite Eh; apply in_or_app; simpl; auto).
    apply in_map_iff in H. destruct H as (? & ? & _). discriminate. }
  assert (Hs : s_res (c_base (k_solver k)) = ∅ /\ s_params (c_base (k_solver k)) = base).
  { subst base. clear -E. revert E. generalize (k_solver k). induction ps as [|p ps IH] using rev_ind; intros s E.
    - injection E as <-. auto.
    - rewrite map_app in E. cbn [map] in E. rewrite crun_snoc in E.
      destruct (crun blocks (map AddParam ps)) as [s0| |]; cbn in E; try discriminate. injection E as <-.
      destruct (IH s0 eq_refl) as [H1 H2]. cbn. rewrite H1, H2. split; auto. set_solver. }
  destruct Hs as [Hr Hp].
  split; rewrite ?A1, ?A2, ?A3.
  - eapply CInv_run; eauto.
  - eapply disciplined_run; eauto.
  - intros c. rewrite !keys_lookup. apply A5.
  - intros ts. rewrite !lookup_empty. split; intros []; discriminate.
  - constructor.
  - intros ts. rewrite lookup_empty. split; [intros []|intros []; discriminate].
  - intros p. rewrite Hp. split; auto. intros [|(? & ? & H)]; auto. rewrite lookup_empty in H. discriminate.
  - intros ts p v H. rewrite lookup_empty in H. discriminate.
  - intros ts ts' p v v' H. rewrite lookup_empty in H. discriminate.
  - intros r. rewrite Hr. split; [set_solver|]. intros (? & ? & ? & ? & H & _). rewrite lookup_empty in H. discriminate.
  - intros ts v H. rewrite lookup_empty in H. discriminate.
Qed.

Lemma estimate_ret base (k : calib V) e gs ts r : KInvD base k -> first_detected gs = Some ts -> k_views k !! ts = None ->
  add_view blocks corners e k gs = Ret r ->
  exists T, e_estimate e (mkCalib (k_cams k) (k_exts k) ({[ts]} ∪ k_data k) (k_poses k)
                        (k_views k) (k_vts k) (k_solver k) (k_info k)) gs = Ret T.
Proof.
  intros K Hfd Hno Hadd. unfold add_view in Hadd. rewrite Hfd in Hadd. cbn [k_poses] in Hadd.
  assert (Hpo : k_poses k !! ts = None).
  { destruct (k_poses k !! ts) eqn:E; auto. exfalso.
    destruct (proj1 (ki_dom K ts)) as [v Hv]; [rewrite E; eauto|congruence]. }
  rewrite Hpo in Hadd. unfold add_pose in Hadd. cbn [k_poses] in Hadd. rewrite Hpo in Hadd.
  destruct (e_estimate e _ gs) as [T| |] eqn:E; [eauto|discriminate|discriminate].
Qed.
Lemma add_view_KInv base (k : calib V) e gs ms b k' : KInvD base k -> fresh_envD e k -> grids_okD gs ms -> new_ts k gs ->
  add_view blocks corners e k gs = Ret (b, k') -> KInvD base k'.
Proof.
  intros K F G N E. destruct (first_detected gs) as [ts|] eqn:Hfd.
  - destruct (estimate_ret base k e gs ts _ K Hfd (N ts Hfd) E) as [T HT].
    destruct (add_view_new blocks rows cols size sp Hrows Hcols ext_addr cam_addr base k e gs ms ts T K F G Hfd (N ts Hfd) HT)
      as (k1 & v & E1 & K1 & _). rewrite E in E1. injection E1 as _ <-. auto.
  - rewrite add_view_undetected in E by auto. injection E as _ <-. auto.
Qed.
Lemma nbv_KInv base (k : calib V) e thr n info gs ms b k' : KInvD base k -> fresh_envD e k -> grids_okD gs ms -> new_ts k gs ->
  add_nbv_view blocks corners e thr n info k gs = Ret (b, k') -> KInvD base k'.
Proof.
  intros K F G N. unfold add_nbv_view.
  destruct (add_view blocks corners e k gs) as [[r k1]| |] eqn:Ea; cbn [obind]; try discriminate. cbn [fst snd].
  pose proof (add_view_KInv base k e gs ms r k1 K F G N Ea) as K1.
  destruct r; [|intros H; injection H as _ <-; auto].
  destruct (cache_estimates k1) as [h| |]; cbn [obind]; try discriminate.
  destruct (last (k_vts (solved n k1))) as [ts|]; [|discriminate].
  assert (Kr : KInvD base (restore_estimates h (solved n k1))) by (apply restore_KInv, solved_KInv; auto).
  destruct (remove_view_ok blocks rows cols size sp Hrows Hcols ext_addr cam_addr base _ ts Kr) as (k3 & E3 & K3 & _).
  destruct info as [i|]; [destruct (gain_below _ _ _)|]; rewrite ?E3; cbn [obind]; intros H; injection H as _ <-; auto.
  eapply KInv_values; [apply (solved_KInv blocks rows cols size sp ext_addr cam_addr base k1 n K1)|reflexivity..].
Qed.
Lemma reach_KInv base (k : calib V) : reachD base k -> KInvD base k.
Proof.
  induction 1 as [k Hi|k e hs gs b k' _ IH F G N E|k e thr n info hs gs b k' _ IH F G N E|k ts k' _ IH E|k k' _ IH E
                 |k err th ts v v' s' n _ IH Hv E|k n _ IH].
  - now apply initial_KInv.
  - exact (add_view_KInv base k e gs (content_of hs) b k' IH F (recorded_ok hs gs G) N E).
  - exact (nbv_KInv base k e thr n info gs (content_of hs) b k' IH F (recorded_ok hs gs G) N E).
  - destruct (remove_view_ok blocks rows cols size sp Hrows Hcols ext_addr cam_addr base _ ts IH) as (k3 & E3 & K3 & _).
    rewrite E in E3. injection E3 as <-. auto.
  - destruct (remove_all_views_ok blocks rows cols size sp Hrows Hcols ext_addr cam_addr base _ IH) as (k3 & E3 & K3 & _).
    rewrite E in E3. injection E3 as <-. auto.
  - eapply (filter_step blocks rows cols size sp); eauto.
  - now apply solved_KInv.
Qed.
End K.
