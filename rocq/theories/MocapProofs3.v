(** * Invariants of the motion-capture calibrator: constructor, removal, histories *)
From Verif Require Import Base GeomModel StatsModel MocapModel MocapSpec MocapProofs MocapProofs2.
From Coq Require Import Reals Lra Sorted Permutation.
Local Open Scope Z_scope.

Lemma mset_snoc {A} k (a : A) m : (forall j b, In (j, b) m -> j < k) -> mset k a m = m ++ [(k, a)].
Proof.
  induction m as [|(i & c) m IH]; cbn [mset app]; intros H; [reflexivity|]. assert (L := H i c (or_introl eq_refl)).
  destruct (Z.ltb_spec k i); [lia|]. destruct (Z.eqb_spec k i); [lia|]. f_equal. apply IH. intros j b Hj. apply (H j b). right. auto.
Qed.
Lemma asc_app_inv {A} (l : list (Z * A)) k a r : asc (l ++ (k, a) :: r) -> (forall j b, In (j, b) l -> j < k).
Proof.
  induction l as [|(i & c) l IH]; cbn [app]; intros H j b; [intros []|]. apply asc_cons in H as (H1 & H2). intros [E|E]; [injection E as <- _; apply (H2 k a), in_elt|]. eapply IH; eauto.
Qed.

Section Proofs.
Context (pnp : list R -> list corner -> option mat4) (proj : list R -> vec3 -> option vec2)
        (slv : Z -> list (Z * corner) -> est -> values) (info : problem -> est -> option CalibModel.xreal)
        (shuffle : list Z -> list Z) (cfg : settings).

(** ** Constructor *)
Definition pose_of (x : mgrid * mat4) : Z * pose := (g_ts (fst x), tf_vec (snd x)).
Lemma add_mocap_poses_ok : forall l m, asc (m ++ map pose_of l) -> add_mocap_poses (map fst l) (map snd l) m = Ret (m ++ map pose_of l).
Proof.
  induction l as [|(g & T) l IH]; intros m H; cbn [map add_mocap_poses fst snd]; [rewrite app_nil_r; reflexivity|].
  assert (H1 := asc_app_inv _ _ _ _ H). cbn [fst] in H1.
  rewrite mset_snoc by exact H1. rewrite IH; [rewrite <- app_assoc; reflexivity|]. rewrite <- app_assoc. exact H.
Qed.
(** the extrinsics each frame suggests *)
Definition suggests (cam : list R) (T_WF : mat4) (x : mgrid * mat4) : option mat4 :=
  match estimate pnp cam (fst x) with
  | None => None
  | Some T_CF => Some (mmul4 (mmul4 (tf_inv (tf_pose (tf_vec (snd x)))) T_WF) (tf_inv T_CF))
  end.
Definition estimable (cam : list R) (g : mgrid) : bool := match estimate pnp cam g with Some _ => true | None => false end.
Fixpoint latest (f : mgrid * mat4 -> option mat4) (l : list (mgrid * mat4)) (acc : option mat4) : option mat4 :=
  match l with [] => acc | x :: r => latest f r (match f x with Some T => Some T | None => acc end) end.
Definition used_grids (cam : list R) (l : list (mgrid * mat4)) : list (Z * mgrid) := map (fun g => (g_ts g, g)) (filter (estimable cam) (map fst l)).
Lemma init_ext_ok cam T_WF poses : asc poses -> forall l acc kept, (forall x, In x l -> In (pose_of x) poses) -> asc (kept ++ map (fun x => (g_ts (fst x), fst x)) l) ->
  init_ext pnp cam T_WF poses (map fst l) acc kept = Ret (latest (suggests cam T_WF) l acc, kept ++ used_grids cam l).
Proof.
  intros As. induction l as [|(g & T) l IH]; intros acc kept Hp H; cbn [map init_ext latest fst].
  - unfold used_grids. cbn. rewrite app_nil_r. reflexivity.
  - assert (Hg : mget (g_ts g) poses = Some (tf_vec T)) by (apply mget_in; [auto|]; apply (Hp (g, T)); left; auto).
    rewrite Hg. cbn [map fst] in H. assert (H1 := asc_app_inv _ _ _ _ H).
    assert (Eu : used_grids cam ((g, T) :: l) = (if estimable cam g then [(g_ts g, g)] else []) ++ used_grids cam l)
      by (unfold used_grids; cbn [map filter fst]; destruct (estimable cam g); reflexivity).
    rewrite Eu. clear Eu. unfold estimable.
    assert (Eg : suggests cam T_WF (g, T) = match estimate pnp cam g with None => None | Some T_CF => Some (mmul4 (mmul4 (tf_inv (tf_pose (tf_vec T))) T_WF) (tf_inv T_CF)) end) by reflexivity.
    rewrite Eg. clear Eg. destruct (estimate pnp cam g) as [T_CF|].
    + rewrite mset_snoc by exact H1. rewrite IH; [|intros; apply Hp; right; auto|rewrite <- app_assoc; exact H]. rewrite <- app_assoc. reflexivity.
    + apply IH; [intros; apply Hp; right; auto|]. clear -H. unfold asc in *. rewrite map_app in *. cbn [map fst] in H.
      induction (map fst kept) as [|a k IHk]; cbn [app] in *; [apply StronglySorted_inv in H; tauto|].
      apply StronglySorted_inv in H as (Ha & Hb). constructor; [auto|]. rewrite Forall_forall in *. intros y Hy. apply Hb. rewrite in_app_iff in *. cbn. tauto.
Qed.
Lemma latest_none f : forall l acc, latest f l acc = None <-> acc = None /\ forall x, In x l -> f x = None.
Proof.
  induction l as [|x l IH]; intros acc; cbn [latest]; [split; [intros ->; split; [auto|intros x []]|tauto]|]. rewrite IH. destruct (f x) eqn:E; split.
  - intros (K & _). discriminate.
  - intros (_ & K). rewrite (K x (or_introl eq_refl)) in E. discriminate.
  - intros (K1 & K2). split; [auto|]. intros y [ <- |Hy]; auto.
  - intros (K1 & K2). split; [auto|]. intros y Hy. apply K2. right. auto.
Qed.
Lemma construct_ok cam T_WF gs Ts : recording gs Ts -> let l := List.combine gs Ts in
  construct pnp cam T_WF gs Ts = match latest (suggests cam T_WF) l None with
  | None => Undef
  | Some T_MC => Ret (Mocap (CalibModel.XF 0) (used_grids cam l) [] [] 0 (Problem (map g_ts gs) []) (Est cam (tf_vec T_WF) (tf_vec T_MC) (map pose_of l)))
  end.
Proof.
  intros (Hp & Hs & Hl) l.
  assert (Ef : map fst l = gs).
  { unfold l. clear -Hl. revert Ts Hl. induction gs as [|g gs IH]; intros [|T Ts] H; try discriminate H; cbn; [reflexivity|]. f_equal. apply IH. cbn in H. lia. }
  assert (Es : map snd l = Ts).
  { unfold l. clear -Hl. revert Ts Hl. induction gs as [|g gs IH]; intros [|T Ts] H; try discriminate H; cbn; [reflexivity|]. f_equal. apply IH. cbn in H. lia. }
  assert (Ek : map fst (map pose_of l) = map g_ts gs) by (rewrite <- Ef, !map_map; reflexivity).
  assert (As : asc (map pose_of l)) by (unfold asc; rewrite Ek; exact Hs).
  unfold construct. rewrite <- Ef at 1. rewrite <- Es at 1. rewrite (add_mocap_poses_ok l []) by exact As. cbn [obind app].
  rewrite <- Ef at 1. rewrite (init_ext_ok cam T_WF _ As l None []).
  - cbn [obind fst snd app]. rewrite Ek. destruct (latest _ _ _); reflexivity.
  - intros x Hx. apply in_map, Hx.
  - cbn [app]. unfold asc. rewrite map_map. cbn [fst]. rewrite <- (map_map fst g_ts), Ef. exact Hs.
Qed.
Lemma construct_inv cam T_WF gs Ts s : recording gs Ts -> construct pnp cam T_WF gs Ts = Ret s -> Inv [] s /\ m_views s = [] /\ m_order s = [] /\
  map fst (e_poses (m_est s)) = map g_ts gs /\ (forall ts, In ts (map fst (m_grids s)) -> In ts (map fst (e_poses (m_est s)))) /\ m_grids s <> [].
Proof.
  intros Rc E. rewrite (construct_ok cam T_WF gs Ts Rc) in E. destruct Rc as (Hp & Hs & Hl). set (l := List.combine gs Ts) in *.
  assert (Ef : map fst l = gs).
  { unfold l. clear -Hl. revert Ts Hl. induction gs as [|g gs IH]; intros [|T Ts] H; try discriminate H; cbn; [reflexivity|]. f_equal. apply IH. cbn in H. lia. }
  destruct (latest (suggests cam T_WF) l None) as [T_MC|] eqn:El; [|discriminate E].
  assert (Es : s = Mocap (CalibModel.XF 0) (used_grids cam l) [] [] 0 (Problem (map g_ts gs) []) (Est cam (tf_vec T_WF) (tf_vec T_MC) (map pose_of l))).
  { pose proof (f_equal (fun o => match o with Ret x => x | _ => s end) E) as E'. cbn beta iota in E'. symmetry. exact E'. }
  assert (Ek : map fst (map pose_of l) = map g_ts gs) by (rewrite <- Ef, !map_map; reflexivity).
  assert (Gg : forall ts g, In (ts, g) (used_grids cam l) -> g_ts g = ts /\ In g gs /\ estimable cam g = true).
  { intros ts g Hg. unfold used_grids in Hg. apply in_map_iff in Hg as (g' & E1 & Hg). injection E1 as <- <-. apply filter_In in Hg as (H1 & H2). rewrite Ef in H1. auto. }
  assert (Ga : asc (used_grids cam l)).
  { unfold asc, used_grids. rewrite map_map, Ef. cbn [fst]. clear -Hs. induction gs as [|g gs IH]; cbn; [constructor|]. cbn in Hs. apply StronglySorted_inv in Hs as (H1 & H2).
    destruct (estimable cam g); cbn; [|auto]. constructor; auto. rewrite Forall_forall in *. intros x Hx. apply in_map_iff in Hx as (y & <- & Hy). apply filter_In in Hy as (Hy & _). apply H2, in_map, Hy. }
  rewrite Es. clear E Es s. cbn [m_views m_order m_est e_poses m_grids]. split; [|split; [auto|split; [auto|split; [auto|split]]]].
  - split; cbn [m_prob q_res m_views used flat_map app ids map m_next m_est e_poses m_grids q_poses].
    + constructor.
    + constructor.
    + intros ? [].
    + constructor.
    + intros ? ? [].
    + intros ? [].
    + symmetry. exact Ek.
    + unfold asc. rewrite Ek. exact Hs.
    + exact Ga.
    + intros ts g Hg. destruct (Gg _ _ Hg) as (E1 & E2 & E3). rewrite Forall_forall in Hp. destruct (Hp g E2) as (P1 & P2).
      assert (K : g_pts g <> []) by (unfold estimable, estimate in E3; intros K; rewrite K in E3; discriminate E3). repeat split; auto. apply P2, K.
  - intros ts Hts. apply in_map_iff in Hts as ((t & g) & <- & Hg). destruct (Gg _ _ Hg) as (E1 & E2 & _). rewrite Ek. cbn [fst]. rewrite <- E1. apply in_map, E2.
  - intros K. assert (Kn : latest (suggests cam T_WF) l None = None); [|congruence]. apply latest_none. split; [auto|]. intros x Hx.
    destruct (suggests cam T_WF x) as [T|] eqn:Ex; [|auto]. exfalso. unfold suggests in Ex. destruct (estimate pnp cam (fst x)) eqn:Ee; [|discriminate].
    assert (In (g_ts (fst x), fst x) (used_grids cam l)); [|rewrite K in *; auto]. unfold used_grids. apply in_map_iff. exists (fst x). split; auto. apply filter_In. split; [apply in_map, Hx|].
    unfold estimable. rewrite Ee. reflexivity.
Qed.

(** ** Removing a view *)
Lemma erase_first_perm ts l : In ts l -> exists l', erase_first ts l = Ret l' /\ Permutation l (ts :: l').
Proof.
  induction l as [|x l IH]; [intros []|]. cbn [erase_first]. destruct (Z.eqb_spec x ts) as [ -> |N]; [intros _; eauto|].
  intros [K|K]; [congruence|]. destruct (IH K) as (l' & E & P). rewrite E. cbn [obind]. eexists. split; [reflexivity|]. rewrite P. apply perm_swap.
Qed.
Lemma partition_fst {A} (f : A -> bool) l : fst (partition f l) = filter f l /\ snd (partition f l) = filter (fun x => negb (f x)) l.
Proof. induction l as [|x l (IH1 & IH2)]; cbn; [auto|]. destruct (partition f l). cbn in *. destruct (f x); cbn; split; congruence. Qed.
Lemma remove_view_inv s ts : Inv [] s -> In ts (map fst (m_views s)) -> In ts (m_order s) ->
  exists s', remove_view ts s = Ret s' /\ Inv [] s' /\ m_views s' = mdel ts (m_views s) /\ m_grids s' = m_grids s /\ m_info s' = m_info s /\ m_next s' = m_next s /\
    m_est s' = Est (e_cam (m_est s)) (e_fid (m_est s)) (e_ext (m_est s)) (mdel ts (e_poses (m_est s))) /\ Permutation (m_order s) (ts :: m_order s') /\
    q_res (m_prob s') = filter (fun x => negb (snd (fst x) =? ts)) (q_res (m_prob s)) /\ q_poses (m_prob s') = filter (fun t => negb (t =? ts)) (q_poses (m_prob s)).
Proof.
  intros I Hv Ho. assert (Hp := i_pose _ _ I ts Hv). destruct (mget_some _ _ Hp) as (p & Ep). destruct (mget_some _ _ Hv) as (v & Ev).
  destruct (erase_first_perm ts _ Ho) as (o & Eo & Po).
  unfold remove_view. rewrite Ep.
  assert (Eq : existsb (Z.eqb ts) (q_poses (m_prob s)) = true).
  { apply existsb_exists. exists ts. rewrite (i_poses _ _ I). split; [auto|apply Z.eqb_refl]. }
  rewrite Eq. destruct (partition (fun x => snd (fst x) =? ts) (q_res (m_prob s))) as [out rest] eqn:Epart.
  destruct (partition_fst (fun x : rid * Z * corner => snd (fst x) =? ts) (q_res (m_prob s))) as (P1 & P2). rewrite Epart in P1, P2. cbn [fst snd] in P1, P2.
  assert (El : forallb (fun x => live s (fst (fst x))) out = true).
  { apply forallb_forall. intros x Hx. rewrite P1 in Hx. apply filter_In in Hx as (Hx & _). apply live_in. apply (Permutation_in _ (i_res _ _ I)) in Hx. rewrite app_nil_r in Hx. apply in_map_iff. eauto. }
  rewrite El. cbn [obind with_est with_views m_views m_order m_info m_grids m_next m_prob m_est]. rewrite Ev, Eo. cbn [obind].
  eexists. split; [reflexivity|]. cbn [m_views m_grids m_info m_next m_est m_order m_prob q_res q_poses].
  split; [|split; [auto|split; [auto|split; [auto|split; [auto|split; [auto|split; [auto|split; [auto|auto]]]]]]]].
  assert (Us : forall vs, used (mdel ts vs) = filter (fun x => negb (snd (fst x) =? ts)) (used vs)).
  { clear. induction vs as [|(t & w) vs IH]; [reflexivity|]. cbn [mdel filter used flat_map fst snd]. fold (mdel ts vs). fold (used vs). rewrite filter_app, <- IH.
    assert (K : filter (fun x : rid * Z * corner => negb (snd (fst x) =? ts)) (map (fun rc => (fst rc, t, snd rc)) (v_res w)) = if t =? ts then [] else map (fun rc => (fst rc, t, snd rc)) (v_res w)).
    { induction (v_res w) as [|rc l IHl]; [destruct (t =? ts); reflexivity|]. cbn [map filter fst snd]. rewrite IHl. destruct (t =? ts); reflexivity. }
    rewrite K. destruct (t =? ts); reflexivity. }
  assert (Pf : forall (f : rid * Z * corner -> bool) a b, Permutation a b -> Permutation (filter f a) (filter f b)).
  { clear. intros f a b H. induction H; cbn; auto; [destruct (f x); auto|destruct (f x), (f y); auto; apply perm_swap|etransitivity; eauto]. }
  split; cbn [m_prob q_res m_views m_next m_est e_poses m_grids q_poses].
  - rewrite P2, app_nil_r, Us. rewrite <- (app_nil_r (used (m_views s))). apply Pf, (i_res _ _ I).
  - rewrite app_nil_r, Us. assert (N := i_ids _ _ I). rewrite app_nil_r in N. clear -N. unfold ids in *. induction (used (m_views s)) as [|x m IH]; cbn; [constructor|]. cbn in N. inversion N as [|? ? N1 N2]; subst.
    destruct (negb _); cbn; [|auto]. constructor; auto. intros K. apply N1. apply in_map_iff in K as (y & E & K). apply filter_In in K as (K & _). apply in_map_iff. eauto.
  - intros r Hr. apply (i_next _ _ I). rewrite app_nil_r in *. rewrite Us in Hr. apply in_map_iff in Hr as (x & <- & Hx). apply filter_In in Hx as (Hx & _). apply in_map_iff. eauto.
  - apply asc_mdel, (i_asc _ _ I).
  - intros t w Hw. apply filter_In in Hw as (Hw & _). apply (i_pts _ _ I t w Hw).
  - intros t Ht. rewrite mdel_keys in Ht. rewrite mdel_keys. apply filter_In in Ht as (Ht & Hn). apply filter_In. split; auto. apply (i_pose _ _ I t Ht).
  - rewrite (i_poses _ _ I), mdel_keys. reflexivity.
  - apply asc_mdel, (i_pasc _ _ I).
  - apply (i_gasc _ _ I).
  - apply (i_grids _ _ I).
Qed.
(** ** Restoring *)
Lemma restore_inv c s : Inv [] s -> map fst (e_poses c) = map fst (e_poses (m_est s)) -> Inv [] (restore c s) /\
  m_est (restore c s) = Est (firstn 7 (e_cam c) ++ skipn 7 (e_cam (m_est s))) (e_fid c) (e_ext c) (e_poses c).
Proof.
  intros I E. assert (Er : restore_poses (e_poses c) (e_poses (m_est s)) = e_poses c) by (apply restore_poses_eq; [auto|apply (i_pasc _ _ I)]).
  unfold restore. rewrite Er. split; [|reflexivity]. pose proof (asc_ext _ _ (eq_sym E) (i_pasc _ _ I)) as Ap. destruct I. split; cbn [with_est m_prob m_views m_next m_est e_poses m_grids]; rewrite ?E; auto.
Qed.
End Proofs.
