(** * C110: loading the detected grids of a data set makes one view per time with a detected grid *)
From Coq Require Import Reals Ascii.
From Coq Require String.
From Verif Require Import Base.
From stdpp Require Import gmap sets list sorting.
From Verif Require Import TextModel AprilGridModel AprilGridIOModel SolverModel CalibModel NbvLoopProofs LoadViewsModel LoadViewsSpec LoadViewsProofs.
Local Open Scope Z_scope.

Theorem C110_views : forall V blocks corners dirs load env_of (x x' : loaded V),
  let camera c := is_Some (k_cams (lv_k x) !! c) in
  let file c ts f := camera c /\ grid_file dirs c ts f in
  (forall c l f ts, camera c -> dirs c = Some l -> In f l -> stamped_name f ts -> ts < 2 ^ 63) ->
  (forall c ts f g, file c ts f -> load c f = Ret g -> g_ts g = ts) ->
  load_views blocks corners dirs load env_of x = Ret x' ->
  (forall ts, ts ∈ lv_ts x' <-> (exists c f, file c ts f) \/ ts ∈ lv_ts x) /\
  (forall ts c g, held (lv_data x') ts c = Some g <->
     (exists f, file c ts f /\ load c f = Ret g) \/ ((forall f, ~ file c ts f) /\ held (lv_data x) ts c = Some g)) /\
  exists l, k_vts (lv_k x') = k_vts (lv_k x) ++ l /\ StronglySorted Z.lt l /\
    (forall ts, ts ∈ l <-> exists c f g, file c ts f /\ load c f = Ret g /\ g_detected g = true) /\
    (forall ts, ts ∈ l -> exists v, k_views (lv_k x') !! ts = Some v /\
       forall c, (forall f, file c ts f -> load c f = Ret (v_grids v c)) /\ ((forall f, ~ file c ts f) -> v_grids v c = default_grid)) /\
    (forall ts, ts ∉ l -> k_views (lv_k x') !! ts = k_views (lv_k x) !! ts).
Proof.
  intros V blocks corners dirs load env_of x x' camera file Hr Hown H. unfold load_views in H. ob H gd E.
  apply grid_files_spec in E; [|intros ts m K; rewrite lookup_empty in K; discriminate K]. destruct E as [Hfull Hat].
  assert (AF : forall ts c f, at_ gd ts c = Some f <-> file c ts f).
  { intros ts c f. rewrite Hat. unfold file, camera. destruct (decide (c ∈ sorted_keys (k_cams (lv_k x)))) as [D|D]; rewrite sorted_keys_in in D.
    - assert (PF : pick ts (list_files (dirs c)) = Some f <-> grid_file dirs c ts f) by (apply pick_file; intros l g u; apply Hr, D).
      destruct (pick ts (list_files (dirs c))) as [f'|]; [rewrite PF; tauto|]. unfold at_. rewrite lookup_empty. cbn. split; [discriminate|]. intros [_ K]. apply PF in K. discriminate K.
    - unfold at_. rewrite lookup_empty. cbn. split; [discriminate|]. tauto. }
  assert (AN : forall ts c, at_ gd ts c = None <-> forall f, ~ file c ts f).
  { intros ts c. destruct (at_ gd ts c) as [f|] eqn:A.
    - split; [discriminate|]. intros K. exfalso. apply (K f). apply AF, A.
    - split; [|reflexivity]. intros _ f K. apply AF in K. congruence. }
  assert (KI : forall ts, ts ∈ sorted_keys gd <-> exists c f, file c ts f).
  { intros ts. rewrite sorted_keys_in. split.
    - intros [m Hm]. destruct (map_choose m (Hfull _ _ Hm)) as (c & f & K). exists c, f. apply AF. unfold at_. rewrite Hm. exact K.
    - intros (c & f & K). apply AF in K. unfold at_ in K. destruct (gd !! ts); [eauto|discriminate K]. }
  apply load_all_spec in H; [|apply sorted_keys_nodup|exact Hfull|intros ts; apply sorted_keys_in|intros ts c f g _ F; apply (Hown c ts f g), AF, F].
  destruct H as (B1 & B2 & l & B3 & B4 & B5 & B6 & B7). split; [intros ts; rewrite B1, KI; reflexivity|]. split.
  - intros ts c g. rewrite B2. split.
    + intros [(_ & f & K1 & K2)|[K1 K2]]; [left; exists f; rewrite <- AF; auto|]. right. split; [|exact K2]. intros f K. assert (X : at_ gd ts c = None) by (apply K1, KI; eauto). exact (proj1 (AN ts c) X f K).
    + intros [(f & K1 & K2)|[K1 K2]]; [left; split; [apply KI; eauto|exists f; rewrite AF; auto]|]. right. split; [intros _; exact (proj2 (AN ts c) K1)|exact K2].
  - exists l. split; [exact B3|]. split.
    + assert (SL : forall q : list Z, StronglySorted Z.le q -> NoDup q -> StronglySorted Z.lt q).
      { clear. induction 1 as [|a q Hq IH Ha]; intros N; [constructor|]. apply NoDup_cons in N as [N1 N2]. constructor; [auto|]. rewrite Forall_forall in Ha |- *. intros b Hb. specialize (Ha b Hb). assert (a <> b) by (intros ->; contradiction). lia. }
      assert (SS : forall p q : list Z, p `sublist_of` q -> StronglySorted Z.lt q -> StronglySorted Z.lt p).
      { clear. induction 1 as [|a p q Hp IH|a p q Hp IH]; intros Hs; [constructor| |]; inversion Hs as [|? ? H1 H2]; subst; [|auto]. constructor; [auto|]. rewrite Forall_forall in H2 |- *. intros b Hb. apply H2. eapply elem_of_submseteq; [exact Hb|apply sublist_submseteq, Hp]. }
      eapply SS; [exact B4|]. apply SL; [apply sorted_keys_sorted|apply sorted_keys_nodup].
    + split; [|split; [|exact B7]].
      * intros ts. rewrite B5, KI. split.
        -- intros [_ (c & f & g & K1 & K2)]. exists c, f, g. rewrite <- AF. auto.
        -- intros (c & f & g & K1 & K2). split; [eauto|]. exists c, f, g. rewrite AF. auto.
      * intros ts K. destruct (B6 ts K) as (v & V1 & V3). exists v. split; [exact V1|]. intros c. destruct (V3 c) as [W1 W2]. split; [intros f F; apply W1, AF, F|intros F; exact (W2 (proj2 (AN ts c) F))].
Qed.

(** without the directories nothing is loaded, and nothing is reported *)
Theorem C110_missing : forall V blocks corners dirs load env_of (x : loaded V),
  (forall c, is_Some (k_cams (lv_k x) !! c) -> dirs c = None) -> load_views blocks corners dirs load env_of x = Ret x.
Proof.
  intros V blocks corners dirs load env_of x H. unfold load_views.
  assert (G : forall l, (forall c, c ∈ l -> dirs c = None) -> grid_files dirs l ∅ = Ret ∅).
  { induction l as [|c l IH]; intros K; [reflexivity|]. cbn [grid_files]. rewrite (K c ltac:(apply elem_of_list_here)). cbn. apply IH. intros c' K'. apply K, elem_of_list_further, K'. }
  rewrite G; [reflexivity|]. intros c K. apply H, sorted_keys_in, K.
Qed.

(** ** a data set *)
Definition tx (s : String.string) : text := String.list_ascii_of_string s.
Definition lx_grid (ts : Z) (d : bool) : grid := mkGrid true ts 0 0 0%R 0%R d 0 [].
Import String.StringSyntax.
Delimit Scope string_scope with string.
Definition lx_f10 : text := tx "0000000000000000010.csv"%string.
Definition lx_f20 : text := tx "0000000000000000020.csv"%string.
Definition lx_dirs (c : Z) : option (list text) :=
  if c =? 0 then Some [tx ".."%string; lx_f20; tx "readme.txt"%string; lx_f10; tx "."%string] else if c =? 1 then Some [lx_f20] else None.
Definition lx_load (c : Z) (f : text) : outcome grid :=
  if decide (f = lx_f10) then Ret (lx_grid 10 true) else if decide (f = lx_f20) then Ret (lx_grid 20 (c =? 1)) else Throw Fatal.
Definition lx_env (x : loaded Z) (ts : Z) : env Z := mkEnv ts (fun _ _ _ => 0) (fun _ _ => Ret 0).
Definition lx_x : loaded Z := mkLoaded (mkCalib {[0 := 5; 1 := 6; 2 := 7]} {[0 := 0; 1 := 0; 2 := 0]} ∅ ∅ ∅ [] csolver_new XPinf) ∅ ∅.

Lemma stamped_fun f a b : stamped_name f a -> stamped_name f b -> a = b.
Proof. intros A B. apply stamped_first in A as (_ & _ & A). apply stamped_first in B as (_ & _ & B). congruence. Qed.
Lemma lx_s10 : stamped_name lx_f10 10.
Proof. apply stamped_first. split; [discriminate|]. split; [apply digits_forallb; reflexivity|reflexivity]. Qed.
Lemma lx_s20 : stamped_name lx_f20 20.
Proof. apply stamped_first. split; [discriminate|]. split; [apply digits_forallb; reflexivity|reflexivity]. Qed.
Lemma lx_not f u : forallb is_digit (firstn 19 f) = false -> ~ stamped_name f u.
Proof. intros H S. apply stamped_first in S as (_ & S & _). apply digits_forallb in S. congruence. Qed.
Lemma lx_names c l f u : lx_dirs c = Some l -> In f l -> stamped_name f u -> f = lx_f10 /\ u = 10 \/ f = lx_f20 /\ u = 20.
Proof.
  unfold lx_dirs. intros H Hf S. destruct (c =? 0).
  - injection H as <-. destruct Hf as [<-|[<-|[<-|[<-|[<-|[]]]]]].
    + exfalso. eapply lx_not; [|exact S]. reflexivity.
    + right. split; [reflexivity|]. eapply stamped_fun; [exact S|apply lx_s20].
    + exfalso. eapply lx_not; [|exact S]. reflexivity.
    + left. split; [reflexivity|]. eapply stamped_fun; [exact S|apply lx_s10].
    + exfalso. eapply lx_not; [|exact S]. reflexivity.
  - destruct (c =? 1); [|discriminate H]. injection H as <-. destruct Hf as [<-|[]]. right. split; [reflexivity|]. eapply stamped_fun; [exact S|apply lx_s20].
Qed.
(** the hypotheses of C110_views hold; camera 0 sees the board at 10, camera 1 at 20, camera 2 has no directory *)
Example C110_ex :
  (forall c l f ts, is_Some (k_cams (lv_k lx_x) !! c) -> lx_dirs c = Some l -> In f l -> stamped_name f ts -> ts < 2 ^ 63) /\
  (forall c ts f g, is_Some (k_cams (lv_k lx_x) !! c) /\ grid_file lx_dirs c ts f -> lx_load c f = Ret g -> g_ts g = ts) /\
  exists x', load_views (fun _ => []) [] lx_dirs lx_load lx_env lx_x = Ret x' /\ k_vts (lv_k x') = [10; 20] /\
    lv_ts x' = {[10; 20]} /\ held (lv_data x') 20 0 = Some (lx_grid 20 false).
Proof.
  split; [|split].
  - intros c l f ts _ H Hf S. destruct (lx_names _ _ _ _ H Hf S) as [[_ ->]|[_ ->]]; reflexivity.
  - intros c ts f g (_ & l & H & Hf & S & _). destruct (lx_names _ _ _ _ H Hf S) as [[-> ->]|[-> ->]]; cbv; intros E; injection E as <-; reflexivity.
  - eexists. split; [vm_compute; reflexivity|]. split; [reflexivity|]. split; [|reflexivity]. apply (bool_decide_unpack _). vm_compute. exact I.
Qed.

(** a nineteen-digit name of 2^63 or more is read as a time before 1970 *)
Theorem C110_sign_refuted : exists dirs f x',
  dirs 0 = Some [f] /\ stamped_name f (2 ^ 63) /\
  load_views (fun _ => []) [] dirs (fun c _ => Ret (lx_grid (2 ^ 63) true)) lx_env lx_x = Ret x' /\
  lv_ts x' = {[- 2 ^ 63]}.
Proof.
  exists (fun c => if c =? 0 then Some [tx "9223372036854775808.csv"%string] else None), (tx "9223372036854775808.csv"%string).
  eexists. split; [reflexivity|]. split; [apply stamped_first; split; [discriminate|]; split; [apply digits_forallb; reflexivity|reflexivity]|].
  split; [vm_compute; reflexivity|]. apply (bool_decide_unpack _). vm_compute. exact I.
Qed.
(** files whose contents carry another time than their names: two entries in the list of view times, one view *)
Theorem C110_stamp_refuted : exists x',
  load_views (fun _ => []) [] lx_dirs (fun _ _ => Ret (lx_grid 5 true)) lx_env lx_x = Ret x' /\
  k_vts (lv_k x') = [5; 5] /\ dom (k_views (lv_k x')) = {[5]} /\ lv_ts x' = {[10; 20]}.
Proof.
  eexists. split; [vm_compute; reflexivity|]. split; [reflexivity|]. split; apply (bool_decide_unpack _); vm_compute; exact I.
Qed.
