From Coq Require Import Reals Ascii.
From Verif Require Import Base.
From stdpp Require Import gmap sets list sorting.
From Verif Require Import TextModel AprilGridModel AprilGridIOModel SolverModel CalibModel NbvLoopProofs LoadViewsModel LoadViewsSpec.
Local Open Scope Z_scope.

(** ** names *)
Lemma is_digit_spec c : is_digit c = true <-> digit c.
Proof.
  unfold is_digit, char_digit, digit, code. destruct (Z.leb_spec 48 (Z.of_N (N_of_ascii c))); destruct (Z.leb_spec (Z.of_N (N_of_ascii c)) 57); cbn; split; intros; try discriminate; try reflexivity; lia.
Qed.
Lemma scan_number s : Forall digit s -> forall a n, exists k, scan_digits a n s = (fold_left (fun a c => 10 * a + (code c - 48)) s a, k, []).
Proof.
  induction 1 as [|c s Hc Hs IH]; intros a n; cbn [scan_digits fold_left]; [eauto|].
  assert (char_digit c = Some (code c - 48)) as ->.
  { unfold char_digit, digit, code in *. destruct (Z.leb_spec 48 (Z.of_N (N_of_ascii c))); destruct (Z.leb_spec (Z.of_N (N_of_ascii c)) 57); cbn; auto; lia. }
  replace (a * 10) with (10 * a) by lia. apply IH.
Qed.
Lemma number_nn s : Forall digit s -> forall a, 0 <= a -> 0 <= fold_left (fun a c => 10 * a + (code c - 48)) s a.
Proof. induction 1 as [|c s Hc Hs IH]; intros a Ha; cbn [fold_left]; [exact Ha|]. apply IH. unfold digit in Hc. lia. Qed.
Lemma digits_forallb s : forallb is_digit s = true <-> Forall digit s.
Proof. rewrite forallb_forall, List.Forall_forall. split; intros H x Hx; apply is_digit_spec, H, Hx. Qed.
Lemma stamped_first f ts : stamped_name f ts <-> firstn 19 f <> [] /\ Forall digit (firstn 19 f) /\ number (firstn 19 f) = ts.
Proof.
  split.
  - intros (s & r & -> & Hn & Hl & Hd & He).
    assert (firstn 19 (s ++ r) = s) as ->.
    { destruct Hl as [Hl|[Hl ->]].
      - rewrite <- Hl. rewrite take_app. reflexivity.
      - rewrite app_nil_r. apply firstn_all2, Hl. }
    auto.
  - intros (Hn & Hd & He). exists (firstn 19 f), (skipn 19 f). split; [symmetry; apply firstn_skipn|]. split; [exact Hn|]. split; [|auto].
    destruct (le_lt_dec 19 (length f)) as [L|L].
    + left. rewrite firstn_length. lia.
    + right. split; [rewrite firstn_length; lia|]. apply skipn_all2. lia.
Qed.
Definition nm (f : text) : option Z := match name_stamp f with Ret o => o | _ => None end.
Lemma nm_spec f ts : (forall u, stamped_name f u -> u < 2 ^ 63) -> nm f = Some ts <-> stamped_name f ts.
Proof.
  intros Hs. pose proof (stamped_first f) as SF. unfold nm, name_stamp. destruct (forallb is_digit (firstn 19 f)) eqn:D; cbn [negb].
  - apply digits_forallb in D. destruct (firstn 19 f) as [|c s] eqn:F.
    + rewrite SF. split; [discriminate|]. intros [H _]. congruence.
    + destruct (scan_number _ D 0 0%nat) as [k Hk]. rewrite Hk. cbn [fst]. change (fold_left _ (c :: s) 0) with (number (c :: s)).
      assert (L : number (c :: s) < 2 ^ 63) by (apply Hs; rewrite SF; repeat split; [discriminate|exact D]).
      destruct (Z.leb_spec (2 ^ 63) (number (c :: s))); [lia|]. rewrite SF. split.
      * intros E. injection E as <-. repeat split; [discriminate|exact D].
      * intros (_ & _ & <-). reflexivity.
  - split; [discriminate|]. rewrite SF. intros (_ & H & _). apply digits_forallb in H. congruence.
Qed.

(** ** order *)
Lemma code_inj c d : code c = code d -> c = d.
Proof. unfold code. intros H. apply N2Z.inj in H. rewrite <- (ascii_N_embedding c), <- (ascii_N_embedding d), H. reflexivity. Qed.
Lemma leb_step x a y b : text_leb (x :: a) (y :: b) = if code x <? code y then true else if code y <? code x then false else text_leb a b.
Proof.
  cbn [text_leb]. unfold code.
  assert (Z.of_N (N_of_ascii x) <? Z.of_N (N_of_ascii y) = N.ltb (N_of_ascii x) (N_of_ascii y)) as -> by (destruct (N.ltb_spec (N_of_ascii x) (N_of_ascii y)); destruct (Z.ltb_spec (Z.of_N (N_of_ascii x)) (Z.of_N (N_of_ascii y))); lia).
  assert (Z.of_N (N_of_ascii y) <? Z.of_N (N_of_ascii x) = N.ltb (N_of_ascii y) (N_of_ascii x)) as -> by (destruct (N.ltb_spec (N_of_ascii y) (N_of_ascii x)); destruct (Z.ltb_spec (Z.of_N (N_of_ascii y)) (Z.of_N (N_of_ascii x))); lia).
  reflexivity.
Qed.
Lemma text_le_before a b : text_le a b <-> a = b \/ before a b.
Proof.
  unfold text_le. revert b. induction a as [|x a IH]; intros b.
  - split; [intros _|reflexivity]. destruct b as [|y b]; [left; reflexivity|]. right. exists []. right. exists y, b. auto.
  - destruct b as [|y b].
    + split; [discriminate|]. intros [H|(p & [(x0 & a' & y0 & b' & _ & H & _)|(y0 & b' & H & H2)])]; [discriminate| |]; destruct p; discriminate.
    + rewrite leb_step. destruct (Z.ltb_spec (code x) (code y)) as [L|L]; [|destruct (Z.ltb_spec (code y) (code x)) as [L'|L']].
      * split; [intros _|reflexivity]. right. exists []. left. exists x, a, y, b. auto.
      * split; [discriminate|]. intros [H|(p & [(x0 & a' & y0 & b' & H1 & H2 & H3)|(y0 & b' & H1 & H2)])].
        -- injection H as -> ->. lia.
        -- destruct p as [|q p]; cbn in H1, H2; injection H1 as -> ->; injection H2 as -> ->; lia.
        -- destruct p as [|q p]; [discriminate|]. injection H1 as -> ->. injection H2 as -> ->. lia.
      * assert (x = y) as -> by (apply code_inj; lia). rewrite IH. split.
        -- intros [->|(p & [(x0 & a' & y0 & b' & -> & -> & H3)|(y0 & b' & -> & ->)])]; [left; reflexivity| |]; right; exists (y :: p).
           ++ left. exists x0, a', y0, b'. auto.
           ++ right. exists y0, b'. auto.
        -- intros [H|(p & [(x0 & a' & y0 & b' & H1 & H2 & H3)|(y0 & b' & H1 & H2)])]; [injection H as ->; left; reflexivity| |].
           ++ destruct p as [|q p]; cbn in H1, H2; [injection H1 as -> ->; injection H2 as -> ->; lia|]. injection H1 as -> ->. injection H2 as ->. right. exists p. left. exists x0, a', y0, b'. auto.
           ++ destruct p as [|q p]; [discriminate|]. injection H1 as -> ->. injection H2 as ->. right. exists p. right. exists y0, b'. auto.
Qed.
#[global] Instance text_le_total : Total text_le.
Proof.
  unfold text_le. intros a. induction a as [|x a IH]; intros b; [left; reflexivity|]. destruct b as [|y b]; [right; reflexivity|].
  rewrite !leb_step. destruct (Z.ltb_spec (code x) (code y)); [left; reflexivity|]. destruct (Z.ltb_spec (code y) (code x)); [right; reflexivity|]. apply IH.
Qed.
#[global] Instance text_le_trans : Transitive text_le.
Proof.
  unfold text_le. intros a. induction a as [|x a IH]; intros b c; [reflexivity|]. destruct b as [|y b]; [discriminate|]. destruct c as [|z c]; [intros _; discriminate|].
  rewrite !leb_step. destruct (Z.ltb_spec (code x) (code y)); destruct (Z.ltb_spec (code y) (code x)); destruct (Z.ltb_spec (code y) (code z)); destruct (Z.ltb_spec (code z) (code y));
    destruct (Z.ltb_spec (code x) (code z)); destruct (Z.ltb_spec (code z) (code x)); try lia; intros K1 K2; try discriminate; try reflexivity; eapply IH; eassumption.
Qed.
Lemma text_le_anti a b : text_le a b -> text_le b a -> a = b.
Proof.
  unfold text_le. revert b. induction a as [|x a IH]; intros [|y b]; try reflexivity; try discriminate.
  rewrite !leb_step. destruct (Z.ltb_spec (code x) (code y)); destruct (Z.ltb_spec (code y) (code x)); try lia; try discriminate.
  intros K1 K2. rewrite (IH _ K1 K2). f_equal. apply code_inj. lia.
Qed.

(** ** the files of a camera *)
Fixpoint pick (ts : Z) (fs : list text) : option text :=
  match fs with
  | [] => None
  | f :: t => match pick ts t with Some f' => Some f' | None => if decide (nm f = Some ts) then Some f else None end
  end.
Lemma pick_none ts fs : pick ts fs = None <-> forall f, f ∈ fs -> nm f <> Some ts.
Proof.
  induction fs as [|f t IH]; cbn [pick]; [split; [intros _ f H; apply elem_of_nil in H; contradiction|reflexivity]|].
  destruct (pick ts t) as [f'|].
  - split; [discriminate|]. intros H. assert (X : Some f' = None); [|discriminate]. apply IH. intros g Hg. apply H, elem_of_list_further, Hg.
  - destruct (decide (nm f = Some ts)) as [E|E].
    + split; [discriminate|]. intros H. exfalso. apply (H f); [apply elem_of_list_here|exact E].
    + split; [|reflexivity]. intros _ g Hg. apply elem_of_cons in Hg as [->|Hg]; [exact E|]. apply IH; auto.
Qed.
Lemma pick_some ts fs f : StronglySorted text_le fs -> pick ts fs = Some f <->
  f ∈ fs /\ nm f = Some ts /\ forall f', f' ∈ fs -> nm f' = Some ts -> text_le f' f.
Proof.
  intros Hs.
  assert (Fw : forall f, pick ts fs = Some f -> f ∈ fs /\ nm f = Some ts /\ forall f', f' ∈ fs -> nm f' = Some ts -> text_le f' f).
  { clear f. induction Hs as [|x t Ht IH Hx]; intros f; cbn [pick]; [discriminate|]. destruct (pick ts t) as [f'|] eqn:Ep.
    - intros E. injection E as ->. destruct (IH _ eq_refl) as (A & B & C). split; [apply elem_of_list_further, A|]. split; [exact B|].
      intros g Hg N. apply elem_of_cons in Hg as [->|Hg]; [|auto]. rewrite Forall_forall in Hx. apply Hx, A.
    - destruct (decide (nm x = Some ts)) as [E|E]; [|discriminate]. intros E'. injection E' as <-. split; [apply elem_of_list_here|]. split; [exact E|].
      intros g Hg N. apply elem_of_cons in Hg as [->|Hg]; [unfold text_le; clear; induction x as [|c x IH]; [reflexivity|rewrite leb_step; rewrite Z.ltb_irrefl; exact IH]|]. exfalso. rewrite pick_none in Ep. exact (Ep g Hg N). }
  split; [apply Fw|]. intros (A & B & C). destruct (pick ts fs) as [f0|] eqn:Ep.
  - destruct (Fw _ eq_refl) as (A0 & B0 & C0). f_equal. apply text_le_anti; auto.
  - exfalso. rewrite pick_none in Ep. exact (Ep f A B).
Qed.
Notation gdata := (gmap Z (gmap Z text)).
Definition at_ (gd : gdata) (ts c : Z) : option text := m ← gd !! ts; m !! c.
Definition full (gd : gdata) : Prop := forall ts m, gd !! ts = Some m -> m <> ∅.
Lemma at_insert gd ts c f ts' c' : at_ (<[ts := <[c := f]> (default ∅ (gd !! ts))]> gd) ts' c' = if decide (ts' = ts /\ c' = c) then Some f else at_ gd ts' c'.
Proof.
  unfold at_. destruct (decide (ts' = ts)) as [->|N].
  - rewrite lookup_insert. cbn [mbind option_bind]. destruct (decide (c' = c)) as [->|N].
    + rewrite lookup_insert. destruct (decide _); [reflexivity|tauto].
    + rewrite lookup_insert_ne by congruence. destruct (decide _); [tauto|]. destruct (gd !! ts); reflexivity.
  - rewrite lookup_insert_ne by congruence. destruct (decide _); [tauto|reflexivity].
Qed.
Lemma full_insert gd ts c f : full gd -> full (<[ts := <[c := f]> (default ∅ (gd !! ts))]> gd).
Proof.
  intros H t m. destruct (decide (t = ts)) as [->|N]; [rewrite lookup_insert; intros E; injection E as <-; apply insert_non_empty|rewrite lookup_insert_ne by congruence; apply H].
Qed.
Lemma cam_files_spec cam fs : forall gd gd', cam_files cam fs gd = Ret gd' -> full gd -> full gd' /\
  forall ts c, at_ gd' ts c = if decide (c = cam) then match pick ts fs with Some f => Some f | None => at_ gd ts c end else at_ gd ts c.
Proof.
  induction fs as [|f t IH]; intros gd gd' H Hf; cbn [cam_files] in H.
  - injection H as <-. split; [exact Hf|]. intros ts c. cbn. destruct (decide _); reflexivity.
  - ob H o E. cbn [pick]. destruct o as [ts0|].
    + apply IH in H; [|apply full_insert, Hf]. destruct H as [H1 H2]. split; [exact H1|]. intros ts c. rewrite H2, at_insert. destruct (decide (c = cam)) as [->|N].
      * destruct (pick ts t) as [f'|]; [reflexivity|]. assert (nm f = Some ts0) as Nf by (unfold nm; rewrite E; reflexivity).
        destruct (decide (ts = ts0 /\ cam = cam)) as [[Et _]|D]; destruct (decide (nm f = Some ts)) as [D'|D']; try reflexivity; exfalso; [congruence|]. apply D. split; [congruence|reflexivity].
      * destruct (decide _); [tauto|reflexivity].
    + apply IH in H; [|exact Hf]. destruct H as [H1 H2]. split; [exact H1|]. intros ts c. rewrite H2. destruct (decide (c = cam)); [|reflexivity].
      destruct (pick ts t); [reflexivity|]. destruct (decide _) as [D|_]; [|reflexivity]. unfold nm in D. rewrite E in D. discriminate D.
Qed.
Section Files.
Context (dirs : Z -> option (list text)).
Lemma grid_files_spec cams : forall gd gd', grid_files dirs cams gd = Ret gd' -> full gd -> full gd' /\
  forall ts c, at_ gd' ts c = if decide (c ∈ cams) then match pick ts (list_files (dirs c)) with Some f => Some f | None => at_ gd ts c end else at_ gd ts c.
Proof.
  induction cams as [|cam t IH]; intros gd gd' H Hf; cbn [grid_files] in H.
  - injection H as <-. split; [exact Hf|]. intros ts c. destruct (decide _) as [D|_]; [apply elem_of_nil in D; contradiction|reflexivity].
  - ob H g1 E. apply cam_files_spec in E; [|exact Hf]. destruct E as [E1 E2]. apply IH in H; [|exact E1]. destruct H as [H1 H2]. split; [exact H1|].
    intros ts c. rewrite H2, E2. destruct (decide (c = cam)) as [->|N].
    + destruct (decide (cam ∈ cam :: t)) as [_|D]; [|exfalso; apply D, elem_of_list_here]. destruct (decide _), (pick _ _); reflexivity.
    + destruct (decide (c ∈ t)) as [D|D]; destruct (decide (c ∈ cam :: t)) as [D'|D']; try reflexivity; exfalso.
      * apply D', elem_of_list_further, D.
      * apply elem_of_cons in D'. tauto.
Qed.
Lemma dot_not_stamped f u : dot_name f = true -> ~ stamped_name f u.
Proof.
  intros H S. apply stamped_first in S as (_ & S & _). destruct f as [|c [|d [|]]]; cbn in H; try discriminate H.
  - apply Ascii.eqb_eq in H as ->. inversion S as [|? ? D]. unfold digit, code in D. vm_compute in D. destruct D as [D _]. apply D. reflexivity.
  - apply andb_prop in H as [H _]. apply Ascii.eqb_eq in H as ->. inversion S as [|? ? D]. unfold digit, code in D. vm_compute in D. destruct D as [D _]. apply D. reflexivity.
Qed.
(** the directory's file for a time *)
Lemma pick_file c ts f : (forall l g u, dirs c = Some l -> In g l -> stamped_name g u -> u < 2 ^ 63) ->
  pick ts (list_files (dirs c)) = Some f <-> grid_file dirs c ts f.
Proof.
  intros Hs. unfold list_files, grid_file. destruct (dirs c) as [l|]; cbn.
  2: { split; [discriminate|]. intros (l & H & _). discriminate H. }
  set (fl := List.filter _ l).
  rewrite pick_some by (apply StronglySorted_merge_sort; apply _). setoid_rewrite (merge_sort_Permutation text_le fl).
  assert (Hin : forall g, g ∈ fl <-> In g l /\ dot_name g = false).
  { intros g. rewrite elem_of_list_In. unfold fl. rewrite filter_In. destruct (dot_name g); cbn; intuition congruence. }
  split.
  - intros (A & B & C). apply Hin in A as [A _]. exists l. split; [reflexivity|]. split; [exact A|].
    apply nm_spec in B; [|intros u; apply (Hs l f u eq_refl A)]. split; [exact B|]. intros g Hg Sg. apply text_le_before, C.
    + apply Hin. split; [exact Hg|]. destruct (dot_name g) eqn:D; [|reflexivity]. destruct (dot_not_stamped _ _ D Sg).
    + apply nm_spec; [intros u; apply (Hs l g u eq_refl Hg)|exact Sg].
  - intros (l0 & E & A & B & C). injection E as <-. split; [|split].
    + apply Hin. split; [exact A|]. destruct (dot_name f) eqn:D; [|reflexivity]. destruct (dot_not_stamped _ _ D B).
    + apply nm_spec; [intros u; apply (Hs l f u eq_refl A)|exact B].
    + intros g Hg Ng. apply Hin in Hg as [Hg _]. apply text_le_before, C; [exact Hg|]. apply nm_spec; [intros u; apply (Hs l g u eq_refl Hg)|exact Ng].
Qed.
End Files.

(** ** reading the grids of a time *)
Lemma sorted_keys_in {A} (m : gmap Z A) k : k ∈ sorted_keys m <-> is_Some (m !! k).
Proof.
  unfold sorted_keys. rewrite merge_sort_Permutation. rewrite elem_of_list_fmap. split.
  - intros [[k' v] [-> H]]. apply elem_of_map_to_list in H. cbn. eauto.
  - intros [v H]. exists (k, v). split; [reflexivity|]. apply elem_of_map_to_list, H.
Qed.
Lemma sorted_keys_nodup {A} (m : gmap Z A) : NoDup (sorted_keys m).
Proof. unfold sorted_keys. rewrite merge_sort_Permutation. apply NoDup_fst_map_to_list. Qed.
Lemma sorted_keys_sorted {A} (m : gmap Z A) : StronglySorted Z.le (sorted_keys m).
Proof. unfold sorted_keys. apply StronglySorted_merge_sort; apply _. Qed.
Lemma assoc_map {A} (l : list (Z * A)) k : assoc k l = (list_to_map l : gmap Z A) !! k.
Proof.
  induction l as [|[k' v] l IH]; cbn [assoc list_to_map foldr fst snd]; [rewrite lookup_empty; reflexivity|]. cbn [assoc]. cbn. destruct (decide (k' = k)) as [->|N].
  - rewrite Z.eqb_refl, lookup_insert. reflexivity.
  - rewrite lookup_insert_ne by congruence. try (destruct (Z.eqb_spec k' k); [congruence|]). try (destruct (Z.eqb_spec k k'); [congruence|]). exact IH.
Qed.
Section Grids.
Context (load : Z -> text -> outcome grid).
Lemma load_grids_in cams m gs : load_grids load cams m = Ret gs -> forall c g, (c, g) ∈ gs <-> c ∈ cams /\ exists f, m !! c = Some f /\ load c f = Ret g.
Proof.
  revert gs. induction cams as [|c0 t IH]; intros gs H c g; cbn [load_grids] in H.
  - injection H as <-. split; [intros K; apply elem_of_nil in K; contradiction|intros [K _]; apply elem_of_nil in K; contradiction].
  - destruct (m !! c0) as [f|] eqn:Em.
    + ob H g0 E. ob H gs0 E0. injection H as <-. rewrite elem_of_cons, (IH _ eq_refl), elem_of_cons. split.
      * intros [K|(K & f' & K2)]; [injection K as -> ->; split; [left; reflexivity|]; exists f; auto|]. split; [right; exact K|eauto].
      * intros ([->|K] & f' & K2 & K3); [left; congruence|]. right. eauto.
    + rewrite (IH _ H), elem_of_cons. split; [intros (K & K2); auto|]. intros ([->|K] & f' & K2 & K3); [congruence|]. eauto.
Qed.
Lemma load_grids_all cams m gs : load_grids load cams m = Ret gs -> forall c f, c ∈ cams -> m !! c = Some f -> exists g, load c f = Ret g.
Proof.
  revert gs. induction cams as [|c0 t IH]; intros gs H c f Hc Hf; cbn [load_grids] in H; [apply elem_of_nil in Hc; contradiction|].
  apply elem_of_cons in Hc as [->|Hc].
  - rewrite Hf in H. ob H g E. eauto.
  - destruct (m !! c0); [ob H g E; ob H gs0 E0; eapply IH; eauto|eapply IH; eauto].
Qed.
Lemma load_grids_map m gs : load_grids load (sorted_keys m) m = Ret gs ->
  forall c g, (list_to_map gs : gmap Z grid) !! c = Some g <-> exists f, m !! c = Some f /\ load c f = Ret g.
Proof.
  intros H c g. pose proof (load_grids_in _ _ _ H) as HI.
  assert (Un : forall x y, (c, x) ∈ gs -> (c, y) ∈ gs -> x = y).
  { intros x y Hx Hy. apply HI in Hx as (_ & f & F1 & F2). apply HI in Hy as (_ & f' & F1' & F2'). congruence. }
  split.
  - intros K. apply elem_of_list_to_map_2 in K. apply HI in K as (_ & f & K). eauto.
  - intros (f & K). assert (X : (c, g) ∈ gs) by (apply HI; split; [apply sorted_keys_in; destruct K as [K _]; eauto|eauto]).
    apply elem_of_list_to_map_1'; [|exact X]. intros y Hy. eapply Un; eauto.
Qed.
End Grids.

Section Loop.
Context (blocks : Z -> list Z) (corners : list (Z * list (Z * pt3))).
Context {V : Type}.
Context (load : Z -> text -> outcome grid).
Context (env_of : loaded V -> Z -> env V).

Lemma load_view_spec ts m x x' : (forall c f g, m !! c = Some f -> load c f = Ret g -> g_ts g = ts) ->
  load_view blocks corners load env_of ts m x = Ret x' ->
  lv_ts x' = {[ts]} ∪ lv_ts x /\
  (forall c f, m !! c = Some f -> exists g, load c f = Ret g) /\
  (forall t c g, held (lv_data x') t c = Some g <->
     (t = ts /\ exists f, m !! c = Some f /\ load c f = Ret g) \/ ((t = ts -> m !! c = None) /\ held (lv_data x) t c = Some g)) /\
  (((exists c f g, m !! c = Some f /\ load c f = Ret g /\ g_detected g = true) /\ k_vts (lv_k x') = k_vts (lv_k x) ++ [ts] /\
    exists v, k_views (lv_k x') = <[ts := v]> (k_views (lv_k x)) /\
      forall c, (forall f, m !! c = Some f -> load c f = Ret (v_grids v c)) /\ (m !! c = None -> v_grids v c = default_grid)) \/
   (~ (exists c f g, m !! c = Some f /\ load c f = Ret g /\ g_detected g = true) /\ k_vts (lv_k x') = k_vts (lv_k x) /\ k_views (lv_k x') = k_views (lv_k x))).
Proof.
  intros Hown H. unfold load_view in H. ob H gs E. ob H [b k'] E0. injection H as <-. cbn [lv_ts lv_data lv_k snd].
  pose proof (load_grids_map _ _ _ E) as HM. pose proof (load_grids_in _ _ _ _ E) as HI.
  assert (HA : forall c f, m !! c = Some f -> exists g, load c f = Ret g).
  { intros c f Hc. eapply load_grids_all; eauto. apply sorted_keys_in. eauto. }
  assert (HF : List.Forall (fun cg : Z * grid => own ts (snd cg)) gs).
  { apply List.Forall_forall. intros [c g] Hg. apply elem_of_list_In in Hg. apply HI in Hg as (_ & f & F1 & F2). left. cbn. eapply Hown; eauto. }
  apply add_view_views in E0. cbn [set_data k_vts k_views] in E0.
  split; [reflexivity|]. split; [exact HA|]. split.
  - intros t c g.
    assert (match first_detected gs with
       | Some t0 => if decide (is_Some (<[ts:=list_to_map gs ∪ default ∅ (lv_data x !! ts)]> (lv_data x) !! t0)) then <[ts:=list_to_map gs ∪ default ∅ (lv_data x !! ts)]> (lv_data x)
           else <[t0:=list_to_map (List.filter (λ cg : Z * grid, g_detected cg.2) gs)]> (<[ts:=list_to_map gs ∪ default ∅ (lv_data x !! ts)]> (lv_data x))
       | None => <[ts:=list_to_map gs ∪ default ∅ (lv_data x !! ts)]> (lv_data x) end = <[ts:=list_to_map gs ∪ default ∅ (lv_data x !! ts)]> (lv_data x)) as ->.
    { destruct (first_detected gs) as [t0|] eqn:F; [|reflexivity]. apply (own_first ts) in F; [|exact HF]. subst t0. rewrite lookup_insert. destruct (decide _) as [_|D]; [reflexivity|]. exfalso. apply D. eauto. }
    unfold held. destruct (decide (t = ts)) as [->|N].
    + rewrite lookup_insert. cbn [mbind option_bind]. rewrite lookup_union_Some_raw, HM. 
      assert (Hd : (default ∅ (lv_data x !! ts) : gmap Z grid) !! c = Some g <-> (lv_data x !! ts ≫= (fun m0 => m0 !! c)) = Some g).
      { destruct (lv_data x !! ts); cbn; [reflexivity|]. rewrite lookup_empty. reflexivity. }
      rewrite Hd. split.
      * intros [K|[K1 K2]]; [left; auto|]. right. split; [|exact K2]. intros _. destruct (m !! c) as [f|] eqn:Em; [|reflexivity]. exfalso.
        destruct (HA _ _ Em) as [g' Hg']. assert (X : (list_to_map gs : gmap Z grid) !! c = Some g') by (apply HM; eauto). congruence.
      * intros [[_ K]|[K1 K2]]; [left; exact K|]. right. split; [|exact K2]. destruct ((list_to_map gs : gmap Z grid) !! c) as [g'|] eqn:Eg; [|reflexivity].
        apply HM in Eg as (f & F1 & _). rewrite K1 in F1 by reflexivity. discriminate F1.
    + rewrite lookup_insert_ne by congruence. split; [intros K; right; split; [congruence|exact K]|]. intros [[K _]|[_ K]]; [congruence|exact K].
  - assert (FD : forall l, first_detected l = None <-> forall c g, (c, g) ∈ l -> g_detected g = false).
    { clear. induction l as [|[c g] l IH]; cbn [first_detected]; [split; [intros _ c g K; apply elem_of_nil in K; contradiction|reflexivity]|]. destruct (g_detected g) eqn:D.
      - split; [discriminate|]. intros K. specialize (K c g ltac:(apply elem_of_list_here)). congruence.
      - rewrite IH. split; intros K c' g' K'; [|apply (K c'), elem_of_list_further, K']. apply elem_of_cons in K' as [K'|K']; [congruence|eauto]. }
    destruct (first_detected gs) as [t0|] eqn:F.
    + left. assert (t0 = ts) as -> by (eapply own_first; eauto). destruct E0 as (_ & E1 & v & E2 & E3). split; [|split; [exact E1|]].
      * destruct (List.Forall_Exists_dec (fun cg : Z * grid => g_detected (snd cg) = false)) with (l := gs) as [K|K].
        { intros [c g]. cbn. destruct (g_detected g); [right; discriminate|left; reflexivity]. }
        -- exfalso. assert (X : first_detected gs = None); [|congruence]. apply FD. intros c g Hg. rewrite List.Forall_forall in K. apply (K (c, g)). apply elem_of_list_In, Hg.
        -- apply List.Exists_exists in K as ([c g] & K1 & K2). cbn in K2. apply elem_of_list_In in K1. apply HI in K1 as (_ & f & F1 & F2). exists c, f, g. split; [exact F1|]. split; [exact F2|]. destruct (g_detected g); [reflexivity|congruence].
      * exists v. split; [exact E3|]. intros c. rewrite E2. unfold grid_of. rewrite assoc_map. split.
        -- intros f Hf. destruct (HA _ _ Hf) as [g Hg]. rewrite Hg. f_equal. assert (X : (list_to_map gs : gmap Z grid) !! c = Some g) by (apply HM; eauto). rewrite X. reflexivity.
        -- intros Hf. destruct ((list_to_map gs : gmap Z grid) !! c) as [g|] eqn:Eg; [|reflexivity]. apply HM in Eg as (f & F1 & _). congruence.
    + right. destruct E0 as [_ ->]. split; [|split; reflexivity]. intros (c & f & g & F1 & F2 & F3). rewrite FD in F. rewrite (F c g) in F3; [discriminate|]. apply HI. split; [apply sorted_keys_in; eauto|eauto].
Qed.

Lemma load_all_spec gd l : NoDup l -> forall x x', full gd ->
  (forall ts, ts ∈ l -> is_Some (gd !! ts)) ->
  (forall ts c f g, ts ∈ l -> at_ gd ts c = Some f -> load c f = Ret g -> g_ts g = ts) ->
  load_all blocks corners load env_of l gd x = Ret x' ->
  (forall ts, ts ∈ lv_ts x' <-> ts ∈ l \/ ts ∈ lv_ts x) /\
  (forall ts c g, held (lv_data x') ts c = Some g <->
     (ts ∈ l /\ exists f, at_ gd ts c = Some f /\ load c f = Ret g) \/ ((ts ∈ l -> at_ gd ts c = None) /\ held (lv_data x) ts c = Some g)) /\
  exists l', k_vts (lv_k x') = k_vts (lv_k x) ++ l' /\ l' `sublist_of` l /\
    (forall ts, ts ∈ l' <-> ts ∈ l /\ exists c f g, at_ gd ts c = Some f /\ load c f = Ret g /\ g_detected g = true) /\
    (forall ts, ts ∈ l' -> exists v, k_views (lv_k x') !! ts = Some v /\
       forall c, (forall f, at_ gd ts c = Some f -> load c f = Ret (v_grids v c)) /\ (at_ gd ts c = None -> v_grids v c = default_grid)) /\
    (forall ts, ts ∉ l' -> k_views (lv_k x') !! ts = k_views (lv_k x) !! ts).
Proof.
  induction 1 as [|ts0 l Hnin Hnd IH]; intros x x' Hfull Hin Hown H; cbn [load_all] in H.
  - injection H as <-. split; [intros ts; rewrite elem_of_nil; tauto|]. split; [intros ts c g; rewrite elem_of_nil; tauto|]. exists []. split; [rewrite app_nil_r; reflexivity|]. split; [constructor|].
    split; [intros ts; rewrite elem_of_nil; tauto|]. split; [intros ts K; apply elem_of_nil in K; contradiction|reflexivity].
  - ob H x1 E. destruct (Hin ts0 ltac:(apply elem_of_list_here)) as [m Hm]. rewrite Hm in E. cbn [default] in E.
    assert (At : forall c, at_ gd ts0 c = m !! c) by (intros c; unfold at_; rewrite Hm; reflexivity).
    apply load_view_spec in E; [|intros c f g F1 F2; eapply Hown; [apply elem_of_list_here|rewrite At; exact F1|exact F2]].
    destruct E as (A1 & A2 & A3 & A4).
    apply IH in H; [|exact Hfull|intros ts K; apply Hin, elem_of_list_further, K|intros ts c f g K; apply Hown, elem_of_list_further, K].
    destruct H as (B1 & B2 & l' & B3 & B4 & B5 & B6 & B7).
    assert (N0 : ts0 ∉ l') by (rewrite B5; tauto).
    split; [intros ts; rewrite B1, A1, elem_of_cons; set_solver|]. split.
    + intros ts c g. rewrite B2, A3, elem_of_cons. destruct (decide (ts = ts0)) as [->|N].
      * rewrite <- At. split.
        -- intros [[K1 _]|[_ [[_ K2]|[K2 K3]]]]; [contradiction|left; auto|]. right. split; [intros _; apply K2; reflexivity|exact K3].
        -- intros [[_ K2]|[K1 K2]]; (right; split; [intros K; contradiction|]); [left; auto|]. right. split; [auto|exact K2].
      * split.
        -- intros [[K1 K2]|[K1 [[K2 _]|[K2 K3]]]]; [left; auto|congruence|]. right. split; [intros [|]; [congruence|auto]|exact K3].
        -- intros [[[|K1] K2]|[K1 K2]]; [congruence|left; auto|]. right. split; [auto|]. right. split; [congruence|exact K2].
    + destruct A4 as [(D & V1 & v & V2' & V3)|(D & V1 & V2')].
      * exists (ts0 :: l'). split; [rewrite B3, V1, <- app_assoc; reflexivity|]. split; [constructor; exact B4|]. split.
        -- intros ts. rewrite !elem_of_cons, B5. split.
           ++ intros [->|[K1 K2]]; [|auto]. split; [left; reflexivity|]. destruct D as (c & f & g & D1 & D2). exists c, f, g. rewrite At. auto.
           ++ intros [[->|K1] K2]; [left; reflexivity|right; auto].
        -- split.
           ++ intros ts K. apply elem_of_cons in K as [->|K]; [|apply B6, K]. exists v. split; [rewrite B7 by exact N0; rewrite V2', lookup_insert; reflexivity|]. intros c. rewrite At. apply V3.
           ++ intros ts K. rewrite not_elem_of_cons in K. destruct K as [K1 K2]. rewrite B7 by exact K2. rewrite V2', lookup_insert_ne by congruence. reflexivity.
      * exists l'. split; [rewrite B3, V1; reflexivity|]. split; [constructor; exact B4|]. split.
        -- intros ts. rewrite elem_of_cons, B5. split; [tauto|]. intros [[->|K1] K2]; [|auto]. exfalso. apply D. destruct K2 as (c & f & g & D1 & D2). exists c, f, g. rewrite <- At. auto.
        -- split; [exact B6|]. intros ts K. rewrite B7 by exact K. rewrite V2'. reflexivity.
Qed.
End Loop.
