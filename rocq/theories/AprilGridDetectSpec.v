(** * Specification vocabulary for AprilGrid detection *)
From Coq Require Import Reals.
From Verif Require Import Base AprilGridModel AprilGridSpec AprilGridIOModel.
Local Open Scope Z_scope.

(** at least four pixels away from the border of a w x h image *)
Definition inside (w h : R) (p : kp2) : Prop :=
  (4 <= fst p <= w - 4)%R /\ (4 <= snd p <= h - 4)%R.

(** a tag the detector may use *)
Definition usable (rows cols : Z) (w h : R) (t : tag) : Prop :=
  t_good t = true /\ t_id t < rows * cols /\ Forall (inside w h) (t_p t).

(** corner c of the tag, refined to kp by at most sqrt(1.5) pixels *)
Definition refined_to (subpix : list kp2 -> list kp2) (t : tag) (c : Z) (kp : kp2) : Prop :=
  exists raw, nth_error (t_p t) (Z.to_nat c) = Some raw /\
              nth_error (subpix (t_p t)) (Z.to_nat c) = Some kp /\
              (sqrt ((fst raw - fst kp) * (fst raw - fst kp) + (snd raw - snd kp) * (snd raw - snd kp))
                 <= sqrt (3 / 2))%R.

(** what the single-image detector keeps of a tag / what the worker thread keeps *)
Definition single_keeps rows cols w h subpix (t : tag) (c : Z) (kp : kp2) : Prop :=
  usable rows cols w h t /\ 0 <= c < 4 /\ refined_to subpix t c kp.
Definition worker_keeps rows cols w h subpix (t : tag) (c : Z) (kp : kp2) : Prop :=
  single_keeps rows cols w h subpix t c kp /\
  forall c', 0 <= c' < 4 -> exists kp', refined_to subpix t c' kp'.

(** a well formed detection list: ids are not negative, four corners per tag *)
Definition wf_tags (tags : list tag) : Prop :=
  Forall (fun t => 0 <= t_id t /\ length (t_p t) = 4%nat) tags.

(** lookup in a map given as association list *)
Fixpoint lookup {V} (k : Z) (m : list (Z * V)) : option V :=
  match m with
  | [] => None
  | (k', v) :: t => if k =? k' then Some v else lookup k t
  end.
