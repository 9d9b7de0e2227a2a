(** * Specification vocabulary for AprilGrids (independent of the model's storage). *)
From Coq Require Import Reals.
From Verif Require Import Base AprilGridModel.
Local Open Scope Z_scope.

(** All corners (tag, corner) of a target, tag major, ascending. *)
Definition all_corners (rows cols : Z) : list (Z * Z) :=
  flat_map (fun t => [(t, 0); (t, 1); (t, 2); (t, 3)]) (zrange (rows * cols)).

Definition corner_in (rows cols t c : Z) : Prop := 0 <= t < rows * cols /\ 0 <= c < 4.

(** What a user believes a grid contains. *)
Definition content := Z -> Z -> option kp2.
Definition nothing : content := fun _ _ => None.
Definition present (m : content) (tc : Z * Z) : bool :=
  match m (fst tc) (snd tc) with Some _ => true | None => false end.
Definition spec_count (rows cols : Z) (m : content) : Z :=
  countb (present m) (all_corners rows cols).

(** Effect of one call on the content. *)
Definition spec_step (m : content) (o : op) : content :=
  match o with
  | OpAdd t c kp => fun t' c' => if (t' =? t) && (c' =? c) then Some kp else m t' c'
  | OpRemove t c => fun t' c' => if (t' =? t) && (c' =? c) then None else m t' c'
  | OpRemoveTag t => fun t' c' => if t' =? t then None else m t' c'
  | OpClear => nothing
  end.
Definition spec_run (ops : list op) (m : content) : content := fold_left spec_step ops m.

(** The call only names corners of the target. *)
Definition op_in (rows cols : Z) (o : op) : Prop :=
  match o with
  | OpAdd t c _ | OpRemove t c => corner_in rows cols t c
  | OpRemoveTag t => 0 <= t < rows * cols
  | OpClear => True
  end.

(** The call does not add a corner that is already there. *)
Definition op_fresh (m : content) (o : op) : Prop :=
  match o with OpAdd t c _ => m t c = None | _ => True end.
Fixpoint all_fresh (m : content) (ops : list op) : Prop :=
  match ops with
  | [] => True
  | o :: t => op_fresh m o /\ all_fresh (spec_step m o) t
  end.

(** Geometry of the printed target: tag t sits in column t mod cols, row t / cols,
    pitch size*(1+spacing); corners run counter clockwise from the bottom left. *)
Definition corner_point (cols : Z) (size spacing : R) (t c : Z) : pt3 :=
  let x0 := (IZR (t mod cols) * (size * (1 + spacing)))%R in
  let y0 := (IZR (t / cols) * (size * (1 + spacing)))%R in
  let dx := (if (c =? 1) || (c =? 2) then size else 0)%R in
  let dy := (if (c =? 2) || (c =? 3) then size else 0)%R in
  ((x0 + dx)%R, (y0 + dy)%R, 0%R).

(** The measurements a user expects: the present corners in ascending order. *)
Definition spec_meas (rows cols : Z) (m : content) : list (Z * Z * kp2) :=
  flat_map (fun tc => match m (fst tc) (snd tc) with
                      | Some kp => [(fst tc, snd tc, kp)]
                      | None => []
                      end) (all_corners rows cols).

(** Corners common to two contents, keypoints from the first. *)
Definition common (m0 m1 : content) : content :=
  fun t c => match m0 t c, m1 t c with
             | Some k, Some _ => Some k
             | _, _ => None
             end.
(** Corners common to all contents, keypoints from [m]. *)
Definition common_all (ms : list content) (m : content) : content :=
  fun t c => if forallb (fun m' => present m' (t, c)) ms then m t c else None.

(** ** Worlds: several grids of one target size, operated on individually and
    intersected with each other. *)
Inductive wop :=
| WOp (k : nat) (o : op)
| WIntersect (i j : nat)
| WIntersectAll.

(** implementation side; [None]: exception, UB or no such grid *)
Definition wstep (w : list grid) (o : wop) : option (list grid) :=
  match o with
  | WOp k o => match nth_error w k with
               | Some g => match step g o with
                           | (Done, g') => Some (upd w k g')
                           | _ => None
                           end
               | None => None
               end
  | WIntersect i j =>
      match nth_error w i, nth_error w j with
      | Some g0, Some g1 => match intersect2 g0 g1 with
                            | Ret (g0', g1') => Some (upd (upd w i g0') j g1')
                            | _ => None
                            end
      | _, _ => None
      end
  | WIntersectAll => match intersect_many w with Ret w' => Some w' | _ => None end
  end.
Fixpoint wrun (w : list grid) (ops : list wop) : option (list grid) :=
  match ops with
  | [] => Some w
  | o :: t => match wstep w o with Some w' => wrun w' t | None => None end
  end.

(** specification side *)
Definition wspec_step (ms : list content) (o : wop) : list content :=
  match o with
  | WOp k o => match nth_error ms k with
               | Some m => upd ms k (spec_step m o)
               | None => ms
               end
  | WIntersect i j =>
      match nth_error ms i, nth_error ms j with
      | Some m0, Some m1 => upd (upd ms i (common m0 m1)) j (common m1 m0)
      | _, _ => ms
      end
  | WIntersectAll => map (common_all ms) ms
  end.
Definition wspec_run (ops : list wop) (ms : list content) : list content :=
  fold_left wspec_step ops ms.

Definition wop_in (n : nat) (rows cols : Z) (o : wop) : Prop :=
  match o with
  | WOp k o => (k < n)%nat /\ op_in rows cols o
  | WIntersect i j => (i < n)%nat /\ (j < n)%nat /\ i <> j
  | WIntersectAll => (0 < n)%nat
  end.
Definition wop_fresh (ms : list content) (o : wop) : Prop :=
  match o with
  | WOp k o => match nth_error ms k with Some m => op_fresh m o | None => True end
  | _ => True
  end.
Fixpoint wall_fresh (ms : list content) (ops : list wop) : Prop :=
  match ops with
  | [] => True
  | o :: t => wop_fresh ms o /\ wall_fresh (wspec_step ms o) t
  end.

(** a world of freshly constructed grids (timestamps may differ) *)
Definition new_world (tss : list Z) (rows cols : Z) (size spacing : R) : list grid :=
  map (fun ts => new_grid ts rows cols size spacing) tss.

(** ** Shared corners of two contents, in ascending order, with both keypoints. *)
Definition spec_common (rows cols : Z) (mi mj : content) : list (Z * Z * kp2 * kp2) :=
  flat_map (fun tc => match mi (fst tc) (snd tc), mj (fst tc) (snd tc) with
                      | Some ki, Some kj => [(fst tc, snd tc, ki, kj)]
                      | _, _ => []
                      end) (all_corners rows cols).

(** ** Random sampling: what the k-th loop iteration draws, given the visible tags in
    ascending order and the stream of non-negative random numbers. *)
Definition draw (tags : list Z) (rnd : nat -> Z) (k : nat) : Z * Z :=
  (nth (Z.to_nat (rnd (2 * k)%nat mod Z.of_nat (length tags))) tags 0,
   rnd (2 * k + 1)%nat mod 4).
Definition visible (rows cols : Z) (m : content) (t : Z) : bool :=
  existsb (fun c => present m (t, c)) [0; 1; 2; 3].
Definition visible_tags (rows cols : Z) (m : content) : list Z :=
  filter (visible rows cols m) (zrange (rows * cols)).

(** ** The most recent call that concerns corner (t,c), looking backwards through the
    history (latest call first). *)
Fixpoint latest (rev_ops : list op) (t c : Z) : option kp2 :=
  match rev_ops with
  | [] => None
  | OpAdd t' c' kp :: r => if (t =? t') && (c =? c') then Some kp else latest r t c
  | OpRemove t' c' :: r => if (t =? t') && (c =? c') then None else latest r t c
  | OpRemoveTag t' :: r => if t =? t' then None else latest r t c
  | OpClear :: _ => None
  end.
