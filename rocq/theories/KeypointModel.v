(** * Key point selection (yac/lib/util/cv.cpp 59-86, 460-572)
    OpenCV's detectors are arbitrary functions of the region; pixel coordinates are exact reals. *)
From Verif Require Import Base GeomModel StatsModel.
From Coq Require Import Reals Permutation Sorted.
From Flocq Require Import Core.Core.
Local Open Scope Z_scope.

(** cv::KeyPoint: position and response (the other fields are copied along) *)
Record keypoint := Kp { kp_pt : vec2; kp_response : R }.

(** sort_keypoints, cv.cpp 59-86. Line 68 stores the responses as int (truncation). cv::sortIdx
    returns the indices in descending order of those integers; the order among equal ones is not
    specified, so the function is a relation. The loop stops when the size equals [limit]. *)
Definition int_response (k : keypoint) : Z := Ztrunc (kp_response k).
Definition take_limit {A} (limit : nat) (l : list A) : list A :=
  match limit with O => l | _ => firstn limit l end.
Definition sort_keypoints (kps : list keypoint) (limit : nat) (out : list keypoint) : Prop :=
  exists index : list nat, Permutation index (seq 0 (length kps)) /\
    StronglySorted (fun i j => forall a b, nth_error kps i = Some a -> nth_error kps j = Some b ->
                                           int_response b <= int_response a) index /\
    exists sorted, Forall2 (fun i k => nth_error kps i = Some k) index sorted /\
    out = take_limit limit sorted.

(** The loop [for (int x = 0; x < n; x += d)]: the values of x, if it terminates (ints are taken
    not to overflow) *)
Inductive for_steps (d n : Z) : Z -> list Z -> Prop :=
| for_stop x : ~ x < n -> for_steps d n x []
| for_next x l : x < n -> for_steps d n (x + d) l -> for_steps d n x (x :: l).

(** cv.cpp 469-475 / 526-532: cell sizes and the limit per cell, computed in single precision.
    Integer division by zero is undefined. *)
Definition cell_size (size cells : Z) : outcome Z := if cells =? 0 then Undef else Ret (Z.quot size cells).
Definition max_per_cell (max_keypoints grid_rows grid_cols : Z) : Z :=
  Zceil (b32 (b32 (IZR max_keypoints) / b32 (IZR (grid_rows * grid_cols)))).
(** cv.cpp 482-486: the region of a cell *)
Record roi := Roi { roi_x : Z; roi_y : Z; roi_w : Z; roi_h : Z }.
Definition cell_roi (dx dy width height x y : Z) : roi :=
  Roi x y (if x + dx >? width then width - x else dx) (if y + dy >? height then height - y else dy).
(** cv.cpp 494-506 / 556-567: shift and keep until the counter reaches the limit; at least one is
    kept if there is one *)
Definition keep_cell (x y : Z) (m : Z) (pts : list vec2) : list vec2 :=
  firstn (Nat.max 1 (Z.to_nat m)) (map (fun p => V2 (v2x p + IZR x) (v2y p + IZR y)) pts).

(** grid_fast, cv.cpp 460-511 (cv::FAST on a region: [fast]) and grid_good, cv.cpp 513-572
    (cv::goodFeaturesToTrack: [good]). The result is a relation because of the sort and because
    the loops may not terminate. The image is taken to be non-empty. *)
Definition cells (xs ys : list Z) : list (Z * Z) := flat_map (fun x => map (fun y => (x, y)) ys) xs.
Definition grid_fast (fast : roi -> list keypoint) (width height max_keypoints grid_rows grid_cols : Z)
    (out : list vec2) : Prop :=
  exists dx dy xs ys parts, cell_size width grid_cols = Ret dx /\ cell_size height grid_rows = Ret dy /\
    for_steps dx width 0 xs /\ for_steps dy height 0 ys /\
    Forall2 (fun c part => exists sorted, sort_keypoints (fast (cell_roi dx dy width height (fst c) (snd c))) 0 sorted /\
       part = keep_cell (fst c) (snd c) (max_per_cell max_keypoints grid_rows grid_cols) (map kp_pt sorted))
      (cells xs ys) parts /\
    out = concat parts.
Definition grid_good (good : roi -> list vec2) (width height max_keypoints grid_rows grid_cols : Z)
    (out : list vec2) : Prop :=
  exists dx dy xs ys, cell_size width grid_cols = Ret dx /\ cell_size height grid_rows = Ret dy /\
    for_steps dx width 0 xs /\ for_steps dy height 0 ys /\
    out = flat_map (fun c => keep_cell (fst c) (snd c) (max_per_cell max_keypoints grid_rows grid_cols)
                               (good (cell_roi dx dy width height (fst c) (snd c)))) (cells xs ys).
