(** * AprilGrid files and detection (yac/lib/util/aprilgrid.cpp) *)
From Coq Require Import Reals.
From Verif Require Import Base AprilGridModel.
Local Open Scope Z_scope.

(** ** save / load
    A data line of the CSV file after the header.  Numbers are kept as the values
    the text denotes: [fmt6] / [fmt10] stand for printing with "%f" / "%.10f" and
    reading back with "%lf"; the theorems quantify over them. *)
Record line := mkLine {
  l_ts : Z; l_rows : Z; l_cols : Z; l_size : R; l_spacing : R;
  l_kp : kp2; l_p : pt3; l_tag : Z; l_corner : Z
}.

Section IO.
Variables fmt6 fmt10 : R -> R.

(** save(), aprilgrid.cpp 297-342: one line per set row over all data.rows(), only
    if [detected].  (Directory creation / fopen failures, which return -1 without
    writing, are not modelled.) *)
Definition save_line (g : grid) (i : Z) (r : row) : line :=
  mkLine (g_ts g) (g_rows g) (g_cols g) (fmt6 (g_size g)) (fmt6 (g_spacing g))
         (fmt10 (fst (rkp r)), fmt10 (snd (rkp r)))
         (fmt6 (fst (fst (robj r))), fmt6 (snd (fst (robj r))), fmt6 (snd (robj r)))
         (Z.quot i 4) (Z.rem i 4).
Fixpoint save_rows (g : grid) (i : Z) (d : list row) : list line :=
  match d with
  | [] => []
  | r :: t => (if flag r then [save_line g i r] else []) ++ save_rows g (i + 1) t
  end.
Definition save (g : grid) : list line :=
  if g_detected g then save_rows g 0 (g_data g) else [].
End IO.

(** one iteration of the load loop, aprilgrid.cpp 371-424 (well-formed line) *)
Definition load_line (g : grid) (l : line) : status * grid :=
  let d0 := match g_data g with
            | [] => repeat zero_row (Z.to_nat (l_rows l * l_cols l * 4))
            | d => d
            end in
  let g1 := mkGrid (g_init g) (l_ts l) (l_rows l) (l_cols l) (l_size l) (l_spacing l)
                   (g_detected g) (g_nb g) d0 in
  match wr d0 (l_tag l * 4 + l_corner l) (mkRow true (l_kp l) (l_p l)) with
  | Ret d => (Done, mkGrid (g_init g) (l_ts l) (l_rows l) (l_cols l) (l_size l) (l_spacing l)
                           true (g_nb g + 1) d)
  | _ => (UB, g1)
  end.
Fixpoint load_lines (g : grid) (ls : list line) : status * grid :=
  match ls with
  | [] => (Done, mkGrid true (g_ts g) (g_rows g) (g_cols g) (g_size g) (g_spacing g)
                        (g_detected g) (g_nb g) (g_data g))
  | l :: t => seq_st (load_line g l) (fun g' => load_lines g' t)
  end.
(** load(), aprilgrid.cpp 345-431, on a file that opens and whose lines parse *)
Definition load (g : grid) (ls : list line) : status * grid := load_lines (clear g) ls.

(** ** detection *)
(** AprilTags::TagDetection: id, good, the four corners p[0..3] *)
Record tag := mkTag { t_id : Z; t_good : bool; t_p : list kp2 }.

(** aprilgrid.cpp 808-823 / 961-976: distance to the image border *)
Definition near_border (w h : R) (p : kp2) : bool :=
  (if Rlt_dec (fst p) 4 then true else false) ||
  (if Rlt_dec (w - 4) (fst p) then true else false) ||
  (if Rlt_dec (snd p) 4 then true else false) ||
  (if Rlt_dec (h - 4) (snd p) then true else false).

(** the test dist > max_subpix_disp with max_subpix_disp = sqrt 1.5,
    aprilgrid.cpp 842-854 / 990-1001 *)
Definition moved_far (a b : kp2) : bool :=
  if Rlt_dec (sqrt (3 / 2))
             (sqrt ((fst a - fst b) * (fst a - fst b) + (snd a - snd b) * (snd a - snd b)))
  then true else false.

Section Detect.
(** AprilTags::AprilGridDetector::extractTags and cv::cornerSubPix are oracles;
    std::sort by id is any function [srt] (the theorems assume it permutes). *)
Variable srt : list tag -> list tag.
Variable subpix : list kp2 -> list kp2.
Variables (rows cols : Z) (w h : R).

Definition tag_ok (t : tag) : bool :=
  t_good t && negb (rows * cols <=? t_id t) && negb (existsb (near_border w h) (t_p t)).

(** corners of one tag after refinement: (corner index, refined point, kept?) *)
Definition refined (t : tag) : list (Z * kp2 * bool) :=
  map (fun ibc => (fst ibc, snd (snd ibc), negb (moved_far (fst (snd ibc)) (snd (snd ibc)))))
      (combine (zrange 4) (combine (t_p t) (subpix (t_p t)))).

(** single image, aprilgrid.cpp 942-1016: a corner that moved too far is skipped *)
Definition tag_corners_single (t : tag) : list (Z * Z * kp2) :=
  if tag_ok t then
    flat_map (fun x : Z * kp2 * bool =>
                if snd x then [(t_id t, fst (fst x), snd (fst x))] else []) (refined t)
  else [].
(** worker thread, aprilgrid.cpp 796-871: the whole tag is dropped *)
Definition tag_corners_thread (t : tag) : list (Z * Z * kp2) :=
  if tag_ok t && forallb snd (refined t) then
    map (fun x : Z * kp2 * bool => (t_id t, fst (fst x), snd (fst x))) (refined t)
  else [].

Definition add_all (g : grid) (l : list (Z * Z * kp2)) : status * grid :=
  fold_left (fun s x => seq_st s (fun g => add g (fst (fst x)) (snd (fst x)) (snd x))) l (Done, g).

(** detect(ts, image, use_v3 = false), aprilgrid.cpp 899-1016;
    min_tags_threshold = max(rows, cols) + 1 (881) *)
Definition detect_single (g : grid) (tags : list tag) : status * grid :=
  let thr := Z.max rows cols + 1 in
  if Z.of_nat (length tags) <? thr then (Done, g)
  else
    let l := flat_map tag_corners_single (srt tags) in
    if Z.of_nat (length l) <? 4 * thr then (Done, g) else add_all g l.

(** aprilgrid_detect_thread, aprilgrid.cpp 764-876 *)
Definition detect_worker (g : grid) (tags : list tag) : status * grid :=
  if Z.of_nat (length tags) <? 4 then (Done, g)
  else
    let l := flat_map tag_corners_thread (srt tags) in
    if Z.of_nat (length l) <? 16 then (Done, g) else add_all g l.

(** use_v3 = true branch, aprilgrid.cpp 922-941: every detection is added *)
Definition v3_corners (t : tag) : list (Z * Z * kp2) :=
  map (fun ip => (t_id t, fst ip, snd ip)) (combine (zrange 4) (t_p t)).
Definition detect_v3 (g : grid) (tags : list tag) : status * grid :=
  add_all g (flat_map v3_corners tags).
End Detect.

(** ** detect(img_buffer): one thread per image, aprilgrid.cpp 1023-1066.
    A worker is a sequence of atomic updates of its own [grid] slot
    (aprilgrid_detect_data_t::grid: first the assignment of the fresh grid, 789, then
    one grid.add per kept corner, 870-873); a schedule is any interleaving of those
    updates, given as the list of worker indices in the order they move.  An exception
    inside a worker (image not grayscale) terminates the process and is not modelled. *)
Record thr := mkThr { th_grid : grid; th_todo : list (grid -> grid) }.
Definition thr_step (t : thr) : thr :=
  match th_todo t with
  | [] => t
  | f :: rest => mkThr (f (th_grid t)) rest
  end.
Fixpoint run_schedule (sched : list nat) (ts : list thr) : list thr :=
  match sched with
  | [] => ts
  | k :: rest =>
      match nth_error ts k with
      | Some t => run_schedule rest (upd ts k (thr_step t))
      | None => run_schedule rest ts
      end
  end.
(** pthread_join on all workers returns only when every worker is finished *)
Definition joined (ts : list thr) : bool :=
  forallb (fun t => match th_todo t with [] => true | _ => false end) ts.

(** std::map<int, aprilgrid_t>::operator[] assignment, ascending association list *)
Fixpoint map_set {V} (m : list (Z * V)) (k : Z) (v : V) : list (Z * V) :=
  match m with
  | [] => [(k, v)]
  | (k', v') :: t => if k <? k' then (k, v) :: m
                     else if k =? k' then (k, v) :: t
                     else (k', v') :: map_set t k v
  end.
(** the join loop 1054-1063 *)
Definition collect (cams : list Z) (slots : list grid) : list (Z * grid) :=
  fold_left (fun m cg => if g_detected (snd cg) then map_set m (fst cg) (snd cg) else m)
            (combine cams slots) [].
(** the updates of the worker for one image: fresh grid, then the adds *)
Definition worker_updates (fresh : grid) (l : list (Z * Z * kp2)) : list (grid -> grid) :=
  (fun _ => fresh) ::
  map (fun x g => snd (add g (fst (fst x)) (snd (fst x)) (snd x))) l.
(** [None]: the schedule given does not let all workers finish *)
Definition detect_many (imgs : list (Z * (grid * list (Z * Z * kp2)))) (sched : list nat)
  : option (list (Z * grid)) :=
  let ts := map (fun im => mkThr default_grid
                   (worker_updates (fst (snd im)) (snd (snd im)))) imgs in
  let ts' := run_schedule sched ts in
  if joined ts' then Some (collect (map fst imgs) (map th_grid ts')) else None.

(** ** fiducial_corners_t, calib_params.cpp 237-280: std::map<int, std::map<int, corner>>
    as nested association lists; only the position p_FFi of a corner is kept. *)
Definition fiducial_corners (rows cols : Z) (size spacing : R) : list (Z * list (Z * pt3)) :=
  map (fun t =>
         let i := Z.quot t cols in
         let j := Z.rem t cols in
         let x := (IZR j * (size + size * spacing))%R in
         let y := (IZR i * (size + size * spacing))%R in
         (t, [(0, (x, y, 0%R)); (1, ((x + size)%R, y, 0%R));
              (2, ((x + size)%R, (y + size)%R, 0%R)); (3, (x, (y + size)%R, 0%R))]))
      (zrange (rows * cols)).
Fixpoint assoc {V} (k : Z) (m : list (Z * V)) : option V :=
  match m with
  | [] => None
  | (k', v) :: t => if k =? k' then Some v else assoc k t
  end.
(** get_corner(tag_id, corner_idx), calib_params.cpp 268-277 *)
Definition get_corner (m : list (Z * list (Z * pt3))) (t c : Z) : outcome pt3 :=
  match assoc t m with
  | None => Throw Fatal
  | Some cs => match assoc c cs with None => Throw Fatal | Some p => Ret p end
  end.
