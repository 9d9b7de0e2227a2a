(** * Model of aprilgrid_t (yac/lib/util/aprilgrid.{hpp,cpp})

    Column 0 of the Eigen matrix [data] only ever holds 0.0 or 1.0 (written by
    add, load, setZero), so it is modelled as the Boolean [flag]; then
    [data(i,0) > 0], [data(i,0)] as condition and [data(i,0) <= 0] are [flag],
    [flag] and [negb flag]. Doubles are modelled as real numbers, C++ ints as Z
    (the sizes in question are far from 2^31).  assert() is compiled out. *)
From Coq Require Import Reals.
From Verif Require Import Base.
Local Open Scope Z_scope.

Definition kp2 := (R * R)%type.
Definition pt3 := (R * R * R)%type.

(** one row of [data]: column 0, columns 1-2, columns 3-5 (aprilgrid.hpp: data) *)
Record row := mkRow { flag : bool; rkp : kp2; robj : pt3 }.
Definition zero_row : row := mkRow false (0%R, 0%R) (0%R, 0%R, 0%R).

(** struct aprilgrid_t, aprilgrid.hpp 29-41 *)
Record grid := mkGrid {
  g_init : bool;
  g_ts : Z;
  g_rows : Z;
  g_cols : Z;
  g_size : R;
  g_spacing : R;
  g_detected : bool;
  g_nb : Z;
  g_data : list row
}.

Definition set_data (g : grid) (d : list row) : grid :=
  mkGrid (g_init g) (g_ts g) (g_rows g) (g_cols g) (g_size g) (g_spacing g)
         (g_detected g) (g_nb g) d.
Definition set_nb (g : grid) (n : Z) : grid :=
  mkGrid (g_init g) (g_ts g) (g_rows g) (g_cols g) (g_size g) (g_spacing g)
         (g_detected g) n (g_data g).
Definition set_detected (g : grid) (b : bool) : grid :=
  mkGrid (g_init g) (g_ts g) (g_rows g) (g_cols g) (g_size g) (g_spacing g)
         b (g_nb g) (g_data g).

Definition nrows (g : grid) : Z := g_rows g * g_cols g * 4.

(** aprilgrid_t() = default, aprilgrid.hpp 31-44 *)
Definition default_grid : grid := mkGrid false 0 0 0 0%R 0%R false 0 [].

(** aprilgrid_t(timestamp, tag_rows, ...), aprilgrid.cpp 14-21 *)
Definition new_grid (ts rows cols : Z) (size spacing : R) : grid :=
  mkGrid true ts rows cols size spacing false 0
         (repeat zero_row (Z.to_nat (rows * cols * 4))).

(** clear(), aprilgrid.cpp 23-27 (data.setZero() keeps the matrix size) *)
Definition clear (g : grid) : grid :=
  set_data (set_nb (set_detected g false) 0)
           (repeat zero_row (length (g_data g))).

(** fully_observable(), aprilgrid.cpp 29-32 *)
Definition fully_observable (g : grid) : bool := g_nb g =? g_rows g * g_cols g * 4.

(** has(tag_id, corner_idx), aprilgrid.cpp 34-42 *)
Definition has (g : grid) (t c : Z) : outcome bool :=
  omap flag (rd (g_data g) (t * 4 + c)).

(** center(), aprilgrid.cpp 44-56 *)
Definition center (g : grid) : kp2 :=
  let size := g_size g in
  let sp := g_spacing g in
  let x := (IZR (g_cols g) / 2 * size)%R in
  let x := (x + (IZR (g_cols g) / 2 - 1) * sp * size)%R in
  let x := (x + 1 / 2 * sp * size)%R in
  let y := (IZR (g_rows g) / 2 * size)%R in
  let y := (y + (IZR (g_rows g) / 2 - 1) * sp * size)%R in
  let y := (y + 1 / 2 * sp * size)%R in
  (x, y).

(** grid_index(tag_id, i, j), aprilgrid.cpp 58-69.  The first test is
    [tag_id > rows*cols] (not >=); integer division by zero is UB. *)
Definition grid_index (g : grid) (t : Z) : outcome (Z * Z) :=
  if t >? g_rows g * g_cols g then Throw Fatal
  else if t <? 0 then Throw Fatal
  else if g_cols g =? 0 then Undef
  else Ret (Z.quot t (g_cols g), Z.rem t (g_cols g)).

(** object_point(tag_id, corner_idx), aprilgrid.cpp 71-104 *)
Definition object_point (g : grid) (t c : Z) : outcome pt3 :=
  obind (grid_index g t) (fun ij =>
    let i := fst ij in
    let j := snd ij in
    let s := g_size g in
    let x := (IZR j * (s + s * g_spacing g))%R in
    let y := (IZR i * (s + s * g_spacing g))%R in
    match c with
    | 0 => Ret (x, y, 0%R)
    | 1 => Ret ((x + s)%R, y, 0%R)
    | 2 => Ret ((x + s)%R, (y + s)%R, 0%R)
    | 3 => Ret (x, (y + s)%R, 0%R)
    | _ => Throw Fatal
    end).

(** the loops [for (int i = 0; i < tag_rows*tag_cols*4; i++) if (data(i,0) > 0)]
    used by object_points, keypoints, get_measurements, estimate: the rows hit,
    with their index.  Reading row i when data has fewer rows is UB. *)
Fixpoint scan_rows (d : list row) (idx : list Z) : outcome (list (Z * row)) :=
  match idx with
  | [] => Ret []
  | i :: rest =>
      obind (rd d i) (fun r =>
        omap (fun l => if flag r then (i, r) :: l else l) (scan_rows d rest))
  end.
Definition scan (g : grid) : outcome (list (Z * row)) :=
  scan_rows (g_data g) (zrange (nrows g)).

(** object_points(), aprilgrid.cpp 106-117 *)
Definition object_points (g : grid) : outcome (list pt3) :=
  omap (map (fun ir => robj (snd ir))) (scan g).

(** keypoint(tag_id, corner_idx), aprilgrid.cpp 119-129 *)
Definition keypoint (g : grid) (t c : Z) : outcome kp2 :=
  obind (rd (g_data g) (t * 4 + c)) (fun r =>
    if flag r then Ret (rkp r) else Throw Fatal).

(** keypoints(), aprilgrid.cpp 131-142 *)
Definition keypoints (g : grid) : outcome (list kp2) :=
  omap (map (fun ir => rkp (snd ir))) (scan g).

(** The four output vectors of get_measurements. *)
Record meas := mkMeas {
  m_tags : list Z;
  m_corners : list Z;
  m_kps : list kp2;
  m_pts : list pt3
}.
Definition meas_nil := mkMeas [] [] [] [].

(** get_measurements(...), aprilgrid.cpp 144-163: appends to the vectors passed in *)
Definition get_measurements (g : grid) (m : meas) : outcome meas :=
  if negb (g_detected g) then Ret m
  else omap (fun l =>
         mkMeas (m_tags m ++ map (fun ir => Z.quot (fst ir) 4) l)
                (m_corners m ++ map (fun ir => Z.rem (fst ir) 4) l)
                (m_kps m ++ map (fun ir => rkp (snd ir)) l)
                (m_pts m ++ map (fun ir => robj (snd ir)) l))
       (scan g).

(** std::set<int>::insert, kept as a strictly ascending list *)
Fixpoint set_insert (x : Z) (l : list Z) : list Z :=
  match l with
  | [] => [x]
  | y :: t => if x <? y then x :: l else if x =? y then l else y :: set_insert x t
  end.

(** tag_ids(), aprilgrid.cpp 165-175 *)
Definition tag_ids (g : grid) : outcome (list Z) :=
  omap (fun l => fold_left (fun s ir => set_insert (Z.quot (fst ir) 4) s) l [])
       (scan g).

(** add(tag_id, corner_idx, kp), aprilgrid.cpp 177-192.  The flag and the counter
    are updated before object_point may throw. *)
Definition add (g : grid) (t c : Z) (kp : kp2) : status * grid :=
  let g1 := set_nb (set_detected g true) (g_nb g + 1) in
  let r := t * 4 + c in
  match object_point g1 t c with
  | Throw _ => (Thrown, g1)
  | Undef => (UB, g1)
  | Ret p =>
      match wr (g_data g1) r (mkRow true kp p) with
      | Ret d => (Done, set_data g1 d)
      | _ => (UB, g1)
      end
  end.

(** remove(tag_id, corner_idx), aprilgrid.cpp 194-205 *)
Definition remove (g : grid) (t c : Z) : status * grid :=
  let i := t * 4 + c in
  match rd (g_data g) i with
  | Ret r =>
      if flag r then
        let n := Z.max (g_nb g - 1) 0 in
        (Done, set_detected
                 (set_nb (set_data g (upd (g_data g) (Z.to_nat i) zero_row)) n)
                 (if n =? 0 then false else true))
      else (Done, g)
  | _ => (UB, g)
  end.

Definition seq_st (x : status * grid) (f : grid -> status * grid) : status * grid :=
  match x with
  | (Done, g) => f g
  | other => other
  end.

(** remove(tag_id), aprilgrid.cpp 207-214 *)
Definition remove_tag (g : grid) (t : Z) : status * grid :=
  seq_st (seq_st (seq_st (remove g t 0) (fun g => remove g t 1))
                 (fun g => remove g t 2))
         (fun g => remove g t 3).

(** std::set_symmetric_difference on ascending vectors, via
    yac/lib/util/data.hpp 270-279 *)
Fixpoint sym_diff (a : list Z) : list Z -> list Z :=
  fix go (b : list Z) : list Z :=
    match a, b with
    | [], _ => b
    | _, [] => a
    | x :: a', y :: b' =>
        if x <? y then x :: sym_diff a' b
        else if y <? x then y :: go b'
        else sym_diff a' b'
    end.

(** zero one row and decrement the counter if the row is set:
    aprilgrid.cpp 606-614 and 651-655 *)
Definition drop_row (g : grid) (i : Z) : outcome grid :=
  obind (rd (g_data g) i) (fun r =>
    if flag r then
      Ret (set_nb (set_data g (upd (g_data g) (Z.to_nat i) zero_row)) (g_nb g - 1))
    else Ret g).
Fixpoint drop_rows (g : grid) (l : list Z) : outcome grid :=
  match l with
  | [] => Ret g
  | i :: t => obind (drop_row g i) (fun g' => drop_rows g' t)
  end.

(** rows of [d] flagged among [idx] (aprilgrid.cpp 595-602) *)
Fixpoint flagged (d : list row) (idx : list Z) : outcome (list Z) :=
  match idx with
  | [] => Ret []
  | i :: rest =>
      obind (rd d i) (fun r =>
        omap (fun l => if flag r then i :: l else l) (flagged d rest))
  end.

(** intersect(grid1), aprilgrid.cpp 590-616.  Both objects are updated; the loop
    bound is this->tag_rows*tag_cols*4. *)
Definition intersect2 (g0 g1 : grid) : outcome (grid * grid) :=
  let idx := zrange (nrows g0) in
  obind (flagged (g_data g0) idx) (fun r0 =>
  obind (flagged (g_data g1) idx) (fun r1 =>
  let rm := sym_diff r0 r1 in
  obind (drop_rows g0 rm) (fun g0' =>
  obind (drop_rows g1 rm) (fun g1' => Ret (g0', g1'))))).

(** row_counter of the static intersect, aprilgrid.cpp 618-634: a std::map<int,int>
    initialised with the rows of grids[0]; here the list of (row, count) in key
    order.  [bump] is operator[] followed by +1. *)
Fixpoint bump (m : list (Z * Z)) (k : Z) : list (Z * Z) :=
  match m with
  | [] => [(k, 1)]
  | (k', v) :: t =>
      if k =? k' then (k', v + 1) :: t
      else if k <? k' then (k, 1) :: m
      else (k', v) :: bump t k
  end.
Definition count_grid (m : list (Z * Z)) (g : grid) : outcome (list (Z * Z)) :=
  omap (fun rs => fold_left bump rs m) (flagged (g_data g) (zrange (nrows g))).
Fixpoint count_grids (m : list (Z * Z)) (gs : list grid) : outcome (list (Z * Z)) :=
  match gs with
  | [] => Ret m
  | g :: t => obind (count_grid m g) (fun m' => count_grids m' t)
  end.
Fixpoint drop_all (gs : list grid) (rm : list Z) : outcome (list grid) :=
  match gs with
  | [] => Ret []
  | g :: t => obind (drop_rows g rm) (fun g' => omap (cons g') (drop_all t rm))
  end.
(** static intersect(grids), aprilgrid.cpp 618-657; grids[0] on an empty vector is UB *)
Definition intersect_many (gs : list grid) : outcome (list grid) :=
  match gs with
  | [] => Undef
  | g0 :: _ =>
      let m0 := map (fun i => (i, 0)) (zrange (nrows g0)) in
      obind (count_grids m0 gs) (fun m =>
        let rm := map fst (filter (fun kv => negb (snd kv =? Z.of_nat (length gs))) m) in
        drop_all gs rm)
  end.

(** common_measurements(grid_i, grid_j, ...), aprilgrid.cpp 700-726: rows loop over
    grid_i.data.rows(); reading grid_j beyond its rows is UB *)
Record cmeas := mkCMeas {
  c_tags : list Z; c_corners : list Z;
  c_kps_i : list kp2; c_kps_j : list kp2; c_pts : list pt3
}.
Fixpoint scan2 (di dj : list row) (idx : list Z) : outcome (list (Z * row * row)) :=
  match idx with
  | [] => Ret []
  | i :: rest =>
      obind (rd di i) (fun ri =>
        if flag ri then
          obind (rd dj i) (fun rj =>
            omap (fun l => if flag rj then (i, ri, rj) :: l else l) (scan2 di dj rest))
        else scan2 di dj rest)
  end.
Definition common_measurements (gi gj : grid) (m : cmeas) : outcome cmeas :=
  if negb (g_detected gi) || negb (g_detected gj) then Ret m
  else
    omap (fun l =>
      mkCMeas (c_tags m ++ map (fun x => Z.quot (fst (fst x)) 4) l)
              (c_corners m ++ map (fun x => Z.rem (fst (fst x)) 4) l)
              (c_kps_i m ++ map (fun x => rkp (snd (fst x))) l)
              (c_kps_j m ++ map (fun x => rkp (snd x)) l)
              (c_pts m ++ map (fun x => robj (snd (fst x))) l))
    (scan2 (g_data gi) (g_data gj) (zrange (Z.of_nat (length (g_data gi))))).

(** sample(n, ...), aprilgrid.cpp 659-698.  randi(0, k) is [rand() % k + 0]
    (core.cpp randi); the generator is a stream of non-negative numbers consumed
    two per iteration (tag, then corner); [fuel] bounds the number of loop
    iterations and [None] is "still looping".  std::set<std::string> sample_list of
    "tag-corner" strings is modelled by the list of pairs.  randi(0,0) is a
    remainder by zero: UB. *)
Record smp := mkSmp {
  s_tags : list Z; s_corners : list Z; s_kps : list kp2; s_pts : list pt3
}.
Definition pair_eqb (a b : Z * Z) : bool := (fst a =? fst b) && (snd a =? snd b).
Definition sampled (l : list (Z * Z)) (p : Z * Z) : bool := existsb (pair_eqb p) l.

Fixpoint sample_loop (fuel : nat) (g : grid) (tags : list Z) (limit : Z)
         (rnd : nat -> Z) (k : nat) (seen : list (Z * Z)) (o : smp)
  : option (outcome smp) :=
  match fuel with
  | O => None
  | S f =>
      if Z.of_nat (length (s_tags o)) <? limit then
        match tags with
        | [] => Some Undef
        | _ =>
            match rd tags (Z.rem (rnd k) (Z.of_nat (length tags))) with
            | Ret t =>
                let c := Z.rem (rnd (S k)) 4 in
                if sampled seen (t, c) then
                  sample_loop f g tags limit rnd (S (S k)) seen o
                else
                  match rd (g_data g) (t * 4 + c) with
                  | Ret r =>
                      let o' := if flag r
                                then mkSmp (s_tags o ++ [t]) (s_corners o ++ [c])
                                           (s_kps o ++ [rkp r]) (s_pts o ++ [robj r])
                                else o in
                      sample_loop f g tags limit rnd (S (S k)) ((t, c) :: seen) o'
                  | _ => Some Undef
                  end
            | _ => Some Undef
            end
        end
      else Some (Ret o)
  end.
Definition sample (fuel : nat) (g : grid) (n : Z) (rnd : nat -> Z) (o : smp)
  : option (outcome smp) :=
  if g_nb g =? 0 then Some (Ret o)
  else match tag_ids g with
       | Ret tags => sample_loop fuel g tags (Z.min (g_nb g) n) rnd 0 [] o
       | _ => Some Undef
       end.

(** Histories of mutating calls on one grid. *)
Inductive op :=
| OpAdd (t c : Z) (kp : kp2)
| OpRemove (t c : Z)
| OpRemoveTag (t : Z)
| OpClear.
Definition step (g : grid) (o : op) : status * grid :=
  match o with
  | OpAdd t c kp => add g t c kp
  | OpRemove t c => remove g t c
  | OpRemoveTag t => remove_tag g t
  | OpClear => (Done, clear g)
  end.
(** run a history; it stops at the first exception / UB *)
Fixpoint run (g : grid) (ops : list op) : status * grid :=
  match ops with
  | [] => (Done, g)
  | o :: t => match step g o with
              | (Done, g') => run g' t
              | other => other
              end
  end.
