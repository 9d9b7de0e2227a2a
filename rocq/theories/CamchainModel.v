(** * camchain_t (yac/lib/calib_camera.cpp 7-155, yac/lib/calib_camera.hpp 17-42).
    std::map is a std++ finite map. *)
From Verif Require Import Base.
From stdpp Require Import gmap list.
From Verif Require Import GeomModel.
Local Open Scope Z_scope.

(** calib_camera.hpp 18-19 *)
Record camchain := mkChain {
  adj_list : gmap Z (list Z);
  exts : gmap Z (gmap Z mat4) }.
(** clear, calib_camera.cpp 152-155 (also the default-constructed members) *)
Definition chain_empty : camchain := mkChain ∅ ∅.

(** contains, 85-87 *)
Definition contains (c : camchain) (i j : Z) : bool :=
  match exts c !! i with
  | Some m => match m !! j with Some _ => true | None => false end
  | None => false
  end.

(** [exts[i][j] = T]: std::map operator[] default-inserts missing keys *)
Definition put (e : gmap Z (gmap Z mat4)) (i j : Z) (T : mat4) : gmap Z (gmap Z mat4) :=
  <[i := <[j := T]> (default ∅ (e !! i))]> e.
(** [adj_list[i].push_back(j)] *)
Definition push (a : gmap Z (list Z)) (i j : Z) : gmap Z (list Z) :=
  <[i := default [] (a !! i) ++ [j]]> a.

(** insert, 72-83 *)
Definition insert_ext (c : camchain) (i j : Z) (T : mat4) : camchain :=
  if contains c i j then c
  else mkChain (push (push (adj_list c) i j) j i)
               (put (put (exts c) i j T) j i (tf_inv T)).

(** ** find, 89-150.  [visited], [path_map] as std::map; [.at] on a missing key throws
    std::out_of_range. *)
Record bfs := mkBfs { b_visited : gmap Z bool; b_path : gmap Z Z; b_queue : list Z; b_found : bool }.

(** the inner loop over the children, 119-132; [None] = exception *)
Fixpoint bfs_children (tgt parent : Z) (cs : list Z) (s : bfs) : option bfs :=
  match cs with
  | [] => Some s
  | ch :: cs' =>
      match b_visited s !! ch with
      | None => None                                   (* visited.at(child) throws *)
      | Some true => bfs_children tgt parent cs' s
      | Some false =>
          let s' := mkBfs (b_visited s) (<[ch := parent]> (b_path s)) (b_queue s ++ [ch]) (b_found s) in
          if ch =? tgt then Some (mkBfs (b_visited s') (b_path s') (b_queue s') true)
          else bfs_children tgt parent cs' s'
      end
  end.
(** the outer loop, 114-133.  [fuel] bounds the number of iterations; running out of fuel is
    reported as [None] in the outer option (no theorem depends on it: the loop never gets
    past its first iteration) *)
Fixpoint bfs_loop (fuel : nat) (a : gmap Z (list Z)) (tgt : Z) (s : bfs) : option (outcome bfs) :=
  match fuel with
  | O => None
  | S fuel' =>
      match b_queue s with
      | [] => Some (Ret s)
      | parent :: q =>
          match b_visited s !! parent with
          | None => Some (Throw OutOfRange)            (* visited.at(parent) = true throws *)
          | Some _ =>
              let s1 := mkBfs (<[parent := true]> (b_visited s)) (b_path s) q (b_found s) in
              match a !! parent with
              | None => Some (Throw OutOfRange)
              | Some cs =>
                  match bfs_children tgt parent cs s1 with
                  | None => Some (Throw OutOfRange)
                  | Some s2 => bfs_loop fuel' a tgt s2
                  end
              end
          end
      end
  end.
(** chaining back along path_map, 141-147 *)
Fixpoint chain_back (fuel : nat) (e : gmap Z (gmap Z mat4)) (path : gmap Z Z) (child : Z) (T : mat4)
  : option (outcome mat4) :=
  match fuel with
  | O => None
  | S fuel' =>
      match path !! child with
      | None => Some (Ret T)
      | Some parent =>
          match e !! child with
          | None => Some (Throw OutOfRange)
          | Some m => match m !! parent with
                      | None => Some (Throw OutOfRange)
                      | Some T' => chain_back fuel' e path parent (mmul4 T T')
                      end
          end
      end
  end.
(** find: returns (return code, value left in the output argument [T0]) *)
Definition find (fuel : nat) (c : camchain) (i j : Z) (T0 : mat4) : option (outcome (Z * mat4)) :=
  if i =? j then Some (Ret (0, I4))
  else match exts c !! i, exts c !! j with
  | None, _ | _, None => Some (Ret (-1, T0))
  | Some mi, Some _ =>
      match mi !! j with
      | Some T => Some (Ret (0, T))
      | None =>
          match bfs_loop fuel (adj_list c) j (mkBfs ∅ ∅ [i] false) with
          | None => None
          | Some (Throw e) => Some (Throw e)
          | Some Undef => Some Undef
          | Some (Ret s) =>
              if b_found s then
                match chain_back fuel (exts c) (b_path s) j I4 with
                | None => None
                | Some (Ret T) => Some (Ret (0, tf_inv T))
                | Some (Throw e) => Some (Throw e)
                | Some Undef => Some Undef
                end
              else Some (Ret (-2, T0))
          end
      end
  end.

(** ** Constructor, 7-53.  A camera_data_t is a list of (timestamp, cameras at that time), both
    levels in std::map (ascending) order. *)
Record view := mkView { detected : bool; nb_detections : Z; view_id : Z }.
Definition cam_data := list (Z * list (Z * view)).

(** _get_aprilgrids, 55-70 *)
Definition get_aprilgrids (vs : list (Z * view)) : list (Z * view) :=
  List.filter (fun v => negb (negb (detected (snd v)) && (nb_detections (snd v) <? 12))) vs.

Section Ctor.
(** grid.estimate(geom, res, params, T) with the geometry and parameters of a camera
    (PnP: external), [None] = non-zero return code *)
Context (estimate : Z -> view -> option mat4).
(** cam_params.at / cam_geoms.at: the cameras that have parameters *)
Context (known : Z -> bool).

(** loop over the other cameras, 31-51 *)
Fixpoint link (ci : Z) (gi : view) (vs : list (Z * view)) (c : camchain) : outcome camchain :=
  match vs with
  | [] => Ret c
  | (cj, gj) :: vs' =>
      if known cj then
        if contains c ci cj then link ci gi vs' c
        else match estimate ci gi with
        | None => Throw Fatal
        | Some TiF =>
            match estimate cj gj with
            | None => Throw Fatal
            | Some TjF => link ci gi vs' (insert_ext c ci cj (mmul4 TiF (tf_inv TjF)))
            end
        end
      else Throw OutOfRange
  end.
Definition step_ts (vs : list (Z * view)) (c : camchain) : outcome camchain :=
  match get_aprilgrids vs with
  | (ci, gi) :: ((_ :: _) as rest) =>
      if known ci then link ci gi rest c else Throw OutOfRange
  | _ => Ret c
  end.
Fixpoint build (d : cam_data) (c : camchain) : outcome camchain :=
  match d with
  | [] => Ret c
  | (_, vs) :: d' => match step_ts vs c with
                     | Ret c' => build d' c'
                     | Throw e => Throw e
                     | Undef => Undef
                     end
  end.
Definition camchain_ctor (d : cam_data) : outcome camchain := build d chain_empty.
End Ctor.
