(** * yac/lib/util/fs.cpp: path helpers. Strings are character lists. *)
From Verif Require Import Base TextModel.
From Coq Require Import Ascii.
Open Scope Z_scope.

Definition slash : ascii := "/"%char.
Definition backslash : ascii := "\"%char.

Definition mem (c : ascii) (set : text) : bool := existsb (Ascii.eqb c) set.
(** std::string::find_first_of-style searches; [None] is npos. *)
Fixpoint find_first (p : ascii -> bool) (s : text) : option nat :=
  match s with
  | [] => None
  | c :: s' => if p c then Some 0%nat else option_map S (find_first p s')
  end.
Fixpoint find_last (p : ascii -> bool) (s : text) : option nat :=
  match s with
  | [] => None
  | c :: s' => match find_last p s' with
               | Some i => Some (S i)
               | None => if p c then Some 0%nat else None
               end
  end.
Definition find_last_of (s set : text) := find_last (fun c => mem c set) s.
Definition find_last_not_of (s set : text) := find_last (fun c => negb (mem c set)) s.
Definition find_first_not_of (s set : text) := find_first (fun c => negb (mem c set)) s.

(** fs.cpp 78-80 parse_fext: substr(npos) throws std::out_of_range *)
Definition parse_fext (path : text) : outcome text :=
  match find_last_of path [dot] with
  | None => Throw OutOfRange
  | Some i => Ret (skipn i path)
  end.
(** fs.cpp 82-90 parse_fname *)
Definition parse_fname (path : text) : text :=
  match find_last_of path [backslash; slash] with
  | None => path
  | Some i => skipn (i + 1) path
  end.
(** fs.cpp 123-126 dir_name: substr(0, npos) is the whole string *)
Definition dir_name (path : text) : text :=
  match find_last_of path [slash; backslash] with
  | None => path
  | Some i => firstn i path
  end.
(** fs.cpp 128-136 strip *)
Definition strip (s target : text) : text :=
  match find_first_not_of s target, find_last_not_of s target with
  | Some first, Some last => firstn (last - first + 1) (skipn first s)
  | _, _ => s
  end.
(** fs.cpp 138-141 strip_end: npos + 1 = 0 *)
Definition strip_end (s target : text) : text :=
  match find_last_not_of s target with
  | None => []
  | Some last => firstn (last + 1) s
  end.
(** fs.cpp 173-180 remove_ext *)
Definition remove_ext (path : text) : text :=
  match find_last (fun c => Ascii.eqb c dot) path with
  | None => path
  | Some i => firstn i path
  end.

(** fs.cpp 223-239 path_split; [s] is the current component *)
Fixpoint split_loop (path s : text) : list text :=
  match path with
  | [] => [s]
  | c :: path' =>
      if negb (match s with [] => true | _ => false end) && Ascii.eqb c slash then s :: split_loop path' []
      else if negb (Ascii.eqb c slash) then split_loop path' (s ++ [c])
      else split_loop path' s
  end.
Definition path_split (path : text) : list text := split_loop path [].

Fixpoint text_eqb (a b : text) : bool :=
  match a, b with
  | [], [] => true
  | x :: a', y :: b' => Ascii.eqb x y && text_eqb a' b'
  | _, _ => false
  end.
Definition dotdot : text := [dot; dot].
(** fs.cpp 252-257 *)
Definition count_up (splits : list text) : nat := length (filter (fun s => text_eqb s dotdot) splits).
(** fs.cpp 260-262: pop_back on an empty vector is undefined *)
Fixpoint pop_n (n : nat) (v : list text) : outcome (list text) :=
  match n with
  | O => Ret v
  | S n' => match v with [] => Undef | _ => pop_n n' (removelast v) end
  end.
(** fs.cpp 269-271 / 275-277 *)
Definition with_slashes (splits : list text) : text := concat (map (fun s => s ++ [slash]) splits).
(** fs.cpp 280-286: size_t i = length - 1; the empty string makes it wrap and reads
    far out of bounds. [r] is the reversed string. *)
Fixpoint drop_slashes (r : text) : text :=
  match r with
  | [] => []
  | c :: r' => match r' with
               | [] => r
               | _ => if Ascii.eqb c slash then drop_slashes r' else r
               end
  end.
Definition trim_slashes (result : text) : outcome text :=
  match result with
  | [] => Undef
  | _ => Ret (rev (drop_slashes (rev result)))
  end.
(** fs.cpp 241-289 paths_join *)
Definition paths_join (path1 path2 : text) : outcome text :=
  let splits1 := path_split path1 in
  let splits2 := path_split path2 in
  let dirs_up := count_up splits2 in
  obind (pop_n dirs_up splits1) (fun splits1 =>
  let result := (match path1 with c :: _ => if Ascii.eqb c slash then [slash] else [] | [] => [] end)
                ++ with_slashes splits1 ++ with_slashes (skipn dirs_up splits2) in
  trim_slashes result).

(** fs.cpp 50-76 file_copy (source readable, destination writable): the bytes written
    by the fread/fwrite loop; [n] is BUFSIZ, [fuel] bounds the iterations. *)
Fixpoint copy_loop (fuel n : nat) (src out : text) : option text :=
  match fuel with
  | O => None
  | S f => match firstn n src with
           | [] => Some out
           | chunk => copy_loop f n (skipn n src) (out ++ chunk)
           end
  end.
