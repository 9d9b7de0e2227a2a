(** * yac/lib/util/config.hpp, config.cpp: reading parameters from YAML
    yaml-cpp is modelled by its documented behaviour: [node[key]] of a missing
    key is an undefined node, [.as<T>()] of an undefined node or of a scalar that
    does not convert throws. A scalar carries the results of its conversions to
    double and int. Not modelled: the insertion of null entries by look-ups on
    non-const nodes, aliases, integer keys of maps. *)
From Verif Require Import Base.
From Coq Require Import Reals String.
Open Scope nat_scope.

Inductive yaml :=
| YUndef
| YScalar (d : option R) (i : option Z)
| YSeq (l : list yaml)
| YMap (l : list (string * yaml)).

Definition is_defined (n : yaml) : bool := match n with YUndef => false | _ => true end.
(** node.size() *)
Definition ysize (n : yaml) : nat :=
  match n with YSeq l => List.length l | YMap l => List.length l | _ => 0 end.
(** node[i] *)
Definition yat (n : yaml) (i : nat) : outcome yaml :=
  match n with
  | YSeq l => Ret (nth i l YUndef)
  | YScalar _ _ => Throw StdExn
  | _ => Ret YUndef
  end.
(** node["key"] *)
Fixpoint ylookup (l : list (string * yaml)) (k : string) : yaml :=
  match l with
  | [] => YUndef
  | (k', v) :: l' => if String.eqb k' k then v else ylookup l' k
  end.
Definition yfield (n : yaml) (k : string) : outcome yaml :=
  match n with
  | YMap l => Ret (ylookup l k)
  | YScalar _ _ => Throw StdExn
  | _ => Ret YUndef
  end.
Definition as_real (n : yaml) : outcome R :=
  match n with YScalar (Some x) _ => Ret x | _ => Throw StdExn end.
Definition as_int (n : yaml) : outcome Z :=
  match n with YScalar _ (Some x) => Ret x | _ => Throw StdExn end.

(** config.cpp 32-67 yaml_get_node: the key is the list of its elements between dots.
    [Ret None] is the return value -1. *)
Fixpoint descend (n : yaml) (key : list string) : outcome yaml :=
  match key with
  | [] => Ret n
  | k :: key' => obind (yfield n k) (fun n' => descend n' key')
  end.
Definition yaml_get_node (root : yaml) (key : list string) (optional : bool) : outcome (option yaml) :=
  obind (descend root key) (fun n =>
  if is_defined n then Ret (Some n)
  else if optional then Ret None else Throw Fatal).
(** config.cpp 69-98 yaml_has_key *)
Definition yaml_has_key (root : yaml) (key : list string) : outcome Z :=
  obind (descend root key) (fun n => Ret (if is_defined n then 1%Z else 0%Z)).

(** config.hpp 164-211 yaml_check_vector for a type of [vector_size] entries *)
Definition yaml_check_vector (n : yaml) (vector_size : nat) : outcome nat :=
  if (ysize n =? 0) && negb (ysize n =? vector_size) then Throw Fatal else Ret vector_size.

(** Reading node[0] ... node[k-1] in order. *)
Fixpoint read_seq {T} (as_ : yaml -> outcome T) (n : yaml) (i k : nat) : outcome (list T) :=
  match k with
  | 0 => Ret []
  | S k' => obind (yat n i) (fun e => obind (as_ e) (fun v =>
            obind (read_seq as_ n (S i) k') (fun vs => Ret (v :: vs))))
  end.
(** config.cpp 118-160, 186-233: parse of vec2_t, vec3_t, vec4_t, veci2_t, veci3_t,
    veci4_t ([size] = 2, 3, 4). The old value [out] is kept when -1 is returned. *)
Definition parse_vec {T} (as_ : yaml -> outcome T) (size : nat) (root : yaml) (key : list string)
  (out : list T) (optional : bool) : outcome (Z * list T) :=
  obind (yaml_get_node root key optional) (fun on =>
  match on with
  | None => Ret ((-1)%Z, out)
  | Some n =>
      obind (yaml_check_vector n size) (fun _ =>
      obind (read_seq as_ n 0 size) (fun v => Ret (0%Z, v)))
  end).
(** config.cpp 165-184, 235-253: vecx_t, vecix_t *)
Definition parse_vecx {T} (as_ : yaml -> outcome T) (root : yaml) (key : list string)
  (out : list T) (optional : bool) : outcome (Z * list T) :=
  obind (yaml_get_node root key optional) (fun on =>
  match on with
  | None => Ret ((-1)%Z, out)
  | Some n => obind (read_seq as_ n 0 (ysize n)) (fun v => Ret (0%Z, v))
  end).

(** config.cpp 100-116 yaml_check_matrix_fields *)
Definition check_fields (n : yaml) : outcome (Z * Z * yaml) :=
  obind (yfield n "rows") (fun r => obind (yfield n "cols") (fun c => obind (yfield n "data") (fun d =>
  if is_defined r && is_defined c && is_defined d then
    obind (as_int r) (fun rows => obind (as_int c) (fun cols => Ret (rows, cols, d)))
  else Throw Fatal))).
(** config.hpp 213-248 yaml_check_matrix; [fixed = Some k]: a type with k entries;
    [None]: matx_t / cv::Mat, the expected number is the number found *)
Definition yaml_check_matrix (n : yaml) (fixed : option nat) : outcome (Z * Z * yaml) :=
  obind (check_fields n) (fun f =>
  let d := snd f in
  let nb_elements := match fixed with Some k => k | None => ysize d end in
  if negb (ysize d =? nb_elements) then Throw Fatal else Ret f).
(** config.cpp 255-327: mat2_t, mat3_t, mat4_t ([size] = 2, 3, 4), entries row by row *)
Definition parse_mat (size : nat) (root : yaml) (key : list string) (out : list R) (optional : bool)
  : outcome (Z * list R) :=
  obind (yaml_get_node root key optional) (fun on =>
  match on with
  | None => Ret ((-1)%Z, out)
  | Some n =>
      obind (yaml_check_matrix n (Some (size * size))) (fun f =>
      obind (read_seq as_real (snd f) 0 (size * size)) (fun v => Ret (0%Z, v)))
  end).
(** config.cpp 329-354 matx_t, 356-382 cv::Mat: (rows, cols, entries row by row).
    Negative rows or columns become huge unsigned numbers (no normal return). *)
Definition parse_matx (root : yaml) (key : list string) (out : Z * Z * list R) (optional : bool)
  : outcome (Z * (Z * Z * list R)) :=
  obind (yaml_get_node root key optional) (fun on =>
  match on with
  | None => Ret ((-1)%Z, out)
  | Some n =>
      obind (yaml_check_matrix n None) (fun f =>
      let '(rows, cols, d) := f in
      if ((rows <? 0) || (cols <? 0))%Z then Undef
      else obind (read_seq as_real d 0 (Z.to_nat rows * Z.to_nat cols)) (fun v => Ret (0%Z, (rows, cols, v))))
  end).
(** config.hpp 260-278 parse<T>: every std::exception becomes FATAL *)
Definition refatal {T} (x : outcome T) : outcome T := match x with Throw _ => Throw Fatal | o => o end.
Definition parse_scalar {T} (as_ : yaml -> outcome T) (root : yaml) (key : list string) (out : T) (optional : bool)
  : outcome (Z * T) :=
  refatal (obind (yaml_get_node root key optional) (fun on =>
  match on with
  | None => Ret ((-1)%Z, out)
  | Some n => obind (as_ n) (fun v => Ret (0%Z, v))
  end)).
(** config.hpp 280-303 parse<std::vector<T>>: elements are appended to [out]; iterating
    a scalar or a null yields nothing, iterating a map yields pairs, which do not convert *)
Definition elements (n : yaml) : list yaml :=
  match n with YSeq l => l | YMap l => map (fun _ => YUndef) l | _ => [] end.
Fixpoint append_all {T} (as_ : yaml -> outcome T) (l : list yaml) (out : list T) : outcome (list T) :=
  match l with
  | [] => Ret out
  | e :: l' => obind (as_ e) (fun v => append_all as_ l' (out ++ [v]))
  end.
Definition parse_vector {T} (as_ : yaml -> outcome T) (root : yaml) (key : list string) (out : list T) (optional : bool)
  : outcome (Z * list T) :=
  refatal (obind (yaml_get_node root key optional) (fun on =>
  match on with
  | None => Ret ((-1)%Z, out)
  | Some n => obind (append_all as_ (elements n) out) (fun v => Ret (0%Z, v))
  end)).
