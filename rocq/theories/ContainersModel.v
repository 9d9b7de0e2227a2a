(** * Timeline and container helpers
    (yac/lib/util/timeline.{hpp,cpp}, yac/lib/util/data.hpp).
    Elements of ordered containers are modelled as Z (any totally ordered key). *)
From Verif Require Import Base AprilGridModel.
Local Open Scope Z_scope.

(** ** timeline_t, timeline.hpp 79-101: std::set of timestamps and a multimap, kept as
    the list in iteration order.  [E] is the type of event pointers; a `new` expression
    yields a pointer the caller has not seen, which the histories below represent by
    distinct events. *)
Section Timeline.
Context {E : Type}.
Record timeline := mkTl { tl_ts : list Z; tl_data : list (Z * E) }.
Definition tl_new : timeline := mkTl [] [].

(** std::multimap::insert places the element at the upper bound of its key *)
Fixpoint mm_insert (k : Z) (e : E) (d : list (Z * E)) : list (Z * E) :=
  match d with
  | [] => [(k, e)]
  | (k', e') :: t => if k <? k' then (k, e) :: d else (k', e') :: mm_insert k e t
  end.
(** the five add() overloads, timeline.cpp 13-47 *)
Definition tl_add (t : timeline) (ts : Z) (e : E) : timeline :=
  mkTl (set_insert ts (tl_ts t)) (mm_insert ts e (tl_data t)).

(** std::multimap::equal_range: [first not less than k, first greater than k) *)
Fixpoint drop_less (k : Z) (d : list (Z * E)) : list (Z * E) :=
  match d with
  | [] => []
  | (k', e) :: t => if k' <? k then drop_less k t else d
  end.
Fixpoint take_not_greater (k : Z) (d : list (Z * E)) : list (Z * E) :=
  match d with
  | [] => []
  | (k', e) :: t => if k <? k' then [] else (k', e) :: take_not_greater k t
  end.
Definition equal_range (k : Z) (d : list (Z * E)) : list (Z * E) := take_not_greater k (drop_less k d).

(** get_events, timeline.cpp 54-63; nb_events, 49-52 *)
Definition get_events (t : timeline) (ts : Z) : list E := map snd (equal_range ts (tl_data t)).
Definition nb_events (t : timeline) (ts : Z) : Z := Z.of_nat (length (equal_range ts (tl_data t))).
(** ~timeline_t, timeline.cpp 7-11: the sequence of deletes *)
Definition tl_deletes (t : timeline) : list E := map snd (tl_data t).
Definition tl_run (h : list (Z * E)) : timeline :=
  fold_left (fun t x => tl_add t (fst x) (snd x)) h tl_new.
End Timeline.
Arguments timeline E : clear implicits.

(** ** ordered_set_t, data.hpp 309-340: the vector and the std::set *)
Record oset := mkOset { os_vec : list Z; os_set : list Z }.
Definition os_new := mkOset [] [].
(** std::set::count *)
Fixpoint set_count (x : Z) (s : list Z) : Z :=
  match s with [] => 0 | y :: t => if x =? y then 1 else set_count x t end.
(** insert, data.hpp 322-325: set.insert(item).second is true iff it was absent *)
Definition os_insert (o : oset) (x : Z) : oset :=
  if set_count x (os_set o) =? 0
  then mkOset (os_vec o ++ [x]) (set_insert x (os_set o)) else o.
Definition os_count (o : oset) (x : Z) : Z := set_count x (os_set o).
Definition os_empty (o : oset) : bool := match os_set o with [] => true | _ => false end.
Definition os_size (o : oset) : Z := Z.of_nat (length (os_set o)).
Definition os_at (o : oset) (i : Z) : outcome Z := at_ (os_vec o) i.
Definition os_front (o : oset) : outcome Z := rd (os_vec o) 0.
Definition os_back (o : oset) : outcome Z := rd (os_vec o) (Z.of_nat (length (os_vec o)) - 1).
Inductive os_op := OsInsert (x : Z) | OsClear.
Definition os_step (o : oset) (p : os_op) : oset :=
  match p with OsInsert x => os_insert o x | OsClear => os_new end.
Definition os_run (h : list os_op) : oset := fold_left os_step h os_new.

(** ** vector helpers *)
(** pop_front, data.hpp 141-156: front is overwritten by back, back is popped.  The
    assert is compiled out: an empty vector is UB. *)
Definition pop_front {A} (v : list A) : outcome (list A) :=
  match v with
  | [] => Undef
  | x :: t => Ret (removelast (upd v 0 (last v x)))
  end.
(** extend, data.hpp 161-174 (x and add different objects) *)
Definition extend {A} (x add : list A) : list A := x ++ add.
(** slice, data.hpp 179-199: iterators begin+m, begin+n+1; outside the vector, or
    last before first: UB *)
Definition slice {A} (v : list A) (m n : Z) : outcome (list A) :=
  let len := Z.of_nat (length v) in
  if (0 <=? m) && (m <=? n + 1) && (n + 1 <=? len)
  then Ret (firstn (Z.to_nat (n + 1 - m)) (skipn (Z.to_nat m) v)) else Undef.
(** all_true, data.cpp 467-475 *)
Fixpoint all_true (x : list bool) : bool :=
  match x with [] => true | b :: t => if Bool.eqb b false then false else all_true t end.

(** ** set helpers (std::set as strictly ascending list) *)
(** set_union, data.hpp 246-250 *)
Definition set_union (a b : list Z) : list Z := fold_left (fun s x => set_insert x s) b a.
(** set_diff, data.hpp 256-264: std::set_difference *)
Fixpoint set_diff (a : list Z) : list Z -> list Z :=
  fix go (b : list Z) : list Z :=
    match a, b with
    | [], _ => []
    | _, [] => a
    | x :: a', y :: b' =>
        if x <? y then x :: set_diff a' b
        else if y <? x then go b'
        else set_diff a' b'
    end.
(** set_symmetric_diff: [sym_diff] in AprilGridModel (data.hpp 270-279) *)

(** intersection, data.hpp 285-304.  The unordered_map is an association list; the
    order in which it is traversed does not matter because the result is a set. *)
Fixpoint count_up (k : Z) (m : list (Z * Z)) : list (Z * Z) :=
  match m with
  | [] => [(k, 1)]
  | (k', v) :: t => if k =? k' then (k', v + 1) :: t else (k', v) :: count_up k t
  end.
Definition intersection (vecs : list (list Z)) : list Z :=
  let counter := fold_left (fun m v => fold_left (fun m p => count_up p m) v m) vecs [] in
  fold_left (fun s kv => if snd kv =? Z.of_nat (length vecs) then set_insert (fst kv) s else s)
            counter [].
