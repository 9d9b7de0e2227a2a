(** * Specification for C110: which files stand for which camera and time *)
From Coq Require Import Reals Ascii.
From Verif Require Import Base.
From stdpp Require Import gmap sets list.
From Verif Require Import TextModel AprilGridModel.
Local Open Scope Z_scope.

Definition code (c : ascii) : Z := Z.of_N (N_of_ascii c).
Definition digit (c : ascii) : Prop := 48 <= code c <= 57.
Definition number (s : text) : Z := fold_left (fun a c => 10 * a + (code c - 48)) s 0.
(** the first 19 characters of the file name (all of a shorter one) are digits; they say [ts] *)
Definition stamped_name (f : text) (ts : Z) : Prop :=
  exists s r, f = s ++ r /\ s <> [] /\ (length s = 19%nat \/ (length s <= 19)%nat /\ r = []) /\ List.Forall digit s /\ number s = ts.
(** alphabetical order of file names *)
Definition before (a b : text) : Prop :=
  exists p, (exists x a' y b', a = p ++ x :: a' /\ b = p ++ y :: b' /\ code x < code y) \/ (exists y b', a = p /\ b = p ++ y :: b').
(** [f] is the grid file of camera [c] for the time [ts]: the last one by name if there are several *)
Definition grid_file (dirs : Z -> option (list text)) (c ts : Z) (f : text) : Prop :=
  exists l, dirs c = Some l /\ In f l /\ stamped_name f ts /\ forall f', In f' l -> stamped_name f' ts -> f' = f \/ before f' f.
(** the grid of camera [c] at the time [ts] in calib_data *)
Definition held (d : gmap Z (gmap Z grid)) (ts c : Z) : option grid := m ← d !! ts; m !! c.
