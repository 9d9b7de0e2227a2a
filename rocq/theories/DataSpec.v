(** * What C39 - C42 mean, independently of the model *)
From Verif Require Import Base TextModel.
From Coq Require Import Ascii Reals.
Open Scope Z_scope.

(** Little-endian value of a list of bytes. *)
Definition byte (b : Z) : Prop := 0 <= b < 256.
Fixpoint le_value (bs : list Z) : Z :=
  match bs with [] => 0 | b :: r => b + 256 * le_value r end.
(** The [k] bytes at [offset]. *)
Definition window (data : list Z) (offset k : nat) : list Z := firstn k (skipn offset data).
(** [v] is the value of an [n]-bit two's complement register holding [u]. *)
Definition twos_complement (n u v : Z) : Prop :=
  - 2 ^ (n - 1) <= v < 2 ^ (n - 1) /\ exists q, u = v + q * 2 ^ n.

(** A matrix with [r] rows of [c] entries. *)
Definition shape {A} (r c : nat) (m : list (list A)) : Prop :=
  length m = r /\ Forall (fun row => length row = c) m.
(** Entrywise within half a unit of the sixth decimal. *)
Definition close_mat (a b : list (list R)) : Prop :=
  Forall2 (Forall2 (fun x y => (Rabs (y - x) <= 1 / 2000000)%R)) a b.
(** A number with at most six decimals. *)
Definition six_decimals (x : R) : Prop := exists k, x = (IZR k / 1000000)%R.

(** Tokens separated by commas. *)
Fixpoint join (toks : list text) : text :=
  match toks with
  | [] => []
  | [t] => t
  | t :: r => t ++ comma :: join r
  end.
(** A field of a CSV line: neither comma nor newline. *)
Definition field (t : text) : Prop := ~ In comma t /\ ~ In newline t.
(** The line without its blanks. *)
Definition strip_spaces (line : text) : text := filter (fun c => negb (Ascii.eqb c space)) line.
Definition int32 (v : Z) : Prop := - 2 ^ 31 <= v < 2 ^ 31.
(** A line "n,v1,...,vk" with a newline; blanks anywhere. *)
Definition int_line (n : Z) (vs : list Z) (line : text) : Prop :=
  strip_spaces line = join (map dec_signed (n :: vs)) ++ [newline].
Definition real_line (n : Z) (xs : list R) (line : text) : Prop :=
  strip_spaces line = join (dec_signed n :: map fmt_f xs) ++ [newline].
