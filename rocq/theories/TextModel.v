(** * Text files as character lists: the C / C++ library calls used by
    yac/lib/util/data.cpp. Trusted models of std::getline, printf("%f"),
    printf("%d"), atof/strtod on plain decimal numbers. *)
From Verif Require Import Base.
From Coq Require Import Ascii Reals.
From Flocq Require Import Core.Core.
Open Scope Z_scope.

Notation text := (list ascii).
Definition comma : ascii := ","%char.
Definition space : ascii := " "%char.
Definition newline : ascii := "010"%char.
Definition dot : ascii := "."%char.
Definition minus : ascii := "-"%char.
Definition hash : ascii := "#"%char.

(** ** Decimal digits *)
Definition digit_char (d : Z) : ascii := ascii_of_N (Z.to_N (48 + d)).
Definition char_digit (c : ascii) : option Z :=
  let n := Z.of_N (N_of_ascii c) in
  if (48 <=? n) && (n <=? 57) then Some (n - 48) else None.

(** Exactly [w] digits of [n], most significant first. *)
Fixpoint decw (w : nat) (n : Z) : text :=
  match w with
  | O => []
  | S w' => decw w' (n / 10) ++ [digit_char (n mod 10)]
  end.
(** Number of decimal digits of [n] (at least one). *)
Fixpoint ndigits (fuel : nat) (n : Z) : nat :=
  match fuel with
  | O => 1
  | S f => if n <? 10 then 1%nat else S (ndigits f (n / 10))
  end.
(** "%d" of a non-negative number. *)
Definition dec (n : Z) : text := decw (ndigits (Z.to_nat n) n) n.
Definition dec_signed (n : Z) : text := if n <? 0 then minus :: dec (- n) else dec n.

(** printf("%f", x): six decimals, correctly rounded. *)
Definition micro (x : R) : Z := ZnearestE (Rabs x * 1000000).
Definition fmt_micro (neg : bool) (m : Z) : text :=
  (if neg then [minus] else []) ++ dec (m / 1000000) ++ [dot] ++ decw 6 (m mod 1000000).
Definition fmt_f (x : R) : text := fmt_micro (if Rlt_dec x 0 then true else false) (micro x).

(** strtod / atof on [-]digits[.digits]; conversion stops at the first other
    character; 0 if there is no number. Not modelled: leading white space,
    exponents, inf, nan, hexadecimal, rounding to double. *)
Fixpoint scan_digits (acc : Z) (n : nat) (s : text) : Z * nat * text :=
  match s with
  | c :: s' => match char_digit c with
               | Some d => scan_digits (acc * 10 + d) (S n) s'
               | None => (acc, n, s)
               end
  | [] => (acc, n, [])
  end.
Definition atof_unsigned (s : text) : R :=
  let '(a, _, r) := scan_digits 0 0 s in
  match r with
  | c :: r' =>
      if Ascii.eqb c dot then
        let '(f, n, _) := scan_digits 0 0 r' in (IZR a + IZR f / 10 ^ n)%R
      else IZR a
  | [] => IZR a
  end.
Definition atof (s : text) : R :=
  match s with
  | c :: s' => if Ascii.eqb c minus then (- atof_unsigned s')%R else atof_unsigned s
  | [] => 0%R
  end.

(** ** Lines *)
(** The lines std::getline yields from a stream, in order. *)
Fixpoint lines_from (cur : text) (s : text) : list text :=
  match s with
  | [] => match cur with [] => [] | _ => [cur] end
  | c :: s' => if Ascii.eqb c newline then cur :: lines_from [] s' else lines_from (cur ++ [c]) s'
  end.
Definition getlines (s : text) : list text := lines_from [] s.

(** The characters up to the first [c] and the rest after it (None: [c] does not occur). *)
Fixpoint break_at (c : ascii) (s : text) : text * option text :=
  match s with
  | [] => ([], None)
  | x :: s' => if Ascii.eqb x c then ([], Some s')
               else let r := break_at c s' in (x :: fst r, snd r)
  end.
(** std::getline(ss, element, ','): on a stream whose end was already hit the
    call fails and leaves [element] unchanged; [st] is [None] then. *)
Definition getline_elem (st : option text) (element : text) : option text * text :=
  match st with
  | None => (None, element)
  | Some s => let r := break_at comma s in (snd r, fst r)
  end.
