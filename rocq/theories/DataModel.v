(** * yac/lib/util/data.cpp: byte decoding, CSV files, array files, check_jacobian
    Simplifications: a file is its content ([None]: it cannot be opened), lines
    read with fgets are shorter than 1023 characters and tokens have at most 100
    characters (the size cleared by the memset calls), numbers are exact reals. *)
From Verif Require Import Base TextModel.
From Coq Require Import Ascii Reals.
From Flocq Require Import Core.Raux.
Open Scope Z_scope.

(** ** data.cpp 9-33 *)
(** Conversion to a signed / unsigned type of [n] bits (gcc: modulo 2^n). *)
Definition wrap_u (n : Z) (x : Z) : Z := x mod 2 ^ n.
Definition wrap_s (n : Z) (x : Z) : Z := (x + 2 ^ (n - 1)) mod 2 ^ n - 2 ^ (n - 1).
(** [uint8_t << k]: the byte is promoted to int, the result converted to int. *)
Definition shl (b k : Z) : Z := wrap_s 32 (Z.shiftl b k).

(** data.cpp 9-11 *)
Definition int8 (data : list Z) (offset : Z) : outcome Z :=
  obind (rd data offset) (fun b => Ret (wrap_s 8 b)).
(** data.cpp 13-15 *)
Definition uint8 (data : list Z) (offset : Z) : outcome Z :=
  obind (rd data offset) (fun b => Ret (wrap_u 8 b)).
(** data.cpp 17-19 *)
Definition int16 (data : list Z) (offset : Z) : outcome Z :=
  obind (rd data (offset + 1)) (fun b1 => obind (rd data offset) (fun b0 =>
  Ret (wrap_s 16 (Z.lor (shl b1 8) b0)))).
(** data.cpp 21-23 *)
Definition uint16 (data : list Z) (offset : Z) : outcome Z :=
  obind (rd data (offset + 1)) (fun b1 => obind (rd data offset) (fun b0 =>
  Ret (wrap_u 16 (Z.lor (shl b1 8) b0)))).
(** data.cpp 25-28 *)
Definition sint32 (data : list Z) (offset : Z) : outcome Z :=
  obind (rd data (offset + 3)) (fun b3 => obind (rd data (offset + 2)) (fun b2 =>
  obind (rd data (offset + 1)) (fun b1 => obind (rd data offset) (fun b0 =>
  Ret (wrap_s 32 (Z.lor (Z.lor (Z.lor (shl b3 24) (shl b2 16)) (shl b1 8)) b0)))))).
(** data.cpp 30-33 *)
Definition uint32 (data : list Z) (offset : Z) : outcome Z :=
  obind (rd data (offset + 3)) (fun b3 => obind (rd data (offset + 2)) (fun b2 =>
  obind (rd data (offset + 1)) (fun b1 => obind (rd data offset) (fun b0 =>
  Ret (wrap_u 32 (Z.lor (Z.lor (Z.lor (shl b3 24) (shl b2 16)) (shl b1 8)) b0)))))).

(** ** Matrices (Eigen dynamic): dimensions and rows *)
Record matx := Matx { m_rows : Z; m_cols : Z; m_data : list (list R) }.
(** zeros(r, c), core.hpp; negative sizes are outside Eigen's contract. *)
Definition zeros (r c : Z) : outcome matx :=
  if (r <? 0) || (c <? 0) then Undef
  else Ret (Matx r c (repeat (repeat 0%R (Z.to_nat c)) (Z.to_nat r))).
Definition set_row (m : matx) (i : Z) (row : list R) : outcome matx :=
  omap (fun d => Matx (m_rows m) (m_cols m) d) (wr (m_data m) i row).

(** data.cpp 307-322 csv_rows(std::string) *)
Definition csv_rows (file : option text) : Z :=
  match file with None => -1 | Some s => Z.of_nat (length (getlines s)) end.

Definition count_char (c : ascii) (s : text) : Z := countb (fun x => Ascii.eqb x c) s.
(** data.cpp 324-345 csv_cols(std::string): the first line decides; no comma: 0 *)
Definition csv_cols (file : option text) : Z :=
  match file with
  | None => -1
  | Some s =>
      let n := count_char comma (hd [] (getlines s)) in
      if 0 <? n then 1 + n else 0
  end.

(** data.cpp 375-379: the inner loop of csv2mat, [n] columns to go. [st] is the
    string stream, [element] keeps its value when getline fails. *)
Fixpoint read_row (n : nat) (st : option text) (element : text) : list R :=
  match n with
  | O => []
  | S n' => let r := getline_elem st element in
            atof (snd r) :: read_row n' (fst r) (snd r)
  end.
(** data.cpp 369-383: one row per remaining line. A string stream over an empty
    line is at its end already: the first getline leaves [element] empty. *)
Fixpoint read_rows (nb_cols line_no : Z) (lines : list text) (data : matx) : outcome matx :=
  match lines with
  | [] => Ret data
  | line :: lines' =>
      obind (if nb_cols <? 1 then Ret data
             else set_row data line_no (read_row (Z.to_nat nb_cols) (Some line) []))
            (fun d => read_rows nb_cols (line_no + 1) lines' d)
  end.
(** data.cpp 347-385 csv2mat: (return value, matrix); [None] if [data] is untouched. *)
Definition csv2mat (file : option text) (header : bool) : outcome (Z * option matx) :=
  match file with
  | None => Ret (-1, None)
  | Some s =>
      let nb_rows := csv_rows file in
      let nb_cols := csv_cols file in
      let nb_rows' := if header then nb_rows - 1 else nb_rows in
      let lines := if header then tl (getlines s) else getlines s in
      obind (zeros nb_rows' nb_cols) (fun data =>
      obind (read_rows nb_cols 0 lines data) (fun d => Ret (0, Some d)))
  end.

(** data.cpp 395-404: one row of mat2csv *)
Fixpoint csv_line (row : list R) : text :=
  match row with
  | [] => []
  | x :: row' => fmt_f x ++ (match row' with [] => [] | _ => [comma] end) ++ csv_line row'
  end.
(** data.cpp 387-410 mat2csv: the file written (it could be opened) *)
Definition mat2csv (data : list (list R)) : text :=
  concat (map (fun row => csv_line row ++ [newline]) data).

(** ** Files of arrays *)
(** fgets: the lines of the file with their newline. *)
Fixpoint fgets_from (cur s : text) : list text :=
  match s with
  | [] => match cur with [] => [] | _ => [cur] end
  | c :: s' => if Ascii.eqb c newline then (cur ++ [c]) :: fgets_from [] s' else fgets_from (cur ++ [c]) s'
  end.
Definition fgets_lines (s : text) : list text := fgets_from [] s.
Definition is_comment (line : text) : bool :=
  match line with c :: _ => Ascii.eqb c hash | [] => false end.

(** strtod, then conversion to size_t / int (out of range: undefined). *)
Definition to_size (x : R) : outcome Z :=
  let n := Ztrunc x in if (0 <=? n) && (n <? 2 ^ 64) then Ret n else Undef.
Definition to_int (x : R) : outcome Z :=
  let n := Ztrunc x in if (- 2 ^ 31 <=? n) && (n <? 2 ^ 31) then Ret n else Undef.

(** data.cpp 213-238 parse_iarray_line. [data = None] is the NULL pointer.
    calloc(array_size + 1): array_size + 1 zeroed ints (it does not fail). *)
Fixpoint iarray_loop (line entry : text) (index : Z) (data : option (list Z)) : outcome (option (list Z)) :=
  match line with
  | [] => Ret data
  | c :: line' =>
      if Ascii.eqb c space then iarray_loop line' entry index data
      else if Ascii.eqb c comma || Ascii.eqb c newline then
        obind (match data with
               | Some d => Ret d
               | None => omap (fun n => repeat 0 (Z.to_nat (n + 1))) (to_size (atof entry))
               end) (fun d =>
        obind (to_int (atof entry)) (fun v =>
        obind (wr d index v) (fun d' => iarray_loop line' [] (index + 1) (Some d'))))
      else iarray_loop line' (entry ++ [c]) index data
  end.
Definition parse_iarray_line (line : text) : outcome (option (list Z)) := iarray_loop line [] 0 None.

(** data.cpp 260-285 parse_darray_line: calloc(array_size) *)
Fixpoint darray_loop (line entry : text) (index : Z) (data : option (list R)) : outcome (option (list R)) :=
  match line with
  | [] => Ret data
  | c :: line' =>
      if Ascii.eqb c space then darray_loop line' entry index data
      else if Ascii.eqb c comma || Ascii.eqb c newline then
        obind (match data with
               | Some d => Ret d
               | None => omap (fun n => repeat 0%R (Z.to_nat n)) (to_size (atof entry))
               end) (fun d =>
        obind (wr d index (atof entry)) (fun d' => darray_loop line' [] (index + 1) (Some d')))
      else darray_loop line' (entry ++ [c]) index data
  end.
Definition parse_darray_line (line : text) : outcome (option (list R)) := darray_loop line [] 0 None.

(** data.cpp 47-68 csv_rows(const char ptr): fclose(NULL) when the file is missing *)
Definition csv_rows_c (file : option text) : outcome Z :=
  match file with
  | None => Undef
  | Some s => Ret (countb (fun l => negb (is_comment l)) (fgets_lines s))
  end.
(** fgets into [buf]: the line and its terminating zero overwrite the front of the
    1024 character buffer, what is behind stays. *)
Definition nul : ascii := zero.
Definition fgets_buf (line buf : text) : text := line ++ nul :: skipn (S (length line)) buf.
(** data.cpp 80-86: the buffer after the loop that skips the comments *)
Fixpoint skip_comments (lines : list text) (buf : text) : text :=
  match lines with
  | [] => buf
  | l :: lines' => let buf' := fgets_buf l buf in
                   if is_comment l then skip_comments lines' buf' else buf'
  end.
(** data.cpp 70-102 csv_cols(const char ptr): the whole buffer is searched for commas *)
Definition csv_cols_c (file : option text) : outcome Z :=
  match file with
  | None => Undef
  | Some s =>
      let n := count_char comma (skip_comments (fgets_lines s) (repeat nul 1024)) in
      Ret (if 0 <? n then 1 + n else -1)
  end.

(** data.cpp 188-203: the characters of one line of csv_data. [row] are the
    allocated cells of the row ([None]: the row pointer is not initialised or the
    row index is out of bounds). *)
Fixpoint csv_data_line (line entry : text) (col_idx : Z) (row : option (list (option R)))
  : outcome (option (list (option R))) :=
  match line with
  | [] => Ret row
  | c :: line' =>
      if Ascii.eqb c space then csv_data_line line' entry col_idx row
      else if Ascii.eqb c comma || Ascii.eqb c newline then
        match row with
        | None => Undef
        | Some r => obind (wr r col_idx (Some (atof entry))) (fun r' =>
                    csv_data_line line' [] (col_idx + 1) (Some r'))
        end
      else csv_data_line line' (entry ++ [c]) col_idx row
  end.
(** data.cpp 182-209. [data]: one entry per allocated row pointer. *)
Fixpoint csv_data_loop (lines : list text) (row_idx : Z) (data : list (option (list (option R))))
  : outcome (list (option (list (option R)))) :=
  match lines with
  | [] => Ret data
  | l :: lines' =>
      if is_comment l then csv_data_loop lines' row_idx data
      else
        let row := match nth_error data (Z.to_nat row_idx) with Some r => r | None => None end in
        obind (csv_data_line l [] 0 row) (fun row' =>
          csv_data_loop lines' (row_idx + 1) (upd data (Z.to_nat row_idx) row'))
  end.
(** data.cpp 163-167: the row pointers, rows 0 .. nb_cols - 1 get storage; writing a
    pointer behind the array is undefined. *)
Fixpoint alloc_rows (n : nat) (i nb_cols : Z) (data : list (option (list (option R))))
  : outcome (list (option (list (option R)))) :=
  match n with
  | O => Ret data
  | S n' => obind (wr data i (Some (repeat None (Z.to_nat nb_cols)))) (fun d =>
            alloc_rows n' (i + 1) nb_cols d)
  end.
(** data.cpp 155-211 csv_data: (nb_rows, nb_cols, data); a null pointer is [None] *)
Definition csv_data (file : option text) : outcome (Z * Z * option (list (option (list (option R))))) :=
  obind (csv_rows_c file) (fun nb_rows =>
  obind (csv_cols_c file) (fun nb_cols =>
  if (nb_rows =? -1) || (nb_cols =? -1) then Ret (nb_rows, nb_cols, None)
  else
    obind (alloc_rows (Z.to_nat nb_cols) 0 nb_cols (repeat None (Z.to_nat nb_rows))) (fun data =>
    match file with
    | None => Undef
    | Some s => obind (csv_data_loop (fgets_lines s) 0 data) (fun d => Ret (nb_rows, nb_cols, Some d))
    end))).

(** ** check_jacobian
    Entries are doubles: [None] is NaN. All comparisons with NaN are false. *)
Definition entry := option R.
Record jmat := JMat { j_rows : nat; j_cols : nat; j_at : nat -> nat -> entry }.
Definition esub (a b : entry) : entry :=
  match a, b with Some x, Some y => Some (x - y)%R | _, _ => None end.
(** fabs(x) >= threshold *)
Definition abs_ge (x : entry) (threshold : R) : bool :=
  match x with Some v => if Rle_dec threshold (Rabs v) then true else false | None => false end.
(** data.cpp 677-735 check_jacobian (printing not modelled); [return false] is 0 *)
Definition check_jacobian (fdiff jac : jmat) (threshold : R) : Z :=
  if (j_rows jac * j_cols jac =? 0)%nat then 0
  else if (j_rows fdiff * j_cols fdiff =? 0)%nat then 0
  else if negb (j_rows fdiff =? j_rows jac)%nat then 0
  else if negb (j_cols fdiff =? j_cols jac)%nat then 0
  else
    let failed := existsb (fun i => existsb (fun j =>
        abs_ge (esub (j_at fdiff i j) (j_at jac i j)) threshold) (seq 0 (j_cols jac)))
        (seq 0 (j_rows jac)) in
    if failed then -1 else 0.

(** data.cpp 250-258 / 291-299: one array per line that is no comment *)
Fixpoint load_lines {A} (parse : text -> outcome (option A)) (lines : list text) (frame_idx : Z)
  (array : list (option A)) : outcome (list (option A)) :=
  match lines with
  | [] => Ret array
  | l :: lines' =>
      if is_comment l then load_lines parse lines' frame_idx array
      else obind (parse l) (fun p => obind (wr array frame_idx p) (fun a =>
           load_lines parse lines' (frame_idx + 1) a))
  end.
(** data.cpp 240-258 load_iarrays; nb_arrays is the length of the result *)
Definition load_iarrays (file : option text) : outcome (list (option (list Z))) :=
  obind (csv_rows_c file) (fun n =>
  match file with
  | None => Undef
  | Some s => load_lines parse_iarray_line (fgets_lines s) 0 (repeat None (Z.to_nat n))
  end).
(** data.cpp 287-305 load_darrays *)
Definition load_darrays (file : option text) : outcome (list (option (list R))) :=
  obind (csv_rows_c file) (fun n =>
  match file with
  | None => Undef
  | Some s => load_lines parse_darray_line (fgets_lines s) 0 (repeat None (Z.to_nat n))
  end).
