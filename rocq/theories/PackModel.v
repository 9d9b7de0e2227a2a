(** * yac/lib/util/core.cpp: packing matrices into vectors and back
    Entries are of any type [A] (they are only moved). *)
From Verif Require Import Base.
Open Scope nat_scope.

Section Pack.
Context {A : Type}.
(** Eigen dynamic matrix: dimensions and coefficients m(i, j). *)
Record mtx := Mtx { rows : nat; cols : nat; coeff : nat -> nat -> A }.
Definition setc (m : mtx) (i j : nat) (v : A) : mtx :=
  Mtx (rows m) (cols m) (fun a b => if (a =? i) && (b =? j) then v else coeff m a b).

(** core.cpp 421-424: for j in [j, j + n): y(j, i) = x[idx]; idx++ *)
Fixpoint load_col (n j i idx : nat) (x : list A) (y : mtx) : outcome (nat * mtx) :=
  match n with
  | 0 => Ret (idx, y)
  | S n' => match nth_error x idx with
            | None => Undef
            | Some v => load_col n' (S j) i (S idx) x (setc y j i v)
            end
  end.
(** core.cpp 420-426: for i in [i, i + n) *)
Fixpoint load_cols (n i idx : nat) (x : list A) (y : mtx) : outcome (nat * mtx) :=
  match n with
  | 0 => Ret (idx, y)
  | S n' => obind (load_col (rows y) 0 i idx x y) (fun r => load_cols n' (S i) (fst r) x (snd r))
  end.
(** core.cpp 410-427 load_matrix(x, rows, cols, y); [y0] are the coefficients after
    resize (arbitrary). *)
Definition load_matrix (x : list A) (r c : nat) (y0 : nat -> nat -> A) : outcome mtx :=
  omap snd (load_cols c 0 0 x (Mtx r c y0)).
(** core.cpp 429-435 load_matrix(A, x): column by column, appended to [x] *)
Definition unload_matrix (m : mtx) (x : list A) : list A :=
  fold_left (fun acc i => fold_left (fun acc2 j => acc2 ++ [coeff m j i]) (seq 0 (rows m)) acc) (seq 0 (cols m)) x.

(** core.cpp 126-137 mat2array(m), 156-164 mat2array(A, out): row by row *)
Definition mat2array (m : mtx) : list A :=
  fold_left (fun acc i => fold_left (fun acc2 j => acc2 ++ [coeff m i j]) (seq 0 (cols m)) acc) (seq 0 (rows m)) [].
(** core.cpp 166-180 mat2vec *)
Definition mat2vec (m : mtx) (row_wise : bool) : list (list A) :=
  if row_wise then map (fun i => map (fun j => coeff m i j) (seq 0 (cols m))) (seq 0 (rows m))
  else map (fun j => map (fun i => coeff m i j) (seq 0 (rows m))) (seq 0 (cols m)).
(** core.cpp 218-232 vecs2mat: one homogeneous column per point ([one] is 1.0);
    [y0]: coefficients after resize *)
Definition vecs2mat (one : A) (vs : list (A * A * A)) (y0 : nat -> nat -> A) : mtx :=
  snd (fold_left (fun (st : nat * mtx) v =>
         let '(idx, m) := st in let '(x, y, z) := v in
         (S idx, setc (setc (setc (setc m 0 idx x) 1 idx y) 2 idx z) 3 idx one))
       vs (0, Mtx 4 (length vs) y0)).
(** core.cpp 111-116 array2vec: the parameter [y] is passed by value, so the caller's
    vector is returned unchanged *)
Definition array2vec (x : list A) (y : list A) : list A :=
  let _local := x in y.
(** core.cpp 330-334 hstack: C << A, B (comma initialiser; row counts must agree) *)
Definition hstack (a b : mtx) : outcome mtx :=
  if rows a =? rows b then
    Ret (Mtx (rows a) (cols a + cols b) (fun i j => if j <? cols a then coeff a i j else coeff b i (j - cols a)))
  else Undef.
(** core.cpp 336-340 vstack *)
Definition vstack (a b : mtx) : outcome mtx :=
  if cols a =? cols b then
    Ret (Mtx (rows a + rows b) (cols a) (fun i j => if i <? rows a then coeff a i j else coeff b (i - rows a) j))
  else Undef.
End Pack.
Arguments mtx : clear implicits.
