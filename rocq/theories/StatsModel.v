(** * Scalars and statistics (yac/lib/util/core.cpp 9-34, 819-981; core.hpp 272-298)
    Exact real arithmetic except where single precision is written explicitly in the code.
    [None] is NaN (from a division 0/0); reading a vector out of bounds is [Undef]. *)
From Verif Require Import Base GeomModel.
From Coq Require Import Reals.
From Flocq Require Import Core.Core.
Local Open Scope R_scope.

(** core.cpp 18-26 fltcmp *)
Definition fltcmp (f1 f2 : R) : Z :=
  if Rle_dec (Rabs (f1 - f2)) (1 / 10000) then 0%Z
  else if Rlt_dec f2 f1 then 1%Z else (-1)%Z.
(** core.cpp 9-16 sign *)
Definition sign (x : R) : Z :=
  if (fltcmp x 0 =? 0)%Z then 0%Z else if Rlt_dec x 0 then (-1)%Z else 1%Z.

(** core.cpp 28-34 binomial. The recursion has no base case but [k = 0] and [k = n], so the
    function is a relation: [binomial n k v] says that the call returns, with value [v]. *)
Inductive binomial : R -> R -> R -> Prop :=
| binomial_base n k : k = 0 \/ k = n -> binomial n k 1
| binomial_rec n k v1 v2 : ~ (k = 0 \/ k = n) ->
    binomial (n - 1) (k - 1) v1 -> binomial (n - 1) k v2 -> binomial n k (v1 + v2).

(** core.hpp 279-298 linspace, for T = double *)
Definition linspace (start stop : R) (num : Z) : list R :=
  if (num =? 0)%Z then []
  else if (num =? 1)%Z then [start]
  else
    let diff := stop - start in
    let delta := diff / IZR (num - 1) in
    map (fun i => start + delta * IZR i) (zrange (num - 1)) ++ [stop].

(** core.cpp 819 randi and 821-824 randf; [rnd] is the value of rand(), between 0 and RAND_MAX.
    Remainder by zero is undefined; C's [%] truncates towards zero. *)
Definition RAND_MAX : Z := 2147483647.
Definition randi (rnd ub lb : Z) : outcome Z :=
  if (lb =? 0)%Z then Undef else Ret (Z.rem rnd lb + ub)%Z.
Definition randf (rnd : Z) (ub lb : R) : R :=
  let f := IZR rnd / IZR RAND_MAX in lb + f * (ub - lb).

(** core.cpp 826-834 sum *)
Definition sum (x : list R) : R := fold_left Rplus x 0.

(** std::sort on doubles without NaN: the sorted permutation (unique up to equal values). *)
Fixpoint insert_sorted (a : R) (l : list R) : list R :=
  match l with
  | [] => [a]
  | b :: l' => if Rle_dec a b then a :: l else b :: insert_sorted a l'
  end.
Definition std_sort (l : list R) : list R := fold_right insert_sorted [] l.

(** core.cpp 836-852 median. [v_copy[(size / 2) - 1]] of an empty vector: the unsigned index
    wraps, which is out of bounds ([rd] gives [Undef]). *)
Definition median (v : list R) : outcome R :=
  let v_copy := std_sort v in
  let size := Z.of_nat (length v_copy) in
  if (size mod 2 =? 1)%Z then rd v_copy (size / 2)
  else
    obind (rd v_copy (size / 2)) (fun a =>
    obind (rd v_copy (size / 2 - 1)) (fun b => Ret ((a + b) / 2))).

(** core.cpp 854-862 max *)
Definition max (x : list R) : outcome R :=
  obind (rd x 0) (fun x0 =>
  Ret (fold_left (fun m xi => if Rlt_dec m xi then xi else m) x x0)).

(** division of doubles: 0/0 is NaN, x/0 is infinite; neither is a real number *)
Definition fdiv (a b : R) : option R := if Req_EM_T b 0 then None else Some (a / b).

(** core.cpp 864-872 mean *)
Definition mean (x : list R) : option R :=
  fdiv (fold_left Rplus x 0) (INR (length x)).

(** core.cpp 896-906 var *)
Definition var (x : list R) : option R :=
  match mean x with
  | None => None
  | Some mu => fdiv (fold_left (fun s xi => s + (xi - mu) ^ 2) x 0) (INR (length x) - 1)
  end.
(** core.cpp 934 stddev *)
Definition stddev (x : list R) : option R := option_map sqrt (var x).
(** core.cpp 946-955 rmse *)
Definition rmse (r : list R) : option R :=
  option_map sqrt (fdiv (fold_left (fun s x => s + x * x) r 0) (INR (length r))).

(** core.cpp 874-883 mean(vec2s_t): [x_hat *= 1.0f / x.size()]. The size is converted to float
    and the reciprocal is a float (IEEE binary32, round to nearest even). *)
Definition b32 : R -> R := round radix2 (FLT_exp (-149) 24) ZnearestE.
Definition recip_f32 (n : nat) : option R := option_map b32 (fdiv 1 (b32 (INR n))).
Definition mean2 (x : list vec2) : option vec2 :=
  let s := fold_left (fun a v => V2 (v2x a + v2x v) (v2y a + v2y v)) x (V2 0 0) in
  match recip_f32 (length x) with
  | None => None
  | Some k => Some (V2 (k * v2x s) (k * v2y s))
  end.
(** core.cpp 885-894 mean(vec3s_t) *)
Definition mean3 (x : list vec3) : option vec3 :=
  let s := fold_left vadd x vzero in
  match recip_f32 (length x) with
  | None => None
  | Some k => Some (vscale k s)
  end.
(** core.cpp 908-918 var(vec2s_t), 936-939 stddev(vec2s_t), 957-967 rmse(vec2s_t):
    coordinate-wise *)
Definition both (f : list R -> option R) (v : list vec2) : option R * option R :=
  (f (map v2x v), f (map v2y v)).
Definition var2 := both var.
Definition stddev2 (v : list vec2) := let s := var2 v in (option_map sqrt (fst s), option_map sqrt (snd s)).
Definition rmse2 := both rmse.
