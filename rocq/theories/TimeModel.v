(** * Time stamp conversions (yac/lib/util/core.cpp, lines 1530-1543)
    [timestamp_t] is [int64_t] (yac/lib/util/core.hpp line 90). *)
From Verif Require Import Base FloatModel.
Open Scope Z_scope.

(** core.cpp 1534-1537 tsdecomp: [sec = ts * 1e-9; nsec = ts - (long)(sec * 1e9)].
    Both implicit conversions double -> long truncate. *)
Definition tsdecomp (ts : Z) : outcome (Z * Z) :=
  obind (long_of_dbl (dmul (dbl_of_Z ts) d1em9)) (fun sec =>
  obind (long_of_dbl (dmul (dbl_of_Z sec) d1e9)) (fun p =>
  obind (i64 (ts - p)) (fun nsec => Ret (sec, nsec)))).

(** core.cpp 1539-1541 tsform: [(long)(sec * 1e9) + nsec]. *)
Definition tsform (sec nsec : Z) : outcome Z :=
  obind (long_of_dbl (dmul (dbl_of_Z sec) d1e9)) (fun p => i64 (p + nsec)).

(** core.cpp 1532 ts2sec and 1543 ns2sec: [ts * 1.0e-9]. *)
Definition ts2sec (ts : Z) : dbl := dmul (dbl_of_Z ts) d1em9.
(** core.cpp 1530 sec2ts: [sec * 1.0e9], truncated. *)
Definition sec2ts (sec : dbl) : outcome Z := long_of_dbl (dmul sec d1e9).
