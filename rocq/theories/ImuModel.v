(** * IMU buffer (yac/lib/util/core.hpp 1654-1830, struct imu_data_t)
    Three parallel deques. Simplifications: exact reals for the measurements,
    stamp differences do not overflow. The asserts of [extract] are compiled out. *)
From Verif Require Import Base GeomModel.
Open Scope Z_scope.

(** core.hpp 1666-1674 *)
Record imu_data := Imu { i_ts : list Z; i_acc : list vec3; i_gyr : list vec3 }.
Definition imu_empty : imu_data := Imu [] [] [].

(** core.hpp 1676-1680 add *)
Definition imu_add (b : imu_data) (ts : Z) (acc gyr : vec3) : imu_data :=
  Imu (i_ts b ++ [ts]) (i_acc b ++ [acc]) (i_gyr b ++ [gyr]).

(** core.hpp 1686-1688 size; 1690-1694 last_ts; 1696-1700 clear *)
Definition imu_size (b : imu_data) : Z := Z.of_nat (length (i_ts b)).
Definition imu_last_ts (b : imu_data) : outcome Z :=
  match rev (i_ts b) with [] => Undef | t :: _ => Ret t end.
Definition imu_clear (b : imu_data) : imu_data := imu_empty.

(** One element of the three deques: (stamp, accel, gyro). *)
Notation sample := (Z * (vec3 * vec3))%type.
Definition imu_push (b : imu_data) (s : sample) : imu_data := imu_add b (fst s) (fst (snd s)) (snd (snd s)).

(** core.hpp 1722-1735: the loop of [trim] from index k on. [prev] is the sample
    at index k - 1 (None for k = 0), [new_] the buffers built so far. *)
Fixpoint trim_loop (ts_end : Z) (prev : option sample) (ts : list Z) (acc gyr : list vec3) (new_ : imu_data)
  : outcome imu_data :=
  match ts with
  | [] => Ret new_
  | t :: ts' =>
      match acc, gyr with
      | a :: acc', g :: gyr' =>
          let s := (t, (a, g)) in
          if ts_end <=? t then
            let new1 := match prev with
                        | Some p => if imu_size new_ =? 0 then imu_push new_ p else new_
                        | None => new_
                        end in
            trim_loop ts_end (Some s) ts' acc' gyr' (imu_push new1 s)
          else trim_loop ts_end (Some s) ts' acc' gyr' new_
      | _, _ => Undef
      end
  end.
(** core.hpp 1702-1739 trim: the new buffer. *)
Definition imu_trim (b : imu_data) (ts_end : Z) : outcome imu_data :=
  match i_ts b with
  | [] => Ret b
  | t0 :: _ => if ts_end <? t0 then Ret b
               else trim_loop ts_end None (i_ts b) (i_acc b) (i_gyr b) imu_empty
  end.

(** C++ integer division of two time differences, converted to double. *)
Definition int_ratio (a b : Z) : outcome R := if b =? 0 then Undef else Ret (IZR (Z.quot a b)).

(** [(1.0 - alpha) * x + alpha * y] *)
Definition blend (alpha : R) (x y : vec3) : vec3 := vadd (vscale (1 - alpha) x) (vscale alpha y).

(** core.hpp 1752-1797: the loop of [extract] from index k on; result: the
    extracted buffer and remove_idx.

    Lines 1771-1772 declare [const vec3_t acc_km1 = (1.0 - alpha) * acc_km1 + ...]
    inside the block: the initialiser reads the new, uninitialised variable.
    Formally that is undefined behaviour; here the read yields an arbitrary
    value [junk], over which the theorems quantify. Lines 1784-1785 do the same
    to a fresh [acc_k] whose value is then never used (no effect here); the
    sample added at line 1790 is the outer, un-interpolated one. *)
Fixpoint extract_loop (junk : vec3) (ts_start ts_end : Z) (k : nat) (prev : option sample)
         (ts : list Z) (acc gyr : list vec3) (buf : imu_data) (remove_idx : nat)
  : outcome (imu_data * nat) :=
  match ts with
  | [] => Ret (buf, remove_idx)
  | t :: ts' =>
      match acc, gyr with
      | a :: acc', g :: gyr' =>
          let s := (t, (a, g)) in
          if t <? ts_start then extract_loop junk ts_start ts_end (S k) (Some s) ts' acc' gyr' buf remove_idx
          else
            let finish (buf : imu_data) (tk : Z) :=
              let buf := imu_add buf tk a g in
              if tk =? ts_end then Ret (buf, remove_idx)
              else extract_loop junk ts_start ts_end (S k) (Some s) ts' acc' gyr' buf k in
            if (imu_size buf =? 0) && (ts_start <? t) then
              match prev with
              | None => Undef
              | Some p =>
                  obind (int_ratio (ts_start - fst p) (t - fst p)) (fun alpha =>
                  finish (imu_add buf ts_start (blend alpha junk a) (blend alpha junk g)) t)
              end
            else if ts_end <? t then
              match prev with
              | None => Undef
              | Some p => obind (int_ratio (ts_end - fst p) (t - fst p)) (fun _ => finish buf ts_end)
              end
            else finish buf t
      | _, _ => Undef
      end
  end.

(** core.hpp 1799-1804: pop_front, undefined on an empty deque. *)
Definition pop_n {A} (n : nat) (l : list A) : outcome (list A) :=
  if (n <=? length l)%nat then Ret (skipn n l) else Undef.

(** core.hpp 1742-1807 extract: (returned buffer, remaining buffer). *)
Definition imu_extract (junk : vec3) (b : imu_data) (ts_start ts_end : Z) : outcome (imu_data * imu_data) :=
  obind (extract_loop junk ts_start ts_end 0 None (i_ts b) (i_acc b) (i_gyr b) imu_empty 0) (fun '(buf, n) =>
  obind (pop_n n (i_ts b)) (fun ts =>
  obind (pop_n n (i_acc b)) (fun acc =>
  obind (pop_n n (i_gyr b)) (fun gyr =>
  Ret (buf, Imu ts acc gyr))))).
