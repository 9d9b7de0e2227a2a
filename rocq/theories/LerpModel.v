(** * Interpolation of two sampled signals (yac/lib/util/core.cpp 1735-1898)
    Simplifications: differences of [int64_t] stamps do not overflow; values and
    the interpolation parameter are exact reals. The test
    [((ts - lerp_ts[i]) * 1e-9) > 0] is the integer comparison: see
    [C35_float_test_exact] in Prop_Lerp.v for the double computation. *)
From Verif Require Import Base GeomModel.
Open Scope Z_scope.

(** core.hpp 1332-1335 lerp: [a * (1.0 - t) + b * t]. *)
Definition lerp (a b : vec3) (t : R) : vec3 := vadd (vscale (1 - t) a) (vscale t b).

(** [(x) * 1e-9] for a stamp difference. *)
Definition secs (x : Z) : R := (IZR x * / 1000000000)%R.

(** [front()] / [back()] of a deque: undefined when it is empty. *)
Definition front {A} (l : list A) : outcome A :=
  match l with [] => Undef | x :: _ => Ret x end.
Definition back {A} (l : list A) : outcome A := front (rev l).

(** core.cpp 1735-1762 lerp_timestamps. *)
Definition lerp_timestamps (t0 t1 : list Z) : outcome (list Z) :=
  let '(other, base) := if (length t1 <? length t0)%nat then (t1, t0) else (t0, t1) in
  obind (front other) (fun ts_start =>
  obind (back other) (fun ts_end =>
  Ret (filter (fun ts => (ts_start <=? ts) && (ts <=? ts_end)) base))).

(** core.cpp 1789-1805: the inner while loop of lerp_data. [ls] is the part of
    [lerp_ts] from [lerp_idx] on; the result is the list of pushed samples and
    the part not consumed. *)
Fixpoint lerp_points (t0 : Z) (v0 : vec3) (t1 : Z) (v1 : vec3) (ls : list Z) : list (Z * vec3) * list Z :=
  match ls with
  | [] => ([], [])
  | l :: ls' =>
      if t1 <? l then ([], ls)
      else
        let alpha := (secs (l - t0) / secs (t1 - t0))%R in
        let r := lerp_points t0 v0 t1 v1 ls' in
        ((l, lerp v0 v1 alpha) :: fst r, snd r)
  end.

(** core.cpp 1776-1820: the loop over the target signal, from sample 1 on.
    Line 1782 reads [lerp_ts[lerp_idx]] without checking [lerp_idx]. *)
Fixpoint lerp_loop (keep_old : bool) (ls : list Z) (t0 : Z) (v0 : vec3)
         (ts : list Z) (vs : list vec3) (rts : list Z) (rvs : list vec3)
  : outcome (list Z * list vec3) :=
  match ts with
  | [] => Ret (rts, rvs)
  | t :: ts' =>
      match vs with
      | [] => Undef
      | v :: vs' =>
          match ls with
          | [] => Undef
          | l :: _ =>
              let kt := if keep_old then [t] else [] in
              let kv := if keep_old then [v] else [] in
              if l <? t then
                let r := lerp_points t0 v0 t v ls in
                lerp_loop keep_old (snd r) t v ts' vs'
                          (rts ++ map fst (fst r) ++ kt) (rvs ++ map snd (fst r) ++ kv)
              else
                lerp_loop keep_old ls t0 v0 ts' vs' (rts ++ kt) (rvs ++ kv)
          end
      end
  end.

(** core.cpp 1764-1824 lerp_data(lerp_ts, target_ts, target_data, keep_old):
    the new contents of target_ts and target_data. *)
Definition lerp_data (lerp_ts target_ts : list Z) (target_data : list vec3) (keep_old : bool)
  : outcome (list Z * list vec3) :=
  match target_ts, target_data with
  | t0 :: ts, v0 :: vs => lerp_loop keep_old lerp_ts t0 v0 ts vs [] []
  | _, _ => Undef
  end.

(** core.cpp 1851-1863 align_front. *)
Fixpoint align_front_loop (f : Z) (target : list Z) (data : list vec3) : outcome (list Z * list vec3) :=
  match target with
  | [] => Undef
  | t :: target' =>
      if t <? f then
        match data with [] => Undef | _ :: data' => align_front_loop f target' data' end
      else Ret (target, data)
  end.
Definition align_front (reference target : list Z) (data : list vec3) :=
  obind (front reference) (fun f => align_front_loop f target data).

(** core.cpp 1865-1877 align_back (the deques are scanned from the back). *)
Fixpoint align_back_loop (b : Z) (rtarget : list Z) (rdata : list vec3) : outcome (list Z * list vec3) :=
  match rtarget with
  | [] => Undef
  | t :: target' =>
      if b <? t then
        match rdata with [] => Undef | _ :: data' => align_back_loop b target' data' end
      else Ret (rev rtarget, rev rdata)
  end.
Definition align_back (reference target : list Z) (data : list vec3) :=
  obind (back reference) (fun b => align_back_loop b (rev target) (rev data)).

(** core.cpp 1879-1898 lerp_data(ts0, vs0, ts1, vs1): the new contents of the
    four deques. keep_old has the default value false (core.hpp 1405). *)
Definition lerp_sync (ts0 : list Z) (vs0 : list vec3) (ts1 : list Z) (vs1 : list vec3)
  : outcome ((list Z * list vec3) * (list Z * list vec3)) :=
  obind (lerp_timestamps ts0 ts1) (fun lerp_ts =>
  obind (if (length ts1 <? length ts0)%nat
         then Base.omap (fun b => ((ts0, vs0), b)) (lerp_data lerp_ts ts1 vs1 false)
         else Base.omap (fun a => (a, (ts1, vs1))) (lerp_data lerp_ts ts0 vs0 false)) (fun '(a, b) =>
  obind (align_front lerp_ts (fst b) (snd b)) (fun b =>
  obind (align_front lerp_ts (fst a) (snd a)) (fun a =>
  obind (align_back lerp_ts (fst b) (snd b)) (fun b =>
  obind (align_back lerp_ts (fst a) (snd a)) (fun a =>
  Ret (a, b))))))).
