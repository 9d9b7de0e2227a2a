(** * interp_poses / closest_poses (yac/lib/util/core.cpp 1635-1733)
    Polymorphic in the pose type; [ip] is interp_pose (core.cpp 1618-1633).
    Simplifications: stamp differences do not overflow and are compared as
    integers instead of after multiplication by 1e-9; the threshold of
    interp_poses is given in nanoseconds (default 0.001 s = 1000000 ns); the
    interpolation parameter is an exact real. The asserts of lines 1640-1643 and
    1696-1699 are compiled out in the release build. *)
From Verif Require Import Base GeomModel LerpModel.
Open Scope Z_scope.
Section P.
Context {P : Type} (ip : P -> P -> R -> P) (Id : P).

(** core.cpp 1651-1689: loop over the samples. [qs] is the part of interp_ts from
    interp_idx on, (ts0, pose0) the current start point. *)
Fixpoint interp_loop (thr : Z) (qs : list Z) (ts0 : Z) (pose0 : P) (ts : list Z) (ps : list P) (res : list P)
  : outcome (list P) :=
  match ts with
  | [] => Ret res
  | t :: ts' =>
      match ps with
      | [] => Undef
      | p :: ps' =>
          match qs with
          | [] => Undef
          | q :: qs' =>
              let diff := t - q in
              if diff <? thr then interp_loop thr qs t p ts' ps' res
              else if thr <? diff then
                let alpha := (secs (q - ts0) / secs (t - ts0))%R in
                let res := res ++ [ip pose0 p alpha] in
                match qs' with
                | [] => Ret res  (* break *)
                | _ => interp_loop thr qs' t p ts' ps' res
                end
              else interp_loop thr qs ts0 pose0 ts' ps' res
          end
      end
  end.
(** core.cpp 1635-1690 interp_poses: the poses appended to interped_poses. *)
Definition interp_poses (timestamps : list Z) (poses : list P) (interp_ts : list Z) (thr : Z) : outcome (list P) :=
  interp_loop thr interp_ts 0 Id timestamps poses [].

(** core.cpp 1706-1732: loop over samples 1...; [tgs] is target_ts from
    target_idx on. Line 1722 reads target_ts[target_idx] after the increment
    and before the test of line 1727. *)
Fixpoint closest_loop (tgs : list Z) (dc : Z) (pc : P) (ts : list Z) (ps : list P) (res : list P)
  : outcome (list P) :=
  match ts with
  | [] => Ret res
  | t :: ts' =>
      match ps with
      | [] => Undef
      | p :: ps' =>
          match tgs with
          | [] => Undef
          | tg :: tgs' =>
              let diff := Z.abs (t - tg) in
              if diff <? dc then closest_loop tgs diff p ts' ps' res
              else if dc <? diff then
                let res := res ++ [pc] in
                match tgs' with
                | [] => Undef
                | tg' :: _ => closest_loop tgs' (Z.abs (t - tg')) p ts' ps' res
                end
              else closest_loop tgs dc pc ts' ps' res
          end
      end
  end.
(** core.cpp 1692-1733 closest_poses. *)
Definition closest_poses (timestamps : list Z) (poses : list P) (target_ts : list Z) : outcome (list P) :=
  match timestamps, poses, target_ts with
  | t :: ts, p :: ps, tg :: _ => closest_loop target_ts (Z.abs (t - tg)) p ts ps []
  | _, _, _ => Undef
  end.
End P.
