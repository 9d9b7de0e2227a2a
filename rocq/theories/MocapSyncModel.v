(** * lerp_body_poses (yac/lib/calib_data.cpp 7-63): motion-capture poses at the stamps of the camera frames *)
From Verif Require Import Base.
Local Open Scope Z_scope.

Section Lerp.
(** [P]: poses; [lerp t0 p0 t1 p1 t] is lerp_pose (InterpModel.v), with results in [A]; [id] is I(4). A grid is represented
    by its time stamp and whatever else it holds ([G]). *)
Context {P A G : Type} (lerp : Z -> P -> Z -> P -> Z -> A) (id : P) (ts : G -> Z).

(** The loop, calib_data.cpp 28-62, over the remaining body stamps and the poses at the same indices; [gts] are the stamps
    of the grids from grid_idx on. [body_poses[i]] beyond the end is undefined. t1 and pose1 (24-25, 59-60) are always
    written before they are read and are no state. *)
Fixpoint lerp_loop (off : Z) (bts : list Z) (ps : list P) (gts : list Z) (t0 : Z) (pose0 : P) : outcome (list A) :=
  match bts with
  | [] => Ret []
  | b :: bts' =>
      match gts with
      | [] => Ret []
      | t_lerp :: gts' =>
          let t_now := b + off in
          if t_now <? t_lerp then
            match ps with [] => Undef | p :: ps' => lerp_loop off bts' ps' gts t_now p end
          else if t_lerp <? t_now then
            match ps with
            | [] => Undef
            | p :: ps' => obind (lerp_loop off bts' ps' gts' t_now p) (fun l => Ret (lerp t0 pose0 t_now p t_lerp :: l))
            end
          else lerp_loop off bts' (tl ps) gts t0 pose0
      end
  end.
(** 13-21: grids strictly between the first and the last body stamp *)
Definition inside (first last : Z) (g : G) : bool := (first <? ts g) && (ts g <? last).
(** lerp_body_poses. front() and back() of an empty vector are undefined; [grid_timestamps.size() - 1] of an empty vector
    is 2^64 - 1, so that the test of line 32 does not stop the loop and [grid_timestamps[0]] is read beyond the end. *)
Definition lerp_body_poses (grids : list G) (bts : list Z) (ps : list P) (off : Z) : outcome (list G * list A) :=
  match grids, bts with
  | [], [] => Ret ([], [])
  | _, [] => Undef
  | _, b :: _ =>
      match filter (inside b (last bts 0)) grids with
      | [] => Undef
      | kept => obind (lerp_loop off bts ps (map ts kept) 0 id) (fun l => Ret (kept, l))
      end
  end.
End Lerp.
