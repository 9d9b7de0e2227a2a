(** * Loading of the detected grids (calib_camera_t::_load_views, yac/lib/calib_camera.cpp 1854-1887; list_files and list_dir,
    yac/lib/util/fs.cpp 185-223)
    The directories are arbitrary: the entries as readdir gives them ([None]: there is no such directory). Reading one grid file is
    an arbitrary function [load] of camera and file name (aprilgrid_t(path, true): C12 is about it). *)
From Coq Require Import Reals Ascii.
From Verif Require Import Base.
From stdpp Require Import gmap sets list sorting.
From Verif Require Import TextModel AprilGridModel AprilGridIOModel SolverModel CalibModel.
Local Open Scope Z_scope.

(** std::string::operator<=: characters as unsigned char *)
Fixpoint text_leb (a b : text) : bool :=
  match a, b with
  | [], _ => true
  | _ :: _, [] => false
  | x :: a', y :: b' => let cx := N_of_ascii x in let cy := N_of_ascii y in
                        if N.ltb cx cy then true else if N.ltb cy cx then false else text_leb a' b'
  end.
Definition text_le (a b : text) : Prop := text_leb a b = true.
#[global] Instance text_le_dec : RelDecision text_le := fun a b => decide (text_leb a b = true).
(** list_files: readdir's entries without . and .., sorted *)
Definition dot_name (f : text) : bool := match f with [c] => Ascii.eqb c dot | [c; d] => Ascii.eqb c dot && Ascii.eqb d dot | _ => false end.
Definition list_files (dir : option (list text)) : list text :=
  match dir with None => [] | Some l => merge_sort text_le (List.filter (fun f => negb (dot_name f)) l) end.

(** ::isdigit on all of substr(0, 19), std::stoull, conversion to int64_t; [Ret None]: not a grid file. stoull throws
    std::invalid_argument without a digit; 19 digits are less than 2^64. *)
Definition is_digit (c : ascii) : bool := match char_digit c with Some _ => true | None => false end.
Definition name_stamp (f : text) : outcome (option Z) :=
  let s := firstn 19 f in
  if negb (forallb is_digit s) then Ret None
  else match s with
       | [] => Throw StdExn
       | _ => let u := fst (fst (scan_digits 0 0 s)) in Ret (Some (if 2 ^ 63 <=? u then u - 2 ^ 64 else u))
       end.

Section Load.
Context (blocks : Z -> list Z) (corners : list (Z * list (Z * pt3))).
Context {V : Type}.
Context (dirs : Z -> option (list text)) (load : Z -> text -> outcome grid).

(** grid_data: timestamp -> camera -> file *)
Notation gdata := (gmap Z (gmap Z text)).
Fixpoint cam_files (cam : Z) (fs : list text) (gd : gdata) : outcome gdata :=
  match fs with
  | [] => Ret gd
  | f :: t =>
      obind (name_stamp f) (fun o =>
      match o with
      | None => cam_files cam t gd
      | Some ts => cam_files cam t (<[ts := <[cam := f]> (default ∅ (gd !! ts))]> gd)
      end)
  end.
Fixpoint grid_files (cams : list Z) (gd : gdata) : outcome gdata :=
  match cams with
  | [] => Ret gd
  | c :: t => obind (cam_files c (list_files (dirs c)) gd) (grid_files t)
  end.
(** the keys of a std::map, ascending *)
Definition sorted_keys {A} (m : gmap Z A) : list Z := merge_sort Z.le ((map_to_list m).*1).

(** the calibrator with calib_data (timestamp -> camera -> grid) and timestamps *)
Record loaded := mkLoaded { lv_k : calib V; lv_data : gmap Z (gmap Z grid); lv_ts : gset Z }.
Context (env_of : loaded -> Z -> env V).

Fixpoint load_grids (cams : list Z) (m : gmap Z text) : outcome (list (Z * grid)) :=
  match cams with
  | [] => Ret []
  | c :: t =>
      match m !! c with
      | None => load_grids t m
      | Some f => obind (load c f) (fun g => obind (load_grids t m) (fun l => Ret ((c, g) :: l)))
      end
  end.
Definition set_data (k : calib V) (d : gset Z) : calib V :=
  mkCalib (k_cams k) (k_exts k) d (k_poses k) (k_views k) (k_vts k) (k_solver k) (k_info k).
(** one turn of the loop, 1875-1886, with what add_view does to calib_data (1022-1029) *)
Definition load_view (ts : Z) (m : gmap Z text) (x : loaded) : outcome loaded :=
  obind (load_grids (sorted_keys m) m) (fun gs =>
  let data := <[ts := list_to_map gs ∪ default ∅ (lv_data x !! ts)]> (lv_data x) in
  obind (add_view blocks corners (env_of x ts) (set_data (lv_k x) (dom data)) gs) (fun r =>
  let data' := match first_detected gs with
               | Some t => if decide (is_Some (data !! t)) then data
                           else <[t := list_to_map (List.filter (fun cg => g_detected (snd cg)) gs)]> data
               | None => data
               end in
  Ret (mkLoaded (snd r) data' ({[ts]} ∪ lv_ts x)))).
Fixpoint load_all (l : list Z) (gd : gdata) (x : loaded) : outcome loaded :=
  match l with
  | [] => Ret x
  | ts :: t => obind (load_view ts (default ∅ (gd !! ts)) x) (load_all t gd)
  end.
Definition load_views (x : loaded) : outcome loaded :=
  obind (grid_files (sorted_keys (k_cams (lv_k x))) ∅) (fun gd => load_all (sorted_keys gd) gd x).
End Load.
Arguments loaded V : clear implicits.
