(** * Files with poses and IMU samples (yac/lib/util/data.cpp 525-676, yac/lib/calib_data.cpp 65-105,
    yac/lib/calib_camera.cpp 1889-1931, yac/lib/util/fs.cpp 9-47)
    A file is its text. Trusted models of fgets and of fscanf's %ld, SCNu64 and %lf; numbers are [+-]digits[.digits]. Not modelled:
    exponents, inf, nan, hexadecimal, rounding to double. *)
From Coq Require Import Ascii String.
From Verif Require Import Base TextModel GeomModel.
Local Open Scope Z_scope.

Definition is_space (c : ascii) : bool := let n := Z.of_N (N_of_ascii c) in (n =? 32) || ((9 <=? n) && (n <=? 13)).
Fixpoint skip_ws (s : text) : text := match s with c :: t => if is_space c then skip_ws t else s | [] => [] end.
Definition plus_sign : ascii := "+"%char.
(** an optional sign: is it negative, and what follows *)
Definition scan_sign (s : text) : bool * text :=
  match s with
  | c :: t => if Ascii.eqb c minus then (true, t) else if Ascii.eqb c plus_sign then (false, t) else (false, s)
  | [] => (false, [])
  end.
(** the integer conversions: [None]: no digit. strtol / strtoull saturate. *)
Definition scan_int (s : text) : option (Z * text) :=
  let '(neg, s1) := scan_sign (skip_ws s) in
  let '(a, n, r) := scan_digits 0 0 s1 in
  match n with O => None | _ => Some (if neg : bool then - a else a, r) end.
Definition scan_ld (s : text) : option (Z * text) :=
  match scan_int s with None => None | Some (a, r) => Some (Z.max (- 2 ^ 63) (Z.min (2 ^ 63 - 1) a), r) end.
(** SCNu64 into an int64_t: the result modulo 2^64 *)
Definition scan_u64 (s : text) : option (Z * text) :=
  match scan_int s with
  | None => None
  | Some (a, r) => let u := if 2 ^ 64 <=? Z.abs a then 2 ^ 64 - 1 else a mod 2 ^ 64 in Some (if 2 ^ 63 <=? u then u - 2 ^ 64 else u, r)
  end.
Definition scan_f (s : text) : option (R * text) :=
  let '(neg, s1) := scan_sign (skip_ws s) in
  let sg := (if neg : bool then -1 else 1)%R in
  let '(a, n, r) := scan_digits 0 0 s1 in
  match r with
  | c :: r' =>
      if Ascii.eqb c dot then
        let '(f, k, r'') := scan_digits 0 0 r' in
        match (n + k)%nat with O => None | _ => Some ((sg * (IZR a + IZR f / 10 ^ k))%R, r'') end
      else match n with O => None | _ => Some ((sg * IZR a)%R, r) end
  | [] => match n with O => None | _ => Some ((sg * IZR a)%R, []) end
  end.
(** ",%lf" repeated *)
Fixpoint scan_fs (k : nat) (s : text) : option (list R * text) :=
  match k with
  | O => Some ([], s)
  | S k' =>
      match s with
      | c :: t => if Ascii.eqb c comma then
                    match scan_f t with
                    | None => None
                    | Some (x, r) => match scan_fs k' r with None => None | Some (xs, r') => Some (x :: xs, r') end
                    end
                  else None
      | [] => None
      end
  end.
(** one fscanf: a timestamp and [k] numbers; [None]: another return value than k + 1 *)
Definition scan_row (scan_ts : text -> option (Z * text)) (k : nat) (s : text) : option (Z * list R * text) :=
  match scan_ts s with
  | None => None
  | Some (ts, r) => match scan_fs k r with None => None | Some (xs, r') => Some (ts, xs, r') end
  end.
(** skip_line, fs.cpp 24-30: fgets reads at most BUFSIZ - 1 = 8191 characters *)
Fixpoint skip_upto (n : nat) (s : text) : text :=
  match n, s with
  | S n', c :: t => if Ascii.eqb c newline then t else skip_upto n' t
  | _, _ => s
  end.
Definition bufsiz : Z := 8192.
Definition skip_line (s : text) : outcome text := match s with [] => Throw Fatal | _ => Ret (skip_upto (Z.to_nat (bufsiz - 1)) s) end.
(** file_rows, fs.cpp 32-47 *)
Definition file_rows (s : text) : nat := length (getlines s).

(** ** load_poses, data.cpp 635-676; [None]: the file cannot be opened *)
Definition pose_of_row (xs : list R) : outcome mat4 :=
  match xs with
  | [rx; ry; rz; x; y; z; w] => Ret (tf_q (Q w x y z) (V3 rx ry rz))
  | _ => Undef
  end.
Fixpoint load_poses_rows (n : nat) (s : text) : outcome (list (Z * mat4)) :=
  match n with
  | O => Ret []
  | S n' =>
      match scan_row scan_ld 7 s with
      | None => Throw Fatal
      | Some (ts, xs, r) => obind (pose_of_row xs) (fun T => obind (load_poses_rows n' r) (fun l => Ret ((ts, T) :: l)))
      end
  end.
Definition load_poses (file : option text) : outcome (list (Z * mat4)) :=
  match file with
  | None => Throw Fatal
  | Some s =>
      match file_rows s with
      | O => Ret []
      | S n => obind (skip_line s) (load_poses_rows n)
      end
  end.
(** load_pose, data.cpp 592-633: the first row; I(4) without one *)
Definition load_pose (file : option text) : outcome mat4 :=
  match file with
  | None => Throw Fatal
  | Some s =>
      match file_rows s with
      | S (S _) =>
          obind (skip_line s) (fun r =>
          match scan_row scan_ld 7 r with
          | None => Throw Fatal
          | Some (_, xs, _) => pose_of_row xs
          end)
      | S O => obind (skip_line s) (fun _ => Ret (tf I3 (V3 0 0 0)))
      | O => Ret (tf I3 (V3 0 0 0))
      end
  end.
(** ** save_poses, data.cpp 525-547: poses[k] is unchecked *)
Definition row_text (ts : Z) (xs : list R) : text := dec_signed ts ++ flat_map (fun x => comma :: fmt_f x) xs ++ [newline].
Definition pose_row (T : mat4) : list R :=
  let r := tf_trans T in let q := tf_quat T in [vx r; vy r; vz r; qx q; qy q; qz q; qw q].
Fixpoint save_poses_rows (ts : list Z) (ps : list mat4) : outcome text :=
  match ts, ps with
  | [], _ => Ret []
  | _ :: _, [] => Undef
  | t :: ts', T :: ps' => obind (save_poses_rows ts' ps') (fun s => Ret (row_text t (pose_row T) ++ s))
  end.
Definition pose_header : text := list_ascii_of_string "#ts,rx,ry,rz,qx,qy,qz,qw".
Definition save_poses (ts : list Z) (ps : list mat4) : outcome text :=
  obind (save_poses_rows ts ps) (fun s => Ret (pose_header ++ [newline] ++ s)).

(** ** load_imu_data, calib_data.cpp 65-105: a timestamp, then wx, wy, wz, ax, ay, az; the result: timestamps, a_B, w_B *)
Fixpoint load_imu_rows (n : nat) (s : text) : outcome (list (Z * vec3 * vec3)) :=
  match n with
  | O => Ret []
  | S n' =>
      match scan_row scan_u64 6 s with
      | Some (ts, [wx; wy; wz; ax; ay; az], r) => obind (load_imu_rows n' r) (fun l => Ret ((ts, V3 ax ay az, V3 wx wy wz) :: l))
      | _ => Throw Fatal
      end
  end.
Definition load_imu_data (file : option text) : outcome (list (Z * vec3 * vec3)) :=
  match file with
  | None => Throw Fatal
  | Some s => match file_rows s with O => Ret [] | S n => obind (skip_line s) (load_imu_rows n) end
  end.
(** save_imu_data, data.cpp 567-590: no header; imu_acc[k] and imu_gyr[k] are unchecked (assert is compiled out) *)
Fixpoint save_imu_data (ts : list Z) (acc gyr : list vec3) : outcome text :=
  match ts, acc, gyr with
  | [], _, _ => Ret []
  | t :: ts', a :: acc', g :: gyr' =>
      obind (save_imu_data ts' acc' gyr') (fun s => Ret (row_text t [vx a; vy a; vz a; vx g; vy g; vz g] ++ s))
  | _, _, _ => Undef
  end.

(** ** calib_camera_t::_load_camera_poses, calib_camera.cpp 1889-1931: the poses there are (times and values), updated.
    A file that cannot be opened or a row that cannot be read ends it silently. *)
Definition set_pose (ts : Z) (p : pose) (l : list (Z * pose)) : list (Z * pose) :=
  map (fun tp => if fst tp =? ts then (fst tp, p) else tp) l.
Fixpoint load_camera_rows (n : nat) (s : text) (l : list (Z * pose)) : list (Z * pose) :=
  match n with
  | O => l
  | S n' =>
      match scan_row scan_ld 7 s with
      | Some (ts, [rx; ry; rz; x; y; z; w], r) => load_camera_rows n' r (set_pose ts (P (V3 rx ry rz) (Q w x y z)) l)
      | _ => l
      end
  end.
Definition load_camera_poses (file : option text) (l : list (Z * pose)) : outcome (list (Z * pose)) :=
  match file with
  | None => Ret l
  | Some s => match file_rows s with O => Ret l | S n => obind (skip_line s) (fun r => Ret (load_camera_rows n r l)) end
  end.
