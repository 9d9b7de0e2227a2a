(** * What a file with poses or IMU samples says, independently of the reader *)
From Coq Require Import Ascii.
From Verif Require Import Base TextModel GeomModel.
Local Open Scope Z_scope.

(** a digit string and its value *)
Definition Digits (ds : list Z) (t : text) : Prop := Forall (fun d => 0 <= d < 10) ds /\ t = map digit_char ds.
Definition dval (ds : list Z) : Z := fold_left (fun a d => a * 10 + d) ds 0.
(** an optional sign *)
Inductive Sign : Z -> text -> Prop :=
| Sign_none : Sign 1 []
| Sign_plus : Sign 1 ["+"%char]
| Sign_minus : Sign (-1) ["-"%char].
(** [t] is the decimal integer [n] *)
Definition Integer (t : text) (n : Z) : Prop :=
  exists g s ds d, Sign g s /\ Digits ds d /\ ds <> [] /\ t = s ++ d /\ n = g * dval ds.
(** [t] is the decimal number [x]: [sign] digits, or [sign] digits . digits *)
Definition Decimal (t : text) (x : R) : Prop :=
  exists g s ds d, Sign g s /\ Digits ds d /\
  ((ds <> [] /\ t = s ++ d /\ x = IZR (g * dval ds)) \/
   (exists fs f, Digits fs f /\ ds ++ fs <> [] /\ t = s ++ d ++ "."%char :: f /\
    x = (IZR g * (IZR (dval ds) + IZR (dval fs) / 10 ^ length fs))%R)).
(** white space inside a line: anything isspace() accepts but the newline *)
Definition Blank (t : text) : Prop := Forall (fun c => In (N_of_ascii c) [9; 11; 12; 13; 32]%N) t.
(** the line [t] holds the time [ts] and then the numbers [xs], separated by commas; white space may follow *)
Definition Line (t : text) (ts : Z) (xs : list R) : Prop :=
  exists ti l w, Integer ti ts /\ Forall2 Decimal l xs /\ Blank w /\ t = ti ++ flat_map (fun n => ","%char :: n) l ++ w.
(** the text with these lines; [nl]: the last one ends with a newline too *)
Fixpoint unlines (nl : bool) (ls : list text) : text :=
  match ls with
  | [] => []
  | [l] => l ++ (if nl then ["010"%char] else [])
  | l :: r => l ++ "010"%char :: unlines nl r
  end.
Definition int64 (z : Z) : Prop := - 2 ^ 63 <= z < 2 ^ 63.
(** a first line that skip_line skips in one go *)
Definition Header (h : text) : Prop := ~ In "010"%char h /\ Z.of_nat (length h) <= 8190.
(** the line says: at [ts] the pose with position [r] and quaternion [q] *)
Definition PoseLine (t : text) (e : Z * (vec3 * quat)) : Prop :=
  let '(ts, (r, q)) := e in int64 ts /\ Line t ts [vx r; vy r; vz r; qx q; qy q; qz q; qw q].
(** the line says: at [ts] the angular velocity [w] and the acceleration [a] *)
Definition ImuLine (t : text) (e : Z * (vec3 * vec3)) : Prop :=
  let '(ts, (w, a)) := e in int64 ts /\ Line t ts [vx w; vy w; vz w; vx a; vy a; vz a].
Definition close (e : R) (x y : R) : Prop := (Rabs (x - y) <= e)%R.
Definition close3 (e : R) (a b : vec3) : Prop := close e (vx a) (vx b) /\ close e (vy a) (vy b) /\ close e (vz a) (vz b).
Definition close33 (e : R) (A B : mat3) : Prop :=
  close e (m00 A) (m00 B) /\ close e (m01 A) (m01 B) /\ close e (m02 A) (m02 B) /\
  close e (m10 A) (m10 B) /\ close e (m11 A) (m11 B) /\ close e (m12 A) (m12 B) /\
  close e (m20 A) (m20 B) /\ close e (m21 A) (m21 B) /\ close e (m22 A) (m22 B).
(** the last entry of [l] at time [t] *)
Fixpoint last_at {A} (t : Z) (l : list (Z * A)) : option A :=
  match l with
  | [] => None
  | (t', a) :: r => match last_at t r with Some b => Some b | None => if t' =? t then Some a else None end
  end.
