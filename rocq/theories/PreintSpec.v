(** Specification vocabulary for IMU propagation (C82-C84). *)
From Coq Require Import Reals.
From Verif Require Import Base GeomModel ImuModel.
From Coquelicot Require Import Coquelicot.
Local Open Scope R_scope.

(** nanoseconds to seconds *)
Definition time_of (ns : Z) : R := IZR ns / 10 ^ 9.
(** an IMU buffer holding the samples [(stamp, (accel, gyro))] of [l] *)
Definition buffer (l : list sample) : imu_data := Imu (map fst l) (map (fun s => fst (snd s)) l) (map (fun s => snd (snd s)) l).
(** strictly increasing stamps *)
Fixpoint rising (l : list sample) : Prop :=
  match l with
  | p :: (n :: _) as r => (fst p < fst n)%Z /\ rising r
  | _ => True
  end.
(** two samples next to each other *)
Inductive adjacent : list sample -> sample -> sample -> Prop :=
| adj_here p n r : adjacent (p :: n :: r) p n
| adj_there x l p n : adjacent l p n -> adjacent (x :: l) p n.
(** the buffer covers [t0, t1] *)
Definition covers (l : list sample) (t0 t1 : Z) : Prop :=
  exists f b, hd_error l = Some f /\ hd_error (rev l) = Some b /\ (fst f <= t0)%Z /\ (t1 <= fst b)%Z.
(** some sample is stamped [t] *)
Definition stamped (l : list sample) (t : Z) : Prop := exists s, In s l /\ fst s = t.
(** some sample is stamped within [t0, t1]: the window is not strictly inside one sampling interval *)
Definition touched (l : list sample) (t0 t1 : Z) : Prop := exists s, In s l /\ (t0 <= fst s <= t1)%Z.
(** [w] is affine on [a,b] *)
Definition affine_on (w : R -> R) (a b : R) : Prop :=
  forall s, a <= s <= b -> w s = w a + (s - a) / (b - a) * (w b - w a).
(** every sample of the gyroscope reads the rate [w t] about the axis [u] plus the bias, and the rate is affine
    between two samples *)
Definition turns_at (l : list sample) (bg u : vec3) (w : R -> R) : Prop :=
  (forall s, In s l -> snd (snd s) = vadd bg (vscale (w (time_of (fst s))) u)) /\
  (forall p n, adjacent l p n -> affine_on w (time_of (fst p)) (time_of (fst n))).
(** the part of the sampling interval [p,n] inside the window *)
Definition seg_from (t0 : Z) (p : sample) : Z := Z.max t0 (fst p).
Definition seg_to (t1 : Z) (n : sample) : Z := Z.min t1 (fst n).
(** in each of these parts the sensor turns by zero or by more than 2e-6 rad: the series branch of the
    code's [sinc], which is not exact, is not taken *)
Definition coarse (l : list sample) (t0 t1 : Z) (w : R -> R) : Prop :=
  forall p n, adjacent l p n -> (seg_from t0 p < seg_to t1 n)%Z ->
    let th := RInt w (time_of (seg_from t0 p)) (time_of (seg_to t1 n)) in th = 0 \/ 2 / 10 ^ 6 < Rabs th.
(** 15 x 15 matrices, symmetric and positive (semi)definite *)
Fixpoint total (n : nat) (f : nat -> R) : R := match n with O => 0 | S k => total k f + f k end.
Definition quadratic (P : nat -> nat -> R) (x : nat -> R) : R :=
  total 15 (fun i => total 15 (fun j => x i * P i j * x j)).
Definition symmetric15 (P : nat -> nat -> R) : Prop := forall i j, (i < 15)%nat -> (j < 15)%nat -> P i j = P j i.
Definition psd15 (P : nat -> nat -> R) : Prop := forall x, 0 <= quadratic P x.
Definition pd15 (P : nat -> nat -> R) : Prop := forall x, (exists i, (i < 15)%nat /\ x i <> 0) -> 0 < quadratic P x.
(** between two samples of the window the sensor turns by nothing or by at least 1e-4 rad: the series branches of
    the code's [sinc] and right Jacobian, which are not exact, are not taken *)
Definition brisk (l : list sample) (t0 t1 : Z) (bg : vec3) : Prop :=
  forall p n, adjacent l p n -> (t0 <= fst p)%Z -> (fst n <= t1)%Z ->
    let phi := vscale (time_of (fst n - fst p)) (vsub (vscale (1 / 2) (vadd (snd (snd p)) (snd (snd n)))) bg) in
    phi = vzero \/ / 10 ^ 4 <= vnorm phi.
(** the sum of [g dt rest] over the parts of the sampling intervals inside the window: [dt] is the length of the
    part and [rest] the time from its end to the end of the window, in seconds *)
Fixpoint over_segments (g : R -> R -> R) (t0 t1 : Z) (l : list sample) : R :=
  match l with
  | p :: ((n :: _) as r) =>
      (if (seg_from t0 p <? seg_to t1 n)%Z
       then g (time_of (seg_to t1 n) - time_of (seg_from t0 p)) (time_of t1 - time_of (seg_to t1 n)) else 0)
      + over_segments g t0 t1 r
  | _ => 0
  end.
(** a 15-vector from its blocks: position, orientation, velocity, gyroscope bias, accelerometer bias *)
Definition vec15 (p a v bg ba : vec3) : nat -> R := fun i =>
  let e (b : vec3) (k : nat) := match k with 0%nat => vx b | 1%nat => vy b | _ => vz b end in
  match (i / 3)%nat with
  | 0%nat => e p (i mod 3)%nat | 1%nat => e a (i mod 3)%nat | 2%nat => e v (i mod 3)%nat
  | 3%nat => e bg (i mod 3)%nat | _ => e ba (i mod 3)%nat
  end.
Definition sq (v : vec3) : R := vdot v v.
