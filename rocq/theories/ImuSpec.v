(** * Specification vocabulary for the IMU buffer *)
From Verif Require Import Base GeomModel ImuModel.
From Coq Require Import Sorted.
Open Scope Z_scope.

(** The three deques have the same length ... *)
Definition aligned (b : imu_data) : Prop :=
  length (i_acc b) = length (i_ts b) /\ length (i_gyr b) = length (i_ts b).
(** ... so that the buffer is a list of samples. *)
Definition samples (b : imu_data) : list sample := combine (i_ts b) (combine (i_acc b) (i_gyr b)).
(** Time stamps strictly ascend. *)
Definition in_order (b : imu_data) : Prop := StronglySorted (fun x y => fst x < fst y) (samples b).
