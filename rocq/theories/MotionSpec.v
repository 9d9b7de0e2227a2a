(** * Specification vocabulary for C106 *)
From Coq Require Import List ZArith Reals.
From Verif Require Import Base GeomModel MotionModel.
Import ListNotations.
Local Open Scope Z_scope.

Section Spec.
Context (camera : Z -> bool) (ext : Z -> option mat4).
(** the camera pose of a frame: from the first camera, in the order of the indices, whose grid can be estimated *)
Definition located (f : frame) (T : mat4) : Prop :=
  exists l1 s l2 P E, snd f = l1 ++ s :: l2 /\ (forall x, In x l1 -> sn_T x = None) /\ sn_T s = Some P /\ ext (sn_cam s) = Some E /\ T = mmul4 E P.
Definition not_located (f : frame) : Prop := forall x, In x (snd f) -> sn_T x = None.
(** [es]: the frames with a pose, in order *)
Inductive locates : list frame -> list (Z * mat4) -> Prop :=
| L_nil : locates [] []
| L_pose f T fs es : located f T -> locates fs es -> locates (f :: fs) ((fst f, T) :: es)
| L_none f fs es : not_located f -> locates fs es -> locates (f :: fs) es.
(** all grids are of calibrated cameras *)
Definition known (fs : list frame) : Prop := forall f s, In f fs -> In s (snd f) -> camera (sn_cam s) = true /\ ext (sn_cam s) <> None.
Definition ordered (fs : list frame) : Prop := forall i j f g, (i < j)%nat -> nth_error fs i = Some f -> nth_error fs j = Some g -> fst f < fst g.
(** detected corners of a frame *)
Fixpoint total (l : list seen) : Z := match l with [] => 0 | s :: t => sn_nb s + total t end.

(** the [k]-th frame with a pose: [n] detections counted, speed and turn since the frame with a pose before *)
Definition entry (fs : list frame) (es : list (Z * mat4)) (k : nat) (x : key) (ts : Z) : Prop :=
  exists f ts0 T0 T, nth_error fs k = Some f /\ nth_error es (k - 1) = Some (ts0, T0) /\ nth_error es k = Some (ts, T) /\
    x = (- total (snd f), motion_w T0 T, motion_v T0 T).
(** the order of the candidates: more detections first, then the smaller turn, then the smaller displacement *)
Definition before (a b : key) : Prop :=
  let '(n, w, v) := a in let '(n', w', v') := b in n < n' \/ n = n' /\ ((w < w')%R \/ w = w' /\ (v < v')%R).
End Spec.
