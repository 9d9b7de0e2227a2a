(** * Specification of signal interpolation *)
From Verif Require Import Base GeomModel.
From Coq Require Import Sorted.
Open Scope Z_scope.

(** A sampled signal is a list of (time stamp, value). *)
Definition ascending (l : list Z) : Prop := StronglySorted Z.lt l.

(** [v] is the point at time [l] of the straight line through samples [a] and [b]. *)
Definition on_line (a b : Z * vec3) (l : Z) (v : vec3) : Prop :=
  v = vadd (snd a) (vscale (IZR (l - fst a) / IZR (fst b - fst a)) (vsub (snd b) (snd a))).

(** [a] and [b] are consecutive samples. *)
Definition neighbours {A} (s : list A) (a b : A) : Prop :=
  exists p q, s = p ++ a :: b :: q.

(** [v] is the piecewise linear interpolant of the signal at time [l]. *)
Definition interpolant (s : list (Z * vec3)) (l : Z) (v : vec3) : Prop :=
  exists a b, neighbours s a b /\ fst a <= l <= fst b /\ on_line a b l v.

(** [v] is on a segment between two samples around [l], not necessarily consecutive. *)
Definition on_chord (s : list (Z * vec3)) (l : Z) (v : vec3) : Prop :=
  exists a b, In a s /\ In b s /\ fst a <= l <= fst b /\ fst a < fst b /\ on_line a b l v.

(** Between any two consecutive samples there is a requested stamp. *)
Definition dense (ls ts : list Z) : Prop :=
  forall a b, neighbours ts a b -> exists l, In l ls /\ a < l < b.
