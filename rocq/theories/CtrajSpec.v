(** What is assumed of Eigen's interpolating splines (C75). *)
From Coq Require Import Reals List.
From Verif Require Import GeomModel CalcSpec CtrajModel.
Local Open Scope R_scope.

(** the spline passes through the data at the knots *)
Definition Interpolates (s : spline) (ks : list R) (vs : list vec3) : Prop :=
  forall i k v, nth_error ks i = Some k -> nth_error vs i = Some v -> s_0 s k = v.
(** the reported derivatives are the derivatives, between the first and the last knot *)
Definition Differentiates (s : spline) : Prop :=
  forall u, 0 < u < 1 -> dv (s_0 s) u (s_1 s u) /\ dv (s_1 s) u (s_2 s u).
