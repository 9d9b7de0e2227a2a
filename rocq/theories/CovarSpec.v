(** * Specification: stacked Jacobians *)
From Coq Require Import Reals.
From Verif Require Import Base SolverLsqModel.
Local Open Scope Z_scope.

(** The Jacobian of one residual with respect to [p]: zero if it does not depend on [p]. *)
Fixpoint block_for (p : Z) (bs : list (Z * (Z -> Z -> R))) : Z -> Z -> R :=
  match bs with [] => fun _ _ => 0%R | (q, J) :: t => if q =? p then J else block_for p t end.
(** The Jacobian of all residuals, one below the other, with respect to [p]: row [k], component [a]. *)
Fixpoint stacked (rs : list resid) (p k a : Z) : R :=
  match rs with
  | [] => 0%R
  | x :: t => if k <? Z.of_nat (rs_n x) then block_for p (rs_blk x) k a else stacked t p (k - Z.of_nat (rs_n x)) a
  end.
(** The residuals depend on [p]. *)
Definition involves (rs : list resid) (p : Z) : Prop := exists x, In x rs /\ In p (map fst (rs_blk x)).
(** Column [c] is component [a] of [p] when the parameters of [l] are put side by side. *)
Definition column (info : Z -> pinfo) (l : list Z) (p a c : Z) : Prop :=
  exists l1 l2, l = l1 ++ p :: l2 /\ 0 <= a < pi_size (info p) /\ c = fold_right (fun q n => pi_size (info q) + n) 0 l1 + a.
(** Sensible problems: sizes are not negative, no residual has a parameter twice. *)
Definition sensible (info : Z -> pinfo) (rs : list resid) : Prop :=
  (forall p, 0 <= pi_size (info p)) /\ (forall x, In x rs -> NoDup (map fst (rs_blk x))).
