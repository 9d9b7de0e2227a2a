(** * marg_residual_t::form_hessian (yac/lib/calib_residuals.cpp 1835-1993): which columns the
    parameters get, and the accumulation of H and b *)
From Coq Require Import Reals.
From Verif Require Import Base SolverLsqModel.
Local Open Scope Z_scope.

Section MargLayout.
Context (info : Z -> pinfo) (marg : Z -> bool).   (* param_t::marginalize *)

(** params_seem, lines 1841, 1855-1857, 1875: first occurrences, in order *)
Definition see (seen : list Z) (p : Z) : list Z :=
  if existsb (Z.eqb p) seen then seen else seen ++ [p].
Definition first_seen (blks : list (list Z)) : list Z := fold_left see (concat blks) [].
(** lines 1860-1873: the marginalised parameters (whether fixed or not) and the remaining ones by
    type; an unknown type that is not marginalised goes nowhere *)
Definition is_type (t : ptype) (p : Z) : bool :=
  negb (marg p) &&
  match pi_type (info p), t with
  | TPose, TPose | TSb, TSb | TCamera, TCamera | TExtrinsics, TExtrinsics | TFiducial, TFiducial => true
  | _, _ => false
  end.
Definition marg_params (blks : list (list Z)) : list Z := filter marg (first_seen blks).
(** lines 1886-1903: pose, speed-bias, fiducial, extrinsics, camera; fixed ones are skipped *)
Definition remain_params (blks : list (list Z)) : list Z :=
  let s := first_seen blks in
  filter (fun p => negb (pi_fixed (info p)))
    (filter (is_type TPose) s ++ filter (is_type TSb) s ++ filter (is_type TFiducial) s ++
     filter (is_type TExtrinsics) s ++ filter (is_type TCamera) s).
(** param_index_, lines 1878-1903 *)
Definition marg_order (blks : list (list Z)) : list (Z * Z) :=
  assign info 0 (marg_params blks ++ remain_params blks).
Definition sizes (l : list Z) : Z := fold_right (fun p n => pi_size (info p) + n) 0 l.
Definition marg_m (blks : list (list Z)) : Z := sizes (marg_params blks).     (* m_ *)
Definition marg_r (blks : list (list Z)) : Z := sizes (remain_params blks).   (* r_ *)
(** lines 1927-1992: the accumulation loops are those of solver_t::_form_hessian (solver.cpp
    440-474), with param_index_[p] (operator[]: 0 for an unknown parameter) *)
Definition marg_hessian (rs : list resid) : (Z -> Z -> R) * (Z -> R) :=
  form_hessian info (marg_order (map (fun x => map fst (rs_blk x)) rs)) rs.
End MargLayout.
