(** * Solver bookkeeping: solver_t and ceres_solver_t
    (yac/lib/solver.hpp 28-45, yac/lib/solver.cpp 76-143 and 966-1085).

    Objects (residuals, parameters) are identified by their addresses (Z).
    Simplification: [param->data()] is taken to identify the parameter object (each
    param_t owns its own, non-empty, storage), so the map [params] from data pointer to
    parameter is modelled as the set of its parameters.  std::unordered_* containers are
    std++ finite sets and maps (their iteration order is used nowhere observable: see
    [remove_param]). *)
From Verif Require Import Base.
From stdpp Require Import gmap sets list.
Local Open Scope Z_scope.

Section Solver.
(** calib_residual_t::param_blocks, set by the residual's constructor and never changed
    afterwards (calib_residuals.cpp, constructors) *)
Context (blocks : Z -> list Z).

(** solver.hpp 33-39: res_fns, params, param2res, res2param *)
Record solver := mkSolver {
  s_res : gset Z;
  s_params : gset Z;
  s_p2r : gmap Z (gset Z);
  s_r2p : gmap Z (gset Z) }.
Definition solver_new : solver := mkSolver ∅ ∅ ∅ ∅.

(** [m[k]] of std::unordered_map: a missing key is default-inserted; [mget] is the value *)
Definition mget (m : gmap Z (gset Z)) (k : Z) : gset Z := default ∅ (m !! k).

(** solver_t::add_param, solver.cpp 82 *)
Definition add_param (s : solver) (p : Z) : solver :=
  mkSolver (s_res s) ({[p]} ∪ s_params s) (s_p2r s) (s_r2p s).

(** solver_t::add_residual, solver.cpp 84-103 *)
Definition add_residual (s : solver) (r : Z) : outcome solver :=
  if decide (r ∈ s_res s) then Throw Fatal
  else
    Ret (mkSolver ({[r]} ∪ s_res s) (s_params s)
           (foldl (fun m p => <[p := {[r]} ∪ mget m p]> m) (s_p2r s) (blocks r))
           (foldl (fun m p => <[r := {[p]} ∪ mget m r]> m) (s_r2p s) (blocks r))).

(** the loop of solver_t::remove_param, solver.cpp 115-122, over the residuals [l] *)
Fixpoint erase_residuals (l : list Z) (res : gset Z) (r2p : gmap Z (gset Z))
  : outcome (gset Z * gmap Z (gset Z)) :=
  match l with
  | [] => Ret (res, r2p)
  | r :: t => if decide (r ∈ res) then erase_residuals t (res ∖ {[r]}) (delete r r2p)
              else Throw Fatal
  end.
(** solver_t::remove_param, solver.cpp 105-125.  The FATAL leaves a partially updated
    object behind; that state is not observable through a returned value here. *)
Definition remove_param (s : solver) (p : Z) : outcome solver :=
  if decide (p ∈ s_params s) then
    let params := s_params s ∖ {[p]} in
    match s_p2r s !! p with
    | None => Ret (mkSolver (s_res s) params (s_p2r s) (s_r2p s))
    | Some rs =>
        obind (erase_residuals (elements rs) (s_res s) (s_r2p s)) (fun x =>
        Ret (mkSolver (fst x) params (delete p (s_p2r s)) (snd x)))
    end
  else Throw Fatal.

(** solver_t::remove_residual, solver.cpp 127-143 *)
Definition remove_residual (s : solver) (r : Z) : outcome solver :=
  if decide (r ∈ s_res s) then
    Ret (mkSolver (s_res s ∖ {[r]}) (s_params s)
           (foldl (fun m p => <[p := mget m p ∖ {[r]}]> m) (s_p2r s) (blocks r))
           (delete r (s_r2p s)))
  else Throw Fatal.

Inductive sop := AddParam (p : Z) | AddRes (r : Z) | RemParam (p : Z) | RemRes (r : Z).
Definition sstep (s : solver) (o : sop) : outcome solver :=
  match o with
  | AddParam p => Ret (add_param s p)
  | AddRes r => add_residual s r
  | RemParam p => remove_param s p
  | RemRes r => remove_residual s r
  end.
(** a history of calls; the first exception ends it *)
Definition srun (h : list sop) : outcome solver :=
  fold_left (fun s o => obind s (fun s => sstep s o)) h (Ret solver_new).

(** ** ceres_solver_t *)
(** ceres::Problem restricted to its graph: parameter blocks and residual blocks (a
    residual block is identified by the residual object; res2id maps one to the other).
    AddResidualBlock adds unknown parameter blocks implicitly and aborts when a parameter
    block occurs twice in one residual; RemoveParameterBlock also removes the residual
    blocks that depend on it.  (Ceres documentation; the library itself is not modelled.) *)
Record csolver := mkCsolver {
  c_base : solver;
  c_pparams : gset Z;            (* problem: parameter blocks *)
  c_pres : gset Z;               (* problem: residual blocks *)
  c_res2id : gset Z }.           (* keys of res2id *)
Definition csolver_new : csolver := mkCsolver solver_new ∅ ∅ ∅.

(** ceres_solver_t::add_param, solver.cpp 984-1010 *)
Definition c_add_param (s : csolver) (p : Z) : csolver :=
  mkCsolver (add_param (c_base s) p) ({[p]} ∪ c_pparams s) (c_pres s) (c_res2id s).
(** ceres_solver_t::add_residual, solver.cpp 1012-1036 *)
Definition c_add_residual (s : csolver) (r : Z) : outcome csolver :=
  obind (add_residual (c_base s) r) (fun b =>
  if decide (NoDup (blocks r)) then
    Ret (mkCsolver b (list_to_set (blocks r) ∪ c_pparams s) ({[r]} ∪ c_pres s) ({[r]} ∪ c_res2id s))
  else Throw StdExn).
(** ceres_solver_t::remove_residual, solver.cpp 1061-1085 *)
Definition c_remove_residual (s : csolver) (r : Z) : outcome csolver :=
  if decide (r ∈ s_res (c_base s)) then
    if decide (r ∈ c_res2id s) then
      obind (remove_residual (c_base s) r) (fun b =>
      if decide (r ∈ c_pres s) then
        Ret (mkCsolver b (c_pparams s) (c_pres s ∖ {[r]}) (c_res2id s ∖ {[r]}))
      else Throw StdExn)
    else Throw Fatal
  else Throw Fatal.
(** the loop of ceres_solver_t::remove_param, solver.cpp 1050-1053, over a copy of the set *)
Fixpoint c_remove_residuals (l : list Z) (s : csolver) : outcome csolver :=
  match l with
  | [] => Ret s
  | r :: t => obind (c_remove_residual s r) (c_remove_residuals t)
  end.
(** ceres_solver_t::remove_param, solver.cpp 1038-1059 *)
Definition c_remove_param (s : csolver) (p : Z) : outcome csolver :=
  if decide (p ∈ s_params (c_base s)) then
    let b := c_base s in
    let s1 := mkCsolver (mkSolver (s_res b) (s_params b ∖ {[p]}) (s_p2r b) (s_r2p b))
                        (c_pparams s) (c_pres s) (c_res2id s) in
    obind (match s_p2r b !! p with
           | None => Ret s1
           | Some rs =>
               obind (c_remove_residuals (elements rs) s1) (fun s2 =>
               let b2 := c_base s2 in
               Ret (mkCsolver (mkSolver (s_res b2) (s_params b2) (delete p (s_p2r b2)) (s_r2p b2))
                              (c_pparams s2) (c_pres s2) (c_res2id s2)))
           end) (fun s3 =>
    if decide (p ∈ c_pparams s3) then
      Ret (mkCsolver (c_base s3) (c_pparams s3 ∖ {[p]})
                     (filter (fun r => p ∉ blocks r) (c_pres s3)) (c_res2id s3))
    else Throw StdExn)
  else Throw Fatal.

Definition cstep (s : csolver) (o : sop) : outcome csolver :=
  match o with
  | AddParam p => Ret (c_add_param s p)
  | AddRes r => c_add_residual s r
  | RemParam p => c_remove_param s p
  | RemRes r => c_remove_residual s r
  end.
Definition crun (h : list sop) : outcome csolver :=
  fold_left (fun s o => obind s (fun s => cstep s o)) h (Ret csolver_new).

(** solver_t::clear, solver.cpp 494-503 *)
Definition sclear (s : solver) : solver := solver_new.
End Solver.
