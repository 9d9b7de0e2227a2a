(** * Solver: column layout, normal equations and the two optimisation loops
    (yac/lib/solver.cpp 145-157, 216-492, 728-949). *)
From Coq Require Import Reals.
From Verif Require Import Base.
Local Open Scope Z_scope.

(** ** Parameters (calib_params.hpp, param_t: type, fixed, local_size) *)
Inductive ptype := TPose | TSb | TCamera | TExtrinsics | TFiducial
  | TOther.   (* any other type string: "fiducial_corner_t", "feature_t", "inv_depth_t", "time_delay_t", ... *)
Record pinfo := mkPinfo { pi_type : ptype; pi_fixed : bool; pi_size : Z }.

Section Layout.
(** the parameter object behind a pointer *)
Context (info : Z -> pinfo).

(** ** Column layout: the tail of both _eval_residuals, solver.cpp 234-294 and 313-373.
    [blks] is the list of param_blocks of the evaluated residuals in evaluation order
    (iteration order of an unordered_set: any order). *)
Record track := mkTrack {
  t_seen : list Z; t_pose : list Z; t_sb : list Z; t_cam : list Z; t_ext : list Z; t_fid : list Z;
  t_len : Z }.
Definition track0 := mkTrack [] [] [] [] [] [] 0.
(** loop body, solver.cpp 244-271 / 323-350 *)
Definition track_block (t : track) (p : Z) : track :=
  if existsb (Z.eqb p) (t_seen t) then t else
  let seen := p :: t_seen t in
  if pi_fixed (info p)
  then mkTrack seen (t_pose t) (t_sb t) (t_cam t) (t_ext t) (t_fid t) (t_len t)
  else
    let len := t_len t + pi_size (info p) in
    match pi_type (info p) with
    | TPose => mkTrack seen (t_pose t ++ [p]) (t_sb t) (t_cam t) (t_ext t) (t_fid t) len
    | TSb => mkTrack seen (t_pose t) (t_sb t ++ [p]) (t_cam t) (t_ext t) (t_fid t) len
    | TCamera => mkTrack seen (t_pose t) (t_sb t) (t_cam t ++ [p]) (t_ext t) (t_fid t) len
    | TExtrinsics => mkTrack seen (t_pose t) (t_sb t) (t_cam t) (t_ext t ++ [p]) (t_fid t) len
    | TFiducial => mkTrack seen (t_pose t) (t_sb t) (t_cam t) (t_ext t) (t_fid t ++ [p]) len
    | TOther => mkTrack seen (t_pose t) (t_sb t) (t_cam t) (t_ext t) (t_fid t) len
    end.
(** param_order: assignment of column indices, solver.cpp 275-291 / 354-370 *)
Fixpoint assign (idx : Z) (l : list Z) : list (Z * Z) :=
  match l with
  | [] => []
  | p :: t => (p, idx) :: assign (idx + pi_size (info p)) t
  end.
(** param_order[p]: operator[] of an unordered_map<param_t*, int>: 0 when missing *)
Fixpoint order_find (o : list (Z * Z)) (p : Z) : option Z :=
  match o with [] => None | (q, i) :: t => if p =? q then Some i else order_find t p end.
Definition order_at (o : list (Z * Z)) (p : Z) : Z := match order_find o p with Some i => i | None => 0 end.
Record layout := mkLayout { lo_order : list (Z * Z); lo_len : Z; lo_marg : Z }.
(** cam_ptrs[0] on an empty vector is UB, solver.cpp 294 / 373 *)
Definition eval_layout (blks : list (list Z)) : outcome layout :=
  let t := fold_left track_block (concat blks) track0 in
  let o := assign 0 (t_pose t ++ t_sb t ++ t_cam t ++ t_ext t ++ t_fid t) in
  match t_cam t with
  | [] => Undef
  | c :: _ => Ret (mkLayout o (t_len t) (order_at o c))
  end.

(** ** Residuals after eval(): block sizes, values and minimal Jacobians
    (calib_residuals.hpp: residuals, min_jacobian_blocks).  Real numbers are exact. *)
Record resid := mkResid {
  rs_n : nat;                                (* number of rows *)
  rs_val : Z -> R;                           (* residuals *)
  rs_blk : list (Z * (Z -> Z -> R)) }.       (* (parameter, min Jacobian block), row then column *)

(** _form_jacobian, solver.cpp 388-421: J and r start as zero, blocks are assigned *)
Definition in_blk (i0 n i : Z) : bool := (i0 <=? i) && (i <? i0 + n).
Fixpoint jac_blocks (o : list (Z * Z)) (row : Z) (n : Z) (bs : list (Z * (Z -> Z -> R)))
         (J : Z -> Z -> R) : Z -> Z -> R :=
  match bs with
  | [] => J
  | (p, Jp) :: t =>
      if pi_fixed (info p) then jac_blocks o row n t J
      else
        let i0 := order_at o p in
        jac_blocks o row n t
          (fun a c => if in_blk row n a && in_blk i0 (pi_size (info p)) c
                      then Jp (a - row) (c - i0) else J a c)
  end.
Fixpoint form_jacobian (o : list (Z * Z)) (row : Z) (rs : list resid) (J : Z -> Z -> R) (r : Z -> R)
  : (Z -> Z -> R) * (Z -> R) :=
  match rs with
  | [] => (J, r)
  | x :: t =>
      let n := Z.of_nat (rs_n x) in
      form_jacobian o (row + n) t
        (jac_blocks o row n (rs_blk x) J)
        (fun a => if in_blk row n a then rs_val x (a - row) else r a)
  end.
Definition total_rows (rs : list resid) : nat := fold_right (fun x n => (rs_n x + n)%nat) O rs.

(** sums over 0..n-1 *)
Fixpoint sumn (n : nat) (f : Z -> R) : R :=
  match n with O => 0%R | S m => (sumn m f + f (Z.of_nat m))%R end.

(** Eigen: H.block(i0,j0,ni,nj) += M *)
Definition block_add (H : Z -> Z -> R) (i0 j0 ni nj : Z) (M : Z -> Z -> R) : Z -> Z -> R :=
  fun a c => if in_blk i0 ni a && in_blk j0 nj c then (H a c + M (a - i0)%Z (c - j0)%Z)%R else H a c.
Definition seg_add (b : Z -> R) (i0 ni : Z) (v : Z -> R) : Z -> R :=
  fun a => if in_blk i0 ni a then (b a + v (a - i0)%Z)%R else b a.
(** J_i^T * J_j *)
Definition jtj (n : nat) (A B : Z -> Z -> R) : Z -> Z -> R := fun a c => sumn n (fun k => (A k a * B k c)%R).

(** _form_hessian, inner loops over j > i, solver.cpp 451-470 *)
Fixpoint hess_row (o : list (Z * Z)) (n : nat) (p : Z) (Ji : Z -> Z -> R)
         (bs : list (Z * (Z -> Z -> R))) (H : Z -> Z -> R) : Z -> Z -> R :=
  match bs with
  | [] => H
  | (q, Jj) :: t =>
      if pi_fixed (info q) then hess_row o n p Ji t H else
      let i := order_at o p in let si := pi_size (info p) in
      let j := order_at o q in let sj := pi_size (info q) in
      let H1 := block_add H i j si sj (jtj n Ji Jj) in
      let H2 := block_add H1 j i sj si (fun a c => jtj n Ji Jj c a) in
      hess_row o n p Ji t H2
  end.
(** loop over i, solver.cpp 442-474 *)
Fixpoint hess_blocks (o : list (Z * Z)) (n : nat) (r : Z -> R) (bs : list (Z * (Z -> Z -> R)))
         (Hb : (Z -> Z -> R) * (Z -> R)) : (Z -> Z -> R) * (Z -> R) :=
  match bs with
  | [] => Hb
  | (p, Ji) :: t =>
      if pi_fixed (info p) then hess_blocks o n r t Hb else
      let i := order_at o p in let si := pi_size (info p) in
      let H1 := block_add (fst Hb) i i si si (jtj n Ji Ji) in
      let H2 := hess_row o n p Ji t H1 in
      let b1 := seg_add (snd Hb) i si (fun a => sumn n (fun k => (- Ji k a * r k)%R)) in
      hess_blocks o n r t (H2, b1)
  end.
(** _form_hessian, solver.cpp 423-486 (without the evaluation of the residuals) *)
Definition form_hessian (o : list (Z * Z)) (rs : list resid) : (Z -> Z -> R) * (Z -> R) :=
  fold_left (fun Hb x => hess_blocks o (rs_n x) (rs_val x) (rs_blk x) Hb) rs
            (fun _ _ => 0%R, fun _ => 0%R).
End Layout.

(** ** Costs: a double that is finite, +infinity or not a number (a sum of squares is never
    negative or -infinity) *)
Inductive cost := Fin (r : R) | PInf | NaN.
(** [cost_k - cost_km1 < 0.0], solver.cpp 916-924: exact for finite doubles (gradual
    underflow); inf - inf and anything with NaN is NaN, and NaN < 0 is false *)
Definition dcost_neg (ck ckm1 : cost) : bool :=
  match ck, ckm1 with
  | Fin a, Fin b => if Rlt_dec a b then true else false
  | Fin _, PInf => true
  | _, _ => false
  end.
(** [a > b] on doubles *)
Definition cost_gt (a b : cost) : bool :=
  match a, b with
  | Fin x, Fin y => if Rlt_dec y x then true else false
  | PInf, Fin _ => true
  | _, _ => false
  end.

Section Loops.
(** Parameter values, addressed by parameter pointer. *)
Context {V : Type}.
Definition store := Z -> V.
(** registered parameters (solver_t::params) *)
Context (registered : list Z).
(** _calculate_cost, solver.cpp 376-386, as a function of all parameter values *)
Context (cost_of : store -> cost).
(** one linear solve and _update (solver.cpp 488-492, 836-914): an arbitrary new store that
    may differ from the old one in the parameters of the column layout; residual evaluation
    failure and solver failure are exceptions.  It may depend on the iteration, the damping
    exponent (lambda_k = lambda * 10^e) and the current parameter values. *)
Context (step : Z -> Z -> store -> outcome store).

(** _restore_params after _cache_params, solver.cpp 145-157: registered parameters get their
    cached value back *)
Definition restore (cached cur : store) : store :=
  fun p => if existsb (Z.eqb p) registered then cached p else cur p.

(** state of the LM loop: values, best cost, damping exponent *)
Record lm := mkLm { lm_x : store; lm_cost : cost; lm_e : Z }.
(** loop body, solver.cpp 835-937 *)
Definition lm_iter (iter : Z) (s : lm) : outcome lm :=
  let cached := lm_x s in
  obind (step iter (lm_e s) (lm_x s)) (fun x =>
  let ck := cost_of x in
  if dcost_neg ck (lm_cost s)
  then Ret (mkLm x ck (lm_e s - 1))
  else Ret (mkLm (restore cached x) (lm_cost s) (lm_e s + 1))).
(** for (iter = 1; iter < max_iter; iter++), solver.cpp 835 *)
Fixpoint lm_loop (n : nat) (iter : Z) (s : lm) : outcome lm :=
  match n with
  | O => Ret s
  | S m => obind (lm_iter iter s) (lm_loop m (iter + 1))
  end.
Definition solve_lm (max_iter : Z) (x : store) : outcome lm :=
  lm_loop (Z.to_nat (max_iter - 1)) 1 (mkLm x (cost_of x) 0).

(** _solve_gn, solver.cpp 728-798 *)
Fixpoint gn_loop (n : nat) (iter : Z) (x : store) : outcome store :=
  match n with
  | O => Ret x
  | S m => obind (step iter 0 x) (gn_loop m (iter + 1))
  end.
(** cost_k is 0.0 before the first iteration *)
Definition solve_gn (max_iter : Z) (x : store) : outcome store :=
  let n := Z.to_nat (max_iter - 1) in
  obind (gn_loop n 1 x) (fun x' =>
  let cost_k := match n with O => Fin 0 | _ => cost_of x' end in
  if cost_gt cost_k (cost_of x) then Ret (restore x x') else Ret x').
End Loops.
