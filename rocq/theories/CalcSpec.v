(** Derivatives of curves of vectors and matrices, entry by entry, and their product rules. *)
From Verif Require Import GeomModel.
From Coq Require Import Reals Lra.
From Coquelicot Require Import Coquelicot.
Local Open Scope R_scope.

Definition dv (f : R -> vec3) (t : R) (d : vec3) : Prop :=
  is_derive (fun s : R => vx (f s)) t (vx d) /\ is_derive (fun s : R => vy (f s)) t (vy d) /\
  is_derive (fun s : R => vz (f s)) t (vz d).
Definition dm (f : R -> mat3) (t : R) (d : mat3) : Prop :=
  (is_derive (fun s : R => m00 (f s)) t (m00 d) /\ is_derive (fun s : R => m01 (f s)) t (m01 d) /\ is_derive (fun s : R => m02 (f s)) t (m02 d)) /\
  (is_derive (fun s : R => m10 (f s)) t (m10 d) /\ is_derive (fun s : R => m11 (f s)) t (m11 d) /\ is_derive (fun s : R => m12 (f s)) t (m12 d)) /\
  (is_derive (fun s : R => m20 (f s)) t (m20 d) /\ is_derive (fun s : R => m21 (f s)) t (m21 d) /\ is_derive (fun s : R => m22 (f s)) t (m22 d)).
Definition dq (f : R -> quat) (t : R) (d : quat) : Prop :=
  (is_derive (fun s : R => qw (f s)) t (qw d) /\ is_derive (fun s : R => qx (f s)) t (qx d)) /\
  (is_derive (fun s : R => qy (f s)) t (qy d) /\ is_derive (fun s : R => qz (f s)) t (qz d)).

Lemma d_plus (f g : R -> R) (t a b : R) : is_derive f t a -> is_derive g t b -> is_derive (fun s => f s + g s) t (a + b).
Proof. intros. apply (is_derive_plus f g); auto. Qed.
Lemma d_minus (f g : R -> R) (t a b : R) : is_derive f t a -> is_derive g t b -> is_derive (fun s => f s - g s) t (a - b).
Proof. intros. apply (is_derive_minus f g); auto. Qed.
Lemma d_mult (f g : R -> R) (t a b : R) : is_derive f t a -> is_derive g t b -> is_derive (fun s => f s * g s) t (a * g t + f t * b).
Proof. intros. apply (is_derive_mult f g); auto. intros; apply Rmult_comm. Qed.
Lemma d_const (c t : R) : is_derive (fun _ : R => c) t 0.
Proof. apply (is_derive_const c). Qed.
Lemma d_eq (f : R -> R) (t a b : R) : is_derive f t a -> a = b -> is_derive f t b.
Proof. intros H <-. exact H. Qed.
Lemma d_scal (f : R -> R) (t a k : R) : is_derive f t a -> is_derive (fun s => k * f s) t (k * a).
Proof. intros H. eapply d_eq; [apply d_mult; [apply d_const|exact H]|cbn; ring]. Qed.

Lemma dv_eq f t a b : dv f t a -> a = b -> dv f t b. Proof. intros H <-. exact H. Qed.
Lemma dm_eq f t a b : dm f t a -> a = b -> dm f t b. Proof. intros H <-. exact H. Qed.
Lemma dv_ext f g t a : (forall s, f s = g s) -> dv f t a -> dv g t a.
Proof. intros E (A & B & C). split; [|split]; (eapply is_derive_ext; [intros s; rewrite <- (E s); reflexivity|assumption]). Qed.
Lemma dv_const v t : dv (fun _ => v) t vzero.
Proof. split; [|split]; apply d_const. Qed.
Lemma dm_const m t : dm (fun _ => m) t Z3.
Proof. repeat match goal with |- _ /\ _ => split | |- dm _ _ _ => unfold dm end; apply d_const. Qed.
Lemma dv_add f g t a b : dv f t a -> dv g t b -> dv (fun s => vadd (f s) (g s)) t (vadd a b).
Proof. intros (?&?&?) (?&?&?). split; [|split]; cbn [vadd vx vy vz]; apply d_plus; auto. Qed.
Lemma dv_sub f g t a b : dv f t a -> dv g t b -> dv (fun s => vsub (f s) (g s)) t (vsub a b).
Proof. intros (?&?&?) (?&?&?). split; [|split]; cbn [vsub vx vy vz]; apply d_minus; auto. Qed.
Lemma dm_mtr f t a : dm f t a -> dm (fun s => mtr (f s)) t (mtr a).
Proof. intros ((?&?&?)&(?&?&?)&(?&?&?)). split; [|split]; (split; [|split]); assumption. Qed.
Lemma dv_mapp M f t dM df : dm M t dM -> dv f t df ->
  dv (fun s => mapp (M s) (f s)) t (vadd (mapp dM (f t)) (mapp (M t) df)).
Proof.
  intros ((?&?&?)&(?&?&?)&(?&?&?)) (?&?&?). split; [|split]; unfold mapp, vadd; cbn [vx vy vz];
  (eapply d_eq; [apply d_plus; [apply d_plus|]; apply d_mult; eassumption|cbn beta; ring]).
Qed.
Lemma dm_mmul A B t dA dB : dm A t dA -> dm B t dB ->
  dm (fun s => mmul (A s) (B s)) t (madd (mmul dA (B t)) (mmul (A t) dB)).
Proof.
  intros ((?&?&?)&(?&?&?)&(?&?&?)) ((?&?&?)&(?&?&?)&(?&?&?)).
  split; [|split]; (split; [|split]); unfold mmul, madd; cbn [m00 m01 m02 m10 m11 m12 m20 m21 m22];
  (eapply d_eq; [apply d_plus; [apply d_plus|]; apply d_mult; eassumption|cbn beta; ring]).
Qed.
Lemma dm_scale f t a k : dm f t a -> dm (fun s => mscale k (f s)) t (mscale k a).
Proof. intros ((?&?&?)&(?&?&?)&(?&?&?)). split; [|split]; (split; [|split]); cbn [mscale m00 m01 m02 m10 m11 m12 m20 m21 m22]; apply d_scal; assumption. Qed.
Lemma dm_add A B t dA dB : dm A t dA -> dm B t dB -> dm (fun s => madd (A s) (B s)) t (madd dA dB).
Proof.
  intros ((?&?&?)&(?&?&?)&(?&?&?)) ((?&?&?)&(?&?&?)&(?&?&?)).
  split; [|split]; (split; [|split]); cbn [madd m00 m01 m02 m10 m11 m12 m20 m21 m22]; apply d_plus; assumption.
Qed.
Lemma dm_scalev f (k : R -> R) t a dk : is_derive k t dk -> dm f t a ->
  dm (fun s => mscale (k s) (f s)) t (madd (mscale dk (f t)) (mscale (k t) a)).
Proof.
  intros K ((?&?&?)&(?&?&?)&(?&?&?)). split; [|split]; (split; [|split]);
  cbn [mscale madd m00 m01 m02 m10 m11 m12 m20 m21 m22]; apply d_mult; assumption.
Qed.
(** syntax-directed differentiation *)
Ltac dstep := lazymatch goal with
  | |- is_derive (fun _ => ?c) _ _ => apply d_const
  | |- is_derive (fun s => @?a s + @?b s) ?t _ => apply (d_plus a b)
  | |- is_derive (fun s => @?a s - @?b s) ?t _ => apply (d_minus a b)
  | |- is_derive (fun s => @?a s * @?b s) ?t _ => apply (d_mult a b)
  | |- is_derive _ _ _ => eassumption
  end.
Ltac dring := eapply d_eq; [repeat dstep|cbn beta; ring].
(** quaternion product and rotation matrix *)
Lemma dq_mul_r f t a q : dq f t a -> dq (fun s => qmul (f s) q) t (qmul a q).
Proof.
  intros ((?&?)&(?&?)). split; split; cbn [qmul qw qx qy qz];
  dring.
Qed.
Lemma dq_mul f g t a b : dq f t a -> dq g t b ->
  dq (fun s => qmul (f s) (g s)) t (Q (qw (qmul a (g t)) + qw (qmul (f t) b)) (qx (qmul a (g t)) + qx (qmul (f t) b))
     (qy (qmul a (g t)) + qy (qmul (f t) b)) (qz (qmul a (g t)) + qz (qmul (f t) b))).
Proof.
  intros ((?&?)&(?&?)) ((?&?)&(?&?)). split; split; cbn [qmul qw qx qy qz];
  dring.
Qed.
Definition dto_rot (q d : quat) : mat3 :=
  M3 (- (4 * (qy q * qy d + qz q * qz d))) (2 * (qy d * qx q + qy q * qx d - qz d * qw q - qz q * qw d)) (2 * (qz d * qx q + qz q * qx d + qy d * qw q + qy q * qw d))
     (2 * (qy d * qx q + qy q * qx d + qz d * qw q + qz q * qw d)) (- (4 * (qx q * qx d + qz q * qz d))) (2 * (qz d * qy q + qz q * qy d - qx d * qw q - qx q * qw d))
     (2 * (qz d * qx q + qz q * qx d - qy d * qw q - qy q * qw d)) (2 * (qz d * qy q + qz q * qy d + qx d * qw q + qx q * qw d)) (- (4 * (qx q * qx d + qy q * qy d))).
Lemma dm_to_rot f t a : dq f t a -> dm (fun s => to_rot (f s)) t (dto_rot (f t) a).
Proof.
  intros ((?&?)&(?&?)). split; [|split]; (split; [|split]); cbn [to_rot dto_rot m00 m01 m02 m10 m11 m12 m20 m21 m22];
  dring.
Qed.
