(** Supporting lemmas for the geometry properties (C26, C46-C48). *)
From Coq Require Import Reals Lra Lia Psatz Nsatz.
From Verif Require Import GeomModel.
Local Open Scope R_scope.

Lemma sc : forall t, sin t * sin t = 1 - cos t * cos t.
Proof. intros t. pose proof (sin2_cos2 t) as H. unfold Rsqr in H. lra. Qed.

Lemma M4_ext a b : n00 a = n00 b -> n01 a = n01 b -> n02 a = n02 b -> n03 a = n03 b ->
 n10 a = n10 b -> n11 a = n11 b -> n12 a = n12 b -> n13 a = n13 b ->
 n20 a = n20 b -> n21 a = n21 b -> n22 a = n22 b -> n23 a = n23 b ->
 n30 a = n30 b -> n31 a = n31 b -> n32 a = n32 b -> n33 a = n33 b -> a = b.
Proof. destruct a, b; simpl; intros; subst; reflexivity. Qed.
Lemma M3_ext a b : m00 a = m00 b -> m01 a = m01 b -> m02 a = m02 b ->
 m10 a = m10 b -> m11 a = m11 b -> m12 a = m12 b ->
 m20 a = m20 b -> m21 a = m21 b -> m22 a = m22 b -> a = b.
Proof. destruct a, b; simpl; intros; subst; reflexivity. Qed.
Lemma V3_ext a b : vx a = vx b -> vy a = vy b -> vz a = vz b -> a = b.
Proof. destruct a, b; simpl; intros; subst; reflexivity. Qed.
Lemma V4_ext a b : wx a = wx b -> wy a = wy b -> wz a = wz b -> ww a = ww b -> a = b.
Proof. destruct a, b; simpl; intros; subst; reflexivity. Qed.
Lemma Q_ext a b : qw a = qw b -> qx a = qx b -> qy a = qy b -> qz a = qz b -> a = b.
Proof. destruct a, b; simpl; intros; subst; reflexivity. Qed.
Ltac mcbn := cbn [n00 n01 n02 n03 n10 n11 n12 n13 n20 n21 n22 n23 n30 n31 n32 n33
  m00 m01 m02 m10 m11 m12 m20 m21 m22 vx vy vz wx wy wz ww qw qx qy qz
  mmul madd mscale msub mtr mapp mmul4 mapp4 tf tf_rot tf_trans qmul qconj qscale qopp
  quat2rot to_rot I3 I4 Z3 vadd vsub vopp vscale vcross skew outer vzero d_r d_a p_r p_q].
Ltac mat_eq := first [apply M4_ext|apply M3_ext|apply V3_ext|apply V4_ext|apply Q_ext]; mcbn.

(** ** matrices *)
Lemma mmul_assoc a b c : mmul (mmul a b) c = mmul a (mmul b c).
Proof. mat_eq; ring. Qed.
Lemma mmul_I_l a : mmul I3 a = a. Proof. mat_eq; ring. Qed.
Lemma mmul_I_r a : mmul a I3 = a. Proof. mat_eq; ring. Qed.
Lemma mtr_mul a b : mtr (mmul a b) = mmul (mtr b) (mtr a). Proof. mat_eq; ring. Qed.
Lemma mtr_tr a : mtr (mtr a) = a. Proof. mat_eq; ring. Qed.
Lemma mdet_mul a b : mdet (mmul a b) = mdet a * mdet b. Proof. unfold mdet, mmul; simpl; ring. Qed.
Lemma mdet_tr a : mdet (mtr a) = mdet a. Proof. unfold mdet, mtr; simpl; ring. Qed.
Lemma mmul4_assoc a b c : mmul4 (mmul4 a b) c = mmul4 a (mmul4 b c).
Proof. mat_eq; ring. Qed.
Lemma mmul4_I_l a : mmul4 I4 a = a. Proof. mat_eq; ring. Qed.
Lemma mmul4_I_r a : mmul4 a I4 = a. Proof. mat_eq; ring. Qed.
Lemma mapp_mmul a b v : mapp (mmul a b) v = mapp a (mapp b v). Proof. mat_eq; ring. Qed.
Lemma mapp_I v : mapp I3 v = v. Proof. mat_eq; ring. Qed.

Definition adj (a : mat3) : mat3 :=
  M3 (m11 a * m22 a - m12 a * m21 a) (m02 a * m21 a - m01 a * m22 a) (m01 a * m12 a - m02 a * m11 a)
     (m12 a * m20 a - m10 a * m22 a) (m00 a * m22 a - m02 a * m20 a) (m02 a * m10 a - m00 a * m12 a)
     (m10 a * m21 a - m11 a * m20 a) (m01 a * m20 a - m00 a * m21 a) (m00 a * m11 a - m01 a * m10 a).
Lemma mmul_adj a : mmul a (adj a) = mscale (mdet a) I3. Proof. unfold adj, mdet; mat_eq; ring. Qed.
Lemma adj_mmul a : mmul (adj a) a = mscale (mdet a) I3. Proof. unfold adj, mdet; mat_eq; ring. Qed.
Lemma mscale1 a : mscale 1 a = a. Proof. mat_eq; ring. Qed.

Lemma orth_adj C : mmul (mtr C) C = I3 -> mdet C = 1 -> mtr C = adj C.
Proof.
  intros H D.
  rewrite <- (mmul_I_r (mtr C)). transitivity (mmul (mtr C) (mmul C (adj C))).
  - rewrite mmul_adj, D, mscale1. reflexivity.
  - rewrite <- mmul_assoc, H, mmul_I_l. reflexivity.
Qed.
Lemma orth_right C : mmul (mtr C) C = I3 -> mdet C = 1 -> mmul C (mtr C) = I3.
Proof. intros H D. rewrite (orth_adj C H D), mmul_adj, D, mscale1. reflexivity. Qed.

(** ** quaternions *)
Lemma qmul_assoc a b c : qmul (qmul a b) c = qmul a (qmul b c). Proof. mat_eq; ring. Qed.
Lemma qnorm2_mul a b : qnorm2 (qmul a b) = qnorm2 a * qnorm2 b.
Proof. unfold qnorm2, qmul; simpl; ring. Qed.
Lemma qmul_conj q : qmul (qconj q) q = Q (qnorm2 q) 0 0 0. Proof. unfold qnorm2; mat_eq; ring. Qed.
Lemma qmul_1 q : qmul (Q 1 0 0 0) q = q. Proof. mat_eq; ring. Qed.
Lemma quat2rot_mul p q : quat2rot (qmul p q) = mmul (quat2rot p) (quat2rot q).
Proof. mat_eq; ring. Qed.
Lemma to_rot_quat2rot q : qnorm2 q = 1 -> to_rot q = quat2rot q.
Proof. destruct q as [w x y z]; unfold qnorm2; simpl; intros H.
  unfold to_rot, quat2rot; simpl; f_equal; try ring; rewrite <- H; ring. Qed.

Lemma quat2rot_orth q : qnorm2 q = 1 -> mmul (mtr (quat2rot q)) (quat2rot q) = I3.
Proof.
  destruct q as [w x y z]; unfold qnorm2; simpl; intros H.
  assert (W : w * w = 1 - x * x - y * y - z * z) by lra.
  mat_eq; ring [W].
Qed.
Lemma quat2rot_det q : mdet (quat2rot q) = qnorm2 q * qnorm2 q * qnorm2 q.
Proof. unfold mdet, quat2rot, qnorm2; simpl; ring. Qed.

(** ** Eigen's matrix -> quaternion *)
Lemma qnorm2_le q : qnorm2 q = 1 -> 0 <= qw q * qw q <= 1 /\ 0 <= qx q * qx q <= 1
  /\ 0 <= qy q * qy q <= 1 /\ 0 <= qz q * qz q <= 1.
Proof. unfold qnorm2. intros H. pose proof (Rle_0_sqr (qw q)). pose proof (Rle_0_sqr (qx q)).
  pose proof (Rle_0_sqr (qy q)). pose proof (Rle_0_sqr (qz q)). unfold Rsqr in *. lra. Qed.

Lemma sqrt_4sq a u : u = 4 * (a * a) -> a <> 0 ->
  (sqrt u = 2 * a) \/ (sqrt u = - (2 * a)).
Proof.
  intros -> Ha. replace (4 * (a * a)) with (Rsqr (2 * a)) by (unfold Rsqr; ring).
  rewrite sqrt_Rsqr_abs. unfold Rabs. destruct (Rcase_abs (2 * a)); auto.
Qed.

Lemma of_rot_to_rot q : qnorm2 q = 1 ->
  of_rot (to_rot q) = q \/ of_rot (to_rot q) = qopp q.
Proof.
  intros H. pose proof (qnorm2_le q H) as B.
  destruct q as [w x y z]. unfold qnorm2 in H. simpl in *.
  unfold of_rot, to_rot, qopp, qscale; cbn [m00 m01 m02 m10 m11 m12 m20 m21 m22 qw qx qy qz].
  repeat destruct (Rlt_dec _ _); cbv iota beta.
  - assert (w <> 0) by (intros ->; lra).
    destruct (sqrt_4sq w (1 - (2*y*y+2*z*z) + (1 - (2*x*x+2*z*z)) + (1 - (2*x*x+2*y*y)) + 1)) as [E|E];
      [lra|auto| |]; rewrite E; [left|right]; f_equal; field; auto.
  - assert (z <> 0) by (intros ->; lra).
    match goal with |- context [sqrt ?u] => destruct (sqrt_4sq z u) as [E|E] end;
      [lra|auto| |]; rewrite E; [left|right]; f_equal; field; auto.
  - assert (y <> 0) by (intros ->; lra).
    match goal with |- context [sqrt ?u] => destruct (sqrt_4sq y u) as [E|E] end;
      [lra|auto| |]; rewrite E; [left|right]; f_equal; field; auto.
  - assert (z <> 0) by (intros ->; lra).
    match goal with |- context [sqrt ?u] => destruct (sqrt_4sq z u) as [E|E] end;
      [lra|auto| |]; rewrite E; [left|right]; f_equal; field; auto.
  - assert (x <> 0) by (intros ->; lra).
    match goal with |- context [sqrt ?u] => destruct (sqrt_4sq x u) as [E|E] end;
      [lra|auto| |]; rewrite E; [left|right]; f_equal; field; auto.
Qed.

Lemma to_rot_opp q : to_rot (qopp q) = to_rot q.
Proof. mat_eq; ring. Qed.
Lemma quat2rot_opp q : quat2rot (qopp q) = quat2rot q.
Proof. mat_eq; ring. Qed.
Lemma qnorm2_opp q : qnorm2 (qopp q) = qnorm2 q.
Proof. unfold qnorm2, qopp, qscale; simpl; ring. Qed.

Lemma M3_inj_eqs C : mmul (mtr C) C = I3 -> mdet C = 1 ->
  mmul C (mtr C) = I3 /\ mtr C = adj C.
Proof. intros H D. split; [apply orth_right|apply orth_adj]; auto. Qed.

Lemma kk X Y W u v k : u <> 0 -> k * k = / 4 / u -> X * Y = v * W -> u = v ->
  X * k * (Y * k) = W / 4.
Proof. intros U K E <-. replace (X * k * (Y * k)) with (X * Y * (k * k)) by ring.
  rewrite K, E. field. auto. Qed.
Lemma lk X l k : l * k = / 4 -> l * (X * k) = X / 4.
Proof. intros E. replace (l * (X * k)) with (l * k * X) by ring. rewrite E. field. Qed.

Lemma to_rot_of_rot C : mmul (mtr C) C = I3 -> mdet C = 1 ->
  to_rot (of_rot C) = C /\ qnorm2 (of_rot C) = 1.
Proof.
  intros H D. destruct (M3_inj_eqs C H D) as (H' & A).
  destruct C as [a b c d e f g h i]. unfold mmul, mtr, adj, I3 in *.
  cbn [m00 m01 m02 m10 m11 m12 m20 m21 m22] in *.
  injection A as A00 A01 A02 A10 A11 A12 A20 A21 A22.
  injection H as ? ? ? ? ? ? ? ? ?. injection H' as ? ? ? ? ? ? ? ? ?.
  assert (P0 : (h-f)*(h-f) = (1+a+e+i)*(1+a-e-i)) by lra.
  assert (P1 : (c-g)*(c-g) = (1+a+e+i)*(1-a+e-i)) by lra.
  assert (P2 : (d-b)*(d-b) = (1+a+e+i)*(1-a-e+i)) by lra.
  assert (S01 : (b+d)*(b+d) = (1+a-e-i)*(1-a+e-i)) by lra.
  assert (S02 : (c+g)*(c+g) = (1+a-e-i)*(1-a-e+i)) by lra.
  assert (S12 : (f+h)*(f+h) = (1-a+e-i)*(1-a-e+i)) by lra.
  assert (X01 : (h-f)*(c-g) = (1+a+e+i)*(b+d)) by lra.
  assert (X02 : (h-f)*(d-b) = (1+a+e+i)*(c+g)) by lra.
  assert (X12 : (c-g)*(d-b) = (1+a+e+i)*(f+h)) by lra.
  assert (Y01 : (b+d)*(c+g) = (1+a-e-i)*(f+h)) by lra.
  assert (Y02 : (b+d)*(f+h) = (1-a+e-i)*(c+g)) by lra.
  assert (Y12 : (c+g)*(f+h) = (1-a-e+i)*(b+d)) by lra.
  assert (Z0 : (h-f)*(b+d) = (1+a-e-i)*(c-g)) by lra.
  assert (Z0' : (h-f)*(c+g) = (1+a-e-i)*(d-b)) by lra.
  assert (Z1 : (c-g)*(b+d) = (1-a+e-i)*(h-f)) by lra.
  assert (Z1' : (c-g)*(f+h) = (1-a+e-i)*(d-b)) by lra.
  assert (Z2 : (d-b)*(c+g) = (1-a-e+i)*(h-f)) by lra.
  assert (Z2' : (d-b)*(f+h) = (1-a-e+i)*(c-g)) by lra.
  clear A00 A01 A02 A10 A11 A12 A20 A21 A22 H H0 H1 H2 H3 H4 H5 H6 H7 H8 H9 H10 H11 H12 H13 H14 H15 H16 D.
  assert (SQ : forall u, 0 < u -> exists s, sqrt u = s /\ s * s = u /\ s <> 0).
  { intros u Hu. exists (sqrt u). split; auto. split; [apply sqrt_sqrt; lra|].
    pose proof (sqrt_lt_R0 u Hu). lra. }
  unfold of_rot, to_rot, qnorm2; cbn [m00 m01 m02 m10 m11 m12 m20 m21 m22].
  repeat destruct (Rlt_dec _ _); cbv iota beta; cbn [qw qx qy qz].
  all: match goal with |- context [sqrt ?u] =>
         destruct (SQ u) as (s & E & E2 & E0); [try lra|rewrite !E] end.
  all: assert (K : / 2 / s * (/ 2 / s) = / 4 / (s * s)) by (field; auto).
  all: assert (K' : / 2 * s * (/ 2 / s) = / 4) by (field; auto).
  all: assert (K'' : / 2 * s * (/ 2 * s) = (s * s) / 4) by field.
  all: rewrite E2 in K, K''.
  all: set (k := / 2 / s) in *; set (l := / 2 * s) in *; clearbody k l.
  all: match type of E2 with _ = ?u => assert (U : u <> 0) by (rewrite <- E2; intros Z; apply Rmult_integral in Z; tauto) end.
  all: clear E E2 E0 SQ.
  all: pose proof (fun X => lk X l k K') as L.
  all: pose proof (L (h-f)) as L1; pose proof (L (c-g)) as L2; pose proof (L (d-b)) as L3;
       pose proof (L (b+d)) as L4; pose proof (L (c+g)) as L5; pose proof (L (f+h)) as L6.
  all: pose proof (fun X Y W v => kk X Y W _ v k U K) as KK.
  all: clear L K K' U.
  - pose proof (KK _ _ _ _ P0 ltac:(ring)). pose proof (KK _ _ _ _ P1 ltac:(ring)).
    pose proof (KK _ _ _ _ P2 ltac:(ring)). pose proof (KK _ _ _ _ X01 ltac:(ring)).
    pose proof (KK _ _ _ _ X02 ltac:(ring)). pose proof (KK _ _ _ _ X12 ltac:(ring)).
    clear KK P0 P1 P2 S01 S02 S12 X01 X02 X12 Y01 Y02 Y12 Z0 Z0' Z1 Z1' Z2 Z2'.
    split; [apply M3_ext; cbn [m00 m01 m02 m10 m11 m12 m20 m21 m22]|]; lra.
  - pose proof (KK _ _ _ _ (eq_trans P2 (Rmult_comm _ _)) ltac:(ring)).
    pose proof (KK _ _ _ _ (eq_trans S02 (Rmult_comm _ _)) ltac:(ring)).
    pose proof (KK _ _ _ _ (eq_trans S12 (Rmult_comm _ _)) ltac:(ring)).
    pose proof (KK _ _ _ _ Z2 ltac:(ring)).
    pose proof (KK _ _ _ _ Z2' ltac:(ring)).
    pose proof (KK _ _ _ _ Y12 ltac:(ring)).
    clear KK P0 P1 P2 S01 S02 S12 X01 X02 X12 Y01 Y02 Y12 Z0 Z0' Z1 Z1' Z2 Z2'.
    split; [apply M3_ext; cbn [m00 m01 m02 m10 m11 m12 m20 m21 m22]|]; lra.
  - pose proof (KK _ _ _ _ (eq_trans P1 (Rmult_comm _ _)) ltac:(ring)).
    pose proof (KK _ _ _ _ (eq_trans S01 (Rmult_comm _ _)) ltac:(ring)).
    pose proof (KK _ _ _ _ S12 ltac:(ring)).
    pose proof (KK _ _ _ _ Z1 ltac:(ring)).
    pose proof (KK _ _ _ _ Z1' ltac:(ring)).
    pose proof (KK _ _ _ _ Y02 ltac:(ring)).
    clear KK P0 P1 P2 S01 S02 S12 X01 X02 X12 Y01 Y02 Y12 Z0 Z0' Z1 Z1' Z2 Z2'.
    split; [apply M3_ext; cbn [m00 m01 m02 m10 m11 m12 m20 m21 m22]|]; lra.
  - pose proof (KK _ _ _ _ (eq_trans P2 (Rmult_comm _ _)) ltac:(ring)).
    pose proof (KK _ _ _ _ (eq_trans S02 (Rmult_comm _ _)) ltac:(ring)).
    pose proof (KK _ _ _ _ (eq_trans S12 (Rmult_comm _ _)) ltac:(ring)).
    pose proof (KK _ _ _ _ Z2 ltac:(ring)).
    pose proof (KK _ _ _ _ Z2' ltac:(ring)).
    pose proof (KK _ _ _ _ Y12 ltac:(ring)).
    clear KK P0 P1 P2 S01 S02 S12 X01 X02 X12 Y01 Y02 Y12 Z0 Z0' Z1 Z1' Z2 Z2'.
    split; [apply M3_ext; cbn [m00 m01 m02 m10 m11 m12 m20 m21 m22]|]; lra.
  - pose proof (KK _ _ _ _ (eq_trans P0 (Rmult_comm _ _)) ltac:(ring)).
    pose proof (KK _ _ _ _ S01 ltac:(ring)).
    pose proof (KK _ _ _ _ S02 ltac:(ring)).
    pose proof (KK _ _ _ _ Z0 ltac:(ring)).
    pose proof (KK _ _ _ _ Z0' ltac:(ring)).
    pose proof (KK _ _ _ _ Y01 ltac:(ring)).
    clear KK P0 P1 P2 S01 S02 S12 X01 X02 X12 Y01 Y02 Y12 Z0 Z0' Z1 Z1' Z2 Z2'.
    split; [apply M3_ext; cbn [m00 m01 m02 m10 m11 m12 m20 m21 m22]|]; lra.
Qed.
