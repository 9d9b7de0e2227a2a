(** * Coq's real numbers as a real closed field of mathcomp
    (no code is modelled here; this lets the matrix theorems of MargModel.v be used for the matrices the solver forms) *)
From Coq Require Import Reals Lra Ranalysis ClassicalEpsilon.
From mathcomp Require Import all_ssreflect all_algebra.
Set Implicit Arguments.
Unset Strict Implicit.
Unset Printing Implicit Defensive.
Import GRing.Theory Num.Theory Order.Theory.
Local Open Scope R_scope.

Definition Reqb (x y : R) : bool := if Req_EM_T x y then true else false.
Lemma ReqbP : Equality.axiom Reqb.
Proof. move=> x y; rewrite /Reqb; case: Req_EM_T => h; by constructor. Qed.
Canonical R_eqType := EqType R (EqMixin ReqbP).

Definition pickR (P : pred R) (n : nat) : option R := let x := epsilon (inhabits 0) (fun x => P x) in if P x then Some x else None.
Lemma pickR_some P n x : pickR P n = Some x -> P x.
Proof. by rewrite /pickR; case: (boolP (P _)) => // Px [<-]. Qed.
Lemma pickR_ex (P : pred R) : (exists x, P x) -> exists n, pickR P n.
Proof. move=> h; exists 0%N; rewrite /pickR; have := epsilon_spec (inhabits 0) (fun x => P x) h; by case: (P _). Qed.
Lemma pickR_ext (P Q : pred R) : P =1 Q -> pickR P =1 pickR Q.
Proof.
move=> PQ n; rewrite /pickR; set u := epsilon _ _; set v := epsilon _ _.
suff -> : u = v by rewrite PQ.
rewrite /u /v; congr epsilon; apply: FunctionalExtensionality.functional_extensionality => x; by rewrite PQ.
Qed.
Canonical R_choiceType := ChoiceType R (Choice.Mixin pickR_some pickR_ex pickR_ext).

Fact RplusA : associative Rplus. Proof. by move=> *; rewrite Rplus_assoc. Qed.
Canonical R_zmodType := ZmodType R (ZmodMixin RplusA Rplus_comm Rplus_0_l Rplus_opp_l).
Fact RmultA : associative Rmult. Proof. by move=> *; rewrite Rmult_assoc. Qed.
Fact R1_neq_0 : R1 != R0. Proof. by apply/eqP/R1_neq_R0. Qed.
Definition R_ringMixin := RingMixin RmultA Rmult_1_l Rmult_1_r Rmult_plus_distr_r Rmult_plus_distr_l R1_neq_0.
Canonical R_ringType := RingType R R_ringMixin.
Canonical R_comRingType := ComRingType R Rmult_comm.
Definition Rinvx (r : R) : R := if r != 0 then / r else r.
Definition unit_R : pred R := fun r => r != 0.
Lemma RmultRinvx : {in unit_R, left_inverse (1 : R) Rinvx Rmult}.
Proof. move=> r; rewrite -topredE /unit_R /Rinvx => /= r0; rewrite r0 Rinv_l //; exact/eqP. Qed.
Lemma RinvxRmult : {in unit_R, right_inverse (1 : R) Rinvx Rmult}.
Proof. move=> r; rewrite -topredE /unit_R /Rinvx => /= r0; rewrite r0 Rinv_r //; exact/eqP. Qed.
Lemma intro_unit_R x y : y * x = 1 /\ x * y = 1 -> unit_R x.
Proof. move=> [yx1 _]; apply/eqP => x0; move: yx1; rewrite x0 Rmult_0_r => h; by case: R1_neq_R0. Qed.
Lemma Rinvx_out : {in predC unit_R, Rinvx =1 id}.
Proof. by move=> x; rewrite inE /= /Rinvx -if_neg => ->. Qed.
Definition R_unitRingMixin := UnitRingMixin RmultRinvx RinvxRmult intro_unit_R Rinvx_out.
Canonical R_unitRingType := UnitRingType R R_unitRingMixin.
Canonical R_comUnitRingType := [comUnitRingType of R].
Lemma R_idomainMixin x y : x * y = 0 -> (x == 0) || (y == 0).
Proof. by move=> /Rmult_integral [] ->; rewrite eqxx ?orbT. Qed.
Canonical R_idomainType := IdomainType R R_idomainMixin.
Lemma R_field_mixin : GRing.Field.mixin_of [unitRingType of R]. Proof. by []. Qed.
Canonical R_fieldType := FieldType R R_field_mixin.

Definition Rleb (x y : R) : bool := if Rle_dec x y then true else false.
Definition Rltb (x y : R) : bool := if Rlt_dec x y then true else false.
Lemma RlebP x y : reflect (x <= y) (Rleb x y).
Proof. rewrite /Rleb; case: Rle_dec => h; by constructor. Qed.
Lemma RltbP x y : reflect (x < y) (Rltb x y).
Proof. rewrite /Rltb; case: Rlt_dec => h; by constructor. Qed.
Lemma Rleb_norm_add x y : Rleb (Rabs (x + y)) (Rabs x + Rabs y). Proof. by apply/RlebP/Rabs_triang. Qed.
Lemma addr_Rgtb0 x y : Rltb 0 x -> Rltb 0 y -> Rltb 0 (x + y).
Proof. move=> /RltbP hx /RltbP hy; apply/RltbP; lra. Qed.
Lemma Rnorm0_eq0 x : Rabs x = 0 -> x = 0.
Proof. move=> h; case: (Req_dec x 0) => // /Rabs_no_R0; by rewrite h. Qed.
Lemma Rleb_leVge x y : Rleb 0 x -> Rleb 0 y -> (Rleb x y) || (Rleb y x).
Proof. move=> _ _; case: (Rle_dec x y) => h; apply/orP; [left|right]; apply/RlebP; lra. Qed.
Lemma RnormM : {morph Rabs : x y / x * y}. Proof. exact: Rabs_mult. Qed.
Lemma Rleb_def x y : (Rleb x y) = (Rabs (y - x) == y - x).
Proof.
apply/idP/eqP => [/RlebP h|h]; first by rewrite Rabs_pos_eq; lra.
apply/RlebP; have := Rabs_pos (y - x); lra.
Qed.
Lemma Rltb_def x y : (Rltb x y) = (y != x) && (Rleb x y).
Proof.
apply/RltbP/andP => [h|[/eqP h1 /RlebP h2]]; last lra.
split; [apply/eqP; lra|apply/RlebP; lra].
Qed.
Definition R_numMixin := NumMixin Rleb_norm_add addr_Rgtb0 Rnorm0_eq0 Rleb_leVge RnormM Rleb_def Rltb_def.
Canonical R_porderType := POrderType ring_display R R_numMixin.
Canonical R_numDomainType := NumDomainType R R_numMixin.
Canonical R_normedZmodType := NormedZmodType R R R_numMixin.
Canonical R_numFieldType := [numFieldType of R].
Lemma RleP x y : reflect (Rle x y) (x <= y)%O. Proof. exact: RlebP. Qed.
Lemma RltP x y : reflect (Rlt x y) (x < y)%O. Proof. exact: RltbP. Qed.
Lemma R_total : totalPOrderMixin R_porderType.
Proof. move=> x y; case: (Rle_dec x y) => h; apply/orP; [left|right]; apply/RleP; lra. Qed.
Canonical R_latticeType := LatticeType R R_total.
Canonical R_distrLatticeType := DistrLatticeType R R_total.
Canonical R_orderType := OrderType R R_total.
Canonical R_realDomainType := [realDomainType of R].
Canonical R_realFieldType := [realFieldType of R].

(** Intermediate values of polynomials *)
Lemma horner_continuity (p : {poly R}) : continuity (fun x => p.[x]%R).
Proof.
elim/poly_ind: p => [|p c IH].
  apply: (@continuity_const (fun x => (0 : {poly R}).[x]%R)) => x y; by rewrite !hornerE.
have -> : (fun x : R => (p * 'X + c%:P).[x]%R) = plus_fct (mult_fct (fun x => p.[x]%R) id) (fun _ => c).
  apply: FunctionalExtensionality.functional_extensionality => x; by rewrite !hornerE.
apply: continuity_plus; last by apply: continuity_const.
apply: continuity_mult => //; exact: derivable_continuous derivable_id.
Qed.
Lemma R_rcf_axiom : Num.real_closed_axiom [realFieldType of R].
Proof.
move=> p a b lab /andP [/RleP pa0 /RleP pb0].
case: (Req_dec p.[a]%R 0) => [ha|ha].
  exists a; [by rewrite lexx lab|by apply/rootP].
case: (Req_dec p.[b]%R 0) => [hb|hb].
  exists b; [by rewrite lexx lab|by apply/rootP].
have pa : Rlt p.[a]%R 0 by move: pa0 ha => /=; rewrite /GRing.zero /=; lra.
have pb : Rlt 0 p.[b]%R by move: pb0 hb => /=; rewrite /GRing.zero /=; lra.
have ab : Rlt a b by move: lab => /RleP [//|h]; move: pa pb; rewrite h; lra.
have [x [hx px]] := IVT (fun x => p.[x]%R) a b (horner_continuity p) ab pa pb.
exists x; first by apply/andP; split; apply/RleP; lra.
exact/rootP.
Qed.
Canonical R_rcfType := RcfType R R_rcf_axiom.
