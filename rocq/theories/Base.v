(** * Base: outcomes of C++ code and a few list helpers shared by all models. *)
From Coq Require Export List ZArith Lia Bool.
From Coq Require FinFun.
Export ListNotations.

(** Outcome of running a piece of C++ code.
    [Ret a]   normal return;
    [Throw e] an exception leaves the function ([FATAL], yac/lib/util/core.hpp
              macro FATAL, throws std::runtime_error);
    [Undef]   undefined behaviour (out-of-bounds access, division by zero,
              read of an uninitialised value, null dereference ...). *)
Inductive exn := Fatal | OutOfRange | StdExn.
Inductive outcome (A : Type) : Type :=
| Ret (a : A)
| Throw (e : exn)
| Undef.
Arguments Ret {A} a.
Arguments Throw {A} e.
Arguments Undef {A}.

Definition obind {A B} (x : outcome A) (f : A -> outcome B) : outcome B :=
  match x with
  | Ret a => f a
  | Throw e => Throw e
  | Undef => Undef
  end.
Definition omap {A B} (f : A -> B) (x : outcome A) : outcome B :=
  obind x (fun a => Ret (f a)).

(** How a void member function finished (the object state is returned
    separately, because exceptions leave a partially updated object behind). *)
Inductive status := Done | Thrown | UB.

(** Unchecked array access [v[i]] with a C++ integer index. *)
Definition rd {A} (l : list A) (i : Z) : outcome A :=
  if (0 <=? i)%Z then
    match nth_error l (Z.to_nat i) with Some a => Ret a | None => Undef end
  else Undef.

(** Checked access [v.at(i)]. *)
Definition at_ {A} (l : list A) (i : Z) : outcome A :=
  if (0 <=? i)%Z then
    match nth_error l (Z.to_nat i) with Some a => Ret a | None => Throw OutOfRange end
  else Throw OutOfRange.

(** Replace element [i] (no effect when out of range; callers test the range). *)
Fixpoint upd {A} (l : list A) (i : nat) (a : A) : list A :=
  match l, i with
  | [], _ => []
  | _ :: t, O => a :: t
  | x :: t, S j => x :: upd t j a
  end.

(** Unchecked array write [v[i] = a]. *)
Definition wr {A} (l : list A) (i : Z) (a : A) : outcome (list A) :=
  if ((0 <=? i) && (i <? Z.of_nat (length l)))%Z
  then Ret (upd l (Z.to_nat i) a) else Undef.

(** The loop range [for (int i = 0; i < n; i++)]. *)
Definition zrange (n : Z) : list Z := map Z.of_nat (seq 0 (Z.to_nat n)).

Fixpoint countb {A} (f : A -> bool) (l : list A) : Z :=
  match l with
  | [] => 0%Z
  | x :: t => ((if f x then 1 else 0) + countb f t)%Z
  end.

(** ** Lemmas *)
Lemma upd_length {A} (l : list A) i a : length (upd l i a) = length l.
Proof. revert i; induction l as [|x l IH]; intros [|i]; simpl; auto. Qed.

Lemma nth_error_upd_eq {A} (l : list A) i a :
  i < length l -> nth_error (upd l i a) i = Some a.
Proof.
  revert i; induction l as [|x l IH]; intros [|i] H; simpl in *; try lia; auto.
  apply IH; lia.
Qed.

Lemma nth_error_upd_ne {A} (l : list A) i j a :
  i <> j -> nth_error (upd l i a) j = nth_error l j.
Proof.
  revert i j; induction l as [|x l IH]; intros [|i] [|j] H; simpl; auto; try lia.
Qed.

Lemma nth_upd_eq {A} (l : list A) i a d : i < length l -> nth i (upd l i a) d = a.
Proof.
  intros H. apply nth_error_nth. now apply nth_error_upd_eq.
Qed.

Lemma nth_upd_ne {A} (l : list A) i j a d : i <> j -> nth j (upd l i a) d = nth j l d.
Proof.
  revert i j; induction l as [|x l IH]; intros [|i] [|j] H; simpl; auto; try lia.
Qed.

Lemma zrange_In n i : In i (zrange n) <-> (0 <= i < n)%Z.
Proof.
  unfold zrange. rewrite in_map_iff. split.
  - intros (k & <- & Hk). apply in_seq in Hk. lia.
  - intros H. exists (Z.to_nat i). split; [lia|]. apply in_seq. lia.
Qed.

Lemma zrange_NoDup n : NoDup (zrange n).
Proof.
  unfold zrange. apply FinFun.Injective_map_NoDup; [|apply seq_NoDup].
  intros a b H. lia.
Qed.

Lemma countb_nonneg {A} (f : A -> bool) l : (0 <= countb f l)%Z.
Proof. induction l as [|x l IH]; simpl; [lia|destruct (f x); lia]. Qed.

Lemma countb_app {A} (f : A -> bool) l1 l2 :
  countb f (l1 ++ l2) = (countb f l1 + countb f l2)%Z.
Proof. induction l1 as [|x l IH]; simpl; [lia|rewrite IH; lia]. Qed.

Lemma countb_filter {A} (f : A -> bool) l :
  countb f l = Z.of_nat (length (filter f l)).
Proof. induction l as [|x l IH]; simpl; [lia|destruct (f x); simpl length; lia]. Qed.

Lemma countb_ext {A} (f g : A -> bool) l :
  (forall x, In x l -> f x = g x) -> countb f l = countb g l.
Proof.
  induction l as [|x l IH]; simpl; intros H; auto.
  rewrite (H x) by auto. rewrite IH by (intros; apply H; auto). reflexivity.
Qed.

Lemma countb_le_length {A} (f : A -> bool) l : (countb f l <= Z.of_nat (length l))%Z.
Proof. induction l as [|x l IH]; simpl length; simpl countb; [lia|destruct (f x); lia]. Qed.

Lemma rd_in {A} (l : list A) i d :
  (0 <= i < Z.of_nat (length l))%Z -> rd l i = Ret (nth (Z.to_nat i) l d).
Proof.
  intros H. unfold rd. destruct (Z.leb_spec 0 i); [|lia].
  rewrite (nth_error_nth' l d) by lia. reflexivity.
Qed.

Lemma rd_out {A} (l : list A) i :
  ~ (0 <= i < Z.of_nat (length l))%Z -> rd l i = Undef.
Proof.
  intros H. unfold rd. destruct (Z.leb_spec 0 i); auto.
  destruct (nth_error l (Z.to_nat i)) eqn:E; auto.
  exfalso. apply H. assert (nth_error l (Z.to_nat i) <> None) as Hn by congruence.
  apply nth_error_Some in Hn. lia.
Qed.
