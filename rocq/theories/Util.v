(** Small helpers shared by the models: an option monad for undefined
    behaviour, checked vector access, checked division. *)
From Coq Require Import List ZArith QArith Arith Lia.
Local Open Scope nat_scope.
Import ListNotations.

(** [None] stands for undefined behaviour or a thrown exception; which of the
    two is said at each use. *)
Definition obind {A B} (x : option A) (f : A -> option B) : option B :=
  match x with Some a => f a | None => None end.

Notation "x <- e ;; f" := (obind e (fun x => f))
  (at level 61, e at next level, right associativity).

(** [std::vector::operator[]] as an rvalue: out of range is undefined. *)
Definition vget {A} (l : list A) (i : nat) : option A := nth_error l i.

(** [v[i] = x]: out of range is undefined. *)
Fixpoint vset {A} (l : list A) (i : nat) (x : A) : option (list A) :=
  match l, i with
  | [], _ => None
  | _ :: r, O => Some (x :: r)
  | y :: r, S j => match vset r j x with Some r' => Some (y :: r') | None => None end
  end.

(** Division of doubles; a zero divisor is reported instead of giving an
    infinity or NaN. *)
Definition qdiv (a b : Q) : option Q :=
  if Qeq_bool b 0 then None else Some (a / b)%Q.

Definition qltb (a b : Q) : bool := negb (Qle_bool b a).

Lemma qltb_true : forall a b, qltb a b = true <-> (a < b)%Q.
Proof.
  intros a b. unfold qltb. split; intro H.
  - apply Bool.negb_true_iff in H. apply Qnot_le_lt. intro C.
    apply Qle_bool_iff in C. congruence.
  - apply Bool.negb_true_iff. destruct (Qle_bool b a) eqn:E; [|reflexivity].
    apply Qle_bool_iff in E. exfalso. apply (Qlt_not_le a b); assumption.
Qed.

Lemma qltb_false : forall a b, qltb a b = false <-> (b <= a)%Q.
Proof.
  intros a b. unfold qltb. rewrite Bool.negb_false_iff. apply Qle_bool_iff.
Qed.

Lemma qdiv_some : forall a b, ~ (b == 0)%Q -> qdiv a b = Some (a / b)%Q.
Proof.
  intros a b H. unfold qdiv. destruct (Qeq_bool b 0) eqn:E; [|reflexivity].
  apply Qeq_bool_iff in E. contradiction.
Qed.

Lemma vset_length : forall A (l : list A) i x l', vset l i x = Some l' -> length l' = length l.
Proof.
  induction l as [|y r IH]; intros i x l' H; [discriminate|].
  destruct i as [|j]; simpl in H.
  - inversion H; reflexivity.
  - destruct (vset r j x) eqn:E; [|discriminate]. inversion H; subst. simpl.
    f_equal. eapply IH; eassumption.
Qed.

Lemma vset_some : forall A (l : list A) i x, i < length l -> exists l', vset l i x = Some l'.
Proof.
  induction l as [|y r IH]; intros i x H; simpl in H; [lia|].
  destruct i as [|j]; simpl; [eauto|].
  destruct (IH j x) as [l' E]; [lia|]. rewrite E. eauto.
Qed.

Lemma vset_get : forall A (l : list A) i x l' j,
  vset l i x = Some l' -> vget l' j = if Nat.eqb j i then Some x else vget l j.
Proof.
  unfold vget. induction l as [|y r IH]; intros i x l' j H; [discriminate|].
  destruct i as [|i]; simpl in H.
  - inversion H; subst. destruct j; reflexivity.
  - destruct (vset r i x) eqn:E; [|discriminate]. inversion H; subst.
    destruct j as [|j]; simpl; [reflexivity|]. apply (IH i x); assumption.
Qed.

Lemma list_ext : forall A (a b : list A), (forall i, vget a i = vget b i) -> a = b.
Proof.
  unfold vget. induction a as [|x a IH]; intros b H.
  - destruct b as [|y b]; [reflexivity|]. specialize (H 0). discriminate.
  - destruct b as [|y b]; [specialize (H 0); discriminate|].
    pose proof (H 0) as H0. simpl in H0. injection H0 as ->. f_equal.
    apply IH. intro i. exact (H (S i)).
Qed.

Lemma vget_some : forall A (l : list A) i, i < length l -> exists x, vget l i = Some x.
Proof.
  intros A l i H. unfold vget. destruct (nth_error l i) eqn:E; eauto.
  apply nth_error_None in E. lia.
Qed.

Lemma vget_none : forall A (l : list A) i, length l <= i -> vget l i = None.
Proof. intros. apply nth_error_None. assumption. Qed.

Lemma vget_lt : forall A (l : list A) i x, vget l i = Some x -> i < length l.
Proof. intros A l i x H. apply nth_error_Some. unfold vget in H. congruence. Qed.

Lemma vget_firstn : forall A n (l : list A) j,
  vget (firstn n l) j = if Nat.ltb j n then vget l j else None.
Proof.
  unfold vget. induction n as [|n IH]; intros l j; [destruct j; reflexivity|].
  destruct l as [|x l]; [simpl; destruct j; [|destruct (Nat.ltb (S j) (S n))]; reflexivity|].
  destruct j as [|j]; [reflexivity|]. exact (IH l j).
Qed.

Lemma vget_skipn : forall A n (l : list A) j, vget (skipn n l) j = vget l (n + j).
Proof.
  unfold vget. induction n as [|n IH]; intros l j; [reflexivity|].
  destruct l as [|x l]; [simpl; destruct j; reflexivity|]. exact (IH l j).
Qed.

Lemma vget_app : forall A (a b : list A) j,
  vget (a ++ b) j = if Nat.ltb j (length a) then vget a j else vget b (j - length a).
Proof.
  intros A a b j. unfold vget. destruct (Nat.ltb_spec j (length a)).
  - apply nth_error_app1. assumption.
  - apply nth_error_app2. assumption.
Qed.

Lemma vget_cons_S : forall A (x : A) l j, vget (x :: l) (S j) = vget l j.
Proof. reflexivity. Qed.

Lemma vget_repeat : forall A (x : A) n j,
  vget (repeat x n) j = if Nat.ltb j n then Some x else None.
Proof.
  unfold vget. intros A x n j. destruct (Nat.ltb_spec j n).
  - apply nth_error_repeat. assumption.
  - apply nth_error_None. rewrite repeat_length. assumption.
Qed.

(** Equality of lists built from [firstn], [skipn], [++] and [repeat]. *)
Ltac vlen := rewrite ?firstn_length, ?skipn_length, ?app_length, ?repeat_length in *.
Ltac vsolve :=
  repeat first
    [ rewrite vget_firstn | rewrite vget_skipn | rewrite vget_app | rewrite vget_repeat
    | rewrite firstn_length | rewrite skipn_length | rewrite app_length
    | rewrite repeat_length ];
  repeat match goal with
  | |- context [Nat.ltb ?a ?b] => destruct (Nat.ltb_spec a b)
  end;
  try lia; try reflexivity;
  try (match goal with |- vget _ ?i = vget _ ?j => replace i with j by lia; reflexivity end);
  try (apply vget_none; vlen; lia);
  try (symmetry; apply vget_none; vlen; lia).
Ltac vext := apply list_ext; let j := fresh "j" in intro j; vsolve.
