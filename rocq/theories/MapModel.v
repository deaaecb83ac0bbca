(** [std::map] with unsigned keys: association lists sorted by key. *)
From Coq Require Import List Arith Bool Lia Sorted.
Import ListNotations.

Definition fmap (V : Type) := list (nat * V).

(** [find] / [at] *)
Fixpoint mget {V} (k : nat) (m : fmap V) : option V :=
  match m with
  | [] => None
  | (j, v) :: r => if j =? k then Some v else mget k r
  end.

(** [operator[]] followed by assignment *)
Fixpoint mput {V} (k : nat) (v : V) (m : fmap V) : fmap V :=
  match m with
  | [] => [(k, v)]
  | (j, w) :: r => if k <? j then (k, v) :: m else if j =? k then (k, v) :: r else (j, w) :: mput k v r
  end.

(** [try_emplace] / [emplace] / [insert]: an existing entry is kept *)
Definition memplace {V} (k : nat) (v : V) (m : fmap V) : fmap V :=
  match mget k m with Some _ => m | None => mput k v m end.

(** [at(k) = v]: throws if there is no entry *)
Definition massign {V} (k : nat) (v : V) (m : fmap V) : option (fmap V) :=
  match mget k m with Some _ => Some (mput k v m) | None => None end.

(** [erase(k)] *)
Fixpoint mdel {V} (k : nat) (m : fmap V) : fmap V :=
  match m with
  | [] => []
  | (j, w) :: r => if j =? k then r else (j, w) :: mdel k r
  end.

(** Keys strictly ascending: the invariant of [std::map]. *)
Definition msorted {V} (m : fmap V) : Prop := StronglySorted lt (map fst m).

Lemma mget_mput : forall V k (v : V) m j, mget j (mput k v m) = if k =? j then Some v else mget j m.
Proof.
  intros V k v. induction m as [|[a w] m IH]; intro j; cbn [mput mget]; [reflexivity|].
  destruct (Nat.ltb_spec k a); cbn [mget]; [reflexivity|].
  destruct (Nat.eqb_spec a k) as [->|]; cbn [mget].
  - destruct (k =? j); reflexivity.
  - rewrite IH. destruct (Nat.eqb_spec a j), (Nat.eqb_spec k j); try reflexivity; lia.
Qed.

Lemma mput_keys : forall V k (v : V) m x, In x (map fst (mput k v m)) <-> x = k \/ In x (map fst m).
Proof.
  intros V k v m x. induction m as [|[a w] m IH]; cbn [mput map fst In]; [intuition|].
  destruct (k <? a); cbn [map fst In]; [intuition|].
  destruct (Nat.eqb_spec a k) as [->|]; cbn [map fst In]; [intuition|]. rewrite IH. intuition.
Qed.

Lemma mput_sorted : forall V k (v : V) m, msorted m -> msorted (mput k v m).
Proof.
  unfold msorted. intros V k v. induction m as [|[a w] m IH]; intro H; cbn [mput].
  - repeat constructor.
  - cbn [map fst] in H. inversion H as [|? ? H1 H2]; subst.
    destruct (Nat.ltb_spec k a); cbn [map fst].
    + constructor; [exact H|]. constructor; [assumption|].
      eapply Forall_impl; [|exact H2]. intros; cbn in *; lia.
    + destruct (Nat.eqb_spec a k) as [->|]; cbn [map fst]; [constructor; assumption|].
      constructor; [apply IH, H1|]. apply Forall_forall. intros x Hx. apply mput_keys in Hx.
      destruct Hx as [->|Hx]; [lia|]. apply (proj1 (Forall_forall _ _) H2 x Hx).
Qed.

Lemma mget_In : forall V (m : fmap V) k v, mget k m = Some v -> In (k, v) m.
Proof.
  intros V. induction m as [|[a w] m IH]; intros k v H; cbn [mget] in H; [discriminate|].
  destruct (Nat.eqb_spec a k) as [->|]; [left; congruence|right; apply IH, H].
Qed.

Lemma In_mget : forall V (m : fmap V) k v, msorted m -> In (k, v) m -> mget k m = Some v.
Proof.
  unfold msorted. intros V. induction m as [|[a w] m IH]; intros k v HS H; [destruct H|].
  cbn [map fst] in HS. inversion HS as [|? ? H1 H2]; subst. cbn [mget]. destruct H as [E|H].
  - injection E as -> ->. rewrite Nat.eqb_refl. reflexivity.
  - destruct (Nat.eqb_spec a k) as [->|]; [|apply IH; assumption].
    exfalso. assert (k < k); [|lia]. apply (proj1 (Forall_forall _ _) H2 k). apply in_map_iff. exists (k, v). auto.
Qed.

Lemma mget_key : forall V (m : fmap V) k, In k (map fst m) <-> exists v, mget k m = Some v.
Proof.
  intros V m k. split.
  - induction m as [|[a w] m IH]; intro H; [destruct H|]. cbn [mget]. destruct (Nat.eqb_spec a k); [eauto|].
    destruct H as [H|H]; [contradiction|apply IH, H].
  - intros [v H]. apply in_map_iff. exists (k, v). split; [reflexivity|apply mget_In, H].
Qed.

Lemma mget_none : forall V (m : fmap V) k, mget k m = None <-> ~ In k (map fst m).
Proof.
  intros V m k. rewrite mget_key. split.
  - intros H [v E]. congruence.
  - intro H. destruct (mget k m) eqn:E; [|reflexivity]. exfalso. apply H. eauto.
Qed.

Lemma msorted_nodup : forall V (m : fmap V), msorted m -> NoDup (map fst m).
Proof.
  unfold msorted. intros V m. generalize (map fst m). clear. induction l as [|a l IH]; intro H; [constructor|].
  inversion H as [|? ? H1 H2]; subst. constructor; [|apply IH, H1].
  intro C. assert (a < a); [|lia]. apply (proj1 (Forall_forall _ _) H2 a C).
Qed.

Lemma msorted_unique : forall V (m : fmap V) k v w, msorted m -> In (k, v) m -> In (k, w) m -> v = w.
Proof. intros V m k v w H H1 H2. apply (In_mget _ _ _ _ H) in H1. apply (In_mget _ _ _ _ H) in H2. congruence. Qed.

Lemma mget_memplace : forall V k (v : V) m j,
  mget j (memplace k v m) = match mget j m with Some w => Some w | None => if k =? j then Some v else None end.
Proof.
  intros V k v m j. unfold memplace. destruct (mget k m) eqn:E.
  - destruct (mget j m) eqn:E'; [reflexivity|]. destruct (Nat.eqb_spec k j); congruence.
  - rewrite mget_mput. destruct (Nat.eqb_spec k j) as [->|]; [rewrite E; reflexivity|]. destruct (mget j m); reflexivity.
Qed.

Lemma memplace_sorted : forall V k (v : V) m, msorted m -> msorted (memplace k v m).
Proof. intros V k v m H. unfold memplace. destruct (mget k m); [exact H|apply mput_sorted, H]. Qed.

Lemma mdel_keys : forall V k (m : fmap V) x, In x (map fst (mdel k m)) -> In x (map fst m).
Proof.
  intros V k m x. induction m as [|[a w] m IH]; cbn [mdel]; [auto|].
  destruct (a =? k); cbn [map fst In]; intuition.
Qed.

Lemma mdel_sorted : forall V k (m : fmap V), msorted m -> msorted (mdel k m).
Proof.
  unfold msorted. intros V k. induction m as [|[a w] m IH]; intro H; cbn [mdel]; [exact H|].
  cbn [map fst] in H. inversion H as [|? ? H1 H2]; subst. destruct (a =? k); cbn [map fst]; [exact H1|].
  constructor; [apply IH, H1|]. apply Forall_forall. intros x Hx. apply mdel_keys in Hx. apply (proj1 (Forall_forall _ _) H2 x Hx).
Qed.

Lemma mget_mdel : forall V k (m : fmap V) j, msorted m -> mget j (mdel k m) = if k =? j then None else mget j m.
Proof.
  intros V k. induction m as [|[a w] m IH]; intros j H; cbn [mdel mget]; [destruct (k =? j); reflexivity|].
  pose proof H as H0. unfold msorted in H. cbn [map fst] in H. inversion H as [|? ? H1 H2]; subst.
  destruct (Nat.eqb_spec a k) as [->|].
  - destruct (Nat.eqb_spec k j) as [->|]; [|reflexivity]. apply mget_none. intro C.
    assert (j < j); [|lia]. apply (proj1 (Forall_forall _ _) H2 j C).
  - cbn [mget]. rewrite (IH j H1). destruct (Nat.eqb_spec a j), (Nat.eqb_spec k j); try reflexivity; congruence.
Qed.
