(** Lemmas on the piecewise linear function. *)
From Coq Require Import QArith Qfield List Bool Arith Lia Permutation Sorted Lqa.
From Verif Require Import Util PiecewiseModel.
Import ListNotations.
Local Open Scope nat_scope.

(** strictly increasing abscissae, as in a [std::map] *)
Definition increasing (l : list pair_t) : Prop :=
  forall i j p q, i < j -> vget l i = Some p -> vget l j = Some q -> (fst p < fst q)%Q.

Lemma lower_bound_le : forall x l, lower_bound x l <= length l.
Proof. intros x. induction l as [| p l IH]; cbn; [lia |]. destruct (qltb (fst p) x); lia. Qed.

Lemma lower_bound_lt : forall x l i p, i < lower_bound x l -> vget l i = Some p -> (fst p < x)%Q.
Proof.
  intros x. induction l as [| p l IH]; intros i q Hi H; cbn in Hi; [lia |].
  destruct (qltb (fst p) x) eqn:E; [| lia]. apply qltb_true in E.
  destruct i; [cbn in H; injection H as <-; exact E |]. apply (IH i); [lia | exact H].
Qed.

Lemma lower_bound_at : forall x l p, vget l (lower_bound x l) = Some p -> (x <= fst p)%Q.
Proof.
  intros x. induction l as [| p l IH]; intros q H; cbn in H; [discriminate |].
  destruct (qltb (fst p) x) eqn:E; [exact (IH q H) |]. cbn in H. injection H as <-. apply qltb_false. exact E.
Qed.

Lemma lower_bound_is : forall x l k, k <= length l ->
  (forall i p, i < k -> vget l i = Some p -> (fst p < x)%Q) -> (forall p, vget l k = Some p -> (x <= fst p)%Q) -> lower_bound x l = k.
Proof.
  intros x l k Hk H1 H2. assert (L := lower_bound_le x l).
  destruct (Nat.lt_trichotomy (lower_bound x l) k) as [H | [H | H]]; [| exact H |].
  - destruct (vget_some _ l (lower_bound x l) ltac:(lia)) as [p Hp].
    assert (A := H1 _ _ H Hp). assert (B := lower_bound_at _ _ _ Hp). lra.
  - destruct (vget_some _ l k ltac:(lia)) as [p Hp].
    assert (A := H2 _ Hp). assert (B := lower_bound_lt _ _ _ _ H Hp). lra.
Qed.

Lemma increasing_inj : forall l i j p q, increasing l -> vget l i = Some p -> vget l j = Some q -> (fst p == fst q)%Q -> i = j.
Proof.
  intros l i j p q H Hp Hq E. destruct (Nat.lt_trichotomy i j) as [L | [L | L]]; [| exact L |].
  - assert (X := H _ _ _ _ L Hp Hq). lra.
  - assert (X := H _ _ _ _ L Hq Hp). lra.
Qed.

Lemma increasing_le : forall l i j p q, increasing l -> i <= j -> vget l i = Some p -> vget l j = Some q -> (fst p <= fst q)%Q.
Proof.
  intros l i j p q H L Hp Hq. destruct (Nat.eq_dec i j) as [-> | N].
  - rewrite Hp in Hq. injection Hq as ->. lra.
  - assert (X := H i j p q ltac:(lia) Hp Hq). lra.
Qed.

(** the line through two points *)
Definition through (p q : pair_t) (x : Q) : Q := (snd p + (snd q - snd p) / (fst q - fst p) * (x - fst p))%Q.

Lemma line_spec : forall l i j p q x, vget l i = Some p -> vget l j = Some q -> ~ (fst p == fst q)%Q ->
  exists v, line l i j x = Some v /\ (v == through p q x)%Q.
Proof.
  intros l i j p q x Hp Hq N. unfold line, obind. rewrite Hp, Hq.
  assert (D : ~ (fst p - fst q == 0)%Q) by (intros E; apply N; lra).
  rewrite qdiv_some by exact D. eexists. split; [reflexivity |]. unfold through. field.
  split; [intros E; apply N; lra | exact D].
Qed.

Lemma through_first : forall p q, ~ (fst p == fst q)%Q -> (through p q (fst p) == snd p)%Q.
Proof. intros p q N. unfold through. field. intros E; apply N; lra. Qed.

Lemma through_second : forall p q, ~ (fst p == fst q)%Q -> (through p q (fst q) == snd q)%Q.
Proof. intros p q N. unfold through. field. intros E; apply N; lra. Qed.

Lemma through_ext : forall p q x y, (x == y)%Q -> (through p q x == through p q y)%Q.
Proof. intros p q x y E. unfold through. rewrite E. reflexivity. Qed.

Lemma through_convex : forall p q x, (fst p < fst q)%Q -> (fst p <= x <= fst q)%Q ->
  exists t, (0 <= t <= 1)%Q /\ (through p q x == snd p + t * (snd q - snd p))%Q /\ (t == (x - fst p) / (fst q - fst p))%Q.
Proof.
  intros p q x L H. exists ((x - fst p) / (fst q - fst p))%Q.
  assert (D : (0 < fst q - fst p)%Q) by lra.
  split; [split |].
  - apply Qle_shift_div_l; lra.
  - apply Qle_shift_div_r; lra.
  - split; [unfold through; field; lra | reflexivity].
Qed.

Lemma through_bounds : forall p q x lo hi, (fst p < fst q)%Q -> (fst p <= x <= fst q)%Q ->
  (lo <= snd p <= hi)%Q -> (lo <= snd q <= hi)%Q -> (lo <= through p q x <= hi)%Q.
Proof.
  intros p q x lo hi L H Hp Hq. destruct (through_convex p q x L H) as [t [Ht [E _]]]. rewrite E.
  set (a := snd p) in *. set (b := snd q) in *. clearbody a b.
  replace (a + t * (b - a))%Q with (a + t * (b - a))%Q by reflexivity.
  assert (X : (a + t * (b - a) == (1 - t) * a + t * b)%Q) by ring. rewrite X.
  assert (A1 : (0 <= (1 - t) * (a - lo))%Q) by (apply Qmult_le_0_compat; lra).
  assert (A2 : (0 <= t * (b - lo))%Q) by (apply Qmult_le_0_compat; lra).
  assert (A3 : (0 <= (1 - t) * (hi - a))%Q) by (apply Qmult_le_0_compat; lra).
  assert (A4 : (0 <= t * (hi - b))%Q) by (apply Qmult_le_0_compat; lra).
  split; lra.
Qed.

Lemma through_mono : forall p q x y, (fst p < fst q)%Q -> (snd p <= snd q)%Q -> (x <= y)%Q -> (through p q x <= through p q y)%Q.
Proof.
  intros p q x y L H Hxy. unfold through.
  assert (K : (0 <= (snd q - snd p) / (fst q - fst p))%Q) by (apply Qle_shift_div_l; lra).
  set (k := ((snd q - snd p) / (fst q - fst p))%Q) in *. clearbody k.
  assert (0 <= k * (y - x))%Q by (apply Qmult_le_0_compat; lra). lra.
Qed.

(** ** Sorted insertion *)
Lemma add_pair_perm : forall x y l, Permutation ((x, y) :: l) (add_pair x y l).
Proof.
  intros x y. induction l as [| p l IH]; cbn; [reflexivity |].
  destruct (qltb x (fst p)); [reflexivity |]. rewrite perm_swap. constructor. exact IH.
Qed.

Definition lt_fst (p q : pair_t) : Prop := (fst p < fst q)%Q.
Definition le_fst (p q : pair_t) : Prop := (fst p <= fst q)%Q.

Lemma add_pair_le : forall x y l, StronglySorted le_fst l -> StronglySorted le_fst (add_pair x y l).
Proof.
  intros x y. induction l as [| p l IH]; intros H; cbn; [repeat constructor |].
  inversion H as [| ? ? H1 H2]; subst. destruct (qltb x (fst p)) eqn:E.
  - apply qltb_true in E. constructor; [exact H |]. constructor; [unfold le_fst; cbn; lra |].
    rewrite Forall_forall in *. intros q Hq. specialize (H2 q Hq). unfold le_fst in *. cbn. lra.
  - apply qltb_false in E. constructor; [apply IH; exact H1 |].
    apply (Permutation_Forall (add_pair_perm x y l)). constructor; [exact E | exact H2].
Qed.

Lemma add_pair_lt : forall x y l, StronglySorted lt_fst l -> Forall (fun p => ~ (fst p == x)%Q) l -> StronglySorted lt_fst (add_pair x y l).
Proof.
  intros x y. induction l as [| p l IH]; intros H N; cbn; [repeat constructor |].
  inversion H as [| ? ? H1 H2]; subst. inversion N as [| ? ? N1 N2]; subst. destruct (qltb x (fst p)) eqn:E.
  - apply qltb_true in E. constructor; [exact H |]. constructor; [exact E |].
    rewrite Forall_forall in *. intros q Hq. specialize (H2 q Hq). unfold lt_fst in *. cbn. lra.
  - apply qltb_false in E. constructor; [apply IH; assumption |].
    apply (Permutation_Forall (add_pair_perm x y l)). constructor; [| exact H2].
    unfold lt_fst. cbn. destruct (Qlt_le_dec (fst p) x) as [L | L]; [exact L |]. exfalso. apply N1. apply Qle_antisym; assumption.
Qed.

Lemma sorted_unique : forall l l', StronglySorted lt_fst l -> StronglySorted lt_fst l' -> Permutation l l' -> l = l'.
Proof.
  induction l as [| p l IH]; intros l' H H' P.
  - apply Permutation_nil in P. congruence.
  - destruct l' as [| q l']; [apply Permutation_sym, Permutation_nil in P; discriminate |].
    inversion H as [| ? ? H1 H2]; subst. inversion H' as [| ? ? H1' H2']; subst.
    rewrite Forall_forall in H2, H2'. unfold lt_fst in *.
    assert (p = q).
    { assert (Ip : In p (q :: l')) by (apply (Permutation_in p P); left; reflexivity).
      assert (Iq : In q (p :: l)) by (apply (Permutation_in q (Permutation_sym P)); left; reflexivity).
      destruct Ip as [-> | Ip]; [reflexivity |]. destruct Iq as [-> | Iq]; [reflexivity |].
      specialize (H2 q Iq). specialize (H2' p Ip). lra. }
    subst q. f_equal. apply IH; [assumption | assumption | exact (Permutation_cons_inv P)].
Qed.

Lemma sorted_increasing : forall l, StronglySorted lt_fst l -> increasing l.
Proof.
  induction l as [| p l IH]; intros H i j a b L Ha Hb; [destruct i; discriminate |].
  inversion H as [| ? ? H1 H2]; subst. destruct j as [| j]; [lia |]. rewrite vget_cons_S in Hb.
  destruct i as [| i].
  - cbn in Ha. injection Ha as <-. rewrite Forall_forall in H2. apply H2. exact (nth_error_In _ _ Hb).
  - rewrite vget_cons_S in Ha. exact (IH H1 i j a b ltac:(lia) Ha Hb).
Qed.

Definition distinct (l : list pair_t) : Prop := ForallOrdPairs (fun p q => ~ (fst p == fst q)%Q) l.

Lemma fold_perm : forall l acc, Permutation (acc ++ l) (fold_left (fun acc p => add_pair (fst p) (snd p) acc) l acc).
Proof.
  induction l as [| p l IH]; intros acc; cbn; [rewrite app_nil_r; reflexivity |].
  rewrite <- IH, <- add_pair_perm, <- surjective_pairing. cbn. symmetry. apply Permutation_middle.
Qed.

Lemma fold_sorted : forall l acc, distinct l -> StronglySorted lt_fst acc ->
  (forall p q, In p acc -> In q l -> ~ (fst p == fst q)%Q) ->
  StronglySorted lt_fst (fold_left (fun acc p => add_pair (fst p) (snd p) acc) l acc).
Proof.
  induction l as [| p l IH]; intros acc D H N; cbn; [exact H |].
  inversion D as [| ? ? D1 D2]; subst. rewrite Forall_forall in D1.
  apply IH; [exact D2 | apply add_pair_lt; [exact H |] |].
  - apply Forall_forall. intros q Hq. apply N; [exact Hq | left; reflexivity].
  - intros a b Ha Hb. apply (Permutation_in a (Permutation_sym (add_pair_perm _ _ _))) in Ha. destruct Ha as [<- | Ha].
    + apply D1. exact Hb.
    + apply N; [exact Ha | right; exact Hb].
Qed.

Lemma distinct_perm : forall l l', Permutation l l' -> distinct l -> distinct l'.
Proof.
  intros l l' P. induction P as [| a l l' P IH | a b l | l l' l'' P1 IH1 P2 IH2]; intros H.
  - exact H.
  - inversion H; subst. constructor; [apply (Permutation_Forall P); assumption | apply IH; assumption].
  - inversion H as [| ? ? H1 H2]; subst. inversion H2 as [| ? ? H3 H4]; subst. inversion H1 as [| ? ? H5 H6]; subst.
    constructor; [constructor; [intros E; apply H5; symmetry; exact E | assumption] |]. constructor; assumption.
  - auto.
Qed.
