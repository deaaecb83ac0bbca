(** Properties of the initial values of the tests of the tangents (claim C126). *)
From Coq Require Import QArith.
From Coq Require Import List Arith Bool Lia Lqa.
From Verif Require Import Util DebugValuesModel.
Import ListNotations.
Local Open Scope Q_scope.

(** A node of the mesh of two unit cells: [i] in 0..2 along the two particles, 0 or 1 across. *)
Definition node (dim i j k : nat) : list Q :=
  let q n := inject_Z (Z.of_nat n) in
  if Nat.eqb dim 2 then [q i; q j] else [q i; q j; q k].
Definition is_node (i j k : nat) : Prop := (i <= 2)%nat /\ (j <= 1)%nat /\ (k <= 1)%nat.

(** The distance of two points is less than [r]. *)
Definition within (r : Q) (p q : list Q) : Prop :=
  length p = length q /\
  fold_right Qplus 0 (map (fun xy => (fst xy - snd xy) * (fst xy - snd xy)) (combine p q)) < r * r.

(** the fields along the two particles *)
Definition field (i j component : nat) : Q :=
  match component with
  | 0%nat => if Nat.eqb i 1 then 8 # 10 else 1
  | 1%nat => inject_Z (Z.of_nat (1 + i + 3 * j)) / 10
  | 2%nat => match i with 0%nat => 1 | 1%nat => 4 # 10 | _ => 0 end
  | 3%nat => match i with 0%nat => 0 | 1%nat => 4 # 10 | _ => 1 end
  | _ => 0
  end.

Lemma distance2_sum : forall p q, distance2 p q =
  fold_right Qplus 0 (map (fun xy => (fst xy - snd xy) * (fst xy - snd xy)) (combine p q)).
Proof.
  induction p as [|x p IH]; intros [|y q]; try reflexivity.
  cbn [distance2 combine map fold_right fst snd]. rewrite IH. reflexivity.
Qed.

Lemma close_within : forall p q, length p = length q -> close p q = true <-> within (1 # 1000000000) p q.
Proof.
  intros p q L. unfold close, within. rewrite <- distance2_sum. change (1 # 1000000000) with tol. split.
  - intro H. apply qltb_true in H. tauto.
  - intros [_ H]. apply qltb_true. exact H.
Qed.

Lemma square_nonneg : forall a : Q, 0 <= a * a.
Proof. intros [n d]. unfold Qle, Qmult. cbn [Qnum Qden]. nia. Qed.

Lemma apart : forall x a b, 1 <= (a - b) * (a - b) -> (x - a) * (x - a) < tol * tol -> (x - b) * (x - b) < tol * tol -> False.
Proof.
  intros x a b H1 H2 H3. assert (S : 0 <= ((x - a) + (x - b)) * ((x - a) + (x - b))) by apply square_nonneg.
  assert (T : tol * tol < 1 # 4) by reflexivity. lra.
Qed.

Lemma close2 : forall x y a b, close [x; y] [a; b] = true ->
  (x - a) * (x - a) < tol * tol /\ (y - b) * (y - b) < tol * tol.
Proof.
  intros x y a b H. apply qltb_true in H. cbn [distance2] in H.
  pose proof (square_nonneg (x - a)). pose proof (square_nonneg (y - b)). split; lra.
Qed.

Lemma close3 : forall x y z a b c, close [x; y; z] [a; b; c] = true ->
  (x - a) * (x - a) < tol * tol /\ (y - b) * (y - b) < tol * tol /\ (z - c) * (z - c) < tol * tol.
Proof.
  intros x y z a b c H. apply qltb_true in H. cbn [distance2] in H.
  pose proof (square_nonneg (x - a)). pose proof (square_nonneg (y - b)). pose proof (square_nonneg (z - c)).
  split; [|split]; lra.
Qed.

Lemma far2 : forall x y a b a' b', close [x; y] [a; b] = true ->
  1 <= (a - a') * (a - a') \/ 1 <= (b - b') * (b - b') -> close [x; y] [a'; b'] = false.
Proof.
  intros x y a b a' b' H D. destruct (close [x; y] [a'; b']) eqn:E; [|reflexivity]. exfalso.
  apply close2 in H. apply close2 in E. destruct D as [D|D]; [apply (apart x a a')|apply (apart y b b')]; tauto.
Qed.

Lemma far3 : forall x y z a b c a' b' c', close [x; y; z] [a; b; c] = true ->
  1 <= (a - a') * (a - a') \/ 1 <= (b - b') * (b - b') -> close [x; y; z] [a'; b'; c'] = false.
Proof.
  intros x y z a b c a' b' c' H D. destruct (close [x; y; z] [a'; b'; c']) eqn:E; [|reflexivity]. exfalso.
  apply close3 in H. apply close3 in E. destruct D as [D|D]; [apply (apart x a a')|apply (apart y b b')]; tauto.
Qed.

Lemma table : forall vals c, length vals = 4%nat ->
  (if Nat.ltb c 4 then nth_error vals c else Some 0) = Some (nth c vals 0).
Proof.
  intros vals c L. destruct (Nat.ltb_spec c 4).
  - apply nth_error_nth'. lia.
  - rewrite nth_overflow by lia. reflexivity.
Qed.

(** At a node, or closer to it than 10^-9, every component has the value of the field there, and
    components behind the two order parameters are 0. *)
Theorem C126_values : forall p i j k c, length p = 2%nat \/ length p = 3%nat -> is_node i j k ->
  within (1 # 1000000000) p (node (length p) i j k) ->
  exists v, do_value p c = Some v /\ v == field i j c.
Proof.
  intros p i j k c L (Hi & Hj & Hk) W.
  assert (F : forall v0 v1 v2 v3, v0 == field i j 0 -> v1 == field i j 1 -> v2 == field i j 2 -> v3 == field i j 3 ->
    exists v, (if Nat.ltb c 4 then nth_error [v0; v1; v2; v3] c else Some 0) = Some v /\ v == field i j c).
  { intros v0 v1 v2 v3 E0 E1 E2 E3. rewrite table by reflexivity. eexists. split; [reflexivity|].
    destruct c as [|[|[|[|c]]]]; cbn [nth]; try assumption. destruct c; reflexivity. }
  destruct p as [|x [|y [|z [|w p]]]]; cbn [length] in L; try lia; clear L.
  - apply close_within in W; [|reflexivity]. unfold node in W. cbn [length Nat.eqb] in W.
    unfold do_value. cbn [length Nat.eqb]. unfold values_2d.
    destruct i as [|[|[|i]]]; [| | |lia]; destruct j as [|[|j]]; try lia;
      change (inject_Z (Z.of_nat 0)) with 0 in W; change (inject_Z (Z.of_nat 1)) with 1 in W;
      try change (inject_Z (Z.of_nat 2)) with 2 in W;
      rewrite W; repeat (rewrite (far2 _ _ _ _ _ _ W) by (first [left; discriminate | right; discriminate]));
      cbn [obind]; apply F; reflexivity.
  - apply close_within in W; [|reflexivity]. unfold node in W. cbn [length Nat.eqb] in W.
    unfold do_value. cbn [length Nat.eqb]. unfold values_3d.
    destruct i as [|[|[|i]]]; [| | |lia]; destruct j as [|[|j]]; try lia; destruct k as [|[|k]]; try lia;
      change (inject_Z (Z.of_nat 0)) with 0 in W; try change (inject_Z (Z.of_nat 1)) with 1 in W;
      try change (inject_Z (Z.of_nat 2)) with 2 in W;
      rewrite W; repeat (rewrite (far3 _ _ _ _ _ _ _ _ _ W) by (first [left; discriminate | right; discriminate]));
      rewrite ?orb_true_r; cbn [orb obind]; apply F; reflexivity.
Qed.

(** Everywhere else there is an exception. *)
Theorem C126_elsewhere : forall p c, length p = 2%nat \/ length p = 3%nat ->
  (forall i j k, is_node i j k -> ~ within (1 # 1000000000) p (node (length p) i j k)) -> do_value p c = None.
Proof.
  intros p c L H.
  assert (N : forall i j k, is_node i j k -> close p (node (length p) i j k) = false).
  { intros i j k Hn. destruct (close p (node (length p) i j k)) eqn:E; [|reflexivity].
    exfalso. apply (H i j k Hn). apply close_within; [|exact E].
    unfold node. destruct L as [-> | ->]; reflexivity. }
  clear H. unfold do_value. destruct L as [L|L]; rewrite L in *; cbn [Nat.eqb].
  - unfold values_2d.
    pose proof (N 0 0 0)%nat as N1. pose proof (N 1 0 0)%nat as N2. pose proof (N 2 0 0)%nat as N3.
    pose proof (N 0 1 0)%nat as N4. pose proof (N 1 1 0)%nat as N5. pose proof (N 2 1 0)%nat as N6.
    unfold node, is_node in *. cbn [Nat.eqb] in *.
    change (inject_Z (Z.of_nat 0)) with 0 in *. change (inject_Z (Z.of_nat 1)) with 1 in *.
    change (inject_Z (Z.of_nat 2)) with 2 in *.
    rewrite N1, N2, N3, N4, N5, N6 by lia. reflexivity.
  - unfold values_3d.
    pose proof (N 0 0 0)%nat as N1. pose proof (N 1 0 0)%nat as N2. pose proof (N 2 0 0)%nat as N3.
    pose proof (N 0 1 0)%nat as N4. pose proof (N 1 1 0)%nat as N5. pose proof (N 2 1 0)%nat as N6.
    pose proof (N 0 0 1)%nat as M1. pose proof (N 1 0 1)%nat as M2. pose proof (N 2 0 1)%nat as M3.
    pose proof (N 0 1 1)%nat as M4. pose proof (N 1 1 1)%nat as M5. pose proof (N 2 1 1)%nat as M6.
    unfold node, is_node in *. cbn [Nat.eqb] in *.
    change (inject_Z (Z.of_nat 0)) with 0 in *. change (inject_Z (Z.of_nat 1)) with 1 in *.
    change (inject_Z (Z.of_nat 2)) with 2 in *.
    rewrite N1, N2, N3, N4, N5, N6, M1, M2, M3, M4, M5, M6 by lia. reflexivity.
Qed.

(** Wherever there are values, the concentration is the sum of the order parameters, which are
    between 0 and 1. *)
Theorem C126_mass : forall p c e1 e2, length p = 2%nat \/ length p = 3%nat ->
  do_value p 0 = Some c -> do_value p 2 = Some e1 -> do_value p 3 = Some e2 ->
  c == e1 + e2 /\ 0 <= e1 <= 1 /\ 0 <= e2 <= 1.
Proof.
  intros p c e1 e2 L. unfold do_value. destruct L as [L|L]; rewrite L; cbn [Nat.eqb Nat.ltb Nat.leb].
  - unfold values_2d. repeat match goal with |- context [if close p ?q then _ else _] => destruct (close p q) end;
      cbn [obind nth_error]; intros H0 H1 H2; try discriminate;
      injection H0 as <-; injection H1 as <-; injection H2 as <-;
      (split; [reflexivity|split; split; discriminate]).
  - unfold values_3d. repeat match goal with |- context [if ?b then _ else _] => destruct b end;
      cbn [obind nth_error]; intros H0 H1 H2; try discriminate;
      injection H0 as <-; injection H1 as <-; injection H2 as <-;
      (split; [reflexivity|split; split; discriminate]).
Qed.

(** a point near the middle, and one between the nodes *)
Example C126_near : do_value [1 + (1 # 10000000000); 1; 0] 1 = Some (5 # 10) /\ do_value [1 # 2; 0] 0 = None.
Proof. vm_compute. split; reflexivity. Qed.
Example C126_near_applies : within (1 # 1000000000) [1 + (1 # 10000000000); 1; 0] (node 3 1 1 0).
Proof. split; reflexivity. Qed.

Print Assumptions C126_values.
Print Assumptions C126_elsewhere.
Print Assumptions C126_mass.
