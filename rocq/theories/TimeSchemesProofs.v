From Coq Require Import List Arith ZArith QArith Lia Lqa Field.
From Verif Require Import Util TimeSchemesModel TimeSchemesSpec.
Import ListNotations.
Local Open Scope Q_scope.

Lemma eff_app : forall a b, effective_order (a ++ b) = (effective_order a + effective_order b)%nat.
Proof.
  intros a b. unfold effective_order. rewrite filter_app, app_length. reflexivity.
Qed.

Lemma eff_pos : forall l, positive l -> effective_order l = length l.
Proof.
  induction l as [|x r IH]; intro H; [reflexivity|].
  inversion H; subst. unfold effective_order in *. simpl.
  assert (E : qltb 0 x = true) by (apply qltb_true; assumption).
  rewrite E. simpl. f_equal. apply IH; assumption.
Qed.

Lemma eff_zero : forall n, effective_order (repeat 0 n) = 0%nat.
Proof.
  induction n; [reflexivity|]. unfold effective_order in *. simpl. exact IHn.
Qed.

Lemma eff_padded : forall l n, positive l -> effective_order (l ++ repeat 0 n) = length l.
Proof.
  intros l n H. rewrite eff_app, eff_pos, eff_zero by assumption. lia.
Qed.

Lemma pos_neq : forall x, 0 < x -> ~ x == 0.
Proof. intros x H E. rewrite E in H. apply (Qlt_irrefl 0 H). Qed.

Ltac qpos := repeat apply Qmult_lt_0_compat; lra.

(* the closed forms of the weights *)
Definition w1 (d0 : Q) : list Q := [1 / d0; - (1) / d0].
Definition w2 (d0 d1 : Q) : list Q :=
  [(2 * d0 + d1) / (d0 * (d0 + d1)); - (d0 + d1) / (d0 * d1); d0 / (d1 * (d0 + d1))].
Definition w3b d0 d1 d2 := - (d0 + d1) * (d0 + d1 + d2) / (d0 * d1 * (d1 + d2)).
Definition w3c d0 d1 d2 := d0 * (d0 + d1 + d2) / (d1 * d2 * (d0 + d1)).
Definition w3d d0 d1 d2 := - d0 * (d0 + d1) / (d2 * (d1 + d2) * (d0 + d1 + d2)).
Definition w3 (d0 d1 d2 : Q) : list Q :=
  [- (w3b d0 d1 d2 + w3c d0 d1 d2 + w3d d0 d1 d2);
   w3b d0 d1 d2; w3c d0 d1 d2; w3d d0 d1 d2].

Lemma order1_val : forall d0 r n, 0 < d0 ->
  weights_order1 (d0 :: r) (repeat 0 (2 + n)) = Some (w1 d0 ++ repeat 0 n).
Proof.
  intros d0 r n H. unfold weights_order1. simpl.
  rewrite !qdiv_some by (apply pos_neq; assumption). reflexivity.
Qed.

Lemma order2_val : forall d0 d1 r n, 0 < d0 -> 0 < d1 ->
  weights_order2 (d0 :: d1 :: r) (repeat 0 (3 + n)) = Some (w2 d0 d1 ++ repeat 0 n).
Proof.
  intros d0 d1 r n H0 H1. unfold weights_order2. simpl.
  rewrite !qdiv_some by (apply pos_neq; qpos). reflexivity.
Qed.

Lemma order3_val : forall d0 d1 d2 r n, 0 < d0 -> 0 < d1 -> 0 < d2 ->
  weights_order3 (d0 :: d1 :: d2 :: r) (repeat 0 (4 + n)) = Some (w3 d0 d1 d2 ++ repeat 0 n).
Proof.
  intros d0 d1 d2 r n H0 H1 H2. unfold weights_order3. simpl.
  rewrite !qdiv_some by (apply pos_neq; qpos). reflexivity.
Qed.

(** The weights for a step-size vector with [m] positive entries followed by
    zeros. *)
Definition wforms (pos : list Q) : list Q :=
  match pos with
  | [] => [0]
  | [d0] => w1 d0
  | [d0; d1] => w2 d0 d1
  | [d0; d1; d2] => w3 d0 d1 d2
  | _ => []
  end.

Lemma repeat_S_app : forall n, repeat 0 (S n) = [0] ++ repeat 0 n.
Proof. reflexivity. Qed.

Lemma compute_weights_padded : forall s pos,
  positive pos -> (length pos <= get_order s)%nat ->
  compute_weights s (pos ++ repeat 0 (get_order s - length pos)) =
  Some (wforms pos ++ repeat 0 (get_order s - length pos)).
Proof.
  intros s pos HP HL.
  pose proof (eff_padded pos (get_order s - length pos) HP) as HE.
  destruct pos as [|d0 [|d1 [|d2 [|d3 r]]]].
  - destruct s; reflexivity.
  - inversion HP; subst.
    destruct s; unfold compute_weights; rewrite HE; simpl Nat.eqb; cbv iota.
    + apply (order1_val d0 [] 0); assumption.
    + apply (order1_val d0 [0] 1); assumption.
    + apply (order1_val d0 [0;0] 2); assumption.
  - inversion HP as [|? ? H0 HP1]; subst; inversion HP1; subst.
    destruct s; [simpl in HL; lia| |];
      unfold compute_weights; rewrite HE; simpl Nat.eqb; cbv iota.
    + apply (order2_val d0 d1 [] 0); assumption.
    + apply (order2_val d0 d1 [0] 1); assumption.
  - inversion HP as [|? ? H0 HP1]; subst; inversion HP1 as [|? ? H1 HP2]; subst;
      inversion HP2; subst.
    destruct s; [simpl in HL; lia|simpl in HL; lia|].
    unfold compute_weights; rewrite HE; simpl Nat.eqb; cbv iota.
    apply (order3_val d0 d1 d2 [] 0); assumption.
  - destruct s; simpl in HL; lia.
Qed.

(** Weighted sum with arbitrary values in the place of missing solutions. *)
Lemma add_old_zeros : forall n acc old, (n <= length old)%nat ->
  exists r, add_old acc (repeat 0 n) old = Some r /\ r == acc.
Proof.
  induction n as [|n IH]; intros acc old H; simpl.
  - exists acc. split; reflexivity.
  - destruct old as [|v old]; simpl in H; [lia|].
    destruct (IH (acc + v * 0) old) as [r [E1 E2]]; [lia|].
    exists r. split; [exact E1|]. rewrite E2. ring.
Qed.

Lemma add_old_app : forall ws1 ws2 old1 old2 acc, length ws1 = length old1 ->
  add_old acc (ws1 ++ ws2) (old1 ++ old2) =
  match add_old acc ws1 old1 with Some r => add_old r ws2 old2 | None => None end.
Proof.
  induction ws1 as [|w ws1 IH]; intros ws2 old1 old2 acc H; destruct old1; simpl in *; try lia.
  - reflexivity.
  - apply IH. lia.
Qed.

Lemma ctd_padded : forall val w n old old',
  length w = S (length old) -> (n <= length old')%nat ->
  exists r0 r, compute_time_derivative 0 val w old = Some r0 /\
    compute_time_derivative 0 val (w ++ repeat 0 n) (old ++ old') = Some r /\ r == r0.
Proof.
  intros val w n old old' HL HN. destruct w as [|w0 ws]; [simpl in HL; lia|].
  simpl in *. injection HL as HL.
  assert (S0 : exists r0, add_old (0 + val * w0) ws old = Some r0).
  { clear HN. revert old HL. generalize (0 + val * w0).
    induction ws as [|x ws IH]; intros a old HL; destruct old; simpl in *; try lia; eauto. }
  destruct S0 as [r0 E0]. rewrite add_old_app by assumption. rewrite E0.
  destruct (add_old_zeros n r0 old' HN) as [r [E1 E2]].
  exists r0, r. auto.
Qed.

Lemma exact_forms : forall pos p t,
  positive pos -> (1 <= length pos <= 3)%nat -> (length p <= S (length pos))%nat ->
  exists r, compute_time_derivative 0 (peval p t) (wforms pos) (past_values p t pos) = Some r
            /\ r == peval (pderiv p) t.
Proof.
  intros pos p t HP HL HD.
  destruct pos as [|d0 [|d1 [|d2 [|d3 r]]]]; simpl in HL; try lia.
  - inversion HP; subst. pose proof (pos_neq d0 ltac:(assumption)) as N0.
    eexists. split; [reflexivity|].
    destruct p as [|a [|b [|? ?]]]; simpl in HD; try lia;
      unfold pderiv; simpl; unfold inject_Z; try (field; assumption).
  - inversion HP as [|? ? H0 HP1]; subst; inversion HP1 as [|? ? H1 HP2]; subst.
    pose proof (pos_neq d0 H0) as N0. pose proof (pos_neq d1 H1) as N1.
    assert (N01 : ~ d0 + d1 == 0) by (apply pos_neq; lra).
    eexists. split; [reflexivity|].
    destruct p as [|a [|b [|c [|? ?]]]]; simpl in HD; try lia;
      unfold pderiv; simpl; unfold inject_Z; try (field; repeat split; (assumption || (apply pos_neq; lra))).
  - inversion HP as [|? ? H0 HP1]; subst; inversion HP1 as [|? ? H1 HP2]; subst;
      inversion HP2 as [|? ? H2 HP3]; subst.
    pose proof (pos_neq d0 H0) as N0. pose proof (pos_neq d1 H1) as N1.
    pose proof (pos_neq d2 H2) as N2.
    assert (N01 : ~ d0 + d1 == 0) by (apply pos_neq; lra).
    assert (N12 : ~ d1 + d2 == 0) by (apply pos_neq; lra).
    assert (N012 : ~ d0 + d1 + d2 == 0) by (apply pos_neq; lra).
    eexists. split; [reflexivity|]. unfold w3b, w3c, w3d.
    destruct p as [|a [|b [|c [|d [|? ?]]]]]; simpl in HD; try lia;
      unfold pderiv; simpl; unfold inject_Z; try (field; repeat split; (assumption || (apply pos_neq; lra))).
Qed.

Lemma wforms_length : forall pos, (length pos <= 3)%nat -> length (wforms pos) = S (length pos).
Proof.
  intros pos H. destruct pos as [|? [|? [|? [|? ?]]]]; simpl in *; try reflexivity. lia.
Qed.

Lemma past_values_length : forall p l t, length (past_values p t l) = length l.
Proof. induction l; intro t; simpl; [reflexivity|]. rewrite IHl. reflexivity. Qed.

Lemma get_order_le : forall s, (get_order s <= 3)%nat.
Proof. destruct s; simpl; lia. Qed.

Lemma exact_padded : forall s pos p t missing,
  positive pos -> (1 <= length pos <= get_order s)%nat -> (length p <= S (length pos))%nat ->
  length missing = (get_order s - length pos)%nat ->
  exists w r,
    compute_weights s (pos ++ repeat 0 (get_order s - length pos)) = Some w /\
    compute_time_derivative 0 (peval p t) w (past_values p t pos ++ missing) = Some r /\
    r == peval (pderiv p) t.
Proof.
  intros s pos p t missing HP HL HD HM. pose proof (get_order_le s) as H3.
  destruct (exact_forms pos p t HP) as [r0 [E0 E1]]; [lia|assumption|].
  destruct (ctd_padded (peval p t) (wforms pos) (get_order s - length pos)
              (past_values p t pos) missing) as [r0' [r [F0 [F1 F2]]]].
  - rewrite wforms_length, past_values_length by lia. reflexivity.
  - lia.
  - rewrite E0 in F0. injection F0 as F0. subst r0'.
    exists (wforms pos ++ repeat 0 (get_order s - length pos)), r.
    split; [apply compute_weights_padded; [assumption|lia]|].
    split; [exact F1|]. rewrite F2. exact E1.
Qed.

Lemma qsum_app : forall a b, qsum (a ++ b) == qsum a + qsum b.
Proof.
  induction a as [|x a IH]; intro b; simpl; [ring|].
  unfold qsum in *. rewrite IH. ring.
Qed.

Lemma qsum_zeros : forall n, qsum (repeat 0 n) == 0.
Proof. induction n; simpl; [reflexivity|]. unfold qsum in *. rewrite IHn. ring. Qed.

Lemma wforms_sum : forall pos, positive pos -> (length pos <= 3)%nat -> qsum (wforms pos) == 0.
Proof.
  intros pos HP HL.
  destruct pos as [|d0 [|d1 [|d2 [|d3 r]]]]; simpl in HL; try lia; unfold qsum; simpl.
  - ring.
  - inversion HP; subst. pose proof (pos_neq d0 ltac:(assumption)). field. assumption.
  - inversion HP as [|? ? H0 HP1]; subst; inversion HP1 as [|? ? H1 HP2]; subst.
    pose proof (pos_neq d0 H0) as N0. pose proof (pos_neq d1 H1) as N1.
    assert (N01 : ~ d0 + d1 == 0) by (apply pos_neq; lra). field. auto.
  - ring.
Qed.

Lemma sum_padded : forall s pos,
  positive pos -> (length pos <= get_order s)%nat ->
  exists w, compute_weights s (pos ++ repeat 0 (get_order s - length pos)) = Some w /\
    length w = S (get_order s) /\
    (forall i, (length pos < i <= get_order s)%nat -> nth_error w i = Some 0) /\ qsum w == 0.
Proof.
  intros s pos HP HL. pose proof (get_order_le s) as H3.
  exists (wforms pos ++ repeat 0 (get_order s - length pos)).
  split; [apply compute_weights_padded; assumption|].
  pose proof (wforms_length pos ltac:(lia)) as HW.
  split; [rewrite app_length, repeat_length, HW; lia|]. split.
  - intros i Hi. rewrite nth_error_app2 by lia.
    apply nth_error_repeat. lia.
  - rewrite qsum_app, qsum_zeros, wforms_sum by (assumption || lia). ring.
Qed.

(** A scheme in its start-up phase acts as the lower order scheme. *)
Definition scheme_of_order (m : nat) : option scheme :=
  match m with 1%nat => Some BDF1 | 2%nat => Some BDF2 | 3%nat => Some BDF3 | _ => None end.

Lemma startup_lower : forall s pos s',
  positive pos -> (1 <= length pos <= get_order s)%nat -> get_order s' = length pos ->
  exists w, compute_weights s' pos = Some w /\
    compute_weights s (pos ++ repeat 0 (get_order s - length pos)) =
      Some (w ++ repeat 0 (get_order s - length pos)).
Proof.
  intros s pos s' HP HL HS. exists (wforms pos). split.
  - pose proof (compute_weights_padded s' pos HP ltac:(lia)) as E.
    rewrite HS, Nat.sub_diag in E. simpl in E. rewrite !app_nil_r in E. exact E.
  - apply compute_weights_padded; [assumption|lia].
Qed.
