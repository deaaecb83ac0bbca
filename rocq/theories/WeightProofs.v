(** The first weight of an implicit scheme is positive and the others sum up to its
    negative. *)
From Coq Require Import List Arith ZArith QArith Lia Lqa Field.
From Verif Require Import Util TimeSchemesModel TimeSchemesSpec TimeSchemesProofs.
Import ListNotations.
Local Open Scope Q_scope.

Lemma qinv_pos : forall a, 0 < a -> 0 < / a.
Proof. intros. apply Qinv_lt_0_compat. assumption. Qed.
Lemma qdiv_pos : forall a b, 0 < a -> 0 < b -> 0 < a / b.
Proof. intros. unfold Qdiv. apply Qmult_lt_0_compat; [assumption | apply qinv_pos; assumption]. Qed.

Lemma first_weight : forall pos, positive pos -> (1 <= length pos <= 3)%nat ->
  exists w ws, wforms pos = w :: ws /\ 0 < w.
Proof.
  intros pos HP HL.
  destruct pos as [|d0 [|d1 [|d2 [|d3 r]]]]; cbn in HL; try lia.
  - inversion HP; subst. do 2 eexists. split; [reflexivity |]. apply qdiv_pos; lra.
  - inversion HP as [|? ? H0 HP1]; subst; inversion HP1 as [|? ? H1 HP2]; subst.
    do 2 eexists. split; [reflexivity |]. apply qdiv_pos; [lra |]. apply Qmult_lt_0_compat; lra.
  - inversion HP as [|? ? H0 HP1]; subst; inversion HP1 as [|? ? H1 HP2]; subst; inversion HP2 as [|? ? H2 HP3]; subst.
    do 2 eexists. split; [reflexivity |].
    assert (E : - (w3b d0 d1 d2 + w3c d0 d1 d2 + w3d d0 d1 d2) == 1 / d0 + 1 / (d0 + d1) + 1 / (d0 + d1 + d2)).
    { unfold w3b, w3c, w3d. field. repeat split; apply pos_neq; lra. }
    rewrite E.
    assert (0 < 1 / d0) by (apply qdiv_pos; lra). assert (0 < 1 / (d0 + d1)) by (apply qdiv_pos; lra).
    assert (0 < 1 / (d0 + d1 + d2)) by (apply qdiv_pos; lra). lra.
Qed.

Lemma weights_split : forall s pos, positive pos -> (1 <= length pos <= get_order s)%nat ->
  exists w ws, compute_weights s (pos ++ repeat 0 (get_order s - length pos)) = Some (w :: ws)
    /\ 0 < w /\ length ws = get_order s /\ w + qsum ws == 0
    /\ (forall i, (length pos <= i < get_order s)%nat -> nth_error ws i = Some 0).
Proof.
  intros s pos HP HL. assert (H3 := get_order_le s).
  destruct (first_weight pos HP ltac:(lia)) as [w [ws [E P]]].
  destruct (sum_padded s pos HP ltac:(lia)) as [l [C [Ll [Z Sm]]]].
  assert (C' := compute_weights_padded s pos HP ltac:(lia)). rewrite C' in C. injection C as C. rewrite E in C. cbn [app] in C.
  rewrite E in C'. cbn [app] in C'. subst l.
  exists w, (ws ++ repeat 0 (get_order s - length pos)). split; [exact C' |]. split; [exact P |].
  split; [cbn [length] in Ll; lia |]. split; [exact Sm |].
  intros i Hi. specialize (Z (S i) ltac:(lia)). exact Z.
Qed.
Print Assumptions weights_split.
