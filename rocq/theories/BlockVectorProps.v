(** C12, C13: editing of block vectors. *)
From Coq Require Import Bool List Arith Lia Permutation.
From Verif Require Import Util BlockVectorModel.
Import ListNotations.
Local Open Scope bool_scope.

(** ** Specification *)
Definition delete_at {B} (i : nat) (l : list B) : list B := firstn i l ++ skipn (S i) l.
Definition insert_at {B} (i : nat) (x : B) (l : list B) : list B := firstn i l ++ x :: skipn i l.

(** ** Loops *)
Lemma shift_up_spec : forall B n i (l : list B), n <= i -> i < length l ->
  exists l', shift_up n i l = Some l' /\ length l' = length l /\
    forall j, vget l' j = if (i - n <? j) && (j <=? i) then vget l (j - 1) else vget l j.
Proof.
  induction n as [|n IH]; intros i l H1 H2; cbn [shift_up].
  - exists l. split; [reflexivity|]. split; [reflexivity|]. intro j.
    destruct (Nat.ltb_spec (i - 0) j), (Nat.leb_spec j i); try lia; reflexivity.
  - destruct (vget_some B l (i - 1) ltac:(lia)) as [v Ev]. rewrite Ev. cbn [obind].
    destruct (vset_some B l i v ltac:(lia)) as [l1 E1]. rewrite E1. cbn [obind].
    pose proof (vset_length _ _ _ _ _ E1) as L1.
    destruct (IH (i - 1) l1) as (l2 & E2 & L2 & G2); [lia|lia|].
    exists l2. split; [exact E2|]. split; [lia|]. intro j. rewrite G2, !(vset_get _ _ _ _ _ _ E1).
    destruct (Nat.ltb_spec (i - 1 - n) j), (Nat.leb_spec j (i - 1)), (Nat.ltb_spec (i - S n) j),
      (Nat.leb_spec j i); try lia; cbn [andb].
    + destruct (Nat.eqb_spec (j - 1) i); [lia|reflexivity].
    + destruct (Nat.eqb_spec j i); [|lia]. subst. auto.
    + destruct (Nat.eqb_spec j i); [lia|reflexivity].
    + destruct (Nat.eqb_spec j i); [lia|reflexivity].
Qed.

Lemma shift_down_spec : forall B n i (l : list B), i + n < length l ->
  exists l', shift_down n i l = Some l' /\ length l' = length l /\
    forall j, vget l' j = if (i <=? j) && (j <? i + n) then vget l (j + 1) else vget l j.
Proof.
  induction n as [|n IH]; intros i l H; cbn [shift_down].
  - exists l. split; [reflexivity|]. split; [reflexivity|]. intro j.
    destruct (Nat.leb_spec i j), (Nat.ltb_spec j (i + 0)); try lia; reflexivity.
  - destruct (vget_some B l (i + 1) ltac:(lia)) as [v Ev]. rewrite Ev. cbn [obind].
    destruct (vset_some B l i v ltac:(lia)) as [l1 E1]. rewrite E1. cbn [obind].
    pose proof (vset_length _ _ _ _ _ E1) as L1.
    destruct (IH (i + 1) l1) as (l2 & E2 & L2 & G2); [lia|].
    exists l2. split; [exact E2|]. split; [lia|]. intro j. rewrite G2, !(vset_get _ _ _ _ _ _ E1).
    destruct (Nat.leb_spec (i + 1) j), (Nat.ltb_spec j (i + 1 + n)), (Nat.leb_spec i j),
      (Nat.ltb_spec j (i + S n)); try lia; cbn [andb].
    + destruct (Nat.eqb_spec (j + 1) i); [lia|reflexivity].
    + destruct (Nat.eqb_spec j i); [lia|reflexivity].
    + destruct (Nat.eqb_spec j i); [|lia]. subst. auto.
    + destruct (Nat.eqb_spec j i); [lia|reflexivity].
Qed.

Lemma vget_delete : forall B i (l : list B) j, i < length l ->
  vget (delete_at i l) j = if j <? i then vget l j else vget l (j + 1).
Proof.
  intros B i l j H. unfold delete_at. rewrite vget_app, vget_firstn, vget_skipn, firstn_length.
  destruct (Nat.ltb_spec j (Nat.min i (length l))), (Nat.ltb_spec j i); try lia; [reflexivity|].
  f_equal. lia.
Qed.

Lemma vget_insert : forall B i (x : B) (l : list B) j, i <= length l ->
  vget (insert_at i x l) j = if j <? i then vget l j else if j =? i then Some x else vget l (j - 1).
Proof.
  intros B i x l j H. unfold insert_at. rewrite vget_app, vget_firstn, firstn_length.
  destruct (Nat.ltb_spec j (Nat.min i (length l))), (Nat.ltb_spec j i); try lia; [reflexivity|].
  destruct (Nat.eqb_spec j i).
  - replace (j - Nat.min i (length l)) with 0 by lia. reflexivity.
  - replace (j - Nat.min i (length l)) with (S (j - i - 1)) by lia.
    rewrite vget_cons_S, vget_skipn. f_equal. lia.
Qed.

Lemma delete_length : forall B i (l : list B), i < length l -> length (delete_at i l) = length l - 1.
Proof. intros. unfold delete_at. rewrite app_length, firstn_length, skipn_length. lia. Qed.

Lemma insert_length : forall B i (x : B) l, i <= length l -> length (insert_at i x l) = S (length l).
Proof. intros. unfold insert_at. rewrite app_length, firstn_length. simpl. rewrite skipn_length. lia. Qed.

Lemma move_block_spec : forall B from to (l : list B) x, from < length l -> to < length l ->
  vget l from = Some x ->
  move_block from to l = Some (insert_at to x (delete_at from l)).
Proof.
  intros B from to l x H1 H2 HX. unfold move_block. rewrite HX. cbn [obind].
  assert (LD : length (delete_at from l) = length l - 1) by (apply delete_length; assumption).
  destruct (Nat.ltb_spec to from).
  - destruct (shift_up_spec B (from - to) from l) as (l1 & E1 & L1 & G1); [lia|lia|].
    rewrite E1. cbn [obind]. destruct (vset_some B l1 to x ltac:(lia)) as [l2 E2]. rewrite E2.
    f_equal. apply list_ext. intro j. rewrite (vset_get _ _ _ _ _ _ E2), G1, vget_insert, !vget_delete by lia.
    destruct (Nat.eqb_spec j to), (Nat.ltb_spec j to), (Nat.ltb_spec (from - (from - to)) j),
      (Nat.leb_spec j from), (Nat.ltb_spec j from), (Nat.ltb_spec (j - 1) from); try lia; cbn [andb];
      try reflexivity.
    f_equal. lia.
  - destruct (Nat.ltb_spec from to).
    + destruct (shift_down_spec B (to - from) from l) as (l1 & E1 & L1 & G1); [lia|].
      rewrite E1. cbn [obind]. destruct (vset_some B l1 to x ltac:(lia)) as [l2 E2]. rewrite E2.
      f_equal. apply list_ext. intro j.
      rewrite (vset_get _ _ _ _ _ _ E2), G1, vget_insert, !vget_delete by lia.
      destruct (Nat.eqb_spec j to), (Nat.ltb_spec j to), (Nat.leb_spec from j),
        (Nat.ltb_spec j (from + (to - from))), (Nat.ltb_spec j from), (Nat.ltb_spec (j - 1) from);
        try lia; cbn [andb]; try reflexivity.
      f_equal. lia.
    + assert (from = to) by lia. subst to. cbn [obind].
      destruct (vset_some B l from x H1) as [l2 E2]. rewrite E2.
      f_equal. apply list_ext. intro j.
      rewrite (vset_get _ _ _ _ _ _ E2), vget_insert, !vget_delete by lia.
      destruct (Nat.eqb_spec j from), (Nat.ltb_spec j from), (Nat.ltb_spec (j - 1) from);
        try lia; try reflexivity.
      f_equal. lia.
Qed.

Lemma insert_block_spec : forall B (null x : B) to l, to <= length l ->
  insert_block null x to l = Some (insert_at to x l).
Proof.
  intros B null x to l H. unfold insert_block. rewrite app_length. simpl length.
  replace (length l + 1 - 1) with (length l) by lia.
  destruct (shift_up_spec B (length l - to) (length l) (l ++ [null])) as (l1 & E1 & L1 & G1);
    [lia|rewrite app_length; simpl; lia|].
  rewrite E1. cbn [obind]. rewrite app_length in L1. simpl in L1.
  destruct (vset_some B l1 to x ltac:(lia)) as [l2 E2]. rewrite E2. f_equal.
  apply list_ext. intro j. rewrite (vset_get _ _ _ _ _ _ E2), G1, vget_insert by lia.
  rewrite !vget_app.
  destruct (Nat.eqb_spec j to), (Nat.ltb_spec j to), (Nat.ltb_spec (length l - (length l - to)) j),
    (Nat.leb_spec j (length l)), (Nat.ltb_spec (j - 1) (length l)), (Nat.ltb_spec j (length l));
    try lia; cbn [andb]; try reflexivity.
  rewrite !vget_none by (simpl; lia). reflexivity.
Qed.

Lemma remove_block_spec : forall B from (l : list B) x, vget l from = Some x ->
  remove_block from l = Some (x, delete_at from l).
Proof.
  intros B from l x HX. pose proof (vget_lt _ _ _ _ HX) as H. unfold remove_block. rewrite HX.
  cbn [obind].
  destruct (shift_down_spec B (length l - 1 - from) from l) as (l1 & E1 & L1 & G1); [lia|].
  rewrite E1. cbn [obind]. f_equal. f_equal. apply list_ext. intro j.
  rewrite vget_firstn, G1, vget_delete, L1 by assumption.
  destruct (Nat.ltb_spec j (length l - 1)), (Nat.leb_spec from j),
    (Nat.ltb_spec j (from + (length l - 1 - from))), (Nat.ltb_spec j from); try lia; cbn [andb];
    try reflexivity.
  symmetry. apply vget_none. lia.
Qed.

Lemma insert_delete : forall B i (l : list B) x, vget l i = Some x ->
  insert_at i x (delete_at i l) = l.
Proof.
  intros B i l x HX. pose proof (vget_lt _ _ _ _ HX) as H. apply list_ext. intro j.
  rewrite vget_insert, !vget_delete by (try assumption; rewrite delete_length by assumption; lia).
  destruct (Nat.ltb_spec j i); [reflexivity|]. destruct (Nat.eqb_spec j i); [subst; auto|].
  destruct (Nat.ltb_spec (j - 1) i); [lia|]. f_equal. lia.
Qed.

Lemma delete_insert : forall B i (l : list B) x, i <= length l ->
  delete_at i (insert_at i x l) = l.
Proof.
  intros B i l x H. apply list_ext. intro j.
  rewrite vget_delete, !vget_insert by (try assumption; rewrite insert_length by assumption; lia).
  destruct (Nat.ltb_spec j i); [reflexivity|].
  destruct (Nat.ltb_spec (j + 1) i); [lia|]. destruct (Nat.eqb_spec (j + 1) i); [lia|]. f_equal. lia.
Qed.

(** ** C12 *)

(** Moving: the block sits at its new place, the others keep their order, and
    nothing is lost or duplicated. *)
Theorem C12_move : forall B from to (l : list B), from < length l -> to < length l ->
  exists l', move_block from to l = Some l' /\
    vget l' to = vget l from /\ delete_at to l' = delete_at from l /\
    Permutation l' l /\ length l' = length l.
Proof.
  intros B from to l H1 H2. destruct (vget_some B l from H1) as [x HX].
  pose proof (delete_length B from l H1) as LD.
  rewrite (move_block_spec B from to l x H1 H2 HX). eexists. split; [reflexivity|].
  assert (P : Permutation (insert_at to x (delete_at from l)) l).
  { rewrite <- (insert_delete B from l x HX) at 2. unfold insert_at.
    rewrite <- !Permutation_middle. constructor. rewrite !firstn_skipn. reflexivity. }
  split; [|split; [|split]].
  - rewrite vget_insert by lia. destruct (Nat.ltb_spec to to); [lia|].
    rewrite Nat.eqb_refl. auto.
  - apply delete_insert. lia.
  - exact P.
  - apply Permutation_length. exact P.
Qed.
Print Assumptions C12_move.

(** Moving to the same place changes nothing. *)
Theorem C12_move_back : forall B from to (l : list B), from < length l -> to < length l ->
  (l' <- move_block from to l ;; move_block to from l') = Some l.
Proof.
  intros B from to l H1 H2. destruct (C12_move B from to l H1 H2) as (l' & E & G & D & P & L).
  rewrite E. cbn [obind]. destruct (vget_some B l from H1) as [x HX].
  rewrite (move_block_spec B to from l' x) by (try lia; congruence).
  rewrite D, (insert_delete B from l x HX). reflexivity.
Qed.
Print Assumptions C12_move_back.

Theorem C12_insert : forall B (null x : B) to l, to <= length l ->
  exists l', insert_block null x to l = Some l' /\ vget l' to = Some x /\
    (forall j, j < to -> vget l' j = vget l j) /\ (forall j, to <= j -> vget l' (S j) = vget l j).
Proof.
  intros B null x to l H. rewrite insert_block_spec by assumption. eexists. split; [reflexivity|].
  repeat split; intros; rewrite vget_insert by assumption.
  - destruct (Nat.ltb_spec to to); [lia|]. rewrite Nat.eqb_refl. reflexivity.
  - destruct (Nat.ltb_spec j to); [reflexivity|lia].
  - destruct (Nat.ltb_spec (S j) to); [lia|]. destruct (Nat.eqb_spec (S j) to); [lia|].
    f_equal. lia.
Qed.
Print Assumptions C12_insert.

Theorem C12_insert_remove : forall B (null x : B) to l, to <= length l ->
  (l' <- insert_block null x to l ;; remove_block to l') = Some (x, l).
Proof.
  intros B null x to l H. rewrite insert_block_spec by assumption. cbn [obind].
  rewrite (remove_block_spec B to _ x).
  - rewrite delete_insert by assumption. reflexivity.
  - rewrite vget_insert by assumption. destruct (Nat.ltb_spec to to); [lia|].
    rewrite Nat.eqb_refl. reflexivity.
Qed.
Print Assumptions C12_insert_remove.

Theorem C12_remove_insert : forall B (null : B) from l, from < length l ->
  (bl <- remove_block from l ;; insert_block null (fst bl) from (snd bl)) = Some l.
Proof.
  intros B null from l H. destruct (vget_some B l from H) as [x HX].
  rewrite (remove_block_spec B from l x HX). cbn [obind fst snd].
  rewrite insert_block_spec by (rewrite delete_length by assumption; lia).
  rewrite (insert_delete B from l x HX). reflexivity.
Qed.
Print Assumptions C12_remove_insert.

Lemma insert_all_app : forall B (null : B) i1 b1 i2 b2 l l',
  insert_all null i1 b1 l = Some l' ->
  insert_all null (i1 ++ i2) (b1 ++ b2) l = insert_all null i2 b2 l'.
Proof.
  induction i1 as [|i i1 IH]; intros b1 i2 b2 l l' H; destruct b1 as [|b b1]; try discriminate.
  - injection H as ->. reflexivity.
  - simpl in *. destruct (insert_block null b i l) as [l1|]; [|discriminate]. simpl in *.
    apply IH. assumption.
Qed.

(** Taking out any sequence of blocks and putting them back in reverse order
    restores the vector (the indices need not even be sorted). *)
Theorem C12_remove_all_insert_all : forall B (null : B) idx l bs rest,
  remove_all idx l = Some (bs, rest) ->
  insert_all null (rev idx) (rev bs) rest = Some l.
Proof.
  induction idx as [|i idx IH]; intros l bs rest H; simpl in H.
  - injection H as <- <-. reflexivity.
  - destruct (remove_block i l) as [[b l1]|] eqn:E; [|discriminate]. cbn [obind fst snd] in H.
    destruct (remove_all idx l1) as [[bs1 r1]|] eqn:E1; [|discriminate]. cbn [obind fst snd] in H.
    injection H as <- <-. simpl. specialize (IH l1 bs1 r1 E1).
    rewrite (insert_all_app B null _ _ [i] [b] r1 l1 IH). simpl.
    assert (HL : i < length l).
    { unfold remove_block in E. destruct (vget l i) eqn:EV; [|discriminate]. eapply vget_lt; eassumption. }
    pose proof (C12_remove_insert B null i l HL) as HR. rewrite E in HR. cbn [obind fst snd] in HR.
    rewrite HR. reflexivity.
Qed.
Print Assumptions C12_remove_all_insert_all.

(** ... and taking out is defined for strictly descending valid indices. *)
Theorem C12_remove_all_defined : forall B idx (l : list B),
  (forall k i, vget idx k = Some i -> i < length l) ->
  (forall k i j, vget idx k = Some i -> vget idx (S k) = Some j -> j < i) ->
  exists bs rest, remove_all idx l = Some (bs, rest) /\ length bs = length idx /\
    length rest + length idx = length l.
Proof.
  induction idx as [|i idx IH]; intros l H1 H2.
  - exists [], l. simpl. auto.
  - simpl. destruct (vget_some B l i (H1 0 i eq_refl)) as [x HX].
    rewrite (remove_block_spec B i l x HX). cbn [obind fst snd].
    pose proof (vget_lt _ _ _ _ HX) as HL.
    assert (D : forall k j, vget idx k = Some j -> j < i).
    { induction k as [|k IHk]; intros j Hj.
      - apply (H2 0 i j); [reflexivity|exact Hj].
      - destruct (vget idx k) as [m|] eqn:Em.
        + pose proof (H2 (S k) m j Em Hj). specialize (IHk m eq_refl). lia.
        + exfalso. apply nth_error_None in Em. apply vget_lt in Hj. lia. }
    destruct (IH (delete_at i l)) as (bs & rest & E & L1 & L2).
    + intros k j Hj. rewrite delete_length by assumption. specialize (D k j Hj). lia.
    + intros k a b Ha Hb. apply (H2 (S k) a b); assumption.
    + rewrite E. cbn [obind fst snd]. exists (x :: bs), rest. split; [reflexivity|].
      rewrite delete_length in L2 by assumption. simpl. lia.
Qed.
Print Assumptions C12_remove_all_defined.

Example C12_case :
  move_block 1 3 [10; 11; 12; 13; 14] = Some [10; 12; 13; 11; 14] /\
  move_block 3 1 [10; 11; 12; 13; 14] = Some [10; 13; 11; 12; 14] /\
  insert_block 0 99 2 [10; 11; 12] = Some [10; 11; 99; 12] /\
  remove_block 1 [10; 11; 12] = Some (11, [10; 12]) /\
  remove_all [3; 1] [10; 11; 12; 13] = Some ([13; 11], [10; 12]).
Proof. repeat split. Qed.

(** A view is the block range. *)
Theorem C12_view : forall B n start (l : list B), start + n <= length l ->
  create_view n start l = Some (firstn n (skipn start l)).
Proof.
  induction n as [|n IH]; intros start l H; [reflexivity|]. simpl create_view.
  destruct (vget_some B l start ltac:(lia)) as [v Ev]. rewrite Ev. cbn [obind].
  rewrite IH by lia. cbn [obind]. f_equal.
  assert (E : skipn start l = v :: skipn (S start) l).
  { apply list_ext. intros [|j]; [rewrite vget_skipn, Nat.add_0_r; exact Ev|].
    rewrite vget_cons_S, !vget_skipn. f_equal. lia. }
  rewrite E. reflexivity.
Qed.
Print Assumptions C12_view.

(** ** C13 *)

(** The remapping of the grain tracker touches only the [n] order parameter
    blocks behind the first [offset] ones. *)
Definition remaps_only {B} (offset n : nat) (remap : list B -> list B) : Prop :=
  forall head ops tail, length head = offset -> length ops = n ->
    exists ops', length ops' = n /\ remap (head ++ ops ++ tail) = head ++ ops' ++ tail.

Lemma reinit_shrink : forall B (zero : B) n l, n <= length l -> reinit zero n l = firstn n l.
Proof.
  intros B zero n l H. unfold reinit. replace (n - length l) with 0 by lia. apply app_nil_r.
Qed.

Lemma reinit_grow : forall B (zero : B) n l, length l <= n ->
  reinit zero n l = l ++ repeat zero (n - length l).
Proof. intros B zero n l H. unfold reinit. rewrite firstn_all2 by lia. reflexivity. Qed.

(** Without displacement blocks: concentration and chemical potential are
    kept, so are the order parameters that remain (after the remapping, if
    there is one); new ones are zero before the remapping.  The full claim
    includes displacements, see below. *)
Theorem C13_no_displacements_partial :
  forall B (zero : B) g g_new reassigned remap head ops l,
  l = head ++ ops -> length ops = g ->
  (g_new <= g -> remaps_only (length head) g remap) ->
  (g <= g_new -> remaps_only (length head) g_new remap) ->
  exists ops', change_n_grains zero (length head) g g_new 0 reassigned remap l = Some (head ++ ops') /\
    length ops' = g_new /\
    (g_new < g -> head ++ ops' = firstn (length head + g_new) (if reassigned then remap l else l)) /\
    (g < g_new -> head ++ ops' =
       (if reassigned then remap (l ++ repeat zero (g_new - g)) else l ++ repeat zero (g_new - g))).
Proof.
  intros B zero g g_new reassigned remap head ops l -> HO H1 H2. unfold change_n_grains.
  rewrite app_length, HO. replace (length head + g - g + g_new) with (length head + g_new) by lia.
  change (0 <? 0) with false. cbv zeta.
  destruct (lt_eq_lt_dec g_new g) as [[L|E]|L].
  - destruct (Nat.ltb_spec (length head + g_new) (length head + g)); [|lia].
    destruct (Nat.ltb_spec (length head + g) (length head + g_new)); [lia|].
    rewrite andb_false_r, andb_true_r.
    destruct (H1 ltac:(lia) head ops [] eq_refl HO) as (ops1 & L1 & R1).
    rewrite !app_nil_r in R1.
    assert (HR : exists ops2, (if reassigned then remap (head ++ ops) else head ++ ops) = head ++ ops2
       /\ length ops2 = g) by (destruct reassigned; eauto).
    destruct HR as (ops2 & E2 & L2). exists (firstn g_new ops2).
    assert (F : firstn (length head + g_new) (head ++ ops2) = head ++ firstn g_new ops2).
    { rewrite firstn_app_2. reflexivity. }
    rewrite E2. split; [|split; [|split]].
    + assert (E3 : (if reassigned then Some (remap (head ++ ops)) else Some (head ++ ops))
        = Some (head ++ ops2)) by (destruct reassigned; rewrite E2; reflexivity).
      rewrite E3. cbn [obind]. rewrite reinit_shrink by (rewrite app_length; lia). rewrite F. reflexivity.
    + rewrite firstn_length. lia.
    + intros _. symmetry. exact F.
    + lia.
  - subst g_new. rewrite Nat.ltb_irrefl, andb_false_r. cbn [obind].
    rewrite reinit_shrink by (rewrite app_length; lia).
    rewrite firstn_all2 by (rewrite app_length; lia).
    exists ops. split; [reflexivity|]. split; [assumption|]. split; lia.
  - destruct (Nat.ltb_spec (length head + g_new) (length head + g)); [lia|].
    destruct (Nat.ltb_spec (length head + g) (length head + g_new)); [|lia].
    rewrite andb_false_r, andb_true_r. cbn [obind].
    rewrite reinit_grow by (rewrite app_length; lia). rewrite app_length, HO.
    replace (length head + g_new - (length head + g)) with (g_new - g) by lia.
    rewrite <- app_assoc.
    destruct (H2 ltac:(lia) head (ops ++ repeat zero (g_new - g)) [] eq_refl) as (ops1 & L1 & R1).
    { rewrite app_length, repeat_length. lia. }
    rewrite !app_nil_r in R1. destruct reassigned.
    + rewrite R1. cbn [obind]. exists ops1. split; [reflexivity|]. split; [assumption|].
      split; [lia|reflexivity].
    + exists (ops ++ repeat zero (g_new - g)). split; [reflexivity|].
      split; [rewrite app_length, repeat_length; lia|]. split; [lia|reflexivity].
Qed.
Print Assumptions C13_no_displacements_partial.

(** Moving the new blocks, one after the other, before the displacements. *)
Lemma move_before_spec : forall B n (front mid : list B) new,
  length new = n ->
  move_before n (length front + length mid) (length mid) (front ++ mid ++ new)
  = Some (front ++ new ++ mid).
Proof.
  induction n as [|n IH]; intros front mid new H.
  - destruct new; [|discriminate]. rewrite app_nil_r. reflexivity.
  - destruct new as [|x new]; [discriminate|]. injection H as H. cbn [move_before].
    assert (HX : vget (front ++ mid ++ x :: new) (length front + length mid) = Some x).
    { rewrite !vget_app. destruct (Nat.ltb_spec (length front + length mid) (length front)); [lia|].
      destruct (Nat.ltb_spec (length front + length mid - length front) (length mid)); [lia|].
      replace (length front + length mid - length front - length mid) with 0 by lia. reflexivity. }
    pose proof (vget_lt _ _ _ _ HX) as HL.
    rewrite (move_block_spec B _ (length front + length mid - length mid) _ x) by (try assumption; lia).
    cbn [obind].
    replace (length front + length mid - length mid) with (length front) by lia.
    assert (E : insert_at (length front) x (delete_at (length front + length mid)
                  (front ++ mid ++ x :: new)) = (front ++ [x]) ++ mid ++ new).
    { unfold delete_at. rewrite (app_assoc front mid), firstn_app, firstn_all2 by (rewrite app_length; lia).
      rewrite app_length, Nat.sub_diag. cbn [firstn]. rewrite app_nil_r.
      rewrite skipn_app, skipn_all2 by (rewrite app_length; lia).
      rewrite app_length. replace (S (length front + length mid) - (length front + length mid)) with 1 by lia.
      cbn [skipn app]. unfold insert_at. rewrite <- app_assoc.
      rewrite firstn_app, firstn_all, Nat.sub_diag. cbn [firstn]. rewrite app_nil_r.
      rewrite skipn_app, skipn_all, Nat.sub_diag. cbn [skipn app].
      rewrite <- app_assoc. reflexivity. }
    rewrite E. replace (S (length front + length mid)) with (length (front ++ [x]) + length mid)
      by (rewrite app_length; simpl; lia).
    rewrite IH by assumption. f_equal. rewrite <- app_assoc. reflexivity.
Qed.

(** Growing with a remapping: all displacement blocks are kept, behind the new
    order parameters. *)
Theorem C13_growth_partial :
  forall B (zero : B) g g_new remap head ops disp,
  length ops = g -> g < g_new -> remaps_only (length head) g_new remap ->
  exists ops',
    change_n_grains zero (length head) g g_new (length disp) true remap (head ++ ops ++ disp)
      = Some (head ++ ops' ++ disp) /\ length ops' = g_new /\
    head ++ ops' ++ disp = remap (head ++ (ops ++ repeat zero (g_new - g)) ++ disp).
Proof.
  intros B zero g g_new remap head ops disp HO HG HR. unfold change_n_grains. cbv zeta.
  rewrite !app_length, HO.
  replace (length head + (g + length disp) - g + g_new) with (length head + g_new + length disp) by lia.
  destruct (Nat.ltb_spec (length head + g_new + length disp) (length head + (g + length disp))); [lia|].
  destruct (Nat.ltb_spec (length head + (g + length disp)) (length head + g_new + length disp)); [|lia].
  cbn [andb obind].
  rewrite reinit_grow by (rewrite !app_length; lia). rewrite !app_length, HO.
  replace (length head + g_new + length disp - (length head + (g + length disp))) with (g_new - g) by lia.
  destruct (HR head (ops ++ repeat zero (g_new - g)) disp eq_refl) as (ops1 & L1 & R1).
  { rewrite app_length, repeat_length. lia. }
  assert (EM : (if 0 <? length disp then
      move_before (g_new - g) (length head + (g + length disp)) (length disp)
        ((head ++ ops ++ disp) ++ repeat zero (g_new - g))
    else Some ((head ++ ops ++ disp) ++ repeat zero (g_new - g)))
    = Some (head ++ (ops ++ repeat zero (g_new - g)) ++ disp)).
  { destruct (Nat.ltb_spec 0 (length disp)).
    - replace (length head + (g + length disp)) with (length (head ++ ops) + length disp)
        by (rewrite app_length; lia).
      replace ((head ++ ops ++ disp) ++ repeat zero (g_new - g))
        with ((head ++ ops) ++ disp ++ repeat zero (g_new - g)) by (rewrite !app_assoc; reflexivity).
      rewrite move_before_spec by apply repeat_length. rewrite !app_assoc. reflexivity.
    - destruct disp; [|simpl in *; lia]. rewrite !app_nil_r, !app_assoc. reflexivity. }
  rewrite EM. cbn [obind]. rewrite R1. eauto.
Qed.
Print Assumptions C13_growth_partial.

Example C13_case :
  change_n_grains 0 2 2 4 3 true (fun l => l) [1; 2; 11; 12; 91; 92; 93]
  = Some [1; 2; 11; 12; 0; 0; 91; 92; 93] /\
  remaps_only (B := nat) 2 4 (fun l => l).
Proof. split; [reflexivity|]. intros head ops tail H1 H2. eauto. Qed.

Lemma move_to_end_prefix : forall B n lo d (l l' : list B), (n <> 0 -> lo + n + d <= length l) ->
  move_to_end n lo d l = Some l' -> firstn lo l' = firstn lo l /\ length l' = length l.
Proof.
  induction n as [|n IH]; intros lo d l l' H E; simpl in E.
  - injection E as <-. auto.
  - destruct (vget_some B l (lo + n) ltac:(lia)) as [x HX].
    rewrite (move_block_spec B (lo + n) (lo + n + d) l x) in E by (try assumption; lia).
    cbn [obind] in E.
    assert (HL : length (delete_at (lo + n) l) = length l - 1) by (apply delete_length; lia).
    assert (HI : length (insert_at (lo + n + d) x (delete_at (lo + n) l)) = length l)
      by (rewrite insert_length; lia).
    destruct (IH lo d (insert_at (lo + n + d) x (delete_at (lo + n) l)) l') as [E1 E2]; [lia|exact E|].
    split; [|lia]. rewrite E1.
    apply list_ext. intro j. rewrite !vget_firstn. destruct (Nat.ltb_spec j lo); [|reflexivity].
    rewrite vget_insert, vget_delete by lia.
    destruct (Nat.ltb_spec j (lo + n + d)); [|lia]. destruct (Nat.ltb_spec j (lo + n)); [|lia].
    reflexivity.
Qed.

Lemma move_to_end_defined : forall B n lo d (l : list B), (n <> 0 -> lo + n + d <= length l) ->
  exists l', move_to_end n lo d l = Some l'.
Proof.
  induction n as [|n IH]; intros lo d l H; simpl; [eauto|].
  destruct (C12_move B (lo + n) (lo + n + d) l ltac:(lia) ltac:(lia)) as (l1 & E & _ & _ & _ & L).
  rewrite E. cbn [obind]. apply IH. lia.
Qed.

(** Shrinking: with displacements the vector is simply cut off at the end (the
    loop that should move the order parameters to be deleted to the end starts
    from the wrong bound), with or without a remapping. *)
Theorem C13_shrink_cuts_end :
  forall B (zero : B) g g_new reassigned remap head ops disp,
  length ops = g -> g_new < g -> disp <> [] ->
  remaps_only (length head) g remap ->
  change_n_grains zero (length head) g g_new (length disp) reassigned remap (head ++ ops ++ disp)
  = Some (firstn (length head + g_new + length disp)
            (if reassigned then remap (head ++ ops ++ disp) else head ++ ops ++ disp)).
Proof.
  intros B zero g g_new reassigned remap head ops disp HO HG HD HR. unfold change_n_grains. cbv zeta.
  rewrite !app_length, HO.
  replace (length head + (g + length disp) - g + g_new) with (length head + g_new + length disp) by lia.
  destruct (Nat.ltb_spec (length head + g_new + length disp) (length head + (g + length disp))); [|lia].
  destruct (Nat.ltb_spec (length head + (g + length disp)) (length head + g_new + length disp)); [lia|].
  rewrite andb_false_r, andb_true_r.
  destruct reassigned; cbn [obind].
  - destruct (Nat.ltb_spec 0 (length disp)); [|destruct disp; [congruence|simpl in *; lia]].
    destruct (HR head ops disp eq_refl HO) as (ops1 & L1 & R1). rewrite R1.
    set (m := length head + g - (length head + g_new + length disp)).
    assert (HM : m = 0 \/ length head + g_new + length disp + m = length head + g) by lia.
    destruct (move_to_end_defined B m (length head + g_new + length disp) (length disp)
      (head ++ ops1 ++ disp)) as [l' E].
    { rewrite !app_length. lia. }
    rewrite E. cbn [obind].
    destruct (move_to_end_prefix B m (length head + g_new + length disp) (length disp)
      (head ++ ops1 ++ disp) l') as [E1 E2]; [rewrite !app_length; lia|exact E|].
    rewrite reinit_shrink by (rewrite E2, !app_length; lia). rewrite E1. reflexivity.
  - rewrite reinit_shrink by (rewrite !app_length; lia). reflexivity.
Qed.
Print Assumptions C13_shrink_cuts_end.

(** Hence for every such change there are fields whose last displacement block
    is lost. *)
Theorem C13_shrink_refuted : forall g g_new d reassigned, g_new < g -> 0 < d ->
  exists head ops disp l',
    length head = 2 /\ length ops = g /\ length disp = d /\
    change_n_grains 0 2 g g_new d reassigned (fun l => l) (head ++ ops ++ disp) = Some l' /\
    forall ops', length ops' = g_new -> l' <> head ++ ops' ++ disp.
Proof.
  intros g g_new d reassigned HG HD.
  exists [0; 0], (repeat 0 g), (repeat 0 (d - 1) ++ [1]).
  eexists. split; [reflexivity|]. split; [apply repeat_length|].
  split; [rewrite app_length, repeat_length; simpl; lia|]. split.
  - rewrite <- (C13_shrink_cuts_end nat 0 g g_new reassigned (fun l => l) [0; 0] (repeat 0 g)
      (repeat 0 (d - 1) ++ [1])).
    + rewrite app_length, repeat_length. simpl length. replace (d - 1 + 1) with d by lia. reflexivity.
    + apply repeat_length.
    + assumption.
    + destruct (repeat 0 (d - 1)); discriminate.
    + intros head ops tail H1 H2. eauto.
  - intros ops' HL E.
    apply (f_equal (fun l => vget l (2 + g_new + d - 1))) in E.
    assert (I : (if reassigned then [0; 0] ++ repeat 0 g ++ repeat 0 (d - 1) ++ [1]
                 else [0; 0] ++ repeat 0 g ++ repeat 0 (d - 1) ++ [1])
      = [0; 0] ++ repeat 0 g ++ repeat 0 (d - 1) ++ [1]) by (destruct reassigned; reflexivity).
    rewrite I in E.
    rewrite vget_firstn, !vget_app, !repeat_length, !app_length, !repeat_length, !vget_repeat in E.
    cbn [length] in E. rewrite HL in E.
    destruct (Nat.ltb_spec (2 + g_new + d - 1) (2 + g_new + (d - 1 + 1))); [|lia].
    destruct (Nat.ltb_spec (2 + g_new + d - 1) 2); [lia|].
    destruct (Nat.ltb_spec (2 + g_new + d - 1 - 2) g_new); [lia|].
    destruct (Nat.ltb_spec (2 + g_new + d - 1 - 2 - g_new) (d - 1)); [lia|].
    replace (2 + g_new + d - 1 - 2 - g_new - (d - 1)) with 0 in E by lia.
    change (vget [1] 0) with (Some 1) in E.
    destruct (Nat.ltb_spec (2 + g_new + d - 1 - 2) g); [discriminate|].
    destruct (Nat.ltb_spec (2 + g_new + d - 1 - 2 - g) (d - 1)); [discriminate|]. lia.
Qed.
Print Assumptions C13_shrink_refuted.

(** If the number of order parameters grows without a remapping, the new zero
    blocks end up behind the displacements. *)
Theorem C13_growth_without_remap_refuted :
  change_n_grains 0 2 2 3 2 false (fun l => l) [1; 2; 11; 12; 91; 92]
  = Some [1; 2; 11; 12; 91; 92; 0].
Proof. reflexivity. Qed.
Print Assumptions C13_growth_without_remap_refuted.
