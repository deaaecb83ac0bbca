(** Property C118: the report on the residual. *)
From Coq Require Import Ascii String List Reals Arith Bool Lia Lra.
From Verif Require Import Util ResidualReportModel.
Import ListNotations.
Local Open Scope string_scope.
Local Open Scope list_scope.
Local Open Scope R_scope.

(** the blocks of a group *)
Definition members (g : group) : list nat := seq (snd (fst g)) (snd g).

(** ** Groups: for the offsets of the operators the groups have different names and cover every
    block once, in order. *)
Theorem C118_groups : forall offset n_data n_op dim, (offset <= 2)%nat -> (offset <= n_data)%nat ->
  n_op = n_data \/ n_op = (n_data + dim)%nat ->
  flat_map members (check_groups offset n_data n_op dim) = seq 0 n_op
  /\ NoDup (map (fun g => fst (fst g)) (check_groups offset n_data n_op dim))
  /\ (forall g, In g (check_groups offset n_data n_op dim) -> (snd g > 0)%nat)
  /\ NoDup (header (check_groups offset n_data n_op dim)).
Proof.
  intros offset n_data n_op dim H2 Hn Ho. unfold check_groups.
  assert (E : n_op = n_data \/ (n_data < n_op)%nat /\ n_op = (n_data + dim)%nat) by (destruct Ho; lia).
  assert (A : forall k, flat_map members (if Nat.eqb k 0 then [] else [("ac", offset, k)]) = seq offset k).
  { intros k. destruct (Nat.eqb_spec k 0) as [-> | K]; [reflexivity |]. cbn [flat_map]. unfold members. cbn [fst snd]. apply app_nil_r. }
  assert (B : flat_map members (if Nat.ltb n_data n_op then [("mec", (n_op - dim)%nat, dim) : group] else []) = seq n_data (n_op - n_data)).
  { destruct (Nat.ltb_spec n_data n_op) as [K | K]; [| replace (n_op - n_data)%nat with 0%nat by lia; reflexivity].
    cbn [flat_map]. unfold members. cbn [fst snd]. rewrite app_nil_r. f_equal; lia. }
  cbv zeta. split; [| split; [| split]].
  - rewrite !flat_map_app, A, B.
    assert (Hs : seq offset (n_data - offset) ++ seq n_data (n_op - n_data) = seq offset (n_op - offset)).
    { replace n_data with (offset + (n_data - offset))%nat at 2 by lia. rewrite <- seq_app. f_equal. lia. }
    rewrite Hs. destruct offset as [| [| [| k]]]; [| | | lia]; cbn [Nat.ltb Nat.leb flat_map members fst snd app seq].
    + f_equal. lia.
    + replace n_op with (S (n_op - 1)) at 2 by lia. reflexivity.
    + replace n_op with (S (S (n_op - 2))) at 2 by lia. reflexivity.
  - destruct (Nat.ltb n_data n_op), (Nat.eqb (n_data - offset) 0); destruct offset as [| [| [| k]]]; try lia; cbn; repeat (apply NoDup_cons; [intros K; cbn in K; repeat (destruct K as [K | K]; [discriminate K |]); exact K |]); apply NoDup_nil.
  - intros g I. rewrite !in_app_iff in I. destruct I as [I | [I | [I | I]]].
    + destruct (Nat.ltb 0 offset); [| destruct I]. destruct I as [<- | []]. cbn. lia.
    + destruct (Nat.ltb 1 offset); [| destruct I]. destruct I as [<- | []]. cbn. lia.
    + destruct (Nat.eqb_spec (n_data - offset) 0); [destruct I |]. destruct I as [<- | []]. cbn [snd]. lia.
    + destruct (Nat.ltb_spec n_data n_op); [| destruct I]. destruct I as [<- | []]. cbn [snd]. lia.
  - destruct (Nat.ltb n_data n_op), (Nat.eqb (n_data - offset) 0); destruct offset as [| [| [| k]]]; try lia; cbn; repeat (apply NoDup_cons; [intros K; cbn in K; repeat (destruct K as [K | K]; [discriminate K |]); exact K |]); apply NoDup_nil.
Qed.
Print Assumptions C118_groups.

Example C118_groups_applies : check_groups 2 5 8 3 = [("ch", 0, 1); ("mu", 1, 1); ("ac", 2, 3); ("mec", 5, 3)]%nat /\ check_groups 0 4 4 3 = [("ac", 0, 4)]%nat.
Proof. split; reflexivity. Qed.

Lemma norm_sqr_pos : forall b, 0 <= norm_sqr b.
Proof. induction b as [| x b IH]; [cbn; lra |]. change (0 <= x * x + norm_sqr b). assert (H := Rle_0_sqr x). unfold Rsqr in H. lra. Qed.

Definition block_sum (r : list (list R)) (is : list nat) : R := fold_right (fun i s => norm_sqr (nth i r []) + s) 0 is.
Lemma block_sum_app : forall r a b, block_sum r (a ++ b) = block_sum r a + block_sum r b.
Proof. intros r. induction a as [| i a IH]; intros b; [change (block_sum r b = 0 + block_sum r b); ring |]. change (norm_sqr (nth i r []) + block_sum r (a ++ b) = norm_sqr (nth i r []) + block_sum r a + block_sum r b). rewrite IH. lra. Qed.
Lemma block_sum_pos : forall r is, 0 <= block_sum r is.
Proof. intros r. induction is as [| i l IH]; [cbn; lra |]. change (0 <= norm_sqr (nth i r []) + block_sum r l). assert (H := norm_sqr_pos (nth i r [])). lra. Qed.
Lemma block_sum_all : forall r k, block_sum (repeat [] k ++ r) (seq k (length r)) = fold_right (fun b s => norm_sqr b + s) 0 r.
Proof.
  induction r as [| b r IH]; intros k; [reflexivity |]. cbn [length seq block_sum fold_right].
  rewrite app_nth2 by (rewrite repeat_length; lia). rewrite repeat_length, Nat.sub_diag. cbn [nth]. f_equal.
  specialize (IH (S k)). rewrite <- IH. unfold block_sum.
  assert (X : forall l, (forall i, In i l -> (S k <= i)%nat) ->
    fold_right (fun i s => norm_sqr (nth i (repeat [] k ++ b :: r) []) + s) 0 l = fold_right (fun i s => norm_sqr (nth i (repeat [] (S k) ++ r) []) + s) 0 l).
  { induction l as [| i l IHl]; intros H; [reflexivity |]. cbn [fold_right]. rewrite IHl by (intros j I; apply H; right; exact I). f_equal. f_equal.
    assert (Hi := H i (or_introl eq_refl)). rewrite !app_nth2 by (rewrite repeat_length; lia). rewrite !repeat_length.
    replace (i - k)%nat with (S (i - S k)) by lia. reflexivity. }
  apply X. intros i I. apply in_seq in I. lia.
Qed.

Lemma group_loop_spec : forall r n o val, (o + n <= length r)%nat -> group_loop r o n val = Some (val + block_sum r (seq o n)).
Proof.
  intros r. induction n as [| n IH]; intros o val H; cbn [group_loop seq].
  - cbn. f_equal. lra.
  - destruct (vget r o) as [b |] eqn:E; [| apply nth_error_None in E; lia]. cbn [obind]. rewrite IH by lia.
    change (block_sum r (o :: seq (S o) n)) with (norm_sqr (nth o r []) + block_sum r (seq (S o) n)). rewrite (nth_error_nth r o [] E). f_equal. lra.
Qed.
Lemma group_values_spec : forall r gs, (forall g, In g gs -> (snd (fst g) + snd g <= length r)%nat) ->
  group_values r gs = Some (map (fun g => sqrt (block_sum r (members g))) gs).
Proof.
  intros r. induction gs as [| [[s o] n] gs IH]; intros H; [reflexivity |]. cbn [group_values].
  assert (Hg := H _ (or_introl eq_refl)). cbn [fst snd] in Hg. rewrite group_loop_spec by exact Hg. cbn [obind].
  rewrite IH by (intros g I; apply H; right; exact I). cbn [obind map members fst snd]. rewrite Rplus_0_l. reflexivity.
Qed.
Lemma groups_inside : forall offset n_data n_op dim, (offset <= 2)%nat -> (offset <= n_data)%nat -> n_op = n_data \/ n_op = (n_data + dim)%nat ->
  forall g, In g (check_groups offset n_data n_op dim) -> (snd (fst g) + snd g <= n_op)%nat.
Proof.
  intros offset n_data n_op dim H2 Hn Ho g I. destruct (C118_groups offset n_data n_op dim H2 Hn Ho) as [E [_ [P _]]]. specialize (P g I).
  assert (K : In (snd (fst g) + snd g - 1)%nat (flat_map members (check_groups offset n_data n_op dim))).
  { apply in_flat_map. exists g. split; [exact I |]. apply in_seq. lia. }
  rewrite E in K. apply in_seq in K. lia.
Qed.

(** ** Values: each group has the norm of its blocks, and the squares of all groups add up to
    the square of the norm of the residual. *)
Theorem C118_values : forall offset n_data n_op dim r, (offset <= 2)%nat -> (offset <= n_data)%nat ->
  n_op = n_data \/ n_op = (n_data + dim)%nat -> length r = n_op ->
  exists vs, group_values r (check_groups offset n_data n_op dim) = Some vs
    /\ length vs = length (check_groups offset n_data n_op dim)
    /\ (forall i g, nth_error (check_groups offset n_data n_op dim) i = Some g -> nth_error vs i = Some (l2_norm (firstn (snd g) (skipn (snd (fst g)) r))))
    /\ fold_right (fun v s => v * v + s) 0 vs = l2_norm r * l2_norm r.
Proof.
  intros offset n_data n_op dim r H2 Hn Ho L.
  assert (I := groups_inside offset n_data n_op dim H2 Hn Ho). subst n_op.
  exists (map (fun g => sqrt (block_sum r (members g))) (check_groups offset n_data (length r) dim)).
  split; [apply group_values_spec; exact I |]. split; [apply map_length |]. split.
  - intros i g E. rewrite (map_nth_error _ _ _ E). f_equal. unfold l2_norm. f_equal. specialize (I g (nth_error_In _ _ E)).
    unfold members. destruct g as [[s o] n]. cbn [fst snd] in *. rewrite <- (block_sum_all _ 0). cbn [repeat app].
    rewrite firstn_length, skipn_length, Nat.min_l by lia. clear - I. unfold block_sum.
    assert (X : forall k, (k <= n)%nat -> forall j, (j + k = n)%nat ->
      fold_right (fun i s => norm_sqr (nth i r []) + s) 0 (seq (o + j) k) = fold_right (fun i s => norm_sqr (nth i (firstn n (skipn o r)) []) + s) 0 (seq j k)).
    { induction k as [| k IH]; intros Hk j Hj; [reflexivity |]. cbn [seq fold_right]. replace (S (o + j)) with (o + S j)%nat by lia. rewrite (IH ltac:(lia) (S j)) by lia.
      f_equal. f_equal.
      transitivity (nth j (skipn o r) []).
      - rewrite <- (firstn_skipn o r) at 1. rewrite app_nth2; rewrite firstn_length, Nat.min_l by lia; [f_equal; lia | lia].
      - transitivity (nth j (firstn n (skipn o r) ++ skipn n (skipn o r)) []); [rewrite firstn_skipn; reflexivity |]. rewrite app_nth1; [reflexivity |]. rewrite firstn_length, skipn_length. lia. }
    specialize (X n (le_n n) 0%nat eq_refl). rewrite Nat.add_0_r in X. exact X.
  - destruct (C118_groups offset n_data (length r) dim H2 Hn Ho) as [E _]. set (gs := check_groups offset n_data (length r) dim) in *.
    unfold l2_norm. rewrite <- (block_sum_all r 0). cbn [repeat app]. rewrite sqrt_sqrt by apply block_sum_pos. rewrite <- E. clear.
    induction gs as [| g gs IH]; [reflexivity |]. cbn [map fold_right flat_map]. rewrite IH, block_sum_app. rewrite sqrt_sqrt by apply block_sum_pos. reflexivity.
Qed.
Print Assumptions C118_values.

Example C118_values_applies : exists vs, group_values [[3]; [4; 0]] (check_groups 2 2 2 2) = Some vs /\ vs = [3; 4] /\ l2_norm [[3]; [4; 0]] = 5.
Proof.
  eexists. split; [reflexivity |]. unfold l2_norm. cbn [norm_sqr fold_right]. split.
  - f_equal; [| f_equal]; [replace (0 + (3 * 3 + 0)) with (3 * 3) by ring | replace (0 + (4 * 4 + (0 * 0 + 0))) with (4 * 4) by ring]; apply sqrt_square; lra.
  - replace (3 * 3 + 0 + (4 * 4 + (0 * 0 + 0) + 0)) with (5 * 5) by ring. apply sqrt_square. lra.
Qed.

(** ** The lines of a solve. *)
Lemma columns_first : forall vs v0s i, group_columns 0 vs v0s i = Some (map (fun v => (v, None)) vs).
Proof. induction vs as [| v vs IH]; intros v0s i; [reflexivity |]. cbn [group_columns Nat.ltb Nat.leb obind map]. rewrite IH. reflexivity. Qed.
Lemma columns_later : forall step vs v0s i, (0 < step)%nat -> (i + length vs = length v0s)%nat ->
  group_columns step vs v0s i = Some (map (fun p => (fst p, Some (relative (fst p) (snd p)))) (combine vs (skipn i v0s))).
Proof.
  intros step. induction vs as [| v vs IH]; intros v0s i Hs H; [reflexivity |]. cbn [group_columns]. destruct (Nat.ltb_spec 0 step); [| lia].
  cbn [length] in H. destruct (nth_error v0s i) as [v0 |] eqn:E; [| apply nth_error_None in E; lia].
  unfold vget. rewrite E. cbn [obind]. rewrite IH by lia. cbn [obind].
  assert (K : skipn i v0s = v0 :: skipn (S i) v0s).
  { clear - E. revert i E. induction v0s as [| a l IH]; intros [| i] E; cbn in *; try discriminate; [injection E as ->; reflexivity |]. rewrite (IH _ E). destruct l; reflexivity. }
  rewrite K. reflexivity.
Qed.

(** a ratio to the first value, missing in the first line; zero if the first value was zero *)
Definition ratio_of (first : bool) (q : option R) (v v0 : R) : Prop :=
  if first then q = None else exists p, q = Some p /\ (v0 <> 0 -> p * v0 = v) /\ (v0 = 0 -> p = 0).
Lemma relative_ratio : forall v v0, ratio_of false (Some (relative v v0)) v v0.
Proof.
  intros v v0. exists (relative v v0). split; [reflexivity |]. unfold relative. destruct (Req_EM_T v0 0) as [E | N]; split; intros H; try congruence; [field; exact H].
Qed.

(** what a line should hold: [r0] is the first residual of the solve, [before] the linear
    iterations at the line before *)
Definition right_row (gs : list group) (r0 : list (list R)) (first : bool) (r : list (list R)) (before linear : nat) (x : row) : Prop :=
  r_abs x = l2_norm r
  /\ ratio_of first (r_rel x) (l2_norm r) (l2_norm r0)
  /\ length (r_groups x) = length gs
  /\ (forall i g, nth_error gs i = Some g ->
        let v := sqrt (block_sum r (members g)) in let v0 := sqrt (block_sum r0 (members g)) in
        exists q, nth_error (r_groups x) i = Some (v, q) /\ ratio_of first q v v0)
  /\ r_linear x = (linear - before)%nat.

Lemma reports_later : forall gs r0 run step before, (0 < step)%nat ->
  (forall r l g, In (r, l) run -> In g gs -> (snd (fst g) + snd g <= length r)%nat) ->
  exists rows m, reports gs (mkMem (l2_norm r0) (map (fun g => sqrt (block_sum r0 (members g))) gs) before) step run = Some (rows, m)
    /\ length rows = length run
    /\ forall i r l x, nth_error run i = Some (r, l) -> nth_error rows i = Some x ->
         right_row gs r0 false r (nth i (before :: map snd run) 0%nat) l x.
Proof.
  intros gs r0. induction run as [| [r l] run IH]; intros step before Hs H.
  - exists [], (mkMem (l2_norm r0) (map (fun g => sqrt (block_sum r0 (members g))) gs) before). split; [reflexivity |]. split; [reflexivity |]. intros [| i]; discriminate.
  - cbn [reports]. unfold report at 1. rewrite group_values_spec by (intros g I; apply (H r l g (or_introl eq_refl) I)). cbn [obind].
    destruct (Nat.eqb_spec step 0); [lia |]. cbn [value_0 values_0 previous]. rewrite columns_later by (rewrite ?map_length; cbn; lia). cbn [obind skipn fst snd].
    destruct (Nat.ltb_spec 0 step); [| lia].
    destruct (IH (S step) l ltac:(lia)) as [rows [m [E [L G]]]]; [intros r' l' g I J; apply (H r' l' g (or_intror I) J) |].
    rewrite E. cbn [obind fst snd]. eexists. eexists. split; [reflexivity |]. split; [cbn [length]; congruence |].
    intros [| i] r' l' x Ei Ex.
    + cbn in Ei, Ex. injection Ei as <- <-. injection Ex as <-. unfold right_row. cbn [r_abs r_rel r_groups r_linear nth]. split; [reflexivity |]. split; [apply relative_ratio |].
      split; [rewrite map_length, combine_length, !map_length; lia |]. split; [| reflexivity].
      intros i g Eg. cbv zeta. rewrite (map_nth_error _ i _ (d := (sqrt (block_sum r (members g)), sqrt (block_sum r0 (members g))))); [eexists; split; [reflexivity | apply relative_ratio] |].
      clear - Eg. revert i Eg. induction gs as [| a l IH]; intros [| i] E; cbn in *; try discriminate; [injection E as ->; reflexivity | apply IH; exact E].
    + cbn [nth_error] in Ei, Ex. specialize (G i r' l' x Ei Ex). cbn [map nth snd]. exact G.
Qed.

(** For all residuals with the blocks of the operator, all numbers of linear iterations and
    whatever was remembered from the solve before: there is a line for each step, with the norm
    of the residual and of each group, the ratios to those of the first line of this solve, and
    the linear iterations since the line before. *)
Theorem C118_report : forall offset n_data n_op dim m r0 l0 run, (offset <= 2)%nat -> (offset <= n_data)%nat ->
  n_op = n_data \/ n_op = (n_data + dim)%nat ->
  (forall r l, In (r, l) ((r0, l0) :: run) -> length r = n_op) ->
  exists x rows m', reports (check_groups offset n_data n_op dim) m 0 ((r0, l0) :: run) = Some (x :: rows, m')
    /\ length rows = length run
    /\ right_row (check_groups offset n_data n_op dim) r0 true r0 0 l0 x
    /\ forall i r l y, nth_error run i = Some (r, l) -> nth_error rows i = Some y ->
         right_row (check_groups offset n_data n_op dim) r0 false r (nth i (l0 :: map snd run) 0%nat) l y.
Proof.
  intros offset n_data n_op dim m r0 l0 run H2 Hn Ho HL.
  assert (I := groups_inside offset n_data n_op dim H2 Hn Ho). set (gs := check_groups offset n_data n_op dim) in *.
  cbn [reports]. unfold report at 1. rewrite group_values_spec by (intros g J; rewrite (HL r0 l0 (or_introl eq_refl)); apply I; exact J). cbn [obind Nat.eqb value_0 values_0 previous].
  rewrite columns_first. cbn [obind fst snd Nat.ltb Nat.leb].
  destruct (reports_later gs r0 run 1 l0 ltac:(lia)) as [rows [m' [E [L G]]]]; [intros r l g J K; rewrite (HL r l (or_intror J)); apply I; exact K |].
  rewrite E. cbn [obind fst snd]. eexists. exists rows, m'. split; [reflexivity |]. split; [exact L |]. split; [| exact G].
  unfold right_row. cbn [r_abs r_rel r_groups r_linear]. split; [reflexivity |]. split; [reflexivity |]. split; [rewrite !map_length; reflexivity |]. split; [| reflexivity].
  intros i g Eg. cbv zeta. rewrite map_map. rewrite (map_nth_error _ i _ Eg). eexists. split; reflexivity.
Qed.
Print Assumptions C118_report.

Lemma later_sum : forall run l0 rows r0 gs, length rows = length run ->
  (forall i r l y, nth_error run i = Some (r, l) -> nth_error rows i = Some y -> right_row gs r0 false r (nth i (l0 :: map snd run) 0%nat) l y) ->
  (forall i, (S i < length (l0 :: map snd run))%nat -> (nth i (l0 :: map snd run) 0 <= nth (S i) (l0 :: map snd run) 0)%nat) ->
  (l0 + list_sum (map r_linear rows) = last (map snd run) l0)%nat.
Proof.
  induction run as [| [r l] run IH]; intros l0 rows r0 gs L G M; destruct rows as [| y rows]; cbn in L; try discriminate; [cbn; lia |].
  injection L as L. assert (Y := G 0%nat r l y eq_refl eq_refl). destruct Y as [_ [_ [_ [_ Y]]]]. cbn [nth] in Y.
  assert (M0 := M 0%nat ltac:(cbn; lia)). cbn in M0.
  specialize (IH l rows r0 gs L). cbn [map list_sum fold_right]. fold (list_sum (map r_linear rows)). rewrite Y.
  assert (E : (l + list_sum (map r_linear rows) = last (map snd run) l)%nat).
  { apply IH; [intros i r' l' y' E1 E2; apply (G (S i) r' l' y' E1 E2) |]. intros i Hi. apply (M (S i)). cbn in *. lia. }
  replace (last (snd (r, l) :: map snd run) l0) with (last (map snd run) l); [lia |]. cbn [snd].
  clear. revert l l0. induction (map snd run) as [| a k IHk]; intros l l0; [reflexivity |]. change (last (a :: k) l = last (a :: k) l0). rewrite <- !IHk. reflexivity.
Qed.

(** The last columns of the lines add up to all linear iterations of the solve. *)
Theorem C118_linear : forall offset n_data n_op dim m r0 l0 run, (offset <= 2)%nat -> (offset <= n_data)%nat ->
  n_op = n_data \/ n_op = (n_data + dim)%nat ->
  (forall r l, In (r, l) ((r0, l0) :: run) -> length r = n_op) ->
  (forall i, (S i < length (l0 :: map snd run))%nat -> (nth i (l0 :: map snd run) 0 <= nth (S i) (l0 :: map snd run) 0)%nat) ->
  exists rows m', reports (check_groups offset n_data n_op dim) m 0 ((r0, l0) :: run) = Some (rows, m')
    /\ list_sum (map r_linear rows) = last (map snd run) l0.
Proof.
  intros offset n_data n_op dim m r0 l0 run H2 Hn Ho HL M.
  destruct (C118_report offset n_data n_op dim m r0 l0 run H2 Hn Ho HL) as [x [rows [m' [E [L [X G]]]]]].
  exists (x :: rows), m'. split; [exact E |]. destruct X as [_ [_ [_ [_ X]]]]. cbn [map list_sum fold_right]. fold (list_sum (map r_linear rows)). rewrite X, Nat.sub_0_r.
  apply (later_sum run l0 rows r0 _ L G M).
Qed.
Print Assumptions C118_linear.

Example C118_linear_applies : exists rows m, reports (check_groups 0 1 1 2) (mkMem 7 [1; 2] 9) 0 [([[4]], 0%nat); ([[2]], 3%nat); ([[1]], 5%nat)] = Some (rows, m)
  /\ map r_linear rows = [0; 3; 2]%nat /\ map (fun x => length (r_groups x)) rows = [1; 1; 1]%nat.
Proof. eexists. eexists. split; [reflexivity |]. split; reflexivity. Qed.

(** The report does not change the decision of the damped solver. *)
Theorem C118_silent : forall s, damped_check s (report_status "damped") = s.
Proof. intros []; reflexivity. Qed.
Print Assumptions C118_silent.

(** ** Refuted for an operator with further components between those of the data and the
    displacements: they are in no group. *)
Theorem C118_additional_refuted : forall offset n_data add dim, (offset <= 2)%nat -> (offset <= n_data)%nat -> (0 < add)%nat ->
  forall b, (n_data <= b < n_data + add)%nat -> ~ In b (flat_map members (check_groups offset n_data (n_data + add + dim) dim)).
Proof.
  intros offset n_data add dim H2 Hn Ha b Hb I. unfold check_groups in I. cbv zeta in I. rewrite !flat_map_app, !in_app_iff in I.
  destruct I as [I | [I | [I | I]]].
  - destruct (Nat.ltb_spec 0 offset); [| destruct I]. cbn in I. lia.
  - destruct (Nat.ltb_spec 1 offset); [| destruct I]. cbn in I. lia.
  - destruct (Nat.eqb_spec (n_data - offset) 0); [destruct I |]. cbn [flat_map] in I. unfold members in I. cbn [fst snd] in I. rewrite app_nil_r in I. apply in_seq in I. lia.
  - destruct (Nat.ltb_spec n_data (n_data + add + dim)); [| destruct I]. cbn [flat_map] in I. unfold members in I. cbn [fst snd] in I. rewrite app_nil_r in I. apply in_seq in I. lia.
Qed.
Print Assumptions C118_additional_refuted.

(** ** Refuted for the solver of PETSc: the report reads a block of an empty vector in every
    run with at least one component. *)
Theorem C118_snes_refuted : forall offset n_data n_op dim m step value r linear, (offset <= 2)%nat -> (offset <= n_data)%nat ->
  n_op = n_data \/ n_op = (n_data + dim)%nat -> (0 < n_op)%nat ->
  snes_report (check_groups offset n_data n_op dim) m step value r linear = None.
Proof.
  intros offset n_data n_op dim m step value r linear H2 Hn Ho Hp. destruct (C118_groups offset n_data n_op dim H2 Hn Ho) as [E [_ [P _]]].
  unfold snes_report, report. destruct (check_groups offset n_data n_op dim) as [| [[s o] n] gs].
  - cbn in E. destruct n_op; [lia | discriminate].
  - specialize (P _ (or_introl eq_refl)). cbn [snd] in P. destruct n as [| n]; [lia |]. cbn [group_values group_loop]. destruct o; reflexivity.
Qed.
Print Assumptions C118_snes_refuted.
