(** Property C32: the piecewise linear temperature function. *)
From Coq Require Import QArith Qfield List Bool Arith Lia Permutation Sorted Lqa.
From Verif Require Import Util PiecewiseModel PiecewiseProofs.
Import ListNotations.
Local Open Scope nat_scope.

Lemma value_nonempty : forall e l x p, vget l 0 = Some p ->
  value e l x = let it := lower_bound x l in let n := length l in
    if Nat.eqb it 0 then if e then line l 0 1 x else option_map snd (vget l it)
    else if Nat.eqb it n then if e then if Nat.ltb n 2 then None else line l (n - 2) (n - 1) x else option_map snd (vget l (n - 1))
    else line l (it - 1) it x.
Proof. intros e [| q l] x p H; [discriminate | reflexivity]. Qed.

(** between two neighbouring pairs the function is the line through them (in particular it
    passes through every pair that has a neighbour), with both kinds of continuation *)
Theorem C32_interpolates : forall e l i p q x, increasing l -> vget l i = Some p -> vget l (S i) = Some q ->
  (fst p <= x <= fst q)%Q ->
  exists v, value e l x = Some v
    /\ (v == snd p + (snd q - snd p) / (fst q - fst p) * (x - fst p))%Q
    /\ ((snd p <= v <= snd q)%Q \/ (snd q <= v <= snd p)%Q).
Proof.
  intros e l i p q x H Hp Hq Hx.
  assert (L : (fst p < fst q)%Q) by (apply (H i (S i)); [lia | assumption | assumption]).
  assert (N : ~ (fst p == fst q)%Q) by lra.
  assert (Li := vget_lt _ _ _ _ Hp). assert (Lq := vget_lt _ _ _ _ Hq).
  destruct (vget_some _ l 0 ltac:(lia)) as [p0 H0].
  rewrite (value_nonempty e l x p0 H0). cbv zeta.
  assert (W : exists v, (if Nat.eqb (lower_bound x l) 0 then if e then line l 0 1 x else option_map snd (vget l (lower_bound x l))
    else if Nat.eqb (lower_bound x l) (length l) then if e then if Nat.ltb (length l) 2 then None else line l (length l - 2) (length l - 1) x else option_map snd (vget l (length l - 1))
    else line l (lower_bound x l - 1) (lower_bound x l) x) = Some v /\ (v == through p q x)%Q).
  { destruct (Qlt_le_dec (fst p) x) as [Lx | Lx].
    - assert (E : lower_bound x l = S i).
      { apply lower_bound_is; [lia | |].
        - intros k r Hk Hr. assert (fst r <= fst p)%Q by (apply (increasing_le l k i); [exact H | lia | exact Hr | exact Hp]). lra.
        - intros r Hr. rewrite Hq in Hr. injection Hr as <-. lra. }
      rewrite E. change (Nat.eqb (S i) 0) with false. cbv iota. destruct (Nat.eqb_spec (S i) (length l)); [lia |].
      replace (S i - 1) with i by lia. apply line_spec; assumption.
    - assert (Ex : (x == fst p)%Q) by lra.
      assert (E : lower_bound x l = i).
      { apply lower_bound_is; [lia | |].
        - intros k r Hk Hr. rewrite Ex. apply (H k i); assumption.
        - intros r Hr. rewrite Hp in Hr. injection Hr as <-. lra. }
      rewrite E. destruct (Nat.eqb_spec i 0) as [-> | Ni].
      + destruct e; [apply line_spec; assumption |]. rewrite Hp. cbn. eexists. split; [reflexivity |].
        rewrite (through_ext _ _ _ _ Ex). symmetry. apply through_first. exact N.
      + destruct (Nat.eqb_spec i (length l)); [lia |].
        destruct (vget_some _ l (i - 1) ltac:(lia)) as [r Hr].
        assert (Lr : (fst r < fst p)%Q) by (apply (H (i - 1) i); [lia | assumption | assumption]).
        destruct (line_spec l (i - 1) i r p x Hr Hp ltac:(lra)) as [v [Hv Ev]].
        exists v. split; [exact Hv |]. rewrite Ev, !(through_ext _ _ _ _ Ex), through_first, through_second by lra. reflexivity. }
  destruct W as [v [Hv Ev]]. exists v. split; [exact Hv |]. split; [exact Ev |].
  rewrite Ev. destruct (Qlt_le_dec (snd p) (snd q)).
  - left. apply through_bounds; try assumption; lra.
  - right. apply through_bounds; try assumption; lra.
Qed.
Print Assumptions C32_interpolates.

(** outside of the given abscissae the function continues constantly ... *)
Theorem C32_constant_continuation : forall l p q x, vget l 0 = Some p -> vget l (length l - 1) = Some q -> increasing l ->
  ((x <= fst p)%Q -> value false l x = Some (snd p)) /\ ((fst q < x)%Q -> value false l x = Some (snd q)).
Proof.
  intros l p q x Hp Hq H. assert (Lp := vget_lt _ _ _ _ Hp).
  split; intros Hx; rewrite (value_nonempty _ _ _ _ Hp); cbv zeta.
  - assert (E : lower_bound x l = 0).
    { apply lower_bound_is; [lia | intros; lia |]. intros r Hr. rewrite Hp in Hr. injection Hr as <-. exact Hx. }
    rewrite E. cbn [Nat.eqb]. rewrite Hp. reflexivity.
  - assert (E : lower_bound x l = length l).
    { apply lower_bound_is; [lia | |].
      - intros i r Hi Hr. assert (fst r <= fst q)%Q by (apply (increasing_le l i (length l - 1)); [exact H | lia | exact Hr | exact Hq]). lra.
      - intros r Hr. apply vget_lt in Hr. lia. }
    rewrite E. destruct (Nat.eqb_spec (length l) 0); [lia |]. rewrite Nat.eqb_refl, Hq. reflexivity.
Qed.
Print Assumptions C32_constant_continuation.

(** ... or along the first and last line *)
Theorem C32_linear_continuation : forall l p p' q' q x, 2 <= length l -> increasing l ->
  vget l 0 = Some p -> vget l 1 = Some p' -> vget l (length l - 2) = Some q' -> vget l (length l - 1) = Some q ->
  ((x <= fst p)%Q -> exists v, value true l x = Some v /\ (v == snd p + (snd p' - snd p) / (fst p' - fst p) * (x - fst p))%Q)
  /\ ((fst q < x)%Q -> exists v, value true l x = Some v /\ (v == snd q + (snd q - snd q') / (fst q - fst q') * (x - fst q))%Q).
Proof.
  intros l p p' q' q x Hl H Hp Hp' Hq' Hq.
  split; intros Hx; rewrite (value_nonempty _ _ _ _ Hp); cbv zeta.
  - assert (E : lower_bound x l = 0).
    { apply lower_bound_is; [lia | intros; lia |]. intros r Hr. rewrite Hp in Hr. injection Hr as <-. exact Hx. }
    rewrite E. cbn [Nat.eqb]. apply line_spec; try assumption. assert (X := H 0 1 p p' ltac:(lia) Hp Hp'). lra.
  - assert (E : lower_bound x l = length l).
    { apply lower_bound_is; [lia | |].
      - intros i r Hi Hr. assert (fst r <= fst q)%Q by (apply (increasing_le l i (length l - 1)); [exact H | lia | exact Hr | exact Hq]). lra.
      - intros r Hr. apply vget_lt in Hr. lia. }
    rewrite E. destruct (Nat.eqb_spec (length l) 0); [lia |]. rewrite Nat.eqb_refl. destruct (Nat.ltb_spec (length l) 2); [lia |].
    assert (X := H (length l - 2) (length l - 1) q' q ltac:(lia) Hq' Hq).
    destruct (line_spec l (length l - 2) (length l - 1) q' q x Hq' Hq ltac:(lra)) as [v [Hv Ev]].
    exists v. split; [exact Hv |]. rewrite Ev. unfold through. field. lra.
Qed.
Print Assumptions C32_linear_continuation.

(** every argument lies in one of these ranges *)
Lemma cases : forall l x, increasing l -> l <> [] ->
  (exists p, vget l 0 = Some p /\ (x <= fst p)%Q)
  \/ (exists p, vget l (length l - 1) = Some p /\ (fst p < x)%Q)
  \/ (exists i p q, vget l i = Some p /\ vget l (S i) = Some q /\ (fst p < x)%Q /\ (x <= fst q)%Q).
Proof.
  intros l x H N. assert (Hl : 0 < length l) by (destruct l; [congruence | cbn; lia]).
  assert (L := lower_bound_le x l).
  destruct (Nat.eq_dec (lower_bound x l) 0) as [E | E].
  - left. destruct (vget_some _ l 0 Hl) as [p Hp]. exists p. split; [exact Hp |]. apply (lower_bound_at x l). rewrite E. exact Hp.
  - right. destruct (vget_some _ l (lower_bound x l - 1) ltac:(lia)) as [p Hp].
    assert (P := lower_bound_lt x l (lower_bound x l - 1) p ltac:(lia) Hp).
    destruct (Nat.eq_dec (lower_bound x l) (length l)) as [E' | E'].
    + left. exists p. rewrite <- E'. split; assumption.
    + right. destruct (vget_some _ l (lower_bound x l) ltac:(lia)) as [q Hq].
      exists (lower_bound x l - 1), p, q. replace (S (lower_bound x l - 1)) with (lower_bound x l) by lia.
      repeat split; try assumption. apply (lower_bound_at x l). exact Hq.
Qed.

(** with constant continuation the function stays in every range that contains the given
    values (so a positive temperature table gives a positive temperature at any time), and it
    passes through every pair *)
Theorem C32_bounds : forall l lo hi x, increasing l -> l <> [] -> Forall (fun p => (lo <= snd p <= hi)%Q) l ->
  (exists v, value false l x = Some v /\ (lo <= v <= hi)%Q)
  /\ (forall p, In p l -> (x == fst p)%Q -> exists v, value false l x = Some v /\ (v == snd p)%Q).
Proof.
  intros l lo hi x H N B. rewrite Forall_forall in B.
  assert (Hl : 0 < length l) by (destruct l; [congruence | cbn; lia]).
  destruct (vget_some _ l 0 Hl) as [p0 H0]. destruct (vget_some _ l (length l - 1) ltac:(lia)) as [pn Hn].
  split.
  - destruct (cases l x H N) as [[p [Hp Hx]] | [[p [Hp Hx]] | [i [p [q [Hp [Hq [Hx Hx']]]]]]]].
    + rewrite H0 in Hp. injection Hp as <-. destruct (C32_constant_continuation l p0 pn x H0 Hn H) as [C _].
      exists (snd p0). split; [exact (C Hx) |]. apply B. exact (nth_error_In _ _ H0).
    + rewrite Hn in Hp. injection Hp as <-. destruct (C32_constant_continuation l p0 pn x H0 Hn H) as [_ C].
      exists (snd pn). split; [exact (C Hx) |]. apply B. exact (nth_error_In _ _ Hn).
    + destruct (C32_interpolates false l i p q x H Hp Hq ltac:(lra)) as [v [Hv [_ Bv]]]. exists v. split; [exact Hv |].
      assert (X := B p (nth_error_In _ _ Hp)). assert (Y := B q (nth_error_In _ _ Hq)). destruct Bv; lra.
  - intros p I E. apply In_nth_error in I. destruct I as [i Hi]. fold (vget l i) in Hi.
    assert (Li := vget_lt _ _ _ _ Hi).
    destruct (Nat.eq_dec i (length l - 1)) as [-> | Ni].
    + destruct (Nat.eq_dec (length l) 1) as [E1 | E1].
      * rewrite E1 in Hi. change (1 - 1) with 0 in Hi. rewrite H0 in Hi. injection Hi as <-.
        destruct (C32_constant_continuation l p0 pn x H0 Hn H) as [C _]. exists (snd p0). split; [apply C; lra | reflexivity].
      * destruct (vget_some _ l (length l - 2) ltac:(lia)) as [q Hq].
        assert (L := H (length l - 2) (length l - 1) q p ltac:(lia) Hq Hi).
        destruct (C32_interpolates false l (length l - 2) q p x H Hq) as [v [Hv [Ev _]]].
        { replace (S (length l - 2)) with (length l - 1) by lia. exact Hi. }
        { lra. }
        exists v. split; [exact Hv |]. rewrite Ev, E. apply through_second. lra.
    + destruct (vget_some _ l (S i) ltac:(lia)) as [q Hq]. assert (L := H i (S i) p q ltac:(lia) Hi Hq).
      destruct (C32_interpolates false l i p q x H Hi Hq ltac:(lra)) as [v [Hv [Ev _]]].
      exists v. split; [exact Hv |]. rewrite Ev, E. apply through_first. lra.
Qed.
Print Assumptions C32_bounds.

(** non-decreasing values give a non-decreasing function: heating tables heat *)
Theorem C32_monotone : forall l x y, increasing l -> l <> [] ->
  (forall i j p q, i < j -> vget l i = Some p -> vget l j = Some q -> (snd p <= snd q)%Q) -> (x <= y)%Q ->
  exists v w, value false l x = Some v /\ value false l y = Some w /\ (v <= w)%Q.
Proof.
  intros l x y H N M Hxy.
  assert (Hl : 0 < length l) by (destruct l; [congruence | cbn; lia]).
  destruct (vget_some _ l 0 Hl) as [p0 H0]. destruct (vget_some _ l (length l - 1) ltac:(lia)) as [pn Hn].
  assert (Me : forall i j p q, i <= j -> vget l i = Some p -> vget l j = Some q -> (snd p <= snd q)%Q).
  { intros i j p q L Hp Hq. destruct (Nat.eq_dec i j) as [-> | Ne]; [rewrite Hp in Hq; injection Hq as ->; lra |].
    apply (M i j); [lia | assumption | assumption]. }
  assert (B : Forall (fun p => (snd p0 <= snd p <= snd pn)%Q) l).
  { apply Forall_forall. intros p I. apply In_nth_error in I. destruct I as [i Hi]. fold (vget l i) in Hi.
    assert (Li := vget_lt _ _ _ _ Hi). split; [apply (Me 0 i) | apply (Me i (length l - 1))]; try assumption; lia. }
  destruct (C32_bounds l _ _ x H N B) as [[v [Hv Bv]] _]. destruct (C32_bounds l _ _ y H N B) as [[w [Hw Bw]] _].
  exists v, w. split; [exact Hv |]. split; [exact Hw |].
  destruct (C32_constant_continuation l p0 pn x H0 Hn H) as [Cx _].
  destruct (C32_constant_continuation l p0 pn y H0 Hn H) as [_ Cy].
  destruct (cases l x H N) as [[p [Hp Hx]] | [[p [Hp Hx]] | [i [p [q [Hp [Hq [Hx Hx']]]]]]]].
  - rewrite H0 in Hp. injection Hp as <-. rewrite (Cx Hx) in Hv. injection Hv as <-. lra.
  - rewrite Hn in Hp. injection Hp as <-. rewrite Cy in Hw by lra. injection Hw as <-. lra.
  - destruct (cases l y H N) as [[p' [Hp' Hy]] | [[p' [Hp' Hy]] | [j [p' [q' [Hp' [Hq' [Hy Hy']]]]]]]].
    + rewrite H0 in Hp'. injection Hp' as <-. assert (fst p0 <= fst p)%Q by (apply (increasing_le l 0 i); [exact H | lia | assumption | assumption]). lra.
    + rewrite Hn in Hp'. injection Hp' as <-. rewrite (Cy Hy) in Hw. injection Hw as <-. lra.
    + destruct (C32_interpolates false l i p q x H Hp Hq ltac:(lra)) as [v' [Hv' [Ev Bv']]]. rewrite Hv in Hv'. injection Hv' as <-.
      destruct (C32_interpolates false l j p' q' y H Hp' Hq' ltac:(lra)) as [w' [Hw' [Ew Bw']]]. rewrite Hw in Hw'. injection Hw' as <-.
      assert (S1 := Me i (S i) p q ltac:(lia) Hp Hq). assert (S2 := Me j (S j) p' q' ltac:(lia) Hp' Hq').
      destruct (Nat.lt_trichotomy i j) as [L | [L | L]].
      * assert (S3 := Me (S i) j q p' ltac:(lia) Hq Hp'). destruct Bv', Bw'; lra.
      * subst j. rewrite Hp in Hp'. rewrite Hq in Hq'. injection Hp' as <-. injection Hq' as <-.
        rewrite Ev, Ew. apply through_mono; [apply (H i (S i)); [lia | assumption | assumption] | exact S1 | exact Hxy].
      * assert (fst q' <= fst p)%Q by (apply (increasing_le l (S j) i); [exact H | lia | assumption | assumption]). lra.
Qed.
Print Assumptions C32_monotone.

(** the order in which pairs with different abscissae are added does not matter, they are
    kept sorted, and none is lost *)
Theorem C32_insertion_order : forall l l',
  ForallOrdPairs (fun p q => ~ (fst p == fst q)%Q) l -> Permutation l l' ->
  build l = build l' /\ Permutation l (build l) /\ increasing (build l).
Proof.
  intros l l' D P. assert (D' := distinct_perm _ _ P D).
  assert (F := fold_perm l []). assert (F' := fold_perm l' []). cbn [app] in F, F'.
  assert (S1 := fold_sorted l [] D ltac:(constructor) ltac:(intros ? ? [])).
  assert (S2 := fold_sorted l' [] D' ltac:(constructor) ltac:(intros ? ? [])).
  split; [| split].
  - apply sorted_unique; [exact S1 | exact S2 |]. unfold build. rewrite <- F, <- F'. exact P.
  - exact F.
  - apply sorted_increasing. exact S1.
Qed.
Print Assumptions C32_insertion_order.

(** no pairs give zero; a single pair is the constant function, but with linear continuation
    it reads beyond the end of the vector *)
Theorem C32_single_pair_refuted : forall p x, value true [p] x = None /\ value false [p] x = Some (snd p) /\ value true [] x = Some 0%Q.
Proof.
  intros p x. split; [| split; [| reflexivity]]; cbn; destruct (qltb (fst p) x); reflexivity.
Qed.
Print Assumptions C32_single_pair_refuted.

Example C32_case : build [(2, 10); (0, 0); (1, 4)]%Q = [(0, 0); (1, 4); (2, 10)]%Q
  /\ option_map Qred (value false (build [(2, 10); (0, 0); (1, 4)]%Q) (3 # 2)) = Some 7%Q
  /\ option_map Qred (value true (build [(2, 10); (0, 0); (1, 4)]%Q) 3) = Some 16%Q
  /\ option_map Qred (value true (build [(2, 10); (0, 0); (1, 4)]%Q) (-1)) = Some (-4)%Q
  /\ increasing [(0, 0); (1, 4); (2, 10)]%Q.
Proof.
  split; [reflexivity |]. split; [reflexivity |]. split; [reflexivity |]. split; [reflexivity |].
  apply sorted_increasing. repeat constructor.
Qed.
