(** C74: the bounding box of the body. *)
From Coq Require Import List QArith Qabs Arith Bool Lia Lqa.
From Verif Require Import Util ShrinkModel.
Import ListNotations.
Local Open Scope Q_scope.

(** A cell of the interface: a value above and a value below 0.49. *)
Definition crossed (c : scell) : Prop :=
  (exists p, In p (nodes c) /\ 49 # 100 < snd p) /\ (exists p, In p (nodes c) /\ snd p < 49 # 100).

(** [a] is at least as far out as [b] on the side. *)
Definition beyond (up : bool) (a b : Q) : Prop := if up then b <= a else a <= b.

Lemma threshold_is : threshold == 49 # 100.
Proof. reflexivity. Qed.

Lemma above_spec : forall v, qltb threshold v = true <-> 49 # 100 < v.
Proof. intro v. rewrite qltb_true, threshold_is. reflexivity. Qed.

Lemma interface_spec : forall c, interface c = true <-> crossed c.
Proof.
  intro c. unfold interface, crossed. rewrite andb_true_iff, !existsb_exists. split; intros [(p & P1 & P2) (q & Q1 & Q2)].
  - split; [exists p; split; [exact P1|apply above_spec, P2]|]. exists q. split; [exact Q1|]. apply qltb_true in Q2.
    rewrite threshold_is in Q2. exact Q2.
  - split; [exists p; split; [exact P1|apply above_spec, P2]|]. exists q. split; [exact Q1|]. apply qltb_true.
    rewrite threshold_is. exact Q2.
Qed.

Lemma beyond_refl : forall up a, beyond up a a.
Proof. intros [|] a; cbn; lra. Qed.
Lemma beyond_trans : forall up a b c, beyond up a b -> beyond up b c -> beyond up a c.
Proof. intros [|] a b c; cbn; lra. Qed.

Lemma extreme_spec : forall up a b, beyond up (extreme up a b) a /\ beyond up (extreme up a b) b /\
  (extreme up a b = a \/ extreme up a b = b).
Proof.
  intros up a b. unfold extreme, before. destruct up; cbn [beyond].
  - destruct (qltb a b) eqn:E; [apply qltb_true in E|apply qltb_false in E]; (split; [lra|split; [lra|auto]]).
  - destruct (qltb b a) eqn:E; [apply qltb_true in E|apply qltb_false in E]; (split; [lra|split; [lra|auto]]).
Qed.

Lemma take_spec : forall up pts x, beyond up (take_points up pts x) x /\
  (forall p, In p pts -> 49 # 100 < snd p -> beyond up (take_points up pts x) (fst p)) /\
  (take_points up pts x = x \/ exists p, In p pts /\ 49 # 100 < snd p /\ take_points up pts x = fst p).
Proof.
  intros up. induction pts as [|p pts IH]; intro x; unfold take_points; cbn [fold_left].
  - split; [apply beyond_refl|]. split; [intros p []|auto].
  - fold (take_points up pts (if qltb threshold (snd p) then extreme up x (fst p) else x)).
    set (x' := if qltb threshold (snd p) then extreme up x (fst p) else x).
    destruct (IH x') as (I1 & I2 & I3).
    assert (X : beyond up x' x /\ (49 # 100 < snd p -> beyond up x' (fst p)) /\ (x' = x \/ (49 # 100 < snd p /\ x' = fst p))).
    { unfold x'. destruct (qltb threshold (snd p)) eqn:E.
      - apply above_spec in E. destruct (extreme_spec up x (fst p)) as (E1 & E2 & E3). split; [exact E1|]. split; [auto|].
        destruct E3 as [E3|E3]; auto.
      - split; [apply beyond_refl|]. split; [|auto]. intro L. apply above_spec in L. congruence. }
    destruct X as (X1 & X2 & X3).
    split; [eapply beyond_trans; [exact I1|exact X1]|]. split.
    + intros q [<-|Hq] L; [eapply beyond_trans; [exact I1|apply X2, L]|apply I2; assumption].
    + destruct I3 as [I3|(q & Q1 & Q2 & Q3)].
      * rewrite I3. destruct X3 as [X3|[X3 X4]]; [auto|]. right. exists p. cbn. auto.
      * right. exists q. cbn. auto.
Qed.

Lemma steps_spec : forall up cells x best,
  let s := fold_left (shrink_step up) cells (x, best) in
  beyond up (fst s) x /\
  (forall c p, In c cells -> crossed c -> In p (nodes c) -> 49 # 100 < snd p -> beyond up (fst s) (fst p)) /\
  (fst s = x \/ exists c p, In c cells /\ crossed c /\ In p (nodes c) /\ 49 # 100 < snd p /\ fst s = fst p) /\
  (snd s = best \/ exists c n, snd s = Some (c, n) /\ In c cells /\ crossed c).
Proof.
  intros up. induction cells as [|c cells IH]; intros x best; cbn [fold_left].
  - split; [apply beyond_refl|]. split; [intros c p []|auto].
  - destruct (interface c) eqn:E.
    + assert (SS : shrink_step up (x, best) c = (take_points up (nodes c) x, next_cell up best c)).
      { unfold shrink_step. rewrite E. reflexivity. }
      rewrite SS. apply interface_spec in E.
      destruct (IH (take_points up (nodes c) x) (next_cell up best c)) as (I1 & I2 & I3 & I4). cbv zeta in *.
      destruct (take_spec up (nodes c) x) as (T1 & T2 & T3).
      split; [eapply beyond_trans; [exact I1|exact T1]|]. split; [|split].
      * intros c' p [<-|H] C P L; [eapply beyond_trans; [exact I1|apply T2; assumption]|apply (I2 c'); assumption].
      * destruct I3 as [I3|(c' & p & H1 & H2)]; [|right; exists c', p; split; [right; exact H1|exact H2]].
        rewrite I3. destruct T3 as [T3|(p & P1 & P2 & P3)]; [auto|]. right. exists c, p. cbn. auto.
      * destruct I4 as [I4|(c' & n & H1 & H2 & H3)]; [|right; exists c', n; split; [exact H1|split; [right; exact H2|exact H3]]].
        rewrite I4. unfold next_cell. destruct best as [[b n]|].
        -- cbv zeta. destruct (_ || _); [|auto]. right. exists c, (c_norm c). cbn. auto.
        -- right. exists c, (c_norm c). cbn. auto.
    + assert (SS : shrink_step up (x, best) c = (x, best)).
      { unfold shrink_step. rewrite E. reflexivity. }
      rewrite SS. destruct (IH x best) as (I1 & I2 & I3 & I4). cbv zeta in *. split; [exact I1|]. split; [|split].
      * intros c' p [<-|H] C P L; [apply interface_spec in C; congruence|apply (I2 c'); assumption].
      * destruct I3 as [I3|(c' & p & H1 & H2)]; [auto|right; exists c', p; split; [right; exact H1|exact H2]].
      * destruct I4 as [I4|(c' & n & H1 & H2 & H3)]; [auto|right; exists c', n; split; [exact H1|split; [right; exact H2|exact H3]]].
Qed.

(** A point seen by the search: a support point or a sample of an interface cell,
    above the threshold. *)
Definition seen (cells : list scell) (x : Q) : Prop :=
  exists c p, In c cells /\ crossed c /\ (In p (nodes c) \/ In p (samples c)) /\ 49 # 100 < snd p /\ x = fst p.

Lemma rank_spec : forall up start cells,
  beyond up (shrink_rank up start cells) start /\
  (forall c p, In c cells -> crossed c -> In p (nodes c) -> 49 # 100 < snd p -> beyond up (shrink_rank up start cells) (fst p)) /\
  (shrink_rank up start cells = start \/ seen cells (shrink_rank up start cells)).
Proof.
  intros up start cells. unfold shrink_rank. destruct (steps_spec up cells start None) as (S1 & S2 & S3 & S4). cbv zeta in *.
  set (s := fold_left (shrink_step up) cells (start, None)) in *.
  assert (S3' : fst s = start \/ seen cells (fst s)).
  { destruct S3 as [S3|(c & p & H1 & H2 & H3 & H4 & H5)]; [auto|]. right. exists c, p. auto 10. }
  destruct (snd s) as [[c n]|] eqn:E; [|auto].
  destruct S4 as [S4|(c' & n' & H1 & H2 & H3)]; [discriminate|]. injection H1 as <- <-.
  destruct (take_spec up (samples c) (fst s)) as (T1 & T2 & T3).
  split; [eapply beyond_trans; [exact T1|exact S1]|]. split.
  - intros c' p I C P L. eapply beyond_trans; [exact T1|]. apply (S2 c'); assumption.
  - destruct T3 as [T3|(p & P1 & P2 & P3)]; [rewrite T3; exact S3'|]. right. exists c, p. auto 10.
Qed.

Lemma ranks_spec : forall up start ranks x,
  let r := fold_left (fun x cells => extreme up x (shrink_rank up start cells)) ranks x in
  beyond up r x /\ (forall cells, In cells ranks -> beyond up r (shrink_rank up start cells)) /\
  (r = x \/ exists cells, In cells ranks /\ r = shrink_rank up start cells).
Proof.
  intros up start. induction ranks as [|c ranks IH]; intro x; cbn [fold_left].
  - split; [apply beyond_refl|]. split; [intros c []|auto].
  - destruct (IH (extreme up x (shrink_rank up start c))) as (I1 & I2 & I3). cbv zeta in *.
    destruct (extreme_spec up x (shrink_rank up start c)) as (E1 & E2 & E3).
    split; [eapply beyond_trans; [exact I1|exact E1]|]. split.
    + intros c' [<-|H]; [eapply beyond_trans; [exact I1|exact E2]|apply I2, H].
    + destruct I3 as [I3|(c' & H1 & H2)]; [|right; exists c'; cbn; auto]. rewrite I3.
      destruct E3 as [E3|E3]; [auto|]. right. exists c. cbn. auto.
Qed.

(** For every mesh and distribution: each side of the box is at or beyond all
    support points above the threshold in interface cells of all ranks, and it is
    the coordinate of a point above the threshold in an interface cell (or the
    starting value if there is none). *)
Theorem C74_bound : forall up start ranks,
  (forall c p, In c (concat ranks) -> crossed c -> In p (nodes c) -> 49 # 100 < snd p -> beyond up (shrink up start ranks) (fst p)) /\
  (shrink up start ranks = start \/ seen (concat ranks) (shrink up start ranks)).
Proof.
  intros up start ranks. unfold shrink. destruct (ranks_spec up start ranks start) as (R1 & R2 & R3). cbv zeta in *. split.
  - intros c p I C P L. apply in_concat in I. destruct I as (cells & I1 & I2).
    eapply beyond_trans; [apply (R2 cells I1)|]. apply (rank_spec up start cells) with (c := c); assumption.
  - destruct R3 as [R3|(cells & I & R3)]; [auto|]. rewrite R3.
    destruct (rank_spec up start cells) as (_ & _ & [A|(c & p & A)]); [auto|]. right. exists c, p.
    destruct A as (A1 & A2). split; [apply in_concat; exists cells; auto|exact A2].
Qed.
Print Assumptions C74_bound.

(** With an interface cell on some rank the box is not inverted. *)
Theorem C74_not_inverted : forall lo hi ranks c, In c (concat ranks) -> crossed c ->
  shrink false hi ranks <= shrink true lo ranks.
Proof.
  intros lo hi ranks c I C. destruct C as [(p & P1 & P2) C2].
  pose proof (proj1 (C74_bound false hi ranks) c p I (conj (ex_intro _ p (conj P1 P2)) C2) P1 P2) as A.
  pose proof (proj1 (C74_bound true lo ranks) c p I (conj (ex_intro _ p (conj P1 P2)) C2) P1 P2) as B.
  cbn in A, B. lra.
Qed.
Print Assumptions C74_not_inverted.

(** The box stays in the domain if all points do. *)
Theorem C74_inside : forall lo hi ranks, lo <= hi ->
  (forall c p, In c (concat ranks) -> In p (nodes c) \/ In p (samples c) -> lo <= fst p /\ fst p <= hi) ->
  lo <= shrink false hi ranks /\ shrink false hi ranks <= hi /\ lo <= shrink true lo ranks /\ shrink true lo ranks <= hi.
Proof.
  intros lo hi ranks LH D.
  assert (X : forall up start, (start = lo \/ start = hi) -> lo <= shrink up start ranks /\ shrink up start ranks <= hi).
  { intros up start S. destruct (proj2 (C74_bound up start ranks)) as [E|(c & p & H1 & H2 & H3 & H4 & E)].
    - rewrite E. destruct S; subst; lra.
    - rewrite E. apply (D c p H1 H3). }
  destruct (X false hi (or_intror eq_refl)). destruct (X true lo (or_introl eq_refl)). auto.
Qed.
Print Assumptions C74_inside.

(** If no sample lies further out than the support points above the threshold, the
    side is the extreme support point, for every distribution of the cells. *)
Theorem C74_partition_partial : forall up start ranks ranks',
  (forall c, In c (concat ranks) <-> In c (concat ranks')) ->
  (forall c p, In c (concat ranks) -> crossed c -> In p (samples c) -> 49 # 100 < snd p ->
     exists c' p', In c' (concat ranks) /\ crossed c' /\ In p' (nodes c') /\ 49 # 100 < snd p' /\ beyond up (fst p') (fst p)) ->
  (forall c p, In c (concat ranks) -> In p (nodes c) \/ In p (samples c) -> beyond up (fst p) start) ->
  shrink up start ranks == shrink up start ranks'.
Proof.
  intros up start ranks ranks' SAME SMP DOM.
  destruct (C74_bound up start ranks) as [B1 B2]. destruct (C74_bound up start ranks') as [B3 B4].
  assert (ST : forall rs, beyond up (shrink up start rs) start).
  { intro rs. unfold shrink. apply (ranks_spec up start rs start). }
  assert (Z : forall rs rs', (forall c, In c (concat rs) <-> In c (concat rs')) ->
     (forall c, In c (concat rs) <-> In c (concat ranks)) -> beyond up (shrink up start rs) (shrink up start rs')).
  { intros rs rs' S1 S2. destruct (proj2 (C74_bound up start rs')) as [E|(c & p & H1 & H2 & H3 & H4 & E)].
    - rewrite E. apply ST.
    - rewrite E. destruct H3 as [H3|H3].
      + apply (proj1 (C74_bound up start rs) c p); try assumption. apply S1, H1.
      + destruct (SMP c p) as (c' & p' & K1 & K2 & K3 & K4 & K5); try assumption; [apply S2, S1, H1|].
        eapply beyond_trans; [|exact K5]. apply (proj1 (C74_bound up start rs) c' p'); try assumption. apply S2, K1. }
  assert (Z1 := Z ranks ranks' SAME (fun c => iff_refl _)).
  assert (Z2 := Z ranks' ranks (fun c => iff_sym (SAME c)) (fun c => iff_sym (SAME c))).
  destruct up; cbn in Z1, Z2; lra.
Qed.
Print Assumptions C74_partition_partial.

(** Otherwise the box depends on the distribution: one cell per rank and side is
    sampled.  Two cells side by side; the one with the larger value is sampled, the
    other one reaches further. *)
Definition cell_a : scell := mkS [(0, 0); (1, 9 # 10)] (1 # 2) 1 [(6 # 10, 54 # 100)].
Definition cell_b : scell := mkS [(0, 2 # 10); (1, 8 # 10)] (1 # 2) 1 [(5 # 10, 1 # 2); (6 # 10, 56 # 100)].

Theorem C74_partition_refuted : exists start ranks ranks',
  (forall c, In c (concat ranks) <-> In c (concat ranks')) /\
  shrink false start ranks == 6 # 10 /\ shrink false start ranks' == 5 # 10.
Proof. exists 2, [[cell_a; cell_b]], [[cell_a]; [cell_b]]. split; [intro c; cbn; tauto|]. split; reflexivity. Qed.
Print Assumptions C74_partition_refuted.

(** A body that fills cells up to the boundary of the domain is cut: cells 0-1, 1-2
    and 2-3, the first one full, the interface in the second one.  Without any
    interface cell (all space filled) the box is inverted. *)
Definition full_cell : scell := mkS [(0, 1); (1, 1)] (1 # 2) 1 [(1 # 2, 1)].
Definition mid_cell : scell := mkS [(1, 1); (2, 0)] (3 # 2) 1 [(3 # 2, 1 # 2)].
Definition void_cell : scell := mkS [(2, 0); (3, 0)] (5 # 2) 1 [(5 # 2, 0)].

Theorem C74_full_refuted :
  (exists p, In p (nodes full_cell) /\ 49 # 100 < snd p /\ fst p < shrink false 3 [[full_cell; mid_cell; void_cell]]) /\
  shrink true 0 [[full_cell]] < shrink false 1 [[full_cell]].
Proof. split; [exists (0, 1); cbn; split; [auto|split; reflexivity]|reflexivity]. Qed.
Print Assumptions C74_full_refuted.

Example C74_applies : crossed mid_cell /\ In mid_cell (concat [[full_cell]; [mid_cell; void_cell]]) /\
  shrink false 3 [[full_cell]; [mid_cell; void_cell]] == 1 /\ shrink true 0 [[full_cell]; [mid_cell; void_cell]] == 3 # 2.
Proof.
  split; [split; [exists (1, 1)|exists (2, 0)]; cbn; split; auto; reflexivity|]. split; [cbn; auto|]. split; reflexivity.
Qed.
