(** C75: the mesh quality and its control. *)
From Coq Require Import List QArith Arith Bool Lia Lqa Permutation.
From Verif Require Import Util QualityModel.
Import ListNotations.
Local Open Scope Q_scope.

Lemma min_fold : forall l x, let m := fold_left (fun a v => if qltb v a then v else a) l x in
  m <= x /\ (forall v, In v l -> m <= v) /\ (m = x \/ In m l).
Proof.
  induction l as [|y l IH]; intro x; cbn [fold_left]; cbv zeta in *.
  - split; [lra|]. split; [intros v []|auto].
  - destruct (IH (if qltb y x then y else x)) as (I1 & I2 & I3).
    destruct (qltb y x) eqn:E; [apply qltb_true in E|apply qltb_false in E].
    + split; [lra|]. split; [intros v [<-|H]; [lra|auto]|]. destruct I3 as [I3|I3]; [right; left; auto|right; right; exact I3].
    + split; [lra|]. split; [intros v [<-|H]; [lra|auto]|]. destruct I3 as [I3|I3]; [auto|right; right; exact I3].
Qed.

Lemma max_fold : forall l x, let m := fold_left (fun a v => if qltb a v then v else a) l x in
  x <= m /\ (forall v, In v l -> v <= m) /\ (m = x \/ In m l).
Proof.
  induction l as [|y l IH]; intro x; cbn [fold_left]; cbv zeta in *.
  - split; [lra|]. split; [intros v []|auto].
  - destruct (IH (if qltb x y then y else x)) as (I1 & I2 & I3).
    destruct (qltb x y) eqn:E; [apply qltb_true in E|apply qltb_false in E].
    + split; [lra|]. split; [intros v [<-|H]; [lra|auto]|]. destruct I3 as [I3|I3]; [right; left; auto|right; right; exact I3].
    + split; [lra|]. split; [intros v [<-|H]; [lra|auto]|]. destruct I3 as [I3|I3]; [auto|right; right; exact I3].
Qed.

Lemma min_element_spec : forall l m, min_element l = Some m -> In m l /\ forall v, In v l -> m <= v.
Proof.
  intros [|x l] m E; cbn in E; [discriminate|]. injection E as E.
  destruct (min_fold l x) as (I1 & I2 & I3). cbv zeta in *. rewrite E in *. split.
  - destruct I3 as [I3|I3]; [left; auto|right; exact I3].
  - intros v [<-|H]; auto.
Qed.

Lemma max_element_spec : forall l m, max_element l = Some m -> In m l /\ forall v, In v l -> v <= m.
Proof.
  intros [|x l] m E; cbn in E; [discriminate|]. injection E as E.
  destruct (max_fold l x) as (I1 & I2 & I3). cbv zeta in *. rewrite E in *. split.
  - destruct I3 as [I3|I3]; [left; auto|right; exact I3].
  - intros v [<-|H]; auto.
Qed.

(** A jump between two values of the same block on the same cell. *)
Definition jump (c : cell) (d : Q) : Prop :=
  exists values a b, In values c /\ In a values /\ In b values /\ d == b - a.

Lemma delta_spec : forall c d0 d, delta_cell c d0 = Some d ->
  d0 <= d /\ (forall j, jump c j -> j <= d) /\ (d = d0 \/ jump c d).
Proof.
  induction c as [|vals c IH]; intros d0 d E; cbn in E.
  - injection E as <-. split; [lra|]. split; [intros j (v & a & b & [] & _)|auto].
  - destruct (min_element vals) as [lo|] eqn:L; cbn in E; [|discriminate].
    destruct (max_element vals) as [hi|] eqn:H; cbn in E; [|discriminate].
    apply min_element_spec in L. apply max_element_spec in H. destruct L as [L1 L2]. destruct H as [H1 H2].
    apply IH in E. destruct E as (E1 & E2 & E3).
    assert (X : d0 <= (if qltb (hi - lo) d0 then d0 else hi - lo) /\ hi - lo <= (if qltb (hi - lo) d0 then d0 else hi - lo)).
    { destruct (qltb (hi - lo) d0) eqn:K; [apply qltb_true in K|apply qltb_false in K]; lra. }
    split; [lra|]. split.
    + intros j (v & a & b & [<-|V] & A & B & J); [|apply E2; exists v, a, b; auto].
      specialize (L2 a A). specialize (H2 b B). lra.
    + destruct E3 as [E3|(v & a & b & V)].
      * rewrite E3. destruct (qltb (hi - lo) d0); [auto|]. right. exists vals, lo, hi. cbn. split; [auto|].
        split; [exact L1|]. split; [exact H1|reflexivity].
      * right. exists v, a, b. cbn. tauto.
Qed.

Lemma quality_spec : forall c q, cell_quality c = Some q ->
  q <= 1 /\ (forall j, jump c j -> q <= 1 - j) /\ (q == 1 \/ exists j, jump c j /\ q == 1 - j).
Proof.
  intros c q E. unfold cell_quality in E. destruct (delta_cell c 0) as [d|] eqn:D; cbn in E; [|discriminate].
  injection E as <-. apply delta_spec in D. destruct D as (D1 & D2 & D3). split; [lra|]. split.
  - intros j J. specialize (D2 j J). lra.
  - destruct D3 as [->|D3]; [left; lra|]. right. exists d. split; [exact D3|reflexivity].
Qed.

Lemma rank_spec : forall cells q0 q, estimate_rank cells q0 = Some q ->
  q <= q0 /\ (forall c j, In (Owned c) cells -> jump c j -> q <= 1 - j) /\
  (q == q0 \/ q == 1 \/ exists c j, In (Owned c) cells /\ jump c j /\ q == 1 - j).
Proof.
  induction cells as [|a cells IH]; intros q0 q E; cbn in E.
  - injection E as <-. split; [lra|]. split; [intros c j []|left; lra].
  - destruct a as [c|].
    + destruct (cell_quality c) as [v|] eqn:V; cbn in E; [|discriminate]. apply quality_spec in V. destruct V as (V1 & V2 & V3).
      apply IH in E. destruct E as (E1 & E2 & E3).
      assert (X : (if qltb v q0 then v else q0) <= q0 /\ (if qltb v q0 then v else q0) <= v /\
        ((if qltb v q0 then v else q0) == q0 \/ (if qltb v q0 then v else q0) == v)).
      { destruct (qltb v q0) eqn:K; [apply qltb_true in K|apply qltb_false in K]; (split; [lra|split; [lra|]]); [right|left]; lra. }
      destruct X as (X1 & X2 & X3). split; [lra|]. split.
      * intros c' j [I|I] J; [injection I as <-; specialize (V2 j J); lra|apply (E2 c'); assumption].
      * destruct E3 as [E3|[E3|(c' & j & C1 & C2 & C3)]]; [|auto|right; right; exists c', j; cbn; auto].
        destruct X3 as [X3|X3]; [left; lra|]. destruct V3 as [V3|(j & J1 & J2)]; [right; left; lra|].
        right. right. exists c, j. cbn. split; [auto|]. split; [exact J1|lra].
    + apply IH in E. destruct E as (E1 & E2 & E3). split; [exact E1|]. split.
      * intros c j [I|I] J; [discriminate|apply (E2 c); assumption].
      * destruct E3 as [E3|[E3|(c' & j & C1 & C2 & C3)]]; [auto|auto|right; right; exists c', j; cbn; auto].
Qed.

Lemma each_spec : forall (A B : Type) (f : A -> option B) l r, each f l = Some r ->
  (forall x, In x l -> exists y, f x = Some y /\ In y r) /\ (forall y, In y r -> exists x, In x l /\ f x = Some y).
Proof.
  intros A B f. induction l as [|x l IH]; intros r E; cbn in E.
  - injection E as <-. split; intros z [].
  - destruct (f x) as [y|] eqn:F; cbn in E; [|discriminate]. destruct (each f l) as [ys|]; cbn in E; [|discriminate].
    injection E as <-. destruct (IH ys eq_refl) as [I1 I2]. split.
    + intros z [<-|H]; [exists y; cbn; auto|]. destruct (I1 z H) as (w & W1 & W2). exists w. cbn. auto.
    + intros z [<-|H]; [exists x; cbn; auto|]. destruct (I2 z H) as (w & W1 & W2). exists w. cbn. auto.
Qed.

Lemma each_some : forall (A B : Type) (f : A -> option B) l, (forall x, In x l -> f x <> None) -> exists r, each f l = Some r /\ length r = length l.
Proof.
  intros A B f. induction l as [|x l IH]; intro H; cbn.
  - exists []. auto.
  - destruct (f x) as [y|] eqn:F; [|exfalso; apply (H x); cbn; auto]. destruct IH as (r & R1 & R2).
    + intros z Z. apply H. cbn. auto.
    + exists (y :: r). cbn. rewrite R1. cbn. auto.
Qed.

(** The reported value: 1 minus the largest jump of a block on a cell owned by any
    rank, for every distribution. *)
Theorem C75_min : forall ranks q, estimate_min ranks = Some q ->
  q <= 1 /\
  (forall c j, In (Owned c) (concat ranks) -> jump c j -> q <= 1 - j) /\
  (q == 1 \/ exists c j, In (Owned c) (concat ranks) /\ jump c j /\ q == 1 - j).
Proof.
  intros ranks q E. unfold estimate_min in E. destruct (each _ ranks) as [qs|] eqn:F; cbn in E; [|discriminate].
  apply min_element_spec in E. destruct E as [E1 E2]. apply each_spec in F. destruct F as [F1 F2].
  destruct (F2 q E1) as (cells & G1 & G2). apply rank_spec in G2. destruct G2 as (G2 & _ & G3). split; [exact G2|]. split.
  - intros c j I J. apply in_concat in I. destruct I as (cs & I1 & I2). destruct (F1 cs I1) as (y & Y1 & Y2).
    apply rank_spec in Y1. destruct Y1 as (_ & Y1 & _). specialize (E2 y Y2). specialize (Y1 c j I2 J). lra.
  - destruct G3 as [G3|[G3|(c & j & C1 & C2 & C3)]]; [auto|auto|]. right. exists c, j. split; [apply in_concat; exists cells; auto|auto].
Qed.
Print Assumptions C75_min.

(** It is defined if there is a rank and no block of an owned cell is empty. *)
Theorem C75_defined : forall ranks, ranks <> [] ->
  (forall c values, In (Owned c) (concat ranks) -> In values c -> values <> []) ->
  exists q, estimate_min ranks = Some q.
Proof.
  intros ranks NE H. unfold estimate_min.
  assert (D : forall c d, (forall values, In values c -> values <> []) -> delta_cell c d <> None).
  { induction c as [|v c IH]; intros d V; cbn; [discriminate|]. destruct v as [|x v]; [exfalso; apply (V []); cbn; auto|].
    cbn. apply IH. intros w W. apply V. cbn. auto. }
  assert (R : forall cells q, (forall c values, In (Owned c) cells -> In values c -> values <> []) -> estimate_rank cells q <> None).
  { induction cells as [|[c|] cells IH]; intros q V; cbn; [discriminate| |].
    - unfold cell_quality. destruct (delta_cell c 0) eqn:E; [|exfalso; revert E; apply D; intros w W; apply (V c); cbn; auto].
      cbn. apply IH. intros c' w C W. apply (V c'); cbn; auto.
    - apply IH. intros c' w C W. apply (V c'); cbn; auto. }
  destruct (each_some _ _ (fun cells => estimate_rank cells 1) ranks) as (qs & E & L).
  - intros cells I. apply R. intros c v C. apply (H c v). apply in_concat. exists cells. auto.
  - rewrite E. cbn. destruct qs as [|x qs]; [destruct ranks; [congruence|discriminate]|]. eexists. reflexivity.
Qed.
Print Assumptions C75_defined.

(** Two distributions of the same owned cells give the same value. *)
Theorem C75_partition : forall ranks ranks' q q',
  (forall c, In (Owned c) (concat ranks) <-> In (Owned c) (concat ranks')) ->
  estimate_min ranks = Some q -> estimate_min ranks' = Some q' -> q == q'.
Proof.
  intros ranks ranks' q q' S1 E E'. apply C75_min in E. apply C75_min in E'.
  destruct E as (A1 & A2 & A3). destruct E' as (B1 & B2 & B3). apply Qle_antisym.
  - destruct B3 as [B3|(c & j & C1 & C2 & C3)]; [lra|]. apply S1 in C1. specialize (A2 c j C1 C2). lra.
  - destruct A3 as [A3|(c & j & C1 & C2 & C3)]; [lra|]. apply S1 in C1. specialize (B2 c j C1 C2). lra.
Qed.
Print Assumptions C75_partition.

(** Values between 0 and 1 give a quality between 0 and 1. *)
Theorem C75_range : forall ranks q,
  (forall c values v, In (Owned c) (concat ranks) -> In values c -> In v values -> 0 <= v /\ v <= 1) ->
  estimate_min ranks = Some q -> 0 <= q /\ q <= 1.
Proof.
  intros ranks q H E. apply C75_min in E. destruct E as (E1 & _ & E3). split; [|exact E1].
  destruct E3 as [E3|(c & j & C1 & (vals & a & b & V & A & B & J) & C3)]; [lra|].
  destruct (H c vals a C1 V A). destruct (H c vals b C1 V B). lra.
Qed.
Print Assumptions C75_range.

(** The variant that also writes the file agrees on one rank that owns all cells. *)
Theorem C75_output_serial : forall cells q, cells <> [] ->
  (output_min [map Owned cells] = Some q -> exists q', estimate_min [map Owned cells] = Some q' /\ q == q') /\
  (estimate_min [map Owned cells] = Some q -> exists q', output_min [map Owned cells] = Some q' /\ q == q').
Proof.
  intros cells q NE.
  assert (X : forall cs q0, match each quality_entry (map Owned cs), estimate_rank (map Owned cs) q0 with
    | Some l, Some r => length l = length cs /\ r <= q0 /\ (forall v, In v l -> r <= v /\ v <= 1) /\ (r == q0 \/ exists v, In v l /\ r == v)
    | None, None => True | _, _ => False end).
  { induction cs as [|c cs IH]; intro q0; cbn.
    - split; [reflexivity|]. split; [lra|]. split; [intros v []|left; lra].
    - destruct (cell_quality c) as [y|] eqn:Y; cbn; [|exact I]. apply quality_spec in Y. destruct Y as [Y _].
      specialize (IH (if qltb y q0 then y else q0)).
      destruct (each quality_entry (map Owned cs)) as [l|]; cbn; destruct (estimate_rank (map Owned cs) _) as [r|]; cbn; try tauto.
      destruct IH as (H1 & H2 & H3 & H4). split; [rewrite H1; reflexivity|].
      assert (Z : (if qltb y q0 then y else q0) <= q0 /\ (if qltb y q0 then y else q0) <= y /\
        ((if qltb y q0 then y else q0) == q0 \/ (if qltb y q0 then y else q0) == y)).
      { destruct (qltb y q0) eqn:K; [apply qltb_true in K|apply qltb_false in K]; (split; [lra|split; [lra|]]); [right|left]; lra. }
      destruct Z as (Z1 & Z2 & Z3). split; [lra|]. split.
      + intros v [<-|V]; [split; [lra|exact Y]|apply H3, V].
      + destruct H4 as [H4|(v & V1 & V2)]; [|right; exists v; cbn; auto].
        destruct Z3 as [Z3|Z3]; [left; lra|]. right. exists y. cbn. split; [auto|lra]. }
  specialize (X cells 1). unfold output_min, estimate_min. cbn [each].
  destruct (each quality_entry (map Owned cells)) as [l|]; destruct (estimate_rank (map Owned cells) 1) as [r|]; cbn; try tauto;
    [|split; discriminate].
  destruct X as (X1 & X2 & X3 & X4). destruct l as [|x l]; [destruct cells; [congruence|discriminate]|].
  cbn [min_element obind]. set (m := fold_left (fun a v => if qltb v a then v else a) l x).
  assert (M : min_element (x :: l) = Some m) by reflexivity. apply min_element_spec in M. destruct M as [M1 M2].
  assert (EQ : m == r).
  { destruct (X3 m M1) as [P1 P2]. apply Qle_antisym; [|exact P1]. destruct X4 as [X4|(v & V1 & V2)]; [lra|]. specialize (M2 v V1). lra. }
  cbn [fold_left]. split; intro E; injection E as <-; eexists; (split; [reflexivity|]); [exact EQ|symmetry; exact EQ].
Qed.
Print Assumptions C75_output_serial.

(** In parallel it is not positive: the entries of the ghost and artificial cells
    are zero. *)
Theorem C75_output_ghost : forall ranks q, In Other (concat ranks) -> output_min ranks = Some q -> q <= 0.
Proof.
  intros ranks q I E. unfold output_min in E. destruct (each _ ranks) as [qs|] eqn:F; cbn in E; [|discriminate].
  apply min_element_spec in E. destruct E as [_ E]. apply each_spec in F. destruct F as [F _].
  apply in_concat in I. destruct I as (cells & I1 & I2). destruct (F cells I1) as (y & Y1 & Y2).
  destruct (each quality_entry cells) as [v|] eqn:V; cbn in Y1; [|discriminate].
  apply min_element_spec in Y1. destruct Y1 as [_ Y1]. apply each_spec in V. destruct V as [V _].
  destruct (V Other I2) as (z & Z1 & Z2). cbn in Z1. injection Z1 as <-. specialize (Y1 0 Z2). specialize (E y Y2). lra.
Qed.
Print Assumptions C75_output_ghost.

Definition cell_1 : cell := [[0; 1 # 4]; [1; 1]].
Definition cell_2 : cell := [[1 # 4; 3 # 4]; [1; 1]].

Theorem C75_output_refuted : exists ranks q q',
  estimate_min ranks = Some q /\ output_min ranks = Some q' /\ q == 1 # 2 /\ q' == 0.
Proof.
  exists [[Owned cell_1; Other]; [Other; Owned cell_2]].
  eexists. eexists. split; [reflexivity|]. split; [reflexivity|]. split; reflexivity.
Qed.
Print Assumptions C75_output_refuted.

(** The threshold taken from the quality of the first step does not ask for a
    refinement of that mesh, if the quality is not negative; a negative quality does
    ask for it, at every step. *)
Theorem C75_auto : forall factor quality, 0 <= quality -> factor <= 1 ->
  need_refinement quality (auto_threshold factor quality) = false.
Proof. intros f q Q0 F. unfold need_refinement, auto_threshold. apply qltb_false. nra. Qed.
Print Assumptions C75_auto.

Theorem C75_auto_refuted : (forall factor quality, quality < 0 -> factor < 1 ->
    need_refinement quality (auto_threshold factor quality) = true) /\
  exists ranks q, estimate_min ranks = Some q /\ q < 0.
Proof.
  split.
  - intros f q Q0 F. unfold need_refinement, auto_threshold. apply qltb_true. nra.
  - exists [[Owned [[-(1 # 100); 1]]]]. eexists. split; [reflexivity|reflexivity].
Qed.
Print Assumptions C75_auto_refuted.

(** The loop that adapts the mesh: if it ends, the quality is reached with the first
    depth that reaches it; it ends if some depth reaches it; it never ends if the
    demanded quality exceeds 1. *)
Theorem C75_adjust : forall refine threshold fuel quality depth q d,
  adjust fuel refine threshold quality depth = Some (q, d) ->
  threshold <= q /\ (depth <= d)%nat /\
  (forall k, (depth < k < d)%nat -> refine k < threshold) /\
  ((d = depth /\ q = quality) \/ (quality < threshold /\ (depth < d)%nat /\ q = refine d)).
Proof.
  intros refine threshold. induction fuel as [|fuel IH]; intros quality depth q d E; cbn [adjust] in E;
    destruct (need_refinement quality threshold) eqn:K; unfold need_refinement in K.
  - discriminate.
  - apply qltb_false in K. injection E as <- <-. split; [exact K|]. split; [lia|]. split; [intros; lia|auto].
  - apply qltb_true in K. apply IH in E. destruct E as (E1 & E2 & E3 & E4). split; [exact E1|]. split; [lia|]. split.
    + intros k Hk. destruct (Nat.eq_dec k (S depth)) as [->|NE]; [|apply E3; lia].
      destruct E4 as [[-> ->]|[E4 _]]; [lia|exact E4].
    + right. split; [exact K|]. split; [lia|]. destruct E4 as [[-> ->]|(_ & _ & E4)]; [reflexivity|exact E4].
  - apply qltb_false in K. injection E as <- <-. split; [exact K|]. split; [lia|]. split; [intros; lia|auto].
Qed.
Print Assumptions C75_adjust.

Theorem C75_adjust_ends : forall refine threshold n quality depth, threshold <= refine (depth + n)%nat ->
  (1 <= n)%nat -> exists r, adjust n refine threshold quality depth = Some r.
Proof.
  intros refine threshold. induction n as [|n IH]; intros quality depth H L; [lia|]. cbn [adjust].
  destruct (need_refinement quality threshold); [|eexists; reflexivity].
  destruct n as [|n].
  - replace (depth + 1)%nat with (S depth) in H by lia. cbn [adjust]. unfold need_refinement.
    apply qltb_false in H. rewrite H. eexists. reflexivity.
  - apply IH; [|lia]. replace (S depth + S n)%nat with (depth + S (S n))%nat by lia. exact H.
Qed.
Print Assumptions C75_adjust_ends.

Theorem C75_adjust_refuted : forall refine threshold quality, (forall k, refine k <= 1) -> quality <= 1 -> 1 < threshold ->
  forall fuel depth, adjust fuel refine threshold quality depth = None.
Proof.
  intros refine threshold quality R Q1 T fuel. revert quality Q1.
  induction fuel as [|fuel IH]; intros quality Q1 depth; cbn [adjust]; unfold need_refinement;
    (replace (qltb quality threshold) with true by (symmetry; apply qltb_true; lra)); [reflexivity|]. apply IH, R.
Qed.
Print Assumptions C75_adjust_refuted.

Example C75_applies : exists q, estimate_min [[Owned cell_1; Other]; [Other; Owned cell_2]] = Some q /\ q == 1 # 2 /\
  In (Owned cell_2) (concat [[Owned cell_1; Other]; [Other; Owned cell_2]]) /\ jump cell_2 (1 # 2).
Proof.
  eexists. split; [reflexivity|]. split; [reflexivity|]. split; [cbn; auto|].
  exists [1 # 4; 3 # 4], (1 # 4), (3 # 4). cbn. repeat split; auto.
Qed.
Example C75_adjust_applies : adjust 3 (fun k => 1 - (1 # 4) * (1 # Pos.of_nat k)) (8 # 10) (1 # 2) 0 =
  Some (1 - (1 # 4) * (1 # 2), 2%nat).
Proof. reflexivity. Qed.

(** ** Which blocks enter: all from the third to the last component of the data.  For operators
    whose order parameters start with the third component these are the order parameters. *)
Lemma each_seq : forall A (l : list A) k s, (s + k <= length l)%nat -> each (vget l) (seq s k) = Some (firstn k (skipn s l)).
Proof.
  intros A l. induction k as [|k IH]; intros s H; [reflexivity|]. cbn [seq each].
  destruct (vget l s) as [x|] eqn:E; [|apply nth_error_None in E; lia]. cbn [obind]. rewrite IH by lia. cbn [obind].
  assert (K : skipn s l = x :: skipn (S s) l).
  { clear - E. unfold vget in E. revert s E. induction l as [|a l IH]; intros [|s] E; cbn in *; try discriminate; [injection E as ->; reflexivity|].
    rewrite (IH _ E). destruct l; reflexivity. }
  rewrite K. reflexivity.
Qed.
Theorem C75_view : forall (others etas displ : cell), length others = 2%nat ->
  quality_view (length others + length etas) (Owned (others ++ etas ++ displ)) = Some (Owned etas).
Proof.
  intros others etas displ H. cbn [quality_view]. unfold create_view. rewrite each_seq by (rewrite H, !app_length; lia). cbn [obind]. f_equal. f_equal.
  rewrite H. replace (2 + length etas - 2)%nat with (length etas) by lia.
  destruct others as [|a [|b [|c o]]]; cbn in H; try discriminate. cbn [app skipn]. rewrite firstn_app, Nat.sub_diag, firstn_all. cbn. apply app_nil_r.
Qed.
Print Assumptions C75_view.
Example C75_view_applies : quality_view 4 (Owned [[1]; [2]; [3]; [4]; [5]]) = Some (Owned [[3]; [4]]).
Proof. reflexivity. Qed.

(** In grain growth the order parameters start with the first component: the first two do not
    count, and with at most two of them the quality is 1 whatever the solution is. *)
Theorem C75_view_growth : forall etas : cell, quality_view (length etas) (Owned etas) = Some (Owned (skipn 2 etas)).
Proof.
  intros etas. cbn [quality_view]. unfold create_view. destruct etas as [|a [|b l]]; try reflexivity.
  cbn [length]. rewrite each_seq by (cbn [length]; lia). cbn [obind skipn]. replace (S (S (length l)) - 2)%nat with (length l) by lia. rewrite firstn_all. reflexivity.
Qed.
Print Assumptions C75_view_growth.
Lemma each_view_growth : forall n cells, (n <= 2)%nat -> (forall c, In (Owned c) cells -> length c = n) ->
  each (quality_view n) cells = Some (map (fun a => match a with Owned _ => Owned [] | Other => Other end) cells).
Proof.
  intros n cells Hn. induction cells as [|a cells IH]; intros H; [reflexivity|]. cbn [each map].
  assert (E : quality_view n a = Some (match a with Owned _ => Owned [] | Other => Other end)).
  { destruct a as [c|]; [|reflexivity]. cbn [quality_view]. unfold create_view. replace (n - 2)%nat with 0%nat by lia. reflexivity. }
  rewrite E. cbn [obind]. rewrite IH by (intros c I; apply H; right; exact I). reflexivity.
Qed.
Lemma rank_empty : forall cells q, q <= 1 -> estimate_rank (map (fun a => match a with Owned _ => Owned [] | Other => Other end) cells) q = Some q.
Proof.
  induction cells as [|[c|] cells IH]; intros q H; cbn [map estimate_rank]; [reflexivity| |apply IH; exact H].
  cbn [cell_quality delta_cell obind]. change (1 - 0 : Q) with (1 - 0). destruct (qltb (1 - 0) q) eqn:E; [apply qltb_true in E; lra|]. apply IH. exact H.
Qed.
Theorem C75_view_refuted : forall n ranks, (n <= 2)%nat -> ranks <> [] -> (forall c, In (Owned c) (concat ranks) -> length c = n) ->
  driver_quality n ranks = Some 1.
Proof.
  intros n ranks Hn NE H. unfold driver_quality.
  assert (V : each (each (quality_view n)) ranks = Some (map (map (fun a => match a with Owned _ => Owned [] | Other => Other end)) ranks)).
  { clear NE. induction ranks as [|cells ranks IH]; [reflexivity|]. cbn [each map]. rewrite each_view_growth; [|exact Hn|intros c I; apply H; cbn; apply in_or_app; left; exact I].
    cbn [obind]. rewrite IH by (intros c I; apply H; cbn; apply in_or_app; right; exact I). reflexivity. }
  rewrite V. cbn [obind]. unfold estimate_min.
  assert (M : each (fun cells => estimate_rank cells 1) (map (map (fun a => match a with Owned _ => Owned [] | Other => Other end)) ranks) = Some (repeat 1 (length ranks))).
  { clear. induction ranks as [|cells ranks IH]; [reflexivity|]. cbn [each map length repeat]. rewrite rank_empty by lra. cbn [obind]. rewrite IH. reflexivity. }
  rewrite M. cbn [obind]. destruct ranks as [|cells ranks]; [congruence|]. cbn [length repeat min_element]. f_equal. clear.
  induction (length ranks) as [|k IH]; [reflexivity|]. cbn [repeat fold_left]. destruct (qltb 1 1); exact IH.
Qed.
Print Assumptions C75_view_refuted.
Example C75_view_refuted_applies : driver_quality 2 [[Owned [[0; 1]; [1; 0]]]] = Some 1
  /\ exists q, estimate_min [[Owned [[0; 1]; [1; 0]]]] = Some q /\ q == 0.
Proof. split; [reflexivity|]. eexists. split; reflexivity. Qed.
