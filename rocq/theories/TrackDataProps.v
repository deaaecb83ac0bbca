(** C109: tables of quantities of single grains (track_grain_data.py). *)
From Coq Require Import QArith List Arith Bool Lia.
From Verif Require Import Util TrackDataModel.
Import ListNotations.
Local Open Scope nat_scope.

Lemma set_cell_spec : forall l k c, length (set_cell k c l) = length l /\ forall i, nth i (set_cell k c l) Uninit = if (i =? k) && (i <? length l) then c else nth i l Uninit.
Proof.
  induction l as [|x l IH]; intros k c; [split; [destruct k; reflexivity|]; intro i; cbn [length]; rewrite andb_false_r; destruct k; reflexivity|].
  destruct k as [|k]; cbn [set_cell].
  - split; [reflexivity|]. intros [|i]; reflexivity.
  - destruct (IH k c) as [A B]. split; [cbn [length]; congruence|]. intros [|i]; [reflexivity|]. cbn [nth length]. rewrite B. reflexivity.
Qed.
Lemma fill_down_spec : forall k c l, length (fill_down k c l) = length l /\ forall i, nth i (fill_down k c l) Uninit = if (i <? k) && (i <? length l) then c else nth i l Uninit.
Proof.
  induction k as [|k IH]; intros c l; cbn [fill_down]; [split; reflexivity|]. destruct (IH c (set_cell k c l)) as [A B]. destruct (set_cell_spec l k c) as [L N].
  split; [congruence|]. intro i. rewrite B, N, L. destruct (Nat.ltb_spec i k), (Nat.ltb_spec i (S k)), (Nat.eqb_spec i k), (Nat.ltb_spec i (length l)); cbn [andb]; try reflexivity; lia.
Qed.

(** What a row should hold: the last number up to it, else the first number after
    it, else nan. *)
Inductive replaced (values : list (option Q)) (i : nat) : cell -> Prop :=
| last_before : forall k q, k <= i -> nth k values None = Some q -> (forall j, k < j -> j <= i -> nth j values None = None) -> replaced values i (Val q)
| first_after : forall k q, i < k -> nth k values None = Some q -> (forall j, j < k -> nth j values None = None) -> replaced values i (Val q)
| all_nan : (forall j, nth j values None = None) -> replaced values i Nan.

(** Invariant after [m] rows. *)
Definition filled (n_log m : nat) (values : list (option Q)) (st : list cell * option nat) : Prop :=
  length (fst st) = n_log /\ m <= n_log /\ length values = m /\
  (forall i, i < m -> replaced values i (nth i (fst st) Uninit)) /\
  (forall i, m <= i -> nth i (fst st) Uninit = Uninit) /\
  ((forall j, nth j values None = None) -> snd st = if m =? 0 then None else Some m) /\
  ((exists j q, nth j values None = Some q) -> snd st = None \/ snd st = Some 0).

Lemma replaced_val : forall values i c, replaced values i c -> (exists j q, nth j values None = Some q) -> exists q, c = Val q.
Proof. intros values i c R (j & q & H). destruct R as [k q' A B C|k q' A B C|A]; [exists q'; reflexivity|exists q'; reflexivity|]. rewrite A in H. discriminate. Qed.

Lemma nth_snoc : forall (vs : list (option Q)) v i, nth i (vs ++ [v]) None = if i =? length vs then v else nth i vs None.
Proof.
  intros vs v i. destruct (Nat.eqb_spec i (length vs)) as [->|N]; [rewrite app_nth2, Nat.sub_diag by lia; reflexivity|]. destruct (lt_dec i (length vs)) as [L|L]; [apply app_nth1, L|].
  rewrite !nth_overflow by (rewrite ?app_length; cbn [length]; lia). reflexivity.
Qed.

Lemma some_or_none : forall vs : list (option Q), (forall j, nth j vs None = None) \/ (exists j q, nth j vs None = Some q).
Proof.
  induction vs as [|v vs IH]; [left; intros [|j]; reflexivity|]. destruct v as [q|]; [right; exists 0, q; reflexivity|]. destruct IH as [H|(j & q & H)].
  - left. intros [|j]; [reflexivity|apply H].
  - right. exists (S j), q. exact H.
Qed.

Lemma fill_step_filled : forall n_log m vs st v, m < n_log -> filled n_log m vs st -> filled n_log (S m) (vs ++ [v]) (fill_step true m v st).
Proof.
  intros n_log m vs [col upto] v LT (L & _ & LV & R & U & AN & SM). cbn [fst snd] in *. unfold fill_step. destruct (set_cell_spec col m (to_cell v)) as [L1 N1]. set (col1 := set_cell m (to_cell v) col) in *.
  assert (NM : nth m col1 Uninit = to_cell v) by (rewrite N1, Nat.eqb_refl; replace (m <? length col) with true by (symmetry; apply Nat.ltb_lt; lia); reflexivity).
  assert (NO : forall i, i <> m -> nth i col1 Uninit = nth i col Uninit) by (intros i H; rewrite N1; replace (i =? m) with false by (symmetry; apply Nat.eqb_neq; exact H); reflexivity).
  assert (SN : forall i, nth i (vs ++ [v]) None = if i =? m then v else nth i vs None) by (intro i; rewrite nth_snoc, LV; reflexivity).
  assert (LV1 : length (vs ++ [v]) = S m) by (rewrite app_length; cbn [length]; lia).
  assert (OV : forall j, m <= j -> nth j vs None = None) by (intros j Hj; apply nth_overflow; lia).
  (* a row that holds a number keeps its meaning *)
  assert (KEEP : forall i c, i < m -> (exists j q, nth j vs None = Some q) -> replaced vs i c -> replaced (vs ++ [v]) i c).
  { intros i c Hi EX Rc. destruct Rc as [k q A B C|k q A B C|A].
    - apply (last_before _ _ k q); [exact A|rewrite SN; replace (k =? m) with false by (symmetry; apply Nat.eqb_neq; lia); exact B|].
      intros j H1 H2. rewrite SN. replace (j =? m) with false by (symmetry; apply Nat.eqb_neq; lia). apply C; assumption.
    - assert (KM : k < m) by (destruct (lt_dec k m) as [X|X]; [exact X|rewrite OV in B by lia; discriminate]).
      apply (first_after _ _ k q); [exact A|rewrite SN; replace (k =? m) with false by (symmetry; apply Nat.eqb_neq; lia); exact B|].
      intros j H1. rewrite SN. replace (j =? m) with false by (symmetry; apply Nat.eqb_neq; lia). apply C; assumption.
    - destruct EX as (j & q & E). rewrite A in E. discriminate. }
  rewrite NM. destruct v as [q|]; cbn [to_cell is_nan].
  - (* a number *)
    assert (EX : exists j q', nth j (vs ++ [Some q]) None = Some q') by (exists m, q; rewrite SN, Nat.eqb_refl; reflexivity).
    assert (NN : ~ (forall j, nth j (vs ++ [Some q]) None = None)) by (intro H; specialize (H m); rewrite SN, Nat.eqb_refl in H; discriminate).
    assert (RM : replaced (vs ++ [Some q]) m (Val q)) by (apply (last_before _ _ m q); [lia|rewrite SN, Nat.eqb_refl; reflexivity|intros; lia]).
    destruct (some_or_none vs) as [NONE|SOME].
    + specialize (AN NONE). destruct (Nat.eqb_spec m 0) as [M0|M0].
      * subst upto. unfold filled. cbn [fst snd]. split; [congruence|]. split; [lia|]. split; [exact LV1|]. split; [intros i Hi; assert (i = m) by lia; subst i; rewrite NM; exact RM|].
        split; [intros i Hi; rewrite NO by lia; apply U; lia|]. split; [intro H; contradiction|auto].
      * subst upto. destruct (fill_down_spec m (Val q) col1) as [L2 N2]. unfold filled. cbn [fst snd]. split; [congruence|]. split; [lia|]. split; [exact LV1|]. split; [|split; [|split; [intro H; contradiction|auto]]].
        -- intros i Hi. rewrite N2. destruct (Nat.ltb_spec i m) as [Q1|Q1]; cbn [andb].
           ++ replace (i <? length col1) with true by (symmetry; apply Nat.ltb_lt; lia). apply (first_after _ _ m q); [exact Q1|rewrite SN, Nat.eqb_refl; reflexivity|].
              intros j Hj. rewrite SN. replace (j =? m) with false by (symmetry; apply Nat.eqb_neq; lia). apply NONE.
           ++ assert (i = m) by lia. subst i. rewrite NM. exact RM.
        -- intros i Hi. rewrite N2. replace (i <? m) with false by (symmetry; apply Nat.ltb_ge; lia). cbn [andb]. rewrite NO by lia. apply U. lia.
    + assert (RES : (match upto with None => (col1, None) | Some k => (fill_down k (Val q) col1, Some 0) end) = (col1, upto)) by (destruct (SM SOME) as [-> | -> ]; reflexivity).
      rewrite RES. unfold filled. cbn [fst snd]. split; [congruence|]. split; [lia|]. split; [exact LV1|]. split; [|split; [|split; [intro H; contradiction|intros _; apply SM, SOME]]].
      * intros i Hi. destruct (Nat.eq_dec i m) as [->|Q1]; [rewrite NM; exact RM|]. rewrite NO by exact Q1. apply KEEP; [lia|exact SOME|apply R; lia].
      * intros i Hi. rewrite NO by lia. apply U. lia.
  - (* nan *)
    destruct (some_or_none vs) as [NONE|SOME].
    + assert (NONE1 : forall j, nth j (vs ++ [None]) None = None) by (intro j; rewrite SN; destruct (j =? m); [reflexivity|apply NONE]).
      assert (C : (m =? 0) || is_nan (nth (m - 1) col1 Uninit) = true).
      { destruct (Nat.eqb_spec m 0) as [M0|M0]; [reflexivity|]. cbn [orb]. rewrite NO by lia. specialize (R (m - 1) ltac:(lia)). destruct R as [k q A B _|k q A B _|A]; [rewrite NONE in B; discriminate|rewrite NONE in B; discriminate|reflexivity]. }
      rewrite C. unfold filled. cbn [fst snd]. split; [congruence|]. split; [lia|]. split; [exact LV1|]. split; [|split; [|split; [intros _; reflexivity|intros (j & q & H); rewrite NONE1 in H; discriminate]]].
      * intros i Hi. destruct (Nat.eq_dec i m) as [->|Q1]; [rewrite NM; apply all_nan, NONE1|]. rewrite NO by exact Q1. specialize (R i ltac:(lia)). destruct R as [k q A B _|k q A B _|A]; [rewrite NONE in B; discriminate|rewrite NONE in B; discriminate|apply all_nan, NONE1].
      * intros i Hi. rewrite NO by lia. apply U. lia.
    + assert (MP : 0 < m) by (destruct SOME as (j & q & H); destruct m; [rewrite OV in H by lia; discriminate|lia]).
      pose proof (R (m - 1) ltac:(lia)) as RP. destruct (replaced_val _ _ _ RP SOME) as [q E].
      assert (C : (m =? 0) || is_nan (nth (m - 1) col1 Uninit) = false). { replace (m =? 0) with false by (symmetry; apply Nat.eqb_neq; lia). rewrite NO, E by lia. reflexivity. }
      rewrite C. rewrite NO, E by lia. destruct (set_cell_spec col1 m (Val q)) as [L2 N2]. unfold filled. cbn [fst snd]. split; [congruence|]. split; [lia|]. split; [exact LV1|]. split; [|split; [|split]].
      * intros i Hi. rewrite N2. destruct (Nat.eqb_spec i m) as [->|Q1]; cbn [andb].
        -- replace (m <? length col1) with true by (symmetry; apply Nat.ltb_lt; lia). rewrite E in RP. inversion RP as [k q' A B C'|k q' A B C'|]; subst q'.
           ++ apply (last_before _ _ k q); [lia|rewrite SN; replace (k =? m) with false by (symmetry; apply Nat.eqb_neq; lia); exact B|].
              intros j H1 H2. rewrite SN. destruct (Nat.eqb_spec j m); [reflexivity|]. apply C'; lia.
           ++ rewrite OV in B by lia. discriminate.
        -- rewrite NO by exact Q1. apply KEEP; [lia|exact SOME|apply R; lia].
      * intros i Hi. rewrite N2. replace (i =? m) with false by (symmetry; apply Nat.eqb_neq; lia). cbn [andb]. rewrite NO by lia. apply U. lia.
      * intro H. destruct SOME as (j & q' & S0). specialize (H j). rewrite SN in H. destruct (Nat.eqb_spec j m) as [->|]; [rewrite OV in S0 by lia; discriminate|congruence].
      * intros _. apply SM, SOME.
Qed.

Lemma fill_rows_skip : forall replace n_log values idx st, n_log <= idx -> fill_rows replace n_log idx values st = st.
Proof. intros replace n_log. induction values as [|v r IH]; intros idx st H; cbn [fill_rows]; [reflexivity|]. replace (n_log <=? idx) with true by (symmetry; apply Nat.leb_le, H). apply IH. lia. Qed.

Lemma fill_rows_filled : forall n_log values vs m st, filled n_log m vs st -> let k := Nat.min n_log (m + length values) in
  filled n_log k (firstn k (vs ++ values)) (fill_rows true n_log m values st).
Proof.
  intros n_log. induction values as [|v r IH]; intros vs m st F; cbn [fill_rows length].
  - destruct F as (A & B & C & D). cbv zeta. rewrite Nat.add_0_r, Nat.min_r by exact B. rewrite app_nil_r, <- C, firstn_all, C. repeat split; tauto || auto.
  - cbv zeta. destruct (Nat.leb_spec n_log m) as [H|H].
    + rewrite fill_rows_skip by lia. pose proof F as (A & B & C & D). assert (E : Nat.min n_log (m + S (length r)) = m) by lia. rewrite E. rewrite firstn_app, (firstn_all2 vs), C, Nat.sub_diag by lia. cbn [firstn]. rewrite app_nil_r. exact F.
    + specialize (IH (vs ++ [v]) (S m) _ (fill_step_filled n_log m vs st v H F)). cbv zeta in IH. rewrite <- app_assoc in IH. cbn [app] in IH. replace (m + S (length r)) with (S m + length r) by lia. exact IH.
Qed.

Lemma filled_start : forall n_log, filled n_log 0 [] (repeat Uninit n_log, None).
Proof.
  intro n_log. unfold filled. cbn [fst snd]. split; [apply repeat_length|]. split; [lia|]. split; [reflexivity|]. split; [intros; lia|]. split.
  - intros i _. destruct (lt_dec i n_log); [apply nth_repeat|apply nth_overflow; rewrite repeat_length; lia].
  - split; [reflexivity|]. intros (j & q & H). destruct j; discriminate.
Qed.

Lemma firstn_min : forall A n (l : list A), firstn (Nat.min n (length l)) l = firstn n l.
Proof. intros A. induction n as [|n IH]; intros [|x l]; try reflexivity. cbn [length Nat.min firstn]. rewrite IH. reflexivity. Qed.

(** With replacement of nans each row holds the last number up to it, rows before
    the first number hold this number, and only a column without numbers stays nan. *)
Theorem C109_fill : forall n_log values i, i < n_log -> i < length values ->
  replaced (firstn n_log values) i (nth i (fill_column true n_log values) Uninit).
Proof.
  intros n_log values i A B. pose proof (fill_rows_filled n_log values [] 0 _ (filled_start n_log)) as F. cbv zeta in F. cbn [Nat.add app] in F. rewrite firstn_min in F.
  destruct F as (_ & _ & _ & R & _). apply R. lia.
Qed.
Print Assumptions C109_fill.

(** [replaced] leaves no choice. *)
Theorem C109_fill_unique : forall values i a b, replaced values i a -> replaced values i b -> a = b.
Proof.
  assert (G : forall (values : list (option Q)) i k q k' q', k <= i -> nth k values None = Some q -> (forall j, k < j -> j <= i -> nth j values None = None) ->
    k' <= i -> nth k' values None = Some q' -> (forall j, k' < j -> j <= i -> nth j values None = None) -> q = q').
  { intros values i k q k' q' A B C A' B' C'. destruct (lt_eq_lt_dec k k') as [[L|E]|L].
    - rewrite C in B' by lia. discriminate.
    - subst k'. congruence.
    - rewrite C' in B by lia. discriminate. }
  intros values i a b X Y. destruct X as [k q A B C|k q A B C|A]; destruct Y as [k' q' A' B' C'|k' q' A' B' C'|A']; try reflexivity.
  - f_equal. apply (G values i k q k' q'); assumption.
  - exfalso. rewrite C' in B by lia. discriminate.
  - exfalso. rewrite A' in B. discriminate.
  - exfalso. rewrite C in B' by lia. discriminate.
  - destruct (lt_eq_lt_dec k k') as [[L|E]|L]; [rewrite C' in B by lia; discriminate|subst; congruence|rewrite C in B' by lia; discriminate].
  - exfalso. rewrite A' in B. discriminate.
  - exfalso. rewrite A in B'. discriminate.
  - exfalso. rewrite A in B'. discriminate.
Qed.
Print Assumptions C109_fill_unique.

Lemma fill_rows_plain : forall n_log values m st, length (fst st) = n_log ->
  length (fst (fill_rows false n_log m values st)) = n_log /\
  forall i, nth i (fst (fill_rows false n_log m values st)) Uninit = if (m <=? i) && (i <? m + length values) && (i <? n_log) then to_cell (nth (i - m) values None) else nth i (fst st) Uninit.
Proof.
  intros n_log. induction values as [|v r IH]; intros m st L; cbn [fill_rows length].
  - split; [exact L|]. intro i. rewrite Nat.add_0_r. destruct (Nat.leb_spec m i), (Nat.ltb_spec i m); cbn [andb]; try reflexivity; lia.
  - destruct (Nat.leb_spec n_log m) as [H|H].
    + destruct (IH (S m) st L) as [A B]. split; [exact A|]. intro i. rewrite B. destruct (Nat.leb_spec (S m) i), (Nat.leb_spec m i), (Nat.ltb_spec i n_log); rewrite ?andb_false_r; cbn [andb]; try reflexivity; try lia.
    + destruct st as [col upto]. unfold fill_step. cbn [fst] in *. destruct (set_cell_spec col m (to_cell v)) as [L1 N1]. destruct (IH (S m) (set_cell m (to_cell v) col, upto)) as [A B]; [cbn [fst]; congruence|]. cbn [fst] in *.
      split; [exact A|]. intro i. rewrite B, N1, L. replace (m + S (length r)) with (S m + length r) by lia.
      destruct (Nat.eqb_spec i m) as [->|N].
      * replace (S m <=? m) with false by (symmetry; apply Nat.leb_gt; lia). replace (m <=? m) with true by (symmetry; apply Nat.leb_le; lia). replace (m <? n_log) with true by (symmetry; apply Nat.ltb_lt; exact H). replace (m <? S m + length r) with true by (symmetry; apply Nat.ltb_lt; lia). cbn [andb]. rewrite Nat.sub_diag. reflexivity.
      * cbn [andb]. destruct (Nat.leb_spec (S m) i), (Nat.leb_spec m i); try lia; cbn [andb]; [|reflexivity]. replace (i - m) with (S (i - S m)) by lia. reflexivity.
Qed.

(** Without replacement each row holds what was read; in both cases rows without a
    file are never written, and files without a row have no effect. *)
Theorem C109_rows : forall replace n_log values,
  length (fill_column replace n_log values) = n_log /\
  (forall i, i < n_log -> i < length values -> replace = false -> nth i (fill_column replace n_log values) Uninit = to_cell (nth i values None)) /\
  (forall i, length values <= i -> nth i (fill_column replace n_log values) Uninit = Uninit) /\
  fill_column replace n_log (firstn n_log values) = fill_column replace n_log values.
Proof.
  intros replace n_log values.
  assert (SK : fill_column replace n_log (firstn n_log values) = fill_column replace n_log values).
  { unfold fill_column. rewrite <- (firstn_skipn n_log values) at 2. f_equal. generalize (repeat Uninit n_log, @None nat) as st.
    assert (G : forall a b m st, fill_rows replace n_log m (a ++ b) st = fill_rows replace n_log (m + length a) b (fill_rows replace n_log m a st)).
    { induction a as [|x a IH]; intros b m st; cbn [app fill_rows length]; [rewrite Nat.add_0_r; reflexivity|]. rewrite IH. f_equal. lia. }
    intro st. rewrite G. destruct (le_dec n_log (length values)) as [H|H].
    - rewrite (fill_rows_skip replace n_log (skipn n_log values)) by (rewrite firstn_length; lia). reflexivity.
    - rewrite (skipn_all2 values) by lia. reflexivity. }
  destruct replace.
  - pose proof (fill_rows_filled n_log values [] 0 _ (filled_start n_log)) as F. cbv zeta in F. cbn [Nat.add app] in F. rewrite firstn_min in F. destruct F as (A & _ & _ & _ & U & _).
    split; [exact A|]. split; [intros; discriminate|]. split; [|exact SK]. intros i Hi. apply U. lia.
  - destruct (fill_rows_plain n_log values 0 (repeat Uninit n_log, None)) as [A B]; [apply repeat_length|]. cbn [fst Nat.add] in *. split; [exact A|]. split; [|split; [|exact SK]].
    + intros i H1 H2 _. unfold fill_column. rewrite B. apply Nat.ltb_lt in H1. apply Nat.ltb_lt in H2. rewrite H1, H2. cbn [Nat.leb andb]. rewrite Nat.sub_0_r. reflexivity.
    + intros i Hi. unfold fill_column. rewrite B. replace (i <? length values) with false by (symmetry; apply Nat.ltb_ge; exact Hi). cbn [Nat.leb andb].
      destruct (lt_dec i n_log); [apply nth_repeat|apply nth_overflow; rewrite repeat_length; lia].
Qed.
Print Assumptions C109_rows.

Lemma member_in : forall x l, member x l = true <-> In x l.
Proof. intros x l. unfold member. rewrite existsb_exists. split; [intros (y & H & E); apply Nat.eqb_eq in E; congruence|intro H; exists x; split; [exact H|apply Nat.eqb_refl]]. Qed.

(** The saved columns belong to the grains and quantities of the first file, grain
    by grain, and hold the values of this grain in each file. *)
Theorem C109_columns : forall replace grains qtys f s, track replace grains qtys f = Some s ->
  (forall q g, In (q, g) (s_header s) <-> In g grains /\ In q qtys /\ exists t, nth_error (f_files f) 0 = Some t /\ In g (t_ids t) /\ In q (t_names t)) /\
  length (s_columns s) = length (s_header s) /\
  (forall k q g, nth_error (s_header s) k = Some (q, g) -> nth_error (s_columns s) k = Some (fill_column replace (length (f_log f)) (map (fun t => t_val t g q) (f_files f)))) /\
  (forall i t, i < length (f_log f) -> nth_error (f_files f) i = Some t -> forall q g, In (q, g) (s_header s) -> In g (t_ids t) /\ In q (t_names t)) /\
  (forall i, i < length (f_log f) -> i < length (f_files f) ->
    nth i (s_time s) Uninit = Val (fst (nth i (f_log f) (0, 0)%Q)) /\ nth i (s_dt s) Uninit = Val (snd (nth i (f_log f) (0, 0)%Q))).
Proof.
  intros replace grains qtys f s. unfold track. destruct (f_files f) as [|first rest] eqn:FF; [discriminate|]. destruct (length (f_log f) =? 1); [discriminate|].
  set (g1 := filter (fun g => member g (t_ids first)) grains). set (q1 := filter (fun q => member q (t_names first)) qtys). rewrite <- FF.
  destruct (forallb (complete g1 q1) (firstn (length (f_log f)) (f_files f))) eqn:CO; [|discriminate]. intro E. injection E as <-. cbn [s_header s_columns s_time s_dt].
  assert (HI : forall q g, In (q, g) (flat_map (fun g => map (fun q => (q, g)) q1) g1) <-> In g g1 /\ In q q1).
  { intros q g. rewrite in_flat_map. split; [intros (x & Hx & H); apply in_map_iff in H; destruct H as (y & E & Hy); inversion E; subst; auto|]. intros [H1 H2]. exists g. split; [exact H1|]. apply in_map_iff. exists q. auto. }
  split; [|split; [apply map_length|split; [|split]]].
  - intros q g. rewrite HI. unfold g1, q1. rewrite !filter_In, !member_in, FF. cbn [nth_error]. split; [intros [[A B] [C D]]; split; [exact A|]; split; [exact C|]; exists first; auto|].
    intros (A & C & t & T & B & D). injection T as <-. auto.
  - intros k q g H. rewrite nth_error_map, H. reflexivity.
  - intros i t Hi T q g H. apply HI in H. destruct H as [H1 H2]. rewrite forallb_forall in CO.
    assert (IT : In t (firstn (length (f_log f)) (f_files f))).
    { clear - Hi T. revert i t Hi T. generalize (length (f_log f)) as n. generalize (f_files f) as l. induction l as [|x l IH]; intros n i t Hi T; [destruct i; discriminate|]. destruct n as [|n]; [lia|]. cbn [firstn].
      destruct i as [|i]; [injection T as <-; left; reflexivity|right; apply (IH n i); [lia|exact T]]. }
    specialize (CO t IT). unfold complete in CO. rewrite forallb_forall in CO. specialize (CO g H1). apply andb_true_iff in CO. destruct CO as [C1 C2]. rewrite forallb_forall in C2. split; apply member_in; [exact C1|apply C2, H2].
  - intros i Hi HF.
    assert (G : forall (h : Q * Q -> Q), nth i (fill_column false (length (f_log f)) (map (fun r => Some (h r)) (firstn (length (f_files f)) (f_log f)))) Uninit = Val (h (nth i (f_log f) (0, 0)%Q))).
    { intro h. set (rows := firstn (length (f_files f)) (f_log f)). assert (LR : i < length rows) by (unfold rows; rewrite firstn_length; lia).
      rewrite (proj1 (proj2 (C109_rows false _ _))); [|exact Hi|rewrite map_length; exact LR|reflexivity]. rewrite (nth_indep _ None (Some (h (0, 0)%Q))) by (rewrite map_length; exact LR).
      rewrite (map_nth (fun r => Some (h r))). cbn [to_cell]. f_equal. f_equal. unfold rows. clear - HF. revert i HF. generalize (length (f_files f)) as n. generalize (f_log f) as l.
      induction l as [|x l IH]; intros [|n] [|i] H; try lia; try reflexivity. cbn [firstn nth]. apply IH. lia. }
    split; apply G.
Qed.
Print Assumptions C109_columns.

(** A grain of the first file that is missing in a later one ends the script. *)
Theorem C109_missing : forall replace grains qtys f first i t g, nth_error (f_files f) 0 = Some first -> In g grains -> In g (t_ids first) ->
  nth_error (f_files f) i = Some t -> i < length (f_log f) -> ~ In g (t_ids t) -> track replace grains qtys f = None.
Proof.
  intros replace grains qtys f first i t g F0 G1 G2 T Hi NG. destruct (track replace grains qtys f) as [s|] eqn:E; [|reflexivity]. exfalso.
  revert E. unfold track. destruct (f_files f) as [|x rest] eqn:FF; [discriminate|]. injection F0 as ->. destruct (length (f_log f) =? 1); [discriminate|].
  destruct (forallb _ (firstn (length (f_log f)) (first :: rest))) eqn:CO; [|discriminate]. intros _. rewrite forallb_forall in CO.
  assert (IT : In t (firstn (length (f_log f)) (first :: rest))).
  { clear - Hi T. revert i t Hi T. generalize (length (f_log f)) as n. generalize (first :: rest) as l. induction l as [|x l IH]; intros n i t Hi T; [destruct i; discriminate|]. destruct n as [|n]; [lia|]. cbn [firstn].
    destruct i as [|i]; [injection T as <-; left; reflexivity|right; apply (IH n i); [lia|exact T]]. }
  specialize (CO t IT). unfold complete in CO. rewrite forallb_forall in CO. specialize (CO g). rewrite filter_In, member_in in CO. specialize (CO (conj G1 G2)). apply andb_true_iff in CO. apply NG, member_in, CO.
Qed.
Print Assumptions C109_missing.

(** When every folder has files, each table is saved under the name of its folder;
    tables are saved in order up to the first failure. *)
Theorem C109_names : forall replace grains qtys folders names, length names = length folders -> (forall f, In f folders -> f_files f <> []) ->
  exists m, m <= length folders /\ map fst (fst (run replace grains qtys folders names)) = firstn m names /\
    map (fun x => Some (snd x)) (fst (run replace grains qtys folders names)) = map (track replace grains qtys) (firstn m folders) /\
    (snd (run replace grains qtys folders names) = false -> m = length folders) /\
    (snd (run replace grains qtys folders names) = true -> exists f, nth_error folders m = Some f /\ track replace grains qtys f = None).
Proof.
  intros replace grains qtys. induction folders as [|f folders IH]; intros [|name names] L H; try discriminate; cbn [run length] in *.
  - exists 0. split; [lia|]. split; [reflexivity|]. split; [reflexivity|]. split; [reflexivity|discriminate].
  - pose proof (H f (or_introl eq_refl)) as NE. destruct (f_files f) as [|t ts] eqn:FF; [contradiction|]. destruct (track replace grains qtys f) as [s|] eqn:E.
    + destruct (IH names ltac:(lia)) as (m & M1 & M2 & M3 & M4 & M5); [intros g Hg; apply H; right; exact Hg|]. destruct (run replace grains qtys folders names) as [l e]. cbn [fst snd] in *.
      exists (S m). split; [lia|]. cbn [map firstn fst snd]. rewrite M2, M3, E. split; [reflexivity|]. split; [reflexivity|]. split; [intro X; rewrite M4 by exact X; reflexivity|exact M5].
    + exists 0. split; [lia|]. split; [reflexivity|]. split; [reflexivity|]. split; [discriminate|]. intros _. exists f. auto.
Qed.
Print Assumptions C109_names.

Definition t_ex (v : option Q) : table := mkTable [7; 8] [3] (fun _ _ => v).

(** After a folder without files the tables of later folders get wrong names. *)
Theorem C109_names_refuted : exists f, f_files f <> [] /\ forall replace, exists s, track replace [7] [3] f = Some s /\
  run replace [7] [3] [mkFolder [] []; f] [10; 11] = ([(10, s)], false).
Proof.
  exists (mkFolder [(0, 1); (1, 1)]%Q [t_ex (Some 5%Q); t_ex None]). split; [discriminate|]. intro replace. eexists. split; [cbn; reflexivity|]. cbn. reflexivity.
Qed.
Print Assumptions C109_names_refuted.

(** With fewer files than rows of the log the table holds uninitialised memory. *)
Theorem C109_initialised_refuted : exists f s, track true [7] [3] f = Some s /\ exists c, In c (s_columns s) /\ In Uninit c.
Proof.
  exists (mkFolder [(0, 1); (1, 1)]%Q [t_ex (Some 5%Q)]). eexists. split; [cbn; reflexivity|]. cbn. eexists. split; [left; reflexivity|]. cbn. auto.
Qed.
Print Assumptions C109_initialised_refuted.

Example C109_case : fill_column true 6 [None; None; Some 5%Q; None; Some 6%Q; None; Some 9%Q] = [Val 5; Val 5; Val 5; Val 5; Val 6; Val 6]%Q /\
  fill_column false 3 [None; Some 5%Q] = [Nan; Val 5%Q; Uninit] /\ fill_column true 2 [None; None] = [Nan; Nan].
Proof. repeat split; reflexivity. Qed.
