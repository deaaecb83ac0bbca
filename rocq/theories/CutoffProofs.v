(** Lemmas for the cut-off and the compact storage. *)
From Coq Require Import List Arith Bool Lia Sorted.
From Verif Require Import Util CutoffModel.
Import ListNotations.

Lemma for_loop_inv : forall S (P : nat -> S -> Prop) body n i0 s,
  P i0 s ->
  (forall i x, i0 <= i < i0 + n -> P i x -> exists x', body i x = Some x' /\ P (Datatypes.S i) x') ->
  exists s', for_loop n i0 body s = Some s' /\ P (i0 + n) s'.
Proof.
  intros S P body n. induction n as [|n IH]; intros i0 s H0 Hb; cbn [for_loop].
  - exists s. rewrite Nat.add_0_r. auto.
  - destruct (Hb i0 s) as (x' & E & Hx); [lia|assumption|]. rewrite E. cbn [obind].
    destruct (IH (Datatypes.S i0) x' Hx) as (s' & E2 & H2).
    + intros i x Hi. apply Hb. lia.
    + exists s'. replace (i0 + Datatypes.S n) with (Datatypes.S i0 + n) by lia. auto.
Qed.

Lemma for_loop_none : forall S (P : S -> Prop) (body : nat -> S -> option S) n i0 k s,
  P s ->
  (forall i x x', P x -> body i x = Some x' -> P x') ->
  (forall x, P x -> body k x = None) ->
  i0 <= k < i0 + n ->
  for_loop n i0 body s = None.
Proof.
  intros S P body n. induction n as [|n IH]; intros i0 k s H0 Hp Hn Hk; [lia|].
  cbn [for_loop]. destruct (body i0 s) as [x|] eqn:E; [|reflexivity]. cbn [obind].
  destruct (Nat.eq_dec i0 k) as [->|Hne].
  - rewrite Hn in E by assumption. discriminate.
  - apply (IH (Datatypes.S i0) k); [eapply Hp; eassumption|assumption|assumption|lia].
Qed.

Lemma vget_seq : forall n a i, i < n -> vget (seq a n) i = Some (a + i).
Proof.
  unfold vget. induction n as [|n IH]; intros a i H; [lia|]. destruct i as [|i]; cbn.
  - f_equal. lia.
  - rewrite IH by lia. f_equal. lia.
Qed.

Lemma vget_map : forall A B (f : A -> B) l i,
  vget (map f l) i = option_map f (vget l i).
Proof. intros. unfold vget. apply nth_error_map. Qed.

Lemma vget_rep : forall A (x : A) n i, i < n -> vget (repeat x n) i = Some x.
Proof. unfold vget. intros A x. induction n as [|n IH]; intros i H; [lia|]. destruct i; cbn; [reflexivity|]. apply IH. lia. Qed.

(** A table standing for a function of two indices. *)
Definition rep {A} (t : list (list A)) (a b : nat) (f : nat -> nat -> A) : Prop :=
  length t = a /\
  forall i, i < a -> exists r, vget t i = Some r /\ length r = b /\
    forall j, j < b -> vget r j = Some (f i j).

Lemma rep_repeat : forall A (x : A) a b, rep (repeat (repeat x b) a) a b (fun _ _ => x).
Proof.
  intros A x a b. split; [apply repeat_length|]. intros i Hi. exists (repeat x b).
  rewrite vget_rep by assumption. split; [reflexivity|]. split; [apply repeat_length|].
  intros j Hj. apply vget_rep. assumption.
Qed.

Lemma rep_ext : forall A (t : list (list A)) a b f g,
  (forall i j, i < a -> j < b -> f i j = g i j) -> rep t a b f -> rep t a b g.
Proof.
  intros A t a b f g E (L & H). split; [assumption|]. intros i Hi.
  destruct (H i Hi) as (r & G & Lr & Hr). exists r. split; [assumption|].
  split; [assumption|]. intros j Hj. rewrite <- E by assumption. auto.
Qed.

Lemma rep_tget : forall A (t : list (list A)) a b f i j,
  rep t a b f -> i < a -> j < b -> tget t i j = Some (f i j).
Proof.
  intros A t a b f i j (L & H) Hi Hj. destruct (H i Hi) as (r & G & Lr & Hr).
  unfold tget. rewrite G. cbn [obind]. auto.
Qed.

Lemma rep_tget_out : forall A (t : list (list A)) a b f i j,
  rep t a b f -> b <= j -> tget t i j = None.
Proof.
  intros A t a b f i j (L & H) Hj. unfold tget. destruct (vget t i) as [r|] eqn:G; [|reflexivity].
  destruct (H i) as (r' & G' & Lr & _).
  { rewrite <- L. eapply vget_lt. eassumption. }
  rewrite G in G'. injection G' as <-. cbn [obind]. apply vget_none. lia.
Qed.

Lemma rep_tset : forall A (t : list (list A)) a b f i j x,
  rep t a b f -> i < a -> j < b ->
  exists t', tset t i j x = Some t' /\
    rep t' a b (fun i' j' => if (i' =? i) && (j' =? j) then x else f i' j').
Proof.
  intros A t a b f i j x (L & H) Hi Hj. destruct (H i Hi) as (r & G & Lr & Hr).
  unfold tset. rewrite G. cbn [obind].
  destruct (vset_some _ r j x) as (r' & E); [lia|]. rewrite E. cbn [obind].
  destruct (vset_some _ t i r') as (t' & E'); [lia|]. exists t'. split; [assumption|].
  split; [rewrite (vset_length _ _ _ _ _ E'); assumption|].
  intros i' Hi'. rewrite (vset_get _ _ _ _ _ i' E').
  destruct (Nat.eqb_spec i' i) as [->|Hne].
  - exists r'. split; [reflexivity|]. split; [rewrite (vset_length _ _ _ _ _ E); assumption|].
    intros j' Hj'. rewrite (vset_get _ _ _ _ _ j' E). cbn [andb].
    destruct (Nat.eqb j' j); [reflexivity|auto].
  - destruct (H i' Hi') as (r2 & G2 & L2 & H2). exists r2. auto.
Qed.

Lemma tset_out : forall A (t : list (list A)) a b f i j x,
  rep t a b f -> b <= j -> tset t i j x = None.
Proof.
  intros A t a b f i j x (L & H) Hj. unfold tset.
  destruct (vget t i) as [r|] eqn:G; [|reflexivity].
  destruct (H i) as (r' & G' & Lr & _).
  { rewrite <- L. eapply vget_lt. eassumption. }
  rewrite G in G'. injection G' as <-. cbn [obind].
  destruct (vset r j x) as [q|] eqn:E; [|reflexivity].
  pose proof (vset_get _ _ _ _ _ j E) as P. rewrite Nat.eqb_refl in P.
  apply vget_lt in P. rewrite (vset_length _ _ _ _ _ E) in P. lia.
Qed.

(** ** The table of the relevant order parameters *)

Section Mask.

Variable s : setup.
Variable active : nat -> nat.
Variable above : nat -> nat -> nat -> bool.

Definition rel_b (cell b : nat) : bool :=
  existsb (fun v => above cell v b) (seq 0 (active cell)).

Definition rel (cell : nat) : list nat := filter (rel_b cell) (seq 0 (n_grains s)).

Lemma init_lanes_some : n_grains s <= n_lanes s ->
  exists t f, init_lanes s = Some t /\ rep t (n_cells s) (n_lanes s) f.
Proof.
  intro Hl. unfold init_lanes.
  destruct (for_loop_inv _ (fun _ t => exists f : nat -> nat -> nat, rep t (n_cells s) (n_lanes s) f)
    (fun i t => for_loop (n_grains s) 0 (fun j t => tset t i j 0) t) (n_cells s) 0
    (repeat (repeat 0 (n_lanes s)) (n_cells s))) as (t & E & f & Hf).
  - exists (fun _ _ => 0). apply rep_repeat.
  - intros i x Hi (f & Hf).
    destruct (for_loop_inv _ (fun _ t => exists f : nat -> nat -> nat, rep t (n_cells s) (n_lanes s) f)
      (fun j t => tset t i j 0) (n_grains s) 0 x) as (t & E & Hf2).
    + exists f. assumption.
    + intros j y Hj (g & Hg).
      destruct (rep_tset _ y _ _ g i j 0 Hg) as (y' & E & Hy); [lia|lia|]. eauto.
    + eauto.
  - exists t, f. auto.
Qed.

Lemma init_lanes_none : n_lanes s < n_grains s -> 0 < n_cells s -> init_lanes s = None.
Proof.
  intros Hl Hc. unfold init_lanes.
  apply (for_loop_none _ (fun t => exists f : nat -> nat -> nat, rep t (n_cells s) (n_lanes s) f)) with (k := 0).
  - exists (fun _ _ => 0). apply rep_repeat.
  - intros i x x' (f & Hf) E. exfalso.
    enough (for_loop (n_grains s) 0 (fun j t => tset t i j 0) x = None) by congruence.
    apply (for_loop_none _ (fun t => exists f : nat -> nat -> nat, rep t (n_cells s) (n_lanes s) f)) with (k := n_lanes s);
      [eauto| | |lia].
    + intros j y y' (g & Hg) Ey.
      destruct (vget y i) as [r|] eqn:G; [|unfold tset in Ey; rewrite G in Ey; discriminate].
      destruct (le_lt_dec (n_lanes s) j) as [Hj|Hj].
      * rewrite (tset_out _ _ _ _ g i j 0 Hg Hj) in Ey. discriminate.
      * destruct (rep_tset _ y _ _ g i j 0 Hg) as (y2 & E2 & H2); [|assumption|].
        { destruct Hg as (L & _). rewrite <- L. eapply vget_lt. eassumption. }
        rewrite Ey in E2. injection E2 as <-. eauto.
    + intros y (g & Hg). eapply tset_out; [eassumption|lia].
  - intros x (f & Hf).
    apply (for_loop_none _ (fun t => exists f : nat -> nat -> nat, rep t (n_cells s) (n_lanes s) f)) with (k := n_lanes s);
      [eauto| | |lia].
    + intros j y y' (g & Hg) Ey.
      destruct (le_lt_dec (n_lanes s) j) as [Hj|Hj].
      * rewrite (tset_out _ _ _ _ g 0 j 0 Hg Hj) in Ey. discriminate.
      * destruct (rep_tset _ y _ _ g 0 j 0 Hg Hc Hj) as (y2 & E2 & H2).
        rewrite Ey in E2. injection E2 as <-. eauto.
    + intros y (g & Hg). eapply tset_out; [eassumption|lia].
  - lia.
Qed.

Lemma component_table_spec :
  n_grains s <= n_lanes s -> (forall c, active c <= n_lanes s) ->
  exists t, component_table s active above = Some t /\
    rep t (n_cells s) (n_grains s) rel_b.
Proof.
  intros Hl Ha. unfold component_table.
  destruct (init_lanes_some Hl) as (tl & f & E & Hf). rewrite E. cbn [obind].
  destruct (for_loop_inv _ (fun i st =>
      (exists f : nat -> nat -> nat, rep (fst st) (n_cells s) (n_lanes s) f) /\
      rep (snd st) (n_cells s) (n_grains s) (fun c b => if c <? i then rel_b c b else false))
    (fun cell st => for_loop (active cell) 0 (mark_lane s above cell) st) (n_cells s) 0
    (tl, repeat (repeat false (n_grains s)) (n_cells s))) as (st & E2 & _ & H2).
  - split; [eauto|]. cbn [snd]. apply (rep_ext _ _ _ _ (fun _ _ => false)); [|apply rep_repeat].
    intros; reflexivity.
  - intros cell st Hc (HL & HT).
    destruct (for_loop_inv _ (fun v st =>
        (exists f : nat -> nat -> nat, rep (fst st) (n_cells s) (n_lanes s) f) /\
        rep (snd st) (n_cells s) (n_grains s) (fun c b =>
          if c <? cell then rel_b c b
          else if c =? cell then existsb (fun v => above cell v b) (seq 0 v) else false))
      (mark_lane s above cell) (active cell) 0 st) as (st' & E3 & HL' & HT').
    + split; [assumption|]. refine (rep_ext _ _ _ _ _ _ _ HT). intros i j _ _.
      destruct (i <? cell); [reflexivity|]. destruct (i =? cell); reflexivity.
    + intros v y Hv ((g & Hg) & HY). unfold mark_lane.
      destruct (for_loop_inv _ (fun b0 q =>
          rep (fst q) (n_cells s) (n_grains s) (fun c b =>
            if c <? cell then rel_b c b
            else if c =? cell then existsb (fun v => above cell v b) (seq 0 v) || ((b <? b0) && above cell v b)
            else false))
        (fun b st => if above cell v b then t <- tset (fst st) cell b true ;; Some (t, S (snd st)) else Some st)
        (n_grains s) 0 (snd y, 0)) as (q & E4 & H4).
      * cbn [fst]. refine (rep_ext _ _ _ _ _ _ _ HY). intros i j _ _.
        destruct (i <? cell); [reflexivity|]. destruct (i =? cell); [|reflexivity].
        cbn. rewrite orb_false_r. reflexivity.
      * intros b z Hb Hz. destruct (above cell v b) eqn:Eab.
        -- destruct (rep_tset _ (fst z) _ _ _ cell b true Hz) as (z' & Ez & Hz'); [lia|lia|].
           rewrite Ez. cbn [obind]. eexists. split; [reflexivity|]. cbn [fst].
           refine (rep_ext _ _ _ _ _ _ _ Hz'). intros i j _ _. cbv beta.
           destruct (Nat.ltb_spec i cell) as [Hi|Hi].
           { destruct (Nat.eqb_spec i cell); [lia|]. reflexivity. }
           destruct (Nat.eqb_spec i cell) as [->|]; [|reflexivity]. cbn [andb].
           destruct (Nat.eqb_spec j b) as [->|Hjb].
           { rewrite Eab. rewrite (proj2 (Nat.ltb_lt b (S b))) by lia. cbn. rewrite orb_true_r. reflexivity. }
           f_equal. f_equal. destruct (Nat.ltb_spec j b), (Nat.ltb_spec j (S b)); lia || reflexivity.
        -- eexists. split; [reflexivity|]. refine (rep_ext _ _ _ _ _ _ _ Hz). intros i j _ _.
           destruct (i <? cell); [reflexivity|]. destruct (Nat.eqb_spec i cell) as [->|]; [|reflexivity].
           f_equal. destruct (Nat.eq_dec j b) as [->|Hjb].
           { rewrite Eab, !andb_false_r. reflexivity. }
           f_equal. destruct (Nat.ltb_spec j b), (Nat.ltb_spec j (S b)); lia || reflexivity.
      * rewrite E4. cbn [obind].
        destruct (rep_tset _ (fst y) _ _ g cell v (snd q) Hg) as (t1 & E5 & H5).
        { lia. } { specialize (Ha cell). lia. }
        rewrite E5. cbn [obind]. eexists. split; [reflexivity|]. cbn [fst snd].
        split; [eauto|]. refine (rep_ext _ _ _ _ _ _ _ H4). intros i j _ Hj. cbv beta.
        destruct (i <? cell); [reflexivity|]. destruct (i =? cell); [|reflexivity].
        rewrite seq_S, existsb_app. cbn [existsb]. rewrite orb_false_r.
        rewrite (proj2 (Nat.ltb_lt j _)) by (rewrite Nat.add_0_l; assumption). reflexivity.
    + exists st'. split; [exact E3|]. split; [exact HL'|]. refine (rep_ext _ _ _ _ _ _ _ HT').
      intros i j _ _. cbv beta.
      destruct (Nat.ltb_spec i cell), (Nat.ltb_spec i (S cell)); try lia; try reflexivity.
      * destruct (Nat.eqb_spec i cell) as [->|]; [|lia]. reflexivity.
      * destruct (Nat.eqb_spec i cell) as [->|]; [lia|]. reflexivity.
  - rewrite E2. cbn [obind]. exists (snd st). split; [reflexivity|].
    refine (rep_ext _ _ _ _ _ _ _ H2). intros i j Hi _. cbv beta.
    rewrite (proj2 (Nat.ltb_lt _ _)) by (rewrite Nat.add_0_l; assumption). reflexivity.
Qed.

(** ** Offsets *)

Definition prefix (f : nat -> nat) (n : nat) : nat := list_sum (map f (seq 0 n)).

Lemma prefix_S : forall f n, prefix f (S n) = prefix f n + f n.
Proof.
  intros f n. unfold prefix. rewrite seq_S, map_app, list_sum_app. cbn. lia.
Qed.

Lemma prefix_le : forall f a b, a <= b -> prefix f a <= prefix f b.
Proof. intros f a b H. induction H; [lia|]. rewrite prefix_S. lia. Qed.

Definition n_value (cell : nat) : nat := n_save s - n_grains s + length (rel cell).
Definition n_gradient (cell : nat) : nat :=
  if tensorial s || save_op_gradients s then n_value cell else offset s.

Definition mask_of (t : list (list bool)) (i : nat) : mask :=
  {| table := t;
     value_ptr := map (prefix (fun c => n_q s * n_value c)) (seq 0 (S i));
     gradient_ptr := map (prefix (fun c => n_q s * n_gradient c)) (seq 0 (S i));
     relevant_grains_vector := map uchar (concat (map rel (seq 0 i)));
     relevant_grains_ptr := map (prefix (fun c => length (rel c))) (seq 0 (S i)) |}.

Lemma last_map_seq : forall f i, last (map f (seq 0 (S i))) 0 = f i.
Proof. intros f i. rewrite seq_S, map_app. cbn [map]. rewrite last_last. reflexivity. Qed.

Lemma length_concat_prefix : forall i,
  length (concat (map rel (seq 0 i))) = prefix (fun c => length (rel c)) i.
Proof.
  induction i as [|i IH]; [reflexivity|].
  rewrite prefix_S, seq_S, map_app, concat_app, app_length, IH. cbn. rewrite app_nil_r. reflexivity.
Qed.

Lemma pointers_cell_spec : forall t cell,
  rep t (n_cells s) (n_grains s) rel_b -> cell < n_cells s ->
  pointers_cell s cell (mask_of t cell) = Some (mask_of t (S cell)).
Proof.
  intros t cell Ht Hc. unfold pointers_cell.
  destruct (for_loop_inv _ (fun j st =>
      st = (length (filter (rel_b cell) (seq 0 j)),
            relevant_grains_vector (mask_of t cell) ++ map uchar (filter (rel_b cell) (seq 0 j))))
    (fun j st => b <- tget (table (mask_of t cell)) cell j ;;
       Some (if b : bool then (S (fst st), snd st ++ [uchar j]) else st))
    (n_grains s) 0 (0, relevant_grains_vector (mask_of t cell))) as (st & E & Hst).
  - cbn [seq filter length map]. rewrite app_nil_r. reflexivity.
  - intros j x Hj ->. cbn [table mask_of].
    rewrite (rep_tget _ t _ _ _ cell j Ht) by lia. cbn [obind].
    eexists. split; [reflexivity|]. rewrite seq_S, filter_app. cbn [filter].
    rewrite Nat.add_0_l. destruct (rel_b cell j).
    + cbn [fst snd]. rewrite app_length, map_app. cbn [length map]. rewrite app_assoc.
      f_equal. lia.
    + rewrite app_nil_r. reflexivity.
  - rewrite E. cbn [obind]. rewrite Hst, Nat.add_0_l. cbn [fst snd].
    change (filter (rel_b cell) (seq 0 (n_grains s))) with (rel cell).
    unfold mask_of. cbn [table value_ptr gradient_ptr relevant_grains_vector relevant_grains_ptr].
    rewrite !last_map_seq. f_equal. f_equal.
    + rewrite (seq_S (S cell)), map_app. cbn [map]. rewrite Nat.add_0_l, prefix_S. reflexivity.
    + rewrite (seq_S (S cell)), map_app. cbn [map]. rewrite Nat.add_0_l, prefix_S. reflexivity.
    + rewrite seq_S, map_app, concat_app, map_app. cbn [map concat]. rewrite Nat.add_0_l, app_nil_r. reflexivity.
    + rewrite (seq_S (S cell)), map_app. cbn [map]. rewrite Nat.add_0_l, prefix_S.
      rewrite app_length, !map_length, length_concat_prefix. reflexivity.
Qed.

Lemma set_component_mask_spec :
  n_grains s <= n_lanes s -> (forall c, active c <= n_lanes s) ->
  exists t, rep t (n_cells s) (n_grains s) rel_b /\
    set_component_mask s active above = Some (mask_of t (n_cells s)).
Proof.
  intros Hl Ha. destruct (component_table_spec Hl Ha) as (t & E & Ht). exists t.
  split; [assumption|]. unfold set_component_mask. rewrite E. cbn [obind].
  destruct (for_loop_inv _ (fun i m => m = mask_of t i) (pointers_cell s) (n_cells s) 0
    {| table := t; value_ptr := [0]; gradient_ptr := [0];
       relevant_grains_vector := []; relevant_grains_ptr := [0] |}) as (m & Em & Hm).
  - reflexivity.
  - intros i x Hi ->. exists (mask_of t (S i)). split; [|reflexivity].
    apply pointers_cell_spec; [assumption|lia].
  - rewrite Em, Hm. reflexivity.
Qed.

Lemma mask_of_relevant : forall t n cell, cell < n ->
  get_relevant_grains (mask_of t n) cell = Some (map uchar (rel cell)).
Proof.
  intros t n cell Hc. unfold get_relevant_grains, mask_of.
  cbn [relevant_grains_ptr relevant_grains_vector].
  rewrite !vget_map, !vget_seq by lia. cbn [option_map obind].
  rewrite !Nat.add_0_l, prefix_S.
  replace (prefix _ cell + length (rel cell) - prefix _ cell) with (length (rel cell)) by lia.
  f_equal. rewrite skipn_map, firstn_map. f_equal.
  replace n with (cell + (1 + (n - S cell))) by lia.
  rewrite !seq_app, !map_app, !concat_app.
  rewrite <- length_concat_prefix, skipn_app, skipn_all, Nat.sub_diag. cbn [skipn app].
  cbn [seq map concat]. rewrite app_nil_r, Nat.add_0_l, firstn_app, firstn_all, Nat.sub_diag.
  cbn [firstn]. apply app_nil_r.
Qed.

(** ** Filling *)

Section Fill.

Variable V : Type.
Variable zero : V.
Variable vals : nat -> nat -> nat -> V.
Variable t : list (list bool).
Hypothesis Ht : rep t (n_cells s) (n_grains s) rel_b.

Definition kept_b (cell c : nat) : bool := (c <? offset s) || rel_b cell (c - offset s).

Lemma kept_spec : forall cell c, cell < n_cells s -> c < n_components s ->
  kept s t cell c = Some (kept_b cell c).
Proof.
  intros cell c Hc Hn. unfold kept, kept_b, n_components in *.
  destruct (Nat.ltb_spec c (offset s)) as [Ho|Ho]; [reflexivity|]. cbn [orb].
  destruct (Nat.leb_spec (offset s + n_grains s) c); [lia|].
  apply (rep_tget _ t _ _ _ cell (c - offset s) Ht); lia.
Qed.

Lemma masked_spec : forall cell q c, cell < n_cells s -> c < n_components s ->
  masked V zero vals s t cell q c = Some (if kept_b cell c then vals cell q c else zero).
Proof.
  intros cell q c Hc Hn. unfold masked, kept_b, n_components in *.
  destruct (Nat.leb_spec (offset s) c) as [Ho|Ho].
  - rewrite (rep_tget _ t _ _ _ cell (c - offset s) Ht) by lia. cbn [obind].
    destruct (Nat.ltb_spec c (offset s)); [lia|]. reflexivity.
  - destruct (Nat.ltb_spec c (offset s)); [|lia]. reflexivity.
Qed.

Lemma vset_mid : forall A (a b : list A) y x, vset (a ++ y :: b) (length a) x = Some (a ++ x :: b).
Proof. induction a as [|z a IH]; intros b y x; cbn; [reflexivity|]. rewrite IH. reflexivity. Qed.

Definition comps (cell n_c : nat) : list nat := filter (kept_b cell) (seq 0 n_c).

Lemma copy_q_spec : forall n_c cell q done rest, cell < n_cells s -> n_c <= n_components s ->
  length (comps cell n_c) <= length rest ->
  copy_q V zero vals s t n_c cell q (done ++ rest, length done) =
  Some (done ++ map (vals cell q) (comps cell n_c) ++ skipn (length (comps cell n_c)) rest,
        length done + length (comps cell n_c)).
Proof.
  intros n_c cell q done rest Hc Hn Hl. unfold copy_q.
  match goal with |- for_loop _ _ ?b _ = _ => set (body := b) end.
  destruct (for_loop_inv _ (fun i st =>
     st = (done ++ map (vals cell q) (comps cell i) ++ skipn (length (comps cell i)) rest,
           length done + length (comps cell i))) body n_c 0 (done ++ rest, length done))
    as (st & E & Hst).
  - cbn. rewrite Nat.add_0_r. reflexivity.
  - intros i x Hi ->. unfold body. rewrite kept_spec, masked_spec by lia. cbn [obind fst snd].
    unfold comps. rewrite seq_S, filter_app. cbn [filter]. rewrite Nat.add_0_l.
    fold (comps cell i).
    destruct (kept_b cell i) eqn:Ek.
    + assert (Hlt : length (comps cell i) < length rest).
      { enough (S (length (comps cell i)) <= length (comps cell n_c)) by lia.
        unfold comps. replace n_c with (i + (1 + (n_c - S i))) by lia.
        rewrite !seq_app, !filter_app, !app_length. cbn [seq filter Nat.add]. rewrite Ek. cbn [length]. lia. }
      destruct (skipn (length (comps cell i)) rest) as [|y r] eqn:Es.
      { pose proof (skipn_length (length (comps cell i)) rest) as X. rewrite Es in X. cbn in X. lia. }
      rewrite app_assoc.
      replace (length done + length (comps cell i))
        with (length (done ++ map (vals cell q) (comps cell i))) by (rewrite app_length, map_length; reflexivity).
      rewrite vset_mid. cbn [obind]. eexists. split; [reflexivity|].
      rewrite !app_length, !map_app, !map_length, <- !app_assoc. cbn [app map length].
      f_equal; [|lia]. do 3 f_equal.
      rewrite Nat.add_comm. cbn [Nat.add].
      assert (X : forall k (l : list V) y r, skipn k l = y :: r -> skipn (S k) l = r).
      { intros k. induction k as [|k IHk]; intros l y0 r0 X0; destruct l as [|z l]; cbn in *; try discriminate.
        - injection X0 as _ ->. reflexivity.
        - apply (IHk l y0). assumption. }
      symmetry. eapply X. eassumption.
    + eexists. split; [reflexivity|]. rewrite app_nil_r. reflexivity.
  - rewrite E, Hst. reflexivity.
Qed.

(** All values kept for one cell, in the order of the storage. *)
Definition block (n_c cell : nat) : list V :=
  concat (map (fun q => map (vals cell q) (comps cell n_c)) (seq 0 (n_q s))).

Lemma length_uniform : forall A B (f : nat -> list B) (l : list A) (g : A -> nat) k,
  (forall x, length (f x) = k) -> length (concat (map (fun x => f (g x)) l)) = length l * k.
Proof.
  intros A B f l g k H. induction l as [|x l IH]; cbn; [reflexivity|].
  rewrite app_length, H, IH. reflexivity.
Qed.

Lemma block_length : forall n_c cell, length (block n_c cell) = n_q s * length (comps cell n_c).
Proof.
  intros n_c cell. unfold block.
  rewrite (length_uniform _ _ (fun q => map (vals cell q) (comps cell n_c)) _ (fun q => q) (length (comps cell n_c))).
  - rewrite seq_length. reflexivity.
  - intro. apply map_length.
Qed.

Lemma fill_cell_spec : forall n_c cell ptr done rest, cell < n_cells s ->
  n_c <= n_components s -> n_save s = n_components s ->
  vget ptr cell = Some (length done) ->
  n_q s * length (comps cell n_c) <= length rest ->
  fill_cell V zero vals s t ptr n_c cell (done ++ rest) =
  Some ((done ++ block n_c cell) ++ skipn (length (block n_c cell)) rest).
Proof.
  intros n_c cell ptr done rest Hc Hn Hs Hp Hl. unfold fill_cell.
  match goal with |- obind (for_loop _ _ ?b _) _ = _ => set (body0 := b) end.
  destruct (for_loop_inv _ (fun _ _ => True) body0 (n_save s) 0 tt) as ([] & E & _); [exact I| |].
  { intros c x Hc2 _. unfold body0.
    destruct (for_loop_inv _ (fun _ _ => True)
       (fun q _ => _ <- masked V zero vals s t cell q c ;; Some tt) (n_q s) 0 tt) as ([] & E & _); [exact I| |eauto].
    intros q y _ _. rewrite masked_spec by lia. cbn [obind]. eauto. }
  rewrite E. cbn [obind]. rewrite Hp. cbn [obind].
  destruct (for_loop_inv _ (fun i st =>
     let b := concat (map (fun q => map (vals cell q) (comps cell n_c)) (seq 0 i)) in
     st = (done ++ b ++ skipn (length b) rest, length done + length b))
    (copy_q V zero vals s t n_c cell) (n_q s) 0 (done ++ rest, length done)) as (st & E2 & Hst).
  - cbn. rewrite Nat.add_0_r. reflexivity.
  - intros q x Hq ->. set (b := concat (map (fun q => map (vals cell q) (comps cell n_c)) (seq 0 q))).
    assert (Hb : length b = q * length (comps cell n_c)).
    { unfold b. rewrite (length_uniform _ _ (fun q => map (vals cell q) (comps cell n_c)) _ (fun q => q) (length (comps cell n_c))).
      - rewrite seq_length. reflexivity.
      - intro. apply map_length. }
    rewrite app_assoc, <- app_length.
    assert (Hr : length (comps cell n_c) <= length (skipn (length b) rest)).
    { rewrite skipn_length, Hb.
      assert (S q * length (comps cell n_c) <= n_q s * length (comps cell n_c)) by (apply Nat.mul_le_mono_r; lia).
      lia. }
    rewrite (copy_q_spec n_c cell q (done ++ b) _ Hc Hn Hr).
    eexists. split; [reflexivity|]. cbv zeta.
    rewrite seq_S, map_app, concat_app. cbn [map concat]. rewrite app_nil_r, Nat.add_0_l. fold b.
    rewrite !app_length, map_length, <- !app_assoc, Nat.add_assoc. f_equal. do 3 f_equal.
    clear. revert rest. generalize (length (comps cell n_c)). generalize (length b).
    intros u. induction u as [|u IH]; intros v rest; [reflexivity|].
    destruct rest; cbn; [destruct v; reflexivity|]. apply IH.
  - rewrite E2, Hst. cbn [obind fst]. rewrite Nat.add_0_l. fold (block n_c cell).
    rewrite <- app_assoc. reflexivity.
Qed.

Lemma fill_storage_spec : forall n_c arr,
  n_c <= n_components s -> n_save s = n_components s ->
  length arr = prefix (fun c => n_q s * length (comps c n_c)) (n_cells s) ->
  fill_storage V zero vals s t
    (map (prefix (fun c => n_q s * length (comps c n_c))) (seq 0 (S (n_cells s)))) n_c arr =
  Some (concat (map (block n_c) (seq 0 (n_cells s)))).
Proof.
  intros n_c arr Hn Hs Hl. unfold fill_storage.
  assert (HL : forall i, length (concat (map (block n_c) (seq 0 i))) =
                prefix (fun c => n_q s * length (comps c n_c)) i).
  { induction i as [|i IH]; [reflexivity|].
    rewrite prefix_S, seq_S, map_app, concat_app, app_length, IH. cbn [map concat].
    rewrite app_nil_r, block_length, Nat.add_0_l. reflexivity. }
  match goal with |- for_loop _ _ ?b _ = _ => set (body := b) end.
  destruct (for_loop_inv _ (fun i a =>
     let b := concat (map (block n_c) (seq 0 i)) in a = b ++ skipn (length b) arr)
     body (n_cells s) 0 arr) as (a & E & Ha).
  - reflexivity.
  - intros cell x Hc ->. unfold body. cbv zeta.
    set (b := concat (map (block n_c) (seq 0 cell))).
    rewrite (fill_cell_spec n_c cell _ b (skipn (length b) arr)).
    + eexists. split; [reflexivity|].
      rewrite seq_S, map_app, concat_app. cbn [map concat]. rewrite app_nil_r, Nat.add_0_l. fold b.
      rewrite app_length. f_equal.
      clear. revert arr. generalize (length (block n_c cell)). generalize (length b).
      intros u. induction u as [|u IH]; intros v rest; [reflexivity|].
      destruct rest; cbn; [destruct v; reflexivity|]. apply IH.
    + lia.
    + assumption.
    + assumption.
    + rewrite vget_map, vget_seq by lia. cbn [option_map]. rewrite Nat.add_0_l.
      unfold b. rewrite HL. reflexivity.
    + unfold b. rewrite skipn_length, HL, Hl.
      pose proof (prefix_le (fun c => n_q s * length (comps c n_c)) (S cell) (n_cells s) ltac:(lia)) as P.
      rewrite prefix_S in P. lia.
  - rewrite E, Ha. cbv zeta. rewrite Nat.add_0_l.
    rewrite HL, <- Hl, skipn_all, app_nil_r. reflexivity.
Qed.

Lemma vget_concat_prefix : forall B (f : nat -> list B) g n c j,
  (forall i, length (f i) = g i) -> c < n -> j < g c ->
  vget (concat (map f (seq 0 n))) (prefix g c + j) = vget (f c) j.
Proof.
  intros B f g n c j Hg Hc Hj.
  assert (HL : forall i, length (concat (map f (seq 0 i))) = prefix g i).
  { induction i as [|i IH]; [reflexivity|].
    rewrite prefix_S, seq_S, map_app, concat_app, app_length, IH. cbn [map concat].
    rewrite app_nil_r, Hg, Nat.add_0_l. reflexivity. }
  replace n with (c + (1 + (n - S c))) by lia.
  rewrite !seq_app, !map_app, !concat_app.
  rewrite vget_app, HL. destruct (Nat.ltb_spec (prefix g c + j) (prefix g c)); [lia|].
  replace (prefix g c + j - prefix g c) with j by lia.
  cbn [seq map concat]. rewrite app_nil_r, Nat.add_0_l, vget_app, Hg.
  destruct (Nat.ltb_spec j (g c)); [reflexivity|lia].
Qed.

Lemma prefix_const : forall k n, prefix (fun _ => k) n = n * k.
Proof. intros k n. induction n as [|n IH]; [reflexivity|]. rewrite prefix_S, IH. cbn. lia. Qed.

Lemma storage_get : forall n_c cell q p, cell < n_cells s -> q < n_q s ->
  p < length (comps cell n_c) ->
  vget (concat (map (block n_c) (seq 0 (n_cells s))))
    (prefix (fun c => n_q s * length (comps c n_c)) cell + q * length (comps cell n_c) + p) =
  option_map (vals cell q) (vget (comps cell n_c) p).
Proof.
  intros n_c cell q p Hc Hq Hp. rewrite <- Nat.add_assoc.
  rewrite (vget_concat_prefix _ (block n_c) (fun c => n_q s * length (comps c n_c))).
  - unfold block. rewrite <- (prefix_const (length (comps cell n_c)) q).
    rewrite (vget_concat_prefix _ (fun q => map (vals cell q) (comps cell n_c)) (fun _ => length (comps cell n_c))).
    + apply vget_map.
    + intro. apply map_length.
    + assumption.
    + assumption.
  - intro. apply block_length.
  - assumption.
  - assert (S q * length (comps cell n_c) <= n_q s * length (comps cell n_c)) by (apply Nat.mul_le_mono_r; lia).
    lia.
Qed.

End Fill.

(** The components kept on a cell. *)
Lemma filter_all : forall A (f : A -> bool) l, (forall x, In x l -> f x = true) -> filter f l = l.
Proof.
  intros A f l. induction l as [|x l IH]; intro H; [reflexivity|]. cbn.
  rewrite (H x) by (left; reflexivity). f_equal. apply IH. intros y Hy. apply H. right. assumption.
Qed.

Lemma comps_offset : forall cell, comps cell (offset s) = seq 0 (offset s).
Proof.
  intro cell. unfold comps. apply filter_all. intros x Hx. apply in_seq in Hx.
  unfold kept_b. destruct (Nat.ltb_spec x (offset s)); [reflexivity|lia].
Qed.

Lemma comps_all : forall cell,
  comps cell (n_components s) = seq 0 (offset s) ++ map (Nat.add (offset s)) (rel cell).
Proof.
  intro cell. unfold comps, n_components. rewrite seq_app, filter_app. f_equal.
  - apply comps_offset.
  - unfold rel. rewrite Nat.add_0_l.
    assert (G : forall n a, filter (kept_b cell) (seq (offset s + a) n) =
                          map (Nat.add (offset s)) (filter (rel_b cell) (seq a n))).
    { induction n as [|n IH]; intro a; [reflexivity|]. cbn [seq filter].
      replace (S (offset s + a)) with (offset s + S a) by lia. rewrite IH.
      replace (kept_b cell (offset s + a)) with (rel_b cell a).
      - destruct (rel_b cell a); reflexivity.
      - unfold kept_b. destruct (Nat.ltb_spec (offset s + a) (offset s)); [lia|].
        replace (offset s + a - offset s) with a by lia. reflexivity. }
    specialize (G (n_grains s) 0). rewrite Nat.add_0_r in G. exact G.
Qed.

Lemma rel_lt : forall cell g, In g (rel cell) -> g < n_grains s.
Proof. intros cell g H. apply filter_In in H. destruct H as (H & _). apply in_seq in H. lia. Qed.

Lemma rel_uchar : n_grains s <= 256 -> forall cell, map uchar (rel cell) = rel cell.
Proof.
  intros Hn cell. rewrite <- (map_id (rel cell)) at 2. apply map_ext_in. intros g Hg.
  apply rel_lt in Hg. unfold uchar. apply Nat.mod_small. lia.
Qed.

Lemma rel_sorted : forall cell, StronglySorted lt (rel cell).
Proof.
  intro cell. unfold rel. generalize (n_grains s), 0. intro n.
  induction n as [|n IH]; intro a; cbn; [constructor|].
  destruct (rel_b cell a); [|apply IH]. constructor; [apply IH|].
  apply Forall_forall. intros x Hx. apply filter_In in Hx. destruct Hx as (Hx & _).
  apply in_seq in Hx. lia.
Qed.

Lemma rel_in : forall cell g,
  In g (rel cell) <-> (g < n_grains s /\ exists v, v < active cell /\ above cell v g = true).
Proof.
  intros cell g. unfold rel. rewrite filter_In, in_seq. unfold rel_b. rewrite existsb_exists.
  split.
  - intros (H & v & Hv & E). apply in_seq in Hv. split; [lia|]. exists v. split; [lia|assumption].
  - intros (H & v & Hv & E). split; [lia|]. exists v. split; [apply in_seq; lia|assumption].
Qed.

End Mask.
