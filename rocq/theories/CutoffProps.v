(** C36: the compact storage of the values at the quadrature points has exactly
    one slot per kept component of every cell and quadrature point, and reading
    at the offset of a cell gives the values of its relevant grains in order. *)
From Coq Require Import List Arith Bool Lia Sorted.
From Verif Require Import Util CutoffModel CutoffProofs.
Import ListNotations.

(** The relevant grains of a cell batch: in ascending order exactly those whose
    values exceed the tolerance on one of the cells of the batch. *)
Definition relevant_on (s : setup) (active : nat -> nat) (above : nat -> nat -> nat -> bool)
  (cell : nat) (l : list nat) : Prop :=
  StronglySorted lt l /\
  forall g, In g l <-> (g < n_grains s /\ exists v, v < active cell /\ above cell v g = true).

(** The relevant grains handed out are right and the tables are built without
    leaving the allocated memory as long as there are not more order parameters
    than lanes. *)
Theorem C36_relevant_grains_partial : forall s active above,
  n_grains s <= n_lanes s -> n_grains s <= 256 -> (forall c, active c <= n_lanes s) ->
  exists m, set_component_mask s active above = Some m /\
    forall cell, cell < n_cells s ->
    exists l, get_relevant_grains m cell = Some l /\ relevant_on s active above cell l.
Proof.
  intros s active above Hl Hn Ha.
  destruct (set_component_mask_spec s active above Hl Ha) as (t & Ht & E).
  eexists. split; [exact E|]. intros cell Hc. exists (rel s active above cell).
  rewrite mask_of_relevant by assumption. rewrite rel_uchar by assumption.
  split; [reflexivity|]. split; [apply rel_sorted|apply rel_in].
Qed.
Print Assumptions C36_relevant_grains_partial.

(** With more order parameters than lanes the first table is written outside of
    its rows. *)
Theorem C36_more_grains_than_lanes_refuted : forall s active above,
  n_lanes s < n_grains s -> 0 < n_cells s -> set_component_mask s active above = None.
Proof.
  intros s active above H Hc. unfold set_component_mask, component_table.
  rewrite init_lanes_none by assumption. reflexivity.
Qed.
Print Assumptions C36_more_grains_than_lanes_refuted.

Lemma prefix_ext : forall f g n, (forall c, f c = g c) -> prefix f n = prefix g n.
Proof. intros f g n H. unfold prefix. f_equal. apply map_ext. assumption. Qed.

Lemma vget_app_l : forall A (a b : list A) i, i < length a -> vget (a ++ b) i = vget a i.
Proof. intros A a b i H. rewrite vget_app. destruct (Nat.ltb_spec i (length a)); [reflexivity|lia]. Qed.

Lemma vget_app_r : forall A (a b : list A) i, vget (a ++ b) (length a + i) = vget b i.
Proof.
  intros A a b i. rewrite vget_app. destruct (Nat.ltb_spec (length a + i) (length a)); [lia|].
  f_equal. lia.
Qed.

(** What a storage with [with_ops] telling whether the order parameters are kept
    has to look like: consecutive pieces per cell, in it one piece per quadrature
    point, in it first the components in front of the order parameters and then
    the relevant order parameters. *)
Definition storage_ok {V} (s : setup) (active : nat -> nat) (above : nat -> nat -> nat -> bool)
  (m : mask) (ptr : list nat) (with_ops : bool) (vals : nat -> nat -> nat -> V)
  (arr : list V) : Prop :=
  vget ptr 0 = Some 0 /\ vget ptr (n_cells s) = Some (length arr) /\
  forall cell, cell < n_cells s ->
  exists l base, get_relevant_grains m cell = Some l /\ relevant_on s active above cell l /\
    let k := offset s + (if with_ops then length l else 0) in
    vget ptr cell = Some base /\ vget ptr (S cell) = Some (base + n_q s * k) /\
    forall q, q < n_q s ->
      (forall p, p < offset s -> vget arr (base + q * k + p) = Some (vals cell q p)) /\
      (with_ops = true -> forall i g, vget l i = Some g ->
         vget arr (base + q * k + (offset s + i)) = Some (vals cell q (offset s + g))).

Lemma storage_general : forall V (zero : V) vals s active above m ptr (with_ops : bool) arr0,
  n_grains s <= n_lanes s -> n_grains s <= 256 -> (forall c, active c <= n_lanes s) ->
  n_save s = n_components s ->
  set_component_mask s active above = Some m ->
  let n_c := if with_ops then n_components s else offset s in
  ptr = map (prefix (fun c => n_q s * (offset s + (if with_ops then length (rel s active above c) else 0))))
          (seq 0 (S (n_cells s))) ->
  length arr0 = last ptr 0 ->
  exists arr, fill_storage V zero vals s (table m) ptr n_c arr0 = Some arr /\
    length arr = length arr0 /\
    storage_ok s active above m ptr with_ops vals arr.
Proof.
  intros V zero vals s active above m ptr with_ops arr0 Hl Hn Ha Hs E n_c Hp HL.
  destruct (set_component_mask_spec s active above Hl Ha) as (t & Ht & E').
  rewrite E in E'. injection E' as ->. cbn [table mask_of].
  assert (Hk : forall c, length (comps s active above c n_c) =
                offset s + (if with_ops then length (rel s active above c) else 0)).
  { intro c. unfold n_c. destruct with_ops.
    - rewrite comps_all, app_length, seq_length, map_length. reflexivity.
    - rewrite comps_offset, seq_length. lia. }
  assert (Hp2 : ptr = map (prefix (fun c => n_q s * length (comps s active above c n_c))) (seq 0 (S (n_cells s)))).
  { rewrite Hp. apply map_ext. intro i. apply prefix_ext. intro c. rewrite Hk. reflexivity. }
  assert (Hnc : n_c <= n_components s).
  { unfold n_c, n_components. destruct with_ops; lia. }
  assert (Har : length arr0 = prefix (fun c => n_q s * length (comps s active above c n_c)) (n_cells s)).
  { rewrite HL, Hp2. apply last_map_seq. }
  eexists. split; [rewrite Hp2; apply (fill_storage_spec s active above V zero vals t Ht n_c arr0 Hnc Hs Har)|].
  assert (HL2 : forall i, length (concat (map (block s active above V vals n_c) (seq 0 i))) =
                prefix (fun c => n_q s * length (comps s active above c n_c)) i).
  { induction i as [|i IH]; [reflexivity|].
    rewrite prefix_S, seq_S, map_app, concat_app, app_length, IH. cbn [map concat].
    rewrite app_nil_r, block_length, Nat.add_0_l. reflexivity. }
  split; [rewrite HL2, Har; reflexivity|].
  split; [rewrite Hp; reflexivity|].
  split.
  { rewrite HL2, Hp2, vget_map, vget_seq by lia. cbn [option_map]. rewrite Nat.add_0_l. reflexivity. }
  intros cell Hc. exists (rel s active above cell). eexists.
  rewrite mask_of_relevant by assumption. rewrite rel_uchar by assumption.
  split; [reflexivity|]. split; [split; [apply rel_sorted|apply rel_in]|].
  cbv zeta. rewrite <- Hk.
  split; [rewrite Hp2, vget_map, vget_seq by lia; reflexivity|].
  split.
  { rewrite Hp2, vget_map, vget_seq by lia. cbn [option_map]. rewrite Nat.add_0_l, prefix_S. reflexivity. }
  intros q Hq. rewrite Nat.add_0_l. split.
  - intros p Hlt. rewrite storage_get; [|assumption|assumption|rewrite Hk; lia].
    unfold n_c. destruct with_ops.
    + rewrite comps_all, vget_app_l by (rewrite seq_length; assumption).
      rewrite vget_seq by assumption. reflexivity.
    + rewrite comps_offset, vget_seq by assumption. reflexivity.
  - intros Hw i g Hg. pose proof (vget_lt _ _ _ _ Hg) as Hi.
    rewrite storage_get; [|assumption|assumption|rewrite Hk, Hw; lia].
    unfold n_c. rewrite Hw, comps_all.
    replace (offset s + i) with (length (seq 0 (offset s)) + i) by (rewrite seq_length; reflexivity).
    rewrite vget_app_r, vget_map, Hg. reflexivity.
Qed.

(** The compact storage of the values. *)
Theorem C36_compact_values_partial : forall V (zero : V) vals s active above m arr0,
  n_grains s <= n_lanes s -> n_grains s <= 256 -> (forall c, active c <= n_lanes s) ->
  n_save s = n_components s ->
  set_component_mask s active above = Some m ->
  length arr0 = last (value_ptr m) 0 ->
  exists arr, fill_values V zero vals s m arr0 = Some arr /\ length arr = length arr0 /\
    storage_ok s active above m (value_ptr m) true vals arr.
Proof.
  intros V zero vals s active above m arr0 Hl Hn Ha Hs E HL. unfold fill_values. rewrite Hs.
  apply (storage_general V zero vals s active above m (value_ptr m) true arr0); try assumption.
  destruct (set_component_mask_spec s active above Hl Ha) as (t & Ht & E').
  rewrite E in E'. injection E' as ->. cbn [value_ptr mask_of].
  apply map_ext. intro i. apply prefix_ext. intro c. unfold n_value. rewrite Hs. unfold n_components.
  f_equal. lia.
Qed.
Print Assumptions C36_compact_values_partial.

(** The compact storage of the gradients; the order parameters take part if the
    mobility is tensorial or their gradients are asked for. *)
Theorem C36_compact_gradients_partial : forall V (zero : V) vals s active above m arr0,
  n_grains s <= n_lanes s -> n_grains s <= 256 -> (forall c, active c <= n_lanes s) ->
  n_save s = n_components s ->
  set_component_mask s active above = Some m ->
  length arr0 = last (gradient_ptr m) 0 ->
  exists arr, fill_gradients V zero vals s m arr0 = Some arr /\ length arr = length arr0 /\
    storage_ok s active above m (gradient_ptr m) (tensorial s || save_op_gradients s) vals arr.
Proof.
  intros V zero vals s active above m arr0 Hl Hn Ha Hs E HL. unfold fill_gradients, n_save_gradient.
  rewrite Hs.
  apply (storage_general V zero vals s active above m (gradient_ptr m) (tensorial s || save_op_gradients s) arr0);
    try assumption.
  destruct (set_component_mask_spec s active above Hl Ha) as (t & Ht & E').
  rewrite E in E'. injection E' as ->. cbn [gradient_ptr mask_of].
  apply map_ext. intro i. apply prefix_ext. intro c. unfold n_gradient, n_value. rewrite Hs.
  unfold n_components. destruct (tensorial s || save_op_gradients s); f_equal; lia.
Qed.
Print Assumptions C36_compact_gradients_partial.

(** If further blocks are stored behind the order parameters, as for the coupled
    operators with advection, the table of the components is read outside of its
    rows. *)
Theorem C36_extra_blocks_refuted : forall V (zero : V) vals s active above m arr0,
  n_grains s <= n_lanes s -> (forall c, active c <= n_lanes s) ->
  save_all_blocks s = true -> n_components s < n_blocks s -> 0 < n_cells s -> 0 < n_q s ->
  set_component_mask s active above = Some m ->
  fill_values V zero vals s m arr0 = None.
Proof.
  intros V zero vals s active above m arr0 Hl Ha Hs Hb Hc Hq E.
  destruct (set_component_mask_spec s active above Hl Ha) as (t & Ht & E').
  rewrite E in E'. injection E' as ->. unfold fill_values, fill_storage. cbn [table mask_of].
  apply (for_loop_none _ (fun _ => True)) with (k := 0); [exact I|auto| |lia].
  intros x _. unfold fill_cell.
  match goal with |- obind ?a _ = _ => assert (F : a = None) end.
  { apply (for_loop_none _ (fun _ => True)) with (k := n_components s); [exact I|auto| |].
    - intros y _. apply (for_loop_none _ (fun _ => True)) with (k := 0); [exact I|auto| |lia].
      intros z _. unfold masked, n_components.
      destruct (Nat.leb_spec (offset s) (offset s + n_grains s)); [|lia].
      rewrite (rep_tget_out _ t _ _ _ 0 (offset s + n_grains s - offset s) Ht) by lia. reflexivity.
    - unfold n_save. rewrite Hs. lia. }
  rewrite F. reflexivity.
Qed.
Print Assumptions C36_extra_blocks_refuted.

(** The operators walk correctly through the stored values. *)
Theorem C36_values_read_back_partial : forall V (zero : V) vals s active above m arr0 arr,
  n_grains s <= n_lanes s -> n_grains s <= 256 -> (forall c, active c <= n_lanes s) ->
  n_save s = n_components s -> offset s = 2 ->
  set_component_mask s active above = Some m ->
  length arr0 = last (value_ptr m) 0 ->
  fill_values V zero vals s m arr0 = Some arr ->
  forall cell q l, cell < n_cells s -> q < n_q s -> get_relevant_grains m cell = Some l ->
    read_value V m arr (length l) cell q 0 = Some (vals cell q 0) /\
    read_value V m arr (length l) cell q 1 = Some (vals cell q 1) /\
    forall i g, vget l i = Some g ->
      read_value V m arr (length l) cell q (2 + i) = Some (vals cell q (2 + g)).
Proof.
  intros V zero vals s active above m arr0 arr Hl Hn Ha Hs Ho E HL F cell q l Hc Hq Hg.
  destruct (C36_compact_values_partial V zero vals s active above m arr0 Hl Hn Ha Hs E HL)
    as (arr' & F' & _ & _ & _ & K).
  rewrite F in F'. injection F' as <-.
  destruct (K cell Hc) as (l' & base & Hg' & _ & Hb & _ & R).
  rewrite Hg in Hg'. injection Hg' as <-. cbv zeta in *. rewrite Ho in R.
  destruct (R q Hq) as (R1 & R2). unfold read_value. rewrite Hb. cbn [obind].
  split; [apply R1; lia|]. split; [apply R1; lia|].
  intros i g Hi. apply R2; [reflexivity|assumption].
Qed.
Print Assumptions C36_values_read_back_partial.

(** The same for the gradients if the order parameters are stored only for the
    tensorial mobility. *)
Theorem C36_gradients_read_back_partial : forall V (zero : V) vals s active above m arr0 arr,
  n_grains s <= n_lanes s -> n_grains s <= 256 -> (forall c, active c <= n_lanes s) ->
  n_save s = n_components s -> offset s = 2 ->
  (save_op_gradients s = true -> tensorial s = true) ->
  set_component_mask s active above = Some m ->
  length arr0 = last (gradient_ptr m) 0 ->
  fill_gradients V zero vals s m arr0 = Some arr ->
  forall cell q l, cell < n_cells s -> q < n_q s -> get_relevant_grains m cell = Some l ->
    read_gradient V s m arr (length l) cell q 0 = Some (vals cell q 0) /\
    read_gradient V s m arr (length l) cell q 1 = Some (vals cell q 1) /\
    (tensorial s = true -> forall i g, vget l i = Some g ->
       read_gradient V s m arr (length l) cell q (2 + i) = Some (vals cell q (2 + g))).
Proof.
  intros V zero vals s active above m arr0 arr Hl Hn Ha Hs Ho Hsg E HL F cell q l Hc Hq Hg.
  destruct (C36_compact_gradients_partial V zero vals s active above m arr0 Hl Hn Ha Hs E HL)
    as (arr' & F' & _ & _ & _ & K).
  rewrite F in F'. injection F' as <-.
  assert (Hw : tensorial s || save_op_gradients s = tensorial s).
  { destruct (tensorial s); [reflexivity|]. destruct (save_op_gradients s); [|reflexivity].
    discriminate Hsg. reflexivity. }
  destruct (K cell Hc) as (l' & base & Hg' & _ & Hb & _ & R).
  rewrite Hg in Hg'. injection Hg' as <-. cbv zeta in *. rewrite Ho, Hw in R.
  destruct (R q Hq) as (R1 & R2). unfold read_gradient. rewrite Hb. cbn [obind].
  split; [apply R1; lia|]. split; [apply R1; lia|].
  intros Ht i g Hi. apply R2; assumption.
Qed.
Print Assumptions C36_gradients_read_back_partial.

(** With a scalar mobility and advection the gradients of the order parameters
    are stored but not skipped by the reader: at the second quadrature point the
    first order parameter of the first point is taken for the concentration. *)
Theorem C36_gradient_stride_refuted : forall V (zero : V) vals s active above m arr0 arr,
  n_grains s <= n_lanes s -> n_grains s <= 256 -> (forall c, active c <= n_lanes s) ->
  n_save s = n_components s -> offset s = 2 ->
  save_op_gradients s = true -> tensorial s = false ->
  set_component_mask s active above = Some m ->
  length arr0 = last (gradient_ptr m) 0 ->
  fill_gradients V zero vals s m arr0 = Some arr ->
  forall cell l g, cell < n_cells s -> 1 < n_q s ->
    get_relevant_grains m cell = Some l -> vget l 0 = Some g ->
    read_gradient V s m arr (length l) cell 1 0 = Some (vals cell 0 (2 + g)).
Proof.
  intros V zero vals s active above m arr0 arr Hl Hn Ha Hs Ho Hsg Hte E HL F cell l g Hc Hq Hg H0.
  destruct (C36_compact_gradients_partial V zero vals s active above m arr0 Hl Hn Ha Hs E HL)
    as (arr' & F' & _ & _ & _ & K).
  rewrite F in F'. injection F' as <-.
  destruct (K cell Hc) as (l' & base & Hg' & _ & Hb & _ & R).
  rewrite Hg in Hg'. injection Hg' as <-. cbv zeta in *. rewrite Ho, Hsg, Hte in R. cbn [orb] in R.
  destruct (R 0) as (_ & R2); [lia|]. specialize (R2 eq_refl 0 g H0).
  unfold read_gradient. rewrite Hb, Hte. cbn [obind]. rewrite <- R2. f_equal. lia.
Qed.
Print Assumptions C36_gradient_stride_refuted.

(** ** The map from grains to relevant grains *)

Lemma to_relevant_loop : forall ng l,
  StronglySorted lt l -> (forall g, In g l -> g < ng) -> length l <= 256 ->
  exists r, for_loop (length l) 0 (fun i r => g <- vget l i ;; vset r g (uchar i)) (repeat 255 ng) = Some r /\
    length r = ng /\
    (forall i g, vget l i = Some g -> vget r g = Some i) /\
    (forall g, g < ng -> ~ In g l -> vget r g = Some 255).
Proof.
  intros ng l Hs Hl Hn.
  destruct (for_loop_inv _ (fun k r => length r = ng /\
      (forall i g, i < k -> vget l i = Some g -> vget r g = Some i) /\
      (forall g, g < ng -> ~ In g l -> vget r g = Some 255))
    (fun i r => g <- vget l i ;; vset r g (uchar i)) (length l) 0 (repeat 255 ng)) as (r & E & L & P1 & P2).
  - split; [apply repeat_length|]. split; [intros; lia|]. intros g Hg _. apply vget_rep. assumption.
  - intros k r Hk (L & P1 & P2). destruct (vget_some _ l k) as (g & Hg); [lia|].
    rewrite Hg. cbn [obind].
    assert (Hgn : g < ng). { apply Hl. eapply nth_error_In. exact Hg. }
    destruct (vset_some _ r g (uchar k)) as (r' & E'); [lia|]. exists r'. split; [assumption|].
    split; [rewrite (vset_length _ _ _ _ _ E'); assumption|]. split.
    + intros i g' Hi Hg'. rewrite (vset_get _ _ _ _ _ g' E').
      destruct (Nat.eqb_spec g' g) as [->|Hne].
      * f_equal. replace i with k; [apply Nat.mod_small; lia|].
        assert (ND : NoDup l).
        { clear - Hs. induction Hs as [|x l _ IH F]; constructor; [|assumption].
          intro X. rewrite Forall_forall in F. specialize (F x X). lia. }
        apply (proj1 (NoDup_nth_error l) ND k i); [lia|]. unfold vget in *. congruence.
      * apply P1; [|assumption]. destruct (Nat.eq_dec i k) as [->|]; [congruence|lia].
    + intros g' Hg' Hni. rewrite (vset_get _ _ _ _ _ g' E').
      destruct (Nat.eqb_spec g' g) as [->|]; [|auto].
      exfalso. apply Hni. eapply nth_error_In. exact Hg.
  - exists r. split; [assumption|]. split; [assumption|]. split.
    + intros i g Hg. apply P1; [|assumption]. apply vget_lt in Hg. lia.
    + assumption.
Qed.

(** A relevant grain is mapped to its position among the relevant ones, every
    other grain to 255. *)
Theorem C36_grain_to_relevant_grain_partial : forall s active above m,
  n_grains s <= n_lanes s -> n_grains s <= 255 -> (forall c, active c <= n_lanes s) ->
  set_component_mask s active above = Some m ->
  forall cell, cell < n_cells s ->
  exists l r, get_relevant_grains m cell = Some l /\ relevant_on s active above cell l /\
    get_grain_to_relevant_grain (n_grains s) (Some m) cell = Some r /\
    (forall i g, vget l i = Some g -> vget r g = Some i /\ i < 255) /\
    (forall g, g < n_grains s -> ~ In g l -> vget r g = Some 255).
Proof.
  intros s active above m Hl Hn Ha E cell Hc.
  destruct (C36_relevant_grains_partial s active above Hl ltac:(lia) Ha) as (m' & E' & K).
  rewrite E in E'. injection E' as <-. destruct (K cell Hc) as (l & Hg & HR).
  assert (Hlt : forall g, In g l -> g < n_grains s).
  { intros g Hin. apply (proj2 HR) in Hin. tauto. }
  assert (Hlen : length l <= n_grains s).
  { destruct HR as (Hsort & _).
    assert (ND : NoDup l).
    { clear - Hsort. induction Hsort as [|x l _ IH F]; constructor; [|assumption].
      intro X. rewrite Forall_forall in F. specialize (F x X). lia. }
    rewrite <- (seq_length (n_grains s) 0). apply NoDup_incl_length; [assumption|].
    intros g Hin. apply in_seq. specialize (Hlt g Hin). lia. }
  destruct (to_relevant_loop (n_grains s) l (proj1 HR) Hlt) as (r & Er & _ & R1 & R2); [lia|].
  exists l, r. split; [assumption|]. split; [assumption|].
  split; [unfold get_grain_to_relevant_grain; rewrite Hg; exact Er|]. split; [|assumption].
  intros i g Hi. split; [auto|]. apply vget_lt in Hi. lia.
Qed.
Print Assumptions C36_grain_to_relevant_grain_partial.

(** ** Cases *)

Definition ex_s : setup :=
  {| n_cells := 2; n_lanes := 4; n_q := 2; offset := 2; n_grains := 3; n_blocks := 5;
     tensorial := false; save_op_gradients := true; save_all_blocks := true |}.
Definition ex_active (c : nat) : nat := if c =? 0 then 4 else 2.
Definition ex_above (c v b : nat) : bool :=
  match c, b with
  | 0, 0 => v =? 3
  | 0, 2 => v <? 2
  | 1, 1 => v =? 0
  | 1, 2 => v =? 3
  | _, _ => false
  end.
Definition ex_vals (c q b : nat) : nat := 100 * c + 10 * q + b + 1.

Example C36_case :
  exists m, set_component_mask ex_s ex_active ex_above = Some m /\
    get_relevant_grains m 0 = Some [0; 2] /\ get_relevant_grains m 1 = Some [1] /\
    value_ptr m = [0; 8; 14] /\
    fill_values nat 0 ex_vals ex_s m (repeat 0 14) =
      Some [1; 2; 3; 5; 11; 12; 13; 15; 101; 102; 104; 111; 112; 114] /\
    get_grain_to_relevant_grain 3 (Some m) 0 = Some [0; 255; 1] /\
    read_value nat m [1; 2; 3; 5; 11; 12; 13; 15; 101; 102; 104; 111; 112; 114] 1 1 1 2 = Some 114 /\
    read_gradient nat ex_s m [1; 2; 3; 5; 11; 12; 13; 15; 101; 102; 104; 111; 112; 114] 2 0 1 0 = Some 3.
Proof. eexists. split; [vm_compute; reflexivity|]. repeat split; vm_compute; reflexivity. Qed.
