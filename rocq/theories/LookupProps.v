(** C35: the velocity used for a cell and a grain belongs to that grain. *)
From Coq Require Import List Arith Bool Lia Sorted.
From Verif Require Import Util CutoffModel CutoffProofs CutoffProps LookupModel.
Import ListNotations.

(** [r] maps the relevant grains [l] to their positions and all others to 255. *)
Definition maps_to_positions (n : nat) (l r : list nat) : Prop :=
  StronglySorted lt l /\ (forall g, In g l -> g < n) /\ length r = n /\
  (forall i g, vget l i = Some g -> vget r g = Some i /\ i < 255) /\
  (forall g, g < n -> ~ In g l -> vget r g = Some 255).

Lemma seq_sorted : forall n a, StronglySorted lt (seq a n).
Proof.
  induction n as [|n IH]; intro a; cbn; constructor; [apply IH|].
  apply Forall_forall. intros x Hx. apply in_seq in Hx. lia.
Qed.

(** Both kinds of maps are of this form: with the cut-off ... *)
Lemma cut_off_map : forall s active above m,
  n_grains s <= n_lanes s -> n_grains s <= 255 -> (forall c, active c <= n_lanes s) ->
  set_component_mask s active above = Some m ->
  forall cell, cell < n_cells s ->
  exists l r, get_relevant_grains m cell = Some l /\
    get_grain_to_relevant_grain (n_grains s) (Some m) cell = Some r /\
    maps_to_positions (n_grains s) l r.
Proof.
  intros s active above m Hl Hn Ha E cell Hc.
  destruct (C36_relevant_grains_partial s active above Hl ltac:(lia) Ha) as (m' & E' & K).
  rewrite E in E'. injection E' as <-. destruct (K cell Hc) as (l & Hg & HR).
  assert (Hlt : forall g, In g l -> g < n_grains s).
  { intros g Hin. apply (proj2 HR) in Hin. tauto. }
  assert (Hlen : length l <= n_grains s).
  { destruct HR as (Hsort & _).
    assert (ND : NoDup l).
    { clear - Hsort. induction Hsort as [|x l _ IH F]; constructor; [|assumption].
      intro X. rewrite Forall_forall in F. specialize (F x X). lia. }
    rewrite <- (seq_length (n_grains s) 0). apply NoDup_incl_length; [assumption|].
    intros g Hin. apply in_seq. specialize (Hlt g Hin). lia. }
  destruct (to_relevant_loop (n_grains s) l (proj1 HR) Hlt) as (r & Er & Lr & R1 & R2); [lia|].
  exists l, r. split; [assumption|].
  split; [unfold get_grain_to_relevant_grain; rewrite Hg; exact Er|].
  split; [exact (proj1 HR)|]. split; [assumption|]. split; [assumption|]. split; [|assumption].
  intros i g Hi. split; [auto|]. apply vget_lt in Hi. lia.
Qed.

(** ... and without it. *)
Lemma no_cut_off_map : forall n cell, n <= 255 ->
  exists r, get_grain_to_relevant_grain n None cell = Some r /\ maps_to_positions n (seq 0 n) r.
Proof.
  intros n cell Hn. cbn [get_grain_to_relevant_grain].
  destruct (for_loop_inv _ (fun k r => length r = n /\ forall i, i < k -> vget r i = Some i)
    (fun i r => vset r i (uchar i)) n 0 (repeat 255 n)) as (r & E & L & P).
  - split; [apply repeat_length|]. intros; lia.
  - intros i r Hi (L & P). destruct (vset_some _ r i (uchar i)) as (r' & E'); [lia|].
    exists r'. split; [assumption|]. split; [rewrite (vset_length _ _ _ _ _ E'); assumption|].
    intros j Hj. rewrite (vset_get _ _ _ _ _ j E'). destruct (Nat.eqb_spec j i) as [->|].
    + f_equal. unfold uchar. apply Nat.mod_small. lia.
    + apply P. lia.
  - exists r. split; [assumption|]. split; [apply seq_sorted|].
    split; [intros g Hg; apply in_seq in Hg; lia|]. split; [assumption|]. split.
    + intros i g Hg. pose proof (vget_lt _ _ _ _ Hg) as Hi. rewrite seq_length in Hi.
      rewrite vget_seq in Hg by assumption. injection Hg as <-. cbn. split; [apply P; lia|lia].
    + intros g Hg Hni. exfalso. apply Hni. apply in_seq. lia.
Qed.

Lemma maps_filter : forall n l r, maps_to_positions n l r ->
  filter (fun g => negb (nth g r 255 =? 255)) (seq 0 n) = l.
Proof.
  intros n l r (Hs & Hl & Lr & P1 & P2).
  assert (HI : forall g, In g (filter (fun g => negb (nth g r 255 =? 255)) (seq 0 n)) <-> In g l).
  { intro g. rewrite filter_In, in_seq. split.
    - intros (Hg & E). destruct (in_dec Nat.eq_dec g l) as [|Hni]; [assumption|].
      specialize (P2 g ltac:(lia) Hni). unfold vget in P2.
      rewrite (nth_error_nth _ _ 255 P2) in E. discriminate.
    - intro Hg. split; [specialize (Hl g Hg); lia|].
      destruct (In_nth_error _ _ Hg) as (i & Hi). destruct (P1 i g Hi) as (E & Hlt).
      unfold vget in E. rewrite (nth_error_nth _ _ 255 E).
      destruct (Nat.eqb_spec i 255); [lia|reflexivity]. }
  assert (HS : StronglySorted lt (filter (fun g => negb (nth g r 255 =? 255)) (seq 0 n))).
  { generalize (seq_sorted n 0). generalize (seq 0 n). intros q Hq.
    induction Hq as [|x q _ IH F]; cbn; [constructor|].
    destruct (negb (nth x r 255 =? 255)); [|assumption]. constructor; [assumption|].
    rewrite Forall_forall in *. intros y Hy. apply filter_In in Hy. apply F. tauto. }
  revert HS HI Hs. generalize (filter (fun g => negb (nth g r 255 =? 255)) (seq 0 n)).
  clear. intros a. revert l. induction a as [|x a IH]; intros l HS HI Hs.
  - destruct l as [|y l]; [reflexivity|]. destruct (proj2 (HI y)). left. reflexivity.
  - destruct l as [|y l]; [destruct (proj1 (HI x)); left; reflexivity|].
    inversion HS as [|? ? HSa Fx]. inversion Hs as [|? ? HSl Fy]. subst.
    rewrite Forall_forall in Fx, Fy.
    assert (x = y).
    { destruct (proj1 (HI x) (or_introl eq_refl)) as [|Hx]; [congruence|].
      destruct (proj2 (HI y) (or_introl eq_refl)) as [|Hy]; [congruence|].
      specialize (Fx _ Hy). specialize (Fy _ Hx). lia. }
    subst y. f_equal. apply IH; [assumption| |assumption].
    intro g. specialize (HI g). cbn in HI. split; intro Hg.
    + destruct (proj1 HI (or_intror Hg)) as [->|]; [|assumption]. specialize (Fx _ Hg). lia.
    + destruct (proj2 HI (or_intror Hg)) as [->|]; [|assumption]. specialize (Fy _ Hg). lia.
Qed.

Lemma some_inj : forall A (x y : A), Some x = Some y -> y = x.
Proof. congruence. Qed.

Section Lookup.

Variable lanes : nat.
Variable n : nat.
Variable n_cells : nat.
Variable active : nat -> nat.
Variable seg : nat -> nat -> nat -> option nat.
Variable rel : nat -> list nat.
Variable g2r : nat -> list nat.
Hypothesis lanes_pos : 0 < lanes.
Hypothesis active_le : forall c, active c <= lanes.
Hypothesis maps : forall c, c < n_cells -> maps_to_positions n (rel c) (g2r c).

Definition cell_ids (c : nat) : ids := concat (map (lane_ids lanes active seg c) (rel c)).

Lemma lane_ids_length : forall c g, length (lane_ids lanes active seg c g) = lanes.
Proof.
  intros c g. unfold lane_ids. rewrite app_length, map_length, seq_length, repeat_length.
  specialize (active_le c). lia.
Qed.

Lemma cell_ids_length : forall c, length (cell_ids c) = length (rel c) * lanes.
Proof.
  intro c. unfold cell_ids. induction (rel c) as [|g l IH]; cbn; [reflexivity|].
  rewrite app_length, lane_ids_length, IH. reflexivity.
Qed.

Lemma push_generic_spec : forall c vals, c < n_cells ->
  push_cell_generic lanes n active seg (g2r c) c vals = Some (vals ++ cell_ids c).
Proof.
  intros c vals Hc. pose proof (maps c Hc) as M. pose proof (maps_filter n (rel c) (g2r c) M) as F.
  destruct M as (_ & _ & Lr & _). unfold push_cell_generic.
  destruct (for_loop_inv _ (fun i v => v = vals ++ concat (map (lane_ids lanes active seg c)
      (filter (fun g => negb (nth g (g2r c) 255 =? 255)) (seq 0 i))))
    (fun ig vals => r <- vget (g2r c) ig ;;
       if r =? 255 then Some vals else Some (vals ++ lane_ids lanes active seg c ig)) n 0 vals) as (v & E & Hv).
  - cbn. rewrite app_nil_r. reflexivity.
  - intros i x Hi ->. destruct (vget_some _ (g2r c) i) as (r & Er); [lia|]. rewrite Er. cbn [obind].
    rewrite seq_S, filter_app, map_app, concat_app. cbn [filter]. rewrite Nat.add_0_l.
    unfold vget in Er. rewrite (nth_error_nth _ _ 255 Er).
    destruct (r =? 255); cbn [negb]; eexists; (split; [reflexivity|]).
    + cbn. rewrite app_nil_r. reflexivity.
    + cbn [map concat]. rewrite app_nil_r, app_assoc. reflexivity.
  - rewrite E, Hv, Nat.add_0_l, F. reflexivity.
Qed.

Lemma build_generic_spec :
  build_generic lanes n active seg n_cells g2r =
  Some (mkTables (map (prefix (fun c => length (rel c) * lanes)) (seq 0 (S n_cells)))
                 (concat (map cell_ids (seq 0 n_cells)))).
Proof.
  unfold build_generic.
  destruct (for_loop_inv _ (fun i t => t =
      mkTables (map (prefix (fun c => length (rel c) * lanes)) (seq 0 (S i))) (concat (map cell_ids (seq 0 i))))
    (fun cell t => v <- push_cell_generic lanes n active seg (g2r cell) cell (index_values t) ;;
       Some (mkTables (index_ptr t ++ [length v]) v)) n_cells 0 nullified) as (t & E & Ht).
  - reflexivity.
  - intros i x Hi ->. cbn [index_values index_ptr]. rewrite push_generic_spec by lia. cbn [obind].
    eexists. split; [reflexivity|]. f_equal.
    + rewrite (seq_S (S i)), map_app. cbn [map]. rewrite Nat.add_0_l. f_equal. f_equal.
      assert (G : forall k, length (concat (map cell_ids (seq 0 k))) = prefix (fun c => length (rel c) * lanes) k).
      { induction k as [|k IHk]; [reflexivity|].
        rewrite prefix_S, seq_S, map_app, concat_app, app_length, IHk. cbn [map concat].
        rewrite app_nil_r, cell_ids_length, Nat.add_0_l. reflexivity. }
      rewrite app_length, G, cell_ids_length, prefix_S. reflexivity.
    + rewrite seq_S, map_app, concat_app. cbn [map concat]. rewrite app_nil_r, Nat.add_0_l. reflexivity.
  - rewrite E, Ht, Nat.add_0_l. reflexivity.
Qed.

Lemma vget_concat_uniform : forall A (ll : list (list A)) k i j, (forall l, In l ll -> length l = k) -> j < k ->
  vget (concat ll) (i * k + j) = match vget ll i with Some l => vget l j | None => None end.
Proof.
  intros A ll k. induction ll as [|l ll IH]; intros i j H Hj.
  - cbn. unfold vget. destruct (i * k + j); destruct i; reflexivity.
  - cbn [concat]. rewrite vget_app, (H l) by (left; reflexivity). destruct i as [|i].
    + cbn [Nat.mul Nat.add]. destruct (Nat.ltb_spec j k); [reflexivity|lia].
    + destruct (Nat.ltb_spec (S i * k + j) k) as [X|X]; [cbn in X; lia|].
      replace (S i * k + j - k) with (i * k + j) by (cbn; lia).
      rewrite IH; [reflexivity| |assumption]. intros l' Hl'. apply H. right. assumption.
Qed.

Lemma rep_unique : forall A (t : list (list A)) a b f, rep t a b f ->
  forall u, length u = a -> (forall i r, vget u i = Some r -> length r = b /\ forall j, j < b -> vget r j = Some (f i j)) -> t = u.
Proof.
  intros A t a b f (L & H) u Lu Hu. apply list_ext. intro i. destruct (le_lt_dec a i) as [Hi|Hi].
  - rewrite !vget_none by lia. reflexivity.
  - destruct (H i Hi) as (r & G & Lr & Hr). rewrite G.
    destruct (vget_some _ u i) as (r' & G'); [lia|]. rewrite G'. f_equal.
    destruct (Hu i r' G') as (Lr' & Hr'). apply list_ext. intro j. destruct (le_lt_dec b j) as [Hj|Hj].
    + rewrite !vget_none by lia. reflexivity.
    + rewrite Hr, Hr' by assumption. reflexivity.
Qed.

(** After [reinit] the entry number [i] of a cell holds the segments of the [i]-th
    relevant grain. *)
Lemma reinit_spec : forall t co c, c < n_cells ->
  build_generic lanes n active seg n_cells g2r = Some t ->
  reinit lanes t co c =
  Some (mkVD (map (lane_ids lanes active seg c) (rel c)) (match co with Some r => r | None => [] end)).
Proof.
  intros t co c Hc E. rewrite build_generic_spec in E.
  apply some_inj in E. rewrite E. clear E. unfold reinit.
  cbn [index_ptr index_values]. rewrite !vget_map, !vget_seq by lia. cbn [option_map obind].
  rewrite !Nat.add_0_l, prefix_S. set (p := prefix _ c).
  replace (p + length (rel c) * lanes - p) with (length (rel c) * lanes) by lia.
  rewrite Nat.div_mul by lia.
  set (f := fun i j => nth j (lane_ids lanes active seg c (nth i (rel c) 0)) None).
  assert (HV : forall i, i < length (rel c) * lanes ->
    vget (concat (map cell_ids (seq 0 n_cells))) (p + i) = Some (f (i / lanes) (i mod lanes))).
  { intros i Hi. unfold p.
    rewrite (vget_concat_prefix _ cell_ids (fun c => length (rel c) * lanes)); [|apply cell_ids_length|assumption|assumption].
    assert (Hd : i / lanes < length (rel c)). { apply Nat.div_lt_upper_bound; lia. }
    assert (Hm : i mod lanes < lanes). { apply Nat.mod_upper_bound. lia. }
    rewrite (Nat.div_mod i lanes) at 1 by lia. rewrite (Nat.mul_comm lanes). unfold cell_ids.
    rewrite (vget_concat_uniform _ _ lanes).
    - rewrite vget_map. destruct (vget_some _ (rel c) (i / lanes) Hd) as (g & Hg). rewrite Hg. cbn [option_map].
      unfold f. unfold vget in Hg. rewrite (nth_error_nth _ _ 0 Hg). unfold vget. apply nth_error_nth'.
      rewrite lane_ids_length. assumption.
    - intros l Hl. apply in_map_iff in Hl. destruct Hl as (g & <- & _). apply lane_ids_length.
    - assumption. }
  destruct (for_loop_inv _ (fun i d => rep d (length (rel c)) lanes (fun a b => if a * lanes + b <? i then f a b else None))
    (fun i d => x <- vget (concat (map cell_ids (seq 0 n_cells))) (p + i) ;; tset d (i / lanes) (i mod lanes) x)
    (length (rel c) * lanes) 0 (repeat (repeat None lanes) (length (rel c)))) as (d & Ed & Hd).
  - apply (rep_ext _ _ _ _ (fun _ _ => None)); [|apply rep_repeat]. intros. reflexivity.
  - intros i d Hi Hd. rewrite HV by lia. cbn [obind].
    assert (Hq : i / lanes < length (rel c)). { apply Nat.div_lt_upper_bound; lia. }
    assert (Hm : i mod lanes < lanes). { apply Nat.mod_upper_bound. lia. }
    destruct (rep_tset _ d _ _ _ (i / lanes) (i mod lanes) (f (i / lanes) (i mod lanes)) Hd Hq Hm) as (d' & Ed' & Hd').
    exists d'. split; [assumption|]. refine (rep_ext _ _ _ _ _ _ _ Hd'). intros a b Ha Hb. cbv beta.
    pose proof (Nat.div_mod i lanes ltac:(lia)) as DM. rewrite (Nat.mul_comm lanes) in DM.
    destruct (Nat.eqb_spec a (i / lanes)) as [->|Hna]; [destruct (Nat.eqb_spec b (i mod lanes)) as [->|Hnb]|]; cbn [andb].
    + rewrite <- DM. destruct (Nat.ltb_spec i (S i)); [reflexivity|lia].
    + destruct (Nat.ltb_spec (i / lanes * lanes + b) i), (Nat.ltb_spec (i / lanes * lanes + b) (S i)); try reflexivity; lia.
    + assert (a * lanes + b <> i).
      { intro X. apply Hna. apply (Nat.div_unique i lanes a b); [lia|]. rewrite Nat.mul_comm. lia. }
      destruct (Nat.ltb_spec (a * lanes + b) i), (Nat.ltb_spec (a * lanes + b) (S i)); try reflexivity; lia.
  - rewrite Ed. cbn [obind]. do 2 f_equal.
    refine (rep_unique _ _ _ _ _ Hd _ _ _).
    + apply map_length.
    + intros i r Hr. rewrite vget_map in Hr. destruct (vget (rel c) i) as [g|] eqn:Hg; [|discriminate].
      injection Hr as <-. split; [apply lane_ids_length|]. intros j Hj. cbv beta.
      pose proof (vget_lt _ _ _ _ Hg) as Hi.
      assert (X : i * lanes + j < 0 + length (rel c) * lanes).
      { assert (S i * lanes <= length (rel c) * lanes) by (apply Nat.mul_le_mono_r; lia). cbn in *. lia. }
      destruct (Nat.ltb_spec (i * lanes + j) (0 + length (rel c) * lanes)); [|lia].
      unfold f. unfold vget in Hg. rewrite (nth_error_nth _ _ 0 Hg). unfold vget. apply nth_error_nth'.
      rewrite lane_ids_length. assumption.
Qed.

End Lookup.

(** Segments of grain [g] on the lanes of batch [c], the unused lanes invalid. *)
Definition segments_of (lanes : nat) (active : nat -> nat) (seg : nat -> nat -> nat -> option nat)
  (c g : nat) (l : ids) : Prop :=
  length l = lanes /\
  forall v, v < lanes -> vget l v = Some (if v <? active c then seg c g v else None).

Lemma lane_ids_ok : forall lanes active seg c g, active c <= lanes ->
  segments_of lanes active seg c g (lane_ids lanes active seg c g).
Proof.
  intros lanes active seg c g Ha. unfold lane_ids. split.
  - rewrite app_length, map_length, seq_length, repeat_length. lia.
  - intros v Hv. rewrite vget_app, map_length, seq_length. destruct (Nat.ltb_spec v (active c)).
    + rewrite vget_map, vget_seq by assumption. reflexivity.
    + apply vget_rep. lia.
Qed.

(** Generic operator, without and with the cut-off: the tables cover all cells,
    and asked for an order parameter the translation and the rotation are those of
    its segments; order parameters that are not relevant have no velocity. *)
Theorem C35_translation_and_rotation_partial : forall lanes n n_cells active seg rel g2r (cut_off : bool),
  0 < lanes -> (forall c, active c <= lanes) -> (0 < n)%nat ->
  (forall c, c < n_cells -> maps_to_positions n (rel c) (g2r c)) ->
  (cut_off = false -> forall c, c < n_cells -> rel c = seq 0 n) ->
  exists t, build_generic lanes n active seg n_cells g2r = Some t /\
  forall c, c < n_cells ->
  exists v, reinit lanes t (if cut_off then Some (g2r c) else None) c = Some v /\
    forall g, g < n ->
      (In g (rel c) -> exists l, get_translation_data v g = Some l /\ segments_of lanes active seg c g l /\
         forall positive, has_velocity positive v g = Some (has_non_zero positive l)) /\
      (~ In g (rel c) -> forall positive, has_velocity positive v g = Some false).
Proof.
  intros lanes n n_cells active seg rel g2r cut_off Hl Ha Hn M NC.
  eexists. split; [apply (build_generic_spec lanes n n_cells active seg rel g2r Hl Ha M)|].
  intros c Hc. eexists.
  split; [apply (reinit_spec lanes n n_cells active seg rel g2r Hl Ha M); [assumption|
          apply (build_generic_spec lanes n n_cells active seg rel g2r Hl Ha M)]|].
  destruct (M c Hc) as (Hs & Hlt & Lr & P1 & P2).
  assert (R : forall g, g < n ->
    get_relevant_id (mkVD (map (lane_ids lanes active seg c) (rel c))
       (match (if cut_off then Some (g2r c) else None) with Some r => r | None => [] end)) g = vget (g2r c) g).
  { intros g Hg. unfold get_relevant_id. cbn [to_relevant]. destruct cut_off.
    - destruct (g2r c) eqn:E; [cbn in Lr; lia|reflexivity].
    - pose proof (NC eq_refl c Hc) as E. rewrite E in P1.
      destruct (P1 g g) as (Q & Hq); [rewrite vget_seq by assumption; reflexivity|]. rewrite Q.
      f_equal. unfold uchar. apply Nat.mod_small. lia. }
  intros g Hg. split.
  - intro Hin. destruct (In_nth_error _ _ Hin) as (i & Hi). destruct (P1 i g Hi) as (Q & Hq).
    exists (lane_ids lanes active seg c g).
    assert (D : vget (map (lane_ids lanes active seg c) (rel c)) i = Some (lane_ids lanes active seg c g)).
    { rewrite vget_map. unfold vget. rewrite Hi. reflexivity. }
    split; [unfold get_translation_data; rewrite R, Q by assumption; exact D|].
    split; [apply lane_ids_ok; apply Ha|].
    intro positive. unfold has_velocity. rewrite R, Q by assumption. cbn [cell_data obind].
    destruct (Nat.eqb_spec i 255); [lia|]. rewrite D. cbn [obind].
    destruct (map (lane_ids lanes active seg c) (rel c)) eqn:Em; [|reflexivity].
    unfold vget in D. destruct i; discriminate.
  - intros Hni positive. unfold has_velocity. rewrite R by assumption. rewrite (P2 g Hg Hni). cbn [cell_data obind].
    destruct (map (lane_ids lanes active seg c) (rel c)); reflexivity.
Qed.
Print Assumptions C35_translation_and_rotation_partial.

(** Without the cut-off also [get_velocity] uses the right grain. *)
Theorem C35_velocity_without_cut_off_partial : forall lanes n n_cells active seg g2r,
  0 < lanes -> (forall c, active c <= lanes) -> 0 < n <= 255 ->
  (forall c, c < n_cells -> get_grain_to_relevant_grain n None c = Some (g2r c)) ->
  exists t, build_generic lanes n active seg n_cells g2r = Some t /\
  forall c, c < n_cells ->
  exists v, reinit lanes t None c = Some v /\
    forall g, g < n -> exists l, get_velocity_data v g = Some l /\ segments_of lanes active seg c g l /\
      forall positive, has_velocity positive v g = Some (has_non_zero positive l).
Proof.
  intros lanes n n_cells active seg g2r Hl Ha Hn G.
  destruct (C35_translation_and_rotation_partial lanes n n_cells active seg (fun _ => seq 0 n) g2r false Hl Ha) as (t & E & K).
  - lia.
  - intros c Hc. destruct (no_cut_off_map n c) as (r & Er & M); [lia|]. rewrite (G c Hc) in Er. injection Er as <-. exact M.
  - reflexivity.
  - exists t. split; [exact E|]. intros c Hc. destruct (K c Hc) as (v & Ev & Kv). exists v. split; [exact Ev|].
    intros g Hg. destruct (Kv g Hg) as (A & _). destruct A as (l & D & S & P); [apply in_seq; lia|].
    exists l. split; [|split; assumption].
    assert (T : to_relevant v = []).
    { unfold reinit in Ev. repeat match type of Ev with context [obind ?a _] => destruct a; cbn [obind] in Ev; [|discriminate] end.
      injection Ev as <-. reflexivity. }
    unfold get_velocity_data, get_relevant_id. rewrite T. cbn [obind].
    replace (uchar g) with g; [exact D|]. unfold uchar. symmetry. apply Nat.mod_small. lia.
Qed.
Print Assumptions C35_velocity_without_cut_off_partial.

(** With the cut-off [get_velocity] is right for the grains in front of the first one
    that is not relevant on the cell. *)
Theorem C35_velocity_with_cut_off_partial : forall lanes s active above m seg g2r,
  0 < lanes -> (forall c, active c <= lanes) -> n_lanes s = lanes ->
  0 < n_grains s <= 255 -> n_grains s <= lanes ->
  set_component_mask s active above = Some m ->
  (forall c, c < n_cells s -> get_grain_to_relevant_grain (n_grains s) (Some m) c = Some (g2r c)) ->
  exists t, build_generic lanes (n_grains s) active seg (n_cells s) g2r = Some t /\
  forall c, c < n_cells s ->
  exists v l, reinit lanes t (Some (g2r c)) c = Some v /\ get_relevant_grains m c = Some l /\
    (forall g, g < n_grains s -> ~ In g l -> forall positive, has_velocity positive v g = Some false) /\
    (forall g, In g l ->
      exists d, get_translation_data v g = Some d /\ segments_of lanes active seg c g d /\
        forall positive, has_velocity positive v g = Some (has_non_zero positive d)) /\
    (forall g, (forall h, h <= g -> In h l) ->
      exists d, get_velocity_data v g = Some d /\ segments_of lanes active seg c g d).
Proof.
  intros lanes s active above m seg g2r Hl Ha HL Hn Hnl E G.
  set (rel := fun c => match get_relevant_grains m c with Some l => l | None => [] end).
  assert (M : forall c, c < n_cells s -> get_relevant_grains m c = Some (rel c) /\
                        maps_to_positions (n_grains s) (rel c) (g2r c)).
  { intros c Hc.
    destruct (cut_off_map s active above m ltac:(lia) ltac:(lia) ltac:(rewrite HL; exact Ha) E c Hc) as (l & r & A & B & C).
    rewrite (G c Hc) in B. injection B as <-. unfold rel. rewrite A. split; [reflexivity|assumption]. }
  destruct (C35_translation_and_rotation_partial lanes (n_grains s) (n_cells s) active seg rel g2r true Hl Ha)
    as (t & Et & K); [lia|intros c Hc; apply M; assumption|discriminate|].
  exists t. split; [exact Et|]. intros c Hc. destruct (K c Hc) as (v & Ev & Kv).
  destruct (M c Hc) as (El & Ml). pose proof Ml as (Hs & Hlt & Lr & P1 & P2).
  exists v, (rel c). split; [exact Ev|]. split; [exact El|]. split; [|split].
  - intros g Hg Hni. destruct (Kv g Hg) as (_ & B). exact (B Hni).
  - intros g Hg. destruct (Kv g (Hlt g Hg)) as (A & _). exact (A Hg).
  - intros g Hall. pose proof (Hall g (le_n g)) as Hin. destruct (Kv g (Hlt g Hin)) as ((d & D & S & _) & _); [exact Hin|].
    exists d. split; [|exact S].
    assert (T : to_relevant v = g2r c).
    { unfold reinit in Ev. repeat match type of Ev with context [obind ?a _] => destruct a; cbn [obind] in Ev; [|discriminate] end.
      injection Ev as <-. reflexivity. }
    assert (Pos : forall g, (forall h, h <= g -> In h (rel c)) -> vget (rel c) g = Some g).
    { clear - Hs. revert Hs. generalize (rel c). intros l Hs g Hall.
      assert (Q : forall a, StronglySorted lt l -> Forall (le a) l -> forall k, (forall h, a <= h <= a + k -> In h l) -> vget l k = Some (a + k)).
      { clear. intros a Hs. revert a. induction Hs as [|x l Hs IH F]; intros a Fa k Hk.
        - destruct (Hk a). lia.
        - inversion Fa as [|? ? Hx Fa']. subst. rewrite Forall_forall in F, Fa'.
          assert (x = a). { destruct (Hk a) as [|Hi]; [lia|assumption|]. specialize (F _ Hi). lia. }
          subst x. destruct k as [|k]; cbn; [f_equal; lia|]. fold (vget l k).
          replace (a + S k) with (S a + k) by lia. apply IH.
          + apply Forall_forall. intros y Hy. specialize (F y Hy). lia.
          + intros h Hh. destruct (Hk h) as [->|Hi]; [lia|lia|assumption]. }
      apply (Q 0 Hs); [apply Forall_forall; intros; lia|]. intros h Hh. apply Hall. lia. }
    destruct (P1 g g (Pos g Hall)) as (Q & _).
    assert (R : get_relevant_id v g = Some g).
    { unfold get_relevant_id. rewrite T. destruct (g2r c); [unfold vget in Q; destruct g; discriminate|exact Q]. }
    unfold get_velocity_data. rewrite R. exact D.
Qed.
Print Assumptions C35_velocity_with_cut_off_partial.

(** With the cut-off [get_velocity] maps the number of the grain twice: the last of
    the grains 0, 2 and 3 is given the velocity of grain 2. *)
Theorem C35_cut_off_wrong_grain_refuted : exists lanes n active seg g2r t v,
  maps_to_positions n [0; 2; 3] (g2r 0) /\
  build_generic lanes n active seg 1 g2r = Some t /\
  reinit lanes t (Some (g2r 0)) 0 = Some v /\
  has_velocity (fun _ => true) v 3 = Some true /\
  get_velocity_data v 3 = Some [Some 2] /\ seg 0 3 0 = Some 3.
Proof.
  exists 1, 4, (fun _ => 1), (fun _ g _ => Some g), (fun _ => [0; 255; 1; 2]).
  eexists. eexists. split.
  - split; [repeat constructor|]. split; [intros g [<-|[<-|[<-|[]]]]; lia|]. split; [reflexivity|]. split.
    + intros i g. destruct i as [|[|[|i]]]; cbn; intro E; try (injection E as <-; split; [reflexivity|lia]).
      destruct i; discriminate.
    + intros g Hg Hni. destruct g as [|[|[|[|g]]]]; cbn in *; try reflexivity; try lia; exfalso; tauto.
  - split; [vm_compute; reflexivity|]. split; [vm_compute; reflexivity|]. repeat split.
Qed.
Print Assumptions C35_cut_off_wrong_grain_refuted.

(** If only grain 1 is relevant on a cell, [get_velocity] throws. *)
Theorem C35_cut_off_throws_refuted : exists lanes n active seg g2r t v,
  maps_to_positions n [1] (g2r 0) /\
  build_generic lanes n active seg 1 g2r = Some t /\
  reinit lanes t (Some (g2r 0)) 0 = Some v /\
  has_velocity (fun _ => true) v 1 = Some true /\ get_velocity_data v 1 = None /\
  (* the operators ask with the position among the relevant grains *)
  has_velocity (fun _ => true) v 0 = Some false.
Proof.
  exists 1, 2, (fun _ => 1), (fun _ g _ => Some g), (fun _ => [255; 0]).
  eexists. eexists. split.
  - split; [repeat constructor|]. split; [intros g [<-|[]]; lia|]. split; [reflexivity|]. split.
    + intros i g. destruct i as [|i]; cbn; intro E; try (injection E as <-; split; [reflexivity|lia]).
      destruct i; discriminate.
    + intros g Hg Hni. destruct g as [|[|g]]; cbn in *; try reflexivity; try lia; exfalso; tauto.
  - split; [vm_compute; reflexivity|]. split; [vm_compute; reflexivity|].
    split; [vm_compute; reflexivity|]. split; [vm_compute; reflexivity|]. vm_compute; reflexivity.
Qed.
Print Assumptions C35_cut_off_throws_refuted.

(** Weighted operator: the tables do not cover any cell, so that every [reinit]
    reads outside of [index_ptr]. *)
Theorem C35_weighted_refuted : forall lanes n active seg n_cells g2r t co c,
  build_weighted lanes n active seg n_cells g2r = Some t -> reinit lanes t co c = None.
Proof.
  intros lanes n active seg n_cells g2r t co c E. unfold build_weighted in E.
  destruct (for_loop n_cells 0 _ nullified); [|discriminate]. cbn [obind] in E. injection E as <-.
  unfold reinit. cbn [index_ptr nullified]. replace (vget [0] (S c)) with (@None nat); [reflexivity|].
  unfold vget. destruct c; reflexivity.
Qed.
Print Assumptions C35_weighted_refuted.

(** Even without that the weighted operator pushes more entries than order
    parameters: with [k] relevant grains [k * k] times the number of lanes. *)
Theorem C35_weighted_entries_refuted : exists lanes n active seg g2r v,
  push_cell_weighted lanes n active seg (g2r 0) 0 [] = Some v /\
  length v = 2 * 2 * lanes /\ get_grain_to_relevant_grain n None 0 = Some (g2r 0) /\ n = 2.
Proof.
  exists 1, 2, (fun _ => 1), (fun _ g _ => Some g), (fun _ => [0; 1]). eexists.
  split; [vm_compute; reflexivity|]. split; [reflexivity|]. split; reflexivity.
Qed.
Print Assumptions C35_weighted_entries_refuted.

(** With 256 order parameters the last one never moves. *)
Theorem C35_many_grains_refuted : exists lanes n active seg g2r t v,
  get_grain_to_relevant_grain n None 0 = Some (g2r 0) /\
  build_generic lanes n active seg 1 g2r = Some t /\
  reinit lanes t None 0 = Some v /\ 255 < n /\
  seg 0 255 0 = Some 255 /\ has_velocity (fun _ => true) v 255 = Some false.
Proof.
  exists 1, 256, (fun _ => 1), (fun _ g _ => Some g), (fun _ => seq 0 256).
  eexists. eexists. split; [vm_compute; reflexivity|]. split; [vm_compute; reflexivity|].
  split; [vm_compute; reflexivity|]. split; [vm_compute; apply le_n|]. split; [reflexivity|]. vm_compute. reflexivity.
Qed.
Print Assumptions C35_many_grains_refuted.

Example C35_case :
  let seg := fun c g v => if g =? 1 then None else Some (10 * c + g) in
  let active := fun c => if c =? 0 then 2 else 1 in
  exists t v, build_generic 2 2 active seg 2 (fun _ => [0; 1]) = Some t /\
    index_ptr t = [0; 4; 8] /\ reinit 2 t None 1 = Some v /\
    get_velocity_data v 0 = Some [Some 10; None] /\ has_velocity (fun _ => true) v 0 = Some true /\
    has_velocity (fun _ => true) v 1 = Some false.
Proof.
  eexists. eexists. split; [vm_compute; reflexivity|]. split; [reflexivity|].
  split; [vm_compute; reflexivity|]. repeat split; vm_compute; reflexivity.
Qed.
