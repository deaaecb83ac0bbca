(** C115: integrals over the domain in the table of results *)
From Coq Require Import Ascii String.
From Coq Require Import QArith List Bool Arith Lia Lqa.
From Verif Require Import Util ResultsFileModel ResultsFileProps IntegralsModel.
Import ListNotations.
Local Open Scope nat_scope.
Local Open Scope list_scope.

(** ** What the quantities are, independently of the loops *)

Definition qsum (l : list Q) : Q := fold_right Qplus 0%Q l.
Definition squares (l : list Q) : Q := qsum (map (fun x => x * x)%Q l).

(** Order parameters of a point *)
Definition etas (k : operator) (value : list Q) : list Q := skipn (first_op k) value.
(** The gradient energy *)
Definition gradients_energy (k : operator) (s : op_settings) (gradient : list (list Q)) : Q :=
  ((1 # 2) * o_kappa_p s * qsum (map squares (skipn (first_op k) gradient))
   + match k with GrainGrowth => 0 | _ => (1 # 2) * o_kappa_c s * squares (nth 0 gradient []) end)%Q.

Inductive density (k : operator) (s : op_settings) : string -> (list Q -> list (list Q) -> Q) -> Prop :=
| d_solid : k = Sintering -> density k s "solid_vol" (fun v _ => nth 0 v 0%Q)
| d_void : k = Greenquist -> density k s "void_vol" (fun v _ => nth 0 v 0%Q)
| d_surf : k <> GrainGrowth -> density k s "surf_area" (fun v _ => nth 0 v 0 * (1 - nth 0 v 0))%Q
| d_gb : density k s "gb_area" (fun v _ => (1 # 2) * (qsum (etas k v) * qsum (etas k v) - squares (etas k v)))%Q
| d_size : density k s "avg_grain_size" (fun v _ => squares (etas k v))
| d_nrm : forall f, k = Sintering ->
    (forall v g, (45 # 100 <= nth 0 v 0 /\ nth 0 v 0 <= 55 # 100)%Q -> f v g = 1%Q) ->
    (forall v g, ~ (45 # 100 <= nth 0 v 0 /\ nth 0 v 0 <= 55 # 100)%Q -> f v g = 0%Q) -> density k s "surf_area_nrm" f
| d_free : k <> Greenquist -> density k s "free_energy" (fun v g => o_bulk s v + gradients_energy k s g)%Q
| d_bulk : k <> Greenquist -> density k s "bulk_energy" (fun v _ => o_bulk s v)
| d_interface : k <> Greenquist -> density k s "interface_energy" (fun _ g => gradients_energy k s g)
| d_control : density k s "control_vol" (fun _ _ => 1%Q)
| d_op : forall i, density k s ("op_" ++ to_string i) (fun v _ => nth i (etas k v) 0%Q).

(** Labels an operator accepts, and the labels of the columns *)
Definition accepts (k : operator) (l : string) : Prop := l = "order_params"%string \/ exists s d, density k s l d /\ forall i, l <> ("op_" ++ to_string i)%string.
Definition expand (max : nat) (labels : list string) : list string :=
  flat_map (fun l => if String.eqb l "order_params" then map (fun i => "op_" ++ to_string i)%string (seq 0 max) else [l]) labels.

Section Points.
Context {P B : Type}.
(** The points of the cells of all processes; lanes beyond the active ones repeat cells *)
Definition all_points (ranks : list (list (@batch P))) : list (@qpoint P) :=
  flat_map (fun r => flat_map (fun b => concat (firstn (b_active b) (b_lanes b))) r) ranks.
Definition integral (d : list Q -> list (list Q) -> Q) (pred : P -> Q) (pts : list (@qpoint P)) : Q :=
  qsum (map (fun q => d (p_val q) (p_grad q) * pred (p_x q) * p_w q)%Q pts).
(** Every lane holds values and gradients of all components *)
Definition complete (k : operator) (s : op_settings) (ranks : list (list (@batch P))) : Prop :=
  forall r b, In r ranks -> In b r -> b_active b <= length (b_lanes b)
    /\ forall l q, In l (b_lanes b) -> In q l -> length (p_val q) = first_op k + o_grains s /\ length (p_grad q) = first_op k + o_grains s.
Definition box_weight (filter : B -> P -> Q) (box : option B) : P -> Q := match box with Some b => filter b | None => fun _ => 1%Q end.
End Points.

(** ** Loops *)

Lemma qsum_app : forall a b, (qsum (a ++ b) == qsum a + qsum b)%Q.
Proof. unfold qsum. induction a as [| x a IH]; intros b; cbn [app fold_right]; [lra |]. rewrite IH. lra. Qed.
Lemma vget_skip : forall {A} (l : list A) off i, vget l (off + i) = vget (skipn off l) i.
Proof.
  unfold vget. intros A l off. revert l. induction off as [| off IH]; intros l i; [reflexivity |].
  destruct l as [| x l]; cbn [skipn Nat.add nth_error]; [destruct i; reflexivity | apply IH].
Qed.
Lemma vget_some : forall {A} (d : A) l i, i < length l -> vget l i = Some (nth i l d).
Proof. intros A d l i H. unfold vget. apply nth_error_nth'. exact H. Qed.
Lemma seq_nth_list : forall {A} (d : A) l, map (fun t => nth t l d) (seq 0 (length l)) = l.
Proof.
  intros A d. induction l as [| x l IH]; [reflexivity |]. cbn [length seq map nth]. f_equal.
  rewrite <- seq_shift, map_map. rewrite <- IH at 2. apply map_ext. reflexivity.
Qed.

Lemma pair_row_spec : forall off i n j value acc, off + i < length value -> off + j + n <= length value ->
  exists r, pair_row off i n j value acc = Some r
    /\ (r == acc + nth i (skipn off value) 0 * qsum (map (fun t => nth t (skipn off value) 0) (seq j n)))%Q.
Proof.
  intros off i. induction n as [| n IH]; intros j value acc Hi Hj; cbn [pair_row seq map].
  - exists acc. split; [reflexivity |]. unfold qsum. cbn. lra.
  - rewrite !vget_skip. rewrite !(vget_some 0%Q) by (rewrite skipn_length; lia). cbn [obind].
    destruct (IH (S j) value (acc + nth i (skipn off value) 0 * nth j (skipn off value) 0)%Q) as [r [E V]]; [lia | lia |].
    exists r. split; [exact E |]. rewrite V. unfold qsum. cbn [fold_right]. lra.
Qed.
Lemma pair_loop_spec : forall off grains m i value acc, i + m = grains -> off + grains <= length value ->
  let t := map (fun t => nth t (skipn off value) 0%Q) (seq i m) in
  exists r, pair_loop off grains m i value acc = Some r /\ (r == acc + (1 # 2) * (qsum t * qsum t - squares t))%Q.
Proof.
  intros off grains. induction m as [| m IH]; intros i value acc H L; cbn [pair_loop seq map]; cbv zeta.
  - exists acc. split; [reflexivity |]. unfold squares, qsum. cbn. lra.
  - destruct (pair_row_spec off i (grains - S i) (S i) value acc) as [a [E V]]; [lia | lia |]. rewrite E. cbn [obind].
    destruct (IH (S i) value a) as [r [E2 V2]]; [lia | lia |]. exists r. split; [exact E2 |].
    rewrite V2, V. replace (grains - S i) with m by lia. unfold squares, qsum. cbn [map fold_right]. lra.
Qed.
Lemma square_loop_spec : forall off m i value acc, off + i + m <= length value ->
  exists r, square_loop off m i value acc = Some r /\ (r == acc + squares (map (fun t => nth t (skipn off value) 0%Q) (seq i m)))%Q.
Proof.
  intros off. induction m as [| m IH]; intros i value acc L; cbn [square_loop seq map].
  - exists acc. split; [reflexivity |]. unfold squares, qsum. cbn. lra.
  - rewrite vget_skip, (vget_some 0%Q) by (rewrite skipn_length; lia). cbn [obind].
    destruct (IH (S i) value (acc + nth i (skipn off value) 0 * nth i (skipn off value) 0)%Q) as [r [E V]]; [lia |].
    exists r. split; [exact E |]. rewrite V. unfold squares, qsum. cbn [map fold_right]. lra.
Qed.
Lemma norm_square_spec : forall g, (norm_square g == squares g)%Q.
Proof. unfold norm_square, squares, qsum. induction g as [| x g IH]; cbn [map fold_right]; [lra |]. rewrite IH. lra. Qed.
Lemma gradient_loop_spec : forall off m i gradient acc, off + i + m <= length gradient ->
  exists r, gradient_loop off m i gradient acc = Some r /\ (r == acc + qsum (map squares (map (fun t => nth t (skipn off gradient) []) (seq i m))))%Q.
Proof.
  intros off. induction m as [| m IH]; intros i gradient acc L; cbn [gradient_loop seq map].
  - exists acc. split; [reflexivity |]. unfold qsum. cbn. lra.
  - rewrite vget_skip, (vget_some []) by (rewrite skipn_length; lia). cbn [obind].
    destruct (IH (S i) gradient (acc + norm_square (nth i (skipn off gradient) []))%Q) as [r [E V]]; [lia |].
    exists r. split; [exact E |]. rewrite V, norm_square_spec. unfold qsum. cbn [map fold_right]. lra.
Qed.
Lemma interface_spec : forall k s value gradient, length gradient = first_op k + o_grains s ->
  exists r, interface_energy k s value gradient = Some r /\ (r == gradients_energy k s gradient)%Q.
Proof.
  intros k s value gradient L. unfold interface_energy, gradients_energy.
  destruct (gradient_loop_spec (first_op k) (o_grains s) 0 gradient 0%Q) as [e [E V]]; [lia |]. rewrite E. cbn [obind].
  assert (LS : length (skipn (first_op k) gradient) = o_grains s) by (rewrite skipn_length; lia).
  rewrite <- LS, seq_nth_list in V.
  destruct k.
  - rewrite (vget_some []) by (cbn [first_op] in L; lia). cbn [obind]. eexists. split; [reflexivity |]. rewrite V, norm_square_spec. lra.
  - eexists. split; [reflexivity |]. rewrite V. lra.
  - rewrite (vget_some []) by (cbn [first_op] in L; lia). cbn [obind]. eexists. split; [reflexivity |]. rewrite V, norm_square_spec. lra.
Qed.

(** ** Evaluators *)
Definition pairs (k : operator) (s : op_settings) (max : nat) (labels : list string) : list (string * evaluator) :=
  flat_map (fun l => if String.eqb l "order_params" then map (fun i => ("op_" ++ to_string i, op_evaluator k s i)%string) (seq 0 max) else [(l, evaluate k s l)]) labels.
Lemma pairs_fst : forall k s max labels, map fst (pairs k s max labels) = expand max labels.
Proof.
  intros k s max. unfold pairs, expand. induction labels as [| l labels IH]; [reflexivity |]. cbn [flat_map]. rewrite map_app, IH. f_equal.
  destruct (String.eqb l "order_params"); [rewrite map_map; reflexivity | reflexivity].
Qed.
Definition ok (k : operator) (l : string) : bool := (String.eqb l "order_params" || known k l)%bool.
Lemma build_spec : forall k s max labels ql qe, build k s max labels ql qe =
  if forallb (ok k) labels then Some (ql ++ map fst (pairs k s max labels), qe ++ map snd (pairs k s max labels)) else None.
Proof.
  intros k s max. induction labels as [| l labels IH]; intros ql qe; cbn [build forallb pairs flat_map map].
  - rewrite !app_nil_r. reflexivity.
  - unfold ok at 1. destruct (String.eqb l "order_params"); cbn [orb andb].
    + rewrite IH. fold (pairs k s max labels). rewrite !map_app, !map_map, !app_assoc. reflexivity.
    + destruct (known k l); cbn [andb]; [| reflexivity]. rewrite IH. fold (pairs k s max labels). rewrite !map_app. cbn [map app]. rewrite <- !app_assoc. reflexivity.
Qed.

Lemma named_not_op : forall k l i, known k l = true -> l <> ("op_" ++ to_string i)%string.
Proof. intros k l i H ->. destruct k; cbn in H; discriminate. Qed.
Lemma known_density : forall k s l, known k l = true -> exists d, density k s l d.
Proof.
  intros k s l H. destruct (String.eqb l "surf_area_nrm") eqn:EN.
  - apply String.eqb_eq in EN. subst l. destruct k; cbn in H; try discriminate.
    exists (fun v _ => if (Qle_bool (45 # 100) (nth 0 v 0%Q) && Qle_bool (nth 0 v 0%Q) (55 # 100))%bool then 1%Q else 0%Q). apply d_nrm; [reflexivity | |].
    + intros v g [A C]. apply Qle_bool_iff in A. apply Qle_bool_iff in C. rewrite A, C. reflexivity.
    + intros v g A. destruct (Qle_bool (45 # 100) (nth 0 v 0%Q)) eqn:E1; [| reflexivity]. destruct (Qle_bool (nth 0 v 0%Q) (55 # 100)) eqn:E2; [| reflexivity].
      exfalso. apply A. split; apply Qle_bool_iff; assumption.
  - destruct k; cbn [known existsb] in H;
      repeat (apply orb_true_iff in H; destruct H as [H | H]); try discriminate; try congruence;
      apply String.eqb_eq in H; subst l; try discriminate EN; eexists; constructor; solve [reflexivity | discriminate].
Qed.
Lemma density_known : forall k s l d, density k s l d -> (forall i, l <> ("op_" ++ to_string i)%string) -> known k l = true.
Proof.
  intros k s l d H N. destruct H; subst; try reflexivity; destruct k; try reflexivity; try congruence. all: exfalso; apply (N i); reflexivity.
Qed.
Lemma accepts_ok : forall k l, accepts k l <-> ok k l = true.
Proof.
  intros k l. unfold accepts, ok. rewrite orb_true_iff, String.eqb_eq. split.
  - intros [H | [s [d [H N]]]]; [left; exact H | right; apply (density_known k s l d H N)].
  - intros [H | H]; [left; exact H | right]. exists (mkSet 0 0 0 (fun _ => 0%Q)).
    destruct (known_density k (mkSet 0 0 0 (fun _ => 0%Q)) l H) as [d Hd]. exists d. split; [exact Hd |]. intros i. apply (named_not_op k). exact H.
Qed.

Lemma op_string_inj : forall i j, ("op_" ++ to_string i)%string = ("op_" ++ to_string j)%string -> i = j.
Proof. intros i j H. cbn in H. injection H as H. apply to_string_inj. exact H. Qed.

Lemma evaluate_spec : forall k s max labels l e d value gradient,
  forallb (ok k) labels = true -> In (l, e) (pairs k s max labels) -> density k s l d ->
  length value = first_op k + o_grains s -> length gradient = first_op k + o_grains s ->
  exists v, e value gradient = Some v /\ (v == d value gradient)%Q.
Proof.
  intros k s max labels l e d value gradient A I D Lv Lg.
  assert (LS : length (skipn (first_op k) value) = o_grains s) by (rewrite skipn_length; lia).
  unfold pairs in I. apply in_flat_map in I. destruct I as [l' [I1 I2]].
  rewrite forallb_forall in A. specialize (A l' I1). unfold ok in A. destruct (String.eqb l' "order_params") eqn:EO.
  - apply in_map_iff in I2. destruct I2 as [i [E Hi]]. injection E as E1 E2. subst e.
    assert (DD : d = fun v _ => nth i (etas k v) 0%Q).
    { clear - D E1. destruct D; try (cbn in E1; discriminate). apply op_string_inj in E1. subst. reflexivity. }
    subst d. unfold op_evaluator. destruct (Nat.ltb_spec i (o_grains s)) as [H | H].
    + rewrite vget_skip, (vget_some 0%Q) by lia. eexists. split; [reflexivity | reflexivity].
    + exists 0%Q. split; [reflexivity |]. unfold etas. rewrite nth_overflow by lia. reflexivity.
  - cbn [orb] in A. destruct I2 as [E | []]. injection E as E1 E2. subst l' e.
    assert (Hc : k <> GrainGrowth -> vget value 0 = Some (nth 0 value 0%Q)).
    { intros N. apply vget_some. destruct k; cbn [first_op] in Lv; try lia. congruence. }
    destruct D; unfold evaluate; cbn [String.eqb Ascii.eqb Bool.eqb orb].
    + rewrite Hc by (subst k; discriminate). eexists. split; reflexivity.
    + rewrite Hc by (subst k; discriminate). eexists. split; reflexivity.
    + rewrite Hc by assumption. cbn [obind]. eexists. split; reflexivity.
    + destruct (pair_loop_spec (first_op k) (o_grains s) (o_grains s) 0 value 0%Q) as [r [E V]]; [lia | lia |].
      exists r. split; [exact E |]. rewrite V. rewrite <- LS, seq_nth_list. unfold etas. lra.
    + destruct (square_loop_spec (first_op k) (o_grains s) 0 value 0%Q) as [r [E V]]; [lia |].
      exists r. split; [exact E |]. rewrite V. rewrite <- LS, seq_nth_list. unfold etas. lra.
    + rewrite Hc by (subst k; discriminate). cbn [obind]. eexists. split; [reflexivity |].
      destruct (qltb (55 # 100) (nth 0 value 0%Q)) eqn:Q1.
      * apply qltb_true in Q1. rewrite H1; [reflexivity | intros [X Y]; lra].
      * apply qltb_false in Q1. destruct (qltb (nth 0 value 0%Q) (45 # 100)) eqn:Q2.
        -- apply qltb_true in Q2. rewrite H1; [reflexivity | intros [X Y]; lra].
        -- apply qltb_false in Q2. rewrite H0; [reflexivity | split; lra].
    + destruct (interface_spec k s value gradient Lg) as [r [E V]]. rewrite E. cbn [obind]. eexists. split; [reflexivity |]. rewrite V. lra.
    + eexists. split; reflexivity.
    + destruct (interface_spec k s value gradient Lg) as [r [E V]]. exists r. split; [exact E | exact V].
    + eexists. split; reflexivity.
    + exfalso. apply (named_not_op k _ i A). reflexivity.
Qed.

(** ** Sums over lanes, batches and processes *)
Section Sums.
Context {P B : Type}.
Variables (pred : P -> Q) (e : evaluator) (d : list Q -> list (list Q) -> Q).
Let good (q : @qpoint P) : Prop := exists v, e (p_val q) (p_grad q) = Some v /\ (v == d (p_val q) (p_grad q))%Q.

Lemma lane_spec : forall l, (forall q, In q l -> good q) -> exists v, integrate_lane pred e l = Some v /\ (v == integral d pred l)%Q.
Proof.
  induction l as [| q l IH]; intros G; cbn [integrate_lane].
  - exists 0%Q. split; [reflexivity | unfold integral, qsum; cbn; lra].
  - destruct (G q (or_introl eq_refl)) as [v [E V]]. rewrite E. cbn [obind].
    destruct IH as [r [E2 V2]]; [intros q' Hq; apply G; right; exact Hq |]. rewrite E2. cbn [obind].
    eexists. split; [reflexivity |]. rewrite V, V2. unfold integral, qsum. cbn [map fold_right]. lra.
Qed.
Lemma integral_app : forall a b, (integral d pred (a ++ b) == integral d pred a + integral d pred b)%Q.
Proof. intros a b. unfold integral. rewrite map_app, qsum_app. lra. Qed.
Lemma lanes_spec : forall lanes active acc, active <= length lanes -> (forall l q, In l lanes -> In q l -> good q) ->
  exists v, sum_lanes pred e active lanes acc = Some v /\ (v == acc + integral d pred (concat (firstn active lanes)))%Q.
Proof.
  induction lanes as [| l lanes IH]; intros active acc L G; cbn [sum_lanes].
  - cbn [length] in L. replace active with 0 by lia. exists acc. split; [reflexivity |]. unfold integral, qsum. cbn. lra.
  - destruct (lane_spec l) as [v [E V]]; [intros q Hq; apply (G l q (or_introl eq_refl) Hq) |]. rewrite E. cbn [obind].
    assert (G' : forall l q, In l lanes -> In q l -> good q) by (intros l' q Hl Hq; apply (G l' q (or_intror Hl) Hq)).
    destruct active as [| active].
    + destruct (IH 0 acc) as [r [E2 V2]]; [lia | exact G' |]. exists r. split; [exact E2 |]. rewrite V2. cbn [firstn concat]. lra.
    + cbn [length] in L. destruct (IH active (acc + v)%Q) as [r [E2 V2]]; [lia | exact G' |]. exists r. split; [exact E2 |].
      rewrite V2, V. cbn [firstn concat]. rewrite integral_app. lra.
Qed.
Let good_batch (b : @batch P) : Prop := b_active b <= length (b_lanes b) /\ forall l q, In l (b_lanes b) -> In q l -> good q.
Lemma batches_spec : forall bs acc, (forall b, In b bs -> good_batch b) ->
  exists v, sum_batches pred e bs acc = Some v /\ (v == acc + integral d pred (flat_map (fun b => concat (firstn (b_active b) (b_lanes b))) bs))%Q.
Proof.
  induction bs as [| b bs IH]; intros acc G; cbn [sum_batches flat_map].
  - exists acc. split; [reflexivity |]. unfold integral, qsum. cbn. lra.
  - destruct (G b (or_introl eq_refl)) as [L G1]. destruct (lanes_spec (b_lanes b) (b_active b) 0%Q L G1) as [v [E V]]. rewrite E. cbn [obind].
    destruct (IH (acc + v)%Q) as [r [E2 V2]]; [intros b' Hb; apply G; right; exact Hb |]. exists r. split; [exact E2 |].
    rewrite V2, V, integral_app. lra.
Qed.
Lemma ranks_spec : forall ranks, (forall r b, In r ranks -> In b r -> good_batch b) ->
  exists v, sum_ranks pred e ranks = Some v /\ (v == integral d pred (all_points ranks))%Q.
Proof.
  induction ranks as [| r ranks IH]; intros G; cbn [sum_ranks].
  - exists 0%Q. split; [reflexivity |]. unfold integral, qsum. cbn. lra.
  - destruct (batches_spec r 0%Q) as [v [E V]]; [intros b Hb; apply (G r b (or_introl eq_refl) Hb) |]. rewrite E. cbn [obind].
    destruct IH as [t [E2 V2]]; [intros r' b Hr Hb; apply (G r' b (or_intror Hr) Hb) |]. rewrite E2. cbn [obind].
    eexists. split; [reflexivity |]. rewrite V, V2. unfold all_points. cbn [flat_map]. rewrite integral_app. lra.
Qed.
End Sums.

(** ** The columns *)
Section Row.
Context {P B : Type} (k : operator) (s : op_settings) (max : nat) (filter : B -> P -> Q) (accepted : list B) (only : bool) (labels : list string)
  (ranks : list (list (@batch P))).
Hypothesis OK : forallb (ok k) labels = true.
Hypothesis C : complete k s ranks.

Lemma pair_sum : forall pred l e d, In (l, e) (pairs k s max labels) -> density k s l d ->
  exists v, sum_ranks pred e ranks = Some v /\ (v == integral d pred (all_points ranks))%Q.
Proof.
  intros pred l e d I D. apply ranks_spec. intros r b Hr Hb. destruct (C r b Hr Hb) as [L G]. split; [exact L |].
  intros l' q Hl Hq. destruct (G l' q Hl Hq) as [L1 L2]. apply (evaluate_spec k s max labels l e d); assumption.
Qed.
Lemma pair_density : forall l e, In (l, e) (pairs k s max labels) -> exists d, density k s l d.
Proof.
  intros l e I. unfold pairs in I. apply in_flat_map in I. destruct I as [l' [I1 I2]].
  pose proof OK as A. rewrite forallb_forall in A. specialize (A l' I1). unfold ok in A. destruct (String.eqb l' "order_params") eqn:EO.
  - apply in_map_iff in I2. destruct I2 as [i [E _]]. injection E as <- <-. eexists. apply d_op.
  - destruct I2 as [E | []]. injection E as <- <-. apply known_density. exact A.
Qed.

Lemma calc_spec : forall pred ps, (forall p, In p ps -> In p (pairs k s max labels)) ->
  forall name, exists vs row, calc_domain_quantities pred (map snd ps) ranks = Some vs
    /\ add_values name (map fst ps) vs = Some row /\ map fst row = map name (map fst ps)
    /\ forall l d, In l (map fst ps) -> density k s l d -> exists v, In (name l, v) row /\ (v == integral d pred (all_points ranks))%Q.
Proof.
  intros pred. induction ps as [| [l e] ps IH]; intros I name; cbn [map fst snd calc_domain_quantities].
  - exists [], []. repeat split. intros l d [].
  - destruct (pair_density l e (I _ (or_introl eq_refl))) as [d D]. destruct (pair_sum pred l e d (I _ (or_introl eq_refl)) D) as [v [E V]].
    rewrite E. cbn [obind]. destruct (IH (fun p H => I p (or_intror H)) name) as [vs [row [E1 [E2 [E3 E4]]]]]. rewrite E1. cbn [obind].
    exists (v :: vs), ((name l, v) :: row). split; [reflexivity |]. split; [cbn [add_values]; rewrite E2; reflexivity |]. split; [cbn [map fst]; rewrite E3; reflexivity |].
    intros l' d' [<- | Hl] D'.
    + exists v. split; [left; reflexivity |]. destruct (pair_sum pred l e d' (I _ (or_introl eq_refl)) D') as [v' [E' V']]. rewrite E in E'. injection E' as <-. exact V'.
    + destruct (E4 l' d' Hl D') as [w [W1 W2]]. exists w. split; [right; exact W1 | exact W2].
Qed.

Lemma box_loop_spec : forall boxes i, let ps := pairs k s max labels in
  exists row, box_loop filter accepted only (map fst ps) (map snd ps) ranks i boxes = Some row
    /\ map fst row = flat_map (fun j => map (fun l => generate_name accepted only l j) (expand max labels)) (seq i (length boxes))
    /\ forall j box l d, nth_error boxes j = Some box -> In l (expand max labels) -> density k s l d ->
         exists v, In (generate_name accepted only l (i + j), v) row /\ (v == integral d (box_weight filter box) (all_points ranks))%Q.
Proof.
  induction boxes as [| b boxes IH]; intros i ps; cbn [box_loop].
  - exists []. repeat split. intros j box l d H. destruct j; discriminate.
  - destruct (calc_spec (match b with Some b => filter b | None => fun _ => 1%Q end) ps (fun p H => H) (fun l => generate_name accepted only l i))
      as [vs [row [E1 [E2 [E3 E4]]]]].
    rewrite E1. cbn [obind]. rewrite E2. cbn [obind]. destruct (IH (S i)) as [rest [F1 [F2 F3]]]. fold ps in F1. rewrite F1. cbn [obind].
    exists (row ++ rest). split; [reflexivity |]. split.
    + rewrite map_app, E3, F2. unfold ps. rewrite pairs_fst. cbn [length seq flat_map]. reflexivity.
    + intros [| j] box l d H Hl D.
      * cbn [nth_error] in H. injection H as <-. destruct (E4 l d) as [v [V1 V2]]; [unfold ps; rewrite pairs_fst; exact Hl | exact D |].
        exists v. split; [rewrite Nat.add_0_r; apply in_or_app; left; exact V1 | destruct b; exact V2].
      * cbn [nth_error] in H. destruct (F3 j box l d H Hl D) as [v [V1 V2]]. exists v. split; [| exact V2].
        apply in_or_app. right. replace (i + S j) with (S i + j) by lia. exact V1.
Qed.
End Row.

(** ** Names *)

Fixpoint split_last (l : list ascii) : option (list ascii * list ascii) :=
  match l with
  | [] => None
  | c :: l => match split_last l with
              | Some (a, u) => Some (c :: a, u)
              | None => if Ascii.eqb c "_" then Some ([], l) else None
              end
  end.
Lemma split_last_none : forall u, ~ In "_"%char u -> split_last u = None.
Proof.
  induction u as [| c u IH]; intros H; [reflexivity |]. cbn [split_last]. rewrite IH by (intros X; apply H; right; exact X).
  destruct (Ascii.eqb_spec c "_"%char) as [-> | _]; [exfalso; apply H; left; reflexivity | reflexivity].
Qed.
Lemma split_last_app : forall a u, ~ In "_"%char u -> split_last (a ++ "_"%char :: u) = Some (a, u).
Proof.
  induction a as [| c a IH]; intros u H; cbn [app split_last].
  - rewrite split_last_none by exact H. reflexivity.
  - rewrite IH by exact H. reflexivity.
Qed.
Definition digit (c : ascii) : bool := existsb (Ascii.eqb c) ["0"; "1"; "2"; "3"; "4"; "5"; "6"; "7"; "8"; "9"]%char.
Lemma to_string_digits : forall n, forallb digit (list_ascii_of_string (to_string n)) = true.
Proof.
  intros n. unfold to_string. generalize (Nat.to_uint n). intros d.
  induction d; cbn [DecimalString.NilEmpty.string_of_uint list_ascii_of_string forallb]; try rewrite IHd; reflexivity.
Qed.
Lemma to_string_underscore : forall n, ~ In "_"%char (list_ascii_of_string (to_string n)).
Proof.
  intros n H. pose proof (to_string_digits n) as D. rewrite forallb_forall in D. specialize (D _ H). discriminate.
Qed.
Lemma list_ascii_app : forall a b, list_ascii_of_string (a ++ b) = list_ascii_of_string a ++ list_ascii_of_string b.
Proof. induction a as [| c a IH]; intros b; cbn; [reflexivity | rewrite IH; reflexivity]. Qed.
Lemma suffix_split : forall a n, split_last (list_ascii_of_string (a ++ "_" ++ to_string n)) = Some (list_ascii_of_string a, list_ascii_of_string (to_string n)).
Proof. intros a n. rewrite !list_ascii_app. cbn [list_ascii_of_string app]. apply split_last_app, to_string_underscore. Qed.
Lemma list_ascii_inj : forall a b, list_ascii_of_string a = list_ascii_of_string b -> a = b.
Proof. intros a b H. rewrite <- (string_of_list_ascii_of_string a), H. apply string_of_list_ascii_of_string. Qed.
Lemma suffix_inj : forall a b i j, (a ++ "_" ++ to_string i)%string = (b ++ "_" ++ to_string j)%string -> a = b /\ i = j.
Proof.
  intros a b i j H. apply (f_equal list_ascii_of_string) in H. apply (f_equal split_last) in H. rewrite !suffix_split in H.
  injection H as H1 H2. split; [apply list_ascii_inj; exact H1 | apply to_string_inj, list_ascii_inj; exact H2].
Qed.
(** Not a number at the end *)
Definition plain (l : string) : Prop := match split_last (list_ascii_of_string l) with Some (_, u) => forallb digit u = false | None => True end.
Lemma plain_suffix : forall l a i, plain l -> l <> (a ++ "_" ++ to_string i)%string.
Proof. intros l a i H E. subst l. unfold plain in H. rewrite suffix_split, to_string_digits in H. discriminate. Qed.
Lemma known_plain : forall k l, known k l = true -> plain l.
Proof.
  intros k l H. destruct k; cbn [known existsb] in H;
    repeat (apply orb_true_iff in H; destruct H as [H | H]); try discriminate; apply String.eqb_eq in H; subst l; vm_compute; reflexivity.
Qed.
Lemma op_split : forall i, ("op_" ++ to_string i)%string = ("op" ++ "_" ++ to_string i)%string.
Proof. reflexivity. Qed.

(** Labels of columns: a known name or an order parameter *)
Lemma expand_cases : forall k max labels l, forallb (ok k) labels = true -> In l (expand max labels) ->
  known k l = true /\ In l labels \/ exists i, l = ("op_" ++ to_string i)%string.
Proof.
  intros k max labels l OK H. unfold expand in H. apply in_flat_map in H. destruct H as [l' [H1 H2]].
  rewrite forallb_forall in OK. specialize (OK l' H1). unfold ok in OK. destruct (String.eqb l' "order_params").
  - apply in_map_iff in H2. destruct H2 as [i [<- _]]. right. exists i. reflexivity.
  - destruct H2 as [<- | []]. left. split; [exact OK | exact H1].
Qed.
Lemma expand_nodup : forall k max labels, forallb (ok k) labels = true -> NoDup labels -> NoDup (expand max labels).
Proof.
  intros k max. induction labels as [| l labels IH]; intros OK ND; [constructor |].
  cbn [forallb] in OK. apply andb_true_iff in OK. destruct OK as [O1 O2]. inversion ND as [| x y N1 N2]; subst.
  specialize (IH O2 N2). cbn [expand flat_map]. fold (expand max labels).
  unfold ok in O1. destruct (String.eqb l "order_params") eqn:EO.
  - apply String.eqb_eq in EO. subst l.
    assert (NI : forall i, ~ In ("op_" ++ to_string i)%string (expand max labels)).
    { intros i H. unfold expand in H. apply in_flat_map in H. destruct H as [l' [H1 H2]].
      destruct (String.eqb l' "order_params") eqn:E; [apply String.eqb_eq in E; subst; contradiction |].
      destruct H2 as [H2 | []]. rewrite forallb_forall in O2. specialize (O2 l' H1). unfold ok in O2. rewrite E in O2. cbn [orb] in O2.
      apply (named_not_op k l' i O2 H2). }
    clear N1 N2 ND. generalize (seq_NoDup max 0). generalize (seq 0 max). induction l as [| i l IHl]; intros Hs; [exact IH |].
    inversion Hs; subst. cbn [map app]. constructor; [| apply IHl; assumption].
    rewrite in_app_iff. intros [H | H]; [| apply (NI i H)]. apply in_map_iff in H. destruct H as [j [H Hj]]. apply op_string_inj in H. subst. contradiction.
  - cbn [app]. constructor; [| exact IH]. intros H. destruct (expand_cases k max labels l O2 H) as [[_ Hl] | [i Hi]]; [contradiction |].
    apply (named_not_op k l i O1 Hi).
Qed.
Lemma generate_cases : forall {B} (accepted : list B) only l i,
  generate_name accepted only l i = l \/ exists j, generate_name accepted only l i = (l ++ "_" ++ to_string j)%string.
Proof.
  intros B accepted only l i. unfold generate_name. destruct (Nat.eqb (length accepted) 0); [left; reflexivity |].
  destruct only; [right; eexists; reflexivity |]. destruct (Nat.eqb i 0); [left; reflexivity | right; eexists; reflexivity].
Qed.
Lemma column_inj : forall {B} k max labels (accepted : list B) only l l' i j, forallb (ok k) labels = true ->
  In l (expand max labels) -> In l' (expand max labels) ->
  generate_name accepted only l i = generate_name accepted only l' j -> l = l'.
Proof.
  intros B k max labels accepted only l l' i j OK H H' E.
  assert (Base : forall a b n, In a (expand max labels) -> In b (expand max labels) -> a <> (b ++ "_" ++ to_string n)%string).
  { intros a b n Ha Hb X. destruct (expand_cases k max labels a OK Ha) as [[Ka _] | [p Hp]].
    - apply (plain_suffix a b n (known_plain k a Ka) X).
    - rewrite Hp, op_split in X. apply suffix_inj in X. destruct X as [X _].
      destruct (expand_cases k max labels b OK Hb) as [[Kb _] | [q Hq]]; [rewrite <- X in Kb; destruct k; discriminate |].
      rewrite <- X in Hq. discriminate. }
  destruct (generate_cases accepted only l i) as [E1 | [p E1]], (generate_cases accepted only l' j) as [E2 | [q E2]]; rewrite E1, E2 in E.
  - exact E.
  - exfalso. apply (Base l l' q H H' E).
  - exfalso. symmetry in E. apply (Base l' l p H' H E).
  - apply suffix_inj in E. apply E.
Qed.
Lemma first_fresh : forall {B} k max labels (accepted : list B) only l i, forallb (ok k) labels = true ->
  In l (expand max labels) -> ~ In (generate_name accepted only l i) first_columns.
Proof.
  intros B k max labels accepted only l i OK H F.
  assert (PL : forall x, In x first_columns -> plain x /\ known k x = false /\ forall n, x <> ("op_" ++ to_string n)%string).
  { intros x Hx. cbn [first_columns In] in Hx. repeat (destruct Hx as [<- | Hx]; [split; [vm_compute; first [reflexivity | exact I] | split; [destruct k; reflexivity | intros n X; discriminate X]] |]). destruct Hx. }
  destruct (PL _ F) as [P1 [P2 P3]]. destruct (generate_cases accepted only l i) as [E | [j E]]; rewrite E in *.
  - destruct (expand_cases k max labels l OK H) as [[K _] | [n Hn]]; [congruence | apply (P3 n Hn)].
  - apply (plain_suffix _ l j P1 eq_refl).
Qed.
Lemma NoDup_app_intro : forall {A} (a b : list A), NoDup a -> NoDup b -> (forall x, In x a -> ~ In x b) -> NoDup (a ++ b).
Proof.
  intros A. induction a as [| x a IH]; intros b Na Nb D; [exact Nb |]. inversion Na; subst. cbn [app]. constructor.
  - rewrite in_app_iff. intros [H | H]; [contradiction | apply (D x (or_introl eq_refl) H)].
  - apply IH; [assumption | exact Nb | intros y Hy; apply D; right; exact Hy].
Qed.
Lemma NoDup_map_in : forall {A C} (f : A -> C) l, NoDup l -> (forall x y, In x l -> In y l -> f x = f y -> x = y) -> NoDup (map f l).
Proof.
  intros A C f. induction l as [| x l IH]; intros N I; [constructor |]. inversion N; subst. cbn [map]. constructor.
  - intros H. apply in_map_iff in H. destruct H as [y [E Hy]]. assert (y = x) by (apply I; [right; exact Hy | left; reflexivity | exact E]). subst. contradiction.
  - apply IH; [assumption | intros a b Ha Hb; apply I; right; assumption].
Qed.

(** ** Every row has the same, distinct columns: the nine fixed ones, then those of the boxes
    one after another *)
Theorem C115_columns : forall (P B : Type) k s max (filter : B -> P -> Q) accepted only labels first ranks,
  labels <> [] -> (forall l, In l labels -> accepts k l) -> length first = 9 -> complete k s ranks ->
  exists row, table_row k s max filter accepted only labels first ranks = Some row
    /\ map fst row = ["step"; "time"; "dt"; "n_dofs"; "n_op"; "n_grains"; "n_newton_iter"; "n_linear_iter"; "n_resid_eval"]%string
                     ++ flat_map (fun j => map (fun l => generate_name accepted only l j) (expand max labels)) (seq 0 (length (box_filters accepted only)))
    /\ (NoDup labels -> NoDup (map fst row)).
Proof.
  intros P B k s max filter accepted only labels first ranks NE A LF C.
  assert (OK : forallb (ok k) labels = true) by (apply forallb_forall; intros l Hl; apply accepts_ok, A, Hl).
  destruct (box_loop_spec k s max filter accepted only labels ranks OK C (box_filters accepted only) 0) as [row [E [N _]]].
  exists (combine first_columns first ++ row). split.
  - unfold table_row. destruct labels as [| l0 ls]; [congruence |]. rewrite build_spec, OK. cbn [obind fst snd app]. rewrite E. reflexivity.
  - assert (FC : map fst (combine first_columns first) = first_columns).
    { do 9 (destruct first as [| ? first]; [discriminate |]). destruct first; [reflexivity | discriminate]. }
    rewrite map_app, FC, N. split; [reflexivity |]. intros ND. apply NoDup_app_intro.
    + repeat constructor; cbn [In]; intuition discriminate.
    + pose proof (C97_boxes B accepted only) as NB.
      assert (G : forall js, NoDup js -> (forall j, In j js -> j < length (box_filters accepted only)) ->
        NoDup (flat_map (fun j => map (fun l => generate_name accepted only l j) (expand max labels)) js)).
      { induction js as [| j js IH]; intros Nj Lj; [constructor |]. inversion Nj; subst. cbn [flat_map]. apply NoDup_app_intro.
        - apply NoDup_map_in; [apply (expand_nodup k); assumption |]. intros x y Hx Hy Exy. apply (column_inj k max labels accepted only x y j j OK Hx Hy Exy).
        - apply IH; [assumption | intros i Hi; apply Lj; right; exact Hi].
        - intros x Hx Hx2. apply in_map_iff in Hx. destruct Hx as [l [<- Hl]]. apply in_flat_map in Hx2. destruct Hx2 as [j' [Hj' Hx2]].
          apply in_map_iff in Hx2. destruct Hx2 as [l' [E2 Hl']].
          assert (l' = l) by (apply (column_inj k max labels accepted only l' l j' j OK Hl' Hl E2)). subst l'.
          destruct (NB l) as [_ [_ [_ I4]]]. assert (j' = j) by (apply I4; [apply Lj; right; exact Hj' | apply Lj; left; reflexivity | exact E2]). subst. contradiction. }
      apply G; [apply seq_NoDup | intros j Hj; apply in_seq in Hj; lia].
    + intros x Hx Hx2. apply in_flat_map in Hx2. destruct Hx2 as [j [_ Hx2]]. apply in_map_iff in Hx2. destruct Hx2 as [l [<- Hl]].
      apply (first_fresh k max labels accepted only l j OK Hl Hx).
Qed.
Print Assumptions C115_columns.

(** ** The column of a quantity and a box holds the integral of that quantity over all cells,
    each counted once, weighted by the filter of the box *)
Theorem C115_integral : forall (P B : Type) k s max (filter : B -> P -> Q) accepted only labels first ranks row,
  (forall l, In l labels -> accepts k l) -> complete k s ranks ->
  table_row k s max filter accepted only labels first ranks = Some row ->
  forall l d j box, In l (expand max labels) -> density k s l d -> nth_error (box_filters accepted only) j = Some box ->
  exists v, In (generate_name accepted only l j, v) row /\ (v == integral d (box_weight filter box) (all_points ranks))%Q.
Proof.
  intros P B k s max filter accepted only labels first ranks row A C E l d j box Hl D Hj.
  assert (OK : forallb (ok k) labels = true) by (apply forallb_forall; intros x Hx; apply accepts_ok, A, Hx).
  destruct (box_loop_spec k s max filter accepted only labels ranks OK C (box_filters accepted only) 0) as [row' [E' [_ F]]].
  unfold table_row in E. destruct labels as [| l0 ls]; [destruct Hl |]. rewrite build_spec, OK in E. cbn [obind fst snd app] in E. rewrite E' in E. cbn [obind] in E. injection E as <-.
  destruct (F j box l d Hj Hl D) as [v [V1 V2]]. exists v. split; [apply in_or_app; right; exact V1 | exact V2].
Qed.
Print Assumptions C115_integral.

(** The three energies of a row belong together *)
Theorem C115_energies : forall (P B : Type) k s max (filter : B -> P -> Q) accepted only labels first ranks row j a b c,
  (forall l, In l labels -> accepts k l) -> NoDup labels -> length first = 9 -> complete k s ranks ->
  table_row k s max filter accepted only labels first ranks = Some row -> j < length (box_filters accepted only) ->
  In "free_energy"%string labels -> In "bulk_energy"%string labels -> In "interface_energy"%string labels ->
  In (generate_name accepted only "free_energy" j, a) row -> In (generate_name accepted only "bulk_energy" j, b) row -> In (generate_name accepted only "interface_energy" j, c) row ->
  (a == b + c)%Q.
Proof.
  intros P B k s max filter accepted only labels first ranks row j a b c A ND LF C E Lj I1 I2 I3 Ha Hb Hc.
  destruct (nth_error (box_filters accepted only) j) as [box |] eqn:Hj; [| apply nth_error_None in Hj; lia].
  assert (NE : labels <> []) by (intros ->; destruct I1).
  destruct (C115_columns P B k s max filter accepted only labels first ranks NE A LF C) as [row' [E' [_ N]]]. rewrite E in E'. injection E' as <-. specialize (N ND).
  assert (U : forall name x y, In (name, x) row -> In (name, y) row -> x = y).
  { clear - N. intros name x y. induction row as [| [n z] row IH]; intros [] ; cbn [map fst] in N; inversion N; subst.
    - injection H as -> ->. intros [H | H]; [congruence |]. exfalso. apply H2. apply in_map_iff. exists (name, y). split; [reflexivity | exact H].
    - intros [H' | H'].
      + injection H' as -> ->. exfalso. apply H2. apply in_map_iff. exists (name, x). split; [reflexivity | exact H].
      + apply IH; assumption. }
  assert (X : forall l, In l labels -> l <> "order_params"%string -> In l (expand max labels)).
  { intros l Hl Nl. unfold expand. apply in_flat_map. exists l. split; [exact Hl |]. destruct (String.eqb_spec l "order_params"); [contradiction | left; reflexivity]. }
  assert (K : k <> Greenquist).
  { intros ->. specialize (A _ I1). apply accepts_ok in A. discriminate. }
  destruct (C115_integral P B k s max filter accepted only labels first ranks row A C E "free_energy"%string _ j box (X _ I1 ltac:(discriminate)) (d_free k s K) Hj) as [a' [A1 A2]].
  destruct (C115_integral P B k s max filter accepted only labels first ranks row A C E "bulk_energy"%string _ j box (X _ I2 ltac:(discriminate)) (d_bulk k s K) Hj) as [b' [B1 B2]].
  destruct (C115_integral P B k s max filter accepted only labels first ranks row A C E "interface_energy"%string _ j box (X _ I3 ltac:(discriminate)) (d_interface k s K) Hj) as [c' [C1 C2]].
  rewrite (U _ _ _ Ha A1), (U _ _ _ Hb B1), (U _ _ _ Hc C1), A2, B2, C2. clear.
  unfold integral, qsum. induction (all_points ranks) as [| q l IH]; cbn [map fold_right]; [lra |]. rewrite IH. lra.
Qed.
Print Assumptions C115_energies.

(** ** A label the operator does not know ends the run *)
Theorem C115_unknown : forall (P B : Type) k s max (filter : B -> P -> Q) accepted only labels first ranks l,
  In l labels -> ~ accepts k l -> table_row k s max filter accepted only labels first ranks = None.
Proof.
  intros P B k s max filter accepted only labels first ranks l Hl NA. unfold table_row. destruct labels as [| l0 ls]; [destruct Hl |].
  rewrite build_spec. replace (forallb (ok k) (l0 :: ls)) with false; [reflexivity |]. symmetry. apply not_true_is_false.
  intros H. rewrite forallb_forall in H. apply NA, accepts_ok, H, Hl.
Qed.
Print Assumptions C115_unknown.

(** The default labels are those of the sintering operators: with them the programs for grain
    growth and for the grand potential cannot write a table *)
Theorem C115_default_refuted : forall (P B : Type) s max (filter : B -> P -> Q) accepted only first ranks,
  table_row GrainGrowth s max filter accepted only default_integrals first ranks = None
  /\ table_row Greenquist s max filter accepted only default_integrals first ranks = None
  /\ (complete Sintering s ranks -> length first = 9 -> table_row Sintering s max filter accepted only default_integrals first ranks <> None).
Proof.
  intros P B s max filter accepted only first ranks. split; [reflexivity | split; [reflexivity |]]. intros C L.
  destruct (C115_columns P B Sintering s max filter accepted only default_integrals first ranks) as [row [E _]]; [discriminate | | exact L | exact C | rewrite E; discriminate].
  intros l Hl. apply accepts_ok. cbn [default_integrals In] in Hl. repeat (destruct Hl as [<- | Hl]; [reflexivity |]). destruct Hl.
Qed.
Print Assumptions C115_default_refuted.

Example C115_applies :
  let s := mkSet 2 1 2 (fun v => nth 0 v 0%Q) in
  let q x w := mkPt w x [1 # 2; 0; 1 # 4; 1 # 2]%Q [[1; 1]; [0; 0]; [2; 0]; [0; 1]]%Q in
  let ranks := [[mkBatch 1 [[q 1 1; q 3 2]; [q 1 7]]]; [mkBatch 1 [[q 3 3]]]]%Q in
  complete Sintering s ranks
  /\ option_map (map (fun c => (fst c, Qred (snd c)))) (table_row Sintering s 3 (fun b x => if Qle_bool x b then 1 else 0)%Q [2%Q] false
       ["free_energy"; "gb_area"; "order_params"]%string [0; 0; 0; 0; 0; 0; 0; 0; 0]%Q ranks)
     = Some (combine first_columns [0; 0; 0; 0; 0; 0; 0; 0; 0]%Q
         ++ [("free_energy", 39); ("gb_area", 3 # 4); ("op_0", 3 # 2); ("op_1", 3); ("op_2", 0);
             ("free_energy_0", 13 # 2); ("gb_area_0", 1 # 8); ("op_0_0", 1 # 4); ("op_1_0", 1 # 2); ("op_2_0", 0)]%string%Q).
Proof.
  split; [| vm_compute; reflexivity]. intros r b Hr Hb. cbn [In] in Hr. destruct Hr as [<- | [<- | []]]; cbn [In] in Hb; destruct Hb as [<- | []]; cbn [b_active b_lanes length]; (split; [lia |]);
    intros l q Hl Hq; cbn [In] in Hl; repeat (destruct Hl as [<- | Hl]; [cbn [In] in Hq; repeat (destruct Hq as [<- | Hq]; [split; reflexivity |]); destruct Hq |]); destruct Hl.
Qed.
