(** Properties C28, C29 and C49: derivatives of the free energy, bulk states and material
    parameters, power sums. *)
From Coq Require Import List Reals Arith Lia Lra Psatz.
From Verif Require Import Util FreeEnergyModel FreeEnergyProofs.
Import ListNotations.
Local Open Scope R_scope.

(** ** C49 *)

(** every variant of the power sum, for every number of entries and every power, is the
    sum of the powers (of the first [n] entries for the pointer variant) *)
Theorem C49_power_sums : forall n p etas, (n <= length etas)%nat ->
  power_sum n p etas = Some (fold_right Rplus 0 (map (fun e => e ^ p) (firstn n etas)))
  /\ power_loop p etas n 0 0 = Some (fold_right Rplus 0 (map (fun e => e ^ p) (firstn n etas)))
  /\ power_accumulate p (firstn n etas) = fold_right Rplus 0 (map (fun e => e ^ p) (firstn n etas)).
Proof.
  intros n p etas H.
  assert (P : forall l, psum p l = fold_right Rplus 0 (map (fun e => e ^ p) l)).
  { induction l as [| e l IH]; cbn [psum map fold_right]; [reflexivity | rewrite IH; reflexivity]. }
  rewrite <- P, power_sum_spec, power_accumulate_spec by exact H.
  rewrite power_loop_spec by exact H. cbn [skipn]. rewrite Rplus_0_l. auto.
Qed.
Print Assumptions C49_power_sums.

(** reading fewer values than announced is the only failure *)
Theorem C49_defined : forall n p etas, power_sum n p etas = None <-> (length etas < n)%nat.
Proof.
  intros n p etas. split.
  - intros H. destruct (le_lt_dec n (length etas)) as [L | L]; [| exact L].
    rewrite power_sum_spec in H by exact L. discriminate.
  - intros H.
    assert (G : forall k i acc, (length etas < i + k)%nat -> (i <= length etas)%nat -> power_loop p etas k i acc = None).
    { induction k as [| k IH]; intros i acc L L'; [lia |]. cbn [power_loop].
      destruct (vget etas i) as [e |] eqn:E; [| reflexivity]. cbn [obind]. apply IH; [lia |].
      assert (i < length etas)%nat by (apply nth_error_Some; unfold vget in E; congruence). lia. }
    destruct n as [| [| [| n]]]; try (apply G; lia).
    destruct etas as [| a [| b l]]; [| | cbn in H; lia];
      destruct p as [| [| [| [| p]]]]; try reflexivity; apply G; cbn in *; lia.
Qed.
Print Assumptions C49_defined.

Example C49_case : power_sum 2 3 [2; 3] = Some 35 /\ power_sum 3 3 [2; 3; 4; 7] = Some 99 /\ power_accumulate 2 [2; 3; 4] = 29.
Proof. unfold power_accumulate, fixed_power. cbn. repeat split; try f_equal; ring. Qed.

(** ** C28 *)

(** the evaluators, number of grains known at compile time or at run time *)
Definition evaluator (dynamic : bool) := if dynamic then eval_dynamic else eval_static.

Lemma evaluator_spec : forall dynamic w A B c mu etas,
  evaluator dynamic w A B (c :: mu :: etas) (length etas)
  = Some (mkEval A B c (psum 2 etas) (if w then Some (psum 3 etas) else None)).
Proof. intros [|] *; [apply eval_dynamic_spec | apply eval_static_spec]. Qed.

(** The evaluators return an energy [F] for every state, and what they report as first
    derivatives are the partial derivatives of [F], for any number of grains. *)
Theorem C28_first_derivatives : forall dynamic A B mu, exists F : R -> list R -> R,
  (forall c etas, exists e, evaluator dynamic true A B (c :: mu :: etas) (length etas) = Some e /\ f e = Some (F c etas))
  /\ (forall c etas e, evaluator dynamic true A B (c :: mu :: etas) (length etas) = Some e ->
        (exists d, df_dc e = Some d /\ derivable_pt_lim (fun x => F x etas) c d)
        /\ (forall i etai, nth_error etas i = Some etai ->
              derivable_pt_lim (fun x => F c (upd etas i x)) etai (df_detai e etai))).
Proof.
  intros dynamic A B mu.
  exists (fun c etas => A * (c * c) * ((- c + 1) * (- c + 1)) + B * ((c * c) + (-6 * c + 6) * psum 2 etas - (-4 * c + 8) * psum 3 etas + 3 * (psum 2 etas * psum 2 etas))).
  split.
  - intros c etas. rewrite evaluator_spec. eexists. split; reflexivity.
  - intros c etas e. rewrite evaluator_spec. intros E. injection E as <-. split.
    + eexists. split; [reflexivity |]. cbn [e_A e_B e_c e_s2].
      set (s2 := psum 2 etas). set (s3 := psum 3 etas).
      apply (quartic_deriv (B * (6 * s2 - 8 * s3 + 3 * s2 * s2)) (B * (-6 * s2 + 4 * s3)) (A + B) (-2 * A) A); [intros y |]; ring.
    + intros i etai Hi. unfold df_detai. cbn [e_A e_B e_c e_s2].
      set (s2 := psum 2 etas - etai ^ 2). set (s3 := psum 3 etas - etai ^ 3).
      apply (quartic_deriv (A * (c * c) * ((- c + 1) * (- c + 1)) + B * (c * c + (6 - 6 * c) * s2 - (8 - 4 * c) * s3 + 3 * s2 * s2)) 0
               (B * (6 - 6 * c + 6 * s2)) (- B * (8 - 4 * c)) (3 * B)).
      * intros y. rewrite !(psum_upd _ _ _ _ _ Hi). fold s2 s3. ring.
      * replace (psum 2 etas) with (s2 + etai ^ 2) by (unfold s2; ring). ring.
Qed.
Print Assumptions C28_first_derivatives.

(** The first derivatives are functions [Fc], [Fe i] of the state, and what the evaluators
    (with or without the sum of third powers) report as second derivatives are the partial
    derivatives of these. *)
Theorem C28_second_derivatives : forall dynamic A B mu, exists (Fc : R -> list R -> R) (Fe : nat -> R -> list R -> R),
  (forall c etas, exists e, evaluator dynamic true A B (c :: mu :: etas) (length etas) = Some e /\ df_dc e = Some (Fc c etas))
  /\ (forall w c etas, exists e, evaluator dynamic w A B (c :: mu :: etas) (length etas) = Some e
        /\ forall i etai, nth_error etas i = Some etai -> df_detai e etai = Fe i c etas)
  /\ (forall w c etas e, evaluator dynamic w A B (c :: mu :: etas) (length etas) = Some e ->
        derivable_pt_lim (fun x => Fc x etas) c (d2f_dc2 e)
        /\ (forall i etai, nth_error etas i = Some etai ->
              derivable_pt_lim (fun x => Fc c (upd etas i x)) etai (d2f_dcdetai e etai)
              /\ derivable_pt_lim (fun x => Fe i x etas) c (d2f_dcdetai e etai)
              /\ derivable_pt_lim (fun x => Fe i c (upd etas i x)) etai (d2f_detai2 e etai))
        /\ (forall i j etai etaj, i <> j -> nth_error etas i = Some etai -> nth_error etas j = Some etaj ->
              derivable_pt_lim (fun x => Fe i c (upd etas j x)) etaj (d2f_detaidetaj e etai etaj)
              /\ derivable_pt_lim (fun x => Fe j c (upd etas i x)) etai (d2f_detaidetaj e etai etaj))).
Proof.
  intros dynamic A B mu.
  set (D := fun c s2 etai => etai * (B * 12) * (etai * (1 * c - 2) + (- c + 1) + s2)).
  exists (fun c etas => A * (c * c) * (2 * c - 2) + 2 * A * c * ((- c + 1) * (- c + 1)) + B * (2 * c - 6 * psum 2 etas + 4 * psum 3 etas)).
  exists (fun i c etas => match nth_error etas i with Some etai => D c (psum 2 etas) etai | None => 0 end).
  assert (X : forall c etas i j etai etaj, i <> j -> nth_error etas i = Some etai -> nth_error etas j = Some etaj ->
    derivable_pt_lim (fun x => match nth_error (upd etas j x) i with Some etai => D c (psum 2 (upd etas j x)) etai | None => 0 end) etaj (24 * B * etai * etaj)).
  { intros c etas i j etai etaj Hij Hi Hj.
    set (s2 := psum 2 etas - etaj ^ 2).
    apply (quartic_deriv (D c s2 etai) 0 (12 * B * etai) 0 0).
    - intros y. rewrite nth_upd_other by congruence. rewrite Hi, (psum_upd _ _ _ _ _ Hj). fold s2. unfold D. ring.
    - ring. }
  repeat split.
  - intros c etas. rewrite evaluator_spec. eexists. split; reflexivity.
  - intros w c etas. rewrite evaluator_spec. eexists. split; [reflexivity |]. intros i etai Hi. rewrite Hi. reflexivity.
  - revert H. rewrite evaluator_spec. intros E. injection E as <-. unfold d2f_dc2. cbn [e_A e_B e_c e_s2].
    apply (quartic_deriv (B * (-6 * psum 2 etas + 4 * psum 3 etas)) (2 * A + 2 * B) (-6 * A) (4 * A) 0); [intros y |]; ring.
  - revert H. rewrite evaluator_spec. intros E. injection E as <-. unfold d2f_dcdetai. cbn [e_A e_B e_c e_s2].
    set (s2 := psum 2 etas - etai ^ 2). set (s3 := psum 3 etas - etai ^ 3).
    apply (quartic_deriv (A * (c * c) * (2 * c - 2) + 2 * A * c * ((- c + 1) * (- c + 1)) + B * (2 * c - 6 * s2 + 4 * s3)) 0 (-6 * B) (4 * B) 0);
      [intros y; rewrite !(psum_upd _ _ _ _ _ H0); fold s2 s3 |]; ring.
  - revert H. rewrite evaluator_spec. intros E. injection E as <-. unfold d2f_dcdetai. cbn [e_A e_B e_c e_s2].
    apply (quartic_deriv (etai * (B * 12) * (-2 * etai + 1 + psum 2 etas)) (B * 12 * etai * (etai - 1)) 0 0 0);
      [intros y; rewrite H0; unfold D |]; ring.
  - revert H. rewrite evaluator_spec. intros E. injection E as <-. unfold d2f_detai2. cbn [e_A e_B e_c e_s2].
    set (s2 := psum 2 etas - etai ^ 2).
    apply (quartic_deriv 0 (12 * B * (1 - c + s2)) (12 * B * (c - 2)) (12 * B) 0).
    + intros y. rewrite (nth_upd _ _ _ _ H0), (psum_upd _ _ _ _ _ H0). fold s2. unfold D. ring.
    + replace (psum 2 etas) with (s2 + etai ^ 2) by (unfold s2; ring). ring.
  - revert H. rewrite evaluator_spec. intros E. injection E as <-. unfold d2f_detaidetaj. cbn [e_A e_B e_c e_s2].
    apply X; auto.
  - revert H. rewrite evaluator_spec. intros E. injection E as <-. unfold d2f_detaidetaj. cbn [e_A e_B e_c e_s2].
    replace (24 * B * etai * etaj) with (24 * B * etaj * etai) by ring. apply X; auto.
Qed.
Print Assumptions C28_second_derivatives.

(** The product with the mixed second derivatives adds, to the entry of each grain, [L]
    times the sum over all other grains of the second derivative times the value. *)
Theorem C28_mixed_product : forall L A B c s2 s3 etas value result,
  length value = length etas -> length result = length etas ->
  exists result', apply_d2f_detaidetaj L B etas (length etas) value result = Some result'
    /\ length result' = length etas
    /\ forall i etai r, nth_error etas i = Some etai -> nth_error result i = Some r ->
         nth_error result' i = Some (r + L * fold_right Rplus 0 (map (fun j =>
            if Nat.eqb j i then 0 else d2f_detaidetaj (mkEval A B c s2 s3) etai (nth j etas 0) * nth j value 0) (seq 0 (length etas)))).
Proof.
  intros L A B c s2 s3 etas value result Lv Lr.
  assert (DS : forall i etai v, nth_error etas i = Some etai -> nth_error value i = Some v ->
    fold_right Rplus 0 (map (fun j => if Nat.eqb j i then 0 else d2f_detaidetaj (mkEval A B c s2 s3) etai (nth j etas 0) * nth j value 0) (seq 0 (length etas)))
    = 24 * B * etai * (dotp etas value - etai * v)).
  { intros i etai v Hi Hv. unfold d2f_detaidetaj. cbn [e_B]. set (k := 24 * B * etai). clearbody k.
    clear Lr result.
    assert (G : forall l m o i' , length m = length l ->
       fold_right Rplus 0 (map (fun j => if Nat.eqb j (o + i') then 0 else k * nth (j - o) l 0 * nth (j - o) m 0) (seq o (length l)))
       = k * (dotp l m - match nth_error l i', nth_error m i' with Some a, Some b => a * b | _, _ => 0 end)).
    { clear. induction l as [| a l IH]; intros m o i' H; destruct m as [| b m]; cbn in H; try discriminate.
      - cbn. destruct i'; cbn; ring.
      - cbn [length seq map fold_right dotp]. rewrite Nat.sub_diag. cbn [nth].
        assert (T : forall q, map (fun j => if Nat.eqb j q then 0 else k * nth (j - o) (a :: l) 0 * nth (j - o) (b :: m) 0) (seq (S o) (length l))
                  = map (fun j => if Nat.eqb j q then 0 else k * nth (j - S o) l 0 * nth (j - S o) m 0) (seq (S o) (length l))).
        { intros q. apply map_ext_in. intros j Hj. apply in_seq in Hj. replace (j - o)%nat with (S (j - S o)) by lia. reflexivity. }
        rewrite T. destruct i' as [| i'].
        + rewrite Nat.add_0_r, Nat.eqb_refl. cbn [nth_error].
          assert (U : map (fun j => if Nat.eqb j o then 0 else k * nth (j - S o) l 0 * nth (j - S o) m 0) (seq (S o) (length l))
                    = map (fun j => if Nat.eqb j (S o + length l) then 0 else k * nth (j - S o) l 0 * nth (j - S o) m 0) (seq (S o) (length l))).
          { apply map_ext_in. intros j Hj. apply in_seq in Hj.
            destruct (Nat.eqb_spec j o), (Nat.eqb_spec j (S o + length l)); try lia. reflexivity. }
          rewrite U, IH by congruence. rewrite (proj2 (nth_error_None l (length l))) by lia. ring.
        + destruct (Nat.eqb_spec o (o + S i')) as [C | _]; [lia |].
          replace (o + S i')%nat with (S o + i')%nat by lia. rewrite IH by congruence. cbn [nth_error].
          destruct (nth_error l i'), (nth_error m i'); ring. }
    specialize (G etas value 0%nat i Lv). cbn [Nat.add] in G.
    transitivity (fold_right Rplus 0 (map (fun j => if Nat.eqb j i then 0 else k * nth (j - 0) etas 0 * nth (j - 0) value 0) (seq 0 (length etas)))).
    - f_equal. apply map_ext. intros j. rewrite Nat.sub_0_r. reflexivity.
    - rewrite G, Hi, Hv. reflexivity. }
  unfold apply_d2f_detaidetaj. destruct (Nat.leb_spec (length etas) 1) as [S1 | S1].
  - exists result. split; [reflexivity |]. split; [exact Lr |]. intros i etai r Hi Hr. rewrite Hr. f_equal.
    assert (i < length etas)%nat by (apply nth_error_Some; congruence).
    destruct etas as [| a [| b l]]; cbn in S1, H; try lia.
    assert (i = 0%nat) by lia. subst i. cbn. ring.
  - destruct etas as [| a l]; [cbn in S1; lia |]. destruct value as [| b m]; [discriminate |].
    cbn [vget nth_error obind].
    rewrite dot_loop_spec by (cbn [length] in *; lia). cbn [skipn length obind].
    rewrite Nat.sub_succ, Nat.sub_0_r. rewrite (firstn_all l).
    assert (FM : firstn (length l) m = m) by (apply firstn_all2; cbn in Lv; lia). rewrite FM.
    destruct (add_loop_some (L * 24 * B) (a :: l) (b :: m) (a * b + dotp l m) (S (length l)) 0 result) as [result' E];
      try (cbn [length] in *; lia).
    exists result'. split; [exact E |]. apply add_loop_spec in E. destruct E as [Ln G]. split; [rewrite Ln; exact Lr |].
    intros i etai r Hi Hr. change (nth_error result' i) with (vget result' i). rewrite G.
    assert (Li : (i < length (a :: l))%nat) by (apply nth_error_Some; congruence).
    destruct (Nat.leb_spec 0 i), (Nat.ltb_spec i (0 + S (length l))); try (cbn [length] in Li; lia). cbn [andb].
    unfold vget. rewrite Hi, Hr.
    destruct (nth_error (b :: m) i) as [v |] eqn:Hv. 2:{ apply nth_error_None in Hv. lia. }
    f_equal. change (S (length l)) with (length (a :: l)). rewrite (DS i etai v Hi Hv). cbn [dotp]. ring.
Qed.
Print Assumptions C28_mixed_product.

Example C28_case : exists e, evaluator true true 1 2 [1/2; 0; 1; 2; 3] 3 = Some e
  /\ df_dc e = Some 122 /\ df_detai e 2 = 552 /\ d2f_detai2 e 2 = 396 /\ d2f_detaidetaj e 1 3 = 144.
Proof.
  eexists. split; [reflexivity |]. unfold df_dc, df_detai, d2f_detai2, d2f_detaidetaj, power_accumulate, fixed_power.
  cbn. repeat split; [f_equal | | |]; lra.
Qed.
Example C28_mixed_case : apply_d2f_detaidetaj 1 1 [1; 2] 2 [3; 4] [5; 6] = Some [5 + 24 * 8; 6 + 48 * 3].
Proof. cbn. repeat f_equal; ring. Qed.

(** an evaluator without the third powers does not report an energy *)
Theorem C28_no_power_3 : forall dynamic A B c mu etas e,
  evaluator dynamic false A B (c :: mu :: etas) (length etas) = Some e -> f e = None /\ df_dc e = None.
Proof. intros *. rewrite evaluator_spec. intros E. injection E as <-. split; reflexivity. Qed.
Print Assumptions C28_no_power_3.

(** ** C29 *)

(** bulk state: no grain, or exactly one grain is one and the others are zero *)
Definition void_state (c : R) (etas : list R) : Prop := c = 0 /\ Forall (fun e => e = 0) etas.
Definition grain_state (c : R) (etas : list R) : Prop :=
  c = 1 /\ exists i, (i < length etas)%nat /\ forall j, nth_error etas j = if Nat.ltb j (length etas) then Some (if Nat.eqb j i then 1 else 0) else None.

Lemma psum_zero : forall p etas, (0 < p)%nat -> Forall (fun e => e = 0) etas -> psum p etas = 0.
Proof.
  intros p etas Hp. induction 1 as [| e l -> _ IH]; cbn [psum]; [reflexivity |].
  rewrite IH, pow_i by lia. ring.
Qed.

Lemma psum_grain : forall p etas i, (0 < p)%nat -> (i < length etas)%nat ->
  (forall j, nth_error etas j = if Nat.ltb j (length etas) then Some (if Nat.eqb j i then 1 else 0) else None) ->
  psum p etas = 1.
Proof.
  intros p etas i Hp Hi H.
  assert (E : etas = upd (repeat 0 (length etas)) i 1).
  { apply list_ext. intros j. unfold vget. rewrite H.
    destruct (Nat.ltb_spec j (length etas)) as [L | L].
    - destruct (Nat.eqb_spec j i) as [-> | Ne].
      + symmetry. eapply nth_upd. apply nth_error_repeat. exact L.
      + symmetry. rewrite nth_upd_other by congruence. apply nth_error_repeat. exact L.
    - symmetry. apply nth_error_None. rewrite upd_length, repeat_length. exact L. }
  rewrite E. rewrite (psum_upd _ _ _ _ 0) by (apply nth_error_repeat; exact Hi).
  rewrite psum_zero; [| exact Hp |].
  - rewrite pow1, pow_i by lia. ring.
  - apply Forall_forall. intros e He. apply repeat_spec in He. exact He.
Qed.

(** void and every bulk grain have zero energy and no driving force *)
Theorem C29_bulk_states : forall dynamic A B c mu etas e,
  void_state c etas \/ grain_state c etas ->
  evaluator dynamic true A B (c :: mu :: etas) (length etas) = Some e ->
  f e = Some 0 /\ df_dc e = Some 0 /\ forall etai, In etai etas -> df_detai e etai = 0.
Proof.
  intros dynamic A B c mu etas e H. rewrite evaluator_spec. intros E. injection E as <-.
  unfold f, df_dc, df_detai. cbn [e_s3 e_s2 e_c e_A e_B obind].
  destruct H as [[-> Z] | [-> [i [Hi Z]]]].
  - rewrite !psum_zero by (try lia; exact Z). split; [f_equal; ring |]. split; [f_equal; ring |].
    intros etai I. rewrite Forall_forall in Z. rewrite (Z _ I). ring.
  - rewrite !(psum_grain _ _ i) by (try lia; assumption). split; [f_equal; ring |]. split; [f_equal; ring |].
    intros etai I. apply In_nth_error in I. destruct I as [j Hj]. rewrite Z in Hj.
    destruct (Nat.ltb j (length etas)); [| discriminate]. destruct (Nat.eqb j i); injection Hj as <-; ring.
Qed.
Print Assumptions C29_bulk_states.

Example C29_bulk_case : grain_state 1 [0; 1; 0] /\ void_state 0 [0; 0].
Proof.
  split; split; try reflexivity; [| repeat constructor].
  exists 1%nat. split; [cbn; lia |]. intros [| [| [| [| j]]]]; reflexivity.
Qed.

(** The energy is non-negative as long as the double well is not deeper than the rest: all
    fields between zero and one, any number of grains. *)
Theorem C29_nonnegative : forall dynamic A B c mu etas e,
  0 <= B -> 0 <= A + B -> 0 <= c <= 1 -> (forall etai, In etai etas -> 0 <= etai <= 1) ->
  evaluator dynamic true A B (c :: mu :: etas) (length etas) = Some e ->
  exists v, f e = Some v /\ 0 <= v.
Proof.
  intros dynamic A B c mu etas e HB HAB Hc He. rewrite evaluator_spec. intros E. injection E as <-.
  unfold f. cbn [e_s3 e_s2 e_c e_A e_B obind]. eexists. split; [reflexivity |].
  assert (Rb := rest_bound c etas Hc He).
  assert (W : 0 <= c ^ 2 * (1 - c) ^ 2) by (apply Rmult_le_pos; apply pow2_ge_0).
  set (r := c ^ 2 + 6 * (1 - c) * psum 2 etas - 4 * (2 - c) * psum 3 etas + 3 * psum 2 etas ^ 2) in *.
  set (w := c ^ 2 * (1 - c) ^ 2) in *.
  replace (A * (c * c) * ((- c + 1) * (- c + 1)) + B * (c * c + (-6 * c + 6) * psum 2 etas - (-4 * c + 8) * psum 3 etas + 3 * (psum 2 etas * psum 2 etas)))
    with (A * w + B * r) by (unfold w, r; ring).
  clearbody r w. nra.
Qed.
Print Assumptions C29_nonnegative.

(** the condition is sharp: otherwise some state between zero and one has negative energy *)
Theorem C29_nonnegative_sharp : forall dynamic A B mu n, A + B < 0 ->
  exists c e v, 0 <= c <= 1 /\ evaluator dynamic true A B (c :: mu :: repeat 0 n) (length (repeat 0 n)) = Some e /\ f e = Some v /\ v < 0.
Proof.
  intros dynamic A B mu n H.
  assert (N : exists c, 0 < c <= 1 /\ A * (1 - c) ^ 2 + B < 0).
  { destruct (Rlt_dec B 0) as [LB | LB].
    - exists 1. split; [lra |]. replace ((1 - 1) ^ 2) with 0 by ring. lra.
    - assert (A < 0) by lra.
      exists ((A + B) / (4 * A)). set (q := (A + B) / (4 * A)).
      assert (Q : q * (4 * A) = A + B) by (unfold q; field; lra).
      assert (0 < q) by nra. assert (q <= 1 / 4) by nra. split; [lra |]. clearbody q.
      assert (A * (1 - q) ^ 2 + B = A + B - 2 * q * A + A * q ^ 2) by ring.
      assert (A * q ^ 2 <= 0) by nra. nra. }
  destruct N as [c [[C0 C1] N]]. exists c. rewrite evaluator_spec. eexists. eexists.
  split; [lra |]. split; [reflexivity |]. split; [unfold f; cbn [e_s3 e_s2 e_c e_A e_B obind]; reflexivity |].
  assert (Z : Forall (fun e => e = 0) (repeat 0 n)).
  { apply Forall_forall. intros e He. apply repeat_spec in He. exact He. }
  rewrite !psum_zero by (try lia; exact Z).
  replace (A * (c * c) * ((- c + 1) * (- c + 1)) + B * (c * c + (-6 * c + 6) * 0 - (-4 * c + 8) * 0 + 3 * (0 * 0)))
    with ((c * c) * (A * (1 - c) ^ 2 + B)) by ring.
  assert (0 < c * c) by nra. nra.
Qed.
Print Assumptions C29_nonnegative_sharp.

(** [F] is the excess energy of an interface along a path: the integral of the square root
    of [2 * k * v] over the path, [k] the gradient coefficient and [v] the free energy *)
Definition interface_energy (k : R) (v : R -> R) (gamma : R) : Prop :=
  exists F, (forall x, 0 <= x <= 1 -> derivable_pt_lim F x (sqrt (2 * k * v x))) /\ F 1 - F 0 = gamma.

Lemma interface_energy_parabola : forall k a v, 0 <= k * a -> (forall x, v x = a * (x * (1 - x)) ^ 2) ->
  interface_energy k v (sqrt (2 * (k * a)) / 6).
Proof.
  intros k a v Ha Hv. set (q := sqrt (2 * (k * a))).
  exists (fun x => q * (x ^ 2 / 2 - x ^ 3 / 3)). split; [| field].
  intros x Hx.
  assert (E : sqrt (2 * k * v x) = q * (x * (1 - x))).
  { rewrite Hv. replace (2 * k * (a * (x * (1 - x)) ^ 2)) with ((2 * (k * a)) * ((x * (1 - x)) * (x * (1 - x)))) by ring.
    rewrite sqrt_mult; [| lra | apply Rle_0_sqr]. fold q. f_equal. apply sqrt_square. nra. }
  rewrite E. apply (quartic_deriv 0 0 (q / 2) (- q / 3) 0); [intros y |]; field.
Qed.

Lemma sqrt_is : forall a b, 0 <= b -> b * b = a -> sqrt a = b.
Proof. intros a b Hb <-. apply sqrt_square. exact Hb. Qed.

(** Surface: composition and one order parameter change together; the gradient coefficient
    is [kappa_c + kappa_p].  Grain boundary: composition one, two order parameters change
    in opposite directions; the gradient coefficient is [2 * kappa_p].  The energies of
    the interfaces of the derived parameters are the (scaled) input energies, and the
    parameters have the signs needed for a well-posed model exactly if the grain boundary
    energy does not exceed twice the surface energy. *)
Theorem C29_material_parameters : forall dynamic gs ggb l lscale escale,
  0 < gs -> 0 < ggb -> 0 < l -> 0 < lscale -> 0 < escale ->
  let q := compute_energy_params gs ggb l lscale escale in
  let energy c mu etas := match evaluator dynamic true (q_A q) (q_B q) (c :: mu :: etas) (length etas) with
                          | Some e => match f e with Some v => v | None => 0 end
                          | None => 0 end in
  (forall mu, interface_energy (q_kappa_c q + q_kappa_p q) (fun x => energy x mu [x]) (gs * lscale ^ 2 / escale))
  /\ (forall mu, interface_energy (2 * q_kappa_p q) (fun x => energy 1 mu [x; 1 - x]) (ggb * lscale ^ 2 / escale))
  /\ 0 < q_B q /\ 0 < q_kappa_p q
  /\ (0 <= q_kappa_c q <-> ggb <= 2 * gs) /\ (0 <= q_A q + q_B q <-> ggb <= 2 * gs).
Proof.
  intros dynamic gs ggb l lscale escale Hs Hg Hl HL HE q energy.
  set (t := lscale ^ 2 / escale).
  assert (Ht : 0 < t) by (unfold t; apply Rdiv_lt_0_compat; [nra | exact HE]).
  assert (EA : q_A q = (12 * gs - 7 * ggb) * t / l) by (unfold q, t; cbn; field; lra).
  assert (EB : q_B q = ggb * t / l) by (unfold q, t; cbn; field; lra).
  assert (EC : q_kappa_c q = 3 / 4 * (2 * gs - ggb) * t * l) by (unfold q, t; cbn; field; lra).
  assert (EP : q_kappa_p q = 3 / 4 * ggb * t * l) by (unfold q, t; cbn; field; lra).
  assert (EV : forall c mu etas, energy c mu etas = q_A q * (c * c) * ((- c + 1) * (- c + 1)) + q_B q * ((c * c) + (-6 * c + 6) * psum 2 etas - (-4 * c + 8) * psum 3 etas + 3 * (psum 2 etas * psum 2 etas))).
  { intros. unfold energy. rewrite evaluator_spec. reflexivity. }
  clearbody q energy.
  assert (Pl : 0 < t / l) by (apply Rdiv_lt_0_compat; assumption).
  assert (Ptl : 0 < t * l) by nra.
  assert (Pst : 0 < gs * t) by nra. assert (Pgt : 0 < ggb * t) by nra.
  split; [| split].
  - intros mu. replace (gs * lscale ^ 2 / escale) with (gs * t) by (unfold t; field; lra).
    replace (gs * t) with (sqrt (2 * ((q_kappa_c q + q_kappa_p q) * (12 * gs * t / l))) / 6).
    + apply interface_energy_parabola.
      * rewrite EC, EP. replace ((3 / 4 * (2 * gs - ggb) * t * l + 3 / 4 * ggb * t * l) * (12 * gs * t / l)) with (18 * ((gs * t) * (gs * t))) by (field; lra). nra.
      * intros x. rewrite EV, EA, EB. cbn [psum]. field. lra.
    + rewrite EC, EP. rewrite (sqrt_is _ (6 * (gs * t))); [field | nra |]. field. lra.
  - intros mu. replace (ggb * lscale ^ 2 / escale) with (ggb * t) by (unfold t; field; lra).
    replace (ggb * t) with (sqrt (2 * ((2 * q_kappa_p q) * (12 * ggb * t / l))) / 6).
    + apply interface_energy_parabola.
      * rewrite EP. replace (2 * (3 / 4 * ggb * t * l) * (12 * ggb * t / l)) with (18 * ((ggb * t) * (ggb * t))) by (field; lra). nra.
      * intros x. rewrite EV, EB. cbn [psum]. field. lra.
    + rewrite EP. rewrite (sqrt_is _ (6 * (ggb * t))); [field | nra |]. field. lra.
  - split; [rewrite EB; apply Rdiv_lt_0_compat; assumption |].
    split; [rewrite EP; nra |].
    split.
    + rewrite EC. replace (3 / 4 * (2 * gs - ggb) * t * l) with (3 / 4 * ((2 * gs - ggb) * (t * l))) by ring.
      split; intros H; nra.
    + rewrite EA, EB. replace ((12 * gs - 7 * ggb) * t / l + ggb * t / l) with (6 * ((2 * gs - ggb) * (t / l))) by (field; lra).
      split; intros H; nra.
Qed.
Print Assumptions C29_material_parameters.

Example C29_material_case : q_A (compute_energy_params 10 9 3 1 1) = 19 /\ q_B (compute_energy_params 10 9 3 1 1) = 3.
Proof. unfold compute_energy_params; cbn [q_A q_B]. split; field. Qed.

(** the coefficient of the double well alone can be negative for admissible energies *)
Theorem C29_double_well_sign_refuted : exists gs ggb l, 0 < gs /\ 0 < ggb /\ ggb < 2 * gs /\ 0 < l
  /\ q_A (compute_energy_params gs ggb l 1 1) < 0.
Proof. exists 10, 19, 1. unfold compute_energy_params; cbn [q_A]. repeat split; lra. Qed.
Print Assumptions C29_double_well_sign_refuted.
