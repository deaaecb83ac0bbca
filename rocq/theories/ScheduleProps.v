(** C76: the schedule of mesh adaptation and grain tracking. *)
From Coq Require Import List Arith Bool Lia.
From Verif Require Import ScheduleModel.
Import ListNotations.

Lemma run_invariant : forall (P : state -> Prop) s, (forall a st, P st -> P (pass s a st)) ->
  forall answers st, P st -> P (run s answers st).
Proof.
  intros P s H answers. unfold run. induction answers as [|a answers IH]; intros st I; cbn [fold_left]; [exact I|].
  apply IH, H, I.
Qed.

Lemma same_branch : forall (b : bool) (v : state), (if b then v else v) = v.
Proof. intros [|] v; reflexivity. Qed.

(** The parts of a state after [tried]. *)
Lemma tried_spec : forall st,
  n_timestep (tried st) = n_timestep st /\ depth (tried st) = depth st /\ has_converged (tried st) = has_converged st /\
  finished (tried st) = finished st /\ tuned (tried st) = tuned st /\
  last_amr (tried st) = (if has_converged st && do_amr st then n_timestep st else last_amr st) /\
  last_gt (tried st) = (if has_converged st && do_gt st then n_timestep st else last_gt st) /\
  fresh (tried st) = (if has_converged st then (if do_gt st then true else if do_amr st then false else fresh st) else fresh st) /\
  trace (tried st) = Try (n_timestep st) ::
    (if has_converged st && do_gt st then [Gt (n_timestep st)] else []) ++
    (if has_converged st && do_amr st then [Amr (n_timestep st)] else []) ++ trace st.
Proof.
  intros [n la lg d hc da dg fi fr tu tr]. unfold tried, before_step. cbn [has_converged n_timestep do_amr do_gt].
  destruct hc, da, dg; cbn; repeat split; reflexivity.
Qed.

(** The differences of the counters never wrap: the numbers of the last adaptation
    and the last tracker run are at most the present one, for all settings. *)
Theorem C76_counters : forall s answers,
  last_amr (run s answers (initial s)) <= n_timestep (run s answers (initial s)) /\
  last_gt (run s answers (initial s)) <= n_timestep (run s answers (initial s)).
Proof.
  intros s answers. apply (run_invariant (fun st => last_amr st <= n_timestep st /\ last_gt st <= n_timestep st)); [|cbn; lia].
  intros a st [A B]. unfold pass. destruct (finished st); [auto|]. unfold saved.
  destruct (tried_spec st) as (T1 & T2 & T3 & T4 & T5 & T6 & T7 & T8 & T9). set (u := tried st) in *. clearbody u.
  assert (U : last_amr u <= n_timestep u /\ last_gt u <= n_timestep u).
  { rewrite T1, T6, T7. destruct (has_converged st), (do_amr st), (do_gt st); cbn; lia. }
  assert (X : forall v, last_amr v <= n_timestep v /\ last_gt v <= n_timestep v ->
     last_amr (after_first s a v) <= n_timestep (after_first s a v) /\ last_gt (after_first s a v) <= n_timestep (after_first s a v)).
  { intros v V. unfold after_first. destruct ((n_timestep v =? 1) && quality_control s); [|exact V].
    destruct (negb (auto_quality_min s) && (0 <? adapted a)); cbn; lia. }
  assert (Y : last_amr (attempt s a u) <= n_timestep (attempt s a u) /\ last_gt (attempt s a u) <= n_timestep (attempt s a u)).
  { unfold attempt, failure. destruct (negb (solved a)); cbn; [lia|]. destruct (last a); cbn; [lia|].
    destruct (check_inconsistency s); [destruct (consistent a)|]; cbn; lia. }
  destruct (has_converged (attempt s a u)); [apply X, Y|exact Y].
Qed.
Print Assumptions C76_counters.

Definition amr_at (k : nat) (e : event) : bool := match e with Amr j => j =? k | _ => false end.
Definition n_amr (k : nat) (l : list event) : nat := length (filter (amr_at k) l).

(** Adaptation by frequency only. *)
Definition by_frequency (s : settings) : Prop :=
  quality_control s = false /\ extra_coarsening s = false /\ 0 < refinement_frequency s.

Lemma n_amr_app : forall k l1 l2, n_amr k (l1 ++ l2) = n_amr k l1 + n_amr k l2.
Proof. intros. unfold n_amr. rewrite filter_app, app_length. reflexivity. Qed.

Lemma n_amr_in : forall k l, 0 < n_amr k l -> In (Amr k) l.
Proof.
  intros k l H. unfold n_amr in H. destruct (filter (amr_at k) l) as [|e r] eqn:E; [cbn in H; lia|].
  assert (I : In e (filter (amr_at k) l)) by (rewrite E; left; reflexivity). apply filter_In in I. destruct I as [I1 I2].
  destruct e; cbn in I2; try discriminate. apply Nat.eqb_eq in I2. subst. exact I1.
Qed.

Section Frequency.
Variable s : settings.
Hypothesis F : by_frequency s.
Let f := refinement_frequency s.

Definition multiple (k : nat) : bool := (0 <? k) && (k mod f =? 0).

Lemma multiple_true : forall k, multiple k = true <-> 0 < k /\ k mod f = 0.
Proof. intro k. unfold multiple. rewrite andb_true_iff, Nat.ltb_lt, Nat.eqb_eq. reflexivity. Qed.

Record inv (st : state) : Prop := {
  i_last : last_amr st mod f = 0;
  i_conv : has_converged st = true -> finished st = false ->
     do_amr st = multiple (n_timestep st) /\ (n_timestep st = 0 \/ last_amr st < n_timestep st) /\ n_timestep st - last_amr st <= f;
  i_fail : has_converged st = false -> n_timestep st - last_amr st < f;
  i_le : last_amr st <= n_timestep st;
  i_try : forall k, In (Try k) (trace st) <-> (k < n_timestep st \/ (k = n_timestep st /\ has_converged st = false));
  i_n : forall k, n_amr k (trace st) = (if multiple k then if k <? n_timestep st then 1 else
     if (k =? n_timestep st) && negb (has_converged st) then 1 else 0 else 0);
  i_order : forall l k l', trace st = l ++ Try k :: l' -> multiple k = true -> In (Amr k) l' }.

Lemma f_pos : f <> 0.
Proof. destruct F as (_ & _ & P). unfold f. lia. Qed.

Lemma due_multiple : forall n l, l mod f = 0 -> l <= n -> ((S n - l) mod f =? 0) = multiple (S n).
Proof.
  intros n l L LE. unfold multiple. cbn [Nat.ltb Nat.leb andb]. f_equal.
  apply Nat.mod_divides in L; [|apply f_pos]. destruct L as [q ->].
  replace (S n mod f) with (((S n - f * q) + q * f) mod f) by (f_equal; lia). rewrite Nat.mod_add by apply f_pos. reflexivity.
Qed.

Lemma inv_initial : inv (initial s).
Proof.
  split; cbn.
  - apply Nat.mod_0_l, f_pos.
  - intros _ _. split; [reflexivity|]. split; [auto|lia].
  - discriminate.
  - lia.
  - intro k. split; [intros []|intros [H|[_ H]]; [lia|discriminate]].
  - intro k. destruct (multiple k); [|reflexivity]. destruct k; reflexivity.
  - intros l k l' E. destruct l; discriminate.
Qed.

(** Everything but the flags after the step was tried. *)
Lemma tried_inv : forall st, inv st -> finished st = false ->
  let u := tried st in
  last_amr u mod f = 0 /\ last_amr u <= n_timestep u /\ n_timestep u - last_amr u < f /\
  (forall k, In (Try k) (trace u) <-> k <= n_timestep u) /\
  (forall k, n_amr k (trace u) = if multiple k then if k <=? n_timestep u then 1 else 0 else 0) /\
  (forall l k l', trace u = l ++ Try k :: l' -> multiple k = true -> In (Amr k) l').
Proof.
  intros st [I1 I2 I3 I4 I5 I6 I7] NF. cbv zeta.
  destruct (tried_spec st) as (T1 & T2 & T3 & T4 & T5 & T6 & T7 & T8 & T9). rewrite T1, T6, T9.
  set (n := n_timestep st) in *.
  assert (MID : forall k, n_amr k ((if has_converged st && do_gt st then [Gt n] else []) ++
                  (if has_converged st && do_amr st then [Amr n] else [])) =
                  if has_converged st && do_amr st then if n =? k then 1 else 0 else 0).
  { intro k. rewrite n_amr_app. destruct (has_converged st && do_gt st), (has_converged st && do_amr st); cbn; try reflexivity;
      unfold n_amr; cbn; destruct (n =? k); reflexivity. }
  assert (CNT : forall k, n_amr k ((if has_converged st && do_gt st then [Gt n] else []) ++
                  (if has_converged st && do_amr st then [Amr n] else []) ++ trace st) =
                  if multiple k then if k <=? n then 1 else 0 else 0).
  { intro k. rewrite app_assoc, n_amr_app, MID, I6. destruct (has_converged st) eqn:C; cbn [andb negb].
    - destruct (I2 eq_refl NF) as (D & _). rewrite D. destruct (multiple n) eqn:M.
      + destruct (Nat.eqb_spec n k) as [<-|NE].
        * rewrite M, Nat.ltb_irrefl, Nat.eqb_refl, Nat.leb_refl. reflexivity.
        * destruct (multiple k); [|reflexivity]. destruct (Nat.ltb_spec k n), (Nat.leb_spec k n); try lia.
          rewrite andb_false_r. reflexivity.
      + destruct (multiple k) eqn:K; [|reflexivity]. rewrite andb_false_r.
        destruct (Nat.ltb_spec k n), (Nat.leb_spec k n); try lia. assert (k = n) by lia. subst k. congruence.
    - destruct (multiple k); [|reflexivity]. rewrite andb_true_r.
      destruct (Nat.ltb_spec k n), (Nat.leb_spec k n), (Nat.eqb_spec k n); lia. }
  split; [|split; [|split; [|split; [|split]]]].
  - destruct (has_converged st) eqn:C; cbn [andb]; [|exact I1]. destruct (do_amr st) eqn:D; [|exact I1].
    destruct (I2 eq_refl NF) as (E & _). symmetry in E. apply multiple_true in E. apply E.
  - destruct (has_converged st && do_amr st); lia.
  - destruct (has_converged st) eqn:C; cbn [andb]; [|apply I3; reflexivity].
    destruct (I2 eq_refl NF) as (E1 & E2 & E3). destruct (do_amr st) eqn:D; [pose proof f_pos; lia|].
    destruct (Nat.eq_dec (n - last_amr st) f) as [EQ|NE]; [|lia]. exfalso.
    symmetry in E1. assert (M : multiple n = true); [|congruence]. apply multiple_true. split; [pose proof f_pos; lia|].
    replace n with (last_amr st + 1 * f) by lia. rewrite Nat.mod_add by apply f_pos. exact I1.
  - intro k. cbn [In]. rewrite !in_app_iff, I5. split.
    + intros [E|[E|[E|E]]]; [injection E as <-; lia| | |lia].
      * destruct (has_converged st && do_gt st); cbn in E; [destruct E as [E|[]]; discriminate|contradiction].
      * destruct (has_converged st && do_amr st); cbn in E; [destruct E as [E|[]]; discriminate|contradiction].
    + intro L. destruct (Nat.eq_dec k n) as [->|NE]; [left; reflexivity|]. right. right. right. left. lia.
  - intro k. change (n_amr k (Try n :: ?x)) with (n_amr k x). unfold n_amr at 1. cbn [filter amr_at]. apply CNT.
  - intros l k l' E M. destruct l as [|e l]; cbn [app] in E.
    + injection E as <- <-. apply n_amr_in. rewrite CNT, M, Nat.leb_refl. lia.
    + injection E as _ E. rewrite app_assoc in E.
      assert (Z : forall g : list event, (forall e, In e g -> forall j, e <> Try j) -> forall l, g ++ trace st = l ++ Try k :: l' ->
                exists l2, trace st = l2 ++ Try k :: l').
      { induction g as [|x g IH]; intros G l0 E0; [exists l0; exact E0|]. destruct l0 as [|y l0]; cbn [app] in E0.
        - injection E0 as E0 _. exfalso. apply (G x (or_introl eq_refl) k E0).
        - injection E0 as _ E0. apply (IH (fun e I => G e (or_intror I)) l0 E0). }
      assert (G : forall e0, In e0 ((if has_converged st && do_gt st then [Gt n] else []) ++
                    (if has_converged st && do_amr st then [Amr n] else [])) -> forall j, e0 <> Try j).
      { intros e0 I0 j ->. apply in_app_iff in I0. destruct I0 as [I0|I0].
        - destruct (has_converged st && do_gt st); cbn in I0; [destruct I0 as [I0|[]]; discriminate|contradiction].
        - destruct (has_converged st && do_amr st); cbn in I0; [destruct I0 as [I0|[]]; discriminate|contradiction]. }
      destruct (Z _ G l E) as (l2 & E2). apply (I7 l2 k l' E2 M).
Qed.

Lemma inv_pass : forall a st, inv st -> inv (pass s a st).
Proof.
  intros a st I. unfold pass. destruct (finished st) eqn:FI; [exact I|]. unfold saved.
  destruct (tried_inv st I FI) as (U1 & U2 & U3 & U4 & U5 & U6). cbv zeta in *. set (u := tried st) in *. clearbody u.
  assert (X : forall a v, after_first s a v = v).
  { intros a' v. unfold after_first. destruct F as (E & _). rewrite E, andb_false_r. reflexivity. }
  rewrite X. assert (Y : inv (attempt s a u)); [|destruct (has_converged (attempt s a u)); exact Y].
  destruct F as (F1 & F2 & F3).
  assert (CO : coarsen_now s a u = false) by (unfold coarsen_now; rewrite F2, andb_false_r; reflexivity).
  assert (WA : want_amr s a u = multiple (S (n_timestep u))).
  { unfold want_amr. rewrite CO, F1. cbn [orb]. unfold due. replace (0 <? refinement_frequency s) with true by (symmetry; apply Nat.ltb_lt; lia).
    cbn [andb]. apply due_multiple; assumption. }
  assert (FAIL : forall d x y, inv (failure (mkState (n_timestep u) (last_amr u) (last_gt u) d x y false false (fresh u) (tuned u) (trace u)))).
  { intros d x y. split; cbn [failure n_timestep last_amr last_gt depth has_converged do_amr do_gt finished fresh tuned trace]; try assumption.
    - discriminate.
    - auto.
    - intro k. rewrite U4. split; intro H; [destruct (Nat.eq_dec k (n_timestep u)); [right; auto|left; lia]|destruct H as [H|[H _]]; lia].
    - intro k. rewrite U5. destruct (multiple k); [|reflexivity]. cbn [negb]. rewrite andb_true_r.
      destruct (Nat.ltb_spec k (n_timestep u)), (Nat.leb_spec k (n_timestep u)), (Nat.eqb_spec k (n_timestep u)); lia. }
  assert (GOOD : forall lg d am gt fi fr tr, (fi = true \/ am = multiple (S (n_timestep u))) ->
     (tr = trace u \/ exists j, tr = Gt j :: trace u) ->
     inv (mkState (S (n_timestep u)) (last_amr u) lg d true am gt fi fr (tuned u) tr)).
  { intros lg d am gt fi fr tr AM TR. split; cbn [n_timestep last_amr last_gt depth has_converged do_amr do_gt finished fresh tuned trace]; try assumption.
    - intros _ NF. split; [destruct AM; [congruence|assumption]|]. split; [right; lia|lia].
    - discriminate.
    - lia.
    - intro k. assert (T : In (Try k) tr <-> In (Try k) (trace u)).
      { destruct TR as [->|[j ->]]; [reflexivity|]. cbn [In]. split; [intros [H|H]; [discriminate|exact H]|auto]. }
      rewrite T, U4. split; [intro; left; lia|intros [H|[_ H]]; [lia|discriminate]].
    - intro k. assert (T : n_amr k tr = n_amr k (trace u)) by (destruct TR as [->|[j ->]]; reflexivity).
      rewrite T, U5. cbn [negb]. rewrite andb_false_r. destruct (multiple k); [|reflexivity].
      destruct (Nat.ltb_spec k (S (n_timestep u))), (Nat.leb_spec k (n_timestep u)); lia.
    - intros l k l' E M. destruct TR as [->|[j ->]]; [apply (U6 l k l' E M)|].
      destruct l as [|e l]; cbn [app] in E; [discriminate|]. injection E as _ E. apply (U6 l k l' E M). }
  unfold attempt. destruct (negb (solved a)).
  - unfold failure. specialize (FAIL (depth u) true false). unfold failure in FAIL.
    cbn [n_timestep last_amr last_gt depth has_converged do_amr do_gt finished fresh tuned trace] in FAIL. exact FAIL.
  - destruct (last a); [apply GOOD; auto|]. rewrite CO. destruct (check_inconsistency s).
    + destruct (consistent a); [apply GOOD; [right; exact WA|right; eexists; reflexivity]|apply FAIL].
    + apply GOOD; [right; exact WA|auto].
Qed.

Lemma inv_run : forall answers, inv (run s answers (initial s)).
Proof. intro answers. apply run_invariant; [intros a st; apply inv_pass|apply inv_initial]. Qed.
End Frequency.

(** With adaptation by frequency: the mesh is adapted exactly once between the
    accepted steps k and k + 1 if k is a positive multiple of the frequency and a
    step from k is tried, before the first try, and at no other time; whatever the
    solver, the tracker and the iterations answer. *)
Theorem C76_frequency : forall s answers, by_frequency s ->
  let tr := trace (run s answers (initial s)) in
  (forall k, n_amr k tr <= 1) /\
  (forall k, In (Amr k) tr <-> 0 < k /\ k mod refinement_frequency s = 0 /\ In (Try k) tr) /\
  (forall l k l', tr = l ++ Try k :: l' -> 0 < k -> k mod refinement_frequency s = 0 -> In (Amr k) l').
Proof.
  intros s answers F tr. destruct (inv_run s F answers) as [I1 I2 I3 I4 I5 I6 I7].
  assert (M : forall k, multiple s k = true <-> 0 < k /\ k mod refinement_frequency s = 0).
  { intro k. unfold multiple. rewrite andb_true_iff, Nat.ltb_lt, Nat.eqb_eq. reflexivity. }
  unfold tr. split; [|split].
  - intro k. rewrite I6. destruct (multiple s k); [|lia]. destruct (k <? n_timestep (run s answers (initial s))); [lia|].
    destruct ((k =? n_timestep (run s answers (initial s))) && negb (has_converged (run s answers (initial s)))); lia.
  - intro k. specialize (I5 k). specialize (I6 k). set (st := run s answers (initial s)) in *.
    assert (N : In (Amr k) (trace st) <-> 0 < n_amr k (trace st)).
    { split; [|apply n_amr_in]. intro I. unfold n_amr.
      assert (J : In (Amr k) (filter (amr_at k) (trace st))).
      { apply filter_In. split; [exact I|]. cbn. apply Nat.eqb_refl. }
      destruct (filter (amr_at k) (trace st)) as [|e r]; [destruct J|]. cbn. lia. }
    rewrite N, I6, I5. split.
    + intro H. destruct (multiple s k) eqn:E; [|lia]. apply M in E. destruct E as [E1 E2].
      split; [exact E1|]. split; [exact E2|]. destruct (Nat.ltb_spec k (n_timestep st)); [left; assumption|].
      right. destruct (Nat.eqb_spec k (n_timestep st)); cbn in H; [|lia]. destruct (has_converged st); cbn in H; [lia|auto].
    + intros (H1 & H2 & H3). assert (E : multiple s k = true) by (apply M; auto). rewrite E.
      destruct (Nat.ltb_spec k (n_timestep st)); [lia|]. destruct H3 as [H3|[-> H4]]; [lia|]. rewrite Nat.eqb_refl, H4. cbn. lia.
  - intros l k l' E K D. apply (I7 l k l' E). apply M. auto.
Qed.
Print Assumptions C76_frequency.

(** When the grain data are needed, they belong to the present mesh whenever a step
    is tried: without adaptation after the first step, or with advection or the
    boundary conditions asking for the tracker and no check of consistency. *)
Definition needed (s : settings) : bool := advection s || required_for_ebc s || required_for_output s.

Lemma fresh_pass : forall s (P : state -> Prop),
  (P = (fun st => finished st = true \/ ((fresh st = true \/ (has_converged st = true /\ do_gt st = true)) /\ (do_amr st = true -> do_gt st = true)))) ->
  ((needed s = true /\ (quality_control s = false \/ auto_quality_min s = true)) \/
   (advection s || required_for_ebc s = true /\ check_inconsistency s = false)) ->
  forall a st, P st -> P (pass s a st).
Proof.
  intros s P -> H a st I. unfold pass. destruct (finished st) eqn:FI; [left; exact FI|]. destruct I as [I|[I J]]; [congruence|].
  unfold saved. destruct (tried_spec st) as (T1 & T2 & T3 & T4 & T5 & T6 & T7 & T8 & T9). set (u := tried st) in *. clearbody u.
  assert (U : fresh u = true).
  { rewrite T8. destruct I as [I|[I1 I2]]; [|rewrite I1, I2; reflexivity].
    destruct (has_converged st); [|exact I]. destruct (do_gt st); [reflexivity|]. destruct (do_amr st); [discriminate (J eq_refl)|exact I]. }
  assert (NEED : needed s = true).
  { destruct H as [[H _]|[H _]]; [exact H|]. unfold needed. rewrite H. reflexivity. }
  assert (W1 : forall v, want_gt_again s v = true \/ v = false).
  { intro v. unfold want_gt_again. destruct v; [|auto]. left. cbn [andb]. unfold needed in NEED.
    destruct (quality_control s && track_with_quality s), (advection s), (required_for_ebc s), (required_for_output s); cbn in *; congruence. }
  assert (W2 : forall v w, want_gt s v w = true \/ v = false).
  { intros v w. unfold want_gt. destruct v; [|auto]. left. cbn [andb]. unfold needed in NEED.
    destruct (quality_control s && track_with_quality s), (advection s), (required_for_ebc s), (required_for_output s); cbn in *; congruence. }
  unfold attempt. destruct (negb (solved a)); [cbn; rewrite U; right; split; [left; reflexivity|discriminate]|].
  assert (AL : forall v, finished v = true -> finished (after_first s a v) = true).
  { intros v V. unfold after_first. destruct ((n_timestep v =? 1) && quality_control s); [|exact V].
    destruct (negb (auto_quality_min s) && (0 <? adapted a)); exact V. }
  destruct (last a); [cbn [has_converged]; left; apply AL; reflexivity|].
  set (amr := want_amr s a u).
  assert (AF : forall v, has_converged v = true -> finished v = false -> fresh v = true -> (do_amr v = true -> do_gt v = true) ->
    ((quality_control s = false \/ auto_quality_min s = true) \/ do_gt v = true) ->
    finished (after_first s a v) = true \/ (fresh (after_first s a v) = true \/
      (has_converged (after_first s a v) = true /\ do_gt (after_first s a v) = true)) /\
      (do_amr (after_first s a v) = true -> do_gt (after_first s a v) = true)).
  { intros v V1 V2 V3 V4 V5. right. unfold after_first. destruct ((n_timestep v =? 1) && quality_control s) eqn:E1; [|auto].
    destruct (negb (auto_quality_min s) && (0 <? adapted a)) eqn:E2; cbn; [|auto]. split; [|auto].
    apply andb_true_iff in E1. apply andb_true_iff in E2. destruct E1 as [_ E1]. destruct E2 as [E2 _]. apply negb_true_iff in E2.
    destruct V5 as [[V5|V5]|V5]; [congruence|congruence|]. right. auto. }
  destruct (check_inconsistency s) eqn:CI.
  - destruct (consistent a); [|cbn; rewrite U; right; split; [left; reflexivity|discriminate]].
    cbn [has_converged]. apply AF; try reflexivity.
    + cbn [do_amr do_gt]. intro AM. destruct (W1 amr); congruence.
    + cbn [do_gt]. destruct H as [[_ H]|[_ H]]; [auto|congruence].
  - cbn [has_converged]. apply AF; try reflexivity.
    + exact U.
    + cbn [do_amr do_gt]. intro AM. destruct (W2 amr u); congruence.
    + cbn [do_gt]. destruct H as [[_ H]|[H _]]; [auto|]. right. unfold want_gt.
      destruct (advection s); cbn in *; [rewrite orb_true_r; reflexivity|]. rewrite H, orb_true_r. reflexivity.
Qed.

Theorem C76_fresh_partial : forall s answers,
  ((needed s = true /\ (quality_control s = false \/ auto_quality_min s = true)) \/
   (advection s || required_for_ebc s = true /\ check_inconsistency s = false)) ->
  finished (run s answers (initial s)) = false -> fresh (tried (run s answers (initial s))) = true.
Proof.
  intros s answers H NF.
  pose proof (run_invariant _ s (fresh_pass s _ eq_refl H) answers (initial s)) as I. cbv beta in I.
  destruct I as [I|[I J]]; [right; cbn; split; [auto|discriminate]|congruence|]. set (st := run s answers (initial s)) in *.
  destruct (tried_spec st) as (_ & _ & _ & _ & _ & _ & _ & T8 & _). rewrite T8.
  destruct I as [I|[I1 I2]]; [|rewrite I1, I2; reflexivity].
  destruct (has_converged st); [|exact I]. destruct (do_gt st); [reflexivity|]. destruct (do_amr st); [discriminate (J eq_refl)|exact I].
Qed.
Print Assumptions C76_fresh_partial.

(** The adaptation after the first step is not followed by a run of the tracker:
    with advection and the check of consistency, or when only the output needs the
    grains, the second step is tried with the data of the old mesh. *)
Definition ok_step (k : nat) : answer := mkAns true false false false true k.
Definition with_advection : settings := mkSet 10 true false false 3 10 false true false false true.
Definition with_output : settings := mkSet 10 true false false 3 10 false false false true false.

Theorem C76_fresh_refuted :
  (advection with_advection = true /\ fresh (tried (run with_advection [ok_step 1] (initial with_advection))) = false) /\
  (required_for_output with_output = true /\ fresh (tried (run with_output [ok_step 1] (initial with_output))) = false).
Proof. repeat split; reflexivity. Qed.
Print Assumptions C76_fresh_refuted.

(** "Synchronously": with the default frequency of 10 the tracker also runs without
    adaptation. *)
Definition with_quality : settings := mkSet 10 true true false 3 10 true false false false false.

Theorem C76_synchronous_refuted : exists answers,
  let tr := trace (run with_quality answers (initial with_quality)) in In (Gt 10) tr /\ forall k, ~ In (Amr k) tr.
Proof.
  exists (repeat (ok_step 0) 11). cbv zeta. split; [vm_compute; auto|].
  intros k. vm_compute. intuition discriminate.
Qed.
Print Assumptions C76_synchronous_refuted.

(** A checkpoint without pending flags resumes where it was; a pending adaptation
    is lost. *)
Theorem C76_resume_partial : forall s answers st, has_converged st = true -> finished st = false -> fresh st = true ->
  do_amr st = false -> do_gt st = false -> run s answers (resume st) = run s answers st.
Proof.
  intros s answers [n la lg d hc da dg fi fr tu tr] H1 H2 H3 H4 H5. cbn in *. subst. reflexivity.
Qed.
Print Assumptions C76_resume_partial.

Definition every_second : settings := mkSet 2 false true false 3 0 false false false false false.

Theorem C76_resume_refuted : exists answers a,
  let st := run every_second answers (initial every_second) in
  st = saved every_second a (run every_second (removelast answers) (initial every_second)) /\
  (forall b, In (Amr 2) (trace (pass every_second b st))) /\
  (forall more, ~ In (Amr 2) (trace (run every_second more (resume st)))).
Proof.
  exists [ok_step 0; ok_step 0], (ok_step 0). cbv zeta. split; [reflexivity|]. split.
  - intro b. set (st := run every_second [ok_step 0; ok_step 0] (initial every_second)).
    assert (T : In (Amr 2) (trace (tried st))) by (vm_compute; auto).
    unfold pass. replace (finished st) with false by reflexivity. unfold saved.
    assert (X : forall v, In (Amr 2) (trace v) -> In (Amr 2) (trace (attempt every_second b v))).
    { intros v V. unfold attempt, failure. destruct (negb (solved b)); [exact V|]. destruct (last b); [exact V|].
      cbn [check_inconsistency every_second]. exact V. }
    assert (Y : forall v, after_first every_second b v = v).
    { intro v. unfold after_first. cbn [quality_control every_second]. rewrite andb_false_r. reflexivity. }
    rewrite Y, same_branch. apply X, T.
  - intro more.
    apply (run_invariant (fun st => 2 <= n_timestep st /\ ~ In (Amr 2) (trace st) /\ (n_timestep st = 2 -> has_converged st && do_amr st = false))).
    + intros a st (A & B & C). unfold pass. destruct (finished st); [auto|]. unfold saved.
      destruct (tried_spec st) as (T1 & T2 & T3 & T4 & T5 & T6 & T7 & T8 & T9). set (u := tried st) in *. clearbody u.
      assert (Y : forall v, after_first every_second a v = v).
      { intro v. unfold after_first. cbn [quality_control every_second]. rewrite andb_false_r. reflexivity. }
      rewrite Y.
      assert (U : ~ In (Amr 2) (trace u)).
      { rewrite T9. cbn [In]. rewrite !in_app_iff. intros [H|[H|[H|H]]]; [discriminate| | |exact (B H)].
        - destruct (has_converged st && do_gt st); cbn in H; [destruct H as [H|[]]; discriminate|contradiction].
        - destruct (has_converged st && do_amr st) eqn:E; cbn in H; [|contradiction]. destruct H as [H|[]].
          injection H as H. discriminate (C H). }
      assert (Z : 2 <= n_timestep (attempt every_second a u) /\ ~ In (Amr 2) (trace (attempt every_second a u)) /\
        (n_timestep (attempt every_second a u) = 2 -> has_converged (attempt every_second a u) && do_amr (attempt every_second a u) = false)).
      { unfold attempt, failure. cbn [check_inconsistency every_second].
        destruct (negb (solved a)); [cbn; rewrite T1; auto|]. destruct (last a); cbn; rewrite T1; (split; [lia|split; [exact U|intro; lia]]). }
      rewrite same_branch. exact Z.
    + cbn. split; [lia|]. split; [intuition discriminate|reflexivity].
Qed.
Print Assumptions C76_resume_refuted.

(** A checkpoint after the first step is written before the quality settings are set
    up, and the resumed run never sets them up. *)
Theorem C76_tuning_refuted : exists s a,
  tuned (pass s a (initial s)) = true /\
  forall more, tuned (run s more (resume (saved s a (initial s)))) = false.
Proof.
  exists with_quality, (ok_step 0). split; [reflexivity|]. intro more.
  apply (run_invariant (fun st => tuned st = false /\ 1 <= n_timestep st)).
  - intros a st [A B]. unfold pass. destruct (finished st); [auto|]. unfold saved.
    destruct (tried_spec st) as (T1 & _ & _ & _ & T5 & _ & _ & _ & _). set (u := tried st) in *. clearbody u.
    assert (X : tuned (attempt with_quality a u) = false /\ 1 <= n_timestep (attempt with_quality a u) /\
      (has_converged (attempt with_quality a u) = true -> n_timestep (attempt with_quality a u) <> 1)).
    { unfold attempt, failure. cbn [check_inconsistency with_quality]. destruct (negb (solved a)); [cbn; rewrite T1, T5; split; [exact A|split; [exact B|discriminate]]|].
      destruct (last a); cbn; rewrite T1, T5; (split; [exact A|split; [lia|intros _; lia]]). }
    destruct X as (X1 & X2 & X3). destruct (has_converged (attempt with_quality a u)) eqn:C; [|auto].
    unfold after_first. destruct (Nat.eqb_spec (n_timestep (attempt with_quality a u)) 1) as [E|E]; [destruct (X3 eq_refl E)|]. auto.
  - cbn. auto.
Qed.
Print Assumptions C76_tuning_refuted.

(** A reduced depth is followed by an adaptation, without the check of consistency;
    with it the reduction survives a failed step without adaptation. *)
Theorem C76_coarsening : forall s answers, quality_control s = false -> check_inconsistency s = false ->
  let st := run s answers (initial s) in
  depth st < max_refinement_depth s -> do_amr st = true \/ exists k, In (Amr k) (trace st).
Proof.
  intros s answers QC CI. cbv zeta.
  pose proof (run_invariant (fun st => depth st < max_refinement_depth s -> (has_converged st = true /\ do_amr st = true) \/ exists k, In (Amr k) (trace st)) s) as R.
  cbv beta in R. intro D.
  assert (G : (has_converged (run s answers (initial s)) = true /\ do_amr (run s answers (initial s)) = true) \/ exists k, In (Amr k) (trace (run s answers (initial s)))).
  { apply R; [|cbn; lia|exact D]. clear D. intros a st I D. unfold pass in *. destruct (finished st); [auto|]. unfold saved in *.
    destruct (tried_spec st) as (T1 & T2 & T3 & T4 & T5 & T6 & T7 & T8 & T9). set (u := tried st) in *. clearbody u.
    assert (Y : forall v, after_first s a v = v).
    { intro v. unfold after_first. rewrite QC, andb_false_r. reflexivity. }
    rewrite Y in *.
    assert (U : depth u < max_refinement_depth s -> exists k, In (Amr k) (trace u)).
    { intro L. rewrite T2 in L. rewrite T9. destruct (I L) as [[I1 I2]|[k I1]].
      - rewrite I1, I2. exists (n_timestep st). cbn [In andb]. right. apply in_app_iff. right. left. reflexivity.
      - exists k. right. rewrite !in_app_iff. auto. }
    assert (Z : depth (attempt s a u) < max_refinement_depth s ->
      has_converged (attempt s a u) = true /\ do_amr (attempt s a u) = true \/ exists k, In (Amr k) (trace (attempt s a u))).
    { unfold attempt, failure. rewrite CI. destruct (negb (solved a)); [cbn; auto|]. destruct (last a); [cbn; auto|].
      cbn [depth has_converged do_amr trace]. destruct (coarsen_now s a u) eqn:CO; [|auto]. intros _. left. split; [reflexivity|].
      unfold want_amr. rewrite CO. reflexivity. }
    rewrite same_branch in *. apply Z; exact D. }
  destruct G as [[_ G]|G]; auto.
Qed.
Print Assumptions C76_coarsening.

Definition with_coarsening : settings := mkSet 0 false true true 3 0 false false false false true.

Theorem C76_coarsening_refuted : exists answers, let st := run with_coarsening answers (initial with_coarsening) in
  depth st < max_refinement_depth with_coarsening /\ do_amr st = false /\ forall k, ~ In (Amr k) (trace st).
Proof.
  exists [mkAns true true false false false 0; ok_step 0; ok_step 0]. cbn.
  split; [lia|]. split; [reflexivity|]. intros k. intuition discriminate.
Qed.
Print Assumptions C76_coarsening_refuted.

Example C76_applies : by_frequency every_second /\
  trace (run every_second [ok_step 0; ok_step 0; mkAns false false false false true 0; ok_step 0] (initial every_second)) =
    [Try 2; Try 2; Amr 2; Try 1; Try 0].
Proof. split; [repeat split; cbn; lia|reflexivity]. Qed.
Definition each_step : settings := mkSet 1 false true false 3 0 false false false true false.
Example C76_fresh_applies : needed each_step = true /\ quality_control each_step = false /\
  finished (run each_step [ok_step 0] (initial each_step)) = false /\
  trace (tried (run each_step [ok_step 0] (initial each_step))) = [Try 1; Gt 1; Amr 1; Try 0].
Proof. repeat split; reflexivity. Qed.
