(** C08 (failures after the new time is set) and C122 (the counters of a run). *)
From Coq Require Import QArith Qabs Qminmax NArith.
From Coq Require Import List Arith Bool Lia Lqa.
From Verif Require Import Util MeshFlagsModel TimeSchemesModel TimeDataModel HistoryModel TimeLoopModel TimeLoopSpec TimeLoopProofs
  TimeLoopLateModel TimeLoopLateProofs TimeLoopProps.
Import ListNotations.
Local Open Scope Q_scope.

(** Without a failure of the solves for the fluxes the loop is the one of [TimeLoopModel]. *)
Theorem C08_early : forall V p (s : state V) a, pass_late p s a false = pass p s a.
Proof. reflexivity. Qed.

(** With one, the step is not rolled back: the time and the number of the step have advanced and
    stay so, but the solution is the one from before the attempt, and nothing is written.  The
    step size that is halved is the one for the step after. *)
Theorem C08_late_refuted : forall V p sc (u0 junk : V) s0 s l0 l a u f x o,
  initial_state p sc u0 junk = Some s0 -> reach p anything s0 l0 s l ->
  loop_condition p s = true -> a_result a = Some x -> remap_now p s a = Some f ->
  get_current_solution (hist (before_step p s a)) = Some u ->
  pass_late p s a true = Some o ->
  exists s', (o = Running s' \/ o = Aborted s') /\
    t s' = t s + dt s /\ n_timestep s' = S (n_timestep s) /\ n_failed s' = S (n_failed s) /\
    get_current_solution (hist s') = Some u /\ has_converged s' = false /\
    dt s' = next_dt p (a_good a) (t s + dt s) (dt s) * (1 # 2) /\
    outputs s' = outputs s /\ checkpoints s' = checkpoints s.
Proof.
  intros V p sc u0 junk s0 s l0 l a u f x o HI HR LC ER RM HU HP.
  destruct (shape_reach _ _ _ _ _ _ (shape_initial _ _ _ _ _ HI) HR) as (c & j & rest & HH).
  destruct (before_step_hist p s a c j rest HH) as (c1 & rest1 & B1 & _ & _).
  assert (F : n_failed (before_step p s a) = n_failed s) by (unfold before_step; now destruct (has_converged s)).
  destruct (before_step_fields p s a) as (F1 & F2 & F3 & F4 & F5 & F6 & F7 & F8 & F9).
  assert (Eu : c1 = u) by (rewrite B1 in HU; unfold get_current_solution, vget in HU; simpl in HU; congruence). subst c1.
  unfold pass_late in HP. rewrite LC in HP. unfold prepare_guess in HP. rewrite B1 in HP.
  cbn [get_current_solution vget nth_error obind set_recent_old_solution vset set_current_solution] in HP.
  unfold attempt_late in HP. rewrite ER in HP. cbn [set_current_solution vset obind] in HP. rewrite F1, F2 in HP.
  change (if negb (is_last p (t s + dt s)) && check_inconsistency p then a_gt_now a else Some (fun v : V => v)) with (remap_now p s a) in HP.
  rewrite RM in HP.
  assert (EH : exists y r, (if negb (is_last p (t s + dt s)) && check_inconsistency p
     then apply_filtered true false true f (x :: u :: rest1) else x :: u :: rest1) = y :: u :: r).
  { destruct (_ && _); [rewrite apply_except_recent|]; eauto. }
  destruct EH as (y & r & EH). rewrite EH in HP. unfold process_failure in HP.
  cbn [get_recent_old_solution set_current_solution vget vset nth_error obind] in HP. cbn [dt t n_timestep n_failed td] in HP.
  match type of HP with (if ?b then _ else _) = _ => destruct b end.
  - destruct (replace_dt _ _) as [d|]; [|discriminate]. cbn [obind] in HP. injection HP as <-. eexists. split; [left; reflexivity|].
    cbn. rewrite ?F, ?F3. repeat split; auto; congruence.
  - injection HP as <-. eexists. split; [right; reflexivity|]. cbn. rewrite ?F, ?F3. repeat split; auto; congruence.
Qed.

(** In the last step such a failure ends the run with the old solution and without the output
    and the restart point of the end. *)
Theorem C08_late_end_refuted : forall V p sc (u0 junk : V) s0 s l0 l a u f x s' b late,
  initial_state p sc u0 junk = Some s0 -> reach p anything s0 l0 s l ->
  loop_condition p s = true -> a_result a = Some x -> remap_now p s a = Some f ->
  get_current_solution (hist (before_step p s a)) = Some u ->
  is_last p (t s + dt s) = true ->
  pass_late p s a true = Some (Running s') ->
  pass_late p s' b late = Some (Finished s') /\ get_current_solution (hist s') = Some u /\
  outputs s' = outputs s /\ checkpoints s' = checkpoints s.
Proof.
  intros V p sc u0 junk s0 s l0 l a u f x s' b late HI HR LC ER RM HU HL HP.
  destruct (C08_late_refuted V p sc u0 junk s0 s l0 l a u f x _ HI HR LC ER RM HU HP) as (s2 & [E | E] & E1 & _ & _ & E2 & _ & _ & E3 & E4); [|discriminate].
  injection E as <-. split; [|now repeat split]. unfold pass_late.
  assert (LF : loop_condition p s' = false).
  { unfold loop_condition. rewrite E1. unfold is_last in HL. apply qltb_true in HL.
    destruct (qltb tol_termination _) eqn:C; [|reflexivity]. apply qltb_true in C. lra. }
  now rewrite LF.
Qed.

(** A witness: the second of two steps, in which the solves for the fluxes fail. *)
Definition accept2 (u : Q) : answer Q :=
  mkAnswer (fun v => v) (fun v => v) (fun v => v) (fun h => nth 0 h 0) (Some u) false false false None false.
Example C08_late_applies :
  match initial_state params1 (Some BDF2) 10 77 with
  | Some s0 =>
      match run_counted params1 [(accept2 11, false, mkCost 5 2 3); (accept2 12, true, mkCost 7 1 2); (accept2 13, false, mkCost 1 1 1)]
              (Running s0) no_counters with
      | Some (Running s, k, tr) =>
          t s == 5 # 2 /\ n_timestep s = 3%nat /\ n_failed s = 1%nat /\ length tr = 3%nat /\ nth 0 (hist s) 0 = 13 /\
          map (fun x => match fst (fst x) with Running s => nth 0 (hist s) 0 | _ => 0 end) tr = [11; 11; 13] /\
          k_done k = mkCost 13 4 6 /\ k_failed k = mkCost 7 1 2
      | _ => False
      end
  | None => False
  end.
Proof. vm_compute. repeat split; reflexivity. Qed.

(** C07 also with failures of this kind at any steps: the loop ends or throws. *)
Theorem C07_terminates_late : forall V p sc (u0 junk : V) (a : nat -> answer V * bool),
  0 < time_step_init p -> 0 < time_step_min p -> 0 < time_step_max p ->
  exists s0 n s,
    initial_state p sc u0 junk = Some s0 /\
    (run_late p a n (Running s0) = Some (Finished s) \/ run_late p a n (Running s0) = Some (Aborted s)).
Proof.
  intros V p sc u0 junk a P1 P2 P3. destruct (initial_defined p sc u0 junk P1) as [s0 E].
  destruct (late_always p sc u0 junk s0 a (conj P1 P3) P2 E) as (n & s & H). exists s0, n, s. auto.
Qed.
(** Every step fails late: the steps are halved and the run is given up at the minimum, having
    reached a time without ever having changed the solution. *)
Example C07_late_applies :
  match initial_state params1 (Some BDF2) 10 77 with
  | Some s0 => match run_late params1 (fun _ => (accept2 11, true)) 7 (Running s0) with
               | Some (Aborted s) => t s == 127 # 64 /\ nth 0 (hist s) 0 = 10 /\ n_timestep s = 7%nat
               | _ => False end
  | None => False end.
Proof. vm_compute. repeat split; reflexivity. Qed.

(** C06 also with failures of this kind: the time never exceeds the end, every pass either
    advances it or leaves it, and a run that is not given up ends at the end time. *)
Theorem C06_late_partial : forall V p sc (u0 junk : V) s0 a n,
  positive_params p -> 0 < time_step_min p -> fits p -> initial_state p sc u0 junk = Some s0 ->
  (forall s, run_late p a n (Running s0) = Some (Running s) ->
     t s <= time_end p /\ 0 < dt s /\
     forall b late s', pass_late p s b late = Some (Running s') ->
       (t s' = t s /\ n_timestep s' = n_timestep s) \/ (t s < t s' <= time_end p)) /\
  (forall s, run_late p a n (Running s0) = Some (Finished s) -> time_end p - (1 # 1000000000) <= t s <= time_end p).
Proof.
  intros V p sc u0 junk s0 a n PP Pm F HI.
  assert (H0 : holds p sc (Running s0)) by (split; [eapply base_initial|eapply tinv_initial]; eassumption).
  split.
  - intros s R. destruct (late_run_holds p sc PP Pm n a _ _ H0 R) as [HB HT]. pose proof HT as (T1 & T2 & T3).
    split; [exact T2|]. split; [exact T1|]. intros b late s' HP.
    destruct (late_holds p sc s b late _ PP Pm HB HT HP) as [_ (_ & T2' & _)].
    pose proof HB as [(c & j & rest & HH & HL) _].
    destruct (late_cases p s b late c j rest HH) as [EP|LR].
    + rewrite EP in HP. destruct (tinv_pass p s b s' c j rest PP HH HT HP) as [_ [K | [K _]]]; [now left|right; now split].
    + rewrite HP in LR. inversion LR; subst. right.
      match goal with H : t s' = _ |- _ => rewrite H in * end. split; [lra|exact T2'].
  - intros s R. destruct (late_run_holds p sc PP Pm n a _ _ H0 R) as (_ & (_ & T2 & _) & LF).
    split; [|exact T2]. unfold loop_condition in LF. apply qltb_false in LF. rewrite Qabs_neg in LF by lra.
    unfold tol_termination in LF. lra.
Qed.

(** ** C122 *)
Definition state_of {V} (o : outcome V) : state V := match o with Running s => s | Finished s => s | Aborted s => s end.
(** An attempt is accepted if the loop goes on with a converged solution. *)
Definition accepted {V} (x : outcome V * Q * cost) : bool :=
  match fst (fst x) with Running s => has_converged s | _ => false end.
Definition rejected {V} (x : outcome V * Q * cost) : bool := negb (accepted x).
Definition total {V} (sel : outcome V * Q * cost -> bool) (what : cost -> N) (tr : list (outcome V * Q * cost)) : N :=
  fold_right N.add 0%N (map (fun x => what (snd x)) (filter sel tr)).

Lemma failure_state : forall V p (s : state V) h o, process_failure p s h = Some o ->
  (match o with Running s' => has_converged s' | _ => false end) = false /\
  n_timestep (state_of o) = n_timestep s /\ n_failed (state_of o) = S (n_failed s).
Proof.
  intros V p s h o H. unfold process_failure in H. destruct (get_recent_old_solution h) as [u|]; [|discriminate]. cbn [obind] in H.
  destruct (set_current_solution h u) as [h'|]; [|discriminate]. cbn [obind] in H.
  match type of H with (if ?b then _ else _) = _ => destruct b end.
  - destruct (replace_dt _ _) as [d|]; [|discriminate]. cbn [obind] in H. injection H as <-. now cbn.
  - injection H as <-. now cbn.
Qed.
Lemma success_state : forall V p (s s' : state V) a, after_success p s a = Some s' ->
  has_converged s' = true /\ n_timestep s' = n_timestep s /\ n_failed s' = n_failed s.
Proof.
  intros V p s s' a H. unfold after_success in H. destruct (commit_old_solutions (hist s)) as [h|]; [|discriminate]. cbn [obind] in H.
  cbv zeta in H. destruct (update_dt (td s) (dt s)) as [d|]; [|discriminate]. cbn [obind] in H. injection H as <-. now cbn.
Qed.

Lemma pass_counted : forall V p (s : state V) a c k o, loop_condition p s = true -> pass_late p s a false = Some o ->
  let ok := accepted (o, dt s, c) in
  count p s a false c k = (if ok then count_done k c (dt s) else count_failed k c) /\
  n_timestep (state_of o) = (n_timestep s + (if ok then 1 else 0))%nat /\ n_failed (state_of o) = (n_failed s + (if ok then 0 else 1))%nat /\
  (forall s', o <> Finished s').
Proof.
  intros V p s a c k o LC H. destruct (before_step_fields p s a) as (F1 & F2 & F3 & _ & _ & _ & _ & _ & F9).
  unfold pass_late in H. rewrite LC in H. destruct (prepare_guess _ _) as [h|]; [|discriminate]. cbn [obind] in H.
  assert (NF : forall s0 h0, process_failure p s0 h0 = Some o -> forall s', o <> Finished s').
  { intros s0 h0 K s' ->. unfold process_failure in K. destruct (get_recent_old_solution h0); [|discriminate]. cbn [obind] in K.
    destruct (set_current_solution _ _); [|discriminate]. cbn [obind] in K. destruct (qltb _ _); [|discriminate].
    destruct (replace_dt _ _); discriminate. }
  unfold attempt_late in H. unfold count, accepted. cbn [fst].
  destruct (a_result a) as [u|].
  - destruct (set_current_solution h u) as [h1|]; [|discriminate]. cbn [obind] in H. cbv zeta in H. rewrite F1, F2 in H.
    destruct (negb (is_last p (t s + dt s)) && check_inconsistency p) eqn:RG.
    + destruct (a_gt_now a) as [f|]; cbn [option_map].
      * destruct (after_success _ _ _) as [s2|] eqn:E; [|discriminate]. cbn [obind] in H. injection H as <-.
        apply success_state in E as (E1 & E2 & E3). cbn [n_timestep n_failed] in E2, E3. rewrite E1. cbn [state_of].
        rewrite E2, E3, F3, F9. split; [reflexivity|]. split; [lia|]. split; [lia|]. discriminate.
      * specialize (NF _ _ H). apply failure_state in H as (E1 & E2 & E3). rewrite E1, E2, E3, F3, F9. (split; [reflexivity|]); (split; [lia|]); (split; [lia|]); exact NF.
    + destruct (after_success _ _ _) as [s2|] eqn:E; [|discriminate]. cbn [obind] in H. injection H as <-.
      apply success_state in E as (E1 & E2 & E3). cbn [n_timestep n_failed] in E2, E3. rewrite E1. cbn [state_of].
      rewrite E2, E3, F3, F9. split; [reflexivity|]. split; [lia|]. split; [lia|]. discriminate.
  - specialize (NF _ _ H). apply failure_state in H as (E1 & E2 & E3). rewrite E1, E2, E3, F3, F9. (split; [reflexivity|]); (split; [lia|]); (split; [lia|]); exact NF.
Qed.

Definition plus (a : cost) (x y z : N) (b : cost) : Prop :=
  linear b = u32 (linear a + x) /\ newton b = u32 (newton a + y) /\ residual b = u32 (residual a + z).
Definition bounded (c : cost) : Prop := (linear c < 2 ^ 32 /\ newton c < 2 ^ 32 /\ residual c < 2 ^ 32)%N.
Lemma u32_lt : forall x, (u32 x < 2 ^ 32)%N.
Proof. intros. unfold u32. apply N.mod_lt. discriminate. Qed.
Lemma u32_small : forall x, (x < 2 ^ 32)%N -> u32 x = x.
Proof. intros. unfold u32. now apply N.mod_small. Qed.
Lemma u32_add_l : forall x y, u32 (u32 x + y) = u32 (x + y).
Proof. intros. unfold u32. apply N.add_mod_idemp_l. discriminate. Qed.
Lemma add_bounded : forall a b, bounded (add_cost a b).
Proof. intros. unfold bounded, add_cost. cbn [linear newton residual]. repeat split; apply u32_lt. Qed.

Lemma run_counted_spec : forall V p (l : list (answer V * bool * cost)) o k o2 k2 tr,
  Forall (fun x => snd (fst x) = false) l -> bounded (k_done k) -> bounded (k_failed k) -> (forall s, o <> Finished s) ->
  run_counted p l o k = Some (o2, k2, tr) ->
  n_timestep (state_of o2) = (n_timestep (state_of o) + length (filter accepted tr))%nat /\
  n_failed (state_of o2) = (n_failed (state_of o) + length (filter rejected tr))%nat /\
  plus (k_done k) (total accepted linear tr) (total accepted newton tr) (total accepted residual tr) (k_done k2) /\
  plus (k_failed k) (total rejected linear tr) (total rejected newton tr) (total rejected residual tr) (k_failed k2) /\
  k_max_dt k <= k_max_dt k2 /\ (forall x, In x tr -> accepted x = true -> snd (fst x) <= k_max_dt k2) /\
  (k_max_dt k2 == k_max_dt k \/ exists x, In x tr /\ accepted x = true /\ k_max_dt k2 == snd (fst x)).
Proof.
  intros V p. induction l as [|[[a late] c] l IH]; intros o k o2 k2 tr F Bd Bf NF H.
  - cbn in H. injection H as <- <- <-. unfold total, plus. cbn. rewrite !N.add_0_r. destruct Bd as (? & ? & ?), Bf as (? & ? & ?).
    rewrite !u32_small by assumption. repeat split; try lia; try lra; try (now intros x []); left; reflexivity.
  - assert (Stop : forall o' : outcome V, Some (o', k, []) = Some (o2, k2, tr) -> state_of o' = state_of o ->
      n_timestep (state_of o2) = (n_timestep (state_of o) + length (filter accepted tr))%nat /\
      n_failed (state_of o2) = (n_failed (state_of o) + length (filter rejected tr))%nat /\
      plus (k_done k) (total accepted linear tr) (total accepted newton tr) (total accepted residual tr) (k_done k2) /\
      plus (k_failed k) (total rejected linear tr) (total rejected newton tr) (total rejected residual tr) (k_failed k2) /\
      k_max_dt k <= k_max_dt k2 /\ (forall x, In x tr -> accepted x = true -> snd (fst x) <= k_max_dt k2) /\
      (k_max_dt k2 == k_max_dt k \/ exists x, In x tr /\ accepted x = true /\ k_max_dt k2 == snd (fst x))).
    { intros o' K Es. injection K as <- <- <-. rewrite Es. unfold total, plus. cbn. rewrite !N.add_0_r.
      destruct Bd as (? & ? & ?), Bf as (? & ? & ?). rewrite !u32_small by assumption. repeat split; try lia; try lra; try (now intros x []); left; reflexivity. }
    cbn [run_counted] in H. destruct o as [s|s|s]; [|now apply (Stop (Finished s))|now apply (Stop (Aborted s))].
    inversion F as [|? ? Fl F']; subst. cbn [fst snd] in Fl. subst late.
    destruct (pass_late p s a false) as [o'|] eqn:E; [|discriminate]. cbn [obind] in H.
    destruct (loop_condition p s) eqn:LC.
    + destruct (pass_counted V p s a c k o' LC E) as (P1 & P2 & P3 & P4). cbv zeta in P1.
      destruct (run_counted p l o' (count p s a false c k)) as [[[o3 k3] tr3]|] eqn:R; [|discriminate]. cbn [obind] in H.
      injection H as <- <- <-.
      assert (B2 : bounded (k_done (count p s a false c k)) /\ bounded (k_failed (count p s a false c k))).
      { rewrite P1. destruct (accepted _); cbn [count_done count_failed k_done k_failed]; split; auto using add_bounded. }
      destruct B2 as [B2 B3].
      destruct (IH _ _ _ _ _ F' B2 B3 P4 R) as (I1 & I2 & I3 & I4 & I5 & I6 & I7). cbn [state_of].
      rewrite P1 in I3, I4, I5, I7. rewrite P2 in I1. rewrite P3 in I2. unfold total, rejected, plus in *. cbn [filter].
      destruct (accepted (o', dt s, c)) eqn:A; cbn [negb]; cbn [count_done count_failed k_done k_failed k_max_dt add_cost linear newton residual] in *;
        cbn [map fold_right length snd]; repeat (rewrite u32_add_l in I3); repeat (rewrite u32_add_l in I4); rewrite ?N.add_assoc;
        (split; [lia|]); (split; [lia|]); (split; [exact I3|]); (split; [exact I4|]).
      * pose proof (Q.le_max_l (k_max_dt k) (dt s)) as M1. pose proof (Q.le_max_r (k_max_dt k) (dt s)) as M2. split; [lra|]. split.
        -- intros x [<- | Ix] Ax; [cbn [fst snd]; lra|now apply I6].
        -- destruct I7 as [I7 | (x & Ix & Ax & Ex)].
           ++ destruct (Q.max_spec (k_max_dt k) (dt s)) as [[_ M] | [_ M]].
              ** right. exists (o', dt s, c). split; [now left|]. split; [exact A|]. cbn [fst snd]. now rewrite I7.
              ** left. now rewrite I7.
           ++ right. exists x. split; [now right|]. now split.
      * split; [exact I5|]. split.
        -- intros x [<- | Ix] Ax; [congruence|now apply I6].
        -- destruct I7 as [I7 | (x & Ix & Ax & Ex)]; [now left|]. right. exists x. split; [now right|]. now split.
    + apply (Stop o' H). unfold pass_late in E. rewrite LC in E. injection E as <-. reflexivity.
Qed.

(** The numbers of the final statistics of a new run: accepted steps and failed tries, the
    iterations and evaluations of the accepted and of the failed attempts (as unsigned numbers),
    and the largest step accepted. *)
Theorem C122_counts : forall V p sc (u0 junk : V) s0 l o k tr,
  initial_state p sc u0 junk = Some s0 -> Forall (fun x => snd (fst x) = false) l ->
  run_counted p l (Running s0) no_counters = Some (o, k, tr) ->
  n_timestep (state_of o) = length (filter accepted tr) /\ n_failed (state_of o) = length (filter rejected tr) /\
  (n_timestep (state_of o) + n_failed (state_of o))%nat = length tr /\
  k_done k = mkCost (u32 (total accepted linear tr)) (u32 (total accepted newton tr)) (u32 (total accepted residual tr)) /\
  k_failed k = mkCost (u32 (total rejected linear tr)) (u32 (total rejected newton tr)) (u32 (total rejected residual tr)) /\
  (forall x, In x tr -> accepted x = true -> snd (fst x) <= k_max_dt k) /\
  (k_max_dt k == 0 \/ exists x, In x tr /\ accepted x = true /\ k_max_dt k == snd (fst x)).
Proof.
  intros V p sc u0 junk s0 l o k tr HI F H.
  assert (B : bounded zero_cost) by (unfold bounded; cbn; lia).
  destruct (run_counted_spec V p l (Running s0) no_counters o k tr F B B ltac:(discriminate) H) as (A1 & A2 & A3 & A4 & _ & A6 & A7).
  assert (E : n_timestep s0 = 0%nat /\ n_failed s0 = 0%nat).
  { unfold initial_state in HI. destruct (td_ctor_init sc (time_step_init p)) as [d|]; [|discriminate]. cbn [obind] in HI.
    destruct (get_current_dt d) as [y|]; [|discriminate]. cbn [obind] in HI. injection HI as <-. now split. }
  destruct E as [E1 E2]. cbn [state_of] in A1, A2. rewrite E1 in A1. rewrite E2 in A2. cbn [Nat.add] in A1, A2.
  split; [exact A1|]. split; [exact A2|]. split.
  { rewrite A1, A2. clear. unfold rejected. induction tr as [|x tr IH]; [reflexivity|]. cbn [filter]. destruct (accepted x); cbn [negb length]; lia. }
  destruct A3 as (U1 & U2 & U3), A4 as (W1 & W2 & W3). destruct (k_done k) as [d1 d2 d3], (k_failed k) as [f1 f2 f3]. cbn in *. subst.
  split; [reflexivity|]. split; [reflexivity|]. split; [exact A6|exact A7].
Qed.

(** A failure of the solves for the fluxes counts the attempt twice: as a step and as a failed
    try, with its iterations in both sums. *)
Theorem C122_late_refuted : forall V p (s : state V) a c k x f, a_result a = Some x -> remap_now p s a = Some f ->
  count p s a true c k = count_failed (count_done k c (dt s)) c.
Proof.
  intros V p s a c k x f R M. unfold count. rewrite R. unfold remap_now in M. destruct (_ && _); [|reflexivity].
  now rewrite M.
Qed.

(** The averages: total divided by number; without a step there is none. *)
Theorem C122_average : forall tot n, (0 < n)%N -> exists q, average tot n = Some q /\ q * inject_Z (Z.of_N n) == inject_Z (Z.of_N tot).
Proof.
  intros tot n H. unfold average. destruct (N.eqb_spec n 0); [lia|]. eexists. split; [reflexivity|]. field.
  assert (0 < inject_Z (Z.of_N n)) by (change 0 with (inject_Z 0); rewrite <- Zlt_Qlt; lia). lra.
Qed.
(** A run that starts at its end: no attempt, and the averages are divisions by zero. *)
Theorem C122_average_refuted : forall V p (s : state V) l k, loop_condition p s = false ->
  exists o, run_counted p l (Running s) k = Some (o, k, []) /\ state_of o = s /\
  (n_timestep s = 0%nat -> average (newton (k_done k)) (N.of_nat (n_timestep s)) = None).
Proof.
  intros V p s l k H. destruct l as [|[[a late] c] l].
  - exists (Running s). split; [reflexivity|]. split; [reflexivity|]. intros ->. reflexivity.
  - exists (Finished s). cbn [run_counted]. unfold pass_late. rewrite H. cbn [obind]. split; [reflexivity|]. split; [reflexivity|]. intros ->. reflexivity.
Qed.
(** Three attempts, one rejected. *)
Example C122_applies :
  match initial_state params1 (Some BDF2) 10 77 with
  | Some s0 =>
      match run_counted params1 [(accept2 11, false, mkCost 5 2 3); (reject, false, mkCost 7 1 2); (accept2 13, false, mkCost 1 1 1)]
              (Running s0) no_counters with
      | Some (Running s, k, tr) =>
          n_timestep s = 2%nat /\ n_failed s = 1%nat /\ k_done k = mkCost 6 3 4 /\ k_failed k = mkCost 7 1 2 /\ k_max_dt k == 1
      | _ => False
      end
  | None => False
  end.
Proof. vm_compute. repeat split; reflexivity. Qed.

Print Assumptions C06_late_partial.
Print Assumptions C07_terminates_late.
Print Assumptions C08_early.
Print Assumptions C08_late_refuted.
Print Assumptions C08_late_end_refuted.
Print Assumptions C122_counts.
Print Assumptions C122_late_refuted.
Print Assumptions C122_average.
Print Assumptions C122_average_refuted.
