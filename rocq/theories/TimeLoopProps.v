(** C05-C11, C48: the time loop. *)
From Coq Require Import List Arith ZArith QArith Qabs Lia Lqa.
From Verif Require Import Util TimeSchemesModel TimeSchemesSpec TimeDataModel TimeDataSpec
  TimeDataProofs HistoryModel TimeLoopModel TimeLoopSpec TimeLoopProofs.
Import ListNotations.
Local Open Scope Q_scope.

Ltac conjs := repeat match goal with |- _ /\ _ => split end.

(** Number of old solutions a scheme keeps. *)
Definition kept (sc : option scheme) : nat :=
  Nat.max (match sc with Some s => get_order s | None => 0 end) 1.

(** ** C05 *)

(** Full claim: without the last restriction on the answers.  Missing: runs in
    which the grain tracker remaps the solutions inside a step
    (check_inconsistency), see [C05_remap_inside_step_refuted].
    At every attempt of every run, whatever was solved, failed, transferred or
    remapped before, the old solutions entering the time derivative are the
    last accepted ones, newest first, and the step sizes are those that led to
    them. *)
Theorem C05_old_solutions_partial : forall V p sc (u0 junk : V) s0 s l a,
  initial_state p sc u0 junk = Some s0 ->
  reach p (harmless_remap p) s0 (initial_ledger u0 (kept sc)) s l ->
  old_solutions_at_attempt p s a = Some (firstn (kept sc) (sols_before p s a (l_sols l))) /\
  td_dt (td s) = firstn (kept sc) (dt s :: l_steps l ++ repeat 0 (kept sc)).
Proof. intros V p sc u0 junk s0 s l a H1 H2. exact (old_are_accepted p sc u0 junk s0 s l a H1 H2). Qed.
Print Assumptions C05_old_solutions_partial.

(** Without [check_inconsistency] there is no such remapping at all. *)
Theorem C05_no_remap_inside_step : forall V p (s : state V) a,
  check_inconsistency p = false -> harmless_remap p s a.
Proof.
  intros V p s a H f E v. unfold remap_now in E. rewrite H, andb_false_r in E.
  apply Some_eq in E. subst f. reflexivity.
Qed.
Print Assumptions C05_no_remap_inside_step.

(** Together with C01-C03: the discrete time derivative at the end of the step
    is exact for polynomials in time that the old solutions sample. *)
Theorem C05_time_derivative_exact_partial :
  forall p sc (u0 junk : Q) s0 s l a poly missing,
  positive_params p -> fits p -> initial_state p (Some sc) u0 junk = Some s0 ->
  reach p (harmless_remap p) s0 (initial_ledger u0 (kept (Some sc))) s l ->
  let known := firstn (get_order sc) (dt s :: l_steps l) in
  (length poly <= S (length known))%nat ->
  old_solutions_at_attempt p s a = Some (past_values poly (t s + dt s) known ++ missing) ->
  exists v, compute_time_derivative 0 (peval poly (t s + dt s)) (td_weights (td s))
              (past_values poly (t s + dt s) known ++ missing) = Some v /\
            v == peval (pderiv poly) (t s + dt s).
Proof.
  intros p sc u0 junk s0 s l a poly missing PP F HI HR known HL HO.
  destruct (reach_calls p (Some sc) u0 junk s0 _ s l PP F HI (reach_weaken _ _ _ _ _ _ HR))
    as (ops & C1 & C2 & C3).
  pose proof (stored_weights_exact sc (time_step_init p) ops (td s) poly (t s + dt s) missing
    (proj1 PP) C2 C1) as HE. cbv zeta in HE. rewrite C3 in HE. apply HE; [exact HL|].
  pose proof (reach_good _ _ _ _ _ _ (initial_good _ _ _ _ _ HI) HR)
    as [(c & j & rest & HH & HC & HLr) HT].
  destruct (pass_cases p s a c j rest HH) as (c' & rest' & _ & HL2 & HO2 & _).
  rewrite HO in HO2. injection HO2 as HO2. apply (f_equal (@length Q)) in HO2.
  rewrite app_length in HO2.
  assert (LP : forall ds x, length (past_values poly x ds) = length ds).
  { induction ds as [|d ds IH]; intro x; simpl; [reflexivity|]. rewrite IH. reflexivity. }
  rewrite LP in HO2. rewrite slots_some in HLr. simpl in HO2, HLr. fold known.
  cbn [current accepted]. fold known. lia.
Qed.
Print Assumptions C05_time_derivative_exact_partial.

(** Concrete runs.  The answers: everything succeeds with solution [u]. *)
Definition accept (u : Q) : answer Q :=
  mkAnswer (fun v => v) (fun v => v) (fun v => v) (fun h => nth 0 h 0) (Some u)
           true false false None true.
Definition reject : answer Q :=
  mkAnswer (fun v => v) (fun v => v) (fun v => v) (fun h => nth 0 h 0) None
           true false false None false.

Definition params1 : params :=
  mkParams 0 10 1 (1#100) 4 2 false 3 2 true false.

Definition play (p : params) (sc : option scheme) (u0 : Q) (l : list (answer Q)) : option (outcome Q) :=
  s0 <- initial_state p sc u0 77 ;;
  run_loop p (fun i => nth i l reject) (length l) (Running s0).

Definition show (o : option (outcome Q)) :=
  match o with
  | Some (Running s) => Some (map Qred [t s; dt s], map Qred (td_dt (td s)), hist s, map Qred (outputs s),
                              map (fun c => (ck_name c, Qred (ck_t c))) (checkpoints s))
  | _ => None
  end.

(** Steps 1 (accepted, 11), 2 (rejected), 1 (accepted, 12), 2 (accepted, 14). *)
Example C05_case :
  show (play params1 (Some BDF2) 10 [accept 11; reject; accept 12; accept 14]) =
  Some ([4; 4], [4; 2], [14; 12; 12], [4; 0], [(0%nat, 4); (1%nat, 2); (0%nat, 1)]).
Proof. vm_compute. reflexivity. Qed.

(** If the remapping inside a step changes the solutions, the next attempt uses
    an old solution that has not been remapped. *)
Theorem C05_remap_inside_step_refuted :
  exists p s0 a s l b,
    initial_state p (Some BDF2) 10 77 = Some s0 /\
    pass p s0 a = Some (Running s) /\ l = ledger_pass p s0 a (initial_ledger 10 2) /\
    l_sols l = [-11; -10; -10] /\
    old_solutions_at_attempt p s b = Some [-11; 10].
Proof.
  exists (mkParams 0 10 1 (1#100) 4 2 false 3 2 true true).
  eexists. exists (mkAnswer (fun v => v) (fun v => v) (fun v => v) (fun h => nth 0 h 0) (Some 11)
           true false false (Some Qopp) true).
  eexists. eexists. exists (accept 5). conjs; vm_compute; reflexivity.
Qed.
Print Assumptions C05_remap_inside_step_refuted.

(** ** C06 *)

(** Full claim: without [fits].  Missing: an initial step larger than the
    simulated interval, see [C06_overshoot_refuted].
    The time never exceeds the end, it grows strictly with every accepted step
    and stays for a failed one, and every pass is defined. *)
Theorem C06_time_partial : forall V p sc (u0 junk : V) s0 s l0 l a,
  positive_params p -> fits p -> initial_state p sc u0 junk = Some s0 ->
  reach p anything s0 l0 s l ->
  t s <= time_end p /\ 0 < dt s /\
  exists o, pass p s a = Some o /\
    forall s', o = Running s' ->
      (t s < t s' /\ n_timestep s' = S (n_timestep s)) \/
      (t s' = t s /\ n_timestep s' = n_timestep s).
Proof.
  intros V p sc u0 junk s0 s l0 l a PP F HI HR.
  destruct (reach_base p sc u0 junk s0 l0 s l PP F HI HR) as [HB HT].
  pose proof HB as [(c & j & rest & HH & HL) (steps & HIN & HS)].
  split; [apply HT|]. split; [apply HT|].
  destruct (pass_defined p sc s a c j rest steps PP HH HIN HS HT) as [o Ho].
  exists o. split; [exact Ho|]. intros s' ->.
  destruct (tinv_pass p s a s' c j rest PP HH HT Ho) as [_ [[A B]|[A B]]]; auto.
Qed.
Print Assumptions C06_time_partial.

(** A run that ends regularly has reached the end up to the tolerance. *)
Theorem C06_end_partial : forall V p sc (u0 junk : V) s0 a n s,
  positive_params p -> fits p -> initial_state p sc u0 junk = Some s0 ->
  run_loop p a n (Running s0) = Some (Finished s) ->
  time_end p - (1 # 1000000000) <= t s <= time_end p.
Proof.
  intros V p sc u0 junk s0 a n s H1 H2 H3 H4.
  exact (finished_end p sc u0 junk s0 a n s H1 H2 H3 H4).
Qed.
Print Assumptions C06_end_partial.

Example C06_case :
  positive_params params1 /\ fits params1 /\
  match play params1 (Some BDF2) 10 [accept 1; accept 2; accept 3; accept 4; accept 5; accept 6] with
  | Some (Finished s) => Qeq_bool (t s) 10 = true
  | _ => False
  end.
Proof. split; [split; reflexivity|]. split; [vm_compute; discriminate|vm_compute; reflexivity]. Qed.

(** If the first step is larger than the simulated interval, the run goes past
    the end and then back. *)
Theorem C06_overshoot_refuted :
  exists p s0 s1 s2, positive_params p /\ time_start p < time_end p /\
    initial_state p (Some BDF2) 10 77 = Some s0 /\
    pass p s0 (accept 1) = Some (Running s1) /\ time_end p < t s1 /\ dt s1 < 0 /\
    pass p s1 (accept 2) = Some (Running s2) /\ t s2 < t s1.
Proof.
  exists (mkParams 0 1 3 (1#100) 4 2 false 0 2 true false).
  eexists. eexists. eexists. split; [split; reflexivity|]. conjs; vm_compute; reflexivity.
Qed.
Print Assumptions C06_overshoot_refuted.

(** ** C07 *)

(** For every infinite sequence of answers the loop ends after finitely many
    passes, at the end time or with the exception for a too small step. *)
Theorem C07_terminates : forall V p sc (u0 junk : V) (a : nat -> answer V),
  0 < time_step_init p -> 0 < time_step_min p -> 0 < time_step_max p ->
  exists s0 n s,
    initial_state p sc u0 junk = Some s0 /\
    (run_loop p a n (Running s0) = Some (Finished s) \/
     run_loop p a n (Running s0) = Some (Aborted s)).
Proof.
  intros V p sc u0 junk a P1 P2 P3.
  destruct (initial_defined p sc u0 junk P1) as [s0 E].
  destruct (terminates_always p sc u0 junk s0 a (conj P1 P3) P2 E) as (n & s & H).
  exists s0, n, s. auto.
Qed.
Print Assumptions C07_terminates.

(** A run that is aborted has tried a step of at most twice the minimum. *)
Theorem C07_abort : forall V p sc (u0 junk : V) s0 s l0 l a s',
  initial_state p sc u0 junk = Some s0 -> reach p anything s0 l0 s l ->
  pass p s a = Some (Aborted s') -> dt s * (1 # 2) <= time_step_min p /\ dt s' = dt s * (1 # 2).
Proof.
  intros V p sc u0 junk s0 s l0 l a s' HI HR HP.
  destruct (shape_reach _ _ _ _ _ _ (shape_initial _ _ _ _ _ HI) HR) as (c & j & rest & HH).
  destruct (pass_cases p s a c j rest HH) as (c' & rest' & _ & _ & _ & PR).
  rewrite HP in PR. inversion PR; subst. auto.
Qed.
Print Assumptions C07_abort.

Example C07_case :
  (exists s, play params1 (Some BDF2) 10 (repeat reject 7) = Some (Aborted s)) /\
  (exists s, play params1 (Some BDF2) 10 (repeat reject 6) = Some (Running s)).
Proof. split; eexists; vm_compute; reflexivity. Qed.

(** With a vanishing minimum a solver that always fails is tried for ever. *)
Theorem C07_zero_minimum_refuted : forall n,
  exists p s0 s, time_step_min p == 0 /\ initial_state p None 10 77 = Some s0 /\
    run_loop p (fun _ => reject) n (Running s0) = Some (Running s).
Proof.
  intro n. exists (mkParams 0 1 1 0 4 2 false 0 2 true false). eexists.
  assert (G : forall n s, 0 < dt s -> t s = 0 -> (exists c j, hist s = [c; j]) ->
    (exists o x w, td s = mkTD None o [x] w) ->
    exists s', run_loop (mkParams 0 1 1 0 4 2 false 0 2 true false) (fun _ => reject) n (Running s)
      = Some (Running s')).
  { clear. induction n as [|n IH]; intros s HD HT (c & j & HH) (o & x & w & HW);
      [eexists; reflexivity|].
    cbn [run_loop].
    destruct (pass_cases (mkParams 0 1 1 0 4 2 false 0 2 true false) s reject c j [] HH)
      as (c' & rest' & _ & HL & _ & PR).
    destruct (pass _ s reject) as [o'|] eqn:Ho; inversion PR; subst.
    - exfalso. match goal with H : loop_condition _ _ = false |- _ =>
        unfold loop_condition in H; rewrite HT in H; discriminate H end.
    - exfalso. cbn [time_step_min] in *. lra.
    - cbn [obind]. apply IH.
      + match goal with H : dt s' = _ |- _ => rewrite H end. lra.
      + congruence.
      + destruct rest'; [|discriminate]. eauto.
      + match goal with H : replace_dt _ _ = Some _ |- _ => rewrite HW in H; cbn in H; injection H as <- end.
        eauto.
    - discriminate.
    - exfalso. match goal with H : replace_dt _ _ = None |- _ => rewrite HW in H; discriminate H end.
    - discriminate. }
  destruct (G n (mkState 0 1 0 0 0 0 true false false [10; 77] (mkTD None 0 [1] [0]) 0 0 [] []))
    as [s' E]; try reflexivity; [exists 10, 77; reflexivity|exists 0%nat, 1, [0]; reflexivity|].
  exists s'. split; [reflexivity|]. split; [reflexivity|]. exact E.
Qed.
Print Assumptions C07_zero_minimum_refuted.

(** ** C08 *)

(** A failed attempt: the current solution is the one from before the attempt
    (after limiting, mesh adaptation and remapping), so are the old ones; time,
    step count and outputs are unchanged and the step is halved.  If the halved
    step is not larger than the minimum, the run is aborted. *)
Theorem C08_rollback : forall V p sc (u0 junk : V) s0 s l0 l a u,
  initial_state p sc u0 junk = Some s0 -> reach p anything s0 l0 s l ->
  loop_condition p s = true ->
  (a_result a = None \/
   (check_inconsistency p = true /\ a_gt_now a = None /\ is_last p (t s + dt s) = false)) ->
  get_current_solution (hist (before_step p s a)) = Some u ->
  forall o, pass p s a = Some o ->
  exists s', (o = if qltb (time_step_min p) (dt s * (1 # 2)) then Running s' else Aborted s') /\
    get_current_solution (hist s') = Some u /\
    t s' = t s /\ dt s' = dt s * (1 # 2) /\ n_timestep s' = n_timestep s /\
    outputs s' = outputs s /\ checkpoints s' = checkpoints s /\
    (forall s2, o = Running s2 ->
       filter_history true false true (hist s2)
       = filter_history true false true (hist (before_step p s a))).
Proof.
  intros V p sc u0 junk s0 s l0 l a u HI HR LC HF HU o HP.
  destruct (shape_reach _ _ _ _ _ _ (shape_initial _ _ _ _ _ HI) HR) as (c & j & rest & HH).
  destruct (before_step_hist p s a c j rest HH) as (c1 & rest1 & B1 & B2 & B3).
  destruct (pass_cases p s a c j rest HH) as (c' & rest' & E1 & _ & _ & PR).
  assert (EC : c' = c1 /\ rest' = rest1) by (split; congruence).
  destruct EC as [-> ->].
  assert (c1 = u) by (rewrite B1 in HU; unfold get_current_solution, vget in HU; simpl in HU; congruence).
  subst c1.
  assert (RF : a_result a = None \/ remap_now p s a = None).
  { destruct HF as [HF|(F1 & F2 & F3)]; [auto|]. right. unfold remap_now.
    rewrite F1, F3. exact F2. }
  rewrite HP in PR. inversion PR; subst; try congruence.
  - exists s'. apply qltb_false in H2. rewrite H2. repeat split; auto; try discriminate.
  - exists s'. assert (H1' : qltb (time_step_min p) (dt s * (1 # 2)) = true) by (apply qltb_true; exact H2).
    rewrite H1'. repeat split; auto.
    + rewrite H7. reflexivity.
    + intros s2 E2. injection E2 as <-. rewrite H7, B1, !filter_except_recent. reflexivity.
  - exfalso. destruct RF; congruence.
Qed.
Print Assumptions C08_rollback.

Example C08_case :
  show (play params1 (Some BDF2) 10 [accept 11; reject]) =
    Some ([1; 1], [1; 1], [11; 11; 10], [0], [(0%nat, 1)]) /\
  show (play params1 (Some BDF2) 10 [accept 11]) =
    Some ([1; 2], [2; 1], [11; 10; 10], [0], [(0%nat, 1)]).
Proof. split; vm_compute; reflexivity. Qed.

(** ** C09 *)

(** What can be observed of a run. *)
Definition observe {V} (o : outcome V) :=
  match o with
  | Running s => (0%nat, t s, dt s, n_timestep s, td_dt (td s), td_weights (td s))
  | Finished s => (1%nat, t s, dt s, n_timestep s, td_dt (td s), td_weights (td s))
  | Aborted s => (2%nat, t s, dt s, n_timestep s, td_dt (td s), td_weights (td s))
  end.

(** Full claim: for every checkpoint.  Proved for checkpoints written when the
    step size has been constant over the stored history and stays so, and no
    mesh adaptation or grain tracker run is pending; otherwise see
    [C09_variable_steps_refuted] and [C09_pending_adaptation_refuted].  The
    resumed run is the uninterrupted one for all further answers. *)
Theorem C09_constant_steps_partial :
  forall V p sc (u0 junk zero : V) s0 k s l a s' ck,
  positive_params p -> fits p -> full_history p = true ->
  initial_state p (Some sc) u0 junk = Some s0 ->
  reach p anything s0 (initial_ledger u0 k) s l ->
  pass p s a = Some (Running s') -> checkpoints s' = ck :: checkpoints s ->
  td_dt (td s) = repeat (dt s) (get_order sc) -> dt s' = dt s ->
  do_amr s' = false -> do_gt s' = false ->
  exists r, restart_state (Some sc) zero ck = Some r /\
    forall (b : nat -> answer V) n,
      option_map observe (run_loop p b n (Running r))
      = option_map observe (run_loop p b n (Running s')).
Proof.
  intros V p sc u0 junk zero s0 k s l a s' ck PP F FH HI HR HP HC HT HD HA HG.
  destruct (restart_alike p sc u0 junk zero s0 k s l a s' ck PP F FH HI HR HP HC HT HD HA HG)
    as (r & E & AL).
  exists r. split; [exact E|]. intros b n.
  pose proof (alike_run p n b (Running s') (Running r) AL) as H.
  destruct (run_loop p b n (Running s')) as [o1|], (run_loop p b n (Running r)) as [o2|];
    try contradiction; [|reflexivity].
  simpl. f_equal. unfold alike_opt, alike_outcome in H.
  destruct o1, o2; try contradiction; destruct H; unfold observe; congruence.
Qed.
Print Assumptions C09_constant_steps_partial.

(** Growth switched off, BDF2, checkpoint after the second step. *)
Example C09_case :
  exists s0 s1 s2 ck r,
    initial_state (mkParams 0 10 1 (1#100) 4 1 false 3 2 true false) (Some BDF2) 10 77 = Some s0 /\
    pass (mkParams 0 10 1 (1#100) 4 1 false 3 2 true false) s0 (accept 11) = Some (Running s1) /\
    td_dt (td s1) = repeat (dt s1) 2 /\
    pass (mkParams 0 10 1 (1#100) 4 1 false 3 2 true false) s1 (accept 12) = Some (Running s2) /\
    checkpoints s2 = ck :: checkpoints s1 /\ dt s2 = dt s1 /\
    restart_state (Some BDF2) 0 ck = Some r /\ td_dt (td r) = [1; 1] /\ hist r = [12; 0; 11].
Proof. do 5 eexists. conjs; vm_compute; reflexivity. Qed.

(** With growing steps: the checkpoint after the second step (sizes 1, 2) holds
    the step sizes from before the update, so the resumed run takes 2 instead
    of 4, believes that the last accepted step was 1 although it was 2, and its
    weights do not even differentiate the function t exactly: 1/3 instead of
    1. *)
Theorem C09_variable_steps_refuted :
  exists s0 s1 s2 ck r,
    initial_state params1 (Some BDF2) 0 77 = Some s0 /\
    pass params1 s0 (accept 1) = Some (Running s1) /\
    pass params1 s1 (accept 3) = Some (Running s2) /\
    checkpoints s2 = ck :: checkpoints s1 /\
    restart_state (Some BDF2) 0 ck = Some r /\
    qlist_eq (td_dt (td s2)) [4; 2] /\ qlist_eq (td_dt (td r)) [2; 1] /\
    t r == 3 /\ hist r = [3; 0; 1] /\ dt r == 2 /\
    exists v, compute_time_derivative 0 (t r + dt r) (td_weights (td r)) [3; 1] = Some v /\
      v == (1 # 3).
Proof.
  do 5 eexists. conjs; try (vm_compute; reflexivity).
  - vm_compute. repeat constructor.
  - vm_compute. repeat constructor.
  - eexists. split; vm_compute; reflexivity.
Qed.
Print Assumptions C09_variable_steps_refuted.

(** A mesh adaptation that was due when the checkpoint was written is not done
    by the resumed run. *)
Definition accept_amr (u : Q) : answer Q :=
  mkAnswer (fun v => v) (fun v => v) (fun v => v) (fun h => nth 0 h 0) (Some u)
           false true false None true.

Theorem C09_pending_adaptation_refuted :
  exists s0 s1 ck r,
    initial_state params1 (Some BDF1) 0 77 = Some s0 /\
    pass params1 s0 (accept_amr 1) = Some (Running s1) /\
    checkpoints s1 = ck :: checkpoints s0 /\
    restart_state (Some BDF1) 0 ck = Some r /\
    do_amr s1 = true /\ do_amr r = false /\
    n_last_amr (before_step params1 s1 reject) = 1%nat /\
    n_last_amr (before_step params1 r reject) = 0%nat.
Proof. do 4 eexists. conjs; vm_compute; reflexivity. Qed.
Print Assumptions C09_pending_adaptation_refuted.

(** ** C10 *)

(** Full claim: for every start time.  Missing: start times other than 0, see
    [C10_start_time_refuted].  Consecutive outputs are at least the interval
    apart, except that the very last one (written by the last step) may come
    earlier. *)
Theorem C10_gaps_partial : forall V p sc (u0 junk : V) s0 l0 s l i x y,
  0 < output_time_interval p -> time_start p = 0 ->
  initial_state p sc u0 junk = Some s0 -> reach p anything s0 l0 s l ->
  nth_error (outputs s) i = Some y -> nth_error (outputs s) (S i) = Some x ->
  output_time_interval p <= y - x \/
  (i = 0%nat /\ is_last p (t s) = true).
Proof.
  intros V p sc u0 junk s0 l0 s l i x y HO HT HI HR Hy Hx.
  assert (O0 : oinv p s0).
  { destruct (initial_times _ _ _ _ _ HI) as (E1 & _ & _ & E4 & _ & _ & E7 & _).
    unfold oinv. rewrite E7, E4, HT. apply qltb_true in HO. rewrite HO.
    split; [eauto|]. destruct (is_last p (t s0)); exact I. }
  destruct (outputs_reach _ _ _ _ _ _ (shape_initial _ _ _ _ _ HI) HO O0 HR) as [_ OS].
  assert (G : forall z os k, spaced z os -> nth_error os k = Some y ->
     nth_error os (S k) = Some x -> z <= y - x).
  { induction os as [|b os IH]; intros k S1 H1 H2; [destruct k; discriminate|].
    destruct k as [|k].
    - destruct os as [|b2 os]; [discriminate|]. simpl in *. injection H1 as ->.
      injection H2 as ->. tauto.
    - apply (IH k); try assumption. destruct os; [exact I|]. simpl in S1. tauto. }
  destruct (is_last p (t s)) eqn:EL.
  - destruct i as [|i]; [right; auto|]. left.
    destruct (outputs s) as [|b os]; [discriminate|]. simpl in OS.
    eapply (G _ os i); eassumption.
  - left. eapply G; eassumption.
Qed.
Print Assumptions C10_gaps_partial.

(** Every accepted step after which the interval has passed since the last
    output, and the last step, produce an output. *)
Theorem C10_due : forall V p sc (u0 junk : V) s0 l0 s l a s' last rest,
  0 < output_time_interval p -> time_start p = 0 ->
  initial_state p sc u0 junk = Some s0 -> reach p anything s0 l0 s l ->
  outputs s = last :: rest ->
  pass p s a = Some (Running s') -> n_timestep s' = S (n_timestep s) ->
  (output_time_interval p + last <= t s' \/ is_last p (t s') = true) ->
  outputs s' = t s' :: last :: rest.
Proof.
  intros V p sc u0 junk s0 l0 s l a s' lst rst HO HT HI HR HL HP HN HD.
  assert (O0 : oinv p s0).
  { destruct (initial_times _ _ _ _ _ HI) as (E1 & _ & _ & E4 & _ & _ & E7 & _).
    unfold oinv. rewrite E7, E4, HT. apply qltb_true in HO. rewrite HO.
    split; [eauto|]. destruct (is_last p (t s0)); exact I. }
  destruct (outputs_reach _ _ _ _ _ _ (shape_initial _ _ _ _ _ HI) HO O0 HR) as [[r OI] _].
  destruct (shape_reach _ _ _ _ _ _ (shape_initial _ _ _ _ _ HI) HR) as (c & j & rest & HH).
  destruct (pass_cases p s a c j rest HH) as (c' & rest' & _ & _ & _ & PR).
  rewrite HP in PR. inversion PR; subst; [exfalso; lia|].
  rewrite H11, HL. rewrite HL in OI. injection OI as OI1 OI2.
  assert (EO : out = true).
  { unfold out. apply qltb_true in HO. rewrite HO. cbn [andb]. apply Bool.orb_true_intro.
    rewrite H5 in HD. destruct HD as [HD|HD].
    - left. apply Qle_bool_iff. rewrite <- OI1. exact HD.
    - right. exact HD. }
  rewrite EO, H5. reflexivity.
Qed.
Print Assumptions C10_due.

Example C10_case :
  show (play params1 (Some BDF1) 10 [accept 11; accept 12; accept 13; reject]) =
    Some ([7; 3 # 2], [3 # 2], [13; 13], [7; 3; 0], [(0%nat, 7); (1%nat, 3); (0%nat, 1)]).
Proof. vm_compute. reflexivity. Qed.

(** The time of the last output starts at 0 although the initial output is
    written at the start time: a run from 20 with interval 10 writes an output
    after its first step. *)
Theorem C10_start_time_refuted :
  exists p s0 s1, output_time_interval p == 10 /\
    initial_state p (Some BDF1) 10 77 = Some s0 /\ outputs s0 = [20] /\
    pass p s0 (accept 11) = Some (Running s1) /\ qlist_eq (outputs s1) [21; 20] /\
    is_last p (t s1) = false.
Proof.
  exists (mkParams 20 50 1 (1#100) 4 2 false 10 2 true false). do 2 eexists.
  conjs; try (vm_compute; reflexivity). vm_compute. repeat constructor.
Qed.
Print Assumptions C10_start_time_refuted.

(** ** C11 *)

(** A checkpoint overwrites an older one of the same name. *)
Definition on_disk {V} (cks : list (@checkpoint V)) (name : nat) : option (@checkpoint V) :=
  find (fun c => Nat.eqb (ck_name c) name) cks.

(** In a new run and in a resumed run: the n newest checkpoints are all on
    disk, and no other names than 0..n-1 are used (n = 0: all checkpoints are
    kept). *)
Theorem C11_rotation : forall V p sc (u0 junk zero : V) ck0 s0 l0 s l i ck,
  (initial_state p sc u0 junk = Some s0 \/ restart_state sc zero ck0 = Some s0) ->
  reach p anything s0 l0 s l ->
  nth_error (checkpoints s) i = Some ck ->
  (max_output p = 0%nat \/ (i < max_output p)%nat -> on_disk (checkpoints s) (ck_name ck) = Some ck) /\
  (max_output p <> 0%nat -> (ck_name ck < max_output p)%nat).
Proof.
  intros V p sc u0 junk zero ck0 s0 l0 s l i ck HI HR HN.
  assert (HS : shape s0) by (destruct HI as [HI|HI];
    [eapply shape_initial; eassumption|eapply shape_restart; eassumption]).
  assert (K0 : kinv p (restart_counter s0) s0).
  { assert (checkpoints s0 = []).
    { destruct HI as [HI|HI]; [apply (initial_times _ _ _ _ _ HI)|].
      unfold restart_state in HI.
      destruct (restart_time_data sc (ck_time ck0) (ck_full ck0)) as [d|]; cbn [obind] in HI; [|discriminate].
      destruct (get_current_dt d); cbn [obind] in HI; [|discriminate].
      apply Some_eq in HI. subst s0. reflexivity. }
    unfold kinv. rewrite H. simpl. split; [lia|reflexivity]. }
  pose proof (checkpoints_reach _ _ _ _ _ _ _ HS K0 HR) as K.
  split.
  - intro HM. eapply rotation; eassumption.
  - intro HM. eapply names_bounded; try eassumption. eapply nth_error_In. eassumption.
Qed.
Print Assumptions C11_rotation.

(** A resumed run continues with the name after the one it was resumed from. *)
Theorem C11_resumed_counter : forall V p (s : state V) a s' ck sc zero r,
  shape s -> pass p s a = Some (Running s') -> checkpoints s' = ck :: checkpoints s ->
  restart_state sc zero ck = Some r -> restart_counter r = restart_counter s' /\
  restart_counter s' = S (restart_counter s) /\ ck_name ck = checkpoint_name p (restart_counter s).
Proof.
  intros V p s a s' ck sc zero r (c & j & rest & HH) HP HC HR.
  destruct (pass_cases p s a c j rest HH) as (c' & rest' & _ & _ & _ & PR).
  assert (NE : forall (x : @checkpoint V) l, l <> x :: l).
  { intros x l E. apply (f_equal (@length _)) in E. simpl in E. lia. }
  rewrite HP in PR. inversion PR; subst.
  { exfalso. rewrite H11 in HC. exact (NE _ _ HC). }
  destruct H13 as (ck' & CN & CT & CE & CF). rewrite HC in CE. rewrite H12.
  destruct save; [|exfalso; symmetry in CE; exact (NE _ _ CE)]. injection CE as <-.
  unfold restart_state in HR.
  destruct (restart_time_data sc (ck_time ck) (ck_full ck)) as [d|]; cbn [obind] in HR; [|discriminate].
  destruct (get_current_dt d); cbn [obind] in HR; [|discriminate].
  apply Some_eq in HR. subst r. cbn [restart_counter]. rewrite CF. cbn [ck_counter ck_name].
  auto.
Qed.
Print Assumptions C11_resumed_counter.

Example C11_case :
  match play params1 (Some BDF1) 10 [accept 11; accept 12; accept 13] with
  | Some (Running s) =>
      map (fun c => (ck_name c, Qred (ck_t c))) (checkpoints s) = [(0%nat, 7); (1%nat, 3); (0%nat, 1)] /\
      option_map (fun c => Qred (ck_t c)) (on_disk (checkpoints s) 0) = Some 7 /\
      option_map (fun c => Qred (ck_t c)) (on_disk (checkpoints s) 1) = Some 3 /\
      on_disk (checkpoints s) 2 = None
  | _ => False
  end.
Proof. vm_compute. repeat split. Qed.

(** ** C48 *)

(** Exact for fields linear in time, for every ratio of step sizes. *)
Theorem C48_linear_exact : forall order dts tn d0 d1 a b,
  (2 <= order)%nat -> 0 < tn -> vget dts 0 = Some d0 -> vget dts 1 = Some d1 -> 0 < d0 -> 0 < d1 ->
  exists g, linear_guess order dts tn (a + b * tn) (a + b * (tn - d1)) = Some g /\
    g == a + b * (tn + d0).
Proof.
  intros order dts tn d0 d1 a b HO HT H0 H1 P0 P1. unfold linear_guess.
  rewrite H0, H1. apply qltb_true in HT. rewrite HT.
  destruct (Nat.ltb_spec 1 order); [|lia]. cbn [obind].
  assert (E0 : qltb 0 d0 = true) by (apply qltb_true; assumption).
  assert (E1 : qltb 0 d1 = true) by (apply qltb_true; assumption).
  rewrite E0, E1. cbn [andb]. unfold qdiv.
  destruct (Qeq_bool d1 0) eqn:E; [apply Qeq_bool_iff in E; lra|]. cbn [obind].
  eexists. split; [reflexivity|]. unfold extrapolate1. field. lra.
Qed.
Print Assumptions C48_linear_exact.

(** In the loop the two solutions it extrapolates from are the last two
    accepted ones and the step sizes are the new one and the last accepted one
    (directly after an accepted step). *)
Theorem C48_extrapolates_accepted_partial : forall V p sc (u0 junk : V) s0 s l a s' u,
  initial_state p (Some sc) u0 junk = Some s0 ->
  reach p (harmless_remap p) s0 (initial_ledger u0 (get_order sc)) s l ->
  harmless_remap p s a -> a_result a = Some u ->
  pass p s a = Some (Running s') -> n_timestep s' = S (n_timestep s) ->
  vget (hist s') 0 = nth_error (l_sols (ledger_pass p s a l)) 0 /\
  vget (hist s') 1 = nth_error (l_sols (ledger_pass p s a l)) 1 /\
  ((2 <= get_order sc)%nat -> vget (td_dt (td s')) 0 = Some (dt s') /\ vget (td_dt (td s')) 1 = Some (dt s)).
Proof.
  intros V p sc u0 junk s0 s l a s' u HI HR HK HA HP HN.
  rewrite <- (slots_some sc) in HR.
  destruct (two_newest p (Some sc) u0 junk s0 s l a s' u HI HR HK HA HP HN) as [A B].
  split; [exact A|]. split; [exact B|]. intro HO.
  pose proof (reach_good _ _ _ _ _ _ (initial_good _ _ _ _ _ HI)
    (reach_pass _ _ _ _ _ _ _ _ HR HK HP)) as [_ HT].
  assert (EL : l_steps (ledger_pass p s a l) = dt s :: l_steps l).
  { destruct (shape_reach _ _ _ _ _ _ (shape_initial _ _ _ _ _ HI) HR) as (c & j & rest & HH).
    destruct (pass_cases p s a c j rest HH) as (c' & rest' & _ & _ & _ & PR).
    rewrite HP in PR. inversion PR; subst; [exfalso; lia|].
    unfold ledger_pass. rewrite H1, H2. reflexivity. }
  destruct HT as (_ & _ & HT & _). rewrite EL, slots_some in HT. rewrite HT.
  destruct sc; simpl in HO; try lia; split; reflexivity.
Qed.
Print Assumptions C48_extrapolates_accepted_partial.

Example C48_case : exists g,
  linear_guess 2 [3; 2] 5 (1 + 4 * 5) (1 + 4 * 3) = Some g /\ g == 1 + 4 * 8.
Proof. eexists. split; vm_compute; reflexivity. Qed.

(** Where nothing can be extrapolated the guess is zero instead of the current
    solution: with a first order scheme, and in the first step of a run that
    does not start at time 0. *)
Theorem C48_fallback_refuted : forall tn s0 s1 d0, 0 < tn -> 0 < d0 ->
  linear_guess 1 [d0] tn s0 s1 = Some 0 /\
  linear_guess 2 [d0; 0] tn s0 s1 = Some 0.
Proof.
  intros tn s0 s1 d0 HT HD. unfold linear_guess. apply qltb_true in HT. rewrite HT.
  split; [reflexivity|]. cbn. rewrite andb_false_r. reflexivity.
Qed.
Print Assumptions C48_fallback_refuted.

(** After a restart the recent old solution is the zero vector: with constant
    solution 7 the guess is 14. *)
Theorem C48_restart_refuted :
  let p := mkParams 0 10 1 (1#100) 4 1 false 3 2 true false in
  exists s0 s1 s2 ck r,
    initial_state p (Some BDF2) 7 77 = Some s0 /\
    pass p s0 (accept 7) = Some (Running s1) /\ pass p s1 (accept 7) = Some (Running s2) /\
    checkpoints s2 = ck :: checkpoints s1 /\ restart_state (Some BDF2) 0 ck = Some r /\
    hist r = [7; 0; 7] /\
    exists g, linear_guess (td_order (td r)) (td_dt (td r)) (t r) 7 0 = Some g /\ g == 14.
Proof.
  do 5 eexists. conjs; try (vm_compute; reflexivity).
  eexists. split; vm_compute; reflexivity.
Qed.
Print Assumptions C48_restart_refuted.
