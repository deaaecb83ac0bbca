(** Model of the time loop of the sintering driver,
    applications/sintering/include/pf-applications/sintering/driver.h:1924-2708,
    with arbitrary answers of the solver, the mesh adaptation and the grain
    tracker.  Times and step sizes are exact rationals. *)
From Coq Require Import List Arith ZArith QArith Qabs.
From Verif Require Import Util TimeSchemesModel TimeDataModel HistoryModel.
Import ListNotations.
Local Open Scope Q_scope.

(** parameters.h: [TimeIntegrationData], [OutputData::output_time_interval],
    [RestartData::max_output], [RestartData::full_history],
    [GrainTrackerData::check_inconsistency]. *)
Record params := mkParams {
  time_start : Q; time_end : Q;
  time_step_init : Q; time_step_min : Q; time_step_max : Q; growth_factor : Q;
  sanity_check_solution : bool;
  output_time_interval : Q;
  max_output : nat;
  full_history : bool;
  check_inconsistency : bool }.

(** driver.h:1928 [tol_termination] *)
Definition tol_termination : Q := 1 # 1000000000.

Section Loop.
Context {V : Type}.

(** What the rest of the program answers during one pass of the loop body:
    - [a_limit], [a_amr], [a_gt]: limiting of the solution (1941-1946), transfer
      to the adapted mesh (1948-1956), remapping by the grain tracker
      (1958-1989; an inconsistency there is not modelled, it aborts the run);
    - [a_guess]: the initial guess computed from the history (predictor,
      2001-2058; without predictor the current solution);
    - [a_result]: [Some u] if the step was solved, [None] if one of the
      exceptions caught at 2489-2501 is thrown;
    - [a_good]: [good_iterations] (2239-2243);
    - [a_want_amr], [a_want_gt]: the decisions at 2254-2365;
    - [a_gt_now]: the grain tracker run inside the step if
      [check_inconsistency] (2321-2324): [None] means ExcGrainsInconsistency
      (2502), [Some f] the remapping applied to all solutions but the recent
      old one (1527, 1649);
    - [a_restart]: the answer of [restart_predicate.now] (2536). *)
Record answer := mkAnswer {
  a_limit : V -> V; a_amr : V -> V; a_gt : V -> V;
  a_guess : list V -> V;
  a_result : option V;
  a_good : bool; a_want_amr : bool; a_want_gt : bool;
  a_gt_now : option (V -> V);
  a_restart : bool }.

(** What is written to a checkpoint (2541-2622), with the number in its name. *)
Record checkpoint := mkCkpt {
  ck_name : nat;
  ck_t : Q; ck_n : nat; ck_n_amr : nat; ck_n_gt : nat; ck_last_output : Q;
  ck_counter : nat; ck_failed : nat;
  ck_full : bool;
  ck_vectors : list V;
  ck_time : archive }.

(** State between two passes.  [outputs] and [checkpoints] are the traces of
    what has been written ("solution" outputs only), newest first. *)
Record state := mkState {
  t : Q; dt : Q;
  n_timestep : nat; n_last_amr : nat; n_last_gt : nat; n_failed : nat;
  has_converged : bool; do_amr : bool; do_gt : bool;
  hist : list V;
  td : time_data;
  time_last_output : Q;
  restart_counter : nat;
  outputs : list Q;
  checkpoints : list checkpoint }.

Inductive outcome := Running (s : state) | Finished (s : state) | Aborted (s : state).

(** 1932-1933 *)
Definition loop_condition (p : params) (s : state) : bool :=
  qltb tol_termination (Qabs (t s - time_end p)).

(** 2250-2252, 2513-2515 *)
Definition is_last (p : params) (tt : Q) : bool :=
  qltb (Qabs (tt - time_end p)) tol_termination.

(** 1938-1994: limiting, mesh adaptation and grain tracker before the step.
    [impose_boundary_conditions] (constraints only) is left out. *)
Definition before_step (p : params) (s : state) (a : answer) : state :=
  if has_converged s then
    let h := hist s in
    let h := if sanity_check_solution p
             then apply_filtered true false false (a_limit a) h else h in
    let h := if do_amr s then apply_filtered true false true (a_amr a) h else h in
    let h := if do_gt s then apply_filtered true false true (a_gt a) h else h in
    mkState (t s) (dt s) (n_timestep s)
      (if do_amr s then n_timestep s else n_last_amr s)
      (if do_gt s then n_timestep s else n_last_gt s)
      (n_failed s) (has_converged s) (do_amr s) (do_gt s) h (td s)
      (time_last_output s) (restart_counter s) (outputs s) (checkpoints s)
  else s.

(** 2001-2058: the recent old solution is set to the current one, the current
    one to the initial guess. *)
Definition prepare_guess (h : list V) (guess : list V -> V) : option (list V) :=
  u <- get_current_solution h ;;
  h' <- set_recent_old_solution h u ;;
  set_current_solution h' (guess h).

(** 2163-2202 [process_failure] followed by 2698-2702 [replace_dt].
    [h] is the history at the moment the exception is caught. *)
Definition process_failure (p : params) (s : state) (h : list V) : option outcome :=
  let dt' := dt s * (1 # 2) in
  u <- get_recent_old_solution h ;;
  h <- set_current_solution h u ;;
  let s' d := mkState (t s) dt' (n_timestep s) (n_last_amr s) (n_last_gt s) (S (n_failed s))
                false false false h d (time_last_output s) (restart_counter s)
                (outputs s) (checkpoints s) in
  if qltb (time_step_min p) dt' then
    d <- replace_dt (td s) dt' ;; Some (Running (s' d))
  else Some (Aborted (s' (td s))).

(** 2387-2409: growth and clipping of the step size after an accepted step;
    [tt] is the new time. *)
Definition next_dt (p : params) (good : bool) (tt d : Q) : Q :=
  if is_last p tt then d
  else
    let d := if andb good (qltb 1 (growth_factor p)) then
               let g := d * growth_factor p in
               if qltb (time_step_max p) g then time_step_max p else g
             else d in
    if qltb (time_end p) (tt + d) then time_end p - tt else d.

(** 2543-2549: the number in the name of the checkpoint *)
Definition checkpoint_name (p : params) (counter : nat) : nat :=
  if Nat.eqb (max_output p) 0 then counter else Nat.modulo counter (max_output p).

(** 2507-2622: commit, output, checkpoint.  The time data written to the
    checkpoint is the one before [update_dt] (2696). *)
Definition after_success (p : params) (s : state) (a : answer) : option state :=
  h <- commit_old_solutions (hist s) ;;
  let last := is_last p (t s) in
  let out := andb (qltb 0 (output_time_interval p))
                  (orb (Qle_bool (output_time_interval p + time_last_output s) (t s)) last) in
  let tlo := if out then t s else time_last_output s in
  let outs := if out then t s :: outputs s else outputs s in
  let save := orb last (a_restart a) in
  let counter := if save then S (restart_counter s) else restart_counter s in
  let vectors := if full_history p then filter_history true false true h
                 else firstn 1 h in
  let ck := mkCkpt (checkpoint_name p (restart_counter s)) (t s) (n_timestep s)
              (n_last_amr s) (n_last_gt s) tlo counter (n_failed s) (full_history p)
              vectors (save_td (td s)) in
  let cks := if save then ck :: checkpoints s else checkpoints s in
  d <- update_dt (td s) (dt s) ;;
  Some (mkState (t s) (dt s) (n_timestep s) (n_last_amr s) (n_last_gt s) (n_failed s)
          true (do_amr s) (do_gt s) h d tlo counter outs cks).

(** 2204-2505: the attempt, [h] is the history after [prepare_guess] and the
    state the one after [before_step]. *)
Definition attempt (p : params) (s : state) (h : list V) (a : answer) : option outcome :=
  match a_result a with
  | None => process_failure p s h
  | Some u =>
      h <- set_current_solution h u ;;
      let t_new := t s + dt s in
      let n_new := S (n_timestep s) in
      let last := is_last p t_new in
      let run_gt := andb (negb last) (check_inconsistency p) in
      match (if run_gt then a_gt_now a else Some (fun v => v)) with
      | None => process_failure p s h
      | Some f =>
          let h := if run_gt then apply_filtered true false true f h else h in
          let s' := mkState t_new (next_dt p (a_good a) t_new (dt s)) n_new (n_last_amr s)
                      (if run_gt then n_new else n_last_gt s) (n_failed s) true
                      (andb (negb last) (a_want_amr a)) (andb (negb last) (a_want_gt a))
                      h (td s) (time_last_output s) (restart_counter s)
                      (outputs s) (checkpoints s) in
          s'' <- after_success p s' a ;; Some (Running s'')
      end
  end.

(** One pass of the loop, including the evaluation of its condition. *)
Definition pass (p : params) (s : state) (a : answer) : option outcome :=
  if loop_condition p s then
    let s := before_step p s a in
    h <- prepare_guess (hist s) (a_guess a) ;;
    attempt p s h a
  else Some (Finished s).

(** A run with the answers [a 0], [a 1], ...: the outcome after [n] passes. *)
Fixpoint run_loop (p : params) (a : nat -> answer) (n : nat) (o : outcome) : option outcome :=
  match n with
  | O => Some o
  | S n' =>
      match o with
      | Running s => o' <- pass p s (a O) ;; run_loop p (fun i => a (S i)) n' o'
      | _ => Some o
      end
  end.

(** 163-212, 955-959, 1829-1830, 1906-1928: the state at the beginning of the
    loop of a new run: all solutions but the recent old one are the initial
    values [u0]; [junk] is the content of the recent old one.  The time of the
    last output is 0 whatever [time_start] is (187). *)
Definition initial_state (p : params) (sc : option scheme) (u0 junk : V) : option state :=
  d <- td_ctor_init sc (time_step_init p) ;;
  x <- get_current_dt d ;;
  let size := Nat.max (S (td_order d)) 2 in
  Some (mkState (time_start p) x 0 0 0 0 true false false
          (apply_filtered true false true (fun _ => u0) (repeat junk size)) d
          0 0 (if qltb 0 (output_time_interval p) then [time_start p] else []) []).

(** 288-470: the state at the beginning of the loop of a run resumed from a
    checkpoint, with [sc] the scheme of the new run; [zero] is the content of
    newly created vectors.  The grain tracker run of 455 and the traces of the
    old run are left out. *)
Definition restart_state (sc : option scheme) (zero : V) (c : checkpoint) : option state :=
  d <- restart_time_data sc (ck_time c) (ck_full c) ;;
  x <- get_current_dt d ;;
  let size := Nat.max (S (td_order d)) 2 in
  Some (mkState (ck_t c) x (ck_n c) (ck_n_amr c) (ck_n_gt c) (ck_failed c) true false false
          (fill_filtered true false true (ck_vectors c) (repeat zero size)) d
          (ck_last_output c) (ck_counter c) [] []).

End Loop.
Arguments answer : clear implicits.
Arguments state : clear implicits.
Arguments outcome : clear implicits.
Arguments checkpoint : clear implicits.
