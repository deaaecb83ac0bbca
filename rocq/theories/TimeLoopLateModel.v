(** Extension of the model of the time loop ([TimeLoopModel]) by two parts of
    applications/sintering/include/pf-applications/sintering/driver.h:
    - 2464-2483: the solves for the divergences of the fluxes.  They come after the new time is
      set (2369-2409), are still inside the [try] block, and may throw
      [SolverControl::NoConvergence], which is caught at 2493;
    - 2170-2175, 2382-2385, 2710-2726: the counters of the run and the final statistics.

    Printing and memory consumption are left out. *)
From Coq Require Import QArith Qabs Qminmax NArith.
From Coq Require Import List Arith Bool.
From Verif Require Import Util MeshFlagsModel TimeSchemesModel TimeDataModel HistoryModel TimeLoopModel.
Import ListNotations.
Local Open Scope Q_scope.

Section Late.
Context {V : Type}.

(** 2204-2505 as in [TimeLoopModel.attempt]; [late]: the option [fluxes_divergences] is set and
    one of these solves does not converge *)
Definition attempt_late (p : params) (s : state V) (h : list V) (a : answer V) (late : bool) : option (outcome V) :=
  match a_result a with
  | None => process_failure p s h
  | Some u =>
      h <- set_current_solution h u ;;
      let t_new := t s + dt s in
      let n_new := S (n_timestep s) in
      let last := is_last p t_new in
      let run_gt := andb (negb last) (check_inconsistency p) in
      match (if run_gt then a_gt_now a else Some (fun v => v)) with
      | None => process_failure p s h
      | Some f =>
          let h := if run_gt then apply_filtered true false true f h else h in
          let s' := mkState t_new (next_dt p (a_good a) t_new (dt s)) n_new (n_last_amr s)
                      (if run_gt then n_new else n_last_gt s) (n_failed s) true
                      (andb (negb last) (a_want_amr a)) (andb (negb last) (a_want_gt a))
                      h (td s) (time_last_output s) (restart_counter s)
                      (outputs s) (checkpoints s) in
          if late then process_failure p s' h
          else s'' <- after_success p s' a ;; Some (Running s'')
      end
  end.
Definition pass_late (p : params) (s : state V) (a : answer V) (late : bool) : option (outcome V) :=
  if loop_condition p s then
    let s := before_step p s a in
    h <- prepare_guess (hist s) (a_guess a) ;;
    attempt_late p s h a late
  else Some (Finished s).

(** [statistics] at the end of an attempt, or when the exception is caught *)
Record cost := mkCost { linear : N; newton : N; residual : N }.
(** 150-157 (unsigned int); the numbers of steps and of failed tries are in the state *)
Record counters := mkCounters { k_done : cost; k_failed : cost; k_max_dt : Q }.
Definition add_cost (a b : cost) : cost :=
  mkCost (u32 (linear a + linear b)) (u32 (newton a + newton b)) (u32 (residual a + residual b)).
(** 2382-2385 *)
Definition count_done (k : counters) (c : cost) (d : Q) : counters :=
  mkCounters (add_cost (k_done k) c) (k_failed k) (Qmax (k_max_dt k) d).
(** 2170-2175 *)
Definition count_failed (k : counters) (c : cost) : counters :=
  mkCounters (k_done k) (add_cost (k_failed k) c) (k_max_dt k).
(** The counters after an attempt from [s]: 2382-2385 are reached when the step is solved and the
    grain tracker has not thrown *)
Definition count (p : params) (s : state V) (a : answer V) (late : bool) (c : cost) (k : counters) : counters :=
  match a_result a with
  | None => count_failed k c
  | Some _ =>
      match (if andb (negb (is_last p (t s + dt s))) (check_inconsistency p) then option_map (fun _ => tt) (a_gt_now a) else Some tt) with
      | None => count_failed k c
      | Some _ => let k := count_done k c (dt s) in if late then count_failed k c else k
      end
  end.

(** A run; the last component is the list of the attempts made: the state after, the size of the
    step tried and what it cost *)
Fixpoint run_counted (p : params) (l : list (answer V * bool * cost)) (o : outcome V) (k : counters)
  : option (outcome V * counters * list (outcome V * Q * cost)) :=
  match l with
  | [] => Some (o, k, [])
  | (a, late, c) :: l =>
      match o with
      | Running s =>
          o' <- pass_late p s a late ;;
          if loop_condition p s then
            x <- run_counted p l o' (count p s a late c k) ;;
            let '(o2, k2, tr) := x in Some (o2, k2, (o', dt s, c) :: tr)
          else Some (o', k, [])
      | _ => Some (o, k, [])
      end
  end.
(** 188-198 *)
Definition zero_cost : cost := mkCost 0 0 0.
Definition no_counters : counters := mkCounters zero_cost zero_cost 0.
End Late.

(** 2717-2718: a division of a double by an unsigned number; zero gives NaN or infinity *)
Definition average (total : N) (n : N) : option Q :=
  if (n =? 0)%N then None else Some (inject_Z (Z.of_N total) / inject_Z (Z.of_N n)).
