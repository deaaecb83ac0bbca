(** Model of the schedule of mesh adaptation and grain tracking,
    applications/sintering/include/pf-applications/sintering/driver.h
    1932-1989, 2163-2202, 2229-2365, 2633-2690 and 473-500 (what is saved).
    The counters are not reduced to 32 bits, the remaining state of the loop is that
    of TimeLoopModel. *)
From Coq Require Import List Arith Bool.
Import ListNotations.

(** The settings that enter the decisions (parameters.h, driver.h 1467-1474). *)
Record settings := mkSet {
  refinement_frequency : nat;
  quality_control : bool;
  auto_quality_min : bool;
  extra_coarsening : bool;
  max_refinement_depth : nat;
  grain_tracker_frequency : nat;
  track_with_quality : bool;
  advection : bool;
  required_for_ebc : bool;
  required_for_output : bool;
  check_inconsistency : bool }.

(** What the rest of the program answers in one pass: the step was solved, with
    few iterations (2239-2243), it is the last one (2250-2252), the quality is below
    the threshold (2284), the tracker run of 2323 succeeded, and the number of passes
    of the loop at 2664. *)
Record answer := mkAns {
  solved : bool; good : bool; last : bool; low_quality : bool; consistent : bool; adapted : nat }.

(** What happens, with the number of the accepted steps at that time. *)
Inductive event := Amr (n : nat) | Gt (n : nat) | Try (n : nat).

(** [fresh]: the grain tracker has been run on the present mesh; [tuned]: the
    quality settings have been set up (2633); [trace]: the events, newest first. *)
Record state := mkState {
  n_timestep : nat; last_amr : nat; last_gt : nat; depth : nat;
  has_converged : bool; do_amr : bool; do_gt : bool; finished : bool;
  fresh : bool; tuned : bool; trace : list event }.

(** 163-212, 1913-1928: after the initial refinements and the first run of the
    tracker (1886-1893) *)
Definition initial (s : settings) : state :=
  mkState 0 0 0 (max_refinement_depth s) true false false false true false [].

(** 1938-1989; an inconsistency there aborts the run and is left out *)
Definition before_step (st : state) : state :=
  if has_converged st then
    let n := n_timestep st in
    let st := if do_amr st
      then mkState n n (last_gt st) (depth st) true (do_amr st) (do_gt st) (finished st) false (tuned st) (Amr n :: trace st) else st in
    if do_gt st
    then mkState n (last_amr st) n (depth st) true (do_amr st) (do_gt st) (finished st) true (tuned st) (Gt n :: trace st) else st
  else st.

(** 2290-2294, 2359-2364 *)
Definition due (frequency n last : nat) : bool := (0 <? frequency) && ((n - last) mod frequency =? 0).

(** 2259-2263 *)
Definition coarsen_now (s : settings) (a : answer) (st : state) : bool :=
  good a && extra_coarsening s && negb (quality_control s) && (depth st =? max_refinement_depth s).

(** 2258-2295 *)
Definition want_amr (s : settings) (a : answer) (st : state) : bool :=
  coarsen_now s a st ||
  (if quality_control s then low_quality a else due (refinement_frequency s) (S (n_timestep st)) (last_amr st)).

(** 2332-2339: the tracker has been run inside of the step *)
Definition want_gt_again (s : settings) (amr : bool) : bool :=
  amr && ((quality_control s && track_with_quality s) || advection s || required_for_ebc s || required_for_output s).

(** 2352-2365; the decision at 2302-2317 is overwritten in both branches *)
Definition want_gt (s : settings) (amr : bool) (st : state) : bool :=
  (amr && quality_control s && track_with_quality s) || advection s || (amr && required_for_output s) ||
  required_for_ebc s || due (grain_tracker_frequency s) (S (n_timestep st)) (last_gt st).

(** 2163-2202 *)
Definition failure (st : state) : state :=
  mkState (n_timestep st) (last_amr st) (last_gt st) (depth st) false false false false (fresh st) (tuned st) (trace st).

(** 2633-2690: the mesh adaptations after the first step *)
Definition after_first (s : settings) (a : answer) (st : state) : state :=
  if (n_timestep st =? 1) && quality_control s then
    if negb (auto_quality_min s) && (0 <? adapted a)
    then mkState (n_timestep st) (n_timestep st) (last_gt st) (depth st + adapted a) (has_converged st) (do_amr st) (do_gt st)
           (finished st) false true (repeat (Amr (n_timestep st)) (adapted a) ++ trace st)
    else mkState (n_timestep st) (last_amr st) (last_gt st) (depth st) (has_converged st) (do_amr st) (do_gt st)
           (finished st) (fresh st) true (trace st)
  else st.

(** 2204-2505; a depth of zero is not reduced here (in the program it wraps, C44) *)
Definition attempt (s : settings) (a : answer) (st : state) : state :=
  let n := S (n_timestep st) in
  if negb (solved a) then failure st
  else if last a then
    mkState n (last_amr st) (last_gt st) (depth st) true false false true (fresh st) (tuned st) (trace st)
  else
    let amr := want_amr s a st in
    let depth' := if coarsen_now s a st then depth st - 1 else depth st in
    if check_inconsistency s then
      if consistent a then
        mkState n (last_amr st) n depth' true amr (want_gt_again s amr) false true (tuned st) (Gt n :: trace st)
      else failure (mkState (n_timestep st) (last_amr st) (last_gt st) depth' true amr false false (fresh st) (tuned st) (trace st))
    else mkState n (last_amr st) (last_gt st) depth' true amr (want_gt s amr st) false (fresh st) (tuned st) (trace st).

(** The state in which a step is tried. *)
Definition tried (st : state) : state :=
  let st := before_step st in
  mkState (n_timestep st) (last_amr st) (last_gt st) (depth st) (has_converged st) (do_amr st) (do_gt st) (finished st)
    (fresh st) (tuned st) (Try (n_timestep st) :: trace st).

(** The state that is written at 2536-2622: before the quality settings are set up. *)
Definition saved (s : settings) (a : answer) (st : state) : state := attempt s a (tried st).

(** One pass of the loop. *)
Definition pass (s : settings) (a : answer) (st : state) : state :=
  if finished st then st
  else
    let st' := saved s a st in
    if has_converged st' then after_first s a st' else st'.

Definition run (s : settings) (answers : list answer) (st : state) : state :=
  fold_left (fun st a => pass s a st) answers st.

(** 473-500 and 288-470, 1886-1893: what a resumed run starts with; the tracker is
    run on the loaded mesh, the flags are not saved. *)
Definition resume (st : state) : state :=
  mkState (n_timestep st) (last_amr st) (last_gt st) (depth st) true false false false true (tuned st) (trace st).
