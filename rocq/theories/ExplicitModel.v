(** Model of the explicit time marching,
    include/pf-applications/time_integration/time_marching.h 630-789, with the stages of
    include/pf-applications/time_integration/time_schemes.h 168-187.

    A vector is a function of block and entry with real values.  The residual
    ([evaluate_nonlinear_residual]) is a parameter [f] of the current time and the state.
    [minv b] stands for what is done with block [b] of the residual before it is used: the
    solution with the mass matrix including constraints (673-690, 760-774), or only the
    distribution of constraints (691-701, 775-780).  [time_pde b]: equation type of block
    [b].  Statistics and timers are left out; [has_stationary_equations] is uninitialised in
    the code (822) and taken to be false before the constructor's loop (575-586). *)
From Coq Require Import List Reals Arith Bool.
Import ListNotations.
Local Open Scope R_scope.

Definition block := nat -> R.
Definition vector := nat -> block.

Definition bscale (a : R) (v : block) : block := fun i => a * v i.
Definition badd (v w : block) : block := fun i => v i + w i.

(** time_schemes.h 168-187 *)
Definition forward_euler : list (R * R) := [(1, 0)].
Definition runge_kutta_4 : list (R * R) := [(1 / 6, 1 / 2); (1 / 3, 1 / 2); (1 / 3, 1); (1 / 6, 0)].

Section Step.
Variables (f : R -> vector -> vector) (minv : nat -> block -> block) (time_pde : nat -> bool) (n_blocks : nat).

(** [alias]: [vec_work] is [current_solution] itself (651-656) *)
Record stage_state := mkStage { current : vector; work : vector; increment : vector; now_time : R }.

(** 661-736: one stage; the blocks are independent of each other because the residual is
    evaluated before *)
Definition do_stage (alias : bool) (dt t : R) (s : stage_state) (stage : R * R) : stage_state :=
  let stage_dt := fst stage in
  let stage_weight := snd stage in
  let k := f (now_time s) (work s) in
  let new_work := fun b =>
    if Nat.ltb b n_blocks then
      if time_pde b then
        let v := bscale (-1 * stage_dt * dt) (minv b (k b)) in
        if Req_EM_T stage_weight 0 then work s b
        else badd (current s b) (bscale (1 / stage_dt * stage_weight) v)
      else bscale (-1) (minv b (k b))
    else work s b in
  let new_increment := fun b =>
    if Nat.ltb b n_blocks then
      if time_pde b then badd (increment s b) (bscale (-1 * stage_dt * dt) (minv b (k b))) else increment s b
    else increment s b in
  mkStage (if alias then new_work else current s) new_work new_increment (t + stage_weight * dt).

(** 575-586 *)
Definition has_stationary : bool := existsb (fun b => negb (time_pde b)) (seq 0 n_blocks).

(** 745-788 *)
Definition update_algebraic (time : R) (u : vector) : vector :=
  if has_stationary then
    let k := f time u in
    fun b => if (Nat.ltb b n_blocks && negb (time_pde b))%bool then bscale (-1) (minv b (k b)) else u b
  else u.

(** 630-789; result: new solution and time *)
Definition make_step (stages : list (R * R)) (dt t : R) (u : vector) : vector * R :=
  let alias := Nat.leb (length stages) 1 in
  let s := fold_left (do_stage alias dt t) stages (mkStage u u (fun _ _ => 0) t) in
  let u' := fun b => badd (current s b) (increment s b) in
  let time := now_time s + dt in
  (update_algebraic time u', time).
End Step.
