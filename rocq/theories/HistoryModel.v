(** Model of [TimeIntegration::SolutionHistory] and of the predictor of the
    time loop.  A solution vector is an element of an arbitrary type [V]; ghost
    values are left out. *)
From Coq Require Import List Arith ZArith QArith.
From Verif Require Import Util.
Import ListNotations.

Section History.
Context {V : Type}.

(** include/pf-applications/time_integration/solution_history.h:218-227
    [can_process] *)
Definition can_process (index : nat) (keep_current keep_recent keep_old : bool) : bool :=
  (Nat.eqb index 0 && keep_current) || (Nat.eqb index 1 && keep_recent)
  || (Nat.ltb 1 index && keep_old).

Fixpoint filter_from (i : nat) (kc kr ko : bool) (l : list V) : list V :=
  match l with
  | [] => []
  | v :: r => if can_process i kc kr ko then v :: filter_from (S i) kc kr ko r
              else filter_from (S i) kc kr ko r
  end.

(** solution_history.h:67-79 [filter]: the selected solutions. *)
Definition filter_history := filter_from 0.

(** [filter(...).apply(f)] (45-50, 67-79): the filtered history shares the
    vectors, so [f] modifies the selected solutions in place. *)
Fixpoint apply_from (i : nat) (kc kr ko : bool) (f : V -> V) (l : list V) : list V :=
  match l with
  | [] => []
  | v :: r => (if can_process i kc kr ko then f v else v) :: apply_from (S i) kc kr ko f r
  end.

Definition apply_filtered := apply_from 0.

(** Overwriting the selected solutions, in order, by the vectors [src]; used
    for [initialize_solution] (driver.h:411-455, 1829-1830).  Selected
    solutions beyond the end of [src] keep their content. *)
Fixpoint fill_from (i : nat) (kc kr ko : bool) (src l : list V) : list V :=
  match l with
  | [] => []
  | v :: r =>
      if can_process i kc kr ko then
        match src with
        | [] => v :: fill_from (S i) kc kr ko [] r
        | x :: src' => x :: fill_from (S i) kc kr ko src' r
        end
      else v :: fill_from (S i) kc kr ko src r
  end.

Definition fill_filtered := fill_from 0.

(** solution_history.h:135-144 [commit_old_solutions]:
    [for (int i = size - 2; i >= 1; --i) *solutions[i + 1] = *solutions[i];] *)
Fixpoint commit_loop (i : nat) (l : list V) : option (list V) :=
  match i with
  | O => Some l
  | S j => v <- vget l (S j) ;; l <- vset l (S (S j)) v ;; commit_loop j l
  end.

Definition commit_old_solutions (l : list V) : option (list V) :=
  commit_loop (length l - 2) l.

(** solution_history.h:146-157, 159-169, 171-183 *)
Definition set_recent_old_solution (l : list V) (src : V) : option (list V) := vset l 1 src.
Definition get_recent_old_solution (l : list V) : option V := vget l 1.
Definition get_current_solution (l : list V) : option V := vget l 0.
Definition set_current_solution (l : list V) (x : V) : option (list V) := vset l 0 x.
(** 185-190 *)
Definition get_old_solutions (l : list V) : list V := skipn 1 l.

End History.

(** solution_history.h:204-215 [extrapolate] for one entry of the vectors:
    [dst = s0; dst.add(-1, s1); dst.sadd(factor, s0)]. *)
Definition extrapolate1 (factor s0 s1 : Q) : Q :=
  (factor * (s0 + - (1) * s1) + s0)%Q.

(** applications/sintering/include/pf-applications/sintering/driver.h:2001-2058,
    predictor "Linear" for one entry: [extrap] is zero after
    [initialize_dof_vector] (2005) and stays zero if the branch at 2026/2032
    is not taken (the [Assert] at 2041 is inactive in release builds).
    [s0], [s1]: the entry of the current and of the recent old solution;
    [order], [dts]: of the time data.  [None]: out of range access. *)
Definition linear_guess (order : nat) (dts : list Q) (t s0 s1 : Q) : option Q :=
  if qltb 0 t then
    if Nat.ltb 1 order then
      dt0 <- vget dts 0 ;;
      dt1 <- vget dts 1 ;;
      if andb (qltb 0 dt0) (qltb 0 dt1) then
        fac <- qdiv dt0 dt1 ;; Some (extrapolate1 fac s0 s1)
      else Some 0%Q
    else Some 0%Q
  else Some s0.

(** driver.h:2007-2012 predictor "Euler" and 2013-2025 "Midpoint" for an
    autonomous residual [res] (zeroth-order operator, [evaluate_nonlinear_residual<0>]):
    [extrap = res(u); extrap.sadd(-dt, u)] = -dt * res(u) + u. *)
Definition euler_guess (res : Q -> Q) (dt u : Q) : Q := (- dt * res u + u)%Q.
Definition midpoint_guess (res : Q -> Q) (dt u : Q) : Q :=
  let mid := (- (dt / 2) * res u + u)%Q in (- dt * res mid + u)%Q.
