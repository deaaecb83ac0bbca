(** Model of the two Newton solvers.  Vectors are an arbitrary type; residual
    evaluation, norm and vector addition are arbitrary functions, the linear
    solver is an oracle that sees everything that happened before and may
    throw.  A norm is a finite number, infinite or NaN; finite numbers are
    rationals without rounding. *)
From Coq Require Import QArith List Arith Bool.
From Verif Require Import Util.
Import ListNotations.
Local Open Scope nat_scope.

(** Values of a norm computed in double arithmetic. *)
Inductive fl := Fin (q : Q) | Inf | NaN.

(** [a / b] for non-negative operands. *)
Definition fdiv (a b : fl) : fl :=
  match a, b with
  | Fin p, Fin q => if Qeq_bool q 0 then (if Qeq_bool p 0 then NaN else Inf) else Fin (p / q)
  | Fin _, Inf => Fin 0
  | Inf, Fin _ => Inf
  | _, _ => NaN
  end.

(** [c * a] for a positive number [c]. *)
Definition fscale (c : Q) (a : fl) : fl := match a with Fin q => Fin (c * q) | x => x end.

(** [a > b], [a <= b], [a >= b], [a < b]: false if an operand is NaN. *)
Definition fgt (a b : fl) : bool :=
  match a, b with Fin p, Fin q => qltb q p | Inf, Fin _ => true | _, _ => false end.
Definition fle (a b : fl) : bool :=
  match a, b with
  | Fin p, Fin q => Qle_bool p q | Fin _, Inf => true | Inf, Inf => true | _, _ => false end.
Definition fge (a b : fl) : bool := fle b a.
Definition flt (a b : fl) : bool := fgt b a.

(** [dealii::SolverControl::State] *)
Inductive state := Iterate | Success | Failure.

(** include/pf-applications/lac/solvers_nonlinear.h:38-46, 139-158
    [NewtonSolverSolverControl] and 162-182 [NewtonSolverAdditionalData] *)
Record params := {
  max_iter : nat;
  abs_tol : Q;
  rel_tol : Q;
  do_update : bool;
  threshold_newton_iter : nat;
  threshold_linear_iter : nat;
  reuse_preconditioner : bool;
  use_damping : bool }.

(** Ghost log of what the solver did, newest first. *)
Inductive event (V : Type) :=
  | EResidual (v : V)      (* residual evaluation at [v] *)
  | EJacobian (v : V)
  | EPreconditioner (v : V)
  | ELinear
  | EStart (n : fl)        (* norm of the initial residual *)
  | EAccept (n : fl).      (* new iterate accepted, its residual norm *)
Arguments EResidual {V} v.  Arguments EJacobian {V} v.
Arguments EPreconditioner {V} v.  Arguments ELinear {V}.  Arguments EStart {V} n.  Arguments EAccept {V} n.

(** State of [DampedNewtonSolver::solve]: iterate, its residual and norm, [it],
    and the two history members (389-390). *)
Record nstate (V : Type) := {
  dst : V;
  res : V;
  norm_r : fl;
  it : nat;
  hist_newton : nat;
  hist_linear : nat;
  log : list (event V) }.
Arguments dst {V} n.  Arguments res {V} n.  Arguments norm_r {V} n.  Arguments it {V} n.
Arguments hist_newton {V} n.  Arguments hist_linear {V} n.  Arguments log {V} n.

Inductive outcome (V : Type) :=
  | Returned (s : nstate V)
  | NoDamping (s : nstate V)        (* ExcNewtonDidNotConverge("damping") *)
  | NoConvergence (s : nstate V)    (* ExcNewtonDidNotConverge("Newton") *)
  | LinearThrew (s : nstate V)
  | Undefined                       (* modulo zero *)
  | Running (s : nstate V).         (* fuel of the model used up *)
Arguments Returned {V} s.  Arguments NoDamping {V} s.  Arguments NoConvergence {V} s.
Arguments LinearThrew {V} s.  Arguments Undefined {V}.  Arguments Running {V} s.

Section Newton.
Context {V : Type}.
Variable residual : V -> V.
Variable norm : V -> fl.
Variable add : Q -> V -> V -> V.          (* [add w x y] = x + w y *)
Variable neg : V -> V.
Variable linear : list (event V) -> V -> option (V * nat).
Variable p : params.

(** solvers_nonlinear.h:92-117 [NewtonSolverSolverControl::check]; [c0] is
    [check_value_0], the value at step 0. *)
Definition control_check (step : nat) (value c0 : fl) : state :=
  if fgt value (Fin (abs_tol p)) && fgt (fdiv value c0) (Fin (rel_tol p)) && (step <? max_iter p)
  then Iterate
  else if fle value (Fin (abs_tol p)) || fle (fdiv value c0) (Fin (rel_tol p))
  then Success
  else Failure.

(** 366-387 [DampedNewtonSolver::check]; [user]: the optional
    [check_iteration_status]. *)
Definition check (user : option (nat -> fl -> V -> V -> state)) (step : nat) (value c0 : fl)
  (x r : V) : state :=
  match user with
  | None => control_check step value c0
  | Some f =>
      match control_check step value c0, f step value x r with
      | Failure, _ | _, Failure => Failure
      | Iterate, _ | _, Iterate => Iterate
      | _, _ => Success
      end
  end.

(** 297-331 (and newton.h:126-157): the damping loop; [n] = trials left after
    this one.  [tau] = 0.1. *)
Fixpoint damp (n : nat) (omega : Q) (x inc : V) (nr : fl) (lg : list (event V))
  : V * V * fl * Q * list (event V) :=
  let tmp := add omega x inc in
  let r := residual tmp in
  let nt := norm r in
  let omega := (omega / 2)%Q in
  let lg := EResidual tmp :: lg in
  if fge nt (fscale (1 - (1 # 10) * omega) nr) then
    match n with
    | O => (tmp, r, nt, omega, lg)
    | S n' => damp n' omega x inc nr lg
    end
  else (tmp, r, nt, omega, lg).

(** 272-352: one pass of the Newton loop. [None]: threshold zero, the modulo is
    undefined.  [has_prec]: [setup_preconditioner] is set. *)
Definition newton_pass (has_prec : bool) (s : nstate V) : outcome V :=
  if threshold_newton_iter p =? 0 then Undefined else
  let exceeded := (hist_newton s mod threshold_newton_iter p =? 0)
                  || (threshold_linear_iter p <? hist_linear s) in
  let lg := EJacobian (dst s) :: log s in
  let lg := if has_prec && do_update p && exceeded then EPreconditioner (dst s) :: lg else lg in
  match linear lg (neg (res s)) with
  | None => LinearThrew {| dst := dst s; res := res s; norm_r := norm_r s; it := it s;
                           hist_newton := hist_newton s; hist_linear := hist_linear s; log := lg |}
  | Some (inc, n_lin) =>
      let lg := ELinear :: lg in
      if use_damping p then
        let '(tmp, r, nt, omega, lg) := damp 99 1 (dst s) inc (norm_r s) lg in
        if flt nt (fscale (1 - (1 # 10) * omega) (norm_r s)) then
          Running {| dst := tmp; res := r; norm_r := nt; it := S (it s);
                     hist_newton := S (hist_newton s); hist_linear := n_lin;
                     log := EAccept nt :: lg |}
        else NoDamping {| dst := dst s; res := r; norm_r := norm_r s; it := it s;
                          hist_newton := hist_newton s; hist_linear := n_lin; log := lg |}
      else
        let x := add 1 (dst s) inc in
        let r := residual x in
        Running {| dst := x; res := r; norm_r := norm r; it := S (it s);
                   hist_newton := S (hist_newton s); hist_linear := n_lin;
                   log := EAccept (norm r) :: EResidual x :: lg |}
  end.

(** 272-356: the loop and the final assertion; [c0]: norm at step 0. *)
Fixpoint newton_loop (fuel : nat) (has_prec : bool)
  (user : option (nat -> fl -> V -> V -> state)) (c0 : fl) (s : nstate V) : outcome V :=
  match check user (it s) (norm_r s) c0 (dst s) (res s) with
  | Success => Returned s
  | Failure => NoConvergence s
  | Iterate =>
      match fuel with
      | O => Running s
      | S fuel =>
          match newton_pass has_prec s with
          | Running s => newton_loop fuel has_prec user c0 s
          | o => o
          end
      end
  end.

(** 247-270: the state at the start of [solve]; [hn], [hl]: the history
    members, reset by [clear] (359-364) unless the preconditioner is reused. *)
Definition newton_start (hn hl : nat) (x : V) (lg : list (event V)) : nstate V :=
  {| dst := x; res := residual x; norm_r := norm (residual x); it := 0;
     hist_newton := if reuse_preconditioner p then hn else 0;
     hist_linear := if reuse_preconditioner p then hl else 0;
     log := EStart (norm (residual x)) :: EResidual x :: lg |}.

Definition damped_newton (fuel : nat) (has_prec : bool) user (hn hl : nat) (x : V)
  (lg : list (event V)) : outcome V :=
  let s := newton_start hn hl x lg in newton_loop fuel has_prec user (norm_r s) s.

(** include/pf-applications/lac/newton.h:79-183 [NewtonSolver::solve].
    [residual] includes the subtraction of the constant right hand side;
    [update], [every]: the two preconditioner arguments ([every] = 0 is
    undefined when used).  The linear solver is told whether to update. *)
Definition old_pass (update : bool) (every : nat) (s : nstate V) : outcome V :=
  if update && (every =? 0) then Undefined else
  let lg := EJacobian (dst s) :: log s in
  let lg := if update && (it s mod every =? 0) then EPreconditioner (dst s) :: lg else lg in
  match linear lg (neg (res s)) with
  | None => LinearThrew s
  | Some (inc, n_lin) =>
      let '(tmp, r, nt, omega, lg) := damp 99 1 (dst s) inc (norm_r s) (ELinear :: lg) in
      if flt nt (fscale (1 - (1 # 10) * omega) (norm_r s)) then
        Running {| dst := tmp; res := r; norm_r := nt; it := S (it s);
                   hist_newton := S (hist_newton s); hist_linear := hist_linear s + n_lin;
                   log := EAccept nt :: lg |}
      else NoDamping s
  end.

(** newton.h:102-175 *)
Fixpoint old_loop (fuel : nat) (update : bool) (every : nat) (c0 : fl) (s : nstate V) : outcome V :=
  if fgt (norm_r s) (Fin (abs_tol p)) && fgt (fdiv (norm_r s) c0) (Fin (rel_tol p))
     && (it s <? max_iter p)
  then match fuel with
       | O => Running s
       | S fuel =>
           match old_pass update every s with
           | Running s => old_loop fuel update every c0 s
           | o => o
           end
       end
  else if fle (norm_r s) (Fin (abs_tol p)) || fle (fdiv (norm_r s) c0) (Fin (rel_tol p))
  then Returned s
  else NoConvergence s.

Definition old_newton (fuel : nat) (update : bool) (every : nat) (x : V) : outcome V :=
  let s := {| dst := x; res := residual x; norm_r := norm (residual x); it := 0;
              hist_newton := 0; hist_linear := 0;
              log := [EStart (norm (residual x)); EResidual x] |} in
  old_loop fuel update every (norm_r s) s.

End Newton.
