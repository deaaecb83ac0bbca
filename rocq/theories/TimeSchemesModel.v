(** Model of the implicit time integration schemes.
    Numbers are exact rationals instead of [double]. *)
From Coq Require Import List Arith ZArith QArith.
From Verif Require Import Util.
Import ListNotations.
Local Open Scope Q_scope.

(** include/pf-applications/time_integration/time_schemes.h:45-51
    [ImplicitScheme::effective_order]: number of entries of dt that are > 0. *)
Definition effective_order (dt : list Q) : nat :=
  length (filter (fun v => qltb 0 v) dt).

(** time_schemes.h:106-110 / 79-80 / 147-148: the first order weights, written
    into the zero-initialised vector of weights.  [None]: out of range access
    or division by zero. *)
Definition weights_order1 (dt weights : list Q) : option (list Q) :=
  d0 <- vget dt 0 ;;
  a <- qdiv 1 d0 ;;
  b <- qdiv (- (1)) d0 ;;
  w <- vset weights 0 a ;;
  vset w 1 b.

(** time_schemes.h:102-104 and 141-143. *)
Definition weights_order2 (dt weights : list Q) : option (list Q) :=
  d0 <- vget dt 0 ;;
  d1 <- vget dt 1 ;;
  a <- qdiv (2 * d0 + d1) (d0 * (d0 + d1)) ;;
  b <- qdiv (- (d0 + d1)) (d0 * d1) ;;
  c <- qdiv d0 (d1 * (d0 + d1)) ;;
  w <- vset weights 0 a ;;
  w <- vset w 1 b ;;
  vset w 2 c.

(** time_schemes.h:131-137. *)
Definition weights_order3 (dt weights : list Q) : option (list Q) :=
  d0 <- vget dt 0 ;;
  d1 <- vget dt 1 ;;
  d2 <- vget dt 2 ;;
  b <- qdiv (- (d0 + d1) * (d0 + d1 + d2)) (d0 * d1 * (d1 + d2)) ;;
  c <- qdiv (d0 * (d0 + d1 + d2)) (d1 * d2 * (d0 + d1)) ;;
  d <- qdiv (- d0 * (d0 + d1)) (d2 * (d1 + d2) * (d0 + d1 + d2)) ;;
  w <- vset weights 1 b ;;
  w <- vset w 2 c ;;
  w <- vset w 3 d ;;
  vset w 0 (- (b + c + d)).

(** The three implicit schemes that [create_time_scheme] knows,
    time_schemes.h:213-227. *)
Inductive scheme := BDF1 | BDF2 | BDF3.

(** time_schemes.h:67-71, 90-94, 119-123 *)
Definition get_order (s : scheme) : nat :=
  match s with BDF1 => 1 | BDF2 => 2 | BDF3 => 3 end.

(** time_schemes.h:73-84, 96-113, 125-152 [compute_weights] *)
Definition compute_weights (s : scheme) (dt : list Q) : option (list Q) :=
  let weights := repeat 0 (S (length dt)) in
  let e := effective_order dt in
  match s with
  | BDF1 =>
      if Nat.eqb e 1 then weights_order1 dt weights else Some weights
  | BDF2 =>
      if Nat.eqb e 2 then weights_order2 dt weights
      else if Nat.eqb e 1 then weights_order1 dt weights
      else Some weights
  | BDF3 =>
      if Nat.eqb e 3 then weights_order3 dt weights
      else if Nat.eqb e 2 then weights_order2 dt weights
      else if Nat.eqb e 1 then weights_order1 dt weights
      else Some weights
  end.

(** include/pf-applications/time_integration/time_integrators.h:72-91
    [compute_time_derivative] for one component at one quadrature point: adds
    the weighted new value and the weighted old values.  [old] are the values
    of the old solutions, newest first; the number of loop passes is
    [weights.size() - 1] (lines 37, 85).  The vectorised number is one lane. *)
Fixpoint add_old (acc : Q) (ws old : list Q) : option Q :=
  match ws with
  | [] => Some acc
  | w :: ws' =>
      match old with
      | [] => None                        (* evals[i] out of range *)
      | v :: old' => add_old (acc + v * w) ws' old'
      end
  end.

Definition compute_time_derivative (value_result val : Q) (weights old : list Q)
  : option Q :=
  match weights with
  | [] => None                            (* weights[0] out of range *)
  | w0 :: ws => add_old (value_result + val * w0) ws old
  end.
