(** Model of the timer predicate, src/base/timer.cc 87-170 and
    include/pf-applications/base/timer.h 25-61.

    [double] is a rational number; the [unsigned int] counter is a natural number (its
    overflow after 2^32 calls is not modelled, nor is a conversion of a negative or too
    large [start] or [interval]).  A remainder by zero gives [None]. *)
From Coq Require Import QArith Qround ZArith List Bool Arith.
From Verif Require Import Util.
Import ListNotations.
Local Open Scope nat_scope.

(** timer.h 28-34 *)
Inductive timer_type := never | n_calls | real_time | simulation_time.

(** timer.h 56-60 without the wall clock *)
Record timer := mkTimer { ttype : timer_type; counter : nat; interval : Q; last_simulation_time : Q }.

(** [static_cast<unsigned int>] of a non-negative number *)
Definition to_unsigned (q : Q) : nat := Z.to_nat (Qfloor q).

(** 87-120: [interval] keeps its initial value (timer.h 58) for [never] *)
Definition reinit (type : timer_type) (start intv : Q) : timer :=
  match type with
  | never => mkTimer never 0 0 0
  | n_calls => mkTimer n_calls (to_unsigned start) intv 0
  | simulation_time => mkTimer simulation_time 0 intv start
  | real_time => mkTimer real_time 0 intv 0
  end.

(** 122-170; for [real_time] the wall clock decides: [elapsed] is the result of the
    comparison reduced over all processes, 152-160 (see [now_real]) *)
Definition now (s : timer) (time : Q) (elapsed : bool) : option (bool * timer) :=
  let s := mkTimer (ttype s) (S (counter s)) (interval s) (last_simulation_time s) in
  match ttype s with
  | never => Some (false, s)
  | n_calls =>
      if Qle_bool (interval s) 0 then Some (false, s)
      else let n := to_unsigned (interval s) in
           if Nat.eqb n 0 then None else Some (Nat.eqb ((counter s - 1) mod n) 0, s)
  | simulation_time =>
      if Qle_bool (interval s) 0 then Some (false, s)
      else let last := if qltb (- (1 # 10000000000)) (time - last_simulation_time s - interval s) then time else last_simulation_time s in
           Some (Qeq_bool last time, mkTimer (ttype s) (counter s) (interval s) last)
  | real_time => if Qle_bool (interval s) 0 then Some (false, s) else Some (elapsed, s)
  end.

(** a sequence of calls, each with its time and the decision of the wall clock *)
Fixpoint calls (s : timer) (l : list (Q * bool)) : option (list bool * timer) :=
  match l with
  | [] => Some ([], s)
  | (t, e) :: r =>
      r1 <- now s t e ;;
      r2 <- calls (snd r1) r ;;
      Some (fst r1 :: fst r2, snd r2)
  end.

(** 152-163 for all processes: [last] the stored wall clock of every process, [clock] its
    clock when the comparison is made, [clock'] when the stored value is renewed *)
Definition now_real (intv : Q) (last clock clock' : list Q) : bool * list Q :=
  if Qle_bool intv 0 then (false, last)
  else
    let do_output := map (fun p => qltb intv (snd p - fst p)) (combine last clock) in
    if Nat.eqb (list_sum (map (fun b : bool => if b then 1 else 0) do_output)) 0 then (false, last) else (true, clock').
