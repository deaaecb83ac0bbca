(** Timed sections: the names built from the chain of callers
    (include/pf-applications/base/scoped_name.h), the scopes that time them and the
    collection of timers (src/base/timer.cc, include/pf-applications/base/timer.h).

    Modelled: the static vector of names with its constructor and destructor, the text that
    a name converts to, MyScope with and without a timer, and the list of live timers.
    Not modelled: the printing of the statistics, the monitor of the memory
    (src/base/timer.cc 22-52) and the predicates on the time (ScheduleModel.v). *)
From Coq Require Import Arith Lia Bool.
From Coq Require Import String.
From Coq Require Import List.
Import ListNotations.
Local Open Scope list_scope.

(** boost::algorithm::join(path, "::") of scoped_name.h 36: the entries in order with two
    colons between neighbours. *)
Fixpoint join (l : list string) : string :=
  match l with
  | [] => ""%string
  | [x] => x
  | x :: r => (x ++ "::" ++ join r)%string
  end.

(** What a function of the application does as far as the sections are concerned.
    [Work d] is any piece of work taking d units of wall time, [Throw] an exception,
    [Try p q] runs q as the handler of an exception of p (driver.h 1965, 2489-2505 catches the
    failures of the solvers).
    [Scoped n p] is the block
      { ScopedName sc(n); MyScope scope(timer, sc); p }
    (e.g. driver.h 1376-1377, tracker.h 153-154),
    [Named true n p] the block { MyScope scope(timer, n); p } with a fixed text (e.g. the
    operators, operator_base.h), [Named false n p] the same without a timer (the third
    constructor, timer.cc 317-327, with its default nullptr). *)
Inductive prog :=
| Skip
| Work (d : nat)
| Throw
| Seq (p q : prog)
| Try (p q : prog)
| Scoped (n : string) (p : prog)
| Named (timed : bool) (n : string) (p : prog).

(** The statement MyScope(n); without a variable (driver.h 179, 304, 505, 615, 622, 651, 679):
    the object is destroyed at the end of the statement. In the code it has no timer. *)
Definition temporary (timed : bool) (n : string) : prog := Named timed n Skip.

(** The static vector of ScopedName (scoped_name.h 42), the sections active in the timer with
    the time at which they were entered, the wall clock and the laps recorded so far.
    deal.II's TimerOutput keeps the active sections in a list to which it appends and sums
    the laps per name; here the laps are kept one by one. *)
Record state := {
  path : list string;
  active : list (string * nat);
  clock : nat;
  laps : list (string * nat)
}.

(** How a run ends: regularly or by an exception (flag), or by std::terminate through a
    failed assertion. *)
Inductive outcome :=
| Ended (thrown : bool) (s : state)
| Aborted.

Definition is_active (a : list (string * nat)) (n : string) : bool :=
  existsb (fun e => String.eqb (fst e) n) a.

(** TimerOutput::enter_subsection as called by TimerOutput::Scope (timer.cc 296-309): the
    section must not be active already. *)
Definition enter (n : string) (s : state) : option state :=
  if is_active (active s) n then None
  else Some {| path := path s; active := active s ++ [(n, clock s)]; clock := clock s; laps := laps s |}.

(** Removal of the first active section of the given name, with the time it was entered. *)
Fixpoint take (n : string) (a : list (string * nat)) : option (nat * list (string * nat)) :=
  match a with
  | [] => None
  | (m, t) :: r =>
      if String.eqb m n then Some (t, r)
      else match take n r with None => None | Some (u, r') => Some (u, (m, t) :: r') end
  end.

(** TimerOutput::leave_subsection as called by the destructor of TimerOutput::Scope. *)
Definition leave (n : string) (s : state) : option state :=
  match take n (active s) with
  | None => None
  | Some (t, a) => Some {| path := path s; active := a; clock := clock s; laps := laps s ++ [(n, clock s - t)] |}
  end.

(** ScopedName::ScopedName (scoped_name.h 23-27). *)
Definition push (n : string) (s : state) : state :=
  {| path := path s ++ [n]; active := active s; clock := clock s; laps := laps s |}.

(** ScopedName::~ScopedName (scoped_name.h 29-33): the last name has to be the own one. An
    empty vector is undefined behaviour; a failed assertion in a destructor terminates. *)
Definition pop (n : string) (s : state) : option state :=
  match rev (path s) with
  | [] => None
  | x :: r =>
      if String.eqb x n
      then Some {| path := rev r; active := active s; clock := clock s; laps := laps s |}
      else None
  end.

(** A run, with the destructors of a block executed on both ways out of it, in the opposite
    order of the declarations. *)
Fixpoint run (p : prog) (s : state) : outcome :=
  match p with
  | Skip => Ended false s
  | Work d => Ended false {| path := path s; active := active s; clock := clock s + d; laps := laps s |}
  | Throw => Ended true s
  | Seq p q =>
      match run p s with
      | Ended false s' => run q s'
      | o => o
      end
  | Try p q =>
      match run p s with
      | Ended true s' => run q s'
      | o => o
      end
  | Named false n p => run p s
  | Named true n p =>
      match enter n s with
      | None => Aborted
      | Some s1 =>
          match run p s1 with
          | Aborted => Aborted
          | Ended b s2 => match leave n s2 with None => Aborted | Some s3 => Ended b s3 end
          end
      end
  | Scoped n p =>
      let s0 := push n s in
      let full := join (path s0) in
      match enter full s0 with
      | None => Aborted
      | Some s1 =>
          match run p s1 with
          | Aborted => Aborted
          | Ended b s2 =>
              match leave full s2 with
              | None => Aborted
              | Some s3 => match pop n s3 with None => Aborted | Some s4 => Ended b s4 end
              end
          end
      end
  end.

(** The total a timer reports for a section. *)
Definition total (l : list (string * nat)) (n : string) : nat :=
  fold_right (fun e a => (if String.eqb (fst e) n then snd e else 0) + a) 0 l.

(** * The collection of the timers (src/base/timer.cc 172-221) *)

(** The entries of the set are ordered by their number first. Timers are told apart by their
    addresses; an address may be used again after its timer is gone. *)
Record collection := { timers : list (nat * nat); counter : nat }.

(** A std::set<std::pair> inserts in order and only once. *)
Fixpoint insert (e : nat * nat) (l : list (nat * nat)) : list (nat * nat) :=
  match l with
  | [] => [e]
  | f :: r =>
      if (Nat.ltb (fst e) (fst f) || (Nat.eqb (fst e) (fst f) && Nat.ltb (snd e) (snd f)))%bool then e :: l
      else if (Nat.eqb (fst e) (fst f) && Nat.eqb (snd e) (snd f))%bool then l
      else f :: insert e r
  end.

(** TimerCollection::attach (timer.cc 172-178). The counter is a C++ int; its overflow after
    two thousand million timers is not modelled. *)
Definition attach (x : nat) (c : collection) : collection :=
  {| timers := insert (counter c, x) (timers c); counter := S (counter c) |}.

(** TimerCollection::detach (timer.cc 180-194): the first entry of the timer is erased; erasing
    the end of the set is undefined behaviour. *)
Fixpoint erase (x : nat) (l : list (nat * nat)) : option (list (nat * nat)) :=
  match l with
  | [] => None
  | f :: r => if Nat.eqb (snd f) x then Some r
              else match erase x r with None => None | Some r' => Some (f :: r') end
  end.

Definition detach (x : nat) (c : collection) : option collection :=
  match erase x (timers c) with
  | None => None
  | Some l => Some {| timers := l; counter := counter c |}
  end.

(** The constructors and the destructor of MyTimerOutput (timer.cc 224-246): only enabled
    timers are in the collection; the flag of a timer never changes. *)
Inductive event :=
| Construct (x : nat) (enabled : bool)
| Destruct (x : nat) (enabled : bool).

Definition step (c : collection) (e : event) : option collection :=
  match e with
  | Construct x true => Some (attach x c)
  | Destruct x true => detach x c
  | _ => Some c
  end.

Fixpoint steps (c : collection) (l : list event) : option collection :=
  match l with
  | [] => Some c
  | e :: r => match step c e with None => None | Some c' => steps c' r end
  end.

(** TimerCollection::print_all_wall_time_statistics (timer.cc 215-221): the timers whose
    statistics are printed, in order. *)
Definition printed (c : collection) : list nat := map snd (timers c).
