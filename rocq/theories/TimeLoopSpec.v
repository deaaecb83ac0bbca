(** Specification for the time loop: a ledger of everything that has been
    accepted, kept for ever, and the executions of the loop. *)
From Coq Require Import List Arith ZArith QArith Qabs.
From Verif Require Import Util TimeSchemesModel TimeDataModel HistoryModel TimeLoopModel.
Import ListNotations.
Local Open Scope Q_scope.

Section Spec.
Context {V : Type}.

(** All accepted solutions and the step sizes that led to them, newest first.
    Mesh changes and remappings apply to all of them. *)
Record ledger := mkLedger { l_sols : list V; l_steps : list Q }.

Definition on_newest (f : V -> V) (l : list V) : list V :=
  match l with [] => [] | x :: r => f x :: r end.

(** Solutions after the work done at the beginning of a pass: only after an
    accepted step the newest solution may be limited, then all solutions are
    transferred to the new mesh and remapped. *)
Definition sols_before (p : params) (s : state V) (a : answer V) (l : list V) : list V :=
  if has_converged s then
    let l := if sanity_check_solution p then on_newest (a_limit a) l else l in
    let l := if do_amr s then map (a_amr a) l else l in
    if do_gt s then map (a_gt a) l else l
  else l.

(** The remapping inside the step, if there is one: [None] rejects the step. *)
Definition remap_now (p : params) (s : state V) (a : answer V) : option (V -> V) :=
  if andb (negb (is_last p (t s + dt s))) (check_inconsistency p)
  then a_gt_now a else Some (fun v => v).

Definition ledger_pass (p : params) (s : state V) (a : answer V) (l : ledger) : ledger :=
  let sols := sols_before p s a (l_sols l) in
  match a_result a, remap_now p s a with
  | Some u, Some f => mkLedger (map f (u :: sols)) (dt s :: l_steps l)
  | _, _ => mkLedger sols (l_steps l)
  end.

(** All states that can be reached from [s0] with whatever answers satisfying
    [ok], together with the ledger. *)
Inductive reach (p : params) (ok : state V -> answer V -> Prop) (s0 : state V) (l0 : ledger)
  : state V -> ledger -> Prop :=
| reach_init : reach p ok s0 l0 s0 l0
| reach_pass : forall s l a s',
    reach p ok s0 l0 s l -> ok s a -> pass p s a = Some (Running s') ->
    reach p ok s0 l0 s' (ledger_pass p s a l).

(** The ledger at the start: solutions before the start are taken as equal to
    the initial values (there are [k] slots for them). *)
Definition initial_ledger (u0 : V) (k : nat) : ledger := mkLedger (repeat u0 k) [].

(** The solutions that enter the time derivative at the attempt made in state
    [s] with answers [a]. *)
Definition old_solutions_at_attempt (p : params) (s : state V) (a : answer V)
  : option (list V) :=
  h <- prepare_guess (hist (before_step p s a)) (a_guess a) ;;
  Some (get_old_solutions h).

(** The remapping inside a step changes nothing. *)
Definition harmless_remap (p : params) (s : state V) (a : answer V) : Prop :=
  forall f, remap_now p s a = Some f -> forall v, f v = v.

Definition anything (s : state V) (a : answer V) : Prop := True.

End Spec.
Arguments ledger : clear implicits.
