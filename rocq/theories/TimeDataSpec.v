(** Specification of the step size bookkeeping: a run is a sequence of
    attempted step sizes, some of which get accepted. *)
From Coq Require Import List Arith QArith.
From Verif Require Import Util TimeSchemesModel TimeDataModel.
Import ListNotations.
Local Open Scope Q_scope.

(** The step size of the current attempt and all accepted step sizes, newest
    first.  [Update d]: the current attempt succeeded, the next one uses [d].
    [Replace d]: the current attempt is repeated with [d]. *)
Record run_state := mkRun { current : Q; accepted : list Q }.

Definition step (r : run_state) (o : op) : run_state :=
  match o with
  | Update d => mkRun d (current r :: accepted r)
  | Replace d => mkRun d (accepted r)
  end.

Definition run (dt_init : Q) (ops : list op) : run_state :=
  fold_left step ops (mkRun dt_init []).

(** The k newest step sizes padded with zeros. *)
Definition newest (k : nat) (r : run_state) : list Q :=
  firstn k (current r :: accepted r ++ repeat 0 k).

Definition op_dt (o : op) : Q := match o with Update d => d | Replace d => d end.

Definition positive_ops (ops : list op) : Prop := Forall (fun o => 0 < op_dt o) ops.

(** A run of the modelled code: construction with an initial step followed by
    the calls in [ops]. *)
Definition run_td (s : option scheme) (dt_init : Q) (ops : list op) : option time_data :=
  d <- td_ctor_init s dt_init ;; exec d ops.

