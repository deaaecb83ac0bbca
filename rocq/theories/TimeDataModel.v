(** Model of [TimeIntegration::TimeIntegratorData]. *)
From Coq Require Import List Arith ZArith QArith.
From Verif Require Import Util TimeSchemesModel.
Import ListNotations.
Local Open Scope Q_scope.

(** include/pf-applications/time_integration/time_integrator_data.h:222-226.
    [td_scheme] is the [shared_ptr] to the implicit scheme ([None]: null, as
    for explicit schemes).  The flag for stationary equations is left out (it
    is never touched by the functions below except [save]/[load], see
    TimeDataModel.archive). *)
Record time_data := mkTD {
  td_scheme : option scheme;
  td_order : nat;
  td_dt : list Q;
  td_weights : list Q }.

(** time_integrator_data.h:211-216 [update_weights] *)
Definition update_weights (d : time_data) : option time_data :=
  match td_scheme d with
  | None => Some d
  | Some s =>
      w <- compute_weights s (td_dt d) ;;
      Some (mkTD (td_scheme d) (td_order d) (td_dt d) w)
  end.

(** 33-40: default constructor *)
Definition td_default : time_data := mkTD None 0 [0] [1].

(** 42-49: constructor from a scheme *)
Definition td_ctor (s : option scheme) : time_data :=
  let order := match s with Some s => get_order s | None => O end in
  mkTD s order (repeat 0 (Nat.max order 1)) (repeat 0 (S order)).

(** 103-105: [for (int i = order - 2; i >= 0; i--) dt[i + 1] = dt[i];]
    [n] is the number of passes left, the pass handles i = n - 1. *)
Fixpoint shift (n : nat) (dt : list Q) : option (list Q) :=
  match n with
  | O => Some dt
  | S i => v <- vget dt i ;; dt <- vset dt (S i) v ;; shift i dt
  end.

(** 98-109 [update_dt] *)
Definition update_dt (d : time_data) (dt_new : Q) : option time_data :=
  dt <- shift (td_order d - 1) (td_dt d) ;;
  dt <- vset dt 0 dt_new ;;
  update_weights (mkTD (td_scheme d) (td_order d) dt (td_weights d)).

(** 90-96 [replace_dt] *)
Definition replace_dt (d : time_data) (dt_new : Q) : option time_data :=
  dt <- vset (td_dt d) 0 dt_new ;;
  update_weights (mkTD (td_scheme d) (td_order d) dt (td_weights d)).

(** 51-56: constructor from a scheme and an initial step *)
Definition td_ctor_init (s : option scheme) (dt_init : Q) : option time_data :=
  update_dt (td_ctor s) dt_init.

(** 58-67: copy with another scheme.  The loop [for i < min(order, other)]
    copies element by element. *)
Fixpoint copy_dt (n : nat) (dst src : list Q) : option (list Q) :=
  match n with
  | O => Some dst
  | S i => dst <- copy_dt i dst src ;; v <- vget src i ;; vset dst i v
  end.

Definition td_ctor_copy (other : time_data) (s : option scheme) : option time_data :=
  let d := td_ctor s in
  v0 <- vget (td_dt other) 0 ;;
  dt <- vset (td_dt d) 0 v0 ;;
  dt <- copy_dt (Nat.min (td_order d) (td_order other)) dt (td_dt other) ;;
  update_weights (mkTD s (td_order d) dt (td_weights d)).

(** 111-115 [get_current_dt] *)
Definition get_current_dt (d : time_data) : option Q := vget (td_dt d) 0.

(** The archive written by [save] (187-193): the order, then the raw numbers
    of [dt] as one [make_array]. *)
Record archive := mkAr { ar_order : nat; ar_dt : list Q }.

Definition save_td (d : time_data) : archive := mkAr (td_order d) (td_dt d).

(** 195-206 [load]: [dt.resize(order)], read [order] numbers, [update_weights].
    [None]: the archive holds fewer numbers than requested (boost throws).
    Numbers left over in the archive are ignored. *)
Definition vresize (l : list Q) (n : nat) : list Q :=
  firstn n l ++ repeat 0 (n - length l).

Definition load (d : time_data) (a : archive) : option time_data :=
  let order := ar_order a in
  if Nat.leb order (length (ar_dt a)) then
    update_weights (mkTD (td_scheme d) order (firstn order (ar_dt a))
                         (vresize (td_weights d) (S order)))
  else None.

(** applications/sintering/include/pf-applications/sintering/driver.h:352-377:
    what the restart constructor does with the archive.  [full_history] is the
    restart parameter. *)
Definition restart_time_data (s : option scheme) (a : archive) (full_history : bool)
  : option time_data :=
  d <- load td_default a ;;
  if full_history then td_ctor_copy d s
  else v <- get_current_dt d ;; td_ctor_init s v.

(** One call made by the time loop. *)
Inductive op := Update (d : Q) | Replace (d : Q).

Definition exec1 (d : time_data) (o : op) : option time_data :=
  match o with Update x => update_dt d x | Replace x => replace_dt d x end.

Fixpoint exec (d : time_data) (ops : list op) : option time_data :=
  match ops with
  | [] => Some d
  | o :: r => d' <- exec1 d o ;; exec d' r
  end.
