(** Model of the tables with forces and velocities of the grains and of when they are filled:
    include/pf-applications/grain_tracker/tracker.h 144-300, 339, 388, 1079-1158, 1856-1871,
    applications/sintering/include/pf-applications/sintering/operator_advection.h 87-118,
    169-223, 337-372, advection.h 354-439, 458-489, postprocessors_stats.h 104-297 and
    driver.h 1516-1718, 1884-1930, 1958-1988, 2215-2232, 2320-2340, 2483-2535.

    Simplifications: numbers are rational; what a cell adds for an order parameter is
    arbitrary (C33 treats the forces themselves); the lanes of a batch are cells of their own;
    the cells of all processes are in one list ([MPI_Allreduce] adds up the same numbers in
    another order); measures, radii and centers of the table come from the grain and are left
    out. *)
From Coq Require Import QArith String List Arith Bool.
From Verif Require Import Util.
Import ListNotations.
Local Open Scope list_scope.
Local Open Scope nat_scope.

(** grain and segment; [None]: [numbers::invalid_unsigned_int] *)
Notation key := (option nat * nat)%type.
Definition key_eqb (a b : key) : bool :=
  match fst a, fst b with
  | Some x, Some y => Nat.eqb x y
  | None, None => true
  | _, _ => false
  end && Nat.eqb (snd a) (snd b).

(** [grain_segment_ids_numbering]: the newest entry of a key counts, the assignment in the
    code overwrites it; [None]: [at] throws *)
Definition numbers := list (key * nat).
Fixpoint number_at (m : numbers) (k : key) : option nat :=
  match m with [] => None | (x, i) :: r => if key_eqb x k then Some i else number_at r k end.

(** tracker.h 1856-1871 [build_inverse_mapping] *)
Definition build_inverse_mapping (p2g : list (list key)) : numbers * nat :=
  fold_left (fun s k => ((k, snd s) :: fst s, S (snd s))) (concat p2g) ([], 0).

(** grains: id and number of segments; [p2g]: [particle_ids_to_grain_ids];
    [particle op cell]: [get_particle_index], 1079-1112, [None] if invalid *)
Record found := mkFound { f_grains : list (nat * nat); f_p2g : list (list key); f_particle : nat -> nat -> option nat }.
Record tracker := mkTracker { now : found; numbering : numbers; n_total : nat }.

(** 144-343 [track] and 350-393 [initial_setup] *)
Definition track (f : found) : tracker :=
  let '(m, n) := build_inverse_mapping (f_p2g f) in mkTracker f m n.
(** [track] leaves with [ExcGrainsInconsistency], 235-306: 339 is not reached *)
Definition track_failed (f : found) (t : tracker) : tracker := mkTracker f (numbering t) (n_total t).

(** 1114-1121; [None]: outside of the vectors *)
Definition owner (t : tracker) (op cell : nat) : option (option key) :=
  match f_particle (now t) op cell with
  | None => Some None
  | Some p => l <- vget (f_p2g (now t)) op ;; k <- vget l p ;; Some (match fst k with Some _ => Some k | None => None end)
  end.

Section Data.
Variable ncomp : nat.   (* n_comp_volume_force_torque *)
Variable dim : nat.
Variable n_op : nat.
Variable mt : Q.

(** one evaluation of the forces: the cells and what they add *)
Record evaluation := mkEval { e_cells : list nat; e_add : nat -> nat -> nat -> Q }.

(** operator_advection.h 360-372 *)
Fixpoint add_components (cs : list nat) (i : nat) (v : nat -> Q) (data : list Q) : option (list Q) :=
  match cs with
  | [] => Some data
  | c :: r => x <- vget data (ncomp * i + c) ;; d <- vset data (ncomp * i + c) (x + v c)%Q ;; add_components r i v d
  end.

Fixpoint add_ops (t : tracker) (e : evaluation) (cell : nat) (ops : list nat) (data : list Q) : option (list Q) :=
  match ops with
  | [] => Some data
  | op :: r =>
    o <- owner t op cell ;;
    d <- (match o with
          | None => Some data
          | Some k => i <- number_at (numbering t) k ;; add_components (seq 0 ncomp) i (e_add e cell op) data
          end) ;;
    add_ops t e cell r d
  end.
Fixpoint add_cells (t : tracker) (e : evaluation) (cells : list nat) (data : list Q) : option (list Q) :=
  match cells with [] => Some data | c :: r => d <- add_ops t e c (seq 0 n_op) data ;; add_cells t e r d end.

(** 87-118 with advection.h 405-408 *)
Definition evaluate (t : tracker) (e : evaluation) : option (list Q) :=
  add_cells t e (e_cells e) (repeat 0%Q (ncomp * n_total t)).

(** an entry of the table; [NaN] also for an infinite one *)
Inductive entry := NaN | Val (q : Q).

Fixpoint collect (data : list Q) (i : nat) (cs : list nat) : option (list Q) :=
  match cs with [] => Some [] | c :: r => x <- vget data (ncomp * i + c) ;; l <- collect data i r ;; Some (x :: l) end.

(** advection.h 354-367 *)
Definition velocity (values : list Q) : list entry :=
  match values with
  | volume :: r => map (fun f => match qdiv (mt * f) volume with Some v => Val v | None => NaN end) (firstn dim r)
  | [] => []
  end.

(** postprocessors_stats.h 189-204, 247-283: the columns of the advection for a grain; [None]:
    outside of [grains_data] or [at] throws *)
Definition stats_row (t : tracker) (data : list Q) (g : nat * nat) : option (nat * list entry) :=
  match data with
  | [] => Some (fst g, repeat NaN (ncomp + dim))
  | _ =>
    if Nat.eqb (snd g) 1 then
      i <- number_at (numbering t) (Some (fst g), 0) ;;
      l <- collect data i (seq 0 ncomp) ;;
      Some (fst g, map Val l ++ velocity l)
    else Some (fst g, repeat NaN (ncomp + dim))
  end.
Fixpoint stats_rows (t : tracker) (data : list Q) (gs : list (nat * nat)) : option (list (nat * list entry)) :=
  match gs with [] => Some [] | g :: r => x <- stats_row t data g ;; l <- stats_rows t data r ;; Some (x :: l) end.
Definition grains_stats (t : tracker) (data : list Q) := stats_rows t data (f_grains (now t)).

(** advection.h 458-489 [print_forces]: all segments *)
Fixpoint force_lines (t : tracker) (data : list Q) (g : nat) (segments : list nat) : option (list (nat * nat * list Q)) :=
  match segments with
  | [] => Some []
  | s :: r => i <- number_at (numbering t) (Some g, s) ;; x <- collect data i (seq 0 ncomp) ;; l <- force_lines t data g r ;; Some ((g, s, x) :: l)
  end.
Fixpoint print_forces (t : tracker) (data : list Q) (gs : list (nat * nat)) : option (list (nat * nat * list Q)) :=
  match gs with [] => Some [] | g :: r => x <- force_lines t data (fst g) (seq 0 (snd g)) ;; l <- print_forces t data r ;; Some (x ++ l) end.

(** ** What the driver does, in order *)
Inductive event :=
  | Track (f : found)
  | Failed (f : found)
  | Evaluate (e : evaluation)
  | Output (label : string).

Record sim := mkSim { s_tracker : tracker; s_data : list Q }.
(** the last evaluation is kept for the statements, the code does not store it *)
Record sight := mkSight { label_of : string; at_tracker : tracker; last_evaluation : option evaluation; table : option (list (nat * list entry)) }.

Fixpoint run (s : sim) (last : option evaluation) (evs : list event) : option (list sight) :=
  match evs with
  | [] => Some []
  | Track f :: r => run (mkSim (track f) (s_data s)) last r
  | Failed f :: r => run (mkSim (track_failed f (s_tracker s)) (s_data s)) last r
  | Evaluate e :: r => d <- evaluate (s_tracker s) e ;; run (mkSim (s_tracker s) d) (Some e) r
  | Output l :: r => o <- run s last r ;; Some (mkSight l (s_tracker s) last (grains_stats (s_tracker s) (s_data s)) :: o)
  end.

(** driver.h 1516-1718 [run_grain_tracker]: the second run of the tracker, 1697-1708, comes
    with a remapping and advection *)
Record tracking := mkTracking { first_run : found; second_run : option found }.
Definition tracking_events (x : tracking) : list event :=
  [Output "track"; Track (first_run x)]
  ++ match second_run x with Some f => [Track f; Output "remap"] | None => [] end.

(** a time step: tracking at its beginning (1958-1988), Courant check (2220-2229), the
    residuals of [make_step] (residual_wrapper.h 55-81, at least one), tracking because of
    [check_inconsistency] (2320-2340), output (2510-2535).  A step that fails ends after any of
    the residuals; [outcome]: [None] if it fails *)
Record step := mkStep {
  s_begin : option tracking;
  s_courant : option evaluation;
  s_first : evaluation;
  s_residuals : list evaluation;
  s_converged : bool;
  s_check : option tracking;
  s_output : bool }.
Definition step_events (x : step) : list event :=
  match s_begin x with Some k => tracking_events k | None => [] end
  ++ match s_courant x with Some e => [Evaluate e] | None => [] end
  ++ Evaluate (s_first x) :: map Evaluate (s_residuals x)
  ++ (if s_converged x then
        match s_check x with Some k => tracking_events k | None => [] end
        ++ (if s_output x then [Output "solution"] else [])
      else []).
(** 1884-1930: first tracking, evaluation and output unless the run continues another one *)
Definition start_events (f : tracking) (first : option evaluation) : list event :=
  tracking_events f ++ match first with Some e => [Evaluate e; Output "solution"] | None => [] end.
Definition driver_events (f : tracking) (first : option evaluation) (steps : list step) : list event :=
  start_events f first ++ concat (map step_events steps).

(** before the first tracking *)
Definition nothing : sim := mkSim (mkTracker (mkFound [] [] (fun _ _ => None)) [] 0) [].

(** ** The velocities of the coupled operator, postprocessors_stats.h 131-187.  [center]: the
    center of the first segment, [displacement]: values of the last blocks at a point.  The
    points are numbered in the order of the map of the grains *)
Section Coupled.
Variable place : Type.
Variable displacement : place -> nat -> Q.
Definition evaluation_points (gs : list (nat * nat * place)) : list place := map snd gs.
Fixpoint evaluation_id (gs : list (nat * nat * place)) (counter : nat) (g : nat) : option nat :=
  match gs with
  | [] => None
  | x :: r => match evaluation_id r (S counter) g with Some i => Some i | None => if Nat.eqb (fst (fst x)) g then Some counter else None end
  end.
Definition coupled_velocity (dt : Q) (gs : list (nat * nat * place)) (g : nat * nat * place) : option (list entry) :=
  if Nat.eqb (snd (fst g)) 1 && negb (Qeq_bool dt 0) then
    i <- evaluation_id gs 0 (fst (fst g)) ;;
    p <- vget (evaluation_points gs) i ;;
    Some (map (fun d => Val (displacement p d / dt)%Q) (seq 0 dim))
  else Some (repeat NaN dim).
End Coupled.
End Data.
