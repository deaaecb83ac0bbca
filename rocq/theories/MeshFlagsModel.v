(** Marking of cells for coarsening and refinement:
    /repo/include/pf-applications/grid/grid_tools.h 601-629, 784-894 and the limits
    of /repo/applications/sintering/include/pf-applications/sintering/driver.h
    240-241, 1398-1404, 1856-1860, 2257-2264, 2674.

    Modelled: the loops over cells of [prepare_coarsening_and_refinement], the
    computation of the allowed levels (unsigned 32 bit). Simplified: one process sees all
    cells, [owned] tells which it owns; values are rationals instead of doubles. The
    error estimator with [refine_and_coarsen_fixed_fraction] gives arbitrary exclusive
    flags; the smoothing of deal.II after the loops and the execution are relations
    (MeshFlagsProps.v). *)
From Coq Require Import List QArith NArith Bool.
From Verif Require Import Util.
Import ListNotations.
Local Open Scope N_scope.

(** Level, ownership, flags and for every block the values at the support points. *)
Record cell := mkCell { level : N; owned : bool; refine : bool; coarsen : bool; values : list (list Q) }.

(** deal.II: [set_refine_flag] requires an unset coarsen flag and vice versa; [None]: the
    assertion of the debug mode *)
Definition set_refine (c : cell) : option cell :=
  if coarsen c then None else Some (mkCell (level c) (owned c) true (coarsen c) (values c)).
Definition set_coarsen (c : cell) : option cell :=
  if refine c then None else Some (mkCell (level c) (owned c) (refine c) true (values c)).
Definition clear_refine (c : cell) : cell := mkCell (level c) (owned c) false (coarsen c) (values c).
Definition clear_coarsen (c : cell) : cell := mkCell (level c) (owned c) (refine c) false (values c).

Section Marking.
Variables (val_min val_max : Q).

Definition inside (v : Q) : bool := qltb val_min v && qltb v val_max.

(** 843-855: values of one block; running sum and the cell *)
Fixpoint scan (vs : list Q) (sum : Q) (c : cell) : option (Q * cell) :=
  match vs with
  | [] => Some (sum, c)
  | v :: r =>
      let sum := (sum + v)%Q in
      if inside v then c <- set_refine (clear_coarsen c) ;; Some (sum, c) else scan r sum c
  end.

(** 857-866; without values the average is NaN and the comparisons fail *)
Definition check_average (vs : list Q) (sum : Q) (c : cell) : option cell :=
  if refine c then Some c
  else match qdiv sum (inject_Z (Z.of_nat (length vs))) with
       | Some avg => if inside avg then set_refine (clear_coarsen c) else Some c
       | None => Some c
       end.

(** 837-870 *)
Fixpoint block_loop (blocks : list (list Q)) (c : cell) : option cell :=
  match blocks with
  | [] => Some c
  | vs :: r =>
      p <- scan vs 0%Q c ;;
      c <- check_average vs (fst p) (snd p) ;;
      if refine c then Some c else block_loop r c
  end.

(** 832-871, one cell *)
Definition mark_interface (c : cell) : option cell :=
  if negb (owned c) || refine c then Some c else block_loop (values c) c.

(** 873-890, one cell *)
Definition limit_levels (min_level max_level : N) (c : cell) : option cell :=
  let c :=
    if refine c && (level c =? max_level) then clear_refine c
    else if coarsen c && (level c =? min_level) then clear_coarsen c
    else c in
  if max_level <? level c
  then set_coarsen (if refine c then clear_refine c else c)
  else Some c.

Fixpoint map_cells (f : cell -> option cell) (l : list cell) : option (list cell) :=
  match l with
  | [] => Some []
  | c :: r => c <- f c ;; r <- map_cells f r ;; Some (c :: r)
  end.

(** 828-890; the flags of the argument are those of the error estimator (821-826) *)
Definition mark_cells (min_level max_level : N) (cells : list cell) : option (list cell) :=
  cells <- map_cells mark_interface cells ;;
  map_cells (limit_levels min_level max_level) cells.
End Marking.

(** ** The limits: [unsigned int] arithmetic *)
Definition u32 (x : N) : N := x mod 2 ^ 32.
Definition u32_sub (a b : N) : N := u32 (a + 2 ^ 32 - u32 b).

(** driver.h 1398-1404 *)
Definition max_allowed_level (n_levels_0 depth : N) : N := u32 (u32_sub n_levels_0 1 + depth).
Definition min_allowed_level (n_levels_0 min_depth : N) : N := u32_sub (u32_sub n_levels_0 1) (N.min (u32_sub n_levels_0 1) min_depth).

(** 2257-2264: after a good step with extra coarsening *)
Definition reduce_depth (extra_coarsening quality_control good : bool) (max_depth current : N) : N :=
  if good && extra_coarsening && negb quality_control && (current =? max_depth) then u32_sub current 1 else current.

(** 1856-1860; [n_levels]: present number of levels *)
Definition n_init_refinements (n_levels_0 n_levels min_depth max_depth : N) : N :=
  N.max (N.min (u32_sub n_levels 1) min_depth) (u32 (u32_sub n_levels_0 n_levels + max_depth)).

(** grid_tools.h 601-629; result: global refinements executed here and delayed ones *)
Inductive initial_refine := Base | Full | None_.
Definition make_initial_refines (r : initial_refine) (base interface : N) : N * N :=
  match r with
  | Base => (base, interface)
  | Full => (u32 (base + interface), 0)
  | None_ => (0, u32 (base + interface))
  end.
