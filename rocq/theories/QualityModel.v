(** Model of the mesh quality and its control,
    applications/sintering/include/pf-applications/sintering/postprocessors.h
    1759-1892 and applications/sintering/include/pf-applications/sintering/driver.h
    2274-2286, 2633-2690.
    [None]: the first element of an empty range is read. *)
From Coq Require Import List QArith Arith Bool.
From Verif Require Import Util.
Import ListNotations.
Local Open Scope Q_scope.

(** [std::min_element] and [std::max_element] (1789-1792, 1862) *)
Definition min_element (l : list Q) : option Q :=
  match l with
  | [] => None
  | x :: r => Some (fold_left (fun a v => if qltb v a then v else a) r x)
  end.

Definition max_element (l : list Q) : option Q :=
  match l with
  | [] => None
  | x :: r => Some (fold_left (fun a v => if qltb a v then v else a) r x)
  end.

(** The values of the blocks on a cell (1787). *)
Definition cell := list (list Q).

(** 1783-1797 *)
Fixpoint delta_cell (blocks : cell) (delta : Q) : option Q :=
  match blocks with
  | [] => Some delta
  | values :: rest =>
      lo <- min_element values ;;
      hi <- max_element values ;;
      delta_cell rest (if qltb (hi - lo) delta then delta else hi - lo)
  end.

(** 1799 *)
Definition cell_quality (c : cell) : option Q :=
  d <- delta_cell c 0 ;; Some (1 - d).

(** The active cells of a rank: owned ones with their values, and ghost or
    artificial ones (1778-1781). *)
Inductive active := Owned (c : cell) | Other.

(** 1877-1886 on one rank *)
Fixpoint estimate_rank (cells : list active) (quality : Q) : option Q :=
  match cells with
  | [] => Some quality
  | Other :: rest => estimate_rank rest quality
  | Owned c :: rest =>
      q <- cell_quality c ;;
      estimate_rank rest (if qltb q quality then q else quality)
  end.

(** All ranks, or [None] if one fails. *)
Fixpoint each {A B : Type} (f : A -> option B) (l : list A) : option (list B) :=
  match l with
  | [] => Some []
  | x :: r => y <- f x ;; ys <- each f r ;; Some (y :: ys)
  end.

(** 1871-1892 [estimate_mesh_quality_min] *)
Definition estimate_min (ranks : list (list active)) : option Q :=
  qs <- each (fun cells => estimate_rank cells 1) ranks ;; min_element qs.

(** 1811-1822, 1856: the vector with an entry for each active cell, zero where
    nothing is stored *)
Definition quality_entry (a : active) : option Q :=
  match a with Owned c => cell_quality c | Other => Some 0 end.

(** 1849-1867 [output_mesh_quality_and_min] *)
Definition output_min (ranks : list (list active)) : option Q :=
  qs <- each (fun cells => v <- each quality_entry cells ;; min_element v) ranks ;; min_element qs.

(** driver.h 2284-2285 *)
Definition need_refinement (quality threshold : Q) : bool := qltb quality threshold.

(** driver.h 2650-2652 *)
Definition auto_threshold (factor quality : Q) : Q := factor * quality.

(** driver.h 2659-2690: the loop.  [refine depth] is the quality after the mesh was
    adapted with that depth.  [None]: not finished within [fuel] passes; the depth is
    not reduced to 32 bits. *)
Fixpoint adjust (fuel : nat) (refine : nat -> Q) (threshold quality : Q) (depth : nat) : option (Q * nat) :=
  if need_refinement quality threshold then
    match fuel with
    | O => None
    | S fuel => adjust fuel refine threshold (refine (S depth)) (S depth)
    end
  else Some (quality, depth).

(** dynamic_block_vector.h 177-189 [create_view]: the blocks from [start] to [stop], [None] if
    one does not exist; in release mode a start after the end gives an empty view *)
Definition create_view {A : Type} (start stop : nat) (blocks : list A) : option (list A) :=
  each (vget blocks) (seq start (stop - start)).

(** driver.h 2276-2278, 2635-2636, 3104-3105: the view of the values on a cell, for
    [n_components] components of the data *)
Definition quality_view (n_components : nat) (a : active) : option active :=
  match a with
  | Owned c => v <- create_view 2 n_components c ;; Some (Owned v)
  | Other => Some Other
  end.
(** driver.h 2276-2282: the value that decides on the refinement *)
Definition driver_quality (n_components : nat) (ranks : list (list active)) : option Q :=
  views <- each (each (quality_view n_components)) ranks ;; estimate_min views.
