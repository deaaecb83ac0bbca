(** Which grain's velocity is used: the lookup tables written by
    [do_evaluate_forces] and read by [AdvectionVelocityData].
    /repo/applications/sintering/include/pf-applications/sintering/operator_advection.h
    lines 163-223, 343-348 (generic), 478-484, 575-660, 764-767 (weighted) and
    advection.h lines 183-296, 393-415.
    [None] is an access outside of a vector or the exception of [at]. *)
From Coq Require Import List Arith Bool Lia.
From Verif Require Import Util CutoffModel.
Import ListNotations.

(** [numbers::invalid_unsigned_int] is [None]: index of a segment or invalid. *)
Notation ids := (list (option nat)).

(** The tables of [AdvectionMechanism]. *)
Record tables := mkTables { index_ptr : list nat; index_values : ids }.

(** [nullify_data], 405-415: [index_ptr] is [{0}] afterwards. *)
Definition nullified : tables := mkTables [0] [].

Section Batch.

Variable lanes : nat.                        (* VectorizedArrayType::size() *)
Variable n : nat.                            (* number of order parameters *)
Variable active : nat -> nat.                (* filled lanes of a batch *)
Variable seg : nat -> nat -> nat -> option nat.  (* batch, order parameter, lane *)

(** 181-223 and 577-624: the entries pushed for one order parameter *)
Definition lane_ids (cell ig : nat) : ids :=
  map (seg cell ig) (seq 0 (active cell)) ++ repeat None (lanes - active cell).

(** 169-349 of the generic operator: [g2r] is [get_grain_to_relevant_grain(cell)] *)
Definition push_cell_generic (g2r : list nat) (cell : nat) (vals : ids) : option ids :=
  for_loop n 0 (fun ig vals =>
    r <- vget g2r ig ;;
    if r =? 255 then Some vals else Some (vals ++ lane_ids cell ig)) vals.

(** 343-348: [index_ptr.push_back(index_values.size())].  The ranges of the
    [cell_loop] are visited in ascending order. *)
Definition build_generic (n_cells : nat) (g2r : nat -> list nat) : option tables :=
  for_loop n_cells 0 (fun cell t =>
    v <- push_cell_generic (g2r cell) cell (index_values t) ;;
    Some (mkTables (index_ptr t ++ [length v]) v)) nullified.

(** 634-763 of the weighted operator: entries are pushed for [ig] and again for
    every other relevant [jg] *)
Definition push_cell_weighted (g2r : list nat) (cell : nat) (vals : ids) : option ids :=
  for_loop n 0 (fun ig vals =>
    r <- vget g2r ig ;;
    if r =? 255 then Some vals
    else for_loop n 0 (fun jg vals =>
           if ig =? jg then Some vals
           else r <- vget g2r jg ;;
                if r =? 255 then Some vals else Some (vals ++ lane_ids cell jg))
         (vals ++ lane_ids cell ig)) vals.

(** 441-481: after the loop over the cells [nullify_data] is called once more *)
Definition build_weighted (n_cells : nat) (g2r : nat -> list nat) : option tables :=
  _ <- for_loop n_cells 0 (fun cell t =>
         v <- push_cell_weighted (g2r cell) cell (index_values t) ;;
         Some (mkTables (index_ptr t ++ [length v]) v)) nullified ;;
  Some nullified.

(** [AdvectionVelocityData]: per entry of [current_cell_data] and lane the segment
    whose data was copied there, [None] for the nullified ones; and
    [grain_to_relevant_grain], empty without the cut-off. *)
Record velocity_data := mkVD { cell_data : list ids; to_relevant : list nat }.

(** [reinit], 183-223.  [resize] may keep old entries, but all of them are
    overwritten. *)
Definition reinit (t : tables) (cut_off : option (list nat)) (cell : nat) : option velocity_data :=
  b <- vget (index_ptr t) (S cell) ;;
  a <- vget (index_ptr t) cell ;;
  let n_indices := b - a in
  let n_op := n_indices / lanes in
  d <- for_loop n_indices 0 (fun i d =>
         x <- vget (index_values t) (a + i) ;;
         tset d (i / lanes) (i mod lanes) x) (repeat (repeat None lanes) n_op) ;;
  Some (mkVD d (match cut_off with Some g2r => g2r | None => [] end)).

(** 287-296 *)
Definition get_relevant_id (v : velocity_data) (op : nat) : option nat :=
  match to_relevant v with
  | [] => Some (uchar op)
  | g2r => vget g2r op
  end.

(** 41-47, 215-217: [volume_inv > 0] in one of the lanes *)
Definition has_non_zero (positive : nat -> bool) (l : ids) : bool :=
  existsb (fun x => match x with Some s => positive s | None => false end) l.

(** 231-245; [None] stands for an access outside of [has_velocity_vector] *)
Definition has_velocity (positive : nat -> bool) (v : velocity_data) (op : nat) : option bool :=
  match cell_data v with
  | [] => Some false
  | _ =>
    r <- get_relevant_id v op ;;
    if r =? 255 then Some false else l <- vget (cell_data v) r ;; Some (has_non_zero positive l)
  end.

(** 265-284: translation and rotation take the data of this entry *)
Definition get_translation_data (v : velocity_data) (op : nat) : option ids :=
  r <- get_relevant_id v op ;; vget (cell_data v) r.

(** 247-263: here the index is mapped twice *)
Definition get_velocity_data (v : velocity_data) (op : nat) : option ids :=
  r <- get_relevant_id v op ;; get_translation_data v r.

End Batch.
