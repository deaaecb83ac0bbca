(** Model of the block operations of [DynamicBlockVector] and of the change of
    the number of order parameters in the driver.  A block is its content (an
    element of an arbitrary type [B]); the code stores shared pointers, so
    aliasing between vectors is not modelled.  [None]: out of range access (the
    [AssertIndexRange] checks are inactive in release builds). *)
From Coq Require Import List Arith.
From Verif Require Import Util.
Import ListNotations.

Section Blocks.
Context {B : Type}.

(** include/pf-applications/lac/dynamic_block_vector.h:251-252 and 267-268:
    [for (i = from; i > to; --i) blocks[i] = blocks[i - 1];] with [n] passes. *)
Fixpoint shift_up (n i : nat) (l : list B) : option (list B) :=
  match n with
  | O => Some l
  | S n' => v <- vget l (i - 1) ;; l <- vset l i v ;; shift_up n' (i - 1) l
  end.

(** 254-255 and 283-284:
    [for (i = from; i < to; ++i) blocks[i] = blocks[i + 1];] with [n] passes. *)
Fixpoint shift_down (n i : nat) (l : list B) : option (list B) :=
  match n with
  | O => Some l
  | S n' => v <- vget l (i + 1) ;; l <- vset l i v ;; shift_down n' (i + 1) l
  end.

(** 243-259 [move_block] *)
Definition move_block (from to : nat) (l : list B) : option (list B) :=
  tmp <- vget l from ;;
  l <- (if Nat.ltb to from then shift_up (from - to) from l
        else if Nat.ltb from to then shift_down (to - from) from l
        else Some l) ;;
  vset l to tmp.

(** 261-274 [insert_block]; [null] is the pointer created by [resize]. *)
Definition insert_block (null block : B) (to : nat) (l : list B) : option (list B) :=
  let l := l ++ [null] in
  l <- shift_up (length l - 1 - to) (length l - 1) l ;;
  vset l to block.

(** 276-291 [remove_block]: the removed block and the remaining ones. *)
Definition remove_block (from : nat) (l : list B) : option (B * list B) :=
  block <- vget l from ;;
  l <- shift_down (length l - 1 - from) from l ;;
  Some (block, firstn (length l - 1) l).

(** 125-146 [reinit(n)]: new blocks are zero ([reinit] of a vector like
    [block(0)]); for a vector without blocks they stay uninitialised, which is
    not distinguished here. *)
Definition reinit (zero : B) (n : nat) (l : list B) : list B :=
  firstn n l ++ repeat zero (n - length l).

(** 176-203 [create_view]: the blocks [start, end). *)
Fixpoint create_view (n start : nat) (l : list B) : option (list B) :=
  match n with
  | O => Some []
  | S n' => v <- vget l start ;; r <- create_view n' (S start) l ;; Some (v :: r)
  end.

(** include/pf-applications/time_integration/time_marching.h:1069-1076 (the
    stationary blocks are taken out, highest index first, and kept) and
    1088-1094 (put back in reverse order). *)
Fixpoint remove_all (idx : list nat) (l : list B) : option (list B * list B) :=
  match idx with
  | [] => Some ([], l)
  | i :: r =>
      bl <- remove_block i l ;;
      rest <- remove_all r (snd bl) ;;
      Some (fst bl :: fst rest, snd rest)
  end.

Fixpoint insert_all (null : B) (idx : list nat) (bs l : list B) : option (list B) :=
  match idx, bs with
  | [], [] => Some l
  | i :: r, b :: bs' => l <- insert_block null b i l ;; insert_all null r bs' l
  | _, _ => None
  end.

(** applications/sintering/include/pf-applications/sintering/driver.h:1654-1660:
    [for (i = sintering_data.n_components() - 1; i >= n_components_new; --i)
       sol->move_block(i, i + distance);]  [n] passes, the pass handles
    [i = lo + n - 1]. *)
Fixpoint move_to_end (n lo distance : nat) (l : list B) : option (list B) :=
  match n with
  | O => Some l
  | S n' => l <- move_block (lo + n') (lo + n' + distance) l ;; move_to_end n' lo distance l
  end.

(** driver.h:1674-1679:
    [for (i = nonlinear_operator.n_components(); i < n_components_new; ++i)
       sol->move_block(i, i - distance);]  [n] passes starting at [i]. *)
Fixpoint move_before (n i distance : nat) (l : list B) : option (list B) :=
  match n with
  | O => Some l
  | S n' => l <- move_block i (i - distance) l ;; move_before n' (S i) distance l
  end.

(** driver.h:1602-1688, the branch [has_op_number_changed], for one of the
    solution vectors.  [offset] = 2 (concentration, chemical potential), [g],
    [g_new]: old and new number of order parameters, [distance]: number of
    further blocks (displacements) behind them, so that the operator has
    [offset + g + distance] components.  [remap]: what
    [grain_tracker.remap] does to the blocks. *)
Definition change_n_grains (zero : B) (offset g g_new distance : nat)
  (has_reassigned : bool) (remap : list B -> list B) (l : list B) : option (list B) :=
  let n_old := length l in
  let n_new := n_old - g + g_new in
  let n_sintering := offset + g in
  l <- (if andb has_reassigned (Nat.ltb n_new n_old) then
          let l := remap l in
          if Nat.ltb 0 distance
          then move_to_end (n_sintering - n_new) n_new distance l else Some l
        else Some l) ;;
  let l := reinit zero n_new l in
  if andb has_reassigned (Nat.ltb n_old n_new) then
    l <- (if Nat.ltb 0 distance
          then move_before (n_new - n_old) n_old distance l else Some l) ;;
    Some (remap l)
  else Some l.

End Blocks.
