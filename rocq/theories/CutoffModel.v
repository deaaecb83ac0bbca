(** Cut-off of irrelevant grains and the compact storage of the values at the
    quadrature points: [SinteringOperatorData::set_component_mask],
    [fill_quadrature_point_values], [get_relevant_grains],
    [get_grain_to_relevant_grain] and the way the operators walk through the
    compact storage.
    /repo/applications/sintering/include/pf-applications/sintering/operator_sintering_data.h
    lines 149-472 and operator_sintering_generic.h lines 51-52, 181-187.
    [None] is an access outside of a [Table] or a [std::vector] (undefined
    behaviour; deal.II stops in debug mode). *)
From Coq Require Import List Arith Bool Lia.
From Verif Require Import Util.
Import ListNotations.

(** [for (i = i0; i < i0 + n; ++i) s = body(i, s);] *)
Fixpoint for_loop {S} (n i0 : nat) (body : nat -> S -> option S) (s : S) {struct n}
  : option S :=
  match n with
  | 0 => Some s
  | Datatypes.S k => s' <- body i0 s ;; for_loop k (Datatypes.S i0) body s'
  end.

(** [Table<2, T>]: a list of rows. *)
Definition tget {A} (t : list (list A)) (i j : nat) : option A :=
  r <- vget t i ;; vget r j.

Definition tset {A} (t : list (list A)) (i j : nat) (x : A) : option (list (list A)) :=
  r <- vget t i ;; r' <- vset r j x ;; vset t i r'.

(** [static_cast<unsigned char>]. *)
Definition uchar (n : nat) : nat := n mod 256.

(** What the two functions get: numbers of cell batches, lanes, quadrature
    points, components in front of the order parameters
    ([op_components_offset]), order parameters and blocks of the vector. *)
Record setup := {
  n_cells : nat;
  n_lanes : nat;
  n_q : nat;
  offset : nat;
  n_grains : nat;
  n_blocks : nat;
  tensorial : bool;      (* use_tensorial_mobility, lines 39-44 *)
  save_op_gradients : bool;
  save_all_blocks : bool
}.

(** [n_components()], lines 120-124. *)
Definition n_components (s : setup) : nat := offset s + n_grains s.

(** Lines 165-206.  [active cell] is the number of filled lanes of a batch and
    [above cell v b] tells whether the largest absolute dof value of order
    parameter [b] on the cell of lane [v] exceeds the tolerance. *)
Definition init_lanes (s : setup) : option (list (list nat)) :=
  for_loop (n_cells s) 0 (fun i t =>
    for_loop (n_grains s) 0 (fun j t => tset t i j 0) t)
    (repeat (repeat 0 (n_lanes s)) (n_cells s)).

Definition mark_lane (s : setup) (above : nat -> nat -> nat -> bool) (cell v : nat)
  (st : list (list nat) * list (list bool)) : option (list (list nat) * list (list bool)) :=
  r <- for_loop (n_grains s) 0 (fun b st =>
         if above cell v b
         then t <- tset (fst st) cell b true ;; Some (t, S (snd st))
         else Some st) (snd st, 0) ;;
  tl <- tset (fst st) cell v (snd r) ;;
  Some (tl, fst r).

(** [numbers::invalid_unsigned_int] in [table_lanes] only serves the statistics;
    the number put there is irrelevant, so 0 stands for it. *)
Definition component_table (s : setup) (active : nat -> nat)
  (above : nat -> nat -> nat -> bool) : option (list (list bool)) :=
  tl <- init_lanes s ;;
  r <- for_loop (n_cells s) 0 (fun cell st =>
         for_loop (active cell) 0 (mark_lane s above cell) st)
       (tl, repeat (repeat false (n_grains s)) (n_cells s)) ;;
  Some (snd r).

(** Lines 209-242. *)
Record mask := {
  table : list (list bool);
  value_ptr : list nat;
  gradient_ptr : list nat;
  relevant_grains_vector : list nat;
  relevant_grains_ptr : list nat
}.

Definition n_save (s : setup) : nat :=
  if save_all_blocks s then n_blocks s else n_components s.

Definition pointers_cell (s : setup) (cell : nat) (m : mask) : option mask :=
  r <- for_loop (n_grains s) 0 (fun j st =>
         b <- tget (table m) cell j ;;
         Some (if b : bool then (S (fst st), snd st ++ [uchar j]) else st))
       (0, relevant_grains_vector m) ;;
  let n_value := n_save s - n_grains s + fst r in
  let n_gradient :=
    if tensorial s || save_op_gradients s then n_value else offset s in
  Some {| table := table m;
          value_ptr := value_ptr m ++ [last (value_ptr m) 0 + n_q s * n_value];
          gradient_ptr := gradient_ptr m ++ [last (gradient_ptr m) 0 + n_q s * n_gradient];
          relevant_grains_vector := snd r;
          relevant_grains_ptr := relevant_grains_ptr m ++ [length (snd r)] |}.

(** [set_component_mask], lines 149-298, without the statistics printed at its
    end. *)
Definition set_component_mask (s : setup) (active : nat -> nat)
  (above : nat -> nat -> nat -> bool) : option mask :=
  t <- component_table s active above ;;
  for_loop (n_cells s) 0 (pointers_cell s)
    {| table := t; value_ptr := [0]; gradient_ptr := [0];
       relevant_grains_vector := []; relevant_grains_ptr := [0] |}.

(** [get_relevant_grains], lines 443-450. *)
Definition get_relevant_grains (m : mask) (cell : nat) : option (list nat) :=
  a <- vget (relevant_grains_ptr m) cell ;;
  b <- vget (relevant_grains_ptr m) (S cell) ;;
  Some (firstn (b - a) (skipn a (relevant_grains_vector m))).

(** [get_grain_to_relevant_grain], lines 452-472; [None] as the mask is the case
    in which the cut-off is not enabled. *)
Definition get_grain_to_relevant_grain (ng : nat) (om : option mask) (cell : nat)
  : option (list nat) :=
  match om with
  | None => for_loop ng 0 (fun i r => vset r i (uchar i)) (repeat 255 ng)
  | Some m =>
    rel <- get_relevant_grains m cell ;;
    for_loop (length rel) 0 (fun i r =>
      g <- vget rel i ;; vset r g (uchar i)) (repeat 255 ng)
  end.

Section Fill.

Variable V : Type.
Variable zero : V.
(** [vals cell q c] is what [phi.get_value(q)] (or [get_gradient(q)]) gives for
    block [c] on batch [cell]. *)
Variable vals : nat -> nat -> nat -> V.

(** Lines 351-370: the entry of the full table, nullified where the order
    parameter is cut off. *)
Definition masked (s : setup) (t : list (list bool)) (cell q c : nat) : option V :=
  if offset s <=? c
  then b <- tget t cell (c - offset s) ;; Some (if b : bool then vals cell q c else zero)
  else Some (vals cell q c).

(** Lines 388-391, 395-398: is this component kept in the compact storage? *)
Definition kept (s : setup) (t : list (list bool)) (cell c : nat) : option bool :=
  if (c <? offset s) || (offset s + n_grains s <=? c) then Some true
  else tget t cell (c - offset s).

(** Lines 388-393 (values, with [n_c = n_components_save_value]) or 395-400
    (gradients). *)
Definition copy_q (s : setup) (t : list (list bool)) (n_c cell q : nat)
  (st : list V * nat) : option (list V * nat) :=
  for_loop n_c 0 (fun c st =>
    k <- kept s t cell c ;;
    if k : bool then
      x <- masked s t cell q c ;;
      arr <- vset (fst st) (snd st) x ;;
      Some (arr, S (snd st))
    else Some st) st.

(** Lines 341-406: the loop over the cells for one of the two storages; the two
    are filled independently of each other.  The full table is first filled for
    all [n_save] components, which accesses the table of the components. *)
Definition fill_cell (s : setup) (t : list (list bool)) (ptr : list nat) (n_c cell : nat)
  (arr : list V) : option (list V) :=
  _ <- for_loop (n_save s) 0 (fun c _ =>
         for_loop (n_q s) 0 (fun q _ => _ <- masked s t cell q c ;; Some tt) tt) tt ;;
  counter <- vget ptr cell ;;
  r <- for_loop (n_q s) 0 (copy_q s t n_c cell) (arr, counter) ;;
  Some (fst r).

(** [resize] keeps what was stored before: any vector of the new size may be the
    one the loop starts with. *)
Definition fill_storage (s : setup) (t : list (list bool)) (ptr : list nat) (n_c : nat)
  (arr : list V) : option (list V) :=
  for_loop (n_cells s) 0 (fill_cell s t ptr n_c) arr.

(** Lines 375-381, 392, 399. *)
Definition n_save_gradient (s : setup) : nat :=
  if tensorial s || save_op_gradients s then n_save s else offset s.

Definition fill_values (s : setup) (m : mask) (arr : list V) : option (list V) :=
  fill_storage s (table m) (value_ptr m) (n_save s) arr.

Definition fill_gradients (s : setup) (m : mask) (arr : list V) : option (list V) :=
  fill_storage s (table m) (gradient_ptr m) (n_save_gradient s) arr.

(** The readers: [SinteringOperatorGenericQuad] starts at the offset of the cell
    ([get_nonlinear_values(cell)], lines 82-98) and moves on by
    [2 + n_grains] values and [2 + (tensorial ? n_grains : 0)] gradients for
    every quadrature point, [n_grains] being the number of relevant grains
    (operator_sintering_generic.h lines 51-52, 181-187, 511-514). *)
Definition read_value (m : mask) (arr : list V) (n_rel cell q p : nat) : option V :=
  base <- vget (value_ptr m) cell ;; vget arr (base + q * (2 + n_rel) + p).

Definition read_gradient (s : setup) (m : mask) (arr : list V) (n_rel cell q p : nat)
  : option V :=
  base <- vget (gradient_ptr m) cell ;;
  vget arr (base + q * (2 + (if tensorial s then n_rel else 0)) + p).

End Fill.
