(** Forces and torques of the advection mechanism, in exact arithmetic:
    [AdvectionOperatorGeneric] and [AdvectionOperatorWeighted],
    /repo/applications/sintering/include/pf-applications/sintering/operator_advection.h
    lines 87-118, 137-349 and 430-514, 530-763, and the velocities made of them,
    advection.h lines 34-153, 330-353, 405-439.

    Simplifications: the lanes of a batch of cells are treated as cells of their
    own (the code does the same arithmetic in every lane); what belongs to the
    whole batch, the relevant order parameters, is repeated in every cell.  The
    grain tracker is the function [c_seg], the index of the segment an order
    parameter belongs to on a cell ([get_particle_index],
    [get_grain_and_segment], [get_grain_segment_index]; [None] is one of the two
    invalid results).  The values at the quadrature points are arbitrary. *)
From Coq Require Import List Reals Arith Bool.
Import ListNotations.
Local Open Scope R_scope.

Fixpoint rsum {A} (f : A -> R) (l : list A) : R :=
  match l with [] => 0 | x :: r => f x + rsum f r end.

(** a quadrature point: [JxW], position, concentration, order parameters and
    their gradients *)
Record qpoint := mkQ { jxw : R; pos : nat -> R; conc : R; eta : nat -> R; grad : nat -> nat -> R }.

Record cell := mkCell { c_rel : nat -> bool; c_seg : nat -> option nat; c_qps : list qpoint }.

(** tensor.h lines 61-96: cross product of two vectors in 2D and in 3D *)
Definition cross2 (a b : nat -> R) : R := a 1%nat * b 0%nat - a 0%nat * b 1%nat.
Definition cross3 (a b : nat -> R) (d : nat) : R :=
  match d with
  | 0%nat => a 1%nat * b 2%nat - a 2%nat * b 1%nat
  | 1%nat => a 2%nat * b 0%nat - a 0%nat * b 2%nat
  | _ => a 0%nat * b 1%nat - a 1%nat * b 0%nat
  end.

Section Forces.
Variable dim : nat.
Variable n : nat.                (* number of order parameters *)
Variables k ceq cgb smoothening : R.
Variable center : nat -> nat -> R.   (* centre of a segment, from the grain tracker *)

(** 255-279 and 680-704 *)
Definition gb_weight (x : R) : R :=
  if Rlt_dec 0 cgb then
    if Rlt_dec 0 smoothening then 1 / (1 + exp (- smoothening * (x - cgb)))
    else if Rlt_dec cgb x then 1 else 0
  else 4 * x.

(** 251-282 and 676-707 *)
Definition dF (q : qpoint) (i j d : nat) : R :=
  (grad q i d - grad q j d) * (k * (conc q - ceq) * gb_weight (eta q i * eta q j)).

(** 237-249: the order parameters acting on [i] *)
Definition others (c : cell) (i : nat) : list nat :=
  filter (fun j => c_rel c j && negb (Nat.eqb i j)) (seq 0 n).

(** 284 *)
Definition force_at (c : cell) (q : qpoint) (i d : nat) : R :=
  rsum (fun j => dF q i j d) (others c i).

(** 286-292; [rc] is the centre of the segment *)
Definition torque_at (c : cell) (q : qpoint) (i : nat) (rc : nat -> R) (d : nat) : R :=
  rsum (fun j =>
    let r_rc := fun e => pos q e - rc e in
    if Nat.eqb dim 2 then cross2 r_rc (dF q i j) else cross3 r_rc (dF q i j) d) (others c i).

(** 296-316: [integrate_value] of volume, force and torque *)
Definition contribution (c : cell) (i : nat) (rc : nat -> R) (comp : nat) : R :=
  rsum (fun q => jxw q *
    (if Nat.eqb comp 0 then eta q i
     else if Nat.leb comp dim then force_at c q i (comp - 1)
     else torque_at c q i rc (comp - dim - 1))) (c_qps c).

(** [grain_data(segment)[comp] += x] *)
Definition add_to (data : nat -> nat -> R) (s : nat) (x : nat -> R) : nat -> nat -> R :=
  fun s' comp => if Nat.eqb s' s then data s' comp + x comp else data s' comp.

(** 163-349 for one order parameter of one cell; [what] is what is added, the
    integrals (338-342) or the centre (334-336) *)
Definition visit (what : cell -> nat -> nat -> nat -> R) (c : cell) (data : nat -> nat -> R) (i : nat)
  : nat -> nat -> R :=
  if c_rel c i then
    match c_seg c i with Some s => add_to data s (what c i s) | None => data end
  else data.

Definition local_sum (what : cell -> nat -> nat -> nat -> R) (cells : list cell) : nat -> nat -> R :=
  fold_left (fun data c => fold_left (visit what c) (seq 0 n) data) cells (fun _ _ => 0).

(** 97-126: every process sums over its cells, then [MPI_Allreduce] *)
Definition grains_data (procs : list (list cell)) (s comp : nat) : R :=
  rsum (fun cells => local_sum (fun c i s => contribution c i (center s)) cells s comp) procs.

(** The centres are summed by every process on its own, 334-336; there is no
    [MPI_Allreduce] for them. *)
Definition grains_center (cells : list cell) (s d : nat) : R :=
  local_sum (fun _ _ s => center s) cells s d.

(** ** Weighted operator *)

(** 664-724: force and area of the boundary between [i] and [j] *)
Definition pair_contribution (c : cell) (i j comp : nat) : R :=
  rsum (fun q => jxw q * (if Nat.ltb comp dim then dF q i j comp else eta q i * eta q j)) (c_qps c).

Definition add_to2 (data : nat -> nat -> nat -> R) (s t : nat) (x : nat -> R) : nat -> nat -> nat -> R :=
  fun s' t' comp => if Nat.eqb s' s && Nat.eqb t' t then data s' t' comp + x comp else data s' t' comp.

(** 654-763 *)
Definition visit_pair (c : cell) (i : nat) (data : nat -> nat -> nat -> R) (j : nat)
  : nat -> nat -> nat -> R :=
  if negb (Nat.eqb i j) && c_rel c j then
    match c_seg c i, c_seg c j with
    | Some s, Some t => add_to2 data s t (pair_contribution c i j)
    | _, _ => data
    end
  else data.

Definition local_pairs (cells : list cell) : nat -> nat -> nat -> R :=
  fold_left (fun data c =>
    fold_left (fun data i =>
      if c_rel c i then fold_left (visit_pair c i) (seq 0 n) data else data) (seq 0 n) data)
    cells (fun _ _ _ => 0).

(** 463-470 *)
Definition forces_gbs (procs : list (list cell)) (s t comp : nat) : R :=
  rsum (fun cells => local_pairs cells s t comp) procs.

(** 484-502; 1e-10 *)
Definition weighted_force (n_segments : nat) (procs : list (list cell)) (s d : nat) : R :=
  rsum (fun t =>
    if negb (Nat.eqb s t) then
      if Rlt_dec (/ 10 ^ 10) (Rabs (forces_gbs procs s t dim))
      then forces_gbs procs s t d * (1 / forces_gbs procs s t dim) else 0
    else 0) (seq 0 n_segments).

End Forces.

(** ** Velocities *)

(** advection.h 50-60, 341-353, 104-113, 148-152: rotation velocity at [r] of a
    grain with the data [data] and the stored centre [rc] *)
Definition rotation_velocity (dim : nat) (mr : R) (data : nat -> R) (rc r : nat -> R) (d : nat) : R :=
  let volume_inv := 1 / data 0%nat in
  let r_rc := fun e => r e - rc e in
  mr * volume_inv *
  (if Nat.eqb dim 2 then
     match d with 0%nat => - r_rc 1%nat | _ => r_rc 0%nat end * data 3%nat
   else cross3 (fun e => data (4 + e)%nat) r_rc d).

(** advection.h 330-339 *)
Definition translation_velocity (mt : R) (data : nat -> R) (d : nat) : R :=
  mt * (1 / data 0%nat) * data (S d).
