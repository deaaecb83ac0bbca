(** Rotations and moments of inertia,
    /repo/include/pf-applications/grain_tracker/motion.h 31-116, and the reduction of the
    moments over the cells, distributed_stitching.h 395-437.
    Over real numbers; a tensor of rank two is a function of its indices. *)
From Coq Require Import List Reals Arith.
From Verif Require Import MobilityModel.
Import ListNotations.
Local Open Scope R_scope.

Notation mat := (nat -> nat -> R).

Fixpoint dsum (n : nat) (f : nat -> R) : R := match n with O => 0 | S k => dsum k f + f k end.

(** [A * x], [A * B], [transpose(A)] and [outer_product(a, b)] of deal.II *)
Definition mv (dim : nat) (A : mat) (x : vec) : vec := fun i => dsum dim (fun j => A i j * x j).
Definition mm (dim : nat) (A B : mat) : mat := fun i j => dsum dim (fun k => A i k * B k j).
Definition mt (A : mat) : mat := fun i j => A j i.
Definition outer_product (a b : vec) : mat := fun i j => a i * b j.

(** 29-43 *)
Definition rotation_tensor_from_axes (dim : nat) (axes axes0 : nat -> vec) : mat :=
  fun i j => dsum dim (fun d => outer_product (axes0 d) (axes d) i j).

(** 45-58 *)
Definition global_axes : nat -> vec := fun d i => if Nat.eqb i d then 1 else 0.
Definition rotation_tensor_from_own_axes (dim : nat) (axes : nat -> vec) (transpose : bool) : mat :=
  if transpose then rotation_tensor_from_axes dim axes global_axes
  else rotation_tensor_from_axes dim global_axes axes.

(** 60-73 and 75-93, the entries of [data] in their order *)
Definition evaluate_inertia_properties (dim : nat) (r : vec) (measure : R) (data : list R) : list R :=
  let x := r 0%nat in let y := r 1%nat in let z := r 2%nat in
  let terms :=
    if Nat.eqb dim 2 then [y * y * measure; x * x * measure; - x * y * measure]
    else [(y * y + z * z) * measure; (x * x + z * z) * measure; (x * x + y * y) * measure;
          - x * y * measure; - x * z * measure; - y * z * measure] in
  map (fun p => fst p + snd p) (combine data terms).

(** distributed_stitching.h 406-426 for one particle: cells given by center and measure *)
Definition particle_inertia (dim : nat) (center : vec) (cells : list (vec * R)) : list R :=
  fold_left (fun data c => evaluate_inertia_properties dim (fun d => fst c d - center d) (snd c) data)
    cells (repeat 0 (if Nat.eqb dim 2 then 3 else 6)).

(** 428-434: [MPI_Allreduce] with [MPI_SUM] over the processes *)
Definition reduced_inertia (dim : nat) (center : vec) (processes : list (list (vec * R))) : list R :=
  fold_left (fun s cells => map (fun p => fst p + snd p) (combine s (particle_inertia dim center cells)))
    processes (repeat 0 (if Nat.eqb dim 2 then 3 else 6)).

(** representation.h 170-173: [SymmetricTensor<2, dim>(data)] of deal.II: first the
    diagonal, then the entries 01, 02, 12 *)
Definition symmetric_tensor (dim : nat) (data : list R) : mat := fun i j =>
  if Nat.eqb i j then nth i data 0
  else if Nat.eqb dim 2 then nth 2 data 0
  else nth (i + j + 2) data 0.

(** 95-116 *)
Definition rotation_via_quaternions (axis : vec) (angle : R) : mat :=
  let q0 := cos (angle / 2) in
  let q1 := sin (angle / 2) * axis 0%nat in
  let q2 := sin (angle / 2) * axis 1%nat in
  let q3 := sin (angle / 2) * axis 2%nat in
  fun i j =>
  match i, j with
  | 0%nat, 0%nat => 1 - 2 * (q2 * q2 + q3 * q3)
  | 0%nat, 1%nat => 2 * (q1 * q2 - q0 * q3)
  | 0%nat, 2%nat => 2 * (q0 * q2 + q1 * q3)
  | 1%nat, 0%nat => 2 * (q1 * q2 + q0 * q3)
  | 1%nat, 1%nat => 1 - 2 * (q1 * q1 + q3 * q3)
  | 1%nat, 2%nat => 2 * (q2 * q3 - q0 * q1)
  | 2%nat, 0%nat => 2 * (q1 * q3 - q0 * q2)
  | 2%nat, 1%nat => 2 * (q0 * q1 + q2 * q3)
  | 2%nat, 2%nat => 1 - 2 * (q1 * q1 + q2 * q2)
  | _, _ => 0
  end.
