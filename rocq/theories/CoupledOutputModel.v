(** Output fields that the coupled operator adds to those of its parent.

    /repo/applications/sintering/include/pf-applications/sintering/
    operator_sintering_coupled_monolithic.h lines 173-326 [do_add_data_vectors_kernel] behind
    the call of the parent (its fields are modelled in FieldOutputModel.v), operator_base.h
    lines 934-957 [get_vector_output_entries_mask], and
    /repo/applications/structural/include/pf-applications/structural/tools.h lines 9-65.

    Simplified: numbers are rational; a block is a function of the node, a gradient one of the
    direction and the quadrature point. The projection of values at quadrature points on the
    nodes is not modelled: a field that goes through it is given by its values at the points.
    [None]: access out of range, or the exception for other dimensions. *)
From Coq Require Import String QArith.
From Coq Require Import List Arith Bool.
From Verif Require Import Util.
Import ListNotations.
Local Open Scope string_scope.
Local Open Scope nat_scope.
Local Open Scope list_scope.

(** tools.h 9-10 *)
Definition voigt_count (dim : nat) : nat := Nat.div (dim * (dim + 1)) 2.

(** tools.h 14-34 *)
Definition voigt_names (dim : nat) : list string :=
  match dim with
  | 2 => ["eps_xx"; "eps_yy"; "tau_xy"]
  | 3 => ["eps_xx"; "eps_yy"; "eps_zz"; "tau_xy"; "tau_yz"; "tau_xz"]
  | _ => []
  end.

(** tools.h 36-65 [apply_l]; [h i j] at one quadrature point *)
Definition strain_of (dim : nat) (h : nat -> nat -> Q) : option (list Q) :=
  match dim with
  | 2 => Some [h 0 0; h 1 1; Qplus (h 1 0) (h 0 1)]
  | 3 => Some [h 0 0; h 1 1; h 2 2; Qplus (h 0 1) (h 1 0); Qplus (h 1 2) (h 2 1); Qplus (h 0 2) (h 2 0)]
  | _ => None
  end.

(** operator_base.h 934-957 for the two entries of 193-198: which fields are asked for and how
    many vectors they take *)
Definition coupled_mask (dim : nat) (fields : string -> bool) : bool * bool * nat :=
  let vel := fields "vel" in
  let strain := fields "strain_lin" in
  (vel, strain, (if vel then dim else 0) + (if strain then voigt_count dim else 0)).

(** A vector handed to the output: nodal values, values at the points that are projected, or
    a vector as it was initialised. *)
Inductive dvec := Initial | Nodal (v : nat -> Q) | Points (v : nat -> Q).

(** replaces entry [i]; [None] if there is none *)
Fixpoint put {A} (l : list A) (i : nat) (x : A) : option (list A) :=
  match l, i with
  | [], _ => None
  | _ :: r, O => Some (x :: r)
  | a :: r, S j => r' <- put r j x ;; Some (a :: r')
  end.

(** 212-223: velocities from the blocks of the displacements *)
Definition velocity_factor (dt : Q) : Q := if Qeq_bool dt 0 then 0%Q else (1 / dt)%Q.
Fixpoint put_velocities (ds : list nat) (first : nat) (dt : Q) (vec : list (nat -> Q))
    (data : list dvec) : option (list dvec) :=
  match ds with
  | [] => Some data
  | d :: ds =>
      b <- nth_error vec (first + d) ;;
      data' <- put data d (Nodal (fun x => (b x * velocity_factor dt)%Q)) ;;
      put_velocities ds first dt vec data'
  end.

(** 271-284: the entries of [temp] at quadrature point [q]; [grad] lists the
    gradients of the components as functions of the direction and the point *)
Definition temp_of (dim first : nat) (strain : bool) (grad : list (nat -> nat -> Q)) (q : nat)
  : option (list Q) :=
  if strain then
    _ <- nth_error grad (first + dim - 1) ;;
    strain_of dim (fun d j => nth (first + d) grad (fun _ _ => 0%Q) j q)
  else Some [].

(** 286-300: entry [c] of all points goes to the vector behind the nodal ones *)
Fixpoint put_points (cs : list nat) (n_nodal : nat) (temp : nat -> option (list Q)) (data : list dvec)
  : option (list dvec) :=
  match cs with
  | [] => Some data
  | c :: cs =>
      data' <- put data (n_nodal + c)
        (Points (fun q => match temp q with Some t => nth c t 0%Q | None => 0%Q end)) ;;
      put_points cs n_nodal temp data'
  end.

(** 306-321 *)
Definition coupled_names (dim : nat) (vel strain : bool) : list string :=
  (if vel then map (fun _ => "vel") (seq 0 dim) else []) ++
  (if strain then map (fun s => "lin_" ++ s)%string (firstn (voigt_count dim) (voigt_names dim)) else []).

(** 323-325 *)
Fixpoint add_all (data : list dvec) (names : list string) : option (list (string * dvec)) :=
  match data, names with
  | [], _ => Some []
  | d :: data, nm :: names => r <- add_all data names ;; Some ((nm, d) :: r)
  | _ :: _, [] => None
  end.

(** 173-326; [first] is the block of the first displacement, [n_components() +
    n_additional_components()] *)
Definition coupled_output (dim first : nat) (dt : Q) (vec : list (nat -> Q))
    (grad : list (nat -> nat -> Q)) (fields : string -> bool)
  : option (list (string * dvec)) :=
  let '(vel, strain, n_entries) := coupled_mask dim fields in
  if Nat.eqb n_entries 0 then Some []
  else
    data <- (if vel then put_velocities (seq 0 dim) first dt vec (repeat Initial n_entries)
             else Some (repeat Initial n_entries)) ;;
    let n_nodal := if vel then dim else 0 in
    let n_points := n_entries - n_nodal in
    data <- (if Nat.eqb n_points 0 then Some data
             else
               _ <- temp_of dim first strain grad 0 ;;
               put_points (seq 0 n_points) n_nodal (temp_of dim first strain grad) data) ;;
    add_all data (coupled_names dim vel strain).
