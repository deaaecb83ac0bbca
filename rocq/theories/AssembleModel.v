(** Model of the matrices assembled from the matrix-free operators:
    include/pf-applications/matrix_free/tools.h 28-360 ([compute_matrix], both versions),
    applications/sintering/include/pf-applications/sintering/operator_base.h 364-392
    ([compute_inverse_diagonal]), 418-504 ([initialize_system_matrix]), 544-617
    ([initialize_block_system_matrix]), operator_sintering_coupled_monolithic.h 64-91 and
    preconditioners.h 250-265 ([post_system_matrix_compute]), driver.h 619-645 (constraints).

    Numbers are reals; one process with all cells, one lane of a batch is a cell.  A matrix
    is a function of row and column.  Parts of deal.II appear with their documented meaning:
    gathering and scattering with constraints, [distribute_local_to_global], the order of the
    degrees of freedom of an [FESystem].  Constraints are homogeneous and resolved. *)
From Coq Require Import List Reals Arith Bool.
From Verif Require Import Util OperatorModel.
Import ListNotations.
Local Open Scope R_scope.

Notation matrix := (nat -> nat -> R).

(** ** Constraints (deal.II [AffineConstraints]): no entry, or the entries it is made of *)
Notation cons := (nat -> option (list (nat * R))).
Definition resolve (C : cons) (g : nat) : list (nat * R) := match C g with None => [(g, 1)] | Some l => l end.
Definition gather (C : cons) (x : nat -> R) (g : nat) : R := fold_right (fun e s => snd e * x (fst e) + s) 0 (resolve C g).
(** how much of entry [g'] goes to [g] *)
Definition weight (C : cons) (g' g : nat) : R := fold_right (fun e s => (if Nat.eqb (fst e) g then snd e else 0) + s) 0 (resolve C g').

(** ** Cells: the indices as given by the cell, and the action of the operator on the local
    values (component by component, in lexicographic order): [do_vmult_cell], operator_base.h
    700-714 *)
Record acell := mkAcell { a_dofs : nat -> nat; a_kernel : (nat -> R) -> (nat -> R) }.

Section Assembly.
(** number of components, of entries per component and cell, of entries per component, the
    lexicographic numbering *)
Variables (nc dpc n : nat) (lex : nat -> nat).

(** tools.h 144-145 *)
Definition dof_mf (c : acell) (i : nat) : nat := a_dofs c (lex i).
(** 147-155, the loops fill the vector from its beginning *)
Definition index_list (c : acell) : list nat := flat_map (fun b => map (fun i => (dof_mf c i * nc + b)%nat) (seq 0 dpc)) (seq 0 nc).
Definition index_all (c : acell) (k : nat) : nat := nth k (index_list c) 0%nat.

(** 117-133 *)
Definition unit_vec (j : nat) : nat -> R := fun i => if Nat.eqb i j then 1 else 0.
Definition cell_matrix (c : acell) : matrix := fun i j => a_kernel c (unit_vec j) i.
(** 157-162 *)
Definition max_entry (m : nat) (A : matrix) : R :=
  fold_left (fun mx i => fold_left (fun mx j => Rmax mx (Rabs (A i j))) (seq 0 m) mx) (seq 0 m) 0.
(** 164-167 *)
Definition drop_small (m : nat) (A : matrix) : matrix := fun i j => if Rlt_dec (Rabs (A i j)) (/ 10 ^ 10 * max_entry m A) then 0 else A i j.

(** [distribute_local_to_global] of deal.II: rows and columns are spread by the constraints;
    a constrained entry gets something on the diagonal ([diag]; the code relies on it only
    for not being zero) *)
Definition distribute (C : cons) (diag : matrix -> nat -> R) (m : nat) (idx : nat -> nat) (A : matrix) (M : matrix) : matrix :=
  fun r s => M r s
    + vsum m (fun i => vsum m (fun j => weight C (idx i) r * weight C (idx j) s * A i j))
    + vsum m (fun i => if Nat.eqb (idx i) r && Nat.eqb (idx i) s then match C (idx i) with None => 0 | Some _ => diag A i end else 0).

(** 67-176 *)
Definition compute_matrix (C : cons) (diag : matrix -> nat -> R) (cells : list acell) (M : matrix) : matrix :=
  fold_left (fun M c => distribute C diag (nc * dpc) (index_all c) (drop_small (nc * dpc) (cell_matrix c)) M) cells M.
(** 253-356, one matrix per component *)
Definition compute_block_matrix (C : cons) (diag : matrix -> nat -> R) (cells : list acell) (b : nat) (M : matrix) : matrix :=
  fold_left (fun M c => distribute C diag dpc (dof_mf c) (fun i j => cell_matrix c (b * dpc + i)%nat (b * dpc + j)%nat) M) cells M.

(** ** The matrix-free product (operator_base.h 716-740): gather, apply, scatter *)
Definition local_values (C : cons) (c : acell) (src : nat -> nat -> R) (k : nat) : R := gather C (src (k / dpc)%nat) (dof_mf c (k mod dpc)).
Definition mf_cell (C : cons) (c : acell) (src : nat -> nat -> R) (b g : nat) : R :=
  vsum dpc (fun i => weight C (dof_mf c i) g * a_kernel c (local_values C c src) (b * dpc + i)%nat).
Definition mf_vmult (C : cons) (cells : list acell) (src : nat -> nat -> R) (b g : nat) : R :=
  fold_right (fun c s => mf_cell C c src b g + s) 0 cells.

(** ** Stored matrices *)
Definition zero_matrix : matrix := fun _ _ => 0.
(** operator_base.h 418-498; [prev]: the matrix before, if there is one *)
Definition initialize_system_matrix (C : cons) (diag : matrix -> nat -> R) (cells : list acell) (compute : bool) (prev : option matrix) : matrix :=
  let M := match prev with None => zero_matrix | Some M => M end in
  if compute then
    let M := match prev with None => M | Some _ => zero_matrix end in
    compute_matrix C diag cells M
  else M.
(** 544-616 *)
Definition initialize_block_system_matrix (C : cons) (diag : matrix -> nat -> R) (cells : list acell) (compute : bool) (prev : option (nat -> matrix)) : nat -> matrix :=
  let M := match prev with None => fun _ => zero_matrix | Some M => M end in
  if compute then
    let M := match prev with None => M | Some _ => fun _ => zero_matrix end in
    fun b => compute_block_matrix C diag cells b (M b)
  else M.
(** operator_sintering_coupled_monolithic.h 64-91, preconditioners.h 250-265:
    [clear_row(row, 1)] for every row of a list *)
Definition clear_row (r : nat) (M : matrix) : matrix := fun i j => if Nat.eqb i r then (if Nat.eqb j r then 1 else 0) else M i j.
Definition clear_rows (rows : list nat) (M : matrix) : matrix := fold_left (fun M r => clear_row r M) rows M.

(** product with a vector of length [m] *)
Definition mat_vec (m : nat) (M : matrix) (x : nat -> R) (r : nat) : R := vsum m (fun s => M r s * x s).
(** vector with interleaved components (vector_tools.h 43-66) *)
Definition interleave (x : nat -> nat -> R) : nat -> R := fun k => x (k mod nc)%nat (k / nc)%nat.

(** ** Constraints of the two sides *)

(** the constraints of the scalar field, for the interleaved vector *)
Definition interleaved_cons (C : cons) : cons :=
  fun k => option_map (map (fun e => ((fst e * nc + k mod nc)%nat, snd e))) (C (k / nc)%nat).
(** driver.h 623-645: hanging nodes and, if chosen, periodicity; [hanging] and [periodic]
    are disjoint *)
Definition field_constraints (hanging periodic : cons) (is_periodic : bool) : cons :=
  fun g => match hanging g with Some l => Some l | None => if is_periodic then periodic g else None end.
(** operator_base.h 440-449: hanging nodes only; [add_matrix_constraints] (505-511) adds
    nothing for the operators of the sintering application *)
Definition matrix_constraints (hanging periodic : cons) (is_periodic : bool) : cons := interleaved_cons hanging.
End Assembly.

(** ** Diagonal (operator_base.h 387-389); [d]: what [compute_diagonal] of deal.II returned *)
Definition inverse_diagonal (d : nat -> R) : nat -> R := fun i => if Rlt_dec (/ 10 ^ 10) (Rabs (d i)) then 1 / d i else 1.

(** ** Numbering of the degrees of freedom

    deal.II numbers object by object (vertices, lines, ...), all entries of an object in a
    row; an [FESystem] of [nc] copies of an element has on every object first all entries of
    the first copy, then those of the second.  [objects]: entries of the scalar element on
    the objects, in the order of the numbering.  Entry [j] on object number [o]: *)
Definition before (objects : list nat) (o : nat) : nat := fold_right Nat.add 0%nat (firstn o objects).
Definition scalar_index (objects : list nat) (o j : nat) : nat := (before objects o + j)%nat.
Definition system_index (nc : nat) (objects : list nat) (b o j : nat) : nat := (nc * before objects o + b * nth o objects 0 + j)%nat.
