(** Model of the sparsity pattern of the assembled matrices:
    include/pf-applications/dofs/dof_tools.h 22-93 ([make_sparsity_pattern]) and its use in
    applications/sintering/include/pf-applications/sintering/operator_base.h 418-504
    ([initialize_system_matrix]) and 544-617 ([initialize_block_system_matrix]), driver.h
    175-182 and 3205-3224 (element and quadrature).

    Numbers are reals.  One process with all cells.  Parts of deal.II appear with their
    documented meaning: the order of the indices of a cell, [add_entries_local_to_global],
    and that a Trilinos matrix takes values only at the entries of its pattern, otherwise
    the call fails ([None]). *)
From Coq Require Import List Reals Arith Bool.
From Verif Require Import Util OperatorModel AssembleModel.
Import ListNotations.
Local Open Scope R_scope.

(** ** What the element has at the points of the quadrature: [T 0 i q] is the value of shape
    function [i] at point [q], [T (S d) i q] the derivative of it in direction [d], on the unit
    cell (dof_tools.h 39-43) *)
Notation table := (nat -> nat -> nat -> R).

Section Pattern.
Variables (nc dpc nq : nat) (T : table).

(** 47-51: without the weights of the quadrature *)
Definition mask_sum (i j : nat) : R := vsum nq (fun q => T 0%nat i q * T 0%nat j q).
(** 36-56 *)
Definition scalar_mask (i j : nat) : bool := if Req_EM_T (mask_sum i j) 0 then false else true.
(** 71-77: the loops, entry [[k][l]] of the table *)
Definition system_mask (k l : nat) : bool :=
  existsb (fun i => existsb (fun j => scalar_mask i j &&
    existsb (fun ic => existsb (fun jc => Nat.eqb k (i * nc + ic) && Nat.eqb l (j * nc + jc)) (seq 0 nc)) (seq 0 nc))
    (seq 0 dpc)) (seq 0 dpc).

(** ** Indices of a cell.  An object (vertex, line, ...) of the cell: how many entries of a
    scalar field it has and the first of them; deal.II gives them in a row.  An [FESystem] of
    [nc] copies has [nc] times as many on each object, in a row as well.  Objects are assumed
    to have the standard orientation (subdivided boxes). *)
Definition scalar_dofs (objects : list (nat * nat)) : list nat := flat_map (fun o => seq (snd o) (fst o)) objects.
Definition system_dofs (objects : list (nat * nat)) : list nat := flat_map (fun o => seq (nc * snd o) (nc * fst o)) objects.

(** ** [add_entries_local_to_global] of one cell: entries allowed by the mask, resolved by the
    constraints, and the diagonal of the constrained entries.  With [keep_constrained_dofs]
    deal.II adds further rows and columns of constrained entries, left out here (no value is
    written there). *)
Definition cell_pattern (C : cons) (m : nat) (mask : nat -> nat -> bool) (dofs : nat -> nat) : list (nat * nat) :=
  flat_map (fun k => flat_map (fun l => if mask k l then list_prod (map fst (resolve C (dofs k))) (map fst (resolve C (dofs l))) else []) (seq 0 m)) (seq 0 m)
  ++ flat_map (fun k => match C (dofs k) with None => [] | Some _ => [(dofs k, dofs k)] end) (seq 0 m).

(** 60-92: one component, several components; a cell is the list of its objects *)
Definition scalar_pattern (C : cons) (cells : list (list (nat * nat))) : list (nat * nat) :=
  flat_map (fun objs => cell_pattern C dpc scalar_mask (fun k => nth k (scalar_dofs objs) 0%nat)) cells.
Definition system_pattern (C : cons) (cells : list (list (nat * nat))) : list (nat * nat) :=
  flat_map (fun objs => cell_pattern C (nc * dpc) (if Nat.eqb nc 1 then scalar_mask else system_mask) (fun k => nth k (system_dofs objs) 0%nat)) cells.
End Pattern.

(** ** Writing into a matrix with a pattern.  deal.II adds up what a cell has for an entry and
    leaves out the zeros; here every part is tried on its own, which asks for more. *)
Notation triple := (nat * nat * R)%type.
Definition in_pattern (P : list (nat * nat)) (r s : nat) : bool := existsb (fun e => Nat.eqb (fst e) r && Nat.eqb (snd e) s) P.
Definition add_entry (P : list (nat * nat)) (M : matrix) (t : triple) : option matrix :=
  if Req_EM_T (snd t) 0 then Some M
  else if in_pattern P (fst (fst t)) (snd (fst t))
       then Some (fun r s => M r s + (if Nat.eqb (fst (fst t)) r && Nat.eqb (snd (fst t)) s then snd t else 0))
       else None.
Fixpoint add_entries (P : list (nat * nat)) (ts : list triple) (M : matrix) : option matrix :=
  match ts with [] => Some M | t :: ts => M' <- add_entry P M t ;; add_entries P ts M' end.

(** what [distribute_local_to_global] writes for a cell (compare [AssembleModel.distribute]) *)
Definition cell_entries (C : cons) (diag : matrix -> nat -> R) (m : nat) (idx : nat -> nat) (A : matrix) : list triple :=
  flat_map (fun i => flat_map (fun j => flat_map (fun e => map (fun f => (fst e, fst f, snd e * snd f * A i j)) (resolve C (idx j))) (resolve C (idx i))) (seq 0 m)) (seq 0 m)
  ++ flat_map (fun i => match C (idx i) with None => [] | Some _ => [(idx i, idx i, diag A i)] end) (seq 0 m).

(** operator_base.h 444-487: the pattern, then the matrix into it; the entries of a cell are
    the interleaved ones of [AssembleModel.index_all] *)
Fixpoint assemble_in (P : list (nat * nat)) (nc dpc : nat) (lex : nat -> nat) (C : cons) (diag : matrix -> nat -> R) (cells : list acell) (M : matrix) : option matrix :=
  match cells with
  | [] => Some M
  | c :: cells => M' <- add_entries P (cell_entries C diag (nc * dpc) (index_all nc dpc lex c) (drop_small (nc * dpc) (cell_matrix c))) M ;;
                  assemble_in P nc dpc lex C diag cells M'
  end.
(** 562-614, the matrix of component [b] *)
Fixpoint assemble_block_in (P : list (nat * nat)) (dpc : nat) (lex : nat -> nat) (C : cons) (diag : matrix -> nat -> R) (b : nat) (cells : list acell) (M : matrix) : option matrix :=
  match cells with
  | [] => Some M
  | c :: cells => M' <- add_entries P (cell_entries C diag dpc (dof_mf lex c) (fun i j => cell_matrix c (b * dpc + i)%nat (b * dpc + j)%nat)) M ;;
                  assemble_block_in P dpc lex C diag b cells M'
  end.

(** ** A cell of the mesh with a linear operator (operator_base.h 700-714): values and
    derivatives at the points, a linear map at every point (with the weights and the
    geometry), tested with values and derivatives; entries in lexicographic order, [lex]
    leads to the order of the element *)
Definition evaluated (dpc : nat) (T : table) (lex : nat -> nat) (u : nat -> R) (b t q : nat) : R := vsum dpc (fun j => T t (lex j) q * u (b * dpc + j)%nat).
Definition point_kernel (nc dpc nq nt : nat) (T : table) (lex : nat -> nat) (coef : nat -> nat -> nat -> nat -> nat -> R) (u : nat -> R) (k : nat) : R :=
  vsum nq (fun q => vsum nt (fun t => T t (lex (k mod dpc)%nat) q *
    vsum nc (fun b => vsum nt (fun t' => coef q (k / dpc)%nat b t t' * evaluated dpc T lex u b t' q)))).
Definition mesh_cell (nc dpc nq nt : nat) (T : table) (lex : nat -> nat) (objs : list (nat * nat)) (coef : nat -> nat -> nat -> nat -> nat -> R) : acell :=
  mkAcell (fun i => nth i (scalar_dofs objs) 0%nat) (point_kernel nc dpc nq nt T lex coef).

(** ** Elements.  FE_Q of degree one and FE_Q_iso_Q1 in one direction: hat functions on [m]
    equal parts, and their slopes (driver.h 3205-3224) *)
Definition hat (m k : nat) (x : R) : R := Rmax 0 (1 - Rabs (INR m * x - INR k)).
Definition hat_slope (m k : nat) (x : R) : R :=
  if Rlt_dec (Rabs (INR m * x - INR k)) 1 then (if Rlt_dec (INR m * x) (INR k) then INR m else - INR m) else 0.
(** products of the functions of the directions: [idx d] is the number of the function in
    direction [d] and [x d] the coordinate *)
Fixpoint prod_n (n : nat) (f : nat -> R) : R := match n with O => 1 | S n => prod_n n f * f n end.
Definition tensor_table (dim m : nat) (idx : nat -> nat -> nat) (pts : nat -> nat -> R) : table :=
  fun t i q => match t with
  | O => prod_n dim (fun d => hat m (idx i d) (pts q d))
  | S e => prod_n dim (fun d => if Nat.eqb d e then hat_slope m (idx i d) (pts q d) else hat m (idx i d) (pts q d))
  end.
