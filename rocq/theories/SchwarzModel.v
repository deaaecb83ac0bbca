(** Model of the preconditioners made of small inverse matrices:
    include/pf-applications/lac/preconditioners.h 214-312
    ([InverseComponentBlockDiagonalMatrix]) and 316-598 ([InverseBlockDiagonalMatrix]).

    Numbers are reals, a vector is a function of the index.  All processes together: a cell
    is treated by the process that owns it, a row of the matrix is stored by the process that
    owns it.  [gauss_jordan] is a relation: the result is an inverse, if there is none the code
    throws. *)
From Coq Require Import List Reals Arith Bool.
From Verif Require Import Util OperatorModel AssembleModel.
Import ListNotations.
Local Open Scope R_scope.

(** ** Reading the matrix.  A row as stored: columns and values *)
Notation row := (list (nat * R)).
(** 507-511, Trilinos [operator()]: an entry that is not stored is zero in release mode *)
Definition stored_entry (r : row) (j : nat) : R := match find (fun e => Nat.eqb (fst e) j) r with Some e => snd e | None => 0 end.
(** 474-482: rows of other processes are sorted by column *)
Fixpoint insert_entry (e : nat * R) (r : row) : row :=
  match r with [] => [e] | f :: r' => if Nat.ltb (fst f) (fst e) then f :: insert_entry e r' else e :: r end.
Definition sort_row (r : row) : row := fold_right insert_entry [] r.
(** 523-530: [lower_bound] *)
Fixpoint lower_bound (r : row) (j : nat) : option (nat * R) :=
  match r with [] => None | e :: r => if Nat.ltb (fst e) j then lower_bound r j else Some e end.
(** 513-536: that the column is the right one is checked in debug mode only; [None]: beyond the
    end *)
Definition received_entry (r : row) (j : nat) : option R := option_map snd (lower_bound (sort_row r) j).

(** ** The matrix of a cell, 492-537; [owned]: the rows of the process that owns the cell *)
Definition cell_block (rows : nat -> row) (owned : nat -> bool) (dofs : nat -> nat) (k l : nat) : option R :=
  if owned (dofs k) then Some (stored_entry (rows (dofs k)) (dofs l)) else received_entry (rows (dofs k)) (dofs l).

(** 542: the inverse *)
Definition delta (i j : nat) : R := if Nat.eqb i j then 1 else 0.
Definition is_inverse (m : nat) (A B : matrix) : Prop :=
  forall i j, (i < m)%nat -> (j < m)%nat -> vsum m (fun k => A i k * B k j) = delta i j /\ vsum m (fun k => B i k * A k j) = delta i j.

(** a cell: its indices and the inverse of its matrix *)
Record scell := mkScell { s_dofs : nat -> nat; s_inv : matrix }.

Section Schwarz.
Variable dpc : nat.
Definition csum (cells : list scell) (f : scell -> R) : R := fold_right (fun c a => f c + a) 0 cells.
(** 571-593 *)
Definition valence (cells : list scell) (g : nat) : R := csum cells (fun c => vsum dpc (fun k => if Nat.eqb (s_dofs c k) g then 1 else 0)).
Definition s_weight (cells : list scell) (g : nat) : R := if Req_EM_T (valence cells g) 0 then 0 else sqrt (1 / valence cells g).
(** 347-366, what one cell adds *)
Definition cell_part (w : nat -> R) (c : scell) (x : nat -> R) (k : nat) : R :=
  w (s_dofs c k) * vsum dpc (fun l => s_inv c k l * (x (s_dofs c l) * w (s_dofs c l))).
Definition scatter_part (w : nat -> R) (c : scell) (x : nat -> R) (g : nat) : R := vsum dpc (fun k => if Nat.eqb (s_dofs c k) g then cell_part w c x k else 0).
(** 324-373 *)
Definition schwarz (cells : list scell) (x : nat -> R) (g : nat) : R := csum cells (fun c => scatter_part (s_weight cells) c x g).
End Schwarz.

(** ** 230-250, 275-301.  [fe_components]: components of the finite element of the scalar
    field, one for the operators of the sintering application (operator_base.h 431-434 asks
    for it); [inv c]: inverse of the matrix number [c] *)
Definition component_block (fe_components first : nat) (M : matrix) (c : nat) : matrix :=
  fun i j => M (i + first + c * fe_components)%nat (j + first + c * fe_components)%nat.
Definition component_vmult (fe_components : nat) (inv : nat -> matrix) (src : nat -> R) (i : nat) : R :=
  vsum fe_components (fun j => inv (i / fe_components)%nat (i mod fe_components)%nat j * src (j + (i / fe_components) * fe_components)%nat).
