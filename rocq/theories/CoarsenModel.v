(** Coarsened copies of the mesh: coarsen_triangulation
    (include/pf-applications/grid/grid_tools.h 44-125), used by the contours, the grain
    boundaries and the projections, and estimate_overhead
    (applications/sintering/include/pf-applications/sintering/postprocessors.h 954-1139).

    Modelled: the flags of the cells, the folding of families, the values carried over, the
    loop that folds until nothing changes, the counting of the cells per number of grains and
    the estimate printed.
    Not modelled: the distribution of the cells over the ranks (deal.II partitions such that
    families stay together), hanging nodes, the output of the meshes. *)
From Coq Require Import Arith NArith ZArith QArith Qabs List Bool Lia.
From Verif Require Import MeshFlagsModel.
Import ListNotations.

(** The cells that grew out of one coarse cell; a leaf is an active cell with its values. *)
Inductive tree (A : Type) :=
| Leaf (a : A)
| Node (l : list (tree A)).
Arguments Leaf {A} a.
Arguments Node {A} l.

Section Trees.
Context {A : Type}.

(** The values of a parent computed from those of its children (SolutionTransfer). *)
Variable restrict : list A -> A.

(** The number of refinements of the finest cell. *)
Fixpoint depth (t : tree A) : nat :=
  match t with
  | Leaf _ => 0
  | Node l => S (list_max (map depth l))
  end.

(** n_global_levels() of the triangulation. *)
Definition n_levels (m : list (tree A)) : nat := S (list_max (map depth m)).

Fixpoint n_active (t : tree A) : nat :=
  match t with
  | Leaf _ => 1
  | Node l => list_sum (map n_active l)
  end.

Definition n_cells (m : list (tree A)) : nat := list_sum (map n_active m).

Definition leaf_values (l : list (tree A)) : list A :=
  flat_map (fun t => match t with Leaf a => [a] | Node _ => [] end) l.

(** grid_tools.h 80-85: the cells of the finest level carry the flag; [lev] is the level of the
    parent. *)
Definition flagged (nlev lev : nat) (t : tree A) : bool :=
  match t with
  | Leaf _ => Nat.eqb (S lev + 1) nlev
  | Node _ => false
  end.

(** grid_tools.h 88-121: execute_coarsening_and_refinement folds a family all of whose children
    carry the flag; cells of level zero have no family. *)
Fixpoint fold_level (nlev lev : nat) (t : tree A) : tree A :=
  match t with
  | Leaf a => Leaf a
  | Node l =>
      if forallb (flagged nlev lev) l then Leaf (restrict (leaf_values l))
      else Node (map (fold_level nlev (S lev)) l)
  end.

Definition coarsen_step (m : list (tree A)) : list (tree A) :=
  map (fold_level (n_levels m) 0) m.

(** grid_tools.h 78-122. *)
Fixpoint coarsen_steps (n : nat) (m : list (tree A)) : list (tree A) :=
  match n with
  | O => m
  | S n => coarsen_steps n (coarsen_step m)
  end.

(** coarsen_triangulation, grid_tools.h 54-55 and 124: None stands for the return value false,
    upon which the callers keep using the mesh itself. *)
Definition coarsen_triangulation (n : nat) (m : list (tree A)) : option (list (tree A)) :=
  match n with
  | O => None
  | _ => Some (coarsen_steps n m)
  end.

(** postprocessors.h 1056-1107: one pass of the loop for a block. Every cell with small values
    carries the flag; deal.II may drop flags to keep neighbouring levels apart by at most one,
    hence a family that could be folded may stay. *)
Inductive shrink (small : A -> bool) : tree A -> tree A -> Prop :=
| ShrinkLeaf : forall a, shrink small (Leaf a) (Leaf a)
| ShrinkFold : forall l,
    (forall t, In t l -> exists a, t = Leaf a /\ small a = true) ->
    shrink small (Node l) (Leaf (restrict (leaf_values l)))
| ShrinkNode : forall l l', Forall2 (shrink small) l l' -> shrink small (Node l) (Node l').

End Trees.

(** The values at the vertices of a cell with linear elements (FE_Q(1)): vertex v of the parent
    is vertex v of child v. *)
Definition vertices (b : nat) (l : list (list Q)) : list Q :=
  map (fun v => nth v (nth v l []) 0%Q) (seq 0 b).

(** values.linfty_norm() <= 0.05 (postprocessors.h 1069). *)
Definition is_small (v : list Q) : bool := forallb (fun x => Qle_bool (Qabs x) (5 # 100)) v.

(** * The loop of estimate_overhead (postprocessors.h 1054, 1056, 1109-1112) *)

(** [counts i] is n_global_active_cells() after i passes, a 64-bit number; n_active_cells is
    an unsigned int. The result is the number of passes, None if there are more than [fuel]. *)
Fixpoint passes (fuel : nat) (counts : nat -> N) (i : nat) (n_active_cells : N) : option nat :=
  match fuel with
  | O => None
  | S fuel =>
      if N.eqb n_active_cells (counts (S i)) then Some (S i)
      else passes fuel counts (S i) (u32 (counts (S i)))
  end.

Definition reduce (fuel : nat) (counts : nat -> N) : option nat :=
  passes fuel counts 0 (u32 (counts 0%nat)).

(** * The estimate (postprocessors.h 1131-1136) *)
(** Both operands are std::int64_t, whose division truncates; overflow is not modelled. *)
Definition overhead (n0 n_blocks n1 : Z) : Z :=
  (Z.quot ((n0 * n_blocks) * 100) (n1 + 2 * n0) - 100)%Z.

(** * Grains per cell (postprocessors.h 979-1022) *)
(** A cell is the list of the largest absolute values of its blocks. *)
Definition counter (cell : list Q) : nat :=
  length (filter (fun v => negb (Qle_bool v (1 # 100))) (skipn 2 cell)).

(** max_values[i]++; the access is in range by the choice of the size. *)
Fixpoint bump (h : list nat) (i : nat) : list nat :=
  match h, i with
  | [], _ => []
  | x :: r, O => S x :: r
  | x :: r, S i => x :: bump r i
  end.

(** 1004-1008: the counts of one rank. *)
Definition local_counts (max_value : nat) (counters : list nat) : list nat :=
  fold_left (fun h i => match i with O => h | S j => bump h j end) counters (repeat 0%nat max_value).

Fixpoint add (a b : list nat) : list nat :=
  match a, b with
  | x :: a, y :: b => (x + y)%nat :: add a b
  | _, _ => []
  end.

(** 1000-1010: the largest counter of all ranks and the sum of the counts of the ranks. *)
Definition histogram (ranks : list (list nat)) : list nat :=
  let max_value := list_max (map list_max ranks) in
  fold_right (fun c h => add (local_counts max_value c) h) (repeat 0%nat max_value) ranks.

(** The first number printed, max_values[0] (1017): None is the access behind the end of an
    empty vector. *)
Definition first_printed (h : list nat) : option nat := nth_error h 0.
