(** Model of the search for cells with hanging nodes and of their weights,
    include/pf-applications/grid/constraint_helper.h 37-187, and the count of these cells,
    applications/sintering/include/pf-applications/sintering/driver.h 744-772.
    Three dimensions; in two dimensions only the part for the faces is used.  The mesh is a forest
    of octrees over a box of coarse cells, as the application generates it, and a cell is given by
    its level and its position in the grid of this level.  One process. *)
From Coq Require Import List Arith NArith ZArith QArith Qround Bool.
From Verif Require Import Util.
Import ListNotations.
Local Open Scope nat_scope.

(** A cell of a level with its position, and the edges with their direction *)
Record cell := mkCell { lev : nat; px : nat; py : nat; pz : nat }.
Record line := mkLine { llev : nat; lx : nat; ly : nat; lz : nat; ldir : nat }.
Definition cell_eqb (a b : cell) : bool := (lev a =? lev b) && (px a =? px b) && (py a =? py b) && (pz a =? pz b).

(** [cell->line(i)] in the numbering of deal.II *)
Definition cell_line (c : cell) (i : nat) : line :=
  let at_ ox oy oz d := mkLine (lev c) (px c + ox) (py c + oy) (pz c + oz) d in
  match i with
  | 0 => at_ 0 0 0 1 | 1 => at_ 1 0 0 1 | 2 => at_ 0 0 0 0 | 3 => at_ 0 1 0 0
  | 4 => at_ 0 0 1 1 | 5 => at_ 1 0 1 1 | 6 => at_ 0 0 1 0 | 7 => at_ 0 1 1 0
  | 8 => at_ 0 0 0 2 | 9 => at_ 1 0 0 2 | 10 => at_ 0 1 0 2 | _ => at_ 1 1 0 2
  end.
(** [cell->child(k)], lexicographic *)
Definition child (c : cell) (k : nat) : cell :=
  mkCell (S (lev c)) (2 * px c + k mod 2) (2 * py c + (k / 2) mod 2) (2 * pz c + k / 4).
Definition parent (c : cell) : cell := mkCell (lev c - 1) (px c / 2) (py c / 2) (pz c / 2).

Section Mesh.
(** all cells, in the order of the iterator, the ones owned by the process and the indices of
    the lines *)
Variable cells : list cell.
Variable owned : cell -> bool.
Variable idx : line -> nat.
Variable n_raw_lines : nat.
Definition member (c : cell) : bool := existsb (cell_eqb c) cells.
Definition is_active (c : cell) : bool := negb (member (child c 0)).

(** 52-63 *)
Definition line_to_children (i c : nat) : nat :=
  nth c (nth i [[0; 2]; [1; 3]; [0; 1]; [2; 3]; [4; 6]; [5; 7]; [4; 5]; [6; 7]; [0; 4]; [1; 5]; [2; 6]; [3; 7]] []) 0.

(** the vectors over the lines; indices are below [n_raw_lines] *)
Definition table := nat -> list (cell * nat).
Definition push (t : table) (j : nat) (l : list (cell * nat)) : table := fun k => if k =? j then t k ++ l else t k.

(** 70-84 *)
Definition add_line (c : cell) (ts : table * table) (i : nat) : table * table :=
  let j := idx (cell_line c i) in
  if is_active c then (push (fst ts) j [(c, i)], snd ts) else (fst ts, push (snd ts) j [(c, i)]).
Definition add_cell (ts : table * table) (c : cell) : table * table := fold_left (add_line c) (seq 0 12) ts.
Definition sorted_cells : table * table := fold_left add_cell cells (fun _ => [], fun _ => []).

(** 90-114, one line *)
Definition process_line (inactive : table) (t : table) (j : nat) : table :=
  match t j, inactive j with
  | _ :: _, (ic, nl) :: _ =>
    fold_left (fun t c => push t (idx (cell_line (child ic (line_to_children nl c)) nl)) (t j)) [0; 1] t
  | _, _ => t
  end.
(** 37-116 *)
Definition line_to_cells : table := fold_left (process_line (snd sorted_cells)) (seq 0 n_raw_lines) (fst sorted_cells).

(** [cell->neighbor(f)]: the cell of the same level or the coarser one at this place; [None] at
    the boundary (periodic faces are boundaries, too) *)
Definition beside (c : cell) (f : nat) : option cell :=
  match f with
  | 0 => if px c =? 0 then None else Some (mkCell (lev c) (px c - 1) (py c) (pz c))
  | 1 => Some (mkCell (lev c) (px c + 1) (py c) (pz c))
  | 2 => if py c =? 0 then None else Some (mkCell (lev c) (px c) (py c - 1) (pz c))
  | 3 => Some (mkCell (lev c) (px c) (py c + 1) (pz c))
  | 4 => if pz c =? 0 then None else Some (mkCell (lev c) (px c) (py c) (pz c - 1))
  | _ => Some (mkCell (lev c) (px c) (py c) (pz c + 1))
  end.
Fixpoint cover (fuel : nat) (c : cell) : option cell :=
  if member c then Some c else match fuel with 0 => None | S fuel => cover fuel (parent c) end.
Definition neighbor (c : cell) (f : nat) : option cell :=
  match beside c f with Some d => cover (lev d) d | None => None end.

(** 128-140 *)
Definition is_face_constrained (c : cell) : bool :=
  owned c && existsb (fun f => match neighbor c f with Some d => lev d <? lev c | None => false end) (seq 0 6).
(** 142-157 *)
Definition is_edge_constrained (c : cell) : bool :=
  owned c && existsb (fun i => existsb (fun o => lev (fst o) <? lev c) (line_to_cells (idx (cell_line c i)))) (seq 0 12).
(** 121-127 *)
Definition is_constrained (c : cell) : bool := is_face_constrained c || is_edge_constrained c.

(** conversion of a double to an unsigned integer: towards zero, [None] if out of range *)
Definition to_unsigned (x : Q) : option N :=
  let z := if Qle_bool 0 x then Qfloor x else Qceiling x in
  if (0 <=? z)%Z && (z <? 4294967296)%Z then Some (Z.to_N z) else None.
(** 169-186 *)
Definition hanging_nodes_weighting (weight : Q) (c : cell) : option N :=
  if negb (is_active c) || negb (owned c) then Some 10000%N
  else if is_constrained c then to_unsigned (10000 * weight) else Some 10000%N.

(** driver.h 744-755 *)
Definition active_cells : list cell := filter is_active cells.
Definition count_hn : nat * nat :=
  fold_left (fun n c => if owned c then if is_constrained c then (S (fst n), snd n) else (fst n, S (snd n)) else n) active_cells (0, 0).
End Mesh.
