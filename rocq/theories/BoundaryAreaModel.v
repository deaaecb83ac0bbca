(** Model of the surfaces extracted for output and their areas,
    applications/sintering/include/pf-applications/sintering/postprocessors.h 114-305,
    430-537 (the ids), 857-952.

    A cell is any type [C] with the values of the order parameters at its nodes.  The marching
    cube algorithm of deal.II is an arbitrary function from cell and nodal values to facets; a
    facet is its center, its measure and the values of the shape functions at its centroid
    (the centroid in unit coordinates of 258-272 and [FEPointEvaluation] together).
    Coarsening of the mesh (136-151) and the box for the mesh (153-168, the subject of C52)
    are not used for the areas (929-930) and left out. *)
From Coq Require Import List QArith Arith Bool.
From Verif Require Import Util.
Import ListNotations.
Local Open Scope Q_scope.

Section Surfaces.
Variables C P : Type.
Record facet := mkFacet { center : P; measure : Q; weights : list Q }.
(** [MarchingCubeAlgorithm::process_cell] for the level [iso] *)
Variable process_cell : Q -> C -> list Q -> list facet.

(** 203-211 and 230-238 *)
Definition straddles (iso : Q) (vs : list Q) : bool := existsb (fun v => qltb iso v) vs && existsb (fun v => qltb v iso) vs.

(** [Vector] operations: [+=], [scale] and the evaluation at a point *)
Fixpoint vadd (a b : list Q) : list Q := match a, b with x :: a, y :: b => (x + y) :: vadd a b | _, _ => [] end.
Fixpoint vscale (a b : list Q) : list Q := match a, b with x :: a, y :: b => (x * y) :: vscale a b | _, _ => [] end.
Fixpoint at_point (ws vs : list Q) : Q := match ws, vs with w :: ws, v :: vs => w * v + at_point ws vs | _, _ => 0 end.

(** a cell of the mesh with the nodal values of every grain *)
Notation loaded := (C * list (list Q))%type.

(** 213, 218-242: [gb] and [has_others]; [k] counts the grains *)
Fixpoint collect (iso : Q) (i k : nat) (grains : list (list Q)) (gb : list Q) (has_others : bool) : list Q * bool :=
  match grains with
  | [] => (gb, has_others)
  | vj :: r => if Nat.eqb i k then collect iso i (S k) r gb has_others
               else collect iso i (S k) r (vadd gb vj) (straddles iso vj || has_others)
  end.

(** 196-286: the facets of grain [i] in a cell *)
Definition grain_facets (iso gb_lim : Q) (c : loaded) (i : nat) : list facet :=
  match nth_error (snd c) i with
  | None => []
  | Some values_i =>
    if straddles iso values_i then
      let '(sum, has_others) := collect iso i 0 (snd c) (repeat 0 (length values_i)) false in
      let gb := vscale sum values_i in
      if existsb (fun v => qltb gb_lim v) gb || has_others
      then filter (fun f => qltb gb_lim (at_point (weights f) gb)) (process_cell iso (fst c) values_i)
      else []
    else []
  end.
(** 193-288; [n_grains] is the number of blocks *)
Definition boundary_facets (iso gb_lim : Q) (n_grains : nat) (cells : list loaded) : list facet :=
  flat_map (fun c => flat_map (grain_facets iso gb_lim c) (seq 0 n_grains)) cells.

(** 893-900, 939-947: sum over the facets whose center is in the box, [None]: no box *)
Definition area_in (inside : option (P -> bool)) (fs : list facet) : Q :=
  fold_left (fun s f => if match inside with None => true | Some b => b (center f) end then s + measure f else s) fs 0.
Definition mpi_sum (l : list Q) : Q := fold_left Qplus l 0.

(** 857-908; every process has its cells, with the nodal values of the concentration *)
Definition surface_area (inside : option (P -> bool)) (iso : Q) (processes : list (list (C * list Q))) : Q :=
  mpi_sum (map (fun cells => area_in inside (flat_map (fun c => process_cell iso (fst c) (snd c)) cells)) processes).
(** 910-952 *)
Definition boundaries_area (inside : option (P -> bool)) (iso gb_lim : Q) (n_grains : nat) (processes : list (list loaded)) : Q :=
  mpi_sum (map (fun cells => area_in inside (boundary_facets iso gb_lim n_grains cells)) processes) * (1 # 2).

(** ** 460-490, 500-520: the numbers written for a facet.  The mapper: number of the particle of a cell for
    an order parameter ([None]: invalid), grain and segment of a particle.  [CellData] of
    deal.II starts with [material_id] 0. *)
Variable get_particle_index : nat -> C -> option nat.
Variable get_grain_and_segment : nat -> nat -> nat * nat.
Definition facet_ids (mapper : bool) (b : nat) (c : C) : nat * nat :=
  let material_id :=
    if mapper then match get_particle_index b c with Some p => fst (get_grain_and_segment b p) | None => 0%nat end else 0%nat in
  (material_id, b).
(** 458-490: facets with (grain, order parameter) *)
Definition contours (mapper : bool) (iso : Q) (n_blocks : nat) (cells : list loaded) : list (facet * (nat * nat)) :=
  flat_map (fun b => flat_map (fun c =>
    match nth_error (snd c) b with
    | None => []
    | Some v => map (fun f => (f, facet_ids mapper b (fst c))) (process_cell iso (fst c) v)
    end) cells) (seq 0 n_blocks).
End Surfaces.
