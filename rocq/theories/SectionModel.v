(** Model of plane sections of a three-dimensional solution,
    applications/sintering/include/pf-applications/sintering/projection.h 86-247
    [build_projection] and 255-385 [output_grain_contours_projected].

    Arithmetic is rational.  A point is a function of the index of the coordinate, as in
    [BoxFilterModel].  The cells are boxes with faces parallel to the coordinate planes,
    as the meshes of grid_tools.h are; their vertices are numbered as in deal.II: bit [i]
    of the number tells whether coordinate [i] is the upper one. *)
From Coq Require Import List QArith Qabs Qminmax Arith Bool.
From Verif Require Import Util BoxFilterModel.
Import ListNotations.
Local Open Scope nat_scope.

Record hexa := mkHexa { h_low : point; h_up : point; h_dofs : nat -> nat; h_index : nat }.
Definition h_vertex (c : hexa) (v : nat) : point := fun i => if Nat.testbit v i then h_up c i else h_low c i.

(** The lines of a hexahedron in the order of deal.II (GeometryInfo): four of the bottom,
    four of the top, four between. *)
Definition h_lines : list (nat * nat) := [(0, 2); (1, 3); (0, 1); (2, 3); (4, 6); (5, 7); (4, 5); (6, 7); (0, 4); (1, 5); (2, 6); (3, 7)].

(** 136-147 *)
Definition plane_origin (d : nat) (location : Q) : point := fun i => if i =? d then location else 0%Q.
Definition plane_normal (d : nat) : point := fun i => if i =? d then 1%Q else 0%Q.
Definition projector (d : nat) : list nat := filter (fun i => negb (i =? d)) [0; 1; 2].

(** 156-159; [tol] is the tolerance of [BoundingBox::point_inside] *)
Definition ref_point (c : hexa) (d : nat) (location : Q) : point :=
  fun i => if i =? d then location else ((h_low c i + h_up c i) / 2)%Q.
Definition in_section (tol : Q) (d : nat) (location : Q) (c : hexa) : bool := box_contains 3 (h_low c) (h_up c) tol (ref_point c d location).

(** 172-222: the points and values that one cell adds, in the order of the lines; 1e-6 is
    the default of [epsilon] in bounding_box_filter.h 187, [tolerance] is 1e-10 (93). *)
Definition tolerance : Q := 1 # 10000000000.
Definition line_vertex (vec : nat -> Q) (d : nat) (location : Q) (c : hexa) (l : nat * nat) : list (point * Q) :=
  match intersect_line_plane 3 (h_vertex c (fst l)) (h_vertex c (snd l)) (plane_origin d location) (plane_normal d) (1 # 1000000) with
  | Some (fac, p) =>
      if qltb (Qabs fac) (1 + tolerance)
      then let val0 := vec (h_dofs c (fst l)) in let val1 := vec (h_dofs c (snd l)) in [(p, (val0 + fac * (val0 - val1))%Q)]
      else []
  | None => []
  end.
Definition section_vertices (vec : nat -> Q) (d : nat) (location : Q) (c : hexa) : list (point * Q) := flat_map (line_vertex vec d location c) h_lines.

(** 109-130, 152-237: the cells come from the coarsened mesh if there is one, the values
    always from [vector] (205-206); the material is the index of the cell without
    coarsening and stays zero otherwise (214-217). *)
Record mesh := mkMesh { m_cells : list hexa; m_values : nat -> Q }.
Record patch := mkPatch { p_vertices : list (list Q * Q); p_material : nat }.
Definition project (d : nat) (e : point * Q) : list Q * Q := (map (fst e) (projector d), snd e).
Definition build_projection (tol : Q) (d : nat) (location : Q) (fine coarse : mesh) (n_coarsening : nat) : list patch :=
  let used := if n_coarsening =? 0 then fine else coarse in
  map (fun c => mkPatch (map (project d) (section_vertices (m_values fine) d location c)) (if n_coarsening =? 0 then h_index c else 0))
    (filter (in_section tol d location) (m_cells used)).

(** ** Circles *)
(** 313-326: [None] for the radius is the square root of a negative number; otherwise the
    square of the radius. *)
Definition plane_dist (center origin normal : point) : Q := sdot 3 (fun i => center i - origin i)%Q normal.
Definition circle_center (center origin normal : point) : point := fun i => (center i + plane_dist center origin normal * normal i)%Q.
Definition circle_radius2 (radius : Q) (center origin normal : point) : option Q :=
  let dist := plane_dist center origin normal in
  if Qle_bool dist radius then let r2 := (radius * radius - dist * dist)%Q in if qltb r2 0 then None else Some r2 else Some 0%Q.
(** 318-328: what is written for every segment; a radius is kept as its square *)
Definition circle_parameters (origin normal : point) (segments : list (point * Q)) : list (option Q) :=
  flat_map (fun s => map (fun i => Some (circle_center (fst s) origin normal i)) (seq 0 3) ++ [circle_radius2 (snd s) (fst s) origin normal]) segments.

(** 272-297: the bounding box of the section.  [tiny] is [numeric_limits::min()], the
    smallest positive number, [huge] the largest; [None] is a process without a part. *)
Definition section_max (tiny : Q) (procs : list (option Q)) : Q :=
  match map (fun o => match o with Some x => x | None => tiny end) procs with [] => tiny | x :: r => fold_left Qmax r x end.
Definition section_min (huge : Q) (procs : list (option Q)) : Q :=
  match map (fun o => match o with Some x => x | None => huge end) procs with [] => huge | x :: r => fold_left Qmin r x end.
