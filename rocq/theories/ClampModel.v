(** Model of the restraints on displacements,
    applications/sintering/include/pf-applications/sintering/boundary_conditions.h 32-393 and
    442-478, and of their selection in driver.h 1734-1826.

    Coordinates are rational numbers.  A cell is its owner, its vertices and its faces; all
    processes are seen together and the functions take the rank.  The degrees of freedom
    have global numbers ([global_to_local] is injective and not modelled); [pos] are their
    support points.  Points are compared by squared distance.  Search of cells around a
    point, grain tracker and solution are oracles. *)
From Coq Require Import List QArith Qabs Arith Bool.
From Verif Require Import Util.
Import ListNotations.
Local Open Scope nat_scope.

Notation pt := (nat -> Q).

Record face := mkFace { f_center : pt; f_dofs : list nat; f_boundary : option nat }.
Record cell := mkCell { c_rank : nat; c_vertices : list nat; c_faces : list face }.

Section Clamp.
Variable dim : nat.
Variable pos : nat -> pt.

Fixpoint dist2 (n : nat) (a b : pt) : Q := match n with O => 0%Q | S n => (dist2 n a b + (a n - b n) * (a n - b n))%Q end.

(** ** 32-140 [find_containing_cell_and_dof_index] *)

(** 112-132: closest vertex of the cell, the first of equals *)
Fixpoint closest (origin : pt) (vertices : list nat) (best : option nat) : option nat :=
  match vertices with
  | [] => best
  | v :: vertices =>
      closest origin vertices
        (match best with
         | None => Some v
         | Some b => if qltb (dist2 dim origin (pos v)) (dist2 dim origin (pos b)) then Some v else best
         end)
  end.

(** 46-108: [found r] is what rank [r] finds ([None]: [end()]), [around r] all cells it
    finds around the point; the result is the smallest rank with a locally owned cell and
    that cell *)
Definition owned (r : nat) (c : cell) : bool := Nat.eqb (c_rank c) r.
Definition pick (n_ranks : nat) (f : nat -> option cell) : option (nat * cell) :=
  match find (fun r => match f r with Some _ => true | None => false end) (seq 0 n_ranks) with
  | Some r => match f r with Some c => Some (r, c) | None => None end
  | None => None
  end.
Definition containing (n_ranks : nat) (found : nat -> option cell) (around : nat -> list cell) : option (nat * cell) :=
  match pick n_ranks (fun r => match found r with Some c => if owned r c then Some c else None | None => None end) with
  | Some x => Some x
  | None => pick n_ranks (fun r => match found r with Some _ => find (owned r) (around r) | None => None end)
  end.

(** 134-138: rank, degree of freedom; its position is broadcast *)
Definition find_vertex (n_ranks : nat) (found : nat -> option cell) (around : nat -> list cell) (origin : pt) : option (nat * nat) :=
  match containing n_ranks found around with
  | Some (r, c) => match closest origin (c_vertices c) None with Some v => Some (r, v) | None => None end
  | None => None
  end.

(** ** Sections *)

(** [std::set::insert], a sorted list *)
Fixpoint set_insert (x : nat) (l : list nat) : list nat :=
  match l with
  | [] => [x]
  | y :: r => if Nat.ltb x y then x :: l else if Nat.ltb y x then y :: set_insert x r else l
  end.
Definition insert_all (keep : nat -> bool) (dofs : list nat) (l : list nat) : list nat :=
  fold_left (fun l i => if keep i then set_insert i l else l) dofs l.

(** 185, 352: tolerance 1e-9 *)
Definition close (a b : Q) : bool := qltb (Qabs (a - b)) (1 # 1000000000).

(** 153-156, 263-266 *)
Definition directions (mask : nat -> bool) : list nat := filter mask (seq 0 dim).

(** 180-194, 344-369 *)
Definition add_face (keep : nat -> bool) (origin : pt) (dirs : list nat) (sets : nat -> list nat) (f : face) : nat -> list nat :=
  fold_left (fun sets d => if close (f_center f d) (origin d)
                           then fun k => if Nat.eqb k d then insert_all keep (f_dofs f) (sets k) else sets k
                           else sets) dirs sets.
Definition section_sets (rank : nat) (wanted : cell -> bool) (keep : nat -> bool) (origin : pt) (dirs : list nat) (cells : list cell) : nat -> list nat :=
  fold_left (fun sets c => if owned rank c && wanted c then fold_left (add_face keep origin dirs) (c_faces c) sets else sets)
    cells (fun _ => []).

(** 207-218, 380-391 *)
Definition add_point (rank vertex_rank vertex : nat) (mask : nat -> bool) (few : bool) (lists : nat -> list nat) : nat -> list nat :=
  fun d => if Nat.eqb vertex_rank rank && few && negb (mask d) then lists d ++ [vertex] else lists d.

(** 143-219 [clamp_section]: the indices of direction [d] on [rank] *)
Definition clamp_section (cells : list cell) (rank : nat) (mask : nat -> bool) (vertex_rank vertex : nat) : nat -> list nat :=
  let dirs := directions mask in
  let sets := section_sets rank (fun _ => true) (fun _ => true) (pos vertex) dirs cells in
  add_point rank vertex_rank vertex mask (Nat.ltb (length dirs) (dim - 1)) sets.

(** 284-318: order parameter and particle of the largest grain at the origin; [particle ig]:
    [get_particle_index] in the containing cell *)
Definition primary (n_grains : nat) (particle : nat -> option nat) (measure : nat -> nat -> Q) : option (nat * nat) :=
  fst (fold_left (fun best ig =>
      match particle ig with
      | Some id => if qltb (snd best) (measure ig id) then (Some (ig, id), measure ig id) else best
      | None => best
      end) (seq 0 n_grains) (None, 0%Q)).

(** 244-395 [clamp_section_within_particle]; [inside c]: the cell belongs to the primary
    particle, [value i]: its order parameter *)
Definition clamp_particle (cells : list cell) (rank : nat) (mask : nat -> bool) (vertex_rank vertex : nat)
    (inside : cell -> bool) (value : nat -> Q) : nat -> list nat :=
  let dirs := directions mask in
  let sets := section_sets rank inside (fun i => qltb (1 # 10) (value i)) (pos vertex) dirs cells in
  add_point rank vertex_rank vertex mask (Nat.ltb (length dirs) dim) sets.

(** 442-478 [clamp_domain] *)
Definition clamp_domain (cells : list cell) (rank : nat) (d : nat) : list nat :=
  flat_map (fun c => if owned rank c
    then flat_map (fun f => match f_boundary f with Some b => if Nat.eqb b (2 * d) then f_dofs f else [] | None => [] end) (c_faces c)
    else []) cells.

(** driver.h 1749-1752; [garbage]: the array is not initialised *)
Definition driver_mask (garbage : nat -> bool) (wanted : list nat) : nat -> bool :=
  fold_left (fun mask d => if Nat.ltb d dim then fun k => if Nat.eqb k d then true else mask k else mask) wanted garbage.
End Clamp.
