(** Distances between grains, neighbours and transfer buffers:
    /repo/include/pf-applications/grain_tracker/grain.h 67-125, 205-253, 258-317,
    350-368, segment.h 96-112, representation.h 31-44, 81-91, 109-116, 197-203, 310-317.

    Points are functions from the direction to the coordinate, numbers are reals; the
    largest double, used for "no distance", is [Max]. [None]: a failed [AssertThrow] or a
    cast to another representation (asserted in debug mode only). The distance of two
    ellipsoids (ellipsoid.h) is a parameter here, see EllipsoidModel.v. *)
From Coq Require Import Reals List.
From Verif Require Import Util MobilityModel VecGeom.
Import ListNotations.
Local Open Scope R_scope.

Inductive ext := Fin (x : R) | Max.

(** [std::min] *)
Definition emin (a b : ext) : ext :=
  match a, b with Fin x, Fin y => Fin (Rmin x y) | Max, _ => b | _, Max => a end.

(** [a > x] and [a < x] for a finite [x] *)
Definition egt (a : ext) (x : R) : bool := match a with Fin y => if Rlt_dec x y then true else false | Max => true end.
Definition elt (a : ext) (x : R) : bool := match a with Fin y => if Rlt_dec y x then true else false | Max => false end.

Section Grains.
Variables (dim : nat) (ellipsoid : Type) (ellipsoid_distance : ellipsoid -> ellipsoid -> R).

(** representation.h 31-44 *)
Definition distance_between_spheres (c1 : vec) (r1 : R) (c2 : vec) (r2 : R) : R :=
  let distance_centers := vdist dim c1 c2 in
  let sum_radii := r1 + r2 in
  distance_centers - sum_radii.

(** wavefront: [op_and_index] and the map [distances] *)
Inductive representation :=
| Spherical (c : vec) (r : R)
| Elliptical (e : ellipsoid)
| Wavefront (op index : nat) (distances : list (nat * nat * R)).

Fixpoint wfind (k : nat * nat) (m : list (nat * nat * R)) : ext :=
  match m with
  | [] => Max
  | (i, j, x) :: r => if (Nat.eqb i (fst k) && Nat.eqb j (snd k))%bool then Fin x else wfind k r
  end.

(** representation.h 81-91 and the three [distance_impl] *)
Definition rep_distance (a b : representation) : option ext :=
  match a, b with
  | Spherical c1 r1, Spherical c2 r2 => Some (Fin (distance_between_spheres c1 r1 c2 r2))
  | Elliptical e1, Elliptical e2 => Some (Fin (ellipsoid_distance e1 e2))
  | Wavefront _ _ m, Wavefront i j _ => Some (wfind (i, j) m)
  | _, _ => None
  end.

Definition rep_trivial (a : representation) : bool := match a with Spherical _ _ => true | _ => false end.

(** segment.h *)
Record segment := mkSegment { s_center : vec; s_radius : R; s_measure : R; s_max : R; s_rep : option representation }.

(** segment.h 92-95 *)
Definition trivial (s : segment) : bool := match s_rep s with Some r => rep_trivial r | None => true end.

(** segment.h 97-106 *)
Definition segment_distance (s t : segment) : option ext := a <- s_rep s ;; b <- s_rep t ;; rep_distance a b.

(** grain.h 350-368: [g_max_value] starts with the lowest double, here [None] *)
Record grain := mkGrain { g_op : nat; g_old : nat; g_segments : list segment; g_max_radius : R; g_near : ext; g_max_value : option R; g_measure : R }.

(** 50-62 with the initial values 358-367 *)
Definition new_grain (op old : nat) : grain := mkGrain op old [] 0 Max None 0.

(** 205-215, 218-234 *)
Definition add_segment (g : grain) (s : segment) : grain :=
  mkGrain (g_op g) (g_old g) (g_segments g ++ [s]) (Rmax (g_max_radius g) (s_radius s)) (g_near g)
    (Some (match g_max_value g with Some m => Rmax m (s_max s) | None => s_max s end)) (g_measure g + s_measure s).

Definition add_sphere (g : grain) (c : vec) (r measure value : R) : grain :=
  add_segment g (mkSegment c r measure value (Some (Spherical c r))).

(** 67-81, 86-101, 106-125: both loops *)
Fixpoint min_inner (d : segment -> segment -> option ext) (s : segment) (l : list segment) (m : ext) : option ext :=
  match l with [] => Some m | t :: r => x <- d s t ;; min_inner d s r (emin x m) end.
Fixpoint min_outer (d : segment -> segment -> option ext) (l others : list segment) (m : ext) : option ext :=
  match l with [] => Some m | s :: r => m <- min_inner d s others m ;; min_outer d r others m end.

Definition distance (g h : grain) : option ext := min_outer segment_distance (g_segments g) (g_segments h) Max.
Definition sphere_distance (s t : segment) : R := distance_between_spheres (s_center s) (s_radius s) (s_center t) (s_radius t).
Definition distance_lower_bound (g h : grain) : option ext :=
  min_outer (fun s t => Some (Fin (sphere_distance s t))) (g_segments g) (g_segments h) Max.
Definition distance_centers (g h : grain) : option ext :=
  min_outer (fun s t => Some (Fin (vdist dim (s_center s) (s_center t)))) (g_segments g) (g_segments h) Max.

(** 240-253; [None]: not the same order parameter. That a grain is not its own neighbour
    is checked by address there, it is left to the caller here. *)
Definition add_neighbor (g h : grain) : option grain :=
  if (Nat.eqb (g_op g) (g_op h) || Nat.eqb (g_old g) (g_old h))%bool
  then d <- distance_lower_bound g h ;;
       Some (mkGrain (g_op g) (g_old g) (g_segments g) (g_max_radius g) (emin (g_near g) d) (g_max_value g) (g_measure g))
  else None.

(** 258-308 *)
Definition overlaps (g h : grain) (ratio fixed : R) : option bool :=
  let base := ratio * g_max_radius g in
  let other := ratio * g_max_radius h in
  lower <- distance_lower_bound g h ;;
  if egt lower (base + other + fixed) then Some false
  else
    let non_trivial l := existsb (fun s => negb (trivial s)) l in
    if (non_trivial (g_segments g) || non_trivial (g_segments h))%bool
    then d <- distance g h ;; Some (elt d (base + other + fixed))
    else Some true.

(** 313-317; half of the largest double is [Max] *)
Definition transfer_buffer (g : grain) : ext := match g_near g with Fin x => Fin (Rmax 0 (x / 2)) | Max => Max end.
End Grains.
Arguments Spherical {_}.
Arguments Elliptical {_}.
Arguments Wavefront {_}.
Arguments mkSegment {_}.
Arguments s_center {_}.
Arguments s_radius {_}.
Arguments s_measure {_}.
Arguments s_max {_}.
Arguments s_rep {_}.
Arguments mkGrain {_}.
Arguments g_op {_}.
Arguments g_old {_}.
Arguments g_segments {_}.
Arguments g_max_radius {_}.
Arguments g_near {_}.
Arguments g_max_value {_}.
Arguments g_measure {_}.
