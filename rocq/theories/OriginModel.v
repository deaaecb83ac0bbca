(** Model of the choice of the origin for clamping,
    applications/sintering/include/pf-applications/sintering/boundary_conditions.h 397-440, and
    of the barycenter of the grains,
    include/pf-applications/grain_tracker/tracking.h 262-282.

    A point is a list of rational coordinates.  The grains are given in the order of their
    ids.  The distance to the reference point is a parameter [dist] (Euclidean in the code;
    only comparisons matter); [dist_min] is [None] for the greatest double. *)
From Coq Require Import QArith ZArith List Bool Arith.
From Verif Require Import Util.
Import ListNotations.
Local Open Scope nat_scope.

Notation point := (list Q).
(** measure and center *)
Notation segment := (Q * point)%type.
(** [Grain::Dynamics]: -1 shrinking, 0 none, 1 growing; and the segments *)
Notation grain := (Z * list segment)%type.

(** 412-437: state of the two loops *)
Record choice := mkChoice { c_origin : point; c_dist : option Q; c_dyn : Z }.

(** 422-435: one segment *)
Definition visit (dist : point -> Q) (prefer_growing : bool) (dyn : Z) (c : choice) (s : segment) : choice :=
  let d := dist (snd s) in
  let nearer := match c_dist c with None => true | Some m => qltb d m end in
  let first := match c_dist c with None => true | Some _ => false end in
  let pick := (negb prefer_growing && nearer || prefer_growing && (nearer && Z.leb (c_dyn c) dyn || first))%bool in
  if pick then mkChoice (snd s) (Some d) dyn else c.

(** 418-437 *)
Definition visit_grain (dist : point -> Q) (pg : bool) (c : choice) (g : grain) : choice :=
  fold_left (visit dist pg (fst g)) (snd g) c.
Definition find_center_origin (dim : nat) (dist : point -> Q) (pg : bool) (grains : list grain) : point :=
  c_origin (fold_left (visit_grain dist pg) grains (mkChoice (repeat 0%Q dim) None 0)).

(** tracking.h 268-281, one coordinate *)
Definition add_static (d : nat) (acc : Q * Q) (s : segment) : Q * Q :=
  (fst acc + fst s * nth d (snd s) 0, snd acc + fst s)%Q.
Definition barycenter_coord (grains : list grain) (d : nat) : option Q :=
  let r := fold_left (fun acc g => fold_left (add_static d) (snd g) acc) grains (0, 0)%Q in
  qdiv (fst r) (snd r).
