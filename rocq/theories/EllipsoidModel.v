(** Ellipsoids for the grains and the distance between them,
    /repo/include/pf-applications/grain_tracker/ellipsoid.h 38-512, the enlargement in
    tracker.h 1403-1460 and elliptical_helpers.h 32-85.
    Over real numbers; a number that is not finite is [None], an exception is [None] for the
    whole result.  [Physics::Transformations::basis_transformation(S, Q)] of deal.II is
    Q S Q^T.  Eigenvectors are computed by deal.II and not modelled. *)
From Coq Require Import List Bool Reals Arith.
From Verif Require Import MobilityModel VecGeom MotionModel.
Import ListNotations.
Local Open Scope R_scope.

Definition real_sqrt (x : R) : option R := if Rle_dec 0 x then Some (sqrt x) else None.

(** 45-57 and 68-82: [get_radii_from_inertia] *)
Definition radii_from_inertia (dim : nat) (I : nat -> R) (measure : R) : nat -> option R := fun d =>
  let I0 := I 0%nat in let I1 := I 1%nat in let I2 := I 2%nat in
  if Nat.eqb dim 2 then
    match d with 0%nat => real_sqrt (4 / measure * I1) | _ => real_sqrt (4 / measure * I0) end
  else
    match d with
    | 0%nat => real_sqrt (5 / 2 / measure * (I1 + I2 - I0))
    | 1%nat => real_sqrt (5 / 2 / measure * (I0 + I2 - I1))
    | _ => real_sqrt (5 / 2 / measure * (I0 + I1 - I2))
    end.

Record ellipsoid := mkEllipsoid { el_A : mat; el_b : vec; el_alpha : R; el_norm : R; el_radii : nat -> R;
  el_min : R; el_max : R; el_axes : nat -> vec; el_center : vec }.

(** [std::min_element], [std::max_element] over the entries up to [n] *)
Fixpoint vmin (n : nat) (r : nat -> R) : R := match n with O => r O | S k => Rmin (vmin k r) (r (S k)) end.
Fixpoint vmax (n : nat) (r : nat -> R) : R := match n with O => r O | S k => Rmax (vmax k r) (r (S k)) end.

(** Frobenius norm, [Tensor::norm] *)
Definition mnorm (dim : nat) (A : mat) : R := sqrt (dsum dim (fun i => dsum dim (fun j => A i j * A i j))).

(** 277-295: [init_quadratic_form], with 94-104: constructor from center, radii and axes *)
Definition make_ellipsoid (dim : nat) (center : vec) (radii : nat -> R) (axes : nat -> vec) : ellipsoid :=
  let Sm : mat := fun i j => if Nat.eqb i j then 1 / (radii i * radii i) else 0 in
  let Qm := rotation_tensor_from_own_axes dim axes false in
  let A := mm dim (mm dim Qm Sm) (mt Qm) in
  mkEllipsoid A (fun d => - mv dim A center d) (1 / 2 * dot dim (mv dim A center) center - 1 / 2) (mnorm dim A)
    radii (vmin (dim - 1) radii) (vmax (dim - 1) radii) axes center.

(** 177-190: scaled copy *)
Definition scaled_ellipsoid (dim : nat) (E : ellipsoid) (scale : R) : ellipsoid :=
  make_ellipsoid dim (el_center E) (fun d => el_radii E d * scale) (el_axes E).

(** 194-206: [serialize] into [target]; the axes are not part of it *)
Definition restored (saved target : ellipsoid) : ellipsoid :=
  mkEllipsoid (el_A saved) (el_b saved) (el_alpha saved) (el_norm saved) (el_radii saved) (el_min saved) (el_max saved)
    (el_axes target) (el_center saved).

(** 119-175: constructor from the quadratic form; [eigenvalue] one of A / (2 alpha) *)
Definition form_radius (eigenvalue : R) : option R :=
  if Rlt_dec 0 eigenvalue then Some (1 / sqrt eigenvalue) else None.

(** 269-274 *)
Definition form (dim : nat) (E : ellipsoid) (p : vec) : R :=
  1 / 2 * dot dim (mv dim (el_A E) p) p + dot dim (el_b E) p + el_alpha E.
Definition el_inside (dim : nat) (E : ellipsoid) (p : vec) (tol : R) : bool :=
  if Rle_dec (form dim E p) tol then true else false.

(** 322-328; [a] zero gives no numbers (the numerator is zero, too, if the points coincide) *)
Definition solve_quadratic (a b c : R) : option (R * R) :=
  let D := b * b - 4 * a * c in
  if Req_EM_T a 0 then None else if Rlt_dec D 0 then None
  else Some ((- b - sqrt D) / (2 * a), (- b + sqrt D) / (2 * a)).

(** 363-394; [None]: both solutions are in range *)
Definition in_range (v : R) : bool := (if Rle_dec 0 v then true else false) && (if Rle_dec v 1 then true else false).
Definition find_intersection (dim : nat) (E : ellipsoid) (c1 c2 : vec) : option (R * bool) :=
  let Ac1 := mv dim (el_A E) c1 in
  let Ac2 := mv dim (el_A E) c2 in
  let a := 1 / 2 * (dot dim Ac1 c1 - 2 * dot dim Ac1 c2 + dot dim Ac2 c2) in
  let b := dot dim Ac2 c1 - dot dim Ac1 c1 + dot dim (el_b E) c2 - dot dim (el_b E) c1 in
  let c := 1 / 2 * dot dim Ac1 c1 + dot dim (el_b E) c1 + el_alpha E in
  match solve_quadratic a b c with
  | None => Some (0, true)
  | Some (s1, s2) =>
    if negb (in_range s1) && negb (in_range s2) then Some (0, true)
    else if in_range s1 && in_range s2 then None
    else Some (if in_range s1 then s1 else s2, false)
  end.

(** 344-352 *)
Definition crit (dim : nat) (v w : vec) (eps : R) : bool :=
  if Rlt_dec ((1 - eps * eps / 2) * (1 - eps * eps / 2) * dot dim v v * dot dim w w) (dot dim v w * dot dim v w)
  then true else false.

Definition along (c1 c2 : vec) (t : R) : vec := fun d => c1 d + t * (c2 d - c1 d).
Definition gradient (dim : nat) (E : ellipsoid) (x : vec) : vec := fun d => mv dim (el_A E) x d + el_b E d.

(** 442-509: the loop; [fuel] is [max_iter - iter] *)
Fixpoint distance_iterations (dim : nat) (E1 E2 : ellipsoid) (test_relative test_collinear : bool) (tol eps_d : R)
    (fuel : nat) (c1 c2 : vec) (dist : R) (iter : nat) : option (R * nat * bool) :=
  match fuel with
  | O => Some (dist, iter, false)
  | S fuel =>
    match find_intersection dim E1 c1 c2 with
    | None => None
    | Some (_, true) => Some (0, iter, true)
    | Some (t1, false) =>
      match find_intersection dim E2 c1 c2 with
      | None => None
      | Some (_, true) => Some (0, iter, true)
      | Some (t2, false) =>
        if Rlt_dec t2 t1 then Some (0, iter, true)
        else
          let x1 := along c1 c2 t1 in
          let x2 := along c1 c2 t2 in
          let dist' := vdist dim x1 x2 in
          let ok_relative :=
            if test_relative
            then (if Req_EM_T dist 0 then false else if Rlt_dec (Rabs (dist' - dist) / dist) tol then true else false)
            else true in
          let ok_collinear :=
            if test_collinear
            then crit dim (fun d => x2 d - x1 d) (gradient dim E1 x1) eps_d &&
                 crit dim (fun d => x1 d - x2 d) (gradient dim E2 x2) eps_d
            else true in
          if ok_relative && ok_collinear then Some (dist', S iter, true)
          else distance_iterations dim E1 E2 test_relative test_collinear tol eps_d fuel
                 (fun d => x1 d - 1 / el_norm E1 * gradient dim E1 x1 d)
                 (fun d => x2 d - 1 / el_norm E2 * gradient dim E2 x2 d) dist' (S iter)
      end
    end
  end.

(** 412-512 *)
Definition ellipsoid_distance (dim : nat) (E1 E2 : ellipsoid) (test_relative test_collinear : bool) (tol : R)
    (max_iter : nat) : option (R * nat * bool) :=
  if test_relative || test_collinear then
    let c1 := el_center E1 in
    let c2 := el_center E2 in
    let eps_d := sqrt (2 * tol / (el_max E1 + el_max E2)) in
    let dist := vdist dim c2 c1 in
    if Rlt_dec tol dist
    then distance_iterations dim E1 E2 test_relative test_collinear tol eps_d max_iter c1 c2 dist 0
    else None
  else None.

(** tracker.h 1411-1441: enlarged if the remote point is not covered *)
Definition covering_ellipsoid (dim : nat) (E : ellipsoid) (remote : vec) : option ellipsoid :=
  match find_intersection dim E (el_center E) remote with
  | None => None
  | Some (t, _) =>
    Some (if (if Rlt_dec 0 t then true else false) && (if Rlt_dec t 1 then true else false)
          then scaled_ellipsoid dim E (1 / t) else E)
  end.

(** elliptical_helpers.h 50-74: the scale of one particle from its cells; a cell is given by
    its outer point [p] (lines 61-63; a cell with its barycenter at the center
    gives no numbers and is left out).  MPI_MAX is the maximum over all cells. *)
Definition cell_scale (dim : nat) (E : ellipsoid) (p : vec) (scale : R) : option R :=
  if el_inside dim E p (1 / 10 ^ 9) then Some scale
  else
    match find_intersection dim E (el_center E) p with
    | None => None
    | Some (t, _) =>
      Some (if (if Rlt_dec 0 t then true else false) && (if Rlt_dec t 1 then true else false)
            then Rmax (1 / t) scale else scale)
    end.
Fixpoint particle_scale (dim : nat) (E : ellipsoid) (points : list vec) (scale : R) : option R :=
  match points with
  | [] => Some scale
  | p :: r => match cell_scale dim E p scale with None => None | Some s => particle_scale dim E r s end
  end.

(** tracker.h 1454-1460 *)
Definition final_ellipsoid (dim : nat) (E : ellipsoid) (scale : R) : ellipsoid :=
  if Rlt_dec (1 + 1 / 10 ^ 9) scale then scaled_ellipsoid dim E scale else E.
