(** C105: properties of a packing of spheres,
    applications/sintering/scripts/packing_properties.py: the density in slices
    (18-130), the bounding box and overall density (225-258), the coordination
    numbers (167, 221-223, 260), the radii (262-266) and the positions belonging
    to the densities (327).

    Numbers are rationals, all volumes are given as multiples of pi; the product
    of a square root with itself is replaced by the argument.  Only the
    coordinate in the chosen direction is kept.  Reading files, contact angles,
    histograms and plots are left out, the contacts are given. *)
From Coq Require Import QArith Qabs List Arith Bool.
From Verif Require Import Util.
Import ListNotations.
Local Open Scope Q_scope.

(** 18-35 [cap_volume]: [a * a] for [a = sqrt(inside_sqrt)]. *)
Definition cap_volume (r b : Q) : Q :=
  let inside := r * r - b * b in
  let inside := if qltb inside 0 && qltb inside (Qabs r * (1 # 10000000000)) then 0 else inside in
  let h := r - b in
  (1 # 6) * h * (3 * inside + h * h).

(** [4./3. * np.pi * r**3] *)
Definition sphere_volume (r : Q) : Q := (4 # 3) * (r * r * r).

(** 66-119: the part of the sphere with center [c] in the slice. *)
Definition part (s_lower s_upper c r : Q) : Q :=
  let pt_lower := c - r in
  let pt_upper := c + r in
  if qltb s_lower pt_lower && qltb pt_lower s_upper then
    if qltb pt_upper s_upper then sphere_volume r
    else if qltb s_upper c then cap_volume r (c - s_upper)
    else if qltb c s_upper then sphere_volume r - cap_volume r (s_upper - c)
    else 0
  else if qltb s_lower pt_upper && qltb pt_upper s_upper then
    if qltb c s_lower then cap_volume r (s_lower - c)
    else if qltb s_lower c then sphere_volume r - cap_volume r (c - s_lower)
    else 0
  else if qltb pt_lower s_lower && qltb s_upper pt_upper then
    if qltb s_lower c && qltb c s_upper then sphere_volume r - cap_volume r (c - s_lower) - cap_volume r (s_upper - c)
    else if qltb s_upper c then cap_volume r (c - s_upper) - cap_volume r (c - s_lower)
    else if qltb c s_lower then cap_volume r (s_lower - c) - cap_volume r (s_upper - c)
    else 0
  else 0.

Definition nq (n : nat) : Q := inject_Z (Z.of_nat n).

(** 64-123: the volume of all particles in one slice; a particle is its
    coordinate and its radius. *)
Definition segment_volume (s_lower s_upper : Q) (particles : list (Q * Q)) : Q :=
  fold_left (fun v p => let x := part s_lower s_upper (fst p) (snd p) in if qltb 0 x then v + x else v) particles 0.

(** 38-130 [distribute_in_segments], at least one division. *)
Definition distribute (particles : list (Q * Q)) (coord_min coord_max area : Q) (divs : nat) : list Q :=
  let step := (coord_max - coord_min) / nq divs in
  map (fun i => segment_volume (coord_min + nq i * step) (coord_min + (nq i + 1) * step) particles / (step * area)) (seq 0 divs).

(** 225-244: the limits in one direction, Python's [min] and [max]. *)
Definition pymin (a b : Q) : Q := if qltb b a then b else a.
Definition pymax (a b : Q) : Q := if qltb a b then b else a.
Definition limits (particles : list (Q * Q)) : Q * Q :=
  fold_left (fun l p => (pymin (fst l) (fst p - snd p), pymax (snd l) (fst p + snd p))) particles (1000000000, - 1000000000).

(** 167, 221-223; a contact with a number that does not exist: exception. *)
Fixpoint bump (k : nat) (l : list Q) : option (list Q) :=
  match l, k with
  | [], _ => None
  | x :: r, O => Some (x + 1 :: r)
  | x :: r, S k => r <- bump k r ;; Some (x :: r)
  end.
Fixpoint count_contacts (contacts : list (nat * nat)) (num : list Q) : option (list Q) :=
  match contacts with
  | [] => Some num
  | (a, b) :: r => num <- bump a num ;; num <- bump b num ;; count_contacts r num
  end.
Definition qsum (l : list Q) : Q := fold_left Qplus l 0.
(** 260 *)
Definition coord_avg (n_particles : nat) (contacts : list (nat * nat)) : option Q :=
  num <- count_contacts contacts (repeat 0 n_particles) ;;
  match n_particles with O => None | _ => Some (qsum num / nq n_particles) end.

(** 262-266: "average" radius and the deviation. *)
Definition radius_summary (radii : list Q) : option (Q * Q) :=
  match radii with
  | [] => None
  | x :: r =>
      let r_min := fold_left pymin r x in
      let r_max := fold_left pymax r x in
      let r_avg := (r_min + r_max) / 2 in
      Some (r_avg, r_max - r_avg)
  end.

(** [np.linspace(a, b, n)] *)
Definition linspace (a b : Q) (n : nat) : list Q :=
  match n with
  | O => []
  | S O => [a]
  | S m => map (fun k => a + nq k * ((b - a) / nq m)) (seq 0 n)
  end.
(** 327: where the densities are plotted. *)
Definition positions (size : Q) (divs : nat) : list Q :=
  linspace (0 + (1 # 2) * size / nq divs) (1 - (1 # 2) * size / nq divs) divs.
