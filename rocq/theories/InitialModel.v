(** Initial fields and the initial cloud of particles, over real numbers.
    /repo/applications/sintering/include/pf-applications/sintering/
    initial_values_spherical.h lines 27-80 (InitialValuesSpherical),
    initial_values_ch_ac.h lines 45-96 (do_value),
    initial_values_array.h lines 41-57 (op_value),
    initial_values_cloud.h lines 33-248, 345-405 and 407-501 (InitialValuesCloud),
    initial_values_microstructure.h lines 239-307 (reference values, op_value).
    [None] is undefined behaviour or a number that is not finite. *)
From Coq Require Import List Arith Bool Reals.
From Verif Require Import Util MobilityModel VecGeom PackingModel.
Import ListNotations.
Local Open Scope R_scope.

Inductive direction := Inside | Outside | Middle.

(** initial_values_spherical.h 42-46 *)
Definition interface_offset (dir : direction) (w : R) : R :=
  match dir with Inside => - w / 2 | Outside => w / 2 | Middle => 0 end.

(** 50-76; [w] is [interface_width] *)
Definition is_in_sphere (dim : nat) (w : R) (dir : direction) (point center : vec) (rc : R) : R :=
  let rm := rc - interface_offset dir w in
  let rad := vdist dim center point in
  if Rle_dec rad (rm - w / 2) then 1
  else if Rlt_dec rad (rm + w / 2) then
    let int_pos := (rad - rm + w / 2) / w in
    0 + (1 - 0) * (1 + cos (int_pos * PI)) / 2
  else 0.

(** initial_values_ch_ac.h 59-78: concentration from the values of the order
    parameters; [std::max_element] of an empty range is not dereferenceable *)
Definition concentration (is_accumulative concentration_as_void : bool) (vals : list R) : option R :=
  c <- (if is_accumulative then Some (Rmin 1 (fold_left Rplus vals 0)) else max_element vals) ;;
  Some (if concentration_as_void then 1 - c else c).

(** initial_values_ch_ac.h 45-96: [do_value]; [offset] is [op_components_offset] and
    [op_value] is total here (an unknown order parameter throws) *)
Definition do_value (offset n_ops : nat) (acc void : bool) (op_value : nat -> R) (component : nat) : option R :=
  if ((2 <=? offset) && (component =? offset - 2) || (offset =? 1) && (component =? 0))%nat then
    concentration acc void (map op_value (seq 0 n_ops))
  else if ((2 <=? offset) && (component =? offset - 1))%nat then Some 0
  else if (component <? offset)%nat then None   (* unsigned difference below zero *)
  else Some (op_value (component - offset)%nat).

(** The loop of [op_value] over the grains of an order parameter: the first value
    different from zero (initial_values_array.h 45-56) *)
Fixpoint first_non_zero (vals : list R) : R :=
  match vals with
  | [] => 0
  | v :: r => if Req_EM_T v 0 then match r with [] => v | _ => first_non_zero r end else v
  end.

Definition array_op_value (dim : nat) (w : R) (dir : direction) (r0 : R) (centers : list vec) (p : vec) : R :=
  first_non_zero (map (fun c => is_in_sphere dim w dir p c r0) centers).

(** * The cloud *)
Record particle := mkParticle { p_center : vec; p_radius : R }.

(** initial_values_cloud.h 70-90: the boundaries start from the largest and from the
    smallest positive number ([numeric_limits<double>::min()]) *)
Definition cloud_boundaries (huge tiny : R) (ps : list particle) (d : nat) : R * R :=
  fold_left (fun b p =>
    (if Rlt_dec (p_center p d - p_radius p) (fst b) then p_center p d - p_radius p else fst b,
     if Rlt_dec (snd b) (p_center p d + p_radius p) then p_center p d + p_radius p else snd b))
    ps (huge, tiny).

(** 111-124: particles in contact *)
Definition in_contact (dim : nat) (p1 p2 : particle) : bool :=
  let dist_max := p_radius p1 + p_radius p2 in
  if Rle_dec (vdist dim (p_center p2) (p_center p1)) (dist_max - / 1000 * dist_max) then true else false.

(** 126-134: distance from the center of the first particle to the plane of the neck.
    [None] stands for a number that is not finite: division by zero or the root of a
    negative number. *)
Definition neck_distance (r1 r2 distance : R) : option R :=
  if Req_EM_T distance 0 then None
  else
    let s := (r1 + r2 + distance) / 2 in
    let rad := s * (s - r1) * (s - r2) * (s - distance) in
    if Rlt_dec rad 0 then None
    else
      let r0 := 2 / distance * sqrt rad in
      let q := r1 * r1 - r0 * r0 in
      if Rlt_dec q 0 then None else Some (sqrt q).

(** 345-368: [check_orientation_point] with tolerance [tol] *)
Definition check_orientation_point (dim : nat) (tol : R) (origin ex candidate : vec) : bool :=
  let e := fun d => candidate d - origin d in
  if Rlt_dec (norm dim e) tol then false
  else if Rlt_dec (Rabs (dot dim ex (fun d => e d / norm dim e) - 1)) tol then false else true.

(** 370-405: [get_orientation_point]; the default point is the origin of the coordinates,
    [draws] are the (at most 100) points drawn at random, [None] is the exception *)
Definition get_orientation_point (dim : nat) (tol : R) (origin ex : vec) (draws : list vec) : option vec :=
  find (check_orientation_point dim tol origin ex) ((fun _ => 0) :: firstn 100 draws).

Definition cross (u v : vec) : vec := fun d =>
  match d with
  | 0%nat => u 1%nat * v 2%nat - u 2%nat * v 1%nat
  | 1%nat => u 2%nat * v 0%nat - u 0%nat * v 2%nat
  | _ => u 0%nat * v 1%nat - u 1%nat * v 0%nat
  end.

(** 136-163 and 452-463: the component of [rotation_matrix * (p - center)] along the line
    of the two centers.  The first row of the matrix is [1 * ex + 0 * ey + 0 * ez]: in
    three dimensions [ey] is divided by its norm, and zero times a number that is not
    finite is not finite.  [z] is the point from [get_orientation_point]; the other rows of
    the matrix do not matter. *)
Definition neck_coordinate (dim : nat) (p1 p2 : particle) (z p : vec) : option R :=
  let distance := vdist dim (p_center p2) (p_center p1) in
  dm <- neck_distance (p_radius p1) (p_radius p2) distance ;;
  let ex := fun d => (p_center p2 d - p_center p1 d) / distance in
  if (dim =? 3)%nat && (if Req_EM_T (norm 3 (cross (fun d => z d - p_center p1 d) ex)) 0 then true else false)
  then None
  else Some (dot dim ex (fun d => p d - (p_center p1 d + dm * ex d))).

(** 189-195: entries of the sparsity pattern used for the coloring (added for [i <> j]) *)
Definition linked (dim : nat) (w interface_buffer_ratio radius_buffer_ratio : R) (p1 p2 : particle) : Prop :=
  let buffer := w + interface_buffer_ratio * w + radius_buffer_ratio * Rmax (p_radius p1) (p_radius p2) in
  vdist dim (p_center p2) (p_center p1) <= p_radius p1 + p_radius p2 + buffer.

(** 423-439: the neighbour with the largest value, the first of them.  A neighbour comes
    with the orientation point of the contact.  The code looks the contact up by the ids
    of the particles although it is stored by their positions; here the two are equal
    (read_particles numbers the particles, CsvModel.v). *)
Definition secondary (dim : nat) (w : R) (dir : direction) (p : vec) (neighbours : list (particle * vec)) :
  option (particle * vec * R) :=
  fold_left (fun best q =>
    let c := is_in_sphere dim w dir p (p_center (fst q)) (p_radius (fst q)) in
    if Rlt_dec (match best with Some (_, c) => c | None => 0 end) c then Some (q, c) else best)
    neighbours None.

(** 407-501: [value_for_particle]; a comparison with a number that is not finite is
    false *)
Definition value_for_particle (dim : nat) (w : R) (dir : direction) (p : vec) (q : particle)
  (neighbours : list (particle * vec)) : R :=
  let c_main := is_in_sphere dim w dir p (p_center q) (p_radius q) in
  if Req_EM_T c_main 0 then c_main
  else match secondary dim w dir p neighbours with
       | None => c_main
       | Some (q2, z, c_secondary) =>
         match neck_coordinate dim q q2 z p with
         | None => 0
         | Some xp =>
           if Rlt_dec xp (w / 2) then
             if Rlt_dec (1 / 2) c_secondary then
               if Rlt_dec (- w / 2) xp then 1 / 2 - 1 / 2 * sin (PI * xp / w) else c_main
             else c_main
           else 0
         end
       end.

(** 98-182: the neighbours of particle [i], in the order of the particles; [orient i j] is
    the orientation point of the contact *)
Definition neighbours (dim : nat) (orient : nat -> nat -> vec) (ps : list particle) (i : nat) (p1 : particle) :
  list (particle * vec) :=
  map (fun jq => (snd jq, orient i (fst jq)))
    (filter (fun jq => negb (fst jq =? i)%nat && in_contact dim p1 (snd jq)) (combine (seq 0 (length ps)) ps)).

Definition particle_value (dim : nat) (w : R) (dir : direction) (orient : nat -> nat -> vec) (ps : list particle)
  (p : vec) (i : nat) : option R :=
  q <- vget ps i ;; Some (value_for_particle dim w dir p q (neighbours dim orient ps i q)).

(** 225-248: [op_value] for the particles [ids] of an order parameter; the loop ends at the
    first value different from zero *)
Fixpoint cloud_op_value (dim : nat) (w : R) (dir : direction) (orient : nat -> nat -> vec) (ps : list particle)
  (p : vec) (ids : list nat) : option R :=
  match ids with
  | [] => Some 0
  | i :: r =>
    v <- particle_value dim w dir orient ps p i ;;
    if Req_EM_T v 0 then match r with [] => Some v | _ => cloud_op_value dim w dir orient ps p r end else Some v
  end.

(** 201-222: the order parameters; [color] is the result of [color_sparsity_pattern] *)
Fixpoint color_grains (color : nat -> nat) (k i : nat) (m : op_map) : op_map :=
  match k with O => m | S k => color_grains color k (S i) (push (color i - 1) i m) end.
Fixpoint own_grains (k i : nat) (m : op_map) : op_map :=
  match k with O => m | S k => own_grains k (S i) (push i i m) end.
Definition cloud_ops (minimize : bool) (color : nat -> nat) (n_particles : nat) : op_map :=
  if minimize then color_grains color n_particles 0 [] else own_grains n_particles 0 [].

(** * Microstructure *)

(** initial_values_microstructure.h 250-257 *)
Definition ref_h (dir : direction) (w : R) : R := match dir with Middle => w / 2 | _ => w end.
Definition ref_k (dir : direction) : R := match dir with Middle => 1 / 2 | _ => 1 end.
Definition ref_b (dir : direction) : R := match dir with Middle => 1 / 2 | Outside => 1 | Inside => 0 end.

(** 261-307: [op_value]; a candidate is given by whether the point is inside of the
    grain and by the distance to its edges *)
Fixpoint micro_loop (w : R) (dir : direction) (cands : list (bool * R)) (p_val : R) : R :=
  match cands with
  | [] => p_val
  | (inside, dist) :: r =>
    if inside then
      match dir with
      | Outside => 1
      | _ => if Req_EM_T w 0 then 1
             else if Rlt_dec dist (ref_h dir w) then ref_b dir + ref_k dir * dist / ref_h dir w else 1
      end
    else if Rlt_dec 0 w then
      match dir with
      | Inside => micro_loop w dir r p_val
      | _ => micro_loop w dir r
               (Rmax p_val (if Rlt_dec dist (ref_h dir w) then ref_b dir - ref_k dir * dist / ref_h dir w else 0))
      end
    else micro_loop w dir r p_val
  end.

Definition micro_op_value (w : R) (dir : direction) (cands : list (bool * R)) : R := micro_loop w dir cands 0.
