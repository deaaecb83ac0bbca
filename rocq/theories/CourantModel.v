(** Model of the check of the Courant condition,
    applications/sintering/include/pf-applications/sintering/cfl_checker.h 38-129, the
    velocities of advection.h 27-160, 183-263, 330-352 that it asks for, and the calls in
    driver.h 1449-1451, 1828-1881, 2220-2228.

    Arithmetic is real.  Vectors have three coordinates; in two dimensions the third one is
    zero and the torque has the third coordinate only (advection.h 104-113), so that both
    forms of [cross] are the cross product.  Every grain has one entry per lane: the grain
    of an order parameter in the cell of that lane (the tables are the subject of C35; the
    lookup with the cut-off, which may find another grain, is not repeated here). *)
From Coq Require Import List Reals Arith Bool.
From Verif Require Import Util.
Import ListNotations.
Local Open Scope R_scope.

Record vec3 := mkV { vx : R; vy : R; vz : R }.
Definition vadd (a b : vec3) : vec3 := mkV (vx a + vx b) (vy a + vy b) (vz a + vz b).
Definition vsub (a b : vec3) : vec3 := mkV (vx a - vx b) (vy a - vy b) (vz a - vz b).
Definition vscale (s : R) (a : vec3) : vec3 := mkV (s * vx a) (s * vy a) (s * vz a).
Definition vcross (a b : vec3) : vec3 := mkV (vy a * vz b - vz a * vy b) (vz a * vx b - vx a * vz b) (vx a * vy b - vy a * vx b).
Definition vnorm (a : vec3) : R := sqrt (vx a * vx a + vy a * vy a + vz a * vz a).
Definition vzero : vec3 := mkV 0 0 0.

(** advection.h 35-72, 86-102: data of one lane *)
Record cdata := mkCD { volume_inv : R; rc : vec3; force : vec3; torque : vec3 }.
(** a segment: volume, center, force and torque *)
Record segm := mkSeg { volume : R; seg_center : vec3; seg_force : vec3; seg_torque : vec3 }.
Definition fill (s : segm) : cdata := mkCD (1 / volume s) (seg_center s) (seg_force s) (seg_torque s).
Definition nullify : cdata := mkCD (-1) vzero vzero vzero.
Definition lane_data (o : option segm) : cdata := match o with Some s => fill s | None => nullify end.

(** 330-352, 247-262 *)
Definition calc_velocity (mt mr : R) (c : cdata) (r : vec3) : vec3 :=
  vadd (vscale (mt * volume_inv c) (force c)) (vscale (mr * volume_inv c) (vcross (torque c) (vsub r (rc c)))).

Definition less (a b : R) : bool := if Rlt_dec a b then true else false.

(** A batch of cells: filled lanes, diameter of the cell of a lane, quadrature points, and
    the segment of an order parameter in a lane. *)
Record batch := mkBatch { active : nat; diameter : nat -> R; q_point : nat -> nat -> vec3; segment : nat -> nat -> option segm }.

Section Check.
Variables (n_lanes n_grains n_q : nat) (mt mr huge : R).

(** cfl_checker.h 38-61; [huge] is [numeric_limits::max()] *)
Definition precompute (bs : list batch) : list (nat -> R) := map (fun b i => if (i <? active b)%nat then diameter b i else huge) bs.

(** advection.h 41-47, 215-217 *)
Definition has_non_zero (b : batch) (ig : nat) : bool := existsb (fun i => less 0 (volume_inv (lane_data (segment b ig i)))) (seq 0 n_lanes).

(** cfl_checker.h 108-119: [courant.sum() > 0] *)
Definition sum_of (f : nat -> R) : R := fold_right (fun i a => f i + a) 0 (seq 0 n_lanes).
Definition violated (dt : R) (b : batch) (diam : nat -> R) (ig q : nat) : bool :=
  less 0 (sum_of (fun i => if less (vnorm (calc_velocity mt mr (lane_data (segment b ig i)) (q_point b q i)) * dt) (diam i) then 0 else 1)).

(** 101-120: the loop over the points ends at the first violation *)
Fixpoint check_points (dt : R) (b : batch) (diam : nat -> R) (ig : nat) (qs : list nat) : bool :=
  match qs with [] => true | q :: r => if violated dt b diam ig q then false else check_points dt b diam ig r end.
Fixpoint check_grains (dt : R) (b : batch) (diam : nat -> R) (igs : list nat) (status : bool) : bool :=
  match igs with
  | [] => status
  | ig :: r => if status then check_grains dt b diam r (if has_non_zero b ig then check_points dt b diam ig (seq 0 n_q) else status) else status
  end.
(** 88-121 *)
Fixpoint check_batches (dt : R) (bs : list batch) (diams : list (nat -> R)) (status : bool) : option bool :=
  match bs, diams with
  | [], _ => Some status
  | b :: bs, diam :: diams => if status then check_batches dt bs diams (check_grains dt b diam (seq 0 n_grains) true) else Some status
  | _ :: _, [] => None
  end.
(** 66-74; [None] is the exception *)
Definition local_status (dt : R) (bs : list batch) (diams : list (nat -> R)) : option bool :=
  if (length diams =? length bs)%nat then check_batches dt bs diams true else None.
(** 123-127: the minimum over the processes *)
Fixpoint check_courant (dt : R) (procs : list (list batch * list (nat -> R))) : option bool :=
  match procs with
  | [] => Some true
  | p :: r => a <- local_status dt (fst p) (snd p) ;; b <- check_courant dt r ;; Some (a && b)
  end.
End Check.

(** ** When the diameters are computed *)
(** The mesh has a version; [d_diam] is the version the diameters belong to. *)
Record dstate := mkD { d_mesh : nat; d_diam : option nat }.
(** driver.h 1372-1451 [execute_coarsening_and_refinement] *)
Definition adapt (wanted : bool) (s : dstate) : dstate := let m := S (d_mesh s) in mkD m (if wanted then Some m else d_diam s).
(** 1828-1881: [fresh]: the run starts at the initial time; [adaptive]: one of the options for
    adaptation is set *)
Definition start (wanted fresh adaptive : bool) (n_init : nat) (s : dstate) : dstate :=
  if fresh && adaptive then
    let s := Nat.iter n_init (adapt wanted) s in
    if (n_init =? 0)%nat then mkD (d_mesh s) (Some (d_mesh s)) else s
  else if wanted then mkD (d_mesh s) (Some (d_mesh s)) else s.
(** The time loop: at the beginning of a step the mesh may be adapted, then 2220-2228 checks. *)
Definition dstep (wanted : bool) (s : dstate) (amr : bool) : dstate := if amr then adapt wanted s else s.
