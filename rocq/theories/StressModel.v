(** Model of the linear elastic material, the linear elastic operator and the inelastic
    strain rates:
    applications/structural/include/pf-applications/structural/stvenantkirchhoff.h 8-80,
    material.h 12-17, tools.h 9-102, operator_elastic_linear.h 64-95, 130-145, 266-300,
    applications/sintering/include/pf-applications/sintering/
    operator_sintering_coupled_base.h 94-103 (also preconditioners.h 266-275) and
    inelastic.h 33-310.

    [double] and one lane of a vectorized array are real numbers; a tensor is a function of
    its indices, only indices below [dim] count.  Sums over order parameters are written
    with [vsum] in the order of the loops. *)
From Coq Require Import List Reals Arith Bool.
From Verif Require Import MobilityModel OperatorModel.
Import ListNotations.
Local Open Scope R_scope.

Notation tensor := (nat -> nat -> R).

(** material.h 12-17 *)
Inductive plane_type := plane_stress | plane_strain | none.
Definition is_plane_stress (t : plane_type) : bool := match t with plane_stress => true | _ => false end.
Definition is_none (t : plane_type) : bool := match t with none => true | _ => false end.

(** ** tools.h *)
(** 39-65 [apply_l]; for other dimensions the code throws, here zero *)
Definition apply_l (dim : nat) (H : tensor) : vec := fun k =>
  match dim, k with
  | 2%nat, 0%nat => H 0%nat 0%nat
  | 2%nat, 1%nat => H 1%nat 1%nat
  | 2%nat, 2%nat => H 1%nat 0%nat + H 0%nat 1%nat
  | 3%nat, 0%nat => H 0%nat 0%nat
  | 3%nat, 1%nat => H 1%nat 1%nat
  | 3%nat, 2%nat => H 2%nat 2%nat
  | 3%nat, 3%nat => H 0%nat 1%nat + H 1%nat 0%nat
  | 3%nat, 4%nat => H 1%nat 2%nat + H 2%nat 1%nat
  | 3%nat, 5%nat => H 0%nat 2%nat + H 2%nat 0%nat
  | _, _ => 0
  end.

(** 67-102 [apply_l_transposed] *)
Definition apply_l_transposed (dim : nat) (v : vec) : tensor := fun i j =>
  match dim, i, j with
  | 2%nat, 0%nat, 0%nat => v 0%nat
  | 2%nat, 1%nat, 1%nat => v 1%nat
  | 2%nat, 0%nat, 1%nat => v 2%nat
  | 2%nat, 1%nat, 0%nat => v 2%nat
  | 3%nat, 0%nat, 0%nat => v 0%nat
  | 3%nat, 1%nat, 1%nat => v 1%nat
  | 3%nat, 2%nat, 2%nat => v 2%nat
  | 3%nat, 0%nat, 1%nat => v 3%nat
  | 3%nat, 1%nat, 0%nat => v 3%nat
  | 3%nat, 1%nat, 2%nat => v 4%nat
  | 3%nat, 2%nat, 1%nat => v 4%nat
  | 3%nat, 0%nat, 2%nat => v 5%nat
  | 3%nat, 2%nat, 0%nat => v 5%nat
  | _, _, _ => 0
  end.

(** 9-10: [dim * ((dim + 1) / 2.)], exact for every [dim] *)
Definition voigt_size (dim : nat) : nat := Nat.div (dim * (dim + 1)) 2.

(** ** stvenantkirchhoff.h *)
(** 16-17 *)
Definition lambda (dim : nat) (E nu : R) : R := E * nu / (1 + nu) / (1 - (INR dim - 1) * nu).
Definition mu_x_2 (E nu : R) : R := E / (1 + nu).

(** 19-33 *)
Definition f0 (dim : nat) (ty : plane_type) (E nu : R) : R :=
  if Nat.eqb dim 3 then E * (1 - nu) / (1 + nu) / (1 - 2 * nu)
  else if is_plane_stress ty then E * 1 / (1 - nu * nu)
  else E * (1 - nu) / (1 + nu) / (1 - 2 * nu).
Definition f1 (dim : nat) (ty : plane_type) (E nu : R) : R :=
  if Nat.eqb dim 3 then E * nu / (1 + nu) / (1 - 2 * nu)
  else if is_plane_stress ty then E * nu / (1 - nu * nu)
  else E * nu / (1 + nu) / (1 - 2 * nu).
Definition f2 (dim : nat) (ty : plane_type) (E nu : R) : R :=
  if Nat.eqb dim 3 then E * (1 - 2 * nu) / 2 / (1 + nu) / (1 - 2 * nu)
  else if is_plane_stress ty then E * (1 - nu) / 2 / (1 - nu * nu)
  else E * (1 - 2 * nu) / 2 / (1 + nu) / (1 - 2 * nu).

(** 35-43: the matrix in Voigt notation, zero where it is not written *)
Definition Cmat (dim : nat) (ty : plane_type) (E nu : R) : tensor := fun i j =>
  if Nat.ltb i dim && Nat.ltb j dim then (if Nat.eqb i j then f0 dim ty E nu else f1 dim ty E nu)
  else if Nat.eqb i j && Nat.ltb i (voigt_size dim) then f2 dim ty E nu
  else 0.

(** 52-55 *)
Definition trace (dim : nat) (H : tensor) : R := vsum dim (fun i => H i i).

(** 46-72 [get_S]; the argument is called a strain, the callers pass the gradient of the
    displacement, component first *)
Definition get_S (dim : nat) (ty : plane_type) (E nu : R) (H : tensor) : tensor :=
  if Nat.eqb dim 3 || is_none ty
  then fun i j => mu_x_2 E nu * H i j + (if Nat.eqb i j then lambda dim E nu * trace dim H else 0)
  else apply_l_transposed dim (fun k => vsum (voigt_size dim) (fun l => Cmat dim ty E nu k l * apply_l dim H l)).

(** operator_sintering_coupled_base.h 94-103, preconditioners.h 266-275 *)
Definition get_stress (dim : nat) (ty : plane_type) (E nu c_min : R) (H : tensor) (c : R) : tensor :=
  fun i j => mask_lt c c_min c_min c * get_S dim ty E nu H i j.

(** ** operator_elastic_linear.h *)
(** gradient of component [d] of the displacement at a point; [n] degrees of freedom per
    component, constraints resolved into the shape functions *)
Definition displacement_gradient (n : nat) (q : point) (u : state) : tensor := fun d e => grad_at n q u d e.

(** the contribution [submit_value], [submit_gradient] and [integrate_scatter] make to
    entry [i] of component [d] *)
Definition submit (dim : nat) (q : point) (value : vec) (S : tensor) (d i : nat) : R :=
  q_w q * (q_N q i * value d + dot dim (q_G q i) (S d)).

(** 130-145 [do_vmult_kernel]; [zero_result] is a tensor, which starts with zeros *)
Definition elastic_product (dim : nat) (ty : plane_type) (E nu : R) (n : nat) (pts : list point) (u : state) (d i : nat) : R :=
  fold_right (fun q acc => submit dim q (fun _ => 0) (get_S dim ty E nu (displacement_gradient n q u)) d i + acc) 0 pts.

(** 266-300 [do_evaluate_nonlinear_residual].  Without external loading no value is
    submitted: deal.II stops in debug mode, in release mode the integration uses what
    [evaluate] has left in the buffer, the values of the displacement without the weight *)
Definition residual_contribution (dim : nat) (ty : plane_type) (E nu : R) (n : nat) (loading : option (point -> vec)) (q : point) (u : state) (d i : nat) : R :=
  let S := get_S dim ty E nu (displacement_gradient n q u) in
  match loading with
  | Some f => submit dim q (f q) S d i
  | None => q_N q i * value_at n q u d + q_w q * dot dim (q_G q i) (S d)
  end.
Definition elastic_residual (dim : nat) (ty : plane_type) (E nu : R) (n : nat) (loading : option (point -> vec)) (pts : list point) (u : state) (d i : nat) : R :=
  fold_right (fun q acc => residual_contribution dim ty E nu n loading q u d i + acc) 0 pts.

(** ** inelastic.h; [n]: number of order parameters *)
Section Inelastic.
Variables (dim : nat) (rho : R).

(** 306-308 *)
Definition fac_gb : R := 1.
Definition fac_vol : R := 1.
Definition volume_denominator : R := 3.

(** tensor.h 125-135, [diagonal_matrix]; [outer_product] *)
Definition diagonal (a : R) : tensor := fun i j => if Nat.eqb i j then a else 0.
Definition outer (a b : vec) : tensor := fun i j => a i * b j.

(** 283-292, 294-298 *)
Definition v_of (c : R) : R := mask_gt (c * c) 1 1 (c * c).
Definition dv_dc (c : R) : R := 2 * c.

(** 246-264 *)
Definition g_raw (n : nat) (etas : vec) : R := vsum n (fun i => vsum n (fun j => if Nat.ltb i j then etas i * etas j else 0)) * 4.
Definition g_of (n : nat) (etas : vec) : R := let g := g_raw n etas in let g := mask_lt g 0 0 g in mask_gt g 1 1 g.
(** 266-281 *)
Definition dg_detai (n : nat) (etas : vec) (i : nat) : R := vsum n (fun j => if Nat.eqb j i then 0 else etas j) * 4.

(** 228-244 *)
Definition gb_indicator (n : nat) (etas : vec) : R :=
  let gb := vsum n (fun i => vsum n (fun j => if Nat.eqb i j then 0 else etas i * etas j)) in
  mask_lt gb (1 / 10) 0 gb.

(** 187-208 *)
Definition gb_norm (n : nat) (etas : vec) (grads : nat -> vec) : vec := fun d =>
  vsum n (fun i => vsum n (fun j => if Nat.ltb i j then unit_vector dim (fun e => grads i e - grads j e) d else 0)) * gb_indicator n etas.
(** 210-226: disabled, zero *)
Definition gb_norm_detai : vec := fun _ => 0.

(** 162-185 *)
Definition chi (n : nat) (etas : vec) (grads : nat -> vec) (div_gb div_vol : R) : tensor := fun i j =>
  let normal := gb_norm n etas grads in
  let g := g_of n etas in
  outer normal normal i j * (rho * div_gb * g * fac_gb) + diagonal (- div_vol / volume_denominator * (1 - g) * fac_vol) i j.

(** 45-63; [early]: the time is before [time_start] *)
Definition flux_eps_dot (early : bool) (c : R) (n : nat) (etas : vec) (grads : nat -> vec) (div_gb div_vol : R) : tensor := fun i j =>
  if early then 0 else v_of c * chi n etas grads div_gb div_vol i j.
(** 65-85 *)
Definition flux_eps_dot_dc (early : bool) (c : R) (n : nat) (etas : vec) (grads : nat -> vec) (div_gb div_vol : R) : tensor := fun i j =>
  if early then 0 else chi n etas grads div_gb div_vol i j * dv_dc c.
(** 87-122 *)
Definition flux_eps_dot_detai (early : bool) (c : R) (n : nat) (etas : vec) (grads : nat -> vec) (div_gb div_vol : R) (index : nat) : tensor := fun i j =>
  if early then 0 else
  let dg := dg_detai n etas index in
  let nn := gb_norm n etas grads in
  let k := gb_norm_detai in
  ((outer k nn i j + outer nn k i j) * (rho * div_gb * g_of n etas * fac_gb)
   + outer nn nn i j * (rho * div_gb * dg * fac_gb)
   + diagonal (dg * div_vol / volume_denominator * fac_vol) i j) * v_of c.
(** 124-143 *)
Definition flux_eps_dot_ddiv_gb (early : bool) (c : R) (n : nat) (etas : vec) (grads : nat -> vec) : tensor := fun i j =>
  if early then 0 else
  let normal := gb_norm n etas grads in outer normal normal i j * (v_of c * g_of n etas * rho).
(** 145-160 *)
Definition flux_eps_dot_ddiv_vol (early : bool) (c : R) (n : nat) (etas : vec) : tensor := fun i j =>
  if early then 0 else diagonal (- v_of c * (1 - g_of n etas) / volume_denominator) i j.
End Inelastic.
