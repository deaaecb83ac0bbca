(** Model of the mobilities,
    applications/sintering/include/pf-applications/sintering/mobility.h 29-961, with
    include/pf-applications/base/tensor.h 125-186.

    [double] and one lane of a vectorized array are real numbers, a tensor of rank one
    is a function of the index below [dim].  The values and gradients of the order
    parameters are lists of length [n_grains] (reads beyond the end of the arrays are
    not modelled). *)
From Coq Require Import List Reals Arith.
Import ListNotations.
Local Open Scope R_scope.

(** [compare_and_apply_mask<less_than>], [<greater_than>] *)
Definition mask_lt (a b x y : R) : R := if Rlt_dec a b then x else y.
Definition mask_gt (a b x y : R) : R := if Rlt_dec b a then x else y.

Definition vec := nat -> R.
Fixpoint dot (dim : nat) (a b : vec) : R := match dim with O => 0 | S d => dot d a b + a d * b d end.
Definition norm (dim : nat) (a : vec) : R := sqrt (dot dim a a).

(** tensor.h 137-154 *)
Definition unit_vector (dim : nat) (v : vec) : vec :=
  let nrm := norm dim v in
  let filter := mask_gt nrm (/ 10 ^ 10) 1 0 in
  let filtered_norm := mask_lt nrm (/ 10 ^ 10) 1 nrm in
  fun d => v d / filtered_norm * filter.

(** 156-174 *)
Definition unit_vector_filter_2 (dim : nat) (v : vec) : R :=
  let nrm := dot dim v v in
  mask_gt nrm (/ 10 ^ 20) 1 0 / mask_lt nrm (/ 10 ^ 20) 1 nrm.

(** mobility.h 29-36, [MobilityCoefficients] *)
Record coefficients := mkCoefficients { m_vol : R; m_vap : R; m_surf : R; m_gb : R; m_L : R }.

(** ** 77-202: [ProviderRealistic]; [kT] is [arrhenius_factor * T] *)
Section Provider.
Variables (omega interface_width time_scale length_scale energy_scale arrhenius_factor : R).

(** 148-161 *)
Definition diffusion_coefficient (D0 Q T : R) : R :=
  let D0_dmls := D0 * time_scale / (length_scale * length_scale) in
  let D_dmls := D0_dmls * exp (- Q / (arrhenius_factor * T)) in
  D_dmls * (omega / length_scale ^ 3) / (arrhenius_factor * T) * energy_scale.

(** 163-175 *)
Definition gb_mobility_coefficient (D0 Q T : R) : R :=
  let D0_dmls := D0 * time_scale * energy_scale / length_scale ^ 4 in
  let D_dmls := D0_dmls * exp (- Q / (arrhenius_factor * T)) in
  4 / 3 * D_dmls / interface_width.

(** 129-145; the prefactors and activation energies in the order of the constructor *)
Definition calculate (D_vol0 D_vap0 D_surf0 D_gb0 Q_vol Q_vap Q_surf Q_gb D_gb_mob0 Q_gb_mob T : R) : coefficients :=
  mkCoefficients (diffusion_coefficient D_vol0 Q_vol T) (diffusion_coefficient D_vap0 Q_vap T)
    (diffusion_coefficient D_surf0 Q_surf T) (diffusion_coefficient D_gb0 Q_gb T) (gb_mobility_coefficient D_gb_mob0 Q_gb_mob T).
End Provider.

(** ** Scalar mobility *)
(** 458-465: clamped *)
Definition phi_raw (c : R) : R := c * c * c * (10 - 15 * c + 6 * c * c).
Definition phi (c : R) : R := Rmin 1 (Rmax 0 (phi_raw c)).

(** 317-320, 335-338: the variant with masks *)
Definition phi_masked (c : R) : R :=
  let p := phi_raw c in
  let p := mask_lt p 0 0 p in
  mask_gt p 1 1 p.

(** 314-325, 331-342, 347-354 *)
Definition M_vol (m : coefficients) (c : R) : R := m_vol m * phi_masked c.
Definition M_vap (m : coefficients) (c : R) : R := m_vap m * (1 - phi_masked c).
Definition M_surf (m : coefficients) (c : R) : R := m_surf m * 4 * c * c * (1 - c) * (1 - c).

(** 367-370: for every [i] the values before it *)
Fixpoint inner_sum (e : R) (before : list R) (acc : R) : R :=
  match before with [] => acc | b :: r => inner_sum e r (acc + e * b) end.
Fixpoint outer_sum (before etas : list R) (acc : R) : R :=
  match etas with [] => acc | e :: r => outer_sum (before ++ [e]) r (inner_sum e before acc) end.
Definition eta_ij_sum (etas : list R) : R := outer_sum [] etas 0.

(** 359-374 *)
Definition M_gb (m : coefficients) (etas : list R) : R := m_gb m * (eta_ij_sum etas * 2).

(** 467-471 *)
Definition M_scalar (m : coefficients) (c : R) (etas : list R) : R :=
  m_vol m * phi c + m_vap m * (1 - phi c) + m_surf m * 4 * c * c * (1 - c) * (1 - c) + (2 * m_gb m) * eta_ij_sum etas.

(** 439-474 *)
Definition apply_M_scalar (m : coefficients) (c : R) (etas : list R) (mu : vec) : vec := fun d => M_scalar m c etas * mu d.

(** 380-396 *)
Definition dM_dc_scalar (m : coefficients) (c : R) : R :=
  let dphidc := 30 * c * c * (1 - c) * (1 - c) in
  m_vol m * dphidc - m_vap m * dphidc + m_surf m * 8 * c * (1 - 3 * c + 2 * c * c).

(** 427-432 *)
Fixpoint other_sum (etas : list R) (j i : nat) (acc : R) : R :=
  match etas with [] => acc | e :: r => other_sum r (S j) i (if Nat.eqb j i then acc else acc + e) end.
(** 415-435 *)
Definition dM_detai_scalar (m : coefficients) (etas : list R) (i : nat) : R := 2 * m_gb m * other_sum etas 0 i 0.

(** 525-527 *)
Fixpoint factor_loop (eta_sum : R) (etas values : list R) (acc : R) : R :=
  match etas, values with e :: r, v :: s => factor_loop eta_sum r s (acc + (eta_sum - e) * v) | _, _ => acc end.

(** 478-532; [mu]: gradient at the linearisation point, [c'], [values], [mu']: direction *)
Definition apply_M_derivative_scalar (m : coefficients) (c : R) (etas : list R) (mu : vec) (c' : R) (values : list R) (mu' : vec) : vec :=
  let eta_sum := fold_left Rplus etas 0 in
  let factor := factor_loop eta_sum etas values 0 in
  fun d => M_scalar m c etas * mu' d + (dM_dc_scalar m c * c' + (2 * m_gb m) * factor) * mu d.

(** ** Tensorial mobility *)
Definition projector_scale : R := 1001 / 1000.

(** 765-779 *)
Definition f_vol_vap (m : coefficients) (c : R) : R := m_vol m * phi c + m_vap m * (1 - phi c).
Definition f_surf (m : coefficients) (c : R) : R := m_surf m * 4 * (c * c) * ((1 - c) * (1 - c)).

(** 792-804: a grain is its value and its gradient *)
Definition egrain := (R * vec)%type.
Definition gb_term (dim : nat) (mu : vec) (gi gj : egrain) : vec :=
  let diff := fun d => snd gi d - snd gj d in
  let filter := unit_vector_filter_2 dim diff in
  fun d => (mu d - diff d * (filter * dot dim diff mu)) * (fst gi * fst gj).
Fixpoint gb_inner (term : egrain -> egrain -> vec) (g : egrain) (before : list egrain) (acc : vec) : vec :=
  match before with [] => acc | b :: r => gb_inner term g r (fun d => acc d + term g b d) end.
Fixpoint gb_outer (term : egrain -> egrain -> vec) (before grains : list egrain) (acc : vec) : vec :=
  match grains with [] => acc | g :: r => gb_outer term (before ++ [g]) r (gb_inner term g before acc) end.

(** 758-807 *)
Definition apply_M_tensorial (dim : nat) (m : coefficients) (c : R) (grains : list egrain) (c_grad mu : vec) : vec :=
  let nc := unit_vector dim c_grad in
  let out := fun d => (f_vol_vap m c + f_surf m c * projector_scale) * mu d - nc d * (f_surf m c * dot dim nc mu) in
  if Nat.leb (length grains) 1 then out
  else fun d => out d + gb_outer (gb_term dim mu) [] grains (fun _ => 0) d * (2 * m_gb m).

(** 686-689, 853-861: derivative of the surface part, cut off *)
Definition df_surf (m : coefficients) (c : R) : R :=
  mask_lt (m_surf m * (4 * c * c * (1 - c) * (1 - c))) (/ 10 ^ 6) 0 (m_surf m * 8 * c * (1 - c) * (1 - 2 * c)).

(** 671-696, applied to a vector: [projector_matrix] with diagonal [projector_scale] *)
Definition dM_dc_tensorial (dim : nat) (m : coefficients) (c : R) (c_grad mu : vec) : vec :=
  let dphidc := 30 * (4 * c * c * (1 - c) * (1 - c)) in
  let nc := unit_vector dim c_grad in
  fun d => (m_vol m - m_vap m) * dphidc * mu d + df_surf m c * (projector_scale * mu d - nc d * dot dim nc mu).

(** 885-903: with the values [value_i], [value_j] of the direction *)
Definition gb_term_derivative (dim : nat) (mu mu' : vec) (gi gj : egrain * R) : vec :=
  let diff := fun d => snd (fst gi) d - snd (fst gj) d in
  let filter := unit_vector_filter_2 dim diff in
  fun d => (mu' d - diff d * (filter * dot dim diff mu')) * (fst (fst gi) * fst (fst gj))
           + (mu d - filter * diff d * dot dim diff mu) * (fst (fst gj) * snd gi + fst (fst gi) * snd gj).
Fixpoint gbd_inner (term : egrain * R -> egrain * R -> vec) (g : egrain * R) (before : list (egrain * R)) (acc : vec) : vec :=
  match before with [] => acc | b :: r => gbd_inner term g r (fun d => acc d + term g b d) end.
Fixpoint gbd_outer (term : egrain * R -> egrain * R -> vec) (before grains : list (egrain * R)) (acc : vec) : vec :=
  match grains with [] => acc | g :: r => gbd_outer term (before ++ [g]) r (gbd_inner term g before acc) end.

(** 809-907; the grains with the values of the direction *)
Definition apply_M_derivative_tensorial (dim : nat) (m : coefficients) (c : R) (grains : list (egrain * R)) (c_grad mu : vec)
    (c' : R) (c_grad' mu' : vec) : vec :=
  let nc := unit_vector dim c_grad in
  (* 1) for M *)
  let out1 := fun d => (f_vol_vap m c + f_surf m c) * mu' d - nc d * (f_surf m c * dot dim nc mu') in
  (* 2) for dM_dc *)
  let dphidc := 30 * (4 * c * c * (1 - c) * (1 - c)) in
  let out2 := fun d => (((m_vol m - m_vap m) * dphidc + df_surf m c * projector_scale) * mu d - nc d * (df_surf m c * dot dim nc mu)) * c' in
  (* 3) for dM_dgrad_c *)
  let fsurf := mask_lt (f_surf m c) (/ 10 ^ 6) 0 (f_surf m c) in
  let nrm := mask_lt (norm dim c_grad) (/ 10 ^ 4) 1 (norm dim c_grad) in
  let temp := fun d => c_grad' d - nc d * dot dim nc c_grad' in
  let out3 := fun d => (- fsurf / nrm) * (dot dim nc mu * temp d + nc d * dot dim mu temp) in
  let out := fun d => out1 d + out2 d + out3 d in
  if Nat.leb (length grains) 1 then out
  else fun d => out d + gbd_outer (gb_term_derivative dim mu mu') [] grains (fun _ => 0) d * (2 * m_gb m).
