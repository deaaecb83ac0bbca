(** Model of the grand potential operator of Greenquist,
    applications/sintering/include/pf-applications/sintering/operator_grand_potential_greenquist.h:
    free energy 38-530, linearised operator 853-1101, residual 1271-1414, with the scalar
    mobility (mobility.h 305-435, 550-560).

    One lane of a vectorized array is a real number.  The material constants (488-523) are
    parameters.  Points, shape functions, gathering and scattering are those of
    OperatorModel, time derivatives those of GrainGrowthModel.  [None]: access out of
    range.  Not modelled: the tensorial mobility; the first and second component have no
    advection in this operator. *)
From Coq Require Import List Reals Arith.
From Verif Require Import Util MobilityModel FreeEnergyModel OperatorModel GrainGrowthModel.
Import ListNotations.
Local Open Scope R_scope.

(** 488-523, with the weights of the time integrator, the mobility and the dimension *)
Record gq_data := mkGQ {
  c_Va : R; c_kb : R; c_km : R; c_Lphi : R; c_L : R; c_eps_s : R; c_eps_gb : R; c_kap_s : R; c_kap_gb : R;
  c_ceq_B : R; c_ceq_GB : R; c_cb_eq : R; c_gamma : R;
  c_weights : list R; c_mobility : coefficients; c_dim : nat }.

(** 525-529 *)
Record gq_eval := mkGQE { z_phi : R; z_mu : R; z_s2 : R; z_s4 : R; z_mixed : R }.

(** 71-90 (and 48-69, 92-111, 113-132): the phases are component 0 and the components from
    2 on *)
Definition gq_evaluate (state : list R) (n_grains : nat) : option gq_eval :=
  match state with
  | phi :: mu :: etas =>
      let phases := phi :: firstn n_grains etas in
      if Nat.ltb (length etas) n_grains then None
      else
        s2 <- power_sum (S n_grains) 2 phases ;;
        s4 <- power_sum (S n_grains) 4 phases ;;
        m <- mixed_loop phases (length phases) (length phases) 0 0 ;;
        Some (mkGQE phi mu s2 s4 (m * 2))
  | _ => None
  end.

(** 134-151 *)
Definition gq_H (phi0 phi : R) : R :=
  let h := 6 * phi ^ 5 / phi0 ^ 5 - 15 * phi ^ 4 / phi0 ^ 4 + 10 * phi ^ 3 / phi0 ^ 3 in
  let h := mask_lt phi 0 0 h in
  mask_gt phi phi0 1 h.
(** 153-170 *)
Definition gq_dH (phi0 phi : R) : R :=
  let h := 30 * phi ^ 4 / phi0 ^ 5 - 60 * phi ^ 3 / phi0 ^ 4 + 30 * phi ^ 2 / phi0 ^ 3 in
  let h := mask_lt phi 0 0 h in
  mask_gt phi phi0 0 h.
(** 172-187 *)
Definition gq_d2H (phi0 phi : R) : R :=
  let h := 120 * phi ^ 3 / phi0 ^ 5 - 180 * phi ^ 2 / phi0 ^ 4 + 60 * phi / phi0 ^ 3 in
  let h := mask_lt phi 0 0 h in
  mask_gt phi phi0 0 h.

Section Evaluation.
Variables (p : gq_data) (e : gq_eval).
(** 189-223 *)
Definition hb : R := gq_H 1 (z_phi e).
Definition dhb : R := gq_dH 1 (z_phi e).
Definition d2hb : R := gq_d2H 1 (z_phi e).
Definition hm : R := 1 - gq_H 1 (z_phi e).
Definition dhm : R := - gq_dH 1 (z_phi e).
Definition d2hm : R := - gq_d2H 1 (z_phi e).
(** 225-235 *)
Definition chi : R := 1 / (c_Va p * c_Va p) * (hb / c_kb p + hm / c_km p).
Definition dchi_dphi : R := 1 / (c_Va p * c_Va p) * (dhb / c_kb p + dhm / c_km p).
(** 237-256 *)
Definition switching (fac_s fac_gb : R) : R := fac_s * gq_H (3 / 10) (z_phi e) + fac_gb * (1 - gq_H (3 / 10) (z_phi e)).
Definition dswitching (fac_s fac_gb : R) : R := fac_s * gq_dH (3 / 10) (z_phi e) - fac_gb * gq_dH (3 / 10) (z_phi e).
Definition d2switching (fac_s fac_gb : R) : R := fac_s * gq_d2H (3 / 10) (z_phi e) - fac_gb * gq_d2H (3 / 10) (z_phi e).
(** 258-292 *)
Definition epsilon : R := switching (c_eps_s p) (c_eps_gb p).
Definition depsilon : R := dswitching (c_eps_s p) (c_eps_gb p).
Definition d2epsilon : R := d2switching (c_eps_s p) (c_eps_gb p).
Definition kappa : R := switching (c_kap_s p) (c_kap_gb p).
Definition dkappa : R := dswitching (c_kap_s p) (c_kap_gb p).
(** 367-398 *)
Definition cm_eq : R := c_ceq_B p + 4 * (c_ceq_GB p - c_ceq_B p) * ((1 - z_s2 e) * (1 - z_s2 e)).
Definition dcm_eq (x : R) : R := -16 * (c_ceq_GB p - c_ceq_B p) * (1 - z_s2 e) * x.
Definition d2cm_eq_ii (x : R) : R := -16 * (c_ceq_GB p - c_ceq_B p) * (1 - z_s2 e - 2 * x * x).
Definition d2cm_eq_ij (x y : R) : R := 32 * (c_ceq_GB p - c_ceq_B p) * x * y.
(** 294-312 *)
Definition omega_b : R := - 1 * z_mu e * z_mu e / (2 * c_Va p * c_Va p * c_kb p) - c_cb_eq p * z_mu e / c_Va p.
Definition domega_b_dmu : R := - 1 * z_mu e / (c_Va p * c_Va p * c_kb p) - c_cb_eq p / c_Va p.
Definition d2omega_b_dmu2 : R := - 1 / (c_Va p * c_Va p * c_kb p).
(** 314-365 *)
Definition omega_m : R := - 1 * z_mu e * z_mu e / (2 * c_Va p * c_Va p * c_km p) - cm_eq * z_mu e / c_Va p.
Definition domega_m_dmu : R := - 1 * z_mu e / (c_Va p * c_Va p * c_km p) - cm_eq / c_Va p.
Definition domega_m (x : R) : R := - 1 * dcm_eq x * z_mu e / c_Va p.
Definition d2omega_m_dmu (x : R) : R := - 1 * dcm_eq x / c_Va p.
Definition d3omega_m_dmu_ii (x : R) : R := - 1 * d2cm_eq_ii x / c_Va p.
Definition d3omega_m_dmu_ij (x y : R) : R := - 1 * d2cm_eq_ij x y / c_Va p.
Definition d2omega_m_ii (x : R) : R := - 1 * d2cm_eq_ii x * z_mu e / c_Va p.
Definition d2omega_m_ij (x y : R) : R := - 1 * d2cm_eq_ij x y * z_mu e / c_Va p.
(** 400-428 *)
Definition zeta : R := z_s4 e + c_gamma p * z_mixed e + 1 / 4.
Definition dzeta (x : R) : R := x * x * x - x + 2 * c_gamma p * x * (z_s2 e - x * x).
Definition d2zeta_ii (x : R) : R := 3 * (x * x) - 1 + 2 * c_gamma p * (z_s2 e - x * x).
Definition d2zeta_ij (x y : R) : R := 4 * c_gamma p * x * y.
End Evaluation.

(** mobility.h 550-560 *)
Definition dM_surf_dc (m : coefficients) (c : R) : R := m_surf m * (8 * c * (1 - 3 * c + 2 * c * c)).

(** ** Residual *)

(** 1347-1351, components from [ic] on; the result is zero at first (constructor of Tensor) *)
Fixpoint gq_times (weights : list R) (wtd : bool) (olds : list (list R)) (ic : nat) (vals : list R) : option (list R) :=
  match vals with
  | [] => Some []
  | v :: vals =>
      t <- (if wtd then compute_time_derivative weights 0 v olds ic else Some 0) ;;
      rest <- gq_times weights wtd olds (S ic) vals ;;
      Some (t :: rest)
  end.
(** 1373-1384 *)
Fixpoint gq_eta_rows (p : gq_data) (e : gq_eval) (times etas : list R) (gs : list vec) : option (list R * list vec) :=
  match times, etas, gs with
  | [], [], [] => Some ([], [])
  | t :: times, eta :: etas, g :: gs =>
      rest <- gq_eta_rows p e times etas gs ;;
      Some (t + c_L p * (hm e * domega_m p e eta + epsilon p e * dzeta p e eta) :: fst rest,
            (fun d => c_L p * kappa p e * g d) :: snd rest)
  | _, _, _ => None
  end.
(** 1311-1407 *)
Definition gq_residual_point (p : gq_data) (wtd : bool) (olds : list (list R)) (value : list R) (gradient : list vec) : option (list R * list vec) :=
  match value, gradient with
  | phi :: mu :: etas, gphi :: gmu :: getas =>
      e <- gq_evaluate value (length etas) ;;
      times <- gq_times (c_weights p) wtd olds 0 value ;;
      match times with
      | tphi :: tmu :: tetas =>
          rest <- gq_eta_rows p e tetas etas getas ;;
          let r0 := tphi + c_Lphi p * (dhb e * omega_b p e + dhm e * omega_m p e + hm e * domega_m p e phi + depsilon p e * zeta p e + epsilon p e * dzeta p e phi) in
          let dphi_dt := tphi * (dhb e * domega_b_dmu p e + dhm e * domega_m_dmu p e + hm e * d2omega_m_dmu p e phi) * - 1 in
          let r1 := tmu * chi p e + dphi_dt in
          let m := c_mobility p in
          Some (r0 :: r1 :: fst rest,
                (fun d => c_Lphi p * kappa p e * gphi d)
                  :: (fun d => chi p e * (M_vol m 1 + M_surf m phi + M_gb m etas) * gmu d) :: snd rest)
      | _ => None
      end
  | _, _ => None
  end.
Definition gq_residual (p : gq_data) (n : nat) (pts : list point) (wtd : bool) (olds : list state) (u : state) (k i : nat) : option R :=
  cell_loop (c_dim p) (fun q => gq_residual_point p wtd (map (values n q) olds) (values n q u) (grads n q u)) pts k i.

(** ** Linearised operator *)

(** 956-974 *)
Fixpoint phi_loop (p : gq_data) (e : gq_eval) (phi : R) (lins values : list R) (r : R) : option R :=
  match lins, values with
  | [], [] => Some r
  | l :: lins, v :: values =>
      phi_loop p e phi lins values
        (r + c_Lphi p * (dhm e * domega_m p e l + hm e * d2omega_m_ij p e phi l + depsilon p e * dzeta p e l + epsilon p e * d2zeta_ij p phi l) * v)
  | _, _ => None
  end.
(** 1004-1013 *)
Fixpoint mu_loop (p : gq_data) (e : gq_eval) (phi dphi_dt : R) (lins values : list R) (r : R) : option R :=
  match lins, values with
  | [], [] => Some r
  | l :: lins, v :: values =>
      mu_loop p e phi dphi_dt lins values (r - (dhm e * d2omega_m_dmu p e l + hm e * d3omega_m_dmu_ij p phi l) * v * dphi_dt)
  | _, _ => None
  end.
(** 1038-1048 *)
Fixpoint flux_loop (p : gq_data) (e : gq_eval) (gmu : vec) (lins : list R) (ig : nat) (values : list R) (g : vec) : vec :=
  match values with
  | [] => g
  | v :: values => flux_loop p e gmu lins (S ig) values (fun d => g d + chi p e * (dM_detai_scalar (c_mobility p) lins ig * gmu d * v))
  end.
(** 1082-1092 *)
Fixpoint eta_inner (p : gq_data) (e : gq_eval) (l : R) (ig jg : nat) (lins values : list R) (r : R) : option R :=
  match lins, values with
  | [], [] => Some r
  | lj :: lins, vj :: values =>
      eta_inner p e l ig (S jg) lins values
        (if Nat.eqb jg ig then r else r + c_L p * (hm e * d2omega_m_ij p e l lj + epsilon p e * d2zeta_ij p l lj) * vj)
  | _, _ => None
  end.
(** 1051-1097: rows from [ig] on *)
Fixpoint gq_eta_rows_lin (p : gq_data) (e : gq_eval) (weight phi : R) (all_lins all_values : list R) (v0 v1 : R) (ig : nat) (lins values : list R) (gs : list vec)
  : option (list R * list vec) :=
  match lins, values, gs with
  | [], [], [] => Some ([], [])
  | l :: lins, v :: values, g :: gs =>
      let r := v * weight in
      let r := r + c_L p * (dhm e * domega_m p e l + hm e * d2omega_m_ij p e l phi + depsilon p e * dzeta p e l + epsilon p e * d2zeta_ij p l phi) * v0 in
      let r := r + c_L p * (hm e * d2omega_m_dmu p e l) * v1 in
      let r := r + c_L p * (hm e * d2omega_m_ii p e l + epsilon p e * d2zeta_ii p e l) * v in
      r <- eta_inner p e l ig 0 all_lins all_values r ;;
      rest <- gq_eta_rows_lin p e weight phi all_lins all_values v0 v1 (S ig) lins values gs ;;
      Some (r :: fst rest, (fun d => c_L p * kappa p e * g d) :: snd rest)
  | _, _, _ => None
  end.
(** 853-1101 at a point.  [junk0], [junk1]: contents of [dphi_dt] and [dmu_dt], which are
    declared without initial value (912) and then added to (914-918) *)
Definition gq_vmult_point (p : gq_data) (junk0 junk1 : R) (olds : list (list R)) (lin : list R) (lin_gradient : list vec) (value : list R) (gradient : list vec)
  : option (list R * list vec) :=
  match lin, lin_gradient, value, gradient with
  | phi :: mu :: lins, gphi :: gmu :: _, v0 :: v1 :: values, g0 :: g1 :: gs =>
      weight <- vget (c_weights p) 0 ;;
      e <- gq_evaluate lin (length lins) ;;
      dphi_dt <- compute_time_derivative (c_weights p) junk0 phi olds 0 ;;
      dmu_dt <- compute_time_derivative (c_weights p) junk1 mu olds 1 ;;
      (* phi row *)
      let r0 := v0 * weight in
      let r0 := r0 + c_Lphi p *
        (d2hb e * omega_b p e + d2hm e * omega_m p e + dhm e * domega_m p e phi + dhm e * domega_m p e phi + hm e * d2omega_m_ii p e phi
         + d2epsilon p e * zeta p e + depsilon p e * dzeta p e phi + depsilon p e * dzeta p e phi + epsilon p e * d2zeta_ii p e phi) * v0 in
      let r0 := r0 + c_Lphi p * (dhb e * domega_b_dmu p e + dhm e * domega_m_dmu p e + hm e * d2omega_m_dmu p e phi) * v1 in
      r0 <- phi_loop p e phi lins values r0 ;;
      (* mu row *)
      let r1 := v1 * weight * chi p e + dmu_dt * dchi_dphi p e * v0 in
      let r1 := r1 - (dhb e * domega_b_dmu p e + dhm e * domega_m_dmu p e + hm e * d2omega_m_dmu p e phi) * v0 * weight in
      let r1 := r1 - (d2hb e * domega_b_dmu p e + d2hm e * domega_m_dmu p e + dhm e * d2omega_m_dmu p e phi + dhm e * d2omega_m_dmu p e phi
                      + hm e * d3omega_m_dmu_ii p e phi) * v0 * dphi_dt in
      let r1 := r1 - (dhb e * d2omega_b_dmu2 p + dhm e * d2omega_b_dmu2 p) * v1 * dphi_dt in
      r1 <- mu_loop p e phi dphi_dt lins values r1 ;;
      let m := c_mobility p in
      let mob := M_vol m 1 + M_surf m phi + M_gb m lins in
      let gr1 := fun d => mob * gmu d * dchi_dphi p e * v0 + mob * chi p e * g1 d + chi p e * (dM_surf_dc m phi * gmu d * v0) in
      (* eta rows *)
      rest <- gq_eta_rows_lin p e weight phi lins values v0 v1 0 lins values gs ;;
      Some (r0 :: r1 :: fst rest,
            (fun d => c_Lphi p * dkappa p e * gphi d * v0 + c_Lphi p * kappa p e * g0 d)
              :: flux_loop p e gmu lins 0 values gr1 :: snd rest)
  | _, _, _, _ => None
  end.
Definition gq_vmult (p : gq_data) (n : nat) (pts : list point) (junk0 junk1 : R) (olds : list state) (u src : state) (k i : nat) : option R :=
  cell_loop (c_dim p) (fun q => gq_vmult_point p junk0 junk1 (map (values n q) olds) (values n q u) (grads n q u) (values n q src) (grads n q src)) pts k i.
