(** Model of the grain growth operator,
    applications/sintering/include/pf-applications/sintering/operator_grain_growth.h:
    free energy 38-187, linearised operator 559-610, domain quantities 716-734, residual
    805-883, and of compute_time_derivative,
    include/pf-applications/time_integration/time_integrators.h 68-104.

    One lane of a vectorized array is a real number; values and gradients of a cell are
    lists over its order parameters.  Points, shape functions, gathering and scattering are
    those of OperatorModel.  [None]: access out of range.  Not modelled: the number of
    grains is a template parameter (two to MAX_SINTERING_GRAINS; one grain is refused by
    instantiation.h 128-134); old solutions are read without resolving constraints
    (read_dof_values_plain), which is the same if they satisfy the constraints. *)
From Coq Require Import List Reals Arith.
From Verif Require Import Util MobilityModel FreeEnergyModel OperatorModel.
Import ListNotations.
Local Open Scope R_scope.

(** 41-42 and operator_sintering_data.h: [kappa_p], mobility [Lgb()], weights of the time
    integrator *)
Record gg_data := mkGG { g_A : R; g_B : R; g_L : R; g_kappa : R; g_weights : list R; g_dim : nat }.

(** 182-186 *)
Record gg_eval := mkGGE { y_A : R; y_B : R; y_mixed : option R; y_s2 : R; y_s4 : option R }.

(** 66-67: row [i] of the loop from [j] on *)
Fixpoint mixed_row (state : list R) (i : nat) (n j : nat) (acc : R) : option R :=
  match n with
  | O => Some acc
  | S n =>
      a <- vget state i ;; b <- vget state j ;;
      mixed_row state i n (S j) (acc + a * a * b * b)
  end.
(** 64-67; [m] rows remain *)
Fixpoint mixed_loop (state : list R) (n m i : nat) (acc : R) : option R :=
  match m with
  | O => Some acc
  | S m => acc <- mixed_row state i (n - S i) (S i) acc ;; mixed_loop state n m (S i) acc
  end.

(** 51-69 (and 71-93, 95-119, 121-137): [with_power_4] *)
Definition gg_evaluate (with_power_4 : bool) (p : gg_data) (state : list R) (n_grains : nat) : option gg_eval :=
  s2 <- power_sum n_grains 2 state ;;
  if with_power_4 then
    s4 <- power_sum n_grains 4 state ;;
    m <- mixed_loop state n_grains n_grains 0 0 ;;
    Some (mkGGE (g_A p) (g_B p) (Some m) s2 (Some s4))
  else Some (mkGGE (g_A p) (g_B p) None s2 None).

(** 139-148 *)
Definition gg_f (e : gg_eval) : option R :=
  s4 <- y_s4 e ;; m <- y_mixed e ;;
  Some (- y_A e / 2 * y_s2 e + y_B e / 4 * s4 + m + 1 / 4).
(** 150-157 *)
Definition gg_df (e : gg_eval) (eta : R) : R :=
  - y_A e * eta + y_B e * (eta * eta * eta) + 2 * eta * (y_s2 e - eta * eta).
(** 166-172 *)
Definition gg_d2f_ii (e : gg_eval) (eta : R) : R := - y_A e + 3 * y_B e * (eta * eta) + 2 * (y_s2 e - eta * eta).
(** 174-179 *)
Definition gg_d2f_ij (e : gg_eval) (etai etaj : R) : R := 4 * etai * etaj.

(** ** Residual *)

(** time_integrators.h 83-88: [weights] from the second on, values of the old solutions *)
Fixpoint old_terms (weights : list R) (olds : list (list R)) (index : nat) (acc : R) : option R :=
  match weights, olds with
  | [], _ => Some acc
  | w :: weights, o :: olds => v <- vget o index ;; old_terms weights olds index (acc + v * w)
  | _ :: _, [] => None
  end.
(** time_integrators.h 68-104 *)
Definition compute_time_derivative (weights : list R) (value_result val : R) (olds : list (list R)) (index : nat) : option R :=
  match weights with
  | [] => None
  | w :: ws => old_terms ws olds index (value_result + val * w)
  end.

(** 864-874: rows of the order parameters from [ig] on *)
Fixpoint gg_rows (p : gg_data) (wtd : bool) (e : gg_eval) (olds : list (list R)) (ig : nat) (etas : list R) (gs : list vec) : option (list R * list vec) :=
  match etas, gs with
  | [], [] => Some ([], [])
  | eta :: etas, g :: gs =>
      let r := g_L p * gg_df e eta in
      r <- (if wtd then compute_time_derivative (g_weights p) r eta olds ig else Some r) ;;
      rest <- gg_rows p wtd e olds (S ig) etas gs ;;
      Some (r :: fst rest, (fun d => g_L p * g_kappa p * g d) :: snd rest)
  | _, _ => None
  end.
(** 845-878; EnergyFirst: without the fourth powers *)
Definition gg_residual_point (p : gg_data) (wtd : bool) (olds : list (list R)) (value : list R) (gradient : list vec) : option (list R * list vec) :=
  e <- gg_evaluate false p value (length value) ;;
  gg_rows p wtd e olds 0 value gradient.
(** 805-883 *)
Definition gg_residual (p : gg_data) (n : nat) (pts : list point) (wtd : bool) (olds : list state) (u : state) (k i : nat) : option R :=
  cell_loop (g_dim p) (fun q => gg_residual_point p wtd (map (values n q) olds) (values n q u) (grads n q u)) pts k i.

(** ** Linearised operator *)

(** 596-604, inner loop over [jg] below [ig] *)
Fixpoint gg_inner (p : gg_data) (e : gg_eval) (lin value : list R) (ig n jg : nat) (res : list R) : option (list R) :=
  match n with
  | O => Some res
  | S n =>
      li <- vget lin ig ;; lj <- vget lin jg ;; vi <- vget value ig ;; vj <- vget value jg ;;
      let d := gg_d2f_ij e li lj in
      ri <- vget res ig ;; res <- vset res ig (ri + g_L p * d * vj) ;;
      rj <- vget res jg ;; res <- vset res jg (rj + g_L p * d * vi) ;;
      gg_inner p e lin value ig n (S jg) res
  end.
(** 587-605: rows from [ig] on, [n] rows remain *)
Fixpoint gg_outer (p : gg_data) (weight : R) (e : gg_eval) (lin value : list R) (n ig : nat) (res : list R) : option (list R) :=
  match n with
  | O => Some res
  | S n =>
      l <- vget lin ig ;; v <- vget value ig ;; r <- vget res ig ;;
      res <- vset res ig (r + (v * weight + g_L p * gg_d2f_ii e l * v)) ;;
      res <- gg_inner p e lin value ig ig 0 res ;;
      gg_outer p weight e lin value n (S ig) res
  end.
(** 572-609; the result is zero at first (constructor of Tensor); the primary weight is the
    first one *)
Definition gg_vmult_point (p : gg_data) (lin value : list R) (gradient : list vec) : option (list R * list vec) :=
  weight <- vget (g_weights p) 0 ;;
  e <- gg_evaluate false p lin (length value) ;;
  res <- gg_outer p weight e lin value (length value) 0 (repeat 0 (length value)) ;;
  Some (res, map (fun (g : vec) d => g_L p * g_kappa p * g d) gradient).
Definition gg_vmult (p : gg_data) (n : nat) (pts : list point) (u src : state) (k i : nat) : option R :=
  cell_loop (g_dim p) (fun q => gg_vmult_point p (values n q u) (values n q src) (grads n q src)) pts k i.

(** ** Domain quantities, 716-734 [free_energy] *)
Definition gg_energy_point (p : gg_data) (value : list R) (gradient : list vec) : option R :=
  let energy := norm_squares (g_dim p) gradient 0 * (1 / 2 * g_kappa p) in
  e <- gg_evaluate true p value (length value) ;;
  v <- gg_f e ;;
  Some (energy + v).
Definition gg_free_energy (p : gg_data) (n : nat) (pts : list point) (u : state) : option R :=
  domain_quantity (fun q => gg_energy_point p (values n q u) (grads n q u)) pts.
