(** Model of the coupled Cahn-Hilliard and Allen-Cahn operator,
    applications/sintering/include/pf-applications/sintering/operator_sintering_generic.h
    25-1078, with the energy of operator_sintering_base.h 470-490.

    [double] and one lane of a vectorized array are real numbers.  A quadrature point is
    its weight times determinant, the values and gradients of the (constrained) shape
    functions, the blocks the cell reads and the velocities of these blocks; the loop over
    cells is a list of such points.  [None]: access out of range. *)
From Coq Require Import List Reals Arith.
From Verif Require Import Util FreeEnergyModel MobilityModel.
Import ListNotations.
Local Open Scope R_scope.

(** members of [SinteringOperatorGenericQuad] (185-199) and
    [SinteringOperatorGenericResidualQuad] (311-321); [L] is [mobility.Lgb()];
    [o_tensorial] is the compile-time switch [use_tensorial_mobility] *)
Record op_data := mkOp {
  o_dim : nat; o_A : R; o_B : R; o_kappa_c : R; o_kappa_p : R;
  o_weight : R; o_weight_alg : R; o_mobility : coefficients; o_tensorial : bool }.
Definition o_L (p : op_data) : R := m_L (o_mobility p).

(** [mobility.apply_M] and [apply_M_derivative] of the chosen mobility *)
Definition apply_M (p : op_data) (c : R) (etas : list R) (c_grad : vec) (eta_grads : list vec) (mu_grad : vec) : vec :=
  if o_tensorial p then apply_M_tensorial (o_dim p) (o_mobility p) c (combine etas eta_grads) c_grad mu_grad
  else apply_M_scalar (o_mobility p) c etas mu_grad.
Definition apply_M_derivative (p : op_data) (c : R) (etas : list R) (c_grad : vec) (eta_grads : list vec) (mu_grad : vec)
    (c' : R) (etas' : list R) (c_grad' mu_grad' : vec) : vec :=
  if o_tensorial p then apply_M_derivative_tensorial (o_dim p) (o_mobility p) c (combine (combine etas eta_grads) etas') c_grad mu_grad c' c_grad' mu_grad'
  else apply_M_derivative_scalar (o_mobility p) c etas mu_grad c' etas' mu_grad'.

(** 265-268 and 289-292: the terms of the time derivative of row [i] *)
Definition time_terms (with_time_derivative : nat) (weight : R) (buffer : list R) (i : nat) (v r : R) : option R :=
  let r := if Nat.leb 1 with_time_derivative then r + v * weight else r in
  if Nat.eqb with_time_derivative 2 then b <- vget buffer i ;; Some (r + b) else Some r.

(** 284-295: the rows of the order parameters, [i] is [2 + ig] *)
Fixpoint eta_rows (p : op_data) (with_time_derivative : nat) (buffer : list R) (e : evaluation) (i : nat)
    (etas : list R) (grads : list vec) : option (list R * list vec) :=
  match etas, grads with
  | [], [] => Some ([], [])
  | eta :: etas, g :: grads =>
      r <- time_terms with_time_derivative (o_weight p) buffer i eta (o_L p * df_detai e eta) ;;
      rest <- eta_rows p with_time_derivative buffer e (S i) etas grads ;;
      Some (r :: fst rest, (fun d => o_L p * o_kappa_p p * g d) :: snd rest)
  | _, _ => None
  end.

(** 242-309: residual at a quadrature point *)
Definition residual_quad (p : op_data) (with_time_derivative : nat) (buffer : list R) (value : list R) (gradient : list vec)
  : option (list R * list vec) :=
  match value, gradient with
  | c :: mu :: etas, gc :: gmu :: getas =>
      e <- eval_static true (o_A p) (o_B p) value (length etas) ;;
      (* 1) process c row *)
      rc <- time_terms with_time_derivative (o_weight p) buffer 0 c 0 ;;
      (* 2) process mu row *)
      dfc <- df_dc e ;;
      (* 3) process eta rows *)
      rest <- eta_rows p with_time_derivative buffer e 2 etas getas ;;
      Some (rc :: (o_weight_alg p * mu - dfc) :: fst rest,
            apply_M p c etas gc getas gmu :: (fun d => - o_kappa_c p * gc d) :: snd rest)
  | _, _ => None
  end.

(** 833-845 and 156-166: advection; for every order parameter of the cell its velocity at
    the point if [has_velocity] *)
Fixpoint advect (velocities : list (option vec)) (c : R) (etas : list R) (g0 : vec) (gs : list vec) : option (vec * list vec) :=
  match velocities, etas, gs with
  | [], [], [] => Some (g0, [])
  | v :: velocities, e :: etas, g :: gs =>
      let g0' := match v with Some v => fun d => g0 d - v d * c | None => g0 end in
      let g' := match v with Some v => fun d => g d - v d * e | None => g end in
      rest <- advect velocities c etas g0' gs ;;
      Some (fst rest, g' :: snd rest)
  | _, _, _ => None
  end.
Definition add_advection (velocities : list (option vec)) (value : list R) (r : list R * list vec) : option (list R * list vec) :=
  match value, snd r with
  | c :: _ :: etas, g0 :: g1 :: gs =>
      a <- advect velocities c etas g0 gs ;;
      Some (fst r, fst a :: g1 :: snd a)
  | _, _ => None
  end.

(** 823-849: residual with advection *)
Definition residual_point (p : op_data) (with_time_derivative : nat) (buffer : list R) (velocities : list (option vec))
    (value : list R) (gradient : list vec) : option (list R * list vec) :=
  r <- residual_quad p with_time_derivative buffer value gradient ;;
  add_advection velocities value r.

(** 129-131 *)
Fixpoint mu_row_loop (e : evaluation) (lin_etas values : list R) (r : R) : option R :=
  match lin_etas, values with
  | [], [] => Some r
  | eta :: lin_etas, v :: values => mu_row_loop e lin_etas values (r - d2f_dcdetai e eta * v)
  | _, _ => None
  end.

(** 138-148; [value_result] is zero before *)
Fixpoint eta_rows_lin (p : op_data) (e : evaluation) (c' : R) (lin_etas values : list R) (grads : list vec) : option (list R * list vec) :=
  match lin_etas, values, grads with
  | [], [], [] => Some ([], [])
  | eta :: lin_etas, v :: values, g :: grads =>
      rest <- eta_rows_lin p e c' lin_etas values grads ;;
      Some ((0 + (v * o_weight p + o_L p * (d2f_dcdetai e eta * c' + d2f_detai2 e eta * v))) :: fst rest,
            (fun d => o_L p * o_kappa_p p * g d) :: snd rest)
  | _, _, _ => None
  end.

(** 99-179: linearised operator at a quadrature point.  The scalar mobility reads two
    linearisation gradients only; [lin_gradient] from the buffer (113-120, 201-225) is not
    distinguished from the stored one *)
Definition vmult_point (p : op_data) (velocities : list (option vec)) (lin_value : list R) (lin_gradient : list vec)
    (value : list R) (gradient : list vec) : option (list R * list vec) :=
  match lin_value, lin_gradient, value, gradient with
  | c :: _ :: etas, gc :: gmu :: getas, c' :: mu' :: etas', gc' :: gmu' :: getas' =>
      e <- eval_static false (o_A p) (o_B p) lin_value (length etas) ;;
      (* 2) process mu row *)
      rmu <- mu_row_loop e etas etas' (o_weight_alg p * mu' - d2f_dc2 e * c') ;;
      (* 3) process eta rows *)
      rest <- eta_rows_lin p e c' etas etas' getas' ;;
      retas <- apply_d2f_detaidetaj (o_L p) (o_B p) etas (length etas) etas' (fst rest) ;;
      (* 4) add advection contributations *)
      add_advection velocities value
        (c' * o_weight p :: rmu :: retas,
         apply_M_derivative p c etas gc getas gmu c' etas' gc' gmu' :: (fun d => - o_kappa_c p * gc' d) :: snd rest)
  | _, _, _, _ => None
  end.

(** ** Discretisation *)

(** a value for every block and degree of freedom; all blocks share one enumeration *)
Notation state := (nat -> nat -> R).

Record point := mkPoint {
  q_w : R;                           (** JxW *)
  q_N : nat -> R;                    (** values of the shape functions, constraints resolved *)
  q_G : nat -> vec;                  (** gradients *)
  q_blocks : list nat;               (** blocks read by the cell, 474-487, 1031-1046; without cut-off all *)
  q_vel : list (option vec) }.

Fixpoint vsum (n : nat) (f : nat -> R) : R := match n with O => 0 | S n => vsum n f + f n end.

(** [phi.get_value(q)], [phi.get_gradient(q)] *)
Definition value_at (n : nat) (q : point) (u : state) (b : nat) : R := vsum n (fun j => q_N q j * u b j).
Definition grad_at (n : nat) (q : point) (u : state) (b : nat) : vec := fun d => vsum n (fun j => q_G q j d * u b j).
Definition values (n : nat) (q : point) (u : state) : list R := map (value_at n q u) (q_blocks q).
Definition grads (n : nat) (q : point) (u : state) : list vec := map (grad_at n q u) (q_blocks q).

(** 857-903, the part on degrees of freedom: the weighted sum of the old solutions,
    [weights] without the first one.  (With order zero the buffer is not written.) *)
Fixpoint history_loop (weights : list R) (olds : list state) (acc : state) : option state :=
  match weights, olds with
  | [], _ => Some acc
  | w :: weights, o :: olds => history_loop weights olds (fun b j => acc b j + o b j * w)
  | _ :: _, [] => None
  end.
Definition history_state (weights : list R) (olds : list state) : option state :=
  match weights, olds with
  | w :: weights, o :: olds => history_loop weights olds (fun b j => o b j * w)
  | _, _ => None
  end.

(** [phi.submit_value], [submit_gradient], [integrate] and [distribute_local_to_global]:
    contribution of a point to entry [i] of block [k] *)
Fixpoint scatter (dim : nat) (q : point) (blocks : list nat) (vs : list R) (gs : list vec) (k i : nat) : R :=
  match blocks, vs, gs with
  | b :: blocks, v :: vs, g :: gs =>
      (if Nat.eqb b k then q_w q * (q_N q i * v + dot dim (q_G q i) g) else 0) + scatter dim q blocks vs gs k i
  | _, _, _ => 0
  end.

Fixpoint cell_loop (dim : nat) (f : point -> option (list R * list vec)) (pts : list point) (k i : nat) : option R :=
  match pts with
  | [] => Some 0
  | q :: pts =>
      r <- f q ;;
      s <- cell_loop dim f pts k i ;;
      Some (scatter dim q (q_blocks q) (fst r) (snd r) k i + s)
  end.

(** 395-441, 979-1073 [evaluate_nonlinear_residual]; [history]: the weighted sum of the old
    solutions *)
Definition residual (p : op_data) (n : nat) (pts : list point) (with_time_derivative : nat) (history u : state) (k i : nat) : option R :=
  cell_loop (o_dim p) (fun q => residual_point p with_time_derivative (values n q history) (q_vel q) (values n q u) (grads n q u)) pts k i.

(** 449-582 [vmult_internal], linearised at [u] *)
Definition vmult (p : op_data) (n : nat) (pts : list point) (u src : state) (k i : nat) : option R :=
  cell_loop (o_dim p) (fun q => vmult_point p (q_vel q) (values n q u) (grads n q u) (values n q src) (grads n q src)) pts k i.

(** operator_sintering_base.h 470-490, quantity [free_energy], at a point; [grads] in the
    order of the components *)
Fixpoint norm_squares (dim : nat) (gs : list vec) (acc : R) : R :=
  match gs with [] => acc | g :: gs => norm_squares dim gs (acc + dot dim g g) end.
Definition energy_point (p : op_data) (value : list R) (gradient : list vec) : option R :=
  match value, gradient with
  | _ :: _ :: etas, gc :: _ :: getas =>
      let energy := norm_squares (o_dim p) getas 0 * (1 / 2 * o_kappa_p p) in
      let energy := energy + 1 / 2 * o_kappa_c p * dot (o_dim p) gc gc in
      e <- eval_static true (o_A p) (o_B p) value (length etas) ;;
      v <- f e ;;
      Some (energy + v)
  | _, _ => None
  end.

(** operator_base.h 842-928 [do_calc_domain_quantities]: sum over the points, predicate one
    (all components are read, with the values of constrained entries, which the
    constraints determine) *)
Fixpoint domain_quantity (g : point -> option R) (pts : list point) : option R :=
  match pts with
  | [] => Some 0
  | q :: pts => v <- g q ;; s <- domain_quantity g pts ;; Some (v * q_w q + s)
  end.
Definition free_energy (p : op_data) (n : nat) (pts : list point) (u : state) : option R :=
  domain_quantity (fun q => energy_point p (values n q u) (grads n q u)) pts.
(** 409-416, quantity [solid_vol]: the concentration *)
Definition solid_volume (n : nat) (pts : list point) (u : state) : option R :=
  domain_quantity (fun q => vget (values n q u) 0) pts.
