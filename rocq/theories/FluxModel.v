(** Model of the divergences of the fluxes written with the results,
    applications/sintering/include/pf-applications/sintering/operator_postproc.h 86-200, of
    the parts of the mobilities only used there (mobility.h 311-375, 583-664, with
    include/pf-applications/base/tensor.h 125-135, 176-186), of [MassMatrix]
    (preconditioners.h 901-937) and of the solution in driver.h 1186-1224 and 2464-2483.

    Numbers, tensors, points and blocks as in MobilityModel.v and OperatorModel.v.  The
    degrees of freedom are unconstrained or the constraints are resolved in the shape
    functions; the linear solver is exact (its tolerance is not modelled).  The operator
    reads all [2 + n_grains] blocks of the cell whatever the cut-off of the residual is. *)
From Coq Require Import List Reals Arith.
From Verif Require Import Util MobilityModel OperatorModel.
Import ListNotations.
Local Open Scope R_scope.

(** [Tensor<2, dim>] *)
Notation mat := (nat -> nat -> R).

(** tensor.h 125-135, 176-186 *)
Definition diagonal_matrix (fac : R) : mat := fun d e => if Nat.eqb d e then fac else 0.
Definition projector_matrix (v : vec) (fac diag : R) : mat := fun d e => (diagonal_matrix diag d e - v d * v e) * fac.

(** [T * v] *)
Definition contract (dim : nat) (M : mat) (v : vec) : vec := fun d => dot dim (M d) v.

(** mobility.h 583-599, 602-619 *)
Definition M_vol_tensorial (m : coefficients) (c : R) : mat := diagonal_matrix (m_vol m * phi_masked c).
Definition M_vap_tensorial (m : coefficients) (c : R) : mat := diagonal_matrix (m_vap m * (1 - phi_masked c)).

(** 622-632 *)
Definition M_surf_tensorial (dim : nat) (m : coefficients) (c : R) (c_grad : vec) : mat :=
  projector_matrix (unit_vector dim c_grad) (m_surf m * 4 * (c * c) * (1 - c) * (1 - c)) 1.

(** 637-663: both loops over all grains *)
Definition gb_matrix (dim : nat) (m : coefficients) (gi gj : egrain) : mat :=
  projector_matrix (unit_vector dim (fun d => snd gi d - snd gj d)) (m_gb m * fst gi * fst gj) 1.
Definition M_gb_tensorial (dim : nat) (m : coefficients) (grains : list egrain) : mat :=
  let indexed := combine (seq 0 (length grains)) grains in
  fold_left (fun M i => fold_left (fun M j =>
      if negb (Nat.eqb (fst i) (fst j)) then fun d e => M d e + gb_matrix dim m (snd i) (snd j) d e else M) indexed M)
    indexed (fun _ _ => 0).

(** operator_postproc.h 184-188: the four fluxes, in the order of [names] (122-125) *)
Inductive mechanism := volume | vapour | surface | boundary.
Definition mechanisms : list mechanism := [volume; vapour; surface; boundary].
Definition flux (p : op_data) (k : mechanism) (c : R) (etas : list R) (c_grad : vec) (eta_grads : list vec) (mu_grad : vec) : vec :=
  let m := o_mobility p in
  if o_tensorial p then
    fun d => contract (o_dim p) (fun d e => - match k with
      | volume => M_vol_tensorial m c
      | vapour => M_vap_tensorial m c
      | surface => M_surf_tensorial (o_dim p) m c c_grad
      | boundary => M_gb_tensorial (o_dim p) m (combine etas eta_grads)
      end d e) mu_grad d
  else
    fun d => - match k with
      | volume => M_vol m c
      | vapour => M_vap m c
      | surface => M_surf m c
      | boundary => M_gb m etas
      end * mu_grad d.

(** 143-197: the entry [i] of the block of mechanism [k] *)
Fixpoint flux_rhs (p : op_data) (n n_grains : nat) (pts : list point) (u : state) (k : mechanism) (i : nat) : R :=
  match pts with
  | [] => 0
  | q :: pts =>
      let etas := map (value_at n q u) (seq 2 n_grains) in
      let eta_grads := map (grad_at n q u) (seq 2 n_grains) in
      q_w q * dot (o_dim p) (q_G q i) (flux p k (value_at n q u 0) etas (grad_at n q u 0) eta_grads (grad_at n q u 1))
        + flux_rhs p n n_grains pts u k i
  end.

(** preconditioners.h 926-936, [vmult] of the mass matrix *)
Fixpoint mass (n : nat) (pts : list point) (x : nat -> R) (i : nat) : R :=
  match pts with
  | [] => 0
  | q :: pts => q_w q * (q_N q i * vsum n (fun j => q_N q j * x j)) + mass n pts x i
  end.

(** driver.h 2472-2482: the fields that are written *)
Definition written (p : op_data) (n n_grains : nat) (pts : list point) (u : state) (lhs : mechanism -> nat -> R) : Prop :=
  forall k i, (i < n)%nat -> mass n pts (lhs k) i = flux_rhs p n n_grains pts u k i.
