(** Model of the operators behind the block preconditioner,
    applications/sintering/include/pf-applications/sintering/preconditioners.h 34-173,
    294-898, 1206-1244, with the advection terms of operator_sintering_generic.h 794-867.

    As in [OperatorModel] numbers are reals and a cell is its quadrature points.  The
    mobility is the scalar one.  Not modelled: the solid operator, the matrices for the
    first two operators (operator_base.h [initialize_system_matrix] applies the same
    kernels to unit vectors), multigrid, the algebraic preconditioners themselves. *)
From Coq Require Import String List Reals Arith Bool.
From Verif Require Import Util FreeEnergyModel MobilityModel OperatorModel.
Import ListNotations.
Local Open Scope list_scope.
Local Open Scope R_scope.

(** A quadrature point with the row of the component table of its cell (all [true] without
    cut-off) and the velocities of all order parameters.  With the cut-off the look-up of
    velocities goes through relevant indices; here a velocity belongs to its order
    parameter (C35 says when that is so). *)
Record qcell := mkCell { k_w : R; k_N : nat -> R; k_G : nat -> vec; k_rel : nat -> bool; k_vel : nat -> option vec }.
Definition bare (q : qcell) : point := mkPoint (k_w q) (k_N q) (k_G q) [] [].

(** what the nonlinear operator reads in such a cell, operator_sintering_generic.h 474-487 *)
Definition relevant (ng : nat) (q : qcell) : list nat := filter (k_rel q) (seq 0 ng).
Definition jacobian_point (ng : nat) (q : qcell) : point :=
  mkPoint (k_w q) (k_N q) (k_G q) (0%nat :: 1%nat :: map (fun g => S (S g)) (relevant ng q)) (map (k_vel q) (relevant ng q)).

(** operator_sintering_data.h 345-371: all components, zero where not relevant *)
Definition nonlinear_values (n ng : nat) (q : qcell) (u : state) : list R :=
  value_at n (bare q) u 0%nat :: value_at n (bare q) u 1%nat
  :: map (fun g => if k_rel q g then value_at n (bare q) u (S (S g)) else 0) (seq 0 ng).
(** advection.h 231-245: no velocity for an order parameter that is not relevant *)
Definition velocities (ng : nat) (q : qcell) : list (option vec) :=
  map (fun g => if k_rel q g then k_vel q g else None) (seq 0 ng).

(** operator_base.h: cell loop of an operator with the blocks [blocks] *)
Fixpoint sub_loop (dim : nat) (blocks : list nat) (f : qcell -> option (list R * list vec)) (cells : list qcell) (k i : nat) : option R :=
  match cells with
  | [] => Some 0
  | q :: cells =>
      r <- f q ;;
      s <- sub_loop dim blocks f cells k i ;;
      Some (scatter dim (bare q) blocks (fst r) (snd r) k i + s)
  end.

(** ** OperatorCahnHilliard *)

(** operator_sintering_generic.h 794-818 [precondition_advection_ch] *)
Fixpoint ch_advection (vels : list (option vec)) (value0 : R) (g : vec) : vec :=
  match vels with
  | [] => g
  | None :: vels => ch_advection vels value0 g
  | Some v :: vels => ch_advection vels value0 (fun d => g d - v d * value0)
  end.

(** 85-165; [dM_dgrad_c] of the scalar mobility (mobility.h 400-412) is zero *)
Definition ch_point (p : op_data) (vels : list (option vec)) (val : list R) (mu_grad : vec) (value : list R) (gradient : list vec)
  : option (list R * list vec) :=
  match val, value, gradient with
  | c :: _ :: etas, v0 :: v1 :: _, g0 :: g1 :: _ =>
      e <- eval_static false (o_A p) (o_B p) val (length etas) ;;
      Some ([v0 * o_weight p; v1 * o_weight_alg p - d2f_dc2 e * v0],
            [ch_advection vels v0 (fun d => apply_M_scalar (o_mobility p) c etas g1 d + dM_dc_scalar (o_mobility p) c * mu_grad d * v0 + 0 * g0 d);
             fun d => - o_kappa_c p * g0 d])
  | _, _, _ => None
  end.
Definition ch_vmult (p : op_data) (n ng : nat) (cells : list qcell) (u src : state) (k i : nat) : option R :=
  sub_loop (o_dim p) [0; 1]%nat
    (fun q => ch_point p (velocities ng q) (nonlinear_values n ng q u) (grad_at n (bare q) u 1%nat)
                [value_at n (bare q) src 0%nat; value_at n (bare q) src 1%nat] [grad_at n (bare q) src 0%nat; grad_at n (bare q) src 1%nat])
    cells k i.

(** ** OperatorAllenCahn *)

(** 378-390 *)
Fixpoint ac_inner (p : op_data) (e : evaluation) (vi : R) (ig jg : nat) (lins value : list R) (acc : R) : option R :=
  match lins, value with
  | [], [] => Some acc
  | vj :: lins, x :: value =>
      ac_inner p e vi ig (S jg) lins value (if Nat.eqb ig jg then acc else acc + o_L p * d2f_detaidetaj e vi vj * x)
  | _, _ => None
  end.
(** 368-391; [ig] counts from the first grain *)
Fixpoint ac_rows (p : op_data) (e : evaluation) (coupled : bool) (all_lins all_values : list R) (ig : nat) (lins value : list R) (gradient : list vec)
  : option (list R * list vec) :=
  match lins, value, gradient with
  | [], [], [] => Some ([], [])
  | l :: lins, v :: value, g :: gradient =>
      let r := v * o_weight p + o_L p * d2f_detai2 e l * v in
      r <- (if coupled then ac_inner p e l ig 0 all_lins all_values r else Some r) ;;
      rest <- ac_rows p e coupled all_lins all_values (S ig) lins value gradient ;;
      Some (r :: fst rest, (fun d => o_L p * o_kappa_p p * g d) :: snd rest)
  | _, _, _ => None
  end.
(** operator_sintering_generic.h 820-843 [precondition_advection_ac]: every row takes
    [phi.get_value(q)[0]] *)
Fixpoint ac_advection (vels : list (option vec)) (value0 : R) (gs : list vec) : option (list vec) :=
  match vels, gs with
  | [], [] => Some []
  | v :: vels, g :: gs =>
      rest <- ac_advection vels value0 gs ;;
      Some (match v with Some v => fun d => g d - v d * value0 | None => g end :: rest)
  | _, _ => None
  end.
(** 342-414; one component is refused (346, 410); [coupled = false] is the kernel of
    [OperatorAllenCahnBlocked] (507-559) *)
Definition ac_point (p : op_data) (coupled : bool) (vels : list (option vec)) (val : list R) (value : list R) (gradient : list vec)
  : option (list R * list vec) :=
  match val, value with
  | _ :: _ :: etas, v0 :: _ :: _ =>
      e <- eval_static false (o_A p) (o_B p) val (length etas) ;;
      r <- ac_rows p e coupled etas value 0 etas value gradient ;;
      gs <- ac_advection vels v0 (snd r) ;;
      Some (fst r, gs)
  | _, _ => None
  end.
(** the source is the view on the blocks from 2 on (1224-1234) *)
Definition ac_vmult (p : op_data) (coupled : bool) (n ng : nat) (cells : list qcell) (u src : state) (k i : nat) : option R :=
  sub_loop (o_dim p) (seq 0 ng)
    (fun q => ac_point p coupled (velocities ng q) (nonlinear_values n ng q u)
                (map (value_at n (bare q) src) (seq 0 ng)) (map (grad_at n (bare q) src) (seq 0 ng)))
    cells k i.

(** ** OperatorAllenCahnBlocked: matrices *)

(** 462-477; [None]: exception *)
Definition to_value (label : string) : option nat :=
  if String.eqb label "all" then Some 0%nat
  else if String.eqb label "const" then Some 1%nat
  else if String.eqb label "max" then Some 2%nat
  else if String.eqb label "avg" then Some 3%nat
  else None.

(** 708-753, one point: [ds] are the second derivatives of the energy for all order
    parameters; [scaling] is zero before *)
Definition max_step (scaling temp : R) : R := if Rlt_dec (Rabs temp) (Rabs scaling) then scaling else temp.
Definition scaling (free_energy_approximation : nat) (ds : list R) : option R :=
  match free_energy_approximation with
  | 0%nat | 1%nat => Some 0
  | 2%nat => Some (fold_left Rplus ds 0 / INR (length ds))
  | 3%nat => Some (fold_left max_step ds 0)
  | _ => None
  end.
Definition scaling_of (label : string) (ds : list R) : option R := a <- to_value label ;; scaling a ds.

(** A cell for assembly: number of local degrees of freedom, the constraints as weights of
    the global degrees of freedom in the local ones ([distribute_local_to_global]; entries
    for constrained rows are not modelled), the points with local shape functions *)
Record acell := mkAcell { a_m : nat; a_C : nat -> nat -> R; a_pts : list qcell }.
(** the same point seen from the global degrees of freedom *)
Definition global_point (a : acell) (q : qcell) : qcell :=
  mkCell (k_w q) (fun I => vsum (a_m a) (fun i => a_C a i I * k_N q i)) (fun I d => vsum (a_m a) (fun i => a_C a i I * k_G q i d)) (k_rel q) (k_vel q).

(** 772-822: value and gradient submitted for the unit vector [j], with
    [free_energy_approximation == 0]; [cut_off]: the component table is not empty *)
Definition block_point (p : op_data) (cut_off : bool) (q : qcell) (b : nat) (scaling : R) (j : nat) : R * vec :=
  if cut_off && negb (k_rel q b) then (0, fun _ => 0)
  else
    (k_N q j * o_weight p + o_L p * scaling * k_N q j,
     match (if k_rel q b then k_vel q b else None) with
     | Some v => fun d => o_L p * o_kappa_p p * k_G q j d - v d * k_N q j
     | None => fun d => o_L p * o_kappa_p p * k_G q j d
     end).
(** 757-829: entry (i, j) of the matrix of a cell *)
Fixpoint local_entry (p : op_data) (cut_off : bool) (n ng : nat) (u : state) (a : acell) (b : nat) (pts : list qcell) (i j : nat) : option R :=
  match pts with
  | [] => Some 0
  | q :: pts =>
      let val := nonlinear_values n ng (global_point a q) u in
      e <- eval_dynamic false (o_A p) (o_B p) val ng ;;
      l <- vget val (2 + b) ;;
      let r := block_point p cut_off q b (d2f_detai2 e l) j in
      s <- local_entry p cut_off n ng u a b pts i j ;;
      Some (k_w q * (k_N q i * fst r + dot (o_dim p) (k_G q i) (snd r)) + s)
  end.

(** 834-848: maximum over the entries, small entries removed *)

Definition matrix_max (m : nat) (M : nat -> nat -> R) : R := fold_left (fun acc i => fold_left (fun acc j => Rmax acc (Rabs (M i j))) (seq 0 m) acc) (seq 0 m) 0.
Definition clip (m : nat) (M : nat -> nat -> R) (i j : nat) : R :=
  if Rlt_dec (Rabs (M i j)) (/ 10 ^ 10 * matrix_max m M) then 0 else M i j.

(** a local matrix as a function; [None] if an entry is undefined *)
Fixpoint tabulate {A} (f : nat -> option A) (js : list nat) : option (list A) :=
  match js with [] => Some [] | j :: js => x <- f j ;; r <- tabulate f js ;; Some (x :: r) end.
Definition local_matrix (p : op_data) (cut_off : bool) (n ng : nat) (u : state) (a : acell) (b : nat) : option (nat -> nat -> R) :=
  rows <- tabulate (fun i => tabulate (fun j => local_entry p cut_off n ng u a b (a_pts a) i j) (seq 0 (a_m a))) (seq 0 (a_m a)) ;;
  Some (fun i j => nth j (nth i rows []) 0).

(** 850-853: assembly of entry (I, J) *)
Fixpoint assemble (p : op_data) (cut_off : bool) (n ng : nat) (u : state) (b : nat) (cells : list acell) (I J : nat) : option R :=
  match cells with
  | [] => Some 0
  | a :: cells =>
      M <- local_matrix p cut_off n ng u a b ;;
      s <- assemble p cut_off n ng u b cells I J ;;
      Some (vsum (a_m a) (fun i => vsum (a_m a) (fun j => a_C a i I * clip (a_m a) M i j * a_C a j J)) + s)
  end.
(** 858-884: zeros on the diagonal become ones *)
Definition block_entry (p : op_data) (cut_off : bool) (n ng : nat) (u : state) (b : nat) (cells : list acell) (I J : nat) : option R :=
  x <- assemble p cut_off n ng u b cells I J ;;
  Some (if cut_off && Nat.eqb I J then if Req_EM_T x 0 then 1 else x else x).

(** ** BlockPreconditioner2 *)

(** 1206-1244: the ranges of blocks given to the preconditioners; [None]: the difference is
    negative.  [create_view] needs start <= end *)
Definition view (start stop : nat) : option (list nat) := if Nat.leb start stop then Some (seq start (stop - start)) else None.
Definition views (dim n_blocks : nat) (solid : bool) : option (list (list nat)) :=
  v0 <- view 0 2 ;;
  if solid then
    if Nat.ltb n_blocks dim then None
    else
      v1 <- view 2 (n_blocks - dim) ;;
      v2 <- view (n_blocks - dim) n_blocks ;;
      Some [v0; v1; v2]
  else v1 <- view 2 n_blocks ;; Some [v0; v1].
