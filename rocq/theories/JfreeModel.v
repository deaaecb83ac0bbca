(** Model of Jacobian-vector products and matrices from finite differences of the residual:
    include/pf-applications/lac/jacobian_operator.h 95-272 ([JacobianFree]),
    include/pf-applications/lac/residual_wrapper.h 24-224,
    applications/sintering/include/pf-applications/sintering/residual_wrapper.h 28-83,
    include/pf-applications/lac/residual_traits.h 25-39,
    include/pf-applications/lac/evaluation.h 25-87 ([calc_numeric_tangent]).

    Numbers are reals.  A block vector is a function of block and index.  One process: its
    locally owned entries are 0 .. n-1 in each block.  The loop over the cells belongs to
    deal.II ([MatrixFree::cell_loop]); what it may do with the two functions handed to it is
    [legal] below, and the order of its steps is arbitrary otherwise. *)
From Coq Require Import String List Reals Arith Bool Permutation.
From Verif Require Import Util OperatorModel.
Import ListNotations.
Local Open Scope list_scope.
Local Open Scope R_scope.

Notation bvec := (nat -> nat -> R).

(** ** Cells *)

(** what a cell batch adds to the sums of forces and torques ([jc_g], operator_advection.h
    140-) and to the residual ([jc_f]), given these sums *)
Record jcell := mkJcell { jc_dofs : list nat; jc_g : bvec -> nat -> R; jc_f : (nat -> R) -> bvec -> nat -> nat -> R }.

(** ** The loop over the cells *)
Inductive event := Pre (lo hi : nat) | Work (c : jcell) | Post (lo hi : nat).
Record machine := mkMachine { x_dst : bvec; x_u : bvec; x_acc : nat -> R }.

Definition within (lo hi i : nat) : bool := Nat.leb lo i && Nat.ltb i hi.
Definition update_range (nb lo hi : nat) (f : nat -> nat -> R -> R) (x : bvec) : bvec :=
  fun b i => if Nat.ltb b nb && within lo hi i then f b i (x b i) else x b i.

(** jacobian_operator.h 169-190 *)
Definition pre_op (nb : nat) (delta : R) (src : bvec) (lo hi : nat) (m : machine) : machine :=
  mkMachine (update_range nb lo hi (fun _ _ _ => 0) (x_dst m)) (update_range nb lo hi (fun b i x => x + delta * src b i) (x_u m)) (x_acc m).
(** 192-215 *)
Definition post_op (nb : nat) (delta : R) (src res : bvec) (lo hi : nat) (m : machine) : machine :=
  mkMachine (update_range nb lo hi (fun b i x => (x - res b i) * (1 / delta)) (x_dst m)) (update_range nb lo hi (fun b i x => x - delta * src b i) (x_u m)) (x_acc m).

(** the steps of one loop; [forces]: the loop of operator_advection.h 81-110, which has no
    vector to write to, instead of the one for the residual *)
Definition step_event (nb : nat) (delta : R) (src res : bvec) (forces : bool) (ev : event) (m : machine) : machine :=
  match ev with
  | Pre lo hi => pre_op nb delta src lo hi m
  | Post lo hi => post_op nb delta src res lo hi m
  | Work c =>
      if forces then mkMachine (x_dst m) (x_u m) (fun s => x_acc m s + jc_g c (x_u m) s)
      else mkMachine (fun b i => x_dst m b i + jc_f c (x_acc m) (x_u m) b i) (x_u m) (x_acc m)
  end.
Fixpoint run (nb : nat) (delta : R) (src res : bvec) (forces : bool) (evs : list event) (m : machine) : machine :=
  match evs with [] => m | ev :: evs => run nb delta src res forces evs (step_event nb delta src res forces ev m) end.

(** ** Contract of the loop (deal.II documentation of [MatrixFree::cell_loop]): every entry
    is handed once to the first function, before any cell that has it, and once to the
    second function, after all cells that have it *)
Inductive phase := Fresh | Ready | Finished.
Definition set_phase (lo hi : nat) (p : phase) (st : nat -> phase) : nat -> phase := fun i => if within lo hi i then p else st i.
Fixpoint legal (n : nat) (st : nat -> phase) (evs : list event) : Prop :=
  match evs with
  | [] => forall i, (i < n)%nat -> st i = Finished
  | Pre lo hi :: evs => (hi <= n)%nat /\ (forall i, (lo <= i < hi)%nat -> st i = Fresh) /\ legal n (set_phase lo hi Ready st) evs
  | Work c :: evs => (forall i, In i (jc_dofs c) -> st i = Ready) /\ legal n st evs
  | Post lo hi :: evs => (forall i, (lo <= i < hi)%nat -> st i = Ready) /\ legal n (set_phase lo hi Finished st) evs
  end.
Fixpoint works (evs : list event) : list jcell :=
  match evs with [] => [] | Work c :: evs => c :: works evs | _ :: evs => works evs end.
Definition schedule (n : nat) (cells : list jcell) (evs : list event) : Prop := legal n (fun _ => Fresh) evs /\ Permutation (works evs) cells.

(** ** The residual *)
Definition csum (f : jcell -> R) (cells : list jcell) : R := fold_right (fun c s => f c + s) 0 cells.
Definition sum_forces (cells : list jcell) (u : bvec) : nat -> R := fun s => csum (fun c => jc_g c u s) cells.
Definition sum_residual (acc : nat -> R) (cells : list jcell) (u : bvec) : bvec := fun b i => csum (fun c => jc_f c acc u b i) cells.

(** ** The wrappers.  Each runs with the two functions of the caller. *)

(** which operators are taken by [has_evaluate_nonlinear_residual_with_pre_post]
    (residual_traits.h 25-39): the trait calls the function without template arguments, so
    these need defaults - given in operator_sintering_generic.h 393 and
    operator_grand_potential_greenquist.h 811 but not in operator_grain_growth.h 517 *)
Inductive operator_kind := Sinter | GrandPotential | GrainGrowth.
Definition has_pre_post (k : operator_kind) : bool := match k with Sinter | GrandPotential => true | GrainGrowth => false end.

Section Wrappers.
Variables (nb n n_cell_batches : nat) (cells : list jcell) (delta : R) (src res : bvec).
Definition zero_vec : bvec := fun _ _ => 0.
(** lac/residual_wrapper.h 124-161: with the two functions, or around the whole evaluation
    with the range of the cell batches (141-142) for the range of entries; entries beyond
    the vector: undefined.  [evs]: the order chosen by the loop *)
Definition wrapper_base (k : operator_kind) (evs : list event) (m : machine) : option machine :=
  if has_pre_post k then Some (run nb delta src res false evs m)
  else if Nat.ltb n n_cell_batches then None
  else
    let m := pre_op nb delta src 0 n_cell_batches m in
    let m := mkMachine (sum_residual (x_acc m) cells (x_u m)) (x_u m) (x_acc m) in
    Some (post_op nb delta src res 0 n_cell_batches m).
(** sintering/residual_wrapper.h 55-81: the loop for the forces gets both functions, too *)
Definition wrapper_advection (k : operator_kind) (evs1 evs2 : list event) (m : machine) : option machine :=
  let m := mkMachine (x_dst m) (x_u m) (fun _ => 0) in
  wrapper_base k evs2 (run nb delta src res true evs1 m).
End Wrappers.

(** ** Step length *)

(** 121-151; [None]: not implemented.  [ua]: product with the linearisation point, [l1],
    [l2]: norms of the source, [u_l2]: norm of the linearisation point *)
Definition step_length (algo : string) (u_l2 ua l1 l2 : R) : option R :=
  let h := / 10 ^ 8 in
  if String.eqb algo "bs" then
    let u_min := / 10 ^ 6 in
    if Req_EM_T l2 0 then Some 0
    else if Rlt_dec (u_min * l1) (Rabs ua) then Some (h * (ua / (l2 * l2)))
    else Some (h * (u_min * (if Rle_dec 0 ua then 1 else -1) * l1 / (l2 * l2)))
  else if String.eqb algo "pw" then
    if Req_EM_T l2 0 then Some 0 else Some (h * (sqrt (1 + u_l2) / l2))
  else None.

Definition bsum (nb n : nat) (f : nat -> nat -> R) : R := vsum nb (fun b => vsum n (fun i => f b i)).
Definition inner (nb n : nat) (x y : bvec) : R := bsum nb n (fun b i => x b i * y b i).
Definition l1_norm (nb n : nat) (x : bvec) : R := bsum nb n (fun b i => Rabs (x b i)).
Definition l2_norm (nb n : nat) (x : bvec) : R := sqrt (inner nb n x x).
Definition jf_step (algo : string) (nb n : nat) (u src : bvec) : option R :=
  step_length algo (l2_norm nb n u) (inner nb n u src) (l1_norm nb n src) (l2_norm nb n src).

(** 117-240 with the wrapper without advection; the result and the linearisation point
    afterwards.  [res]: the residual stored by [reinit] (249-261) *)
Definition jf_vmult (algo : string) (k : operator_kind) (nb n n_cell_batches : nat) (cells : list jcell) (evs : list event) (res u src dst : bvec)
  : option (bvec * bvec) :=
  h <- jf_step algo nb n u src ;;
  if Req_EM_T h 0 then Some (zero_vec, u)
  else
    m <- wrapper_base nb n n_cell_batches cells h src res k evs (mkMachine dst u (fun _ => 0)) ;;
    Some (x_dst m, x_u m).
(** the same with advection *)
Definition jf_vmult_advection (algo : string) (k : operator_kind) (nb n n_cell_batches : nat) (cells : list jcell) (evs1 evs2 : list event) (res u src dst : bvec)
  : option (bvec * bvec) :=
  h <- jf_step algo nb n u src ;;
  if Req_EM_T h 0 then Some (zero_vec, u)
  else
    m <- wrapper_advection nb n n_cell_batches cells h src res k evs1 evs2 (mkMachine dst u (fun _ => 0)) ;;
    Some (x_dst m, x_u m).
(** 222-240, for operators without the two functions: perturb, evaluate, difference, restore;
    [R]: the residual *)
Definition jf_vmult_plain (R_ : bvec -> bvec) (h : R) (res u src : bvec) : bvec * bvec :=
  let u := fun b i => u b i + h * src b i in
  let dst := R_ u in
  let dst := fun b i => dst b i + - 1 * res b i in
  let dst := fun b i => dst b i * (1 / h) in
  let u := fun b i => u b i + - h * src b i in
  (dst, u).

(** ** Numeric tangent (evaluation.h 30-87)

    All entries are owned.  [sparse]: the sparsity pattern; the matrix before is [T]: it is
    not set to zero when it exists already (operator_base.h 472-483).  The perturbed state is
    restored by subtraction. *)
Section Tangent.
Variables (nb n : nat) (R_ : bvec -> bvec) (sparse : nat * nat -> nat * nat -> bool) (eps tol : R).
Definition perturb (x : bvec) (b i : nat) (d : R) : bvec := fun b' i' => if Nat.eqb b' b && Nat.eqb i' i then x b' i' + d else x b' i'.
Notation matrix := (nat * nat -> nat * nat -> R).
Definition tangent_entry (r0 r1 : bvec) (col row : nat * nat) (T : matrix) : matrix :=
  if sparse row col then
    let value := (r1 (fst row) (snd row) - r0 (fst row) (snd row)) / eps in
    let set x := fun r c => if Nat.eqb (fst r) (fst row) && Nat.eqb (snd r) (snd row) && (Nat.eqb (fst c) (fst col) && Nat.eqb (snd c) (snd col)) then x else T r c in
    if Rlt_dec tol (Rabs value) then set value
    else if Nat.eqb (fst col) (fst row) && Nat.eqb (snd col) (snd row) then set 1
    else T
  else T.
Definition pairs : list (nat * nat) := flat_map (fun b => map (fun i => (b, i)) (seq 0 n)) (seq 0 nb).
Definition tangent_column (r0 : bvec) (st : bvec * matrix) (col : nat * nat) : bvec * matrix :=
  let x := perturb (fst st) (fst col) (snd col) eps in
  let r1 := R_ x in
  (perturb x (fst col) (snd col) (- eps), fold_left (fun T row => tangent_entry r0 r1 col row T) pairs (snd st)).
Definition numeric_tangent (u : bvec) (T : matrix) : bvec * matrix :=
  fold_left (tangent_column (R_ u)) pairs (u, T).
End Tangent.
