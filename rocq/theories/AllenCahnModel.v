(** Model of the applications for the equation of Allen and Cahn in applications/allen_cahn:
    allen_cahn.cc 45-69, 86-110, 145-257 (explicit, one phase), allen_cahn_two_components_1.cc 45-70,
    148-271 and allen_cahn_two_components_2.cc (explicit, two phases: the second keeps the phases
    in blocks of the vector, which the indices of [fields] do not distinguish),
    allen_cahn_impl.cc 52-72, 158-297 (implicit, one phase), allen_cahn_impl_two_components.cc
    51-71, 154-319 (implicit, two phases).
    Numbers are reals, one process, no constraints; points, weights and shape functions as in the
    model of the applications for the equation of Cahn and Hilliard.  The solvers are exact. *)
From Coq Require Import List Reals Arith Bool.
From Verif Require Import Util OperatorModel CahnHilliardModel.
Local Open Scope R_scope.

(** allen_cahn.cc 181-183, allen_cahn_impl.cc 232-234 and 177-179 *)
Definition df_dphi (phi : R) : R := phi * phi * phi * 2 - phi * 2.
Definition d2f_dphi2 (phi : R) : R := phi * phi * 6 - 2.

(** Initial values of allen_cahn.cc and allen_cahn_impl.cc, of
    allen_cahn_impl_two_components.cc, and of the two explicit programs with two phases; [dist]
    is the distance from [point], from [p_1] or from [p_2] *)
Definition initial_one (dist : R) : R := 1 / 2 * (1 - tanh (2 * (dist - 20))).
Definition initial_impl_two (comp : nat) (dist : R) : R := 1 / 2 * (1 - tanh (2 * (dist - 20 / (INR comp + 1)))).
Definition initial_two (comp : nat) (dist1 dist2 : R) : R :=
  if Nat.eqb comp 0 then 1 / 2 * (1 - tanh (2 * (dist1 - 20))) else 1 / 2 * (1 - tanh (2 * (dist2 - 15))).

Section Domain.
Variables (n dim nq : nat) (weight : nat -> R) (shape : nat -> nat -> R) (slope : nat -> nat -> nat -> R).
Variables (M kappa dt : R).
Notation value_q := (value_q n shape).
Notation grad_q := (grad_q n slope).
Notation integrated := (integrated dim nq weight shape slope).

(** ** Explicit scheme, allen_cahn.cc 213-237; allen_cahn_two_components_1.cc 218-252 *)
Definition explicit_rhs (y : fields) : fields :=
  integrated (fun q comp => value_q y q comp - dt * M * df_dphi (value_q y q comp))
             (fun q comp d => - dt * M * kappa * grad_q y q comp d).
(** allen_cahn.cc 240-251, allen_cahn_two_components_1.cc 254-265 *)
Definition explicit_step (comps : nat) (y y' : fields) : Prop :=
  forall comp i, (comp < comps)%nat -> (i < n)%nat -> vsum n (fun j => mass nq weight shape i j * y' comp j) = explicit_rhs y comp i.

(** ** Implicit scheme with two phases, allen_cahn_impl_two_components.cc 208-275 and 154-205;
    [lin] are the values stored by [evaluate_newton_step], 295-319 *)
Definition residual_two (old y : fields) : fields :=
  integrated (fun q comp => value_q y q comp - value_q old q comp + dt * M * df_dphi (value_q y q comp))
             (fun q comp d => dt * M * kappa * grad_q y q comp d).
Definition vmult_two (lin : nat -> nat -> R) (x : fields) : fields :=
  integrated (fun q comp => (1 + dt * M * d2f_dphi2 (lin q comp)) * value_q x q comp)
             (fun q comp d => dt * M * kappa * grad_q x q comp d).
Definition solves_two (old y : fields) : Prop :=
  forall comp i, (comp < 2)%nat -> (i < n)%nat -> residual_two old y comp i = 0.

(** ** Implicit scheme with one phase, allen_cahn_impl.cc 213-272 and 158-210.  [vmult] asks only
    for the values, so [get_gradient] reads what was left in the memory of the evaluator, here
    [stale]; the linearisation point is read from [src] and not from
    [solution_linearization] *)
Definition residual_one (old y : fields) : fields :=
  integrated (fun q comp => (1 + dt * M * df_dphi (value_q y q comp)) * value_q y q comp - value_q old q comp)
             (fun q comp d => dt * M * kappa * grad_q y q comp d).
Definition vmult_one (stale : nat -> nat -> R) (solution_linearization x : fields) : fields :=
  integrated (fun q comp => (1 + dt * M * d2f_dphi2 (value_q x q comp)) * value_q x q comp)
             (fun q comp d => dt * M * kappa * stale q d).
Definition solves_one (old y : fields) : Prop :=
  forall i, (i < n)%nat -> residual_one old y 0 i = 0.
End Domain.
