(** Model of the applications for the equation of Cahn and Hilliard:
    applications/cahn_hilliard/cahn_hilliard_impl.cc 53-115 (initial values), 134-168 (mass
    matrix), 199-249 (operator of the linearised problem), 251-316 (residual), 325-375
    (linearisation point), 490-504 (constants) and 592-717 (time loop), and
    applications/cahn_hilliard/cahn_hilliard.cc 58-107, 178-307 (explicit scheme).
    Numbers are reals, one process, no constraints.  The nonlinear solver is an oracle which
    either gives a solution with zero residual or throws; the solver with conjugate gradients
    of the explicit scheme is exact. *)
From Coq Require Import List Reals Arith Bool.
From Verif Require Import Util OperatorModel.
Import ListNotations.
Local Open Scope R_scope.

(** cahn_hilliard_impl.cc 270-272, cahn_hilliard.cc 222-224 *)
Definition df_dc (c : R) : R := 4 * c * (c - 1) * (c - 1 / 2).
(** cahn_hilliard_impl.cc 210-213 *)
Definition d2f_dc2 (c : R) : R := 4 * c * (c - 1) + 4 * c * (c - 1 / 2) + 4 * (c - 1) * (c - 1 / 2).

(** Component 0 is the concentration, component 1 the chemical potential; second argument the
    index of the entry *)
Notation fields := (nat -> nat -> R).

(** cahn_hilliard_impl.cc 291-303: what is tested with the value and with the gradient *)
Definition residual_value (dt : R) (val old_val : nat -> R) (comp : nat) : R :=
  match comp with
  | 0%nat => (val 0%nat - old_val 0%nat) / dt
  | _ => - val 1%nat + df_dc (val 0%nat)
  end.
Definition residual_gradient (M kappa : R) (grad : nat -> nat -> R) (comp d : nat) : R :=
  match comp with
  | 0%nat => M * grad 1%nat d
  | _ => kappa * grad 0%nat d
  end.
(** cahn_hilliard_impl.cc 224-239; [lin] is [nonlinear_values] at the point *)
Definition vmult_value (dt : R) (lin val : nat -> R) (comp : nat) : R :=
  match comp with
  | 0%nat => val 0%nat / dt
  | _ => - val 1%nat + d2f_dc2 (lin 0%nat) * val 0%nat
  end.
Definition vmult_gradient (M kappa : R) (grad : nat -> nat -> R) (comp d : nat) : R :=
  match comp with
  | 0%nat => M * grad 1%nat d
  | _ => kappa * grad 0%nat d
  end.
(** cahn_hilliard.cc 269-276 *)
Definition explicit_value (val : nat -> R) (comp : nat) : R :=
  match comp with
  | 0%nat => val 0%nat
  | _ => df_dc (val 0%nat)
  end.
Definition explicit_gradient (dt M kappa : R) (grad : nat -> nat -> R) (comp d : nat) : R :=
  match comp with
  | 0%nat => - dt * M * grad 1%nat d
  | _ => kappa * grad 0%nat d
  end.

Section Domain.
(** [n] entries of a scalar field, the points of all cells in one list, with the weights, the
    shape functions and their gradients *)
Variables (n dim nq : nat) (weight : nat -> R) (shape : nat -> nat -> R) (slope : nat -> nat -> nat -> R).
Definition value_q (y : fields) (q comp : nat) : R := vsum n (fun i => shape i q * y comp i).
Definition grad_q (y : fields) (q comp d : nat) : R := vsum n (fun i => slope i d q * y comp i).
(** [submit_value], [submit_gradient] and [integrate_scatter] *)
Definition integrated (vr : nat -> nat -> R) (gr : nat -> nat -> nat -> R) (comp i : nat) : R :=
  vsum nq (fun q => weight q * (vr q comp * shape i q + vsum dim (fun d => gr q comp d * slope i d q))).

(** cahn_hilliard_impl.cc 251-316 *)
Definition residual (M kappa dt : R) (old y : fields) : fields :=
  integrated (fun q => residual_value dt (value_q y q) (value_q old q))
             (fun q => residual_gradient M kappa (grad_q y q)).
(** cahn_hilliard_impl.cc 343-375: the stored values, only these are read by [vmult] *)
Definition evaluate_newton_step (y : fields) : nat -> nat -> R := value_q y.
(** cahn_hilliard_impl.cc 199-249 *)
Definition vmult (M kappa dt : R) (nonlinear_values : nat -> nat -> R) (x : fields) : fields :=
  integrated (fun q => vmult_value dt (nonlinear_values q) (value_q x q))
             (fun q => vmult_gradient M kappa (grad_q x q)).
Definition solves (M kappa dt : R) (old y : fields) : Prop :=
  forall comp i, (comp < 2)%nat -> (i < n)%nat -> residual M kappa dt old y comp i = 0.

(** cahn_hilliard.cc 127-160 and 255-301 *)
Definition mass (i j : nat) : R := vsum nq (fun q => weight q * (shape i q * shape j q)).
Definition explicit_rhs (M kappa dt : R) (y : fields) : fields :=
  integrated (fun q => explicit_value (value_q y q)) (fun q => explicit_gradient dt M kappa (grad_q y q)).
Definition explicit_step (M kappa dt : R) (y y' : fields) : Prop :=
  forall comp i, (comp < 2)%nat -> (i < n)%nat -> vsum n (fun j => mass i j * y' comp j) = explicit_rhs M kappa dt y comp i.
(** cahn_hilliard.cc 252-307: [k] steps, and the time given to [output_result] after step
    number [k], where the header of the loop adds to [t] only afterwards *)
Inductive explicit_run (M kappa dt : R) : nat -> fields -> fields -> Prop :=
  | explicit_end : forall y, explicit_run M kappa dt 0 y y
  | explicit_next : forall k y y1 y2, explicit_run M kappa dt k y y1 -> explicit_step M kappa dt y1 y2 -> explicit_run M kappa dt (S k) y y2.
Definition explicit_label (dt : R) (k : nat) : R := INR (k - 1) * dt.
End Domain.

(** cahn_hilliard_impl.cc 66-100; [dist i] is the distance of the point from centre [i] *)
Definition rad : list R := [12; 14; 19; 16; 11; 12; 17; 15; 20; 10; 11; 14].
Definition center : list (R * R) :=
  [(1/10, 3/10); (8/10, 7/10); (5/10, 2/10); (4/10, 4/10); (3/10, 9/10); (8/10, 1/10);
   (9/10, 5/10); (0, 1/10); (1/10, 6/10); (5/10, 6/10); (1, 1); (7/10, 95/100)].
(** in two dimensions, as instantiated in [main] *)
Definition dist (p c : R * R) : R :=
  sqrt ((fst p - fst c * 100) * (fst p - fst c * 100) + (snd p - snd c * 100) * (snd p - snd c * 100)).
Fixpoint bubbles (p : R * R) (cs : list (R * R)) (rs : list R) : R :=
  match cs, rs with
  | c :: cs, r :: rs => 1 / 2 * (1 - tanh ((dist p c - r) / (3 / 2))) + bubbles p cs rs
  | _, _ => 0
  end.
Definition initial_value (p : R * R) (comp : nat) : R :=
  if Nat.eqb comp 0 then let s := bubbles p center rad in if Rlt_dec 1 s then 1 else s else 0.

(** ** Time loop, cahn_hilliard_impl.cc 490-499 and 592-717 *)
Record clock := mkClock { t_end : R; dt_max : R; dt_min : R; dt_increment : R; output_interval : R;
                          desirable_newton : nat; desirable_linear : nat }.
Definition code_clock : clock := mkClock 100 (100 * (1 / 100)) (1 / 100 * (1 / 100)) (12 / 10) 1 5 60.
Definition code_dt : R := 1 / 100.

Section Loop.
Variable K : clock.
(** 615-634 *)
Definition next_dt (newton linear : nat) (t dt : R) : R :=
  if Rlt_dec (1 / 1000000000) (Rabs (t - t_end K)) then
    let dt1 := if (newton <? desirable_newton K)%nat && (linear <? desirable_linear K)%nat
               then let d := dt * dt_increment K in if Rlt_dec (dt_max K) d then dt_max K else d
               else dt in
    if Rlt_dec (t_end K) (t + dt1) then t_end K - t else dt1
  else dt.
Record loop := mkLoop { l_t : R; l_dt : R; l_sol : fields; l_last : R }.
(** [solver old dt y newton linear] says that the nonlinear solver may return [y] with these
    numbers of iterations; 606-636, 713-717 for a step that is solved, and 638-649 for one that
    is not, where the exception of 646-648 ends the run *)
Variable solver : fields -> R -> fields -> nat -> nat -> Prop.
Definition after_solved (s : loop) (y : fields) (newton linear : nat) : loop :=
  let dt' := next_dt newton linear (l_t s) (l_dt s) in
  let t' := l_t s + dt' in
  mkLoop t' dt' y (if Rlt_dec (output_interval K + l_last s) t' then t' else l_last s).
Definition after_failed (s : loop) : loop := mkLoop (l_t s) (l_dt s * (1 / 2)) (l_sol s) (l_last s).
(** the label of a pass: [Some dt] if a step was solved with [dt], [None] if the solver threw *)
Inductive pass : option R -> loop -> loop -> Prop :=
  | pass_solved : forall s y newton linear, l_t s <= t_end K -> solver (l_sol s) (l_dt s) y newton linear ->
      pass (Some (l_dt s)) s (after_solved s y newton linear)
  | pass_failed : forall s, l_t s <= t_end K -> dt_min K < l_dt s * (1 / 2) -> pass None s (after_failed s).
Inductive passes : list (option R) -> loop -> loop -> Prop :=
  | passes_none : forall s, passes [] s s
  | passes_next : forall h e s s1 s2, passes h s s1 -> pass e s1 s2 -> passes (h ++ [e]) s s2.
End Loop.
