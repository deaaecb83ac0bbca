(** Model of the wrappers of linear solvers, include/pf-applications/lac/solvers_linear.h 56-473,
    with the labels allowed by applications/sintering/include/pf-applications/sintering/parameters.h
    1003-1011, and of the wrapper of SNES, include/pf-applications/lac/solvers_nonlinear_snes.h
    222-405, with include/pf-applications/lac/solvers_nonlinear.h 468-500.
    The solvers of deal.II, Trilinos and PETSc are oracles; timers are left out; one process, so that
    [copy_locally_owned_data_from] copies the whole vector. *)
From Coq Require Import String List NArith QArith Arith Bool.
From Verif Require Import Util MeshFlagsModel VmultModel.
Import ListNotations.
Local Open Scope list_scope.

(** The two numbers of [SolverControl] the wrappers read *)
Record control := { max_steps : N; last_step : N }.
Definition set_max_steps (c : control) (n : N) : control := {| max_steps := n; last_step := last_step c |}.
Definition set_last_step (c : control) (n : N) : control := {| max_steps := max_steps c; last_step := n |}.

(** How a call ends: it returns, throws [SolverControl::NoConvergence], or throws anything else *)
Inductive ending := Returned | NoConvergence | OtherException.
(** What a solver of the library does with the vector and with [last_step] of the control it gets;
    only the values it leaves behind are observable *)
Record answer (V : Type) := { a_dst : V; a_steps : N; a_end : ending }.
Arguments a_dst {V}. Arguments a_steps {V}. Arguments a_end {V}.
Definition solver (V : Type) := N -> V -> V -> answer V.

(** Result of [solve]: the vector, the control afterwards, and the returned number or the exception *)
Inductive outcome := Number (n : N) | Failed (e : ending).
Record solved (V : Type) := { s_dst : V; s_control : control; s_out : outcome }.
Arguments s_dst {V}. Arguments s_control {V}. Arguments s_out {V}.

(** [solver.solve(op, dst, src, preconditioner); return solver_control.last_step();]: 105-108
    (GMRES), 151-154 (CG), 267-270 (IDR) *)
Definition solve_plain {V} (k : solver V) (c : control) (dst src : V) : solved V :=
  let a := k (max_steps c) dst src in
  let c' := set_last_step c (a_steps a) in
  {| s_dst := a_dst a; s_control := c'; s_out := match a_end a with Returned => Number (last_step c') | e => Failed e end |}.

(** 87-108: the orthogonalisation of GMRES; the default of deal.II is used by the fallback in 351 *)
Inductive orthogonalisation := Classical | Modified.
Definition orthogonalisation_of (s : string) : option orthogonalisation :=
  if String.eqb s "classical gram schmidt" then Some Classical
  else if String.eqb s "modified gram schmidt" then Some Modified else None.
Definition solve_gmres {V} (gmres : orthogonalisation -> solver V) (strategy : string) (c : control) (dst src : V) : option (solved V) :=
  obind (orthogonalisation_of strategy) (fun o => Some (solve_plain (gmres o) c dst src)).

(** 315-357: Bicgstab, then GMRES; [default] is the orthogonalisation of
    [SolverGMRES<T>::AdditionalData()].  An exception other than [NoConvergence] leaves the
    function with the control as it is then.  The sum in 355 is one of [unsigned int]. *)
Definition solve_bicgstab {V} (bicgstab : solver V) (gmres : orthogonalisation -> solver V) (default : orthogonalisation)
    (max_bicgsteps : N) (c : control) (dst src : V) : solved V :=
  let steps := max_steps c in
  let copy := dst in
  let c1 := set_max_steps c max_bicgsteps in
  let a := bicgstab (max_steps c1) dst src in
  let c2 := set_last_step c1 (a_steps a) in
  match a_end a with
  | Returned => let c3 := set_max_steps c2 steps in {| s_dst := a_dst a; s_control := c3; s_out := Number (last_step c3) |}
  | NoConvergence =>
      let c3 := set_max_steps c2 steps in
      let b := gmres default (max_steps c3) copy src in
      let c4 := set_last_step c3 (a_steps b) in
      {| s_dst := a_dst b; s_control := c4;
         s_out := match a_end b with Returned => Number (u32 (last_step c4 + max_bicgsteps)) | e => Failed e end |}
  | OtherException => {| s_dst := a_dst a; s_control := c2; s_out := Failed OtherException |}
  end.

(** 195-216: [PreconditionRelaxation::vmult] of deal.II: the first sweep ignores [dst], the others
    add the preconditioned residual; vectors are functions from the index to a rational *)
Definition vector := nat -> Q.
Fixpoint relax (op prec : vector -> vector) (omega : Q) (sweeps : nat) (src : vector) : vector :=
  match sweeps with
  | O => fun i => omega * prec src i
  | S k => let dst := relax op prec omega k src in fun i => dst i + omega * prec (fun j => src j - op dst j) i
  end%Q.
(** the loop of deal.II does at least the first sweep; [n_iterations] is what [solve] returns *)
Definition solve_relaxation (op prec : vector -> vector) (omega : Q) (n_iterations : nat) (dst src : vector) : vector * nat :=
  (relax op prec omega (n_iterations - 1) src, n_iterations).

(** 378-411: the direct solver on the merged vector; [solve] is the factorisation of the
    assembled matrix, [steps] what it leaves in [last_step], [size] the size of the partitioner *)
Definition solve_direct {A} (zero : A) (size : nat) (solve : list A -> option (list A)) (steps : N) (dst src : list (list A)) : option (list (list A) * N) :=
  obind (merge_components_fast src (repeat zero size)) (fun src_ =>
  obind (solve src_) (fun dst_ => obind (split_up_components_fast dst_ dst) (fun dst => Some (dst, steps)))).

(** 419-473: which wrapper is made; [None]: the exception of 449 *)
Inductive wrapper := GMRES (strategy : string) | Relaxation (omega : Q) (n_iterations : nat) | IDR | Bicgstab (tries : N) | Direct.
Definition create_iterative (strategy : string) (tries : N) (label : string) : option wrapper :=
  if String.eqb label "GMRES" then Some (GMRES strategy)
  else if String.eqb label "Relaxation" then Some (Relaxation 1 1)
  else if String.eqb label "IDR" then Some IDR
  else if String.eqb label "Bicgstab" then Some (Bicgstab tries) else None.
Definition create (strategy : string) (tries : N) (label : string) : option wrapper :=
  if String.eqb label "Direct" then Some Direct else create_iterative strategy tries label.
(** parameters.h 1003-1008 and 1072-1077, as [Patterns::Selection] splits them at the bars *)
Definition labels : list string := ["GMRES"; "IDR"; "Bicgstab"; "Relaxation"; "Direct"]%string.
Definition strategies : list string := ["classical gram schmidt"; "modified gram schmidt"]%string.

(** solvers_nonlinear_snes.h 280-310: is the preconditioner set up in [setup_jacobian];
    [track]: solve_with_jacobian_and_track_n_linear_iterations is attached; [pred] is the result of
    the predicate if there is one.  The remainder is only taken by a positive number. *)
Record counters := { n_nonlinear : N; n_linear : N }.
Definition update_preconditioner (thr_nonlinear thr_linear : N) (track : bool) (pred : option bool) (s : counters) : bool :=
  let u := (N.ltb 0 thr_nonlinear && N.eqb (n_nonlinear s mod thr_nonlinear) 0) || (track && N.ltb thr_linear (n_linear s)) in
  if u then true else match pred with None => false | Some b => b end.
(** one nonlinear iteration: setup_jacobian, then solve_for_jacobian_system (312-358) with [lin]
    linear iterations; the flag tells whether the preconditioner was set up *)
Definition snes_iteration (thr_nonlinear thr_linear : N) (track : bool) (s : counters) (lin : N) : counters * bool :=
  let u := update_preconditioner thr_nonlinear thr_linear track None s in
  ({| n_nonlinear := u32 (n_nonlinear s + 1); n_linear := if track then lin else n_linear s |}, u).
Fixpoint snes_iterations (thr_nonlinear thr_linear : N) (track : bool) (s : counters) (lins : list N) : counters * list bool :=
  match lins with
  | [] => (s, [])
  | lin :: lins =>
      let '(s, u) := snes_iteration thr_nonlinear thr_linear track s lin in
      let '(s, us) := snes_iterations thr_nonlinear thr_linear track s lins in (s, u :: us)
  end.
(** 215-230: [clear] *)
Definition clear_counters : counters := {| n_nonlinear := 0; n_linear := 0 |}.
(** 232-405: [solve]: the counters are cleared unless the solver is reused, the calls PETSc makes
    are the list of numbers of linear iterations; [iterations] is what PETSc returns and [None]
    stands for ExcSNESNoConvergence, which solvers_nonlinear.h 485-492 turns into
    ExcNewtonDidNotConverge *)
Definition snes_solve (max_iter thr_nonlinear thr_linear : N) (track reuse : bool) (s : counters) (lins : list N) (iterations : N)
    : counters * list bool * option N :=
  let s := if reuse then s else clear_counters in
  let '(s, us) := snes_iterations thr_nonlinear thr_linear track s lins in
  (s, us, if N.eqb max_iter 0 || N.ltb iterations max_iter then Some iterations else None).

(** 360-383: the monitor hands an empty vector to [check_iteration_status]; time_marching.h
    240-262 reads block [offset + i] of it for each quantity to check; [None]: a block that does
    not exist.  A quantity is its offset and its number of components, a vector the list of
    the squared norms of its blocks. *)
Definition check_values (quantities : list (nat * nat)) (r : list Q) : option (list Q) :=
  fold_right (fun '(offset, n) acc =>
    obind acc (fun vs => obind (fold_left (fun v i => obind v (fun v => obind (vget r (offset + i)) (fun x => Some (v + x)%Q))) (seq 0 n) (Some 0%Q))
    (fun v => Some (v :: vs)))) (Some []) quantities.
Definition snes_monitor (quantities : list (nat * nat)) (f : list Q) : option (list Q) := check_values quantities [].
