(** Time stepping with the ARKode package,
    include/pf-applications/time_integration/time_marching.h 824-1163
    ([TimeMarchingArkode]) and equation_type.h.

    A block of a vector is an element of a type [B].  The residual
    ([evaluate_nonlinear_residual]) is a function of the current time and of the whole
    vector; it overwrites its destination, so the content of the blocks put into [ydot]
    before (927) plays no role.  ARKode is a function given from outside: it gets the right
    hand side, the flag for a restart, the end time and the vector, and returns the new vector;
    it may call the right hand side as often as it likes and may fail ([None]).  The blocks
    of the vectors are copies here, shared pointers in the code: the blocks held in
    [stationary_blocks] are those of the solution.  Left out: timers, counters, the setup of
    the preconditioner, tolerances and the choice of the methods.  [None]: thrown error or
    access out of range. *)
From Coq Require Import List Arith Bool QArith.
From Verif Require Import Util BlockVectorModel.
Import ListNotations.
Open Scope nat_scope.

(** equation_type.h 18-24 *)
Inductive equation_type := Undefined | TimeDependent | Stationary.

(** 855-866: the loop of the constructor; [c] is the next component *)
Fixpoint collect (c : nat) (types : list equation_type) : option (list nat) :=
  match types with
  | [] => Some []
  | Undefined :: _ => None
  | Stationary :: r => obind (collect (S c) r) (fun l => Some (c :: l))
  | TimeDependent :: r => collect (S c) r
  end.
Definition stationary_indices (types : list equation_type) : option (list nat) := collect 0 types.

Section Step.
Context {B : Type} (null : B) (neg set_zero distribute : B -> B) (mass : option (B -> B)) (residual : Q -> list B -> list B).

(** 914-942: [explicit_function]; result: [ydot] and the vector [y] after the call.  The
    insertions into [y] and [ydot] alternate in the code (923-928), as do the removals
    (932-936); they concern different vectors.  [dummy] are the blocks of the member
    [residual]. *)
Definition explicit_function (idx : list nat) (stationary_blocks dummy : list B) (t : Q) (y ydot : list B) : option (list B * list B) :=
  obind (insert_all null idx stationary_blocks y) (fun y =>
  obind (insert_all null idx dummy ydot) (fun _ =>
  let ydot := residual t y in
  obind (remove_all (rev idx) y) (fun ry =>
  obind (remove_all (rev idx) ydot) (fun rydot =>
  Some (map neg (snd rydot), snd ry))))).

(** 1104-1126: the new value of a stationary block out of its residual *)
Definition algebraic (r : B) : B :=
  neg (match mass with
       | Some solve => distribute (solve (set_zero r))
       | None => distribute r
       end).

(** 1102-1127: the loop over the stationary blocks *)
Fixpoint update_stationary (idx : list nat) (r sol : list B) : option (list B) :=
  match idx with
  | [] => Some sol
  | b :: idx => obind (vget r b) (fun rb => obind (vset sol b (algebraic rb)) (fun sol => update_stationary idx r sol))
  end.

(** the solver: the right hand side, restart, end time, vector *)
Definition solver := (Q -> list B -> list B -> option (list B * list B)) -> bool -> Q -> list B -> option (list B).

Record state := mkState { solution : list B; time : Q; ready : bool }.

(** 1048-1129.  [dummy]: the blocks of [residual] at the stationary indices, see above. *)
Definition make_step (ode : solver) (idx : list nat) (dummy : list B) (dt : Q) (s : state) : option state :=
  let time_end := (time s + dt * 1)%Q in
  let need_reinit := negb (ready s) in
  obind (remove_all (rev idx) (solution s)) (fun removed =>
  let stationary_blocks := rev (fst removed) in
  obind (ode (explicit_function idx stationary_blocks dummy) need_reinit time_end (snd removed)) (fun y =>
  obind (match idx with
         | [] => Some y
         | _ =>
           obind (insert_all null idx stationary_blocks y) (fun sol =>
           update_stationary idx (residual time_end sol) sol)
         end) (fun sol =>
  Some (mkState sol time_end true)))).

(** 1131-1138 *)
Definition clear (s : state) : state := mkState (solution s) (time s) false.

(** What the caller does: steps of given sizes and clearing.  The result also lists the
    restart flags of the steps, the first one first. *)
Inductive event := Step (dt : Q) | Clear.
Fixpoint run (ode : solver) (idx : list nat) (dummy : list B) (es : list event) (s : state) : option (state * list bool) :=
  match es with
  | [] => Some (s, [])
  | Step dt :: es => obind (make_step ode idx dummy dt s) (fun s' => obind (run ode idx dummy es s') (fun r => Some (fst r, negb (ready s) :: snd r)))
  | Clear :: es => run ode idx dummy es (clear s)
  end.

(** 1010-1016: [mass_times_vector] goes block by block *)
Definition mass_times_vector (vmult : B -> B) (v : list B) : list B := map vmult v.

(** 1018-1045: [solve_mass]; result: [x] and the right hand side, which is changed although
    it is passed as constant *)
Definition solve_mass (solve : B -> B) (b : list B) : list B * list B :=
  (map (fun r => distribute (solve (set_zero r))) b, map set_zero b).
End Step.
