(** The report on the residual during a nonlinear solve: the groups of blocks (driver.h
    1287-1313), the function that prints them (time_marching.h 243-341), its calls in the damped
    solver (solvers_nonlinear.h 365-388) and in the one of PETSc (solvers_nonlinear_snes.h
    374-393).  A row is the list of numbers printed, not the text.  A block that does not exist
    is [None].  Unsigned differences are natural numbers: [set_n_components] ensures at least
    [offset] components (operator_sintering_data.h 107-118), and an operator with mechanics has
    [dim] components more than the data. *)
From Coq Require Import Ascii String List Reals Arith Bool.
From Verif Require Import Util.
Import ListNotations.
Local Open Scope string_scope.
Local Open Scope list_scope.
Local Open Scope R_scope.

Notation group := (string * nat * nat)%type.

(** driver.h 1287-1313; [n_data]: [sintering_data.n_components()], [n_op]:
    [nonlinear_operator.n_components()] *)
Definition check_groups (offset n_data n_op dim : nat) : list group :=
  (if Nat.ltb 0 offset then [("ch", 0%nat, 1%nat)] else [])
  ++ (if Nat.ltb 1 offset then [("mu", 1%nat, 1%nat)] else [])
  ++ (let n_ac := (n_data - offset)%nat in if Nat.eqb n_ac 0 then [] else [("ac", offset, n_ac)])
  ++ (if Nat.ltb n_data n_op then [("mec", (n_op - dim)%nat, dim)] else []).

(** [norm_sqr] of a block *)
Definition norm_sqr (b : list R) : R := fold_right (fun x s => x * x + s) 0 b.
(** [l2_norm] of a block vector *)
Definition l2_norm (r : list (list R)) : R := sqrt (fold_right (fun b s => norm_sqr b + s) 0 r).

(** 259-264 *)
Fixpoint group_loop (r : list (list R)) (offset n : nat) (val : R) : option R :=
  match n with
  | O => Some val
  | S n => b <- vget r offset ;; group_loop r (S offset) n (val + norm_sqr b)
  end.
(** 256-267 *)
Fixpoint group_values (r : list (list R)) (gs : list group) : option (list R) :=
  match gs with
  | [] => Some []
  | (_, o, n) :: gs => v <- group_loop r o n 0 ;; vs <- group_values r gs ;; Some (sqrt v :: vs)
  end.

(** 246-248: what the function remembers *)
Record memory := mkMem { value_0 : R; values_0 : list R; previous : nat }.

(** 313, 325-328: [a ? b / a : 0.] *)
Definition relative (v v0 : R) : R := if Req_EM_T v0 0 then 0 else v / v0.

(** 319-331: the columns of the groups *)
Fixpoint group_columns (step : nat) (vs v0s : list R) (i : nat) : option (list (R * option R)) :=
  match vs with
  | [] => Some []
  | v :: vs =>
      rel <- (if Nat.ltb 0 step then v0 <- vget v0s i ;; Some (Some (relative v v0)) else Some None) ;;
      rest <- group_columns step vs v0s (S i) ;; Some ((v, rel) :: rest)
  end.

(** a line: residual, ratio (none in the first line), the same for each group, linear
    iterations since the last line *)
Record row := mkRow { r_abs : R; r_rel : option R; r_groups : list (R * option R); r_linear : nat }.

(** 249-341; [linear]: the number of linear iterations so far *)
Definition report (gs : list group) (m : memory) (step : nat) (value : R) (r : list (list R)) (linear : nat) : option (row * memory) :=
  vs <- group_values r gs ;;
  let m := if Nat.eqb step 0 then mkMem value vs 0 else m in
  let step_linear := (linear - previous m)%nat in
  let m := mkMem (value_0 m) (values_0 m) linear in
  cols <- group_columns step vs (values_0 m) 0 ;;
  Some (mkRow value (if Nat.ltb 0 step then Some (relative value (value_0 m)) else None) cols step_linear, m).

(** 285-302: the header between "it" and the last column *)
Definition header (gs : list group) : list string :=
  ["res_abs"; "res_rel"] ++ flat_map (fun g => [fst (fst g) ++ "_res_abs"; fst (fst g) ++ "_res_rel"]%string) gs ++ ["linear_iter"].

(** the lines of one solve: the residuals with the linear iterations so far, in the order of the steps *)
Fixpoint reports (gs : list group) (m : memory) (step : nat) (run : list (list (list R) * nat)) : option (list row * memory) :=
  match run with
  | [] => Some ([], m)
  | (r, linear) :: run =>
      x <- report gs m step (l2_norm r) r linear ;;
      y <- reports gs (snd x) (S step) run ;; Some (fst x :: fst y, snd y)
  end.

(** 351-353 and solvers_nonlinear.h 365-388 *)
Inductive state := Iterate | Success | Failure.
Definition report_status (solver : string) : state := if String.eqb solver "NOX" then Iterate else Success.
Definition damped_check (s1 s2 : state) : state :=
  match s1, s2 with
  | Failure, _ | _, Failure => Failure
  | Iterate, _ | _, Iterate => Iterate
  | _, _ => Success
  end.

(** solvers_nonlinear_snes.h 380-390: the residual handed over is an empty vector *)
Definition snes_report (gs : list group) (m : memory) (step : nat) (value : R) (r : list (list R)) (linear : nat) : option (row * memory) :=
  report gs m step value [] linear.
