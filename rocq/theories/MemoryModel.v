(** The report of the memory in use.

    /repo/include/pf-applications/base/memory_consumption.h lines 22-113,
    /repo/applications/sintering/include/pf-applications/sintering/operator_base.h 642-658,
    preconditioners.h 1293-1303, /repo/include/pf-applications/lac/preconditioners.h 92-98 and
    the overrides at 151-155, 204-208, 670-675, 751-755, 840-852, 972-981, 1064-1076, and
    driver.h 2411-2462.

    Simplified: sizes are unbounded natural numbers ([std::size_t] and, for the sums over the
    ranks, [double]); what deal.II and Trilinos classes report about themselves is an argument.
    [None] is the exception of a class that does not implement the report. *)
From Coq Require Import QArith NArith List Bool.
From Verif Require Import Util.
Import ListNotations.
Local Open Scope N_scope.
Local Open Scope list_scope.

(** adds two reports *)
Definition plus_report (a b : option N) : option N := x <- a ;; y <- b ;; Some (x + y).

(** What [memory_consumption] is called for: a fundamental value of [n] bytes, an object with a
    report of its own, a shared or unique pointer, a vector, a level object. *)
Inductive mem :=
| Fundamental (n : N)
| Object (report : option N)
| Pointer (target : option mem)
| Vector (entries : list mem)
| Levels (entries : list mem).

(** memory_consumption.h 54-111 *)
Fixpoint consumption (m : mem) : option N :=
  match m with
  | Fundamental n => Some n
  | Object r => r
  | Pointer None => Some 0
  | Pointer (Some m) => consumption m
  | Vector l => fold_left (fun acc m => plus_report acc (consumption m)) l (Some 0)
  | Levels l => fold_left (fun acc m => plus_report acc (consumption m)) l (Some 0)
  end.

(** operator_base.h 960-984: the members that are reported. A block matrix has an identity,
    since blocks may share one. *)
Record operator_data := mkOp {
  od_constraints : N; od_system : N; od_blocks : list (option (nat * N));
  od_src : list N; od_dst : list N; od_indices : nat; od_values : nat }.

Definition matrix_pointer (b : option (nat * N)) : mem :=
  Pointer (option_map (fun x => Object (Some (snd x))) b).
(** dynamic_block_vector.h 526-530: a vector of shared pointers to the blocks *)
Definition block_vector (l : list N) : mem := Vector (map (fun n => Pointer (Some (Object (Some n)))) l).

(** operator_base.h 642-658; 4 and 8 bytes for the indices and values *)
Definition operator_memory (o : operator_data) : option N :=
  plus_report (plus_report (plus_report (plus_report (plus_report (plus_report (plus_report
    (Some (od_constraints o))
    (Some (od_system o)))
    (consumption (Vector (map matrix_pointer (od_blocks o)))))
    (consumption (Vector (map matrix_pointer (od_blocks o)))))
    (consumption (block_vector (od_src o))))
    (consumption (block_vector (od_dst o))))
    (consumption (Vector (repeat (Fundamental 4) (od_indices o)))))
    (consumption (Vector (repeat (Fundamental 8) (od_values o)))).

(** The preconditioners; the number of an ILU or IC is that of the factors, which is not
    reported. *)
Inductive precond :=
| Identity
| InverseDiagonal (diagonal : N)
| InverseComponentBlockDiagonal
| InverseBlockDiagonal
| Amg (amg : N) (src dst : list N)
| BlockAmg (amgs : list N)
| Ilu (factors : N) (src dst : list N)
| BlockIlu (factors : list N)
| Ic (factors : N) (src dst : list N)
| Gmg
| BlockPreconditioner (op0 op1 op1_blocked op2 : option operator_data)
    (mg1 mg_blocked : list (option operator_data)) (p0 p1 p2 : option precond).

Definition operator_pointer (o : option operator_data) : mem :=
  Pointer (option_map (fun o => Object (operator_memory o)) o).

Fixpoint precond_memory (p : precond) : option N :=
  match p with
  (** 151-155 *)
  | Identity => Some 0
  (** 204-208 *)
  | InverseDiagonal d => Some d
  (** 92-98, not overridden *)
  | InverseComponentBlockDiagonal => None
  | InverseBlockDiagonal => None
  | Gmg => None
  (** 670-675 *)
  | Amg a src dst =>
      plus_report (plus_report (Some a) (consumption (block_vector src))) (consumption (block_vector dst))
  (** 751-755 *)
  | BlockAmg l => consumption (block_vector l)
  (** 840-852 *)
  | Ilu _ src dst => plus_report (consumption (block_vector src)) (consumption (block_vector dst))
  (** 972-981 *)
  | BlockIlu _ => Some 0
  (** 1064-1076 *)
  | Ic _ src dst => plus_report (consumption (block_vector src)) (consumption (block_vector dst))
  (** preconditioners.h 1293-1303 *)
  | BlockPreconditioner op0 op1 op1b _ mg1 mgb p0 p1 _ =>
      plus_report (plus_report (plus_report (plus_report (plus_report (plus_report
        (consumption (operator_pointer op0))
        (consumption (operator_pointer op1)))
        (consumption (operator_pointer op1b)))
        (consumption (Levels (map operator_pointer mg1))))
        (consumption (Levels (map operator_pointer mgb))))
        (match p0 with Some p => precond_memory p | None => Some 0 end))
        (match p1 with Some p => precond_memory p | None => Some 0 end)
  end.

(** What the objects of the driver report on one rank. *)
Record rank_memory := mkRank {
  r_tria : N; r_dofs : N; r_constraints : N; r_matrix_free : N; r_data : N;
  r_operator : option N; r_history : N; r_precond : option N }.

(** [Utilities::MPI::sum] *)
Definition over_ranks (f : rank_memory -> option N) (l : list rank_memory) : option N :=
  fold_right (fun r acc => plus_report (f r) acc) (Some 0) l.

Definition gigabytes (n : N) : Q := (inject_Z (Z.of_N n) / inject_Z 1000000000)%Q.

(** driver.h 2411-2462: the number behind "Memory consumption" and those of the lines below *)
Definition memory_report (enabled changed : bool) (l : list rank_memory) : option (option (Q * list Q)) :=
  if enabled && changed then
    tria <- over_ranks (fun r => Some (r_tria r)) l ;;
    dofs <- over_ranks (fun r => Some (r_dofs r)) l ;;
    cons <- over_ranks (fun r => Some (r_constraints r)) l ;;
    mf <- over_ranks (fun r => Some (r_matrix_free r)) l ;;
    data <- over_ranks (fun r => Some (r_data r)) l ;;
    op <- over_ranks r_operator l ;;
    hist <- over_ranks (fun r => Some (r_history r)) l ;;
    pre <- over_ranks r_precond l ;;
    let total := tria + dofs + cons + mf + op + hist + pre in
    Some (Some (gigabytes total, map gigabytes [tria; dofs; cons; mf; data; op; hist; pre]))
  else Some None.
