(** Checkpointed fields: /repo/include/pf-applications/base/solution_serialization.h
    lines 29-219 (SolutionSerialization).  A process is described by what deal.II
    tells it: the degrees of freedom of its cells. [None] is an access outside of a
    vector or a failing assertion. *)
From Coq Require Import List Arith Bool Lia.
From Verif Require Import Util CutoffModel.
Import ListNotations.

(** The tree of cells under a coarse cell; on active cells whether they are locally
    owned and their degrees of freedom: the index within the locally owned ones, or
    [None] if the degree of freedom belongs to another process. *)
Inductive cell_tree :=
| Active (locally_owned : bool) (dofs : list (option nat))
| Refined (children : list cell_tree).

Notation visit_state := (list bool * list nat)%type.   (* [mask], [result] *)

(** 107-121 *)
Fixpoint visit_dofs (dofs : list (option nat)) (s : visit_state) : option visit_state :=
  match dofs with
  | [] => Some s
  | None :: r => visit_dofs r s
  | Some i :: r =>
    m <- vget (fst s) i ;;
    if m then visit_dofs r s
    else mask <- vset (fst s) i true ;; visit_dofs r (mask, snd s ++ [i])
  end.

(** [visit_cells_recursevely], 89-132 *)
Fixpoint visit_cell (t : cell_tree) (s : visit_state) {struct t} : option visit_state :=
  match t with
  | Active own dofs => if own then visit_dofs dofs s else Some s
  | Refined ch =>
    (fix visit_children (l : list cell_tree) (s : visit_state) : option visit_state :=
       match l with
       | [] => Some s
       | c :: l => s' <- visit_cell c s ;; visit_children l s'
       end) ch s
  end.

Fixpoint visit_cells (l : list cell_tree) (s : visit_state) : option visit_state :=
  match l with
  | [] => Some s
  | c :: l => s' <- visit_cell c s ;; visit_cells l s'
  end.

(** [create_unique_dof_map], 134-152 *)
Definition create_unique_dof_map (n : nat) (coarse : list cell_tree) : option (list nat) :=
  s <- visit_cells coarse (repeat false n, []) ;;
  if length (snd s) =? n then Some (snd s) else None.

Section Values.

Variable A : Type.
Variable zero : A.

Notation field := (list A).     (* the locally owned part of one vector *)

(** 59-64: [temp[c] = vectors[b]->local_element(unique_dof_map[i])] *)
Fixpoint gather1 (dof_map : list nat) (v : field) : option (list A) :=
  match dof_map with
  | [] => Some []
  | i :: r => x <- vget v i ;; xs <- gather1 r v ;; Some (x :: xs)
  end.

Fixpoint gather (dof_map : list nat) (vs : list field) : option (list A) :=
  match vs with
  | [] => Some []
  | v :: vs => a <- gather1 dof_map v ;; b <- gather dof_map vs ;; Some (a ++ b)
  end.

(** 79-83 *)
Fixpoint scatter1 (dof_map : list nat) (temp : list A) (v : field) : option field :=
  match dof_map, temp with
  | i :: r, x :: t => v' <- vset v i x ;; scatter1 r t v'
  | [], _ => Some v
  | _ :: _, [] => None
  end.

Fixpoint scatter (dof_map : list nat) (temp : list A) (vs : list field) : option (list field) :=
  match vs with
  | [] => Some []
  | v :: vs => v' <- scatter1 dof_map (firstn (length dof_map) temp) v ;;
               vs' <- scatter dof_map (skipn (length dof_map) temp) vs ;;
               Some (v' :: vs')
  end.

(** The file in units of [value_type]; [None]: nothing written there. *)
Notation file := (nat -> option A).

(** 183-215: writing at the offset of the process; the file is not truncated. *)
Definition write_at (f : file) (offset : nat) (l : list A) : file :=
  fun p => if (offset <=? p) && (p <? offset + length l) then vget l (p - offset) else f p.

(** Reading at the offset of the process; beyond the end of the file the buffer keeps
    its zeros. *)
Definition read_at (f : file) (offset n : nat) : list A :=
  map (fun p => match f p with Some x => x | None => zero end) (seq offset n).

(** A process: number of locally owned degrees of freedom and its [unique_dof_map]. *)
Record process := mkProcess { n_owned : nat; dof_map : list nat }.

(** [save], 51-66, of all processes: the offset is the sum of the sizes of the
    processes before ([MPI_Exscan], 160-170). *)
Fixpoint save (ps : list process) (data : list (list field)) (offset : nat) (f : file) : option file :=
  match ps, data with
  | p :: ps, vs :: data =>
    temp <- gather (dof_map p) vs ;;
    save ps data (offset + n_owned p * length vs) (write_at f offset temp)
  | _, _ => Some f
  end.

(** [load], 68-82 *)
Fixpoint load (ps : list process) (data : list (list field)) (offset : nat) (f : file)
  : option (list (list field)) :=
  match ps, data with
  | p :: ps, vs :: data =>
    let local_size := n_owned p * length vs in
    vs' <- scatter (dof_map p) (read_at f offset local_size) vs ;;
    r <- load ps data (offset + local_size) f ;;
    Some (vs' :: r)
  | _, _ => Some []
  end.

End Values.
