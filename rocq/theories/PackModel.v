(** Taking a packed vector apart into the unknowns of the Cahn-Hilliard part and of the
    Allen-Cahn part and putting it together again
    (include/pf-applications/numerics/vector_tools.h 22-38 and 99-514).

    A packed vector holds all components at one point one after another.  The quick versions
    ([split_up_fast], [merge_fast]) rely on this layout; the slow ones ([split_up], [merge])
    go through the cells and the numbering of the unknowns.  There is a version with two
    parts (two components and the grains) and one with three parts (one, one and the grains).
    Vectors are the lists of the locally owned entries; access out of range is [None]
    ([local_element] does not check it in a release build).  Ghost entries and their update
    are not modelled: the cells are those of one process. *)
From Coq Require Import List Arith Bool QArith.
From Verif Require Import Util.
Import ListNotations.
Open Scope nat_scope.

(** vector_tools.h 22-38: [check_identity].  The loop runs over the entries of the first
    vector. *)
Fixpoint same_loop (n i : nat) (u v : list Q) : option bool :=
  match n with
  | 0 => Some true
  | S n => obind (vget u i) (fun x => obind (vget v i) (fun y => if negb (Qeq_bool x y) then Some false else same_loop n (S i) u v))
  end.
Definition check_identity (u v : list Q) : option bool :=
  if negb (length u =? length v) then Some false else same_loop (length u) 0 u v.

Section Values.
Context {A : Type}.

(** [for (j = 0; j < m; ++j) dst.local_element(k++) = src.local_element(i++);], 109-117,
    208-209, 319-323, 415-416; the lines outside an inner loop (205-206, 412-413) are the
    case [m = 1] *)
Fixpoint copy (m i k : nat) (src dst : list A) : option (list A) :=
  match m with
  | 0 => Some dst
  | S m => obind (vget src i) (fun v => obind (vset dst k v) (fun dst => copy m (S i) (S k) src dst))
  end.

(** A part of the packed vector: the number of its components, the running index into its
    vector, and its vector. *)
Definition part := (nat * nat * list A)%type.

(** the body of the outer loop, 108-118 ([vec_0] with two components and [vec_1] with
    [n_grains]) and 204-210 ([vec_0], [vec_1] with one component and [vec_2]) *)
Fixpoint split_step (ps : list part) (i : nat) (vec : list A) : option (nat * list part) :=
  match ps with
  | [] => Some (i, [])
  | (m, k, d) :: ps =>
    obind (copy m i k vec d) (fun d =>
    obind (split_step ps (i + m) vec) (fun '(i, ps) => Some (i, (m, k + m, d) :: ps)))
  end.

(** 106-107 and 202-203; the fuel is the length of the packed vector: every pass advances
    by two entries at least *)
Fixpoint split_loop (fuel i : nat) (ps : list part) (vec : list A) : option (list part) :=
  if i <? length vec then
    match fuel with
    | 0 => None
    | S fuel => obind (split_step ps i vec) (fun '(i, ps) => split_loop fuel i ps vec)
    end
  else Some ps.

Definition vectors (ps : list part) : list (list A) := map snd ps.

(** 99-119 *)
Definition split_up_fast2 (vec v0 v1 : list A) (n_grains : nat) : option (list (list A)) :=
  option_map vectors (split_loop (length vec) 0 [(2, 0, v0); (n_grains, 0, v1)] vec).
(** 194-211 *)
Definition split_up_fast3 (vec v0 v1 v2 : list A) (n_grains : nat) : option (list (list A)) :=
  option_map vectors (split_loop (length vec) 0 [(1, 0, v0); (1, 0, v1); (n_grains, 0, v2)] vec).

(** 316-324 and 409-417 *)
Fixpoint merge_step (ps : list part) (i : nat) (vec : list A) : option (nat * list part * list A) :=
  match ps with
  | [] => Some (i, [], vec)
  | (m, k, d) :: ps =>
    obind (copy m k i d vec) (fun vec =>
    obind (merge_step ps (i + m) vec) (fun '(i, ps, vec) => Some (i, (m, k + m, d) :: ps, vec)))
  end.
Fixpoint merge_loop (fuel i : nat) (ps : list part) (vec : list A) : option (list A) :=
  if i <? length vec then
    match fuel with
    | 0 => None
    | S fuel => obind (merge_step ps i vec) (fun '(i, ps, vec) => merge_loop fuel i ps vec)
    end
  else Some vec.

(** 309-325 *)
Definition merge_fast2 (v0 v1 vec : list A) (n_grains : nat) : option (list A) :=
  merge_loop (length vec) 0 [(2, 0, v0); (n_grains, 0, v1)] vec.
(** 401-418 *)
Definition merge_fast3 (v0 v1 v2 vec : list A) (n_grains : nat) : option (list A) :=
  merge_loop (length vec) 0 [(1, 0, v0); (1, 0, v1); (n_grains, 0, v2)] vec.

(** *** Through the cells *)

(** What the code asks of a finite element: the number of components, the number of unknowns
    of a cell, and the change between the index of an unknown and its component and index
    within the component. *)
Record fe := { n_comp : nat; n_dofs : nat; s2c : nat -> nat * nat; c2s : nat -> nat -> nat }.

Fixpoint gather (ix : list nat) (v : list A) : option (list A) :=
  match ix with
  | [] => Some []
  | i :: ix => obind (vget v i) (fun x => obind (gather ix v) (fun l => Some (x :: l)))
  end.
(** [cell.set_dof_values(local, v)] *)
Fixpoint scatter (ix : list nat) (l : list A) (v : list A) : option (list A) :=
  match ix, l with
  | i :: ix, x :: l => obind (vset v i x) (fun v => scatter ix l v)
  | _, _ => Some v
  end.

(** 139-163 (and 165-186, 232-256, 258-278, 280-302): the unknowns [da] of the cell in the
    packed vector, the unknowns [d] of the same cell in the part; component [c] of the part
    is component [c + off] of the packed vector *)
Definition split_part (fa f : fe) (off : nat) (da d : list nat) (vec dst : list A) : option (list A) :=
  obind (gather da vec) (fun local =>
  obind (gather (map (fun i => let '(c, j) := s2c f i in c2s fa (c + off) j) (seq 0 (n_dofs f))) local) (fun local_component =>
  scatter d local_component dst)).

(** 348-367 (and 369-389, 443-462, 464-483, 485-505) *)
Definition merge_part (fa f : fe) (off : nat) (d : list nat) (src local : list A) : option (list A) :=
  obind (gather d src) (fun local_component =>
  scatter (map (fun i => let '(c, j) := s2c f i in c2s fa (c + off) j) (seq 0 (n_dofs f))) local_component local).

(** A cell: its unknowns in the packed vector and in each of the parts. *)
Definition cell := (list nat * list (list nat))%type.

(** the parts: element, offset *)
Fixpoint split_parts (fa : fe) (ps : list (fe * nat)) (da : list nat) (ds : list (list nat)) (vec : list A) (dsts : list (list A)) : option (list (list A)) :=
  match ps, ds, dsts with
  | (f, off) :: ps, d :: ds, dst :: dsts =>
    obind (split_part fa f off da d vec dst) (fun dst =>
    obind (split_parts fa ps da ds vec dsts) (fun dsts => Some (dst :: dsts)))
  | _, _, _ => Some dsts
  end.

(** 123-190: [split_up] with two parts, element [ch] for the Cahn-Hilliard part, [ac] for
    the Allen-Cahn part; 215-305 with three parts, the first two with the same element *)
Fixpoint split_up (fa : fe) (ps : list (fe * nat)) (cells : list cell) (vec : list A) (dsts : list (list A)) : option (list (list A)) :=
  match cells with
  | [] => Some dsts
  | (da, ds) :: cells => obind (split_parts fa ps da ds vec dsts) (fun dsts => split_up fa ps cells vec dsts)
  end.
Definition split_up2 (fa ch ac : fe) := split_up fa [(ch, 0); (ac, 2)].
Definition split_up3 (fa one ac : fe) := split_up fa [(one, 0); (one, 1); (ac, 2)].

Fixpoint merge_parts (ps : list (fe * nat)) (fa : fe) (ds : list (list nat)) (srcs : list (list A)) (local : list A) : option (list A) :=
  match ps, ds, srcs with
  | (f, off) :: ps, d :: ds, src :: srcs =>
    obind (merge_part fa f off d src local) (fun local => merge_parts ps fa ds srcs local)
  | _, _, _ => Some local
  end.

(** 329-397 and 422-514: [local] starts with zeros *)
Fixpoint merge (zero : A) (fa : fe) (ps : list (fe * nat)) (cells : list cell) (srcs : list (list A)) (vec : list A) : option (list A) :=
  match cells with
  | [] => Some vec
  | (da, ds) :: cells =>
    obind (merge_parts ps fa ds srcs (repeat zero (n_dofs fa))) (fun local =>
    obind (scatter da local vec) (fun vec => merge zero fa ps cells srcs vec))
  end.
Definition merge2 (zero : A) (fa ch ac : fe) := merge zero fa [(ch, 0); (ac, 2)].
Definition merge3 (zero : A) (fa one ac : fe) := merge zero fa [(one, 0); (one, 1); (ac, 2)].

End Values.
