(** Model of how the values a filter by a bounding box changes on several processes are
    brought together: include/pf-applications/grid/grid_tools.h 123-150
    [update_selected_ghosts] and 238-240, 327-352, 358-476 of
    [filter_mesh_withing_bounding_box].

    The field has one block.  [x r i]: the entry of degree of freedom [i] in the vector of
    process [r], owned or ghost.  What the lines of the cells do with it (244-357, modelled in
    C27) is a list of operations, each looks at the vector of its process and may set one
    entry.  The order of the ghost indices and of the values sent with them is the same (a
    [std::map] and an [IndexSet] both ascend).  Numbers are rational.  The constraints of
    hanging nodes (467-472) are left out. *)
From Coq Require Import List QArith Qabs Qminmax Arith Bool.
From Verif Require Import Util.
Import ListNotations.
Local Open Scope nat_scope.

Definition field := nat -> Q.
Definition put (x : field) (i : nat) (v : Q) : field := fun j => if Nat.eqb j i then v else x j.

(** 358 *)
Definition eps_tol : Q := (1 # 1000000)%Q.

(** [new_values]: first value found and last value set *)
Definition notes := nat -> option (Q * Q).
Definition note (m : notes) (i : nat) (p : Q * Q) : notes := fun j => if Nat.eqb j i then Some p else m j.

(** an operation: [None] leaves the vector as it is *)
Definition operation := field -> option (nat * Q).

(** 327-352; [ghost i]: [is_ghost_entry] *)
Definition apply_operation (ghost : nat -> bool) (o : operation) (s : field * notes) : field * notes :=
  let '(x, m) := s in
  match o x with
  | None => (x, m)
  | Some (i, w) =>
    let m := if ghost i then note m i (match m i with None => (x i, w) | Some (old, _) => (old, w) end) else m in
    (put x i w, m)
  end.
Definition apply_operations (ghost : nat -> bool) (os : list operation) (s : field * notes) : field * notes :=
  fold_left (fun s o => apply_operation ghost o s) os s.

(** ** The exchange for one entry *)
(** 123-150: [add], [max], [min] of the values sent by the other processes into the owned one *)
Definition import_add (v : Q) (sent : list Q) : Q := fold_left Qplus sent v.
Definition import_max (v : Q) (sent : list Q) : Q := fold_left Qmax sent v.
Definition import_min (v : Q) (sent : list Q) : Q := fold_left Qmin sent v.

(** 367-395: the notes that are kept: the entry, as the owner has it, is still the one found *)
Definition kept (v : Q) (ps : list (Q * Q)) : list (Q * Q) :=
  filter (fun p => qltb (Qabs (v - fst p)) eps_tol) ps.

(** 358-465; [v]: the value of the owner, [ps]: what the other processes have noted.  After
    every step [update_ghost_values] (149) shows all processes the same value *)
Definition exchange (v : Q) (ps : list (Q * Q)) : Q :=
  let ps := kept v ps in
  let v := import_add v (map (fun p => (- fst p)%Q) ps) in
  let v := import_max v (if qltb v (- eps_tol) then map (fun _ => 0%Q) ps else []) in
  let v := import_min v (map snd (filter (fun p => qltb (snd p) 0) ps)) in
  import_max v (map snd (filter (fun p => qltb 0 (snd p)) ps)).

(** ** One level on all processes.  [owner i]: the process an entry belongs to *)
Section Level.
Variables (n_ranks : nat) (owner : nat -> nat).
Definition ghost_on (r i : nat) : bool := negb (Nat.eqb (owner i) r).
Definition local_result (os : nat -> list operation) (x : nat -> field) (r : nat) : field * notes :=
  apply_operations (ghost_on r) (os r) (x r, fun _ => None).
Definition noted (os : nat -> list operation) (x : nat -> field) (i : nat) : list (Q * Q) :=
  flat_map (fun r => match snd (local_result os x r) i with Some p => [p] | None => [] end) (seq 0 n_ranks).
(** the vector of every process afterwards *)
Definition level (os : nat -> list operation) (x : nat -> field) : nat -> field := fun r i =>
  exchange (fst (local_result os x (owner i)) i) (noted os x i).
End Level.

(** the same on one process: nothing is a ghost *)
Definition serial (os : list operation) (x : field) : field := fst (apply_operations (fun _ => false) os (x, fun _ => None)).
