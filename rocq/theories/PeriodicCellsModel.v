(** Model of the collection of periodic connections in [detect_grains],
    include/pf-applications/grain_tracker/tracker.h 1290-1355: every rank runs over
    its cells and ghost cells, the results are sent to all ranks, and a list of
    connections for the periodicity graph is made from them.

    Cells, ranks and particles are numbers, [None] is [invalid_particle_id]; the
    values of ghost cells are those of the owner.  deal.II's [periodic_neighbor] is a
    parameter. *)
From Coq Require Import List Arith Bool.
From Verif Require Import Util.
Import ListNotations.
Local Open Scope nat_scope.

(** tracker.h 1323-1334: the periodic neighbor over a face is an active cell or a
    refined cell, of which the children at the face are taken *)
Inductive neighbor := Active (c : nat) | Refined (children : list nat).
Definition across (n : neighbor) : list nat := match n with Active c => [c] | Refined l => l end.

Section Rank.
Variable n_cells : nat.
Variable owner : nat -> nat.
(** [!is_artificial()] on a rank *)
Variable relevant : nat -> nat -> bool.
(** for each face with a periodic neighbor the neighbor (tracker.h 1304-1307) *)
Variable periodic : nat -> list neighbor.
Variable ids : nat -> option nat.

(** [std::set<std::tuple<unsigned int, unsigned int>>::emplace] *)
Definition pair_lt (a b : nat * nat) : bool := (fst a <? fst b) || ((fst a =? fst b) && (snd a <? snd b)).
Fixpoint emplace (x : nat * nat) (l : list (nat * nat)) : list (nat * nat) :=
  match l with
  | [] => [x]
  | y :: r => if pair_lt x y then x :: l else if pair_lt y x then y :: emplace x r else l
  end.

(** tracker.h 1309-1321: the lambda [add] *)
Definition add_pair (rank particle : nat) (s : list (nat * nat)) (other : nat) : list (nat * nat) :=
  if negb (owner other =? rank) then s
  else match ids other with None => s | Some q => emplace (q, particle) s end.

(** tracker.h 1293-1336: one cell, all cells *)
Definition cell_pairs (rank : nat) (s : list (nat * nat)) (c : nat) : list (nat * nat) :=
  if relevant rank c then
    match ids c with
    | None => s
    | Some p => fold_left (fun s face => fold_left (add_pair rank p) (across face) s) (periodic c) s
    end
  else s.
Definition rank_pairs (rank : nat) : list (nat * nat) := fold_left (cell_pairs rank) (seq 0 n_cells) [].

(** tracker.h 1338-1344 *)
Definition flatten_pairs (l : list (nat * nat)) : list nat := flat_map (fun p => [fst p; snd p]) l.
(** tracker.h 1353-1354; [None]: read past the end *)
Fixpoint read_pairs (l : list nat) : option (list (nat * nat)) :=
  match l with
  | [] => Some []
  | [_] => None
  | a :: b :: r => rest <- read_pairs r ;; Some ((a, b) :: rest)
  end.
Fixpoint read_all (l : list (list nat)) : option (list (nat * nat)) :=
  match l with
  | [] => Some []
  | x :: r => a <- read_pairs x ;; b <- read_all r ;; Some (a ++ b)
  end.
(** tracker.h 1346-1355: [all_gather] and the connections in the order of the ranks *)
Definition connections (n_ranks : nat) : option (list (nat * nat)) := read_all (map (fun r => flatten_pairs (rank_pairs r)) (seq 0 n_ranks)).
End Rank.
