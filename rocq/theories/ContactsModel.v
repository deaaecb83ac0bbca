(** Model of applications/sintering/scripts/contacts.py: finding the pairs of
    overlapping spheres with two ball trees.

    Simplifications: coordinates are not modelled, only the distances between
    points, which are named by their index in [poss]; numbers are exact rationals;
    numpy arrays are lists.  [argsort] and [query_radius] are parameters. *)
From Coq Require Import QArith List Arith Bool.
From Verif Require Import Util.
Import ListNotations.
Local Open Scope nat_scope.

(** A segmented array: sizes and values. *)
Definition segmented := (list nat * list nat)%type.

(** 8-11 [flatten_neighbours] *)
Definition flatten (arr : list (list nat)) : segmented := (map (@length nat) arr, concat arr).

(** 19-22 [vstack_neighbours] *)
Definition vstack (top bottom : segmented) : segmented := (fst top ++ fst bottom, snd top ++ snd bottom).

(** 24-40 [hstack_neighbours]: the cursors are what remains of the values; both
    size arrays are read up to the length of the left one. *)
Fixpoint hstack_loop (ls rs lv rv : list nat) : segmented :=
  match ls with
  | [] => ([], [])
  | l :: ls' =>
      let r := hd 0 rs in
      let (sizes, values) := hstack_loop ls' (tl rs) (skipn l lv) (skipn r rv) in
      (l + r :: sizes, firstn l lv ++ firstn r rv ++ values)
  end.
Definition hstack (left right : segmented) (offset : nat) : segmented :=
  hstack_loop (fst left) (fst right) (snd left) (map (fun v => v + offset) (snd right)).

(** 49-51: [in_offsets] *)
Fixpoint offsets (s : nat) (sizes : list nat) : list nat :=
  match sizes with [] => [] | x :: r => s :: offsets (s + x) r end.
(** 42-62 [reorder_neighbours] *)
Definition reorder (a : segmented) (index reverse_index : list nat) : segmented :=
  let offs := offsets 0 (fst a) in
  (map (fun r => nth r (fst a) 0) reverse_index,
   flat_map (fun r => map (fun v => nth v index 0) (firstn (nth r (fst a) 0) (skipn (nth r offs 0) (snd a)))) reverse_index).

(** 64-77 [small_inplace_sort]: [x] moves left past the greater elements; the
    sorted part is kept in reverse.  (From 80 elements on numpy's sort is called.) *)
Fixpoint sift (x : nat) (sorted_rev : list nat) : list nat :=
  match sorted_rev with
  | y :: r => if x <? y then y :: sift x r else x :: sorted_rev
  | [] => [x]
  end.
Definition small_sort (arr : list nat) : list nat := rev (fold_left (fun acc x => sift x acc) arr []).

Section Contacts.
Variable dist : nat -> nat -> Q.
Variable radii : list Q.
Definition radius (i : nat) : Q := nth i radii 0%Q.

(** 13-17 [find_neighbours]; a ball tree needs at least one point. *)
Variable query_radius : nat -> list nat -> Q -> list nat.
Definition find_neighbours (searched ref : list nat) (max_dist : nat -> Q) : option segmented :=
  match ref, searched with
  | [], _ | _, [] => None
  | _, _ => Some (flatten (map (fun p => query_radius p ref (max_dist p)) searched))
  end.

(** 115-116 *)
Definition contact_check (i j : nat) : Q := (dist i j - (radius j + radius i))%Q.

(** 94-136: contacts of the particles from [idx] on, with both orders of a pair *)
Fixpoint contacts_from (idx : nat) (sizes values : list nat) : list (Q * (nat * nat)) :=
  match sizes with
  | [] => []
  | size :: r =>
      let nears := small_sort (filter (fun v => negb (v =? idx)) (firstn size values)) in
      let hits := filter (fun j => Qle_bool (contact_check idx j) 0) nears in
      combine (map (contact_check idx) hits) (map (fun j => (idx, j)) (small_sort hits)) ++ contacts_from (S idx) r (skipn size values)
  end.

(** 79-161 [compute]: [None] when the assertion of 142 fails, when more rows are
    written than [size] or when some rows stay uninitialised. *)
Definition compute (a : segmented) : option (list (Q * (nat * nat))) :=
  let org := contacts_from 0 (fst a) (snd a) in
  if negb (length org mod 2 =? 0) then None
  else
    let rows := filter (fun row => fst (snd row) <? snd (snd row)) org in
    if length rows =? length org / 2 then Some rows else None.

(** numpy's [argsort] of the radii *)
Variable argsort : list Q -> list nat.

(** 168-169 [reverse_index[index] = arange]: where a particle stands in [index]
    (each occurs once). *)
Fixpoint index_of (x : nat) (l : list nat) : nat := match l with [] => 0 | y :: r => if x =? y then 0 else S (index_of x r) end.

(** 163-203 [ends_gap] *)
Definition ends_gap : option (list (Q * (nat * nat))) :=
  let n := length radii in
  if n =? 0 then None
  else
    let index := argsort radii in
    let reverse_index := map (fun i => index_of i index) (seq 0 n) in
    let split := n * 3 / 4 in
    let small := firstn split index in
    let big := skipn split index in
    let max_small := radius (nth split index 0) in
    let max_big := radius (nth (n - 1) index 0) in
    ss <- find_neighbours small small (fun p => radius p + max_small)%Q ;;
    sb <- find_neighbours small big (fun p => radius p + max_big)%Q ;;
    bs <- find_neighbours big small (fun p => radius p + max_small)%Q ;;
    bb <- find_neighbours big big (fun p => radius p + max_big)%Q ;;
    compute (reorder (vstack (hstack ss sb split) (hstack bs bb split)) index reverse_index).
End Contacts.
