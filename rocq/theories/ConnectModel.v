(** C106: making a packing of spheres connected,
    applications/sintering/scripts/check_particle_connectivity.py 80-301.

    Particles are numbered; the distances of their centers are given (they never
    change), radii are a list of rationals.  The connected components and the
    minimum spanning tree come from scipy and are given from outside, so are not
    modelled; searches in the kd-tree are replaced by searches through all
    particles (of several nearest particles the first is taken).  Reading,
    writing and printing are left out.  [None]: exception. *)
From Coq Require Import QArith List Arith Bool.
From Verif Require Import Util.
Import ListNotations.
Local Open Scope nat_scope.

Section Connect.
Variables (dist : nat -> nat -> Q) (tolerance : Q).
(** scipy: number of components and label of each particle for the number of
    particles and the list of contacts. *)
Variable connected_components : nat -> list (nat * nat) -> nat * list nat.

Definition rad (radii : list Q) (i : nat) : Q := nth i radii 0%Q.

(** [radii.max()] *)
Definition qmaximum (l : list Q) : Q := fold_left (fun m x => if qltb m x then x else m) l (hd 0%Q l).

Definition all_pairs (n : nat) : list (nat * nat) := flat_map (fun i => map (fun j => (i, j)) (seq (S i) (n - S i))) (seq 0 n).

(** 80-99 [build_contact_graph]: the pairs stored in the matrix. *)
Definition contact_pairs (radii : list Q) : list (nat * nat) :=
  let max_contact := (2 * qmaximum radii + tolerance)%Q in
  let pairs := filter (fun p => Qle_bool (dist (fst p) (snd p)) max_contact) (all_pairs (length radii)) in
  filter (fun p => Qle_bool (dist (fst p) (snd p) - (rad radii (fst p) + rad radii (snd p) + tolerance)) 0) pairs.

(** 102-105 [get_components] *)
Definition get_components (radii : list Q) : nat * list nat := connected_components (length radii) (contact_pairs radii).

Record edge := mkEdge { e_a : nat; e_b : nat; e_gap : Q; e_i : nat; e_j : nat; e_dist : Q }.

(** First index with the smallest value. *)
Fixpoint argmin {A : Type} (f : A -> Q) (best : A) (l : list A) : A :=
  match l with
  | [] => best
  | x :: r => argmin f (if qltb (f x) (f best) then x else best) r
  end.

(** 132 [comp_indices] *)
Definition members (labels : list nat) (c : nat) : list nat := filter (fun i => nth i labels 0 =? c) (seq 0 (length labels)).

(** 136-159: the edge between two components: for each particle of the first the
    particle of the second with the nearest center, of these pairs the one with
    the smallest gap. *)
Definition closest (radii : list Q) (idx_a idx_b : list nat) : option (nat * nat) :=
  match idx_b with
  | [] => None
  | b0 :: rb =>
      let candidates := map (fun i => (i, argmin (fun j => dist i j) b0 rb)) idx_a in
      match candidates with
      | [] => None
      | c0 :: rc => Some (argmin (fun p => dist (fst p) (snd p) - rad radii (fst p) - rad radii (snd p) - tolerance)%Q c0 rc)
      end
  end.

(** 112-161 [inter_component_gap_graph] *)
Fixpoint gap_edges (radii : list Q) (labels : list nat) (pairs : list (nat * nat)) : option (list edge) :=
  match pairs with
  | [] => Some []
  | (a, b) :: r =>
      p <- closest radii (members labels a) (members labels b) ;;
      rest <- gap_edges radii labels r ;;
      Some (mkEdge a b (dist (fst p) (snd p) - rad radii (fst p) - rad radii (snd p) - tolerance)%Q (fst p) (snd p) (dist (fst p) (snd p)) :: rest)
  end.
Definition gap_graph (radii : list Q) (labels : list nat) (n_comp : nat) : option (list edge) := gap_edges radii labels (all_pairs n_comp).

(** scipy: the pairs of components of the minimum spanning tree *)
Variable minimum_spanning_tree : nat -> list edge -> list (nat * nat).

(** 178-184 [best_edge]: the edge with the smallest gap for a key *)
Definition key (a b : nat) : nat * nat := (Nat.min a b, Nat.max a b).
Definition best_edge (k : nat * nat) (edges : list edge) : option edge :=
  fold_left (fun best e =>
    if (fst (key (e_a e) (e_b e)) =? fst k) && (snd (key (e_a e) (e_b e)) =? snd k)
    then match best with None => Some e | Some x => if qltb (e_gap e) (e_gap x) then Some e else best end
    else best) edges None.

(** 196: [bridges.sort(..., reverse=True)], a stable sort *)
Fixpoint insert_desc (e : edge) (l : list edge) : list edge :=
  match l with
  | [] => [e]
  | x :: r => if qltb (e_gap e) (e_gap x) then x :: insert_desc e r else e :: l
  end.
Fixpoint sort_desc (l : list edge) : list edge := match l with [] => [] | e :: r => insert_desc e (sort_desc r) end.

Fixpoint lookup_bridges (pairs : list (nat * nat)) (edges : list edge) : option (list edge) :=
  match pairs with
  | [] => Some []
  | (a, b) :: r => e <- best_edge (key a b) edges ;; rest <- lookup_bridges r edges ;; Some (e :: rest)
  end.
(** 168-197 [mst_bridges] *)
Definition mst_bridges (edges : list edge) (n_comp : nat) : option (list edge) :=
  l <- lookup_bridges (minimum_spanning_tree n_comp edges) edges ;; Some (sort_desc l).

Inductive strategy := Larger | Smaller | Split.

Fixpoint add_at (k : nat) (x : Q) (l : list Q) : list Q :=
  match l, k with
  | [], _ => []
  | y :: r, O => (y + x)%Q :: r
  | y :: r, S k => y :: add_at k x r
  end.

(** 204-234 [close_gap] *)
Definition close_gap (s : strategy) (radii : list Q) (i j : nat) (gap : Q) : list Q :=
  if Qle_bool gap 0 then radii
  else match s with
       | Larger => add_at (if Qle_bool (rad radii j) (rad radii i) then i else j) gap radii
       | Smaller => add_at (if Qle_bool (rad radii i) (rad radii j) then i else j) gap radii
       | Split => add_at j (gap / 2)%Q (add_at i (gap / 2)%Q radii)
       end.

(** 269-282: one bridge *)
Definition fix_bridge (s : strategy) (radii : list Q) (e : edge) : list Q :=
  let gap_now := (e_dist e - rad radii (e_i e) - rad radii (e_j e) - tolerance)%Q in
  if Qle_bool gap_now 0 then radii else close_gap s radii (e_i e) (e_j e) gap_now.

(** 241-301 [repair_connectivity]; [fuel] bounds the number of passes. *)
Fixpoint repair (fuel : nat) (s : strategy) (radii : list Q) : option (list Q) :=
  match fuel with
  | O => None
  | S f =>
      let (n_comp, labels) := get_components radii in
      if n_comp =? 1 then Some radii
      else
        edges <- gap_graph radii labels n_comp ;;
        bridges <- mst_bridges edges n_comp ;;
        repair f s (fold_left (fix_bridge s) bridges radii)
  end.
End Connect.
