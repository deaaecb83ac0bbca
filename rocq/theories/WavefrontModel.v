(** Model of the direct neighbours of particles and of the wavefront estimate of
    the distances between them,
    include/pf-applications/grain_tracker/distributed_stitching.h 527-1148,
    and of their use for the wavefront representation of grains,
    grain_tracker/tracker.h 1245-1252, 1369-1401 and
    grain_tracker/representation.h 319-401.

    Meshes are those of [FloodModel].  Particle ids are given per order
    parameter and cell ([None] is [invalid_particle_id]); the ids of ghost cells
    are those of their owners, as [switch_to_global_indices] ends with
    [update_ghost_values] (line 210).  The conversion of the ids from double to
    unsigned int is taken to be exact. *)
From Coq Require Import List Arith Bool ZArith.
From Verif Require Import Util FloodModel.
Import ListNotations.
Local Open Scope nat_scope.

(** ** Direct neighbours, 1022-1147 *)
(** A particle: order parameter and particle id. *)
Notation particle := (nat * nat)%type.

Definition peqb (a b : particle) : bool := (fst a =? fst b) && (snd a =? snd b).

(** [std::set::insert]; the set is kept in the order of insertion *)
Definition sinsert (p : particle) (s : list particle) : list particle :=
  if existsb (peqb p) s then s else s ++ [p].

(** The map of sets, in the order of insertion (in the code sorted). *)
Notation nmap := (list (particle * list particle)).

(** [neighbors[k].insert(p)] for all [p] of [ps]; the entry is created if it
    does not exist ([operator[]] 1040-1041, [emplace] 1129-1131) *)
Fixpoint nput (k : particle) (ps : list particle) (m : nmap) : nmap :=
  match m with
  | [] => [(k, fold_left (fun s p => sinsert p s) ps [])]
  | (j, s) :: r => if peqb j k then (j, fold_left (fun s p => sinsert p s) ps s) :: r else (j, s) :: nput k ps r
  end.

Fixpoint nget (k : particle) (m : nmap) : option (list particle) :=
  match m with [] => None | (j, s) :: r => if peqb j k then Some s else nget k r end.

(** 1037-1042 *)
Definition add_neighbors (m : nmap) (pi pj : particle) : nmap := nput pj [pi] (nput pi [pj] m).

Definition is_active (m : mesh) (c : nat) : bool := match children m c with [] => true | _ => false end.

(** 1062-1109: the cells where a neighbouring particle of the particle on [c] is
    searched: [c] itself, the active neighbours, and all active children of the
    refined neighbours that are not artificial *)
Definition looked_at (m : mesh) (visible : nat -> bool) (c : nat) : list nat :=
  c :: flat_map (fun n =>
    if is_active m n then [n] else filter (fun d => is_active m d && visible d) (children m n)) (neighbors m c).

(** 1047-1111 for one cell *)
Definition cell_neighbors (m : mesh) (visible : nat -> bool) (pids : nat -> nat -> option nat) (n_blocks c : nat)
  (nb : nmap) : nmap :=
  fold_left (fun nb i =>
    match pids i c with
    | None => nb
    | Some p =>
        fold_left (fun nb j =>
          fold_left (fun nb d =>
            match pids j d with None => nb | Some q => add_neighbors nb (i, p) (j, q) end)
            (looked_at m visible c) nb)
          (seq (S i) (n_blocks - S i)) nb
    end) (seq 0 n_blocks) nb.

(** 1044-1111 on rank [me] *)
Definition local_neighbors (m : mesh) (visible : nat -> bool) (pids : nat -> nat -> option nat) (n_blocks me : nat)
  : nmap :=
  fold_left (fun nb c => if rank m c =? me then cell_neighbors m visible pids n_blocks c nb else nb) (active m) [].

(** 1113-1126 *)
Definition flatten (nb : nmap) : list nat :=
  flat_map (fun e => fst (fst e) :: snd (fst e) :: length (snd e) ::
                     flat_map (fun p => [fst p; snd p]) (snd e)) nb.

(** 1135-1138 *)
Fixpoint read_pairs (n : nat) (l : list nat) : option (list particle * list nat) :=
  match n, l with
  | O, _ => Some ([], l)
  | S n, a :: b :: r => x <- read_pairs n r ;; Some ((a, b) :: fst x, snd x)
  | S _, _ => None
  end.

(** 1126-1141 for the data of one rank; [None]: access out of range *)
Fixpoint unflatten (fuel : nat) (l : list nat) (nb : nmap) : option nmap :=
  match fuel, l with
  | _, [] => Some nb
  | S fuel, a :: b :: n :: r => x <- read_pairs n r ;; unflatten fuel (snd x) (nput (a, b) (fst x) nb)
  | _, _ => None
  end.

Fixpoint gather (data : list (list nat)) (nb : nmap) : option nmap :=
  match data with
  | [] => Some nb
  | l :: r => nb <- unflatten (length l) l nb ;; gather r nb
  end.

(** 1022-1147 [get_direct_neighbors]; [visible me c]: [c] is not artificial on
    rank [me] *)
Definition get_direct_neighbors (m : mesh) (visible : nat -> nat -> bool) (pids : nat -> nat -> option nat)
  (n_blocks n_ranks : nat) : option nmap :=
  gather (map (fun me => flatten (local_neighbors m (visible me) pids n_blocks me)) (seq 0 n_ranks)) [].

(** ** Wavefronts, 527-1020 *)
Section Wavefront.
Variable m : mesh.
Variable level : nat -> nat.
Variable max_level : nat.
Variable pid : nat -> option nat.

(** 696-698 [cell_weight] *)
Definition weight (c : nat) : Z := (2 ^ Z.of_nat (max_level - level c))%Z.

(** [neighbor_of_child->id() == cell->id()] for a face of the child *)
Definition touches (c d : nat) : bool := existsb (Nat.eqb c) (neighbors m d).

(** The active cells across the faces of [c] that are visited by 925-955. *)
Definition beyond (c : nat) : list nat :=
  flat_map (fun n =>
    if is_active m n then [n] else filter (fun d => is_active m d && touches c d) (children m n)) (neighbors m c).

(** [agglomerations[max_level - level].push_back(cell)]; the container has
    [max_level + 1] entries *)
Definition push (c : nat) (agg : list (list nat)) : option (list (list nat)) :=
  l <- vget agg (max_level - level c) ;; vset agg (max_level - level c) (l ++ [c]).

Fixpoint push_times (n : nat) (c : nat) (agg : list (list nat)) : option (list (list nat)) :=
  match n with O => Some agg | S n => agg <- push c agg ;; push_times n c agg end.

Notation prep_state := (list (option nat) * list (list nat))%type.

Fixpoint prep_list (f : nat -> prep_state -> option prep_state) (l : list nat) (s : prep_state) : option prep_state :=
  match l with [] => Some s | c :: r => s <- f c s ;; prep_list f r s end.

(** 531-629 [run_flooding_prep] on rank [me]; state: [particle_markers] and
    [agglomerations].  [None]: access out of range, or fuel of the model used
    up. *)
Fixpoint prep (fuel : nat) (me c : nat) (s : prep_state) : option prep_state :=
  match fuel with
  | O => None
  | S fuel =>
      if negb (is_active m c) then prep_list (prep fuel me) (children m c) s else
      if negb (rank m c =? me) then Some s else
      match pid c with
      | None => Some s
      | Some p =>
          v <- vget (fst s) c ;;
          match v with
          | Some _ => Some s
          | None =>
              mark <- vset (fst s) c (Some p) ;;
              prep_list (fun n s =>
                if is_active m n then
                  match pid n with
                  | None => agg <- push c (snd s) ;; Some (fst s, agg)
                  | Some _ => prep fuel me n s
                  end
                else
                  agg <- push_times (length (filter (fun d => is_active m d && (rank m d =? me) &&
                           (match pid d with None => true | Some _ => false end) && touches c d) (children m n)))
                           c (snd s) ;;
                  prep fuel me n (fst s, agg)) (neighbors m c) (mark, snd s)
          end
      end
  end.

(** 675-693: the loop over the owned active cells; the tests before the call
    are repeated by [run_flooding_prep] itself *)
Definition prep_rank (fuel me : nat) (mark : list (option nat)) : option prep_state :=
  prep_list (fun c s => if rank m c =? me then prep fuel me c s else Some s) (active m)
    (mark, repeat [] (S max_level)).

(** What a rank holds during the iterations: [agglomerations],
    [all_ghost_cells], [assessment_distances]. *)
Record rank_state := mkRank {
  r_agg : list (list nat);
  r_cache : list (nat * list nat);
  r_dist : list (nat * nat * Z) }.

(** The markers and distances of all cells, as held by their owners. *)
Notation fields := (list (option nat) * list Z)%type.

Fixpoint prep_ranks (fuel : nat) (ranks : list nat) (mark : list (option nat))
  : option (list (option nat) * list (list (list nat))) :=
  match ranks with
  | [] => Some (mark, [])
  | me :: r =>
      s <- prep_rank fuel me mark ;;
      t <- prep_ranks fuel r (fst s) ;;
      Some (fst t, snd s :: snd t)
  end.

(** 700-705 *)
Fixpoint set_zero (cells : list nat) (dist : list Z) : option (list Z) :=
  match cells with
  | [] => Some dist
  | c :: r => dist <- vset dist c (weight c - 1)%Z ;; set_zero r dist
  end.

(** [assessment_distances]: the smallest distance of the pair is kept, 745-752.
    The distances are counted in units of [h_cell]; the code multiplies them
    with [h_cell] before they are compared. *)
Fixpoint assess (k : nat * nat) (d : Z) (l : list (nat * nat * Z)) : list (nat * nat * Z) :=
  match l with
  | [] => [(k, d)]
  | (j, e) :: r => if peqb j k then (j, Z.min e d) :: r else (j, e) :: assess k d r
  end.

Fixpoint assessed (k : nat * nat) (l : list (nat * nat * Z)) : option Z :=
  match l with [] => None | (j, e) :: r => if peqb j k then Some e else assessed k r end.

(** 713-755 [handle_cells] *)
Definition handle_cells (c n : nat) (s : fields * rank_state) : option (fields * rank_state) :=
  let '((mark, dist), r) := s in
  mc <- vget mark c ;;
  mn <- vget mark n ;;
  dc <- vget dist c ;;
  match mn with
  | None =>
      agg <- push n (r_agg r) ;;
      dist <- vset dist n (dc + weight n)%Z ;;
      mark <- vset mark n mc ;;
      Some ((mark, dist), mkRank agg (r_cache r) (r_dist r))
  | Some q =>
      match mc with
      | Some p =>
          if p =? q then Some s else
          dn <- vget dist n ;;
          Some ((mark, dist), mkRank (r_agg r) (r_cache r) (assess (Nat.min p q, Nat.max p q) (dc + dn)%Z (r_dist r)))
      | None => None
      end
  end.

(** 774-828: the ghost cells with the owned cells without marker around them.
    [ghost me g]: [g] is a ghost cell of rank [me]. *)
Definition unmarked (mark : list (option nat)) (c : nat) : bool :=
  match vget mark c with Some None => true | _ => false end.

Definition ghost_cache (ghost : nat -> nat -> bool) (mark : list (option nat)) (me : nat) : list (nat * list nat) :=
  filter (fun e => match snd e with [] => false | _ => true end)
    (map (fun g => (g, filter (fun d => (rank m d =? me) && unmarked mark d) (beyond g)))
       (filter (fun g => ghost me g) (active m))).

(** 889-914: one owned cell next to a marked ghost cell *)
Definition from_ghost (p : nat) (dg : Z) (l : nat) (s : fields * rank_state) : option (fields * rank_state) :=
  let '((mark, dist), r) := s in
  ml <- vget mark l ;;
  match ml with
  | Some _ => Some s
  | None =>
      agg <- push l (r_agg r) ;;
      dist <- vset dist l (dg + weight l)%Z ;;
      mark <- vset mark l (Some p) ;;
      Some ((mark, dist), mkRank agg (r_cache r) (r_dist r))
  end.

Fixpoint each {A B : Type} (f : A -> B -> option B) (l : list A) (s : B) : option B :=
  match l with [] => Some s | a :: r => s <- f a s ;; each f r s end.

(** 878-922; [snap]: the ghost values as updated at 870-874 *)
Definition cache_entry (snap : fields) (e : nat * list nat) (s : (fields * rank_state) * list (nat * list nat))
  : option ((fields * rank_state) * list (nat * list nat)) :=
  mg <- vget (fst snap) (fst e) ;;
  match mg with
  | Some p =>
      dg <- vget (snd snap) (fst e) ;;
      t <- each (from_ghost p dg) (snd e) (fst s) ;;
      Some (t, snd s)
  | None => Some (fst s, snd s ++ [e])
  end.

(** 924-957 *)
Definition grow (me : nat) (c : nat) (s : fields * rank_state) : option (fields * rank_state) :=
  each (fun n s => if rank m n =? me then handle_cells c n s else Some s) (beyond c) s.

(** 862-957: one iteration on rank [me].  The ranks write their own cells only
    and read the others from [snap], so that they may be run one after the
    other. *)
Definition iterate_rank (me : nat) (snap : fields) (s : fields * rank_state) : option (fields * rank_state) :=
  match r_agg (snd s) with
  | [] => None
  | front :: rest =>
      let r := mkRank (rest ++ [[]]) [] (r_dist (snd s)) in
      t <- each (cache_entry snap) (r_cache (snd s)) ((fst s, r), []) ;;
      u <- each (grow me) front (fst t) ;;
      Some (fst u, mkRank (r_agg (snd u)) (snd t) (r_dist (snd u)))
  end.

Fixpoint iterate_ranks (me : nat) (snap : fields) (f : fields) (rs : list rank_state)
  : option (fields * list rank_state) :=
  match rs with
  | [] => Some (f, [])
  | r :: rest =>
      s <- iterate_rank me snap (f, r) ;;
      t <- iterate_ranks (S me) snap (fst s) rest ;;
      Some (fst t, snd s :: snd t)
  end.

(** 831-841 [check_agglomerations] *)
Definition busy (rs : list rank_state) : bool :=
  existsb (fun r => existsb (fun l => match l with [] => false | _ => true end) (r_agg r)) rs.

(** 857-961 *)
Fixpoint waves (fuel : nat) (f : fields) (rs : list rank_state) : option (fields * list rank_state) :=
  if busy rs then
    match fuel with
    | O => None
    | S fuel => s <- iterate_ranks 0 f f rs ;; waves fuel (fst s) (snd s)
    end
  else Some (f, rs).

(** 967-996: the maps of all ranks are merged, the smallest distance of a pair
    being kept. *)
Definition merge (rs : list rank_state) : list (nat * nat * Z) :=
  fold_left (fun a e => assess (fst e) (snd e) a) (flat_map r_dist rs) [].

(** 632-1020 [estimate_particle_distances] *)
Definition estimate_distances (fuel : nat) (ghost : nat -> nat -> bool) (n_ranks : nat)
  : option (list (nat * nat * Z)) :=
  s <- prep_ranks fuel (seq 0 n_ranks) (repeat None (n_cells m)) ;;
  dist <- set_zero (concat (concat (snd s))) (repeat (-1)%Z (n_cells m)) ;;
  t <- waves fuel (fst s, dist)
         (map (fun e => mkRank (snd e) (ghost_cache ghost (fst s) (fst e)) []) (combine (seq 0 n_ranks) (snd s))) ;;
  Some (merge (snd t)).
End Wavefront.

(** ** Distances of the grains, tracker.h 1369-1401 and representation.h *)
(** [emplace]: an existing entry is kept *)
Fixpoint pemplace (k : particle) (d : Z) (l : list (particle * Z)) : list (particle * Z) :=
  match l with
  | [] => [(k, d)]
  | (j, e) :: r => if peqb j k then l else (j, e) :: pemplace k d r
  end.

Fixpoint pfind (k : particle) (l : list (particle * Z)) : option Z :=
  match l with [] => None | (j, e) :: r => if peqb j k then Some e else pfind k r end.

(** [particle_distances[p]] for order parameter [op] *)
Definition particle_distances (op : nat) (est : list (nat * nat * Z)) (direct : nmap) (p : nat) : list (particle * Z) :=
  let own := fold_left (fun l e =>
    let l := if fst (fst e) =? p then pemplace (op, snd (fst e)) (snd e) l else l in
    if snd (fst e) =? p then pemplace (op, fst (fst e)) (snd e) l else l) est [] in
  fold_left (fun l e =>
    if peqb (fst e) (op, p) then fold_left (fun l s => pemplace s 0%Z l) (snd e) l else l) direct own.

(** [RepresentationWavefront::distance_impl] 339-346; [None]:
    [numeric_limits<double>::max()] *)
Definition wavefront_distance (est : nat -> list (nat * nat * Z)) (direct : nmap) (a b : particle) : option Z :=
  pfind b (particle_distances (fst a) (est (fst a)) direct (snd a)).

(** [RepresentationWavefront::save] 380-396: the smallest distance to a particle
    of the same order parameter ([None]: the largest double); the code writes the
    half of it *)
Definition saved_offset (op : nat) (l : list (particle * Z)) : option Z :=
  fold_left (fun a e =>
    if fst (fst e) =? op then
      match a with None => Some (snd e) | Some x => if (snd e <? x)%Z then Some (snd e) else Some x end
    else a) l None.
