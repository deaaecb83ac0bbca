(** Model of the assignment of order parameters to grains,
    include/pf-applications/grain_tracker/tracker.h 1565-1853 [reassign_grains],
    with grain.h 67-79 [distance], 106-125 [distance_lower_bound], 240-253
    [add_neighbor], 258-308 [overlaps], 313-317 [transfer_buffer] and tracking.h
    246-260 [extract_active_order_parameter_ids].

    [gap s t] stands for [distance_between_spheres] of two segments (distance of the
    centers minus the radii), [dist s t] for the distance by representation,
    [trivial s] for [Segment::trivial]; they are arbitrary functions here.
    Distances are rationals, [None] is [numeric_limits<double>::max()].
    [diag] tells whether a [SparsityPattern] copied from a square
    [DynamicSparsityPattern] holds the diagonal entries (in deal.II it does).
    [order] stands for [std::sort], [colour] for
    [SparsityTools::color_sparsity_pattern].  Logging is left out.
    Outer [None]: undefined behaviour or exception of [at]; inner [None]: exception
    "Maximum number of order parameters exceeded!" or "Error in active order
    parameters numbering!". *)
From Coq Require Import List QArith Arith Bool.
From Verif Require Import Util MapModel TransferModel.
Import ListNotations.
Local Open Scope nat_scope.

(** grain.h: current and old order parameter, segments, [max_radius],
    [distance_to_nearest_neighbor] *)
Record rgrain := mkRGrain { r_op : nat; r_old : nat; r_segments : list segment; r_radius : Q; r_near : option Q }.

Definition set_op (g : rgrain) (op : nat) : rgrain := mkRGrain op (r_old g) (r_segments g) (r_radius g) (r_near g).

(** ** [std::set<unsigned int>]: ascending lists *)
Fixpoint sinsert (x : nat) (s : list nat) : list nat :=
  match s with
  | [] => [x]
  | y :: r => if x <? y then x :: s else if x =? y then s else y :: sinsert x r
  end.

Fixpoint serase (x : nat) (s : list nat) : list nat :=
  match s with
  | [] => []
  | y :: r => if x =? y then r else y :: serase x r
  end.

(** tracking.h 246-260 *)
Definition active_ops (grains : fmap rgrain) : list nat := fold_left (fun s p => sinsert (r_op (snd p)) s) grains [].

Section Reassign.
Variables (gap dist : segment -> segment -> Q) (trivial : segment -> bool).

(** grain.h 67-79, 106-125: minimum over pairs of segments *)
Definition min_pairs (d : segment -> segment -> Q) (a b : list segment) : option Q :=
  fold_left (fun m s => fold_left (fun m t => omin (d s t) m) b m) a None.

(** grain.h 258-308 *)
Definition overlaps (ratio fixed : Q) (a b : rgrain) : bool :=
  let buffer := (ratio * r_radius a + ratio * r_radius b + fixed)%Q in
  if oltb (Some buffer) (min_pairs gap (r_segments a) (r_segments b)) then false
  else if existsb (fun s => negb (trivial s)) (r_segments a) || existsb (fun s => negb (trivial s)) (r_segments b)
       then oltb (min_pairs dist (r_segments a) (r_segments b)) (Some buffer)
       else true.

(** 1576-1586: [grains_to_sparsity] *)
Fixpoint numbering (i : nat) (grains : fmap rgrain) : fmap nat :=
  match grains with
  | [] => []
  | (id, _) :: r => (id, i) :: numbering (S i) r
  end.

(** 1594-1636: the inner loop for the base grain [b]; state: the entries of the
    sparsity pattern and [remap_candidates] *)
Definition graph := (list (nat * nat) * list nat)%type.

Fixpoint other_loop (ratio fixed : Q) (sparsity : fmap nat) (b : nat) (gb : rgrain) (others : fmap rgrain) (g : graph) : option graph :=
  match others with
  | [] => Some g
  | (o, go) :: r =>
      if (b <? o) && overlaps ratio fixed gb go
      then
        i <- mget b sparsity ;;
        j <- mget o sparsity ;;
        other_loop ratio fixed sparsity b gb r
          (fst g ++ [(i, j); (j, i)], if r_op go =? r_op gb then sinsert j (snd g) else snd g)
      else other_loop ratio fixed sparsity b gb r g
  end.

Fixpoint base_loop (ratio fixed : Q) (sparsity : fmap nat) (grains bases : fmap rgrain) (g : graph) : option graph :=
  match bases with
  | [] => Some g
  | (b, gb) :: r => g <- other_loop ratio fixed sparsity b gb grains g ;; base_loop ratio fixed sparsity grains r g
  end.

(** 1643-1644: entries of the pattern for [n] grains *)
Definition pattern (diag : bool) (n : nat) (edges : list (nat * nat)) : list (nat * nat) :=
  if diag then map (fun i => (i, i)) (seq 0 n) ++ edges else edges.

(** ** 1657-1751: fast reassignment *)
(** 1693-1697 *)
Fixpoint erase_neighbours (sp : list (nat * nat)) (row : nat) (colors : list nat) (available : list nat) : option (list nat) :=
  match sp with
  | [] => Some available
  | (i, j) :: r =>
      if i =? row
      then c <- vget colors j ;; erase_neighbours r row colors (serase c available)
      else erase_neighbours r row colors available
  end.

(** 1691-1726; result: colours, active order parameters, their number and
    [perform_coloring] *)
Fixpoint fast_loop (sp : list (nat * nat)) (max : nat) (rows : list nat) (colors active : list nat) (n : nat)
  : option (list nat * list nat * nat * bool) :=
  match rows with
  | [] => Some (colors, active, n, false)
  | row :: r =>
      available <- erase_neighbours sp row colors active ;;
      match available with
      | c :: _ => colors <- vset colors row c ;; fast_loop sp max r colors active n
      | [] =>
          let active' := sinsert n active in
          if max <? S n then Some (colors, active', S n, true)
          else colors <- vset colors row n ;; fast_loop sp max r colors active' (S n)
      end
  end.

(** 1734-1739 *)
Fixpoint conflict (sp : list (nat * nat)) (colors : list nat) : option bool :=
  match sp with
  | [] => Some false
  | (i, j) :: r =>
      a <- vget colors i ;;
      b <- vget colors j ;;
      if a =? b then Some true else conflict r colors
  end.

(** 1741-1750, 1765-1775: hand over the colours; [false]: nothing changed *)
Fixpoint apply_colors (shift : nat) (colors : list nat) (sparsity : fmap nat) (grains : fmap rgrain) : option (fmap rgrain * bool) :=
  match grains with
  | [] => Some ([], false)
  | (id, g) :: r =>
      i <- mget id sparsity ;;
      c <- vget colors i ;;
      rest <- apply_colors shift colors sparsity r ;;
      Some ((id, set_op g (c - shift)) :: fst rest, negb (r_op g =? c - shift) || snd rest)
  end.

(** 1791-1806: [distance_to_nearest_neighbor] of the grain [b] *)
Definition near_of (grains : fmap rgrain) (b : nat) (gb : rgrain) : option Q :=
  fold_left (fun m p =>
      if negb (b =? fst p) && ((r_op gb =? r_op (snd p)) || (r_old gb =? r_old (snd p)))
      then match min_pairs gap (r_segments gb) (r_segments (snd p)) with
           | Some d => omin d m
           | None => m
           end
      else m) grains (r_near gb).

Definition add_neighbours (grains : fmap rgrain) : fmap rgrain :=
  map (fun p => (fst p, mkRGrain (r_op (snd p)) (r_old (snd p)) (r_segments (snd p)) (r_radius (snd p)) (near_of grains (fst p) (snd p)))) grains.

(** grain.h 313-317; for the largest number half of it, here [None] *)
Definition transfer_buffer (g : rgrain) : option Q :=
  match r_near g with Some d => Some (if qltb 0 (d / 2) then (d / 2)%Q else 0%Q) | None => None end.

(** 1820-1826: [ids_offsets]; [None]: end of the set passed *)
Fixpoint offsets (id n : nat) (active : list nat) : option (list (nat * nat)) :=
  match n with
  | 0 => Some []
  | S n =>
      match active with
      | [] => None
      | a :: r => rest <- offsets (S id) n r ;; Some ((a, a - id) :: rest)
      end
  end.

(** 1828-1841 *)
Fixpoint shift_ops (offs : list (nat * nat)) (grains : fmap rgrain) : option (fmap rgrain) :=
  match grains with
  | [] => Some []
  | (id, g) :: r =>
      o <- mget (r_op g) offs ;;
      rest <- shift_ops offs r ;;
      Some ((id, if 0 <? o then set_op g (r_op g - o) else g) :: rest)
  end.

Definition list_max0 (l : list nat) : nat := fold_right Nat.max 0 l.

(** state between the stages: grains, active order parameters, their number and
    [grains_reassigned] *)
Definition rstate := (fmap rgrain * list nat * nat * bool)%type.

(** 1753-1783 *)
Definition full_coloring (colour : nat -> list (nat * nat) -> list nat) (max : nat) (sp : list (nat * nat)) (sparsity : fmap nat) (grains : fmap rgrain)
  : option (option rstate) :=
  match grains with
  | [] => None (* largest element of an empty range *)
  | _ =>
      let colors := colour (length grains) sp in
      if max <? list_max0 colors then Some None
      else
        r <- apply_colors 1 colors sparsity grains ;;
        let active := active_ops (fst r) in
        Some (Some (fst r, active, length active, snd r))
  end.

(** 1640-1784 *)
Definition recolor (diag : bool) (order : list nat -> list nat) (colour : nat -> list (nat * nat) -> list nat)
  (max : nat) (force fast : bool) (g : graph) (sparsity : fmap nat) (grains : fmap rgrain) : option (option rstate) :=
  let active := active_ops grains in
  let n := length active in
  if (0 <? length (snd g)) || force
  then
    let sp := pattern diag (length grains) (fst g) in
    if fast
    then
      x <- fast_loop sp max (order (snd g)) (map (fun p => r_op (snd p)) grains) active n ;;
      let '(colors, active, n, perform) := x in
      bad <- (if perform : bool then Some true else conflict sp colors) ;;
      if bad : bool then full_coloring colour max sp sparsity grains
      else r <- apply_colors 0 colors sparsity grains ;; Some (Some (fst r, active, n, snd r))
    else full_coloring colour max sp sparsity grains
  else Some (Some (grains, active, n, false)).

(** 1808-1847 *)
Definition compact (st : rstate) : option (option (fmap rgrain * list nat * bool)) :=
  let '(grains, active, n, reassigned) := st in
  match rev active with
  | [] => None
  | last :: _ =>
      if last <? n - 1 then Some None
      else if n - 1 <? last
           then offs <- offsets 0 n active ;;
                grains <- shift_ops offs grains ;;
                Some (Some (grains, active_ops grains, true))
           else Some (Some (grains, active, reassigned))
  end.

(** 1565-1853; result: grains, [active_order_parameters], the number of collisions
    and [grains_reassigned] *)
Definition reassign (diag : bool) (order : list nat -> list nat) (colour : nat -> list (nat * nat) -> list nat)
  (ratio fixed : Q) (max : nat) (force fast : bool) (grains : fmap rgrain)
  : option (option (fmap rgrain * list nat * nat * bool)) :=
  let sparsity := numbering 0 grains in
  g <- base_loop ratio fixed sparsity grains grains ([], []) ;;
  x <- recolor diag order colour max force fast g sparsity grains ;;
  match x with
  | None => Some None
  | Some (grains, active, n, reassigned) =>
      y <- compact (add_neighbours grains, active, n, reassigned) ;;
      match y with
      | None => Some None
      | Some (grains, active, reassigned) => Some (Some (grains, active, length (snd g), reassigned))
      end
  end.
End Reassign.
