(** Model of the transfer of grain ids between two configurations,
    include/pf-applications/grain_tracker/tracking.h 35-243.

    Distances are compared only with each other, so the model uses squared
    distances; coordinates and radii are exact.  Invalid ids are [None],
    [numeric_limits<double>::max()] is [None] (larger than all distances).
    [None] as result: out of range access or exception of [at].  The logger is
    not modelled. *)
From Coq Require Import List QArith Arith Bool.
From Verif Require Import Util MapModel.
Import ListNotations.

(** segment.h: center and radius *)
Record segment := mkSegment { s_center : list Q; s_radius : Q }.
(** grain.h: order parameter and segments *)
Record grain := mkGrain { g_op : nat; g_segments : list segment }.

(** [Point::distance], squared *)
Fixpoint dist2 (a b : list Q) : Q :=
  match a, b with
  | x :: a, y :: b => (x - y) * (x - y) + dist2 a b
  | _, _ => 0
  end.

(** [<] of distances with [None] for the largest number *)
Definition oltb (a b : option Q) : bool :=
  match a, b with
  | Some a, Some b => qltb a b
  | Some _, None => true
  | None, _ => false
  end.

(** [std::min(current, min)] *)
Definition omin (c : Q) (m : option Q) : option Q :=
  match m with None => Some c | Some m => Some (if qltb m c then m else c) end.

(** grain.h 86-101 [distance_centers] *)
Definition distance_centers (a b : grain) : option Q :=
  fold_left (fun m s => fold_left (fun m t => omin (dist2 (s_center s) (s_center t)) m) (g_segments b) m)
    (g_segments a) None.

(** base/geometry.h 23-32 [create_bounding_box_around_point] *)
Definition box := (list Q * list Q)%type.
Definition box_around (s : segment) : box :=
  (map (fun x => x - s_radius s) (s_center s), map (fun x => x + s_radius s) (s_center s)).

(** [boost::geometry::index::intersects] for two boxes *)
Fixpoint all_le (a b : list Q) : bool :=
  match a, b with
  | x :: a, y :: b => Qle_bool x y && all_le a b
  | _, _ => true
  end.
Definition intersects (a b : box) : bool := all_le (fst a) (snd b) && all_le (fst b) (snd a).

(** 35-46 [extract_grain_indices_per_op] *)
Fixpoint extract_loop (m : fmap grain) (acc : list (list nat)) : option (list (list nat)) :=
  match m with
  | [] => Some acc
  | (id, g) :: r =>
      l <- vget acc (g_op g) ;;
      acc <- vset acc (g_op g) (l ++ [id]) ;;
      extract_loop r acc
  end.
Definition extract_per_op (m : fmap grain) (n : nat) : option (list (list nat)) :=
  extract_loop m (repeat [] n).

(** 97-107: the segments of the grains in [ids], flattened; [old_segments_to_grains]
    are the first, [boxes] those of the second components. *)
Fixpoint flatten (old : fmap grain) (ids : list nat) : option (list (nat * segment)) :=
  match ids with
  | [] => Some []
  | id :: r =>
      g <- mget id old ;;
      rest <- flatten old r ;;
      Some (map (pair id) (g_segments g) ++ rest)
  end.

(** 145-150: [work_id], counting down while the previous segment belongs to the
    same grain *)
Fixpoint work_back (s2g : list nat) (i : nat) : nat :=
  match i with
  | O => O
  | S j =>
      match vget s2g j, vget s2g (S j) with
      | Some a, Some b => if (a =? b)%nat then work_back s2g j else S j
      | _, _ => S j
      end
  end.

(** 139-166: the candidates found for one segment *)
Fixpoint nearest_loop (old : fmap grain) (flat : list (nat * segment)) (center : list Q)
  (result : list nat) (st : option nat * option Q) : option (option nat * option Q) :=
  match result with
  | [] => Some st
  | i :: r =>
      f <- vget flat i ;;
      let cand := fst f in
      g <- mget cand old ;;
      s <- vget (g_segments g) (i - work_back (map fst flat) i) ;;
      let d := dist2 (s_center s) center in
      nearest_loop old flat center r (if oltb (Some d) (snd st) then (Some cand, Some d) else st)
  end.

(** 116-173: the segments of one new grain; [query] is the R-tree query *)
Fixpoint candidate_loop (query : list box -> box -> list nat) (old : fmap grain) (flat : list (nat * segment))
  (segs : list segment) (st : option nat * option Q) : option (option nat) :=
  match segs with
  | [] => Some (fst st)
  | s :: r =>
      let result := query (map (fun f => box_around (snd f)) flat) (box_around s) in
      st' <- match result with
             | [] => Some st
             | i :: _ =>
                 if (1 <? length result)%nat || (match fst st with Some _ => true | None => false end)
                 then nearest_loop old flat (s_center s) result st
                 else f <- vget flat i ;; Some (Some (fst f), snd st)
             end ;;
      candidate_loop query old flat r st'
  end.

(** 72-85 [override_mapping] *)
Definition override_mapping (new old : fmap grain) (o cand existing : nat) : option bool :=
  go <- mget o old ;;
  gc <- mget cand new ;;
  ge <- mget existing new ;;
  Some (oltb (distance_centers go gc) (distance_centers go ge)).

Definition maps := (fmap (option nat) * fmap nat)%type.

(** 175-238: entering candidate [o] of grain [id] *)
Definition enter (new old : fmap grain) (id o : nat) (st : maps) : option maps :=
  match mget o (snd st) with
  | None =>
      n2o <- massign id (Some o) (fst st) ;;
      Some (n2o, memplace o id (snd st))
  | Some ex =>
      b <- override_mapping new old o id ex ;;
      if b then
        n2o <- massign ex None (fst st) ;;
        n2o <- massign id (Some o) n2o ;;
        o2n <- massign o id (snd st) ;;
        Some (n2o, o2n)
      else Some st
  end.

(** 111-239 *)
Fixpoint assign_loop (query : list box -> box -> list nat) (new old : fmap grain) (flat : list (nat * segment))
  (ids : list nat) (st : maps) : option maps :=
  match ids with
  | [] => Some st
  | id :: r =>
      g <- mget id new ;;
      c <- candidate_loop query old flat (g_segments g) (None, None) ;;
      st <- match c with None => Some st | Some o => enter new old id o st end ;;
      assign_loop query new old flat r st
  end.

(** 87-240: the order parameters *)
Fixpoint transfer_loop (query : list box -> box -> list nat) (new old : fmap grain)
  (news olds : list (list nat)) (st : maps) : option maps :=
  match news, olds with
  | nl :: news, ol :: olds =>
      let n2o := fold_left (fun m id => memplace id None m) nl (fst st) in
      flat <- flatten old ol ;;
      st <- assign_loop query new old flat nl (n2o, snd st) ;;
      transfer_loop query new old news olds st
  | _, _ => Some st
  end.

(** 49-243 [transfer_grain_ids] *)
Definition transfer (query : list box -> box -> list nat) (new old : fmap grain) (n : nat)
  : option (fmap (option nat)) :=
  olds <- extract_per_op old n ;;
  news <- extract_per_op new n ;;
  st <- transfer_loop query new old news olds ([], []) ;;
  Some (fst st).

(** A query that lists the boxes in order (one possible R-tree). *)
Definition scan_query (boxes : list box) (b : box) : list nat :=
  filter (fun i => match vget boxes i with Some a => intersects a b | None => false end) (seq 0 (length boxes)).
