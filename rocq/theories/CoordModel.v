(** Model of the average coordination number and of the file with the contours of
    the grains, applications/sintering/include/pf-applications/sintering/postprocessors.h
    1950-2069, 307-428 and 562-617. *)
From Coq Require Import List QArith Arith Bool.
From Verif Require Import Util.
Import ListNotations.
Local Open Scope nat_scope.

(** ** Coordination number *)
(** [std::set] as ordered list *)
Fixpoint sinsert (x : nat) (l : list nat) : list nat :=
  match l with
  | [] => [x]
  | y :: r => if x <? y then x :: l else if x =? y then l else y :: sinsert x r
  end.

(** [std::map] as list ordered by the key; [neighbors[g]] with an operation on the
    entry, which is created if missing. *)
Definition nmap := list (nat * list nat).

Fixpoint mupdate (g : nat) (f : list nat -> list nat) (m : nmap) : nmap :=
  match m with
  | [] => [(g, f [])]
  | (k, s) :: r =>
      if g <? k then (g, f []) :: m
      else if g =? k then (k, f s) :: r
      else (k, s) :: mupdate g f r
  end.

Record ccell := mkCC { c_rank : nat; c_grains : list nat }.

(** 1990-2022 for one cell: the pairs inserted, for the grains of the cell in the
    order of the order parameters.  [inside g]: no filter is given, or all segments
    of the grain are inside (1993-2017). *)
Definition cell_pairs (inside : nat -> bool) (gs : list nat) : list (nat * nat) :=
  flat_map (fun i =>
    match vget gs i with
    | None => []
    | Some g =>
        if inside g then
          flat_map (fun j =>
            match vget gs j with
            | Some h => if i =? j then [] else [(g, h)]
            | None => []
            end) (seq 0 (length gs))
        else []
    end) (seq 0 (length gs)).

Definition insert_pair (m : nmap) (e : nat * nat) : nmap := mupdate (fst e) (sinsert (snd e)) m.

(** 1960-2024 on rank [me].  1974-1988, the grains of a cell by the grain tracker,
    are given ([c_grains]). *)
Definition local_neighbors (inside : nat -> bool) (cells : list ccell) (me : nat) : nmap :=
  fold_left (fun m c => if c_rank c =? me then fold_left insert_pair (cell_pairs inside (c_grains c)) m else m)
    cells [].

(** 2028-2036 *)
Definition flatten (m : nmap) : list nat := flat_map (fun e => fst e :: length (snd e) :: snd e) m.

(** 2042-2056: one received vector; [None] if an iterator leaves the vector.  [fuel]
    bounds the number of entries. *)
Fixpoint unpack (fuel : nat) (l : list nat) (m : nmap) : option nmap :=
  match l with
  | [] => Some m
  | [_] => None
  | g :: n :: r =>
      match fuel with
      | O => None
      | S fuel =>
          if n <=? length r
          then unpack fuel (skipn n r) (mupdate g (fun s => fold_left (fun s x => sinsert x s) (firstn n r) s) m)
          else None
      end
  end.

Fixpoint unpack_all (ls : list (list nat)) (m : nmap) : option nmap :=
  match ls with
  | [] => Some m
  | l :: r => m' <- unpack (length l) l m ;; unpack_all r m'
  end.

(** 2058-2066 *)
Definition average (m : nmap) : Q :=
  match m with
  | [] => 0%Q
  | _ => (inject_Z (Z.of_nat (list_sum (map (fun e => length (snd e)) m))) / inject_Z (Z.of_nat (length m)))%Q
  end.

(** 1950-2069 [compute_average_coordination_number]: the result of rank [me] *)
Definition coordination (inside : nat -> bool) (cells : list ccell) (n_ranks me : nat) : option Q :=
  m <- unpack_all (map (fun r => flatten (local_neighbors inside cells r)) (seq 0 n_ranks))
         (local_neighbors inside cells me) ;;
  Some (average m).

(** ** The file with the contours *)
(** 562-585: the segments of all grains in order: index to (grain, segment); [grains]
    lists the grains with the numbers of their segments. *)
Definition segment_list (grains : list (nat * nat)) : list (nat * nat) :=
  flat_map (fun e => map (fun s => (fst e, s)) (seq 0 (snd e))) grains.

(** 399-406: the stream of a rank; [label i] prints the number of a segment with its
    end of line, [text] the points with theirs. *)
Definition stream {P B : Type} (label : nat -> list B) (text : list P -> list B) (points : list (list P)) : list B :=
  flat_map (fun i =>
    match vget points i with
    | Some (x :: l) => label i ++ text (x :: l)
    | _ => []
    end) (seq 0 (length points)).

(** 409-412: [MPI_Exscan] *)
Definition prefix_sum {B : Type} (streams : list (list B)) (r : nat) : nat :=
  list_sum (map (@length B) (firstn r streams)).

(** [File_write_at]: gaps are filled with [zero]. *)
Definition write_at {B : Type} (zero : B) (off : nat) (data file : list B) : list B :=
  match data with
  | [] => file
  | _ => firstn off (file ++ repeat zero (off - length file)) ++ data ++ skipn (off + length data) file
  end.

(** 340-426: the writes of the ranks arrive in the order [order]; the header of rank
    0 is number [length streams].  [header_size] is kept as a natural number (an
    unsigned 32 bit integer in the code). *)
Definition write_number {B : Type} (zero : B) (header : list B) (streams : list (list B)) (file : list B) (k : nat) : list B :=
  match vget streams k with
  | Some s => write_at zero (length header + prefix_sum streams k) s file
  | None => write_at zero 0 header file
  end.

Definition contour_file {B : Type} (zero : B) (header : list B) (streams : list (list B)) (order : list nat) : list B :=
  fold_left (write_number zero header streams) order [].
