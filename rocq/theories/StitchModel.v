(** Model of the stitching of local particles to global ones,
    src/grain_tracker/distributed_stitching.cc.

    The local particles of all ranks are numbered consecutively, rank by rank
    ([i + offset] in the code, [MPI_Exscan] of the local sizes), so the
    per-rank vectors are kept as one list over all particles; [sizes] are the
    local sizes, [owner] is the rank of a particle.  A contact is a pair (rank,
    global particle number), as in the code.  [None]: out of range access. *)
From Coq Require Import List Arith Bool.
From Verif Require Import Util.
Import ListNotations.

Definition contact := (nat * nat)%type.

Fixpoint owner (sizes : list nat) (g : nat) : nat :=
  match sizes with
  | [] => 0
  | n :: r => if g <? n then 0 else S (owner r (g - n))
  end.

(** [operator<] of [std::tuple] *)
Definition cltb (a b : contact) : bool :=
  (fst a <? fst b) || ((fst a =? fst b) && (snd a <? snd b)).
Definition ceqb (a b : contact) : bool := (fst a =? fst b) && (snd a =? snd b).

(** [std::sort] followed by [std::unique]/[erase] (172-174) *)
Fixpoint sinsert (x : contact) (l : list contact) : list contact :=
  match l with
  | [] => [x]
  | y :: r => if cltb x y then x :: l else if ceqb x y then l else y :: sinsert x r
  end.
Definition sort_unique (l : list contact) : list contact := fold_right sinsert [] l.

(** 134-157: the messages of particle [g] with contacts [l]: for the [j]-th
    contact, if it is on another rank, everything but that contact plus the
    sender.  (The sorting at 150 has no influence on what follows.) *)
Fixpoint messages_from (self : contact) (l : list contact) (j n : nat) : list (nat * nat * list contact) :=
  match n with
  | O => []
  | S n' =>
      match nth_error l j with
      | None => []
      | Some (r, id) =>
          if r =? fst self then messages_from self l (S j) n'
          else (r, id, self :: firstn j l ++ skipn (S j) l) :: messages_from self l (S j) n'
      end
  end.

Fixpoint all_messages (sizes : list nat) (g : nat) (input : list (list contact))
  : list (nat * nat * list contact) :=
  match input with
  | [] => []
  | l :: r => messages_from (owner sizes g, g) l 0 (length l) ++ all_messages sizes (S g) r
  end.

(** 167-182: receiving one message; [std::get<0>(data_i) - offset] is a valid
    index only if the receiving rank owns the particle. *)
Definition receive (sizes : list nat) (st : list (list contact) * bool)
  (m : nat * nat * list contact) : option (list (list contact) * bool) :=
  let '(r, id, values) := m in
  let '(input, finished) := st in
  if owner sizes id =? r then
    l <- vget input id ;;
    let l' := sort_unique (l ++ values) in
    input <- vset input id l' ;;
    Some (input, finished && (length l =? length l'))
  else None.

Fixpoint receive_all (sizes : list nat) (ms : list (nat * nat * list contact))
  (st : list (list contact) * bool) : option (list (list contact) * bool) :=
  match ms with
  | [] => Some st
  | m :: r => st <- receive sizes st m ;; receive_all sizes r st
  end.

(** 128-190: the fixed-point iteration; [deliver k] is the order in which the
    messages of round [k] are processed; the messages are those of the state at
    the beginning of the round.  Outer [None]: out of range; inner [None]: fuel
    of the model used up. *)
Fixpoint stitch_loop (fuel k : nat) (sizes : list nat)
  (deliver : nat -> list (nat * nat * list contact) -> list (nat * nat * list contact))
  (input : list (list contact)) : option (option (list (list contact))) :=
  match fuel with
  | O => Some None
  | S fuel =>
      st <- receive_all sizes (deliver k (all_messages sizes 0 input)) (input, true) ;;
      if snd st then Some (Some (fst st))
      else stitch_loop fuel (S k) sizes deliver (fst st)
  end.

(** 193-216: the cliques, each with its members; [g]: number of the first
    particle of the list. *)
Fixpoint cliques (sizes : list nat) (g : nat) (input : list (list contact)) : list (list contact) :=
  match input with
  | [] => []
  | l :: r =>
      let self := (owner sizes g, g) in
      match l with
      | [] => [self] :: cliques sizes (S g) r
      | (r0, id0) :: _ =>
          if (fst self <=? r0) && (g <? id0) then (self :: l) :: cliques sizes (S g) r
          else cliques sizes (S g) r
      end
  end.

(** 224-258: clique number [k] is written to all its members. *)
Fixpoint notify (sizes : list nat) (k : nat) (members : list contact) (result : list (option nat))
  : option (list (option nat)) :=
  match members with
  | [] => Some result
  | (r, id) :: rest =>
      if owner sizes id =? r then
        result <- vset result id (Some k) ;; notify sizes k rest result
      else None
  end.

Fixpoint notify_all (sizes : list nat) (k : nat) (cs : list (list contact)) (result : list (option nat))
  : option (list (option nat)) :=
  match cs with
  | [] => Some result
  | c :: r => result <- notify sizes k c result ;; notify_all sizes (S k) r result
  end.

(** 103-267 [perform_distributed_stitching] over all ranks. *)
Definition stitch (fuel : nat) (sizes : list nat)
  (deliver : nat -> list (nat * nat * list contact) -> list (nat * nat * list contact))
  (input : list (list contact)) : option (option (list (option nat))) :=
  o <- stitch_loop fuel 0 sizes deliver input ;;
  match o with
  | None => Some None
  | Some input' =>
      result <- notify_all sizes 0 (cliques sizes 0 input') (repeat None (length input')) ;;
      Some (Some result)
  end.

(** 67-80: the edges gathered on rank 0. *)
Fixpoint gather_edges (g : nat) (input : list (list contact)) : list (nat * nat) :=
  match input with
  | [] => []
  | l :: r => map (fun c : contact => (g, snd c)) l ++ gather_edges (S g) r
  end.

(** 45-101 [perform_distributed_stitching_via_graph] over all ranks;
    [components] is [boost::connected_components].  For an empty graph line 36
    forms a reference to [c[0]] of an empty vector, which is undefined. *)
Definition stitch_via_graph (components : nat -> list (nat * nat) -> list nat)
  (input : list (list contact)) : option (list nat) :=
  if length input =? 0 then None
  else Some (components (length input) (gather_edges 0 input)).

(** 269-290 [number_of_stitched_particles]; the maximum over all ranks. *)
Definition number_of_stitched (ids : list nat) : nat :=
  match ids with [] => 0 | _ => S (fold_right Nat.max 0 ids) end.
