(** Model of the creation of grains from detected particles:
    include/pf-applications/grain_tracker/periodicity_graph.h 30-110 and
    tracker.h 1337-1545 (the part of [detect_grains] after the particles have been
    found), grain.h 203-218 [add_segment].

    A particle is given by its segment, its maximum value and its measure.  The
    representations used for distances are not modelled.  [None]: out of range
    access or exception of [at]. *)
From Coq Require Import List QArith Arith Bool.
From Verif Require Import Util MapModel StitchModel FloodModel TransferModel.
Import ListNotations.
Local Open Scope nat_scope.

(** ** Periodicity graph *)
(** [particle_id_to_vertex] with the number of vertices, and the edges *)
Definition pgraph := (fmap nat * nat * list (nat * nat))%type.

(** 87-101 [vertex] *)
Definition add_vertex (p : nat) (vm : fmap nat * nat) : fmap nat * nat :=
  match mget p (fst vm) with
  | Some _ => vm
  | None => (memplace p (snd vm) (fst vm), S (snd vm))
  end.

(** 44-52 [add_connection] *)
Definition add_connection (g : pgraph) (c : nat * nat) : option pgraph :=
  let vm := add_vertex (snd c) (add_vertex (fst c) (fst g)) in
  a <- mget (fst c) (fst vm) ;;
  b <- mget (snd c) (fst vm) ;;
  Some (vm, snd g ++ [(a, b)]).

Fixpoint add_connections (g : pgraph) (cs : list (nat * nat)) : option pgraph :=
  match cs with
  | [] => Some g
  | c :: r => g <- add_connection g c ;; add_connections g r
  end.

(** 73-76 *)
Fixpoint write_groups (comps : list nat) (vm : fmap nat) (groups : list (option nat)) : option (list (option nat)) :=
  match vm with
  | [] => Some groups
  | (p, v) :: r =>
      c <- vget comps v ;;
      groups <- vset groups p (Some c) ;;
      write_groups comps r groups
  end.

(** 62-80 [build_groups]; [components] is [boost::connected_components] *)
Definition build_groups (components : nat -> list (nat * nat) -> list nat) (g : pgraph) (groups : list (option nat))
  : option (list (option nat) * nat) :=
  let '(vm, n, edges) := g in
  if n =? 0 then Some (groups, 0)
  else
    let comps := components n edges in
    groups <- write_groups comps vm groups ;;
    Some (groups, number_of_stitched comps).

(** tracker.h 1349-1359 for [n] particles *)
Definition particle_groups (components : nat -> list (nat * nat) -> list nat) (n : nat) (connections : list (nat * nat))
  : option (list (option nat) * nat) :=
  g <- add_connections ([], 0, []) connections ;;
  build_groups components g (repeat None n).

(** ** Grains *)
Record particle := mkParticle { p_segment : segment; p_max : Q; p_measure : Q }.

(** grain.h: [max_value] starts with [lowest()], here [None] *)
Record tgrain := mkTGrain { t_grain : grain; t_radius : Q; t_max : option Q; t_measure : Q }.

(** grain.h 203-215 [add_segment] *)
Definition add_segment (g : tgrain) (p : particle) : tgrain :=
  mkTGrain (mkGrain (g_op (t_grain g)) (g_segments (t_grain g) ++ [p_segment p]))
    (qmax (t_radius g) (s_radius (p_segment p))) (omax (t_max g) (p_max p)) (t_measure g + p_measure p).

Definition empty_grain (op : nat) : tgrain := mkTGrain (mkGrain op []) 0 None 0.

Definition dstate := (fmap tgrain * list (nat * nat))%type.

(** 1463-1510 [append_segment] *)
Definition append_segment (op : nat) (parts : list particle) (st : dstate) (index gid : nat) : option dstate :=
  let grains := memplace gid (empty_grain op) (fst st) in
  g <- mget gid grains ;;
  p <- vget parts index ;;
  let g := add_segment g p in
  grains <- massign gid g grains ;;
  pm <- vset (snd st) index (gid, length (g_segments (t_grain g)) - 1) ;;
  Some (grains, pm).

(** 1513-1523: particles of periodic groups, from index [i] *)
Fixpoint group_loop (op : nat) (parts : list particle) (num i : nat) (groups : list (option nat)) (st : dstate) : option dstate :=
  match groups with
  | [] => Some st
  | Some k :: r => st <- append_segment op parts st i (k + num) ;; group_loop op parts num (S i) r st
  | None :: r => group_loop op parts num (S i) r st
  end.

(** 1528-1535: the others *)
Fixpoint free_loop (op : nat) (parts : list particle) (num i : nat) (groups : list (option nat)) (st : dstate)
  : option (dstate * nat) :=
  match groups with
  | [] => Some (st, num)
  | Some _ :: r => free_loop op parts num (S i) r st
  | None :: r => st <- append_segment op parts st i num ;; free_loop op parts (S num) (S i) r st
  end.

(** 1253-1536: the order parameters from [op] on; an order parameter is given by its
    particles and the periodic connections between them *)
Fixpoint detect_ops (components : nat -> list (nat * nat) -> list nat) (op num : nat)
  (ops : list (list particle * list (nat * nat))) (grains : fmap tgrain)
  : option (fmap tgrain * list (list (nat * nat)) * nat) :=
  match ops with
  | [] => Some (grains, [], num)
  | (parts, conns) :: r =>
      gn <- particle_groups components (length parts) conns ;;
      st <- group_loop op parts num 0 (fst gn) (grains, repeat (0, 0) (length parts)) ;;
      sn <- free_loop op parts (num + snd gn) 0 (fst gn) st ;;
      rest <- detect_ops components (S op) (snd sn) r (fst (fst sn)) ;;
      let '(grains, maps, num) := rest in
      Some (grains, snd (fst sn) :: maps, num)
  end.

(** [detect_grains]: the grains and [particle_ids_to_grain_ids]; inner [None]: the
    exception at 1538 *)
Definition detect_grains (components : nat -> list (nat * nat) -> list nat)
  (ops : list (list particle * list (nat * nat))) : option (option (fmap tgrain * list (list (nat * nat)))) :=
  r <- detect_ops components 0 0 ops [] ;;
  let '(grains, maps, num) := r in
  if num =? length grains then Some (Some (grains, maps)) else Some None.
