(** Model of the detection of local particles by flooding and of their contacts
    across ranks, include/pf-applications/grain_tracker/distributed_stitching.h.

    A mesh is given by its cells (numbers); active cells are numbered by
    [global_active_cell_index], the index used for [particle_ids].  The parts of
    deal.II used by the code appear as fields: [children] ([child_iterators],
    empty for an active cell), [neighbors] (the cells [neighbor(face)] over all
    faces not at the boundary), [subface_children c n]
    ([neighbor_child_on_subface] for all subfaces of the face between [c] and
    [n]), [rank] (subdomain id), [values] (the values of the order parameter at
    the DoFs of a cell, at least one), [active] (the active cells in the order of
    [active_cell_iterators]). *)
From Coq Require Import List QArith Arith Bool.
From Verif Require Import Util StitchModel.
Import ListNotations.

Record mesh := mkMesh {
  n_cells : nat;
  active : list nat;
  children : nat -> list nat;
  neighbors : nat -> list nat;
  subface_children : nat -> nat -> list nat;
  rank : nat -> nat;
  values : nat -> Q * list Q }.

Definition qmax (a b : Q) : Q := if qltb a b then b else a.

(** 70 [std::max_element] *)
Definition cell_max (m : mesh) (c : nat) : Q := fold_left qmax (snd (values m c)) (fst (values m c)).

(** [max_value]; [None] is [numeric_limits<double>::lowest()] *)
Definition omax (a : option Q) (b : Q) : option Q :=
  match a with None => Some b | Some a => Some (qmax a b) end.

Definition flood_state := (list (option nat) * option Q)%type.

Fixpoint flood_list (f : nat -> flood_state -> option (flood_state * nat)) (l : list nat) (s : flood_state)
  : option (flood_state * nat) :=
  match l with
  | [] => Some (s, 0%nat)
  | c :: r =>
      sn <- f c s ;;
      tn <- flood_list f r (fst sn) ;;
      Some (fst tn, (snd sn + snd tn)%nat)
  end.

(** 40-101 [run_flooding] on rank [me]; invalid ids are [None].  [None] as
    result: out of range access, or fuel of the model used up. *)
Fixpoint flood (fuel : nat) (m : mesh) (me : nat) (thr : Q) (id c : nat) (s : flood_state)
  : option (flood_state * nat) :=
  match fuel with
  | O => None
  | S fuel =>
      match children m c with
      | _ :: _ => flood_list (flood fuel m me thr id) (children m c) s
      | [] =>
          if negb (rank m c =? me)%nat then Some (s, 0%nat) else
          v <- vget (fst s) c ;;
          match v with
          | Some _ => Some (s, 0%nat)
          | None =>
              if negb (qltb thr (cell_max m c)) then Some (s, 0%nat) else
              ids <- vset (fst s) c (Some id) ;;
              tn <- flood_list (flood fuel m me thr id) (neighbors m c) (ids, omax (snd s) (cell_max m c)) ;;
              Some (fst tn, S (snd tn))
          end
      end
  end.

(** 454-486 of [detect_local_particle_groups]: the loop over the active cells;
    state: (ids, op_max_value), counter, local_particle_max_values. *)
Fixpoint detect_loop (fuel : nat) (m : mesh) (me : nat) (thr : Q) (cells : list nat)
  (s : flood_state) (counter : nat) (maxs : list (option Q))
  : option (list (option nat) * nat * list (option Q)) :=
  match cells with
  | [] => Some (fst s, counter, maxs)
  | c :: r =>
      tn <- flood fuel m me thr counter c s ;;
      if (0 <? snd tn)%nat then
        detect_loop fuel m me thr r (fst (fst tn), None) (S counter) (maxs ++ [snd (fst tn)])
      else detect_loop fuel m me thr r (fst tn) counter maxs
  end.

Definition detect_local (fuel : nat) (m : mesh) (me : nat) (thr : Q)
  : option (list (option nat) * nat * list (option Q)) :=
  detect_loop fuel m me thr (active m) (repeat None (n_cells m), None) 0 [].

(** ** All ranks *)
(** 488-499: the ranks one after the other; offsets by [MPI_Exscan]; the shifted
    ids of all ranks with the ghost values updated.  The result lists, rank by
    rank, the labels and the number of local particles. *)
Fixpoint detect_ranks (fuel : nat) (m : mesh) (thr : Q) (me n_ranks : nat)
  : option (list (list (option nat) * nat)) :=
  match n_ranks with
  | O => Some []
  | S n =>
      r <- detect_local fuel m me thr ;;
      rest <- detect_ranks fuel m thr (S me) n ;;
      Some ((fst (fst r), snd (fst r)) :: rest)
  end.

Definition offset (res : list (list (option nat) * nat)) (r : nat) : nat :=
  list_sum (map snd (firstn r res)).

(** [particle_ids] of cell [c], as seen by its owner and, after
    [update_ghost_values], by all ranks that have [c] as ghost cell. *)
Definition particle_id (m : mesh) (res : list (list (option nat) * nat)) (c : nat) : option nat :=
  match vget res (rank m c) with
  | None => None
  | Some (ids, _) =>
      match vget ids c with
      | Some (Some k) => Some (offset res (rank m c) + k)%nat
      | _ => None
      end
  end.

(** 155-177: the active cells touching the faces of [c]. *)
Definition face_cells (m : mesh) (c : nat) : list nat :=
  flat_map (fun n => match children m n with [] => [n] | _ => subface_children m c n end) (neighbors m c).

(** 121-181 [build_local_connectivity] on rank [me].  All cells of other ranks
    are visited, while the code visits the ghost cells only; cells that are not
    ghost cells do not touch an owned cell. *)
Definition add_contact (m : mesh) (res : list (list (option nat) * nat)) (me ghost : nat)
  (conn : option (list (list contact))) (loc : nat) : option (list (list contact)) :=
  conn <- conn ;;
  if negb (rank m loc =? me)%nat then Some conn else
  match particle_id m res ghost, particle_id m res loc with
  | Some gid, Some lid =>
      temp <- vget conn (lid - offset res me) ;;
      vset conn (lid - offset res me) (sort_unique (temp ++ [(rank m ghost, gid)]))
  | _, _ => Some conn
  end.

Definition local_connectivity (m : mesh) (res : list (list (option nat) * nat)) (me n_local : nat)
  : option (list (list contact)) :=
  fold_left (fun conn ghost =>
    if (rank m ghost =? me)%nat then conn
    else fold_left (add_contact m res me ghost) (face_cells m ghost) conn)
    (active m) (Some (repeat [] n_local)).

Fixpoint all_connectivity (m : mesh) (res all : list (list (option nat) * nat)) (me : nat)
  : option (list (list contact)) :=
  match res with
  | [] => Some []
  | (_, n) :: r =>
      c <- local_connectivity m all me n ;;
      rest <- all_connectivity m r all (S me) ;;
      Some (c ++ rest)
  end.

(** 439-525 [detect_local_particle_groups] (message based stitching) followed by
    188-211 [switch_to_global_indices]: the global particle number of every
    cell. *)
Definition detect_particles (fuel sfuel : nat) (m : mesh) (n_ranks : nat) (thr : Q)
  (deliver : nat -> list (nat * nat * list contact) -> list (nat * nat * list contact))
  : option (nat -> option nat) :=
  res <- detect_ranks fuel m thr 0 n_ranks ;;
  conn <- all_connectivity m res res 0 ;;
  o <- stitch sfuel (map snd res) deliver conn ;;
  ids <- o ;;
  Some (fun c => match particle_id m res c with
                 | None => None
                 | Some p => match vget ids p with Some (Some k) => Some k | _ => None end
                 end).
