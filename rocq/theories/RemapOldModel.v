(** C104: the older way of moving grains to other order parameters,
    include/pf-applications/grain_tracker/tracker.h 651-1010 [remap_old]
    (selected by [use_old_remap], 416-420), together with grain.h 67-81
    [distance], 313-317 [transfer_buffer].

    In contrast to [remap_new] (RemapModel) a whole grain is moved at a time:
    the values are copied at all cells whose center lies in one of the spheres
    around the segments of the grain, enlarged by the transfer buffer, and then
    set to zero there.  The dependencies between moves are found from the
    distances of the grains.

    Simplifications as in RemapModel: one solution vector as a function of
    block and degree of freedom, cells are their center and their list of
    degrees of freedom, no constraints, one process (so all cells are locally
    owned); logging and timers are left out.  Numbers are rationals.  The
    distance of points and the distance of the representations of two segments
    are given from outside.  [None]: exception or undefined behaviour. *)
From Coq Require Import List QArith Arith Bool.
From Verif Require Import Util MapModel RemapModel.
Import ListNotations.
Local Open Scope nat_scope.

Section Old.
Variable Point : Type.
(** [Point::distance] *)
Variable dist : Point -> Point -> Q.
(** [std::numeric_limits<double>::max()] *)
Variable dmax : Q.

(** segment.h: center and radius of a segment; [sg_shape] stands for the
    representation. *)
Record segment := mkSeg { sg_center : Point; sg_radius : Q; sg_shape : nat }.

(** [Segment::distance], segment.h 96-105: distance of the representations. *)
Variable seg_dist : segment -> segment -> Q.

(** grain.h: the parts of a grain used here; [g_nearest] is
    [distance_to_nearest_neighbor]. *)
Record grain := mkGrain { g_id : nat; g_old : nat; g_new : nat; g_segments : list segment; g_nearest : Q }.

(** [std::min(current, minimum)]. *)
Definition qmin (a b : Q) : Q := if qltb b a then b else a.

(** grain.h 67-81 [distance]. *)
Definition grain_distance (a b : grain) : Q :=
  fold_left (fun m s => fold_left (fun m t => qmin (seg_dist s t) m) (g_segments b) m) (g_segments a) dmax.

(** grain.h 313-317 [transfer_buffer]: [std::max(0.0, nearest / 2)]. *)
Definition transfer_buffer (g : grain) : Q :=
  let b := (g_nearest g / 2)%Q in if qltb 0 b then b else 0%Q.

(** tracker.h 771-775 [has_overlap]. *)
Definition has_overlap (a b : grain) : bool :=
  qltb (grain_distance a b - transfer_buffer a - transfer_buffer b) 0.

(** [grains.at(id)]: throws for an unknown id. *)
Definition grain_at (gs : list grain) (id : nat) : option grain := find (fun g => g_id g =? id) gs.

(** ** The dependencies, tracker.h 757-806 *)
Fixpoint pair_loop_old (gs : list grain) (l : list remapping) (ri : remapping) (rs : list remapping) (g : rgraph) : option rgraph :=
  match rs with
  | [] => Some g
  | rj :: r =>
      gi <- grain_at gs (m_grain ri) ;;
      gj <- grain_at gs (m_grain rj) ;;
      if negb (req ri rj) && (has_overlap gi gj && (m_to ri =? m_from rj))
      then
        re <- find (fun a => m_grain a =? m_grain rj) l ;;
        pair_loop_old gs l ri r (add_remapping re (add_remapping ri g))
      else pair_loop_old gs l ri r g
  end.

Fixpoint build_graph_old (gs : list grain) (l : list remapping) (rs : list remapping) (g : rgraph) : option rgraph :=
  match rs with
  | [] => Some g
  | ri :: r => g <- pair_loop_old gs l ri l g ;; build_graph_old gs l r g
  end.

(** tracker.h 738-752: the grains whose order parameter has changed. *)
Definition moves_of (gs : list grain) : list remapping :=
  flat_map (fun g => if g_new g =? g_old g then [] else [mkRemap (g_id g) (g_old g) (g_new g)]) gs.

Variables (out_order in_order : nat -> list remapping -> list remapping).

(** tracker.h 757-843: the moves over temporary storage and the remaining ones
    in the order of execution. *)
Definition plan (gs : list grain) (l : list remapping) : option (list (step * step) * list remapping) :=
  g <- build_graph_old gs l l (mkGraph [] []) ;;
  match gv g with
  | [] => Some ([], l)
  | _ =>
      r <- resolve_cycles out_order l g ;;
      let '(l, g, temps) := r in
      l <- rearrange out_order in_order l g ;;
      Some (temps, l)
  end.

(** ** The transfer *)
Variables (V : Type) (zero : V) (n_blocks offset : nat).

Record ocell := mkOCell { oc_center : Point; oc_dofs : list nat }.

(** tracker.h 681-690: the cell belongs to the zone of the grain. *)
Definition in_zone (g : grain) (c : ocell) : bool :=
  existsb (fun s => qltb (dist (oc_center c) (sg_center s)) (sg_radius s + transfer_buffer g)) (g_segments g).

(** The solution and the temporary vectors (blocks numbered from 0). *)
Definition ostate := (bvector V * bvector V)%type.

(** tracker.h 664-701 [alter_dof_values_for_grain]. *)
Fixpoint alter (g : grain) (callback : list nat -> ostate -> option ostate) (cells : list ocell) (s : ostate) : option ostate :=
  match cells with
  | [] => Some s
  | c :: r =>
      s <- (if in_zone g c then callback (oc_dofs c) s else Some s) ;;
      alter g callback r s
  end.

(** [set_dof_values] of zeros into a block of the solution, e.g. 729-735. *)
Definition cb_zero (b : nat) (dofs : list nat) (s : ostate) : option ostate :=
  if b <? n_blocks then Some (set_dofs V dofs b (fun _ => zero) (fst s), snd s) else None.
(** 948-955: copy within the solution. *)
Definition cb_copy (src dst : nat) (dofs : list nat) (s : ostate) : option ostate :=
  if (src <? n_blocks) && (dst <? n_blocks)
  then Some (set_dofs V dofs dst (fst s src) (fst s), snd s) else None.
(** 903-911: copy into temporary block [dst]. *)
Definition cb_save (src dst : nat) (dofs : list nat) (s : ostate) : option ostate :=
  if src <? n_blocks then Some (fst s, set_dofs V dofs dst (fst s src) (snd s)) else None.
(** 991-999: copy from temporary block [src]. *)
Definition cb_load (src dst : nat) (dofs : list nat) (s : ostate) : option ostate :=
  if dst <? n_blocks then Some (set_dofs V dofs dst (snd s src) (fst s), snd s) else None.

(** tracker.h 703-736: zeros for the grains that are gone. *)
Definition gone (old gs : list grain) : list grain :=
  filter (fun g => negb (existsb (fun h => g_id h =? g_id g) gs)) old.

Fixpoint clear_gone (l : list grain) (cells : list ocell) (s : ostate) : option ostate :=
  match l with
  | [] => Some s
  | g :: r => s <- alter g (cb_zero (g_new g + offset)) cells s ;; clear_gone r cells s
  end.

(** tracker.h 881-923. *)
Fixpoint to_temps (gs : list grain) (i : nat) (temps : list (step * step)) (cells : list ocell) (s : ostate) : option ostate :=
  match temps with
  | [] => Some s
  | (st, _) :: r =>
      g <- grain_at gs (st_grain st) ;;
      f <- st_from st ;;
      s <- alter g (cb_save (f + offset) i) cells s ;;
      s <- alter g (cb_zero (f + offset)) cells s ;;
      to_temps gs (S i) r cells s
  end.

(** tracker.h 925-967. *)
Fixpoint plain_moves (gs : list grain) (l : list remapping) (cells : list ocell) (s : ostate) : option ostate :=
  match l with
  | [] => Some s
  | r :: rest =>
      g <- grain_at gs (m_grain r) ;;
      s <- alter g (cb_copy (m_from r + offset) (m_to r + offset)) cells s ;;
      s <- alter g (cb_zero (m_from r + offset)) cells s ;;
      plain_moves gs rest cells s
  end.

(** tracker.h 969-1004. *)
Fixpoint from_temps (gs : list grain) (i : nat) (temps : list (step * step)) (cells : list ocell) (s : ostate) : option ostate :=
  match temps with
  | [] => Some s
  | (_, st) :: r =>
      g <- grain_at gs (st_grain st) ;;
      t <- st_to st ;;
      s <- alter g (cb_load i (t + offset)) cells s ;;
      from_temps gs (S i) r cells s
  end.

(** tracker.h 651-1010 [remap_old]; the grains are given in the order of their
    ids (a map). *)
Definition remap_old (old gs : list grain) (cells : list ocell) (u : bvector V) : option (bvector V * nat) :=
  s <- clear_gone (gone old gs) cells (u, fun _ _ => zero) ;;
  let l := moves_of gs in
  p <- plan gs l ;;
  s <- to_temps gs 0 (fst p) cells s ;;
  s <- plain_moves gs (snd p) cells s ;;
  s <- from_temps gs 0 (fst p) cells s ;;
  Some (fst s, length l).
End Old.
