(** Model of the detection of pores and of the data of their contours,
    applications/sintering/include/pf-applications/sintering/postprocessors.h
    1143-1276 and 1364-1524.

    The mesh is that of [FloodModel] ([neighbors] lists the cells behind the faces
    that are not at the boundary); its field [values] is not used.  Added are the
    blocks of the solution at the DoFs of a cell, the answer of the box filter for
    the barycenter of a cell ([point_outside]; constantly [false] without filter),
    whether a cell has a face at the boundary, the DoFs of a cell and the rank that
    owns a DoF. *)
From Coq Require Import List QArith Qabs Qminmax Arith Bool.
From Verif Require Import Util StitchModel FloodModel.
Import ListNotations.
Local Open Scope nat_scope.

Record pmesh := mkP {
  base : mesh;
  n_blocks : nat;
  block_values : nat -> nat -> list Q;
  outside : nat -> bool;
  at_boundary : nat -> bool;
  dofs : nat -> list nat;
  dof_owner : nat -> nat }.

(** 1188 [Vector::linfty_norm] *)
Definition linfty (l : list Q) : Q := fold_left (fun a v => qmax a (Qabs v)) l 0%Q.

(** 1184-1190: some block reaches the threshold in the cell. *)
Definition solid (p : pmesh) (thr : Q) (c : nat) : bool :=
  existsb (fun b => Qle_bool thr (linfty (block_values p b c))) (seq 0 (n_blocks p)).

Fixpoint pore_list (f : nat -> list (option nat) -> option (list (option nat) * nat)) (l : list nat)
  (s : list (option nat)) : option (list (option nat) * nat) :=
  match l with
  | [] => Some (s, 0)
  | c :: r =>
      sn <- f c s ;;
      tn <- pore_list f r (fst sn) ;;
      Some (fst tn, snd sn + snd tn)
  end.

(** 1145-1208 [run_flooding] on rank [me]; the id -1 is [None].  [None] as result:
    access out of range, or fuel of the model used up. *)
Fixpoint pore_flood (fuel : nat) (p : pmesh) (me : nat) (thr : Q) (id c : nat) (s : list (option nat))
  : option (list (option nat) * nat) :=
  match fuel with
  | O => None
  | S fuel =>
      match children (base p) c with
      | _ :: _ => pore_list (pore_flood fuel p me thr id) (children (base p) c) s
      | [] =>
          if negb (rank (base p) c =? me) || outside p c then Some (s, 0) else
          v <- vget s c ;;
          match v with
          | Some _ => Some (s, 0)
          | None =>
              if solid p thr c then Some (s, 0) else
              ids <- vset s c (Some id) ;;
              tn <- pore_list (pore_flood fuel p me thr id) (neighbors (base p) c) ids ;;
              Some (fst tn, S (snd tn))
          end
      end
  end.

(** 1229-1247: the loop over the active cells. *)
Fixpoint pore_loop (fuel : nat) (p : pmesh) (me : nat) (thr : Q) (cells : list nat)
  (s : list (option nat)) (counter : nat) : option (list (option nat) * nat) :=
  match cells with
  | [] => Some (s, counter)
  | c :: r =>
      tn <- pore_flood fuel p me thr counter c s ;;
      pore_loop fuel p me thr r (fst tn) (if 0 <? snd tn then S counter else counter)
  end.

Fixpoint pore_ranks (fuel : nat) (p : pmesh) (thr : Q) (me n_ranks : nat)
  : option (list (list (option nat) * nat)) :=
  match n_ranks with
  | O => Some []
  | S n =>
      r <- pore_loop fuel p me thr (active (base p)) (repeat None (n_cells (base p))) 0 ;;
      rest <- pore_ranks fuel p thr (S me) n ;;
      Some (r :: rest)
  end.

(** 1210-1276 [detect_pores] on all ranks with the look-up of 1311-1317, 1405-1407
    or 1488-1490: the global pore number of every cell.  The connectivity and the
    graph are those of the grain tracker (1261-1270). *)
Definition detect_pores (fuel : nat) (p : pmesh) (n_ranks : nat) (thr : Q)
  (components : nat -> list (nat * nat) -> list nat) : option (nat -> option nat) :=
  res <- pore_ranks fuel p thr 0 n_ranks ;;
  conn <- all_connectivity (base p) res res 0 ;;
  ids <- stitch_via_graph components conn ;;
  Some (fun c => match particle_id (base p) res c with None => None | Some q => vget ids q end).

(** ** Contours *)
(** 1383: the threshold for the contours. *)
Definition contour_threshold (iso_level : Q) : Q := Qmin ((11 # 10) * iso_level) (99 # 100).

(** 1390-1411: the pores at the boundary found by rank [r] (kept as a list). *)
Definition rank_boundary_pores (p : pmesh) (gid : nat -> option nat) (r : nat) : list nat :=
  flat_map (fun c =>
    if rank (base p) c =? r then
      match gid c with
      | Some k => if at_boundary p c then [k] else []
      | None => []
      end
    else []) (active (base p)).

(** 1413-1436: gathered on rank 0, united and broadcast. *)
Definition boundary_pores (p : pmesh) (gid : nat -> option nat) (n_ranks : nat) : list nat :=
  flat_map (rank_boundary_pores p gid) (seq 0 n_ranks).

Definition mem (k : nat) (l : list nat) : bool := existsb (Nat.eqb k) l.

(** 1476-1496: the DoFs written by rank [r]. *)
Definition writes (p : pmesh) (gid : nat -> option nat) (bp : list nat) (smooth : bool) (r d : nat) : bool :=
  existsb (fun c =>
    (rank (base p) c =? r) &&
    match gid c with
    | Some k => (mem k bp && smooth) || (negb (mem k bp) && negb smooth)
    | None => false
    end && mem d (dofs p c)) (active (base p)).

Definition count (b : bool) : nat := if b then 1 else 0.

(** 1468-1471, 1496-1506 without smoothing: zeros, ones written by the ranks, the
    ghost entries added to the entry of the owner, at most one.  Afterwards the
    ghost values are imported from the owner (774-775). *)
Definition sharp_data (p : pmesh) (gid : nat -> option nat) (bp : list nat) (n_ranks d : nat) : Q :=
  Qmin (inject_Z (Z.of_nat
    (count (writes p gid bp false (dof_owner p d) d) +
     list_sum (map (fun r => count (writes p gid bp false r d))
       (filter (fun r => negb (r =? dof_owner p d)) (seq 0 n_ranks)))))) 1.

(** 1453-1466, 1473, 1496 with smoothing: the value of DoF [d] in the memory of
    rank [r].  [sol b d] is the solution.  The ghost values are imported before
    zeros are written; afterwards they are neither sent to the owner nor imported
    again, since the vector counts as ghosted (772-775, without box filter and
    without coarsening). *)
Definition smooth_data (p : pmesh) (sol : nat -> nat -> Q) (gid : nat -> option nat) (bp : list nat) (r d : nat) : Q :=
  if writes p gid bp true r d then 0%Q
  else (1 - fold_right Qplus 0 (map (fun b => sol b d) (seq 0 (n_blocks p))))%Q.
