(** Model of the bounding box of the body,
    applications/sintering/include/pf-applications/sintering/postprocessors.h
    1545-1737 ([estimate_shrinkage]), for one coordinate direction (the directions
    do not interact) and one side ([up]: the upper side). *)
From Coq Require Import List QArith Qabs Arith Bool.
From Verif Require Import Util.
Import ListNotations.
Local Open Scope Q_scope.

(** An owned cell: the values at the support points with their coordinates, the
    coordinate of the center, the diameter and the interior points of the refined
    quadrature (1659-1668) with coordinate and value. *)
Record scell := mkS {
  nodes : list (Q * Q);
  center : Q;
  diameter : Q;
  samples : list (Q * Q) }.

(** 1552-1553 *)
Definition threshold : Q := (1 # 2) - (1 # 100).
Definition rel_tol : Q := 1 # 1000.

(** 1592-1602 *)
Definition interface (c : scell) : bool :=
  existsb (fun p => qltb threshold (snd p)) (nodes c) && existsb (fun p => qltb (snd p) threshold) (nodes c).

(** 1604 [linfty_norm] *)
Definition c_norm (c : scell) : Q :=
  fold_left (fun a p => if qltb a (Qabs (snd p)) then Qabs (snd p) else a) (nodes c) 0.

(** The comparison of the side: [<] for the minimum (1620), [>] for the maximum
    (1636). *)
Definition before (up : bool) (a b : Q) : bool := if up then qltb b a else qltb a b.

(** [std::min] or [std::max] *)
Definition extreme (up : bool) (a b : Q) : Q := if before up b a then b else a.

(** 1611-1640: the extreme cell with its norm *)
Definition next_cell (up : bool) (best : option (scell * Q)) (c : scell) : option (scell * Q) :=
  match best with
  | None => Some (c, c_norm c)
  | Some (b, n) =>
      let dist := Qabs (center c - center b) in
      let abs_tol := rel_tol * diameter c in
      if (qltb dist abs_tol && qltb n (c_norm c)) || (qltb abs_tol dist && before up (center c) (center b))
      then Some (c, c_norm c) else best
  end.

(** 1643-1655 and 1680-1689: the points above the threshold *)
Definition take_points (up : bool) (points : list (Q * Q)) (x : Q) : Q :=
  fold_left (fun x p => if qltb threshold (snd p) then extreme up x (fst p) else x) points x.

(** 1581-1656 *)
Definition shrink_step (up : bool) (s : Q * option (scell * Q)) (c : scell) : Q * option (scell * Q) :=
  if interface c then (take_points up (nodes c) (fst s), next_cell up (snd s) c) else s.

(** 1561-1713 on one rank; [start] is the opposite side of the domain
    (1566-1567). *)
Definition shrink_rank (up : bool) (start : Q) (cells : list scell) : Q :=
  let s := fold_left (shrink_step up) cells (start, None) in
  match snd s with
  | None => fst s
  | Some (c, _) => take_points up (samples c) (fst s)
  end.

(** 1715-1722: the minimum or maximum over the ranks *)
Definition shrink (up : bool) (start : Q) (ranks : list (list scell)) : Q :=
  fold_left (fun x cells => extreme up x (shrink_rank up start cells)) ranks start.
