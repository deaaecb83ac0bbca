(** Specification for the transfer of grain ids. *)
From Coq Require Import List QArith Qabs Arith.
From Verif Require Import Util MapModel TransferModel.
Import ListNotations.

(** What is assumed of the R-tree: a query returns, in any order and without
    repetition, the indices of the boxes that intersect the given one. *)
Definition query_ok (query : list box -> box -> list nat) : Prop :=
  forall boxes b, NoDup (query boxes b) /\
    forall i, In i (query boxes b) <-> exists a, vget boxes i = Some a /\ intersects a b = true.

(** The boxes around two segments overlap: in every direction the centers are not
    further apart than the sum of the radii. *)
Definition meet (s t : segment) : Prop :=
  Forall2 (fun x y => Qabs (x - y) <= s_radius s + s_radius t) (s_center s) (s_center t).

(** All centers have [dim] coordinates. *)
Definition in_space (dim : nat) (m : fmap grain) : Prop :=
  forall id g s, In (id, g) m -> In s (g_segments g) -> length (s_center s) = dim.

(** Order of distances, [None] being larger than any number. *)
Definition ole (a b : option Q) : Prop :=
  match a, b with
  | Some a, Some b => a <= b
  | _, None => True
  | None, Some _ => False
  end.

(** [d] is the least distance (squared) between the centers of segments of the two
    grains; there is none if one of them has no segments. *)
Definition is_distance (a b : grain) (d : option Q) : Prop :=
  (forall s t, In s (g_segments a) -> In t (g_segments b) -> ole d (Some (dist2 (s_center s) (s_center t)))) /\
  forall x, d = Some x -> exists s t, In s (g_segments a) /\ In t (g_segments b) /\ x == dist2 (s_center s) (s_center t).

(** Old grain [o] owns a segment of order parameter [op] overlapping [s], and no
    other overlapping old segment of that order parameter is nearer to [s]. *)
Definition nearest_old (old : fmap grain) (op : nat) (s : segment) (o : nat) : Prop :=
  exists go t, In (o, go) old /\ g_op go = op /\ In t (g_segments go) /\ meet t s /\
    forall o2 g2 t2, In (o2, g2) old -> g_op g2 = op -> In t2 (g_segments g2) -> meet t2 s ->
      dist2 (s_center t) (s_center s) <= dist2 (s_center t2) (s_center s).
