(** Specification for the assignment of order parameters. *)
From Coq Require Import List QArith Arith Permutation.
From Verif Require Import Util MapModel TransferModel ReassignModel.
Import ListNotations.
Local Open Scope nat_scope.

(** Two grains are too close: some of their segments, taken as spheres, are not
    further apart than the buffer, and, unless all segments are spheres, some are
    closer than the buffer by their representation. *)
Definition too_close (gap dist : segment -> segment -> Q) (trivial : segment -> bool) (ratio fixed : Q) (a b : rgrain) : Prop :=
  let buffer := (ratio * r_radius a + ratio * r_radius b + fixed)%Q in
  (exists s t, In s (r_segments a) /\ In t (r_segments b) /\ (gap s t <= buffer)%Q) /\
  ((forall s, In s (r_segments a) \/ In s (r_segments b) -> trivial s = true) \/
   exists s t, In s (r_segments a) /\ In t (r_segments b) /\ (dist s t < buffer)%Q).

(** What deal.II documents for [color_sparsity_pattern]: the colours are numbers
    from 1 on, connected nodes have different colours. *)
Definition colour_contract (colour : nat -> list (nat * nat) -> list nat) : Prop :=
  forall n entries, (forall i j, In (i, j) entries -> i < n /\ j < n) ->
    length (colour n entries) = n /\ (forall c, In c (colour n entries) -> 1 <= c) /\
    forall i j, In (i, j) entries -> i <> j -> vget (colour n entries) i <> vget (colour n entries) j.

(** [std::sort] permutes. *)
Definition order_ok (order : list nat -> list nat) : Prop := forall l, Permutation (order l) l.
