(** Specification of the particle detection: connected regions of cells. *)
From Coq Require Import List QArith Arith Relations.
From Verif Require Import Util FloodModel.
Import ListNotations.
Local Open Scope nat_scope.

(** [leaf m c d]: [d] is an active cell inside of [c] (or [c] itself). *)
Inductive leaf (m : mesh) : nat -> nat -> Prop :=
| leaf_self : forall c, children m c = [] -> leaf m c c
| leaf_child : forall c d e, In d (children m c) -> leaf m d e -> leaf m c e.

(** What is used of a deal.II mesh. *)
Record mesh_ok (m : mesh) : Prop := {
  ok_active : forall c, In c (active m) -> c < n_cells m /\ children m c = [];
  ok_neighbors : forall c n e, In c (active m) -> In n (neighbors m c) -> leaf m n e -> In e (active m);
  ok_height : exists D (h : nat -> nat), (forall c, h c <= D)%nat /\
    forall c d, In d (children m c) -> (h d < h c)%nat;
  ok_subface : forall c n e, In c (active m) -> In n (neighbors m c) -> children m n <> [] ->
    In e (subface_children m c n) -> leaf m n e;
  ok_symmetric : forall c d, In c (active m) -> In d (face_cells m c) -> In c (face_cells m d) }.

(** A cell contains a particle if the order parameter exceeds the threshold at
    one of its DoFs. *)
Definition has_particle (m : mesh) (thr : Q) (c : nat) : Prop :=
  In c (active m) /\ exists v, In v (fst (values m c) :: snd (values m c)) /\ (thr < v)%Q.

(** Two cells with particle that share a face, or part of a face. *)
Definition touching (m : mesh) (thr : Q) (c d : nat) : Prop :=
  has_particle m thr c /\ has_particle m thr d /\ In d (face_cells m c).

(** The same for cells of rank [me] only. *)
Definition touching_on (m : mesh) (thr : Q) (me c d : nat) : Prop :=
  touching m thr c d /\ rank m c = me /\ rank m d = me.

Definition region (m : mesh) (thr : Q) : nat -> nat -> Prop := clos_refl_trans nat (touching m thr).
Definition region_on (m : mesh) (thr : Q) (me : nat) : nat -> nat -> Prop :=
  clos_refl_trans nat (touching_on m thr me).

(** The flooding goes from a cell to all active cells inside of its neighbours,
    also to those that do not touch it. *)
Definition visits (m : mesh) (thr : Q) (c d : nat) : Prop :=
  has_particle m thr c /\ has_particle m thr d /\ rank m c = rank m d /\
  exists n, In n (neighbors m c) /\ leaf m n d.

(** Meshes without local refinement. *)
Definition unrefined (m : mesh) : Prop :=
  forall c n, In c (active m) -> In n (neighbors m c) -> children m n = [].
