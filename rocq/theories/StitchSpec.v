(** Specification of the stitching: connected components. *)
From Coq Require Import List Arith Permutation Relations.
From Verif Require Import Util StitchModel.
Import ListNotations.

(** Contact lists as built by [build_local_connectivity]: sorted without
    duplicates, only particles of other ranks, each with its rank, symmetric. *)
Inductive sorted : list contact -> Prop :=
| sorted_nil : sorted []
| sorted_cons : forall x l, sorted l -> (forall y, In y l -> cltb x y = true) -> sorted (x :: l).

Record well_formed (sizes : list nat) (input : list (list contact)) : Prop := {
  wf_length : length input = list_sum sizes;
  wf_sorted : forall g l, vget input g = Some l -> sorted l;
  wf_contact : forall g l r id, vget input g = Some l -> In (r, id) l ->
    id < length input /\ r = owner sizes id /\ r <> owner sizes g;
  wf_symmetric : forall g l id, vget input g = Some l -> In (owner sizes id, id) l ->
    exists l', vget input id = Some l' /\ In (owner sizes g, g) l' }.

Definition touch (sizes : list nat) (input : list (list contact)) (g h : nat) : Prop :=
  exists l, vget input g = Some l /\ In (owner sizes h, h) l.

Definition connected (sizes : list nat) (input : list (list contact)) : nat -> nat -> Prop :=
  clos_refl_trans nat (touch sizes input).

(** The messages of a round may be processed in any order. *)
Definition any_order (deliver : nat -> list (nat * nat * list contact) -> list (nat * nat * list contact)) : Prop :=
  forall k ms, Permutation (deliver k ms) ms.

(** A numbering in the order of first occurrence: no number is used before all
    smaller ones. *)
Definition first_occurrence (ids : list nat) : Prop :=
  forall v k, vget ids v = Some k -> forall k', k' < k -> exists u, u < v /\ vget ids u = Some k'.

(** Documented behaviour of [boost::connected_components] for an undirected
    graph with vertices 0..N-1: equal numbers exactly for connected vertices,
    components numbered in the order in which the vertices are visited. *)
Definition components_contract (components : nat -> list (nat * nat) -> list nat) : Prop :=
  forall n edges, (forall a b, In (a, b) edges -> a < n /\ b < n) ->
  let c := components n edges in
  length c = n /\ first_occurrence c /\
  forall a b, a < n -> b < n ->
    (vget c a = vget c b <->
     clos_refl_trans nat (fun x y => In (x, y) edges \/ In (y, x) edges) a b).
