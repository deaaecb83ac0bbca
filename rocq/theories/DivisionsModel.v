(** Model of the initial mesh subdivisions, src/grid/grid_tools.cc 20-103 and
    include/pf-applications/grid/grid_tools.h 599-780.

    Element numbers are [nat], lengths are rationals.  [ceil(log2(x))] is computed
    exactly; for the integer argument in [decompose_to_prime_tuple] the floating
    point result is the same.  The calls of deal.II (creation and refinement of the
    triangulation, periodicity, output) are left out.
    [None]: undefined behaviour (conversion of a negative or infinite number or of a
    number out of range, minimum of an empty range). *)
From Coq Require Import List QArith Qround ZArith Arith Bool.
From Verif Require Import Util.
Import ListNotations.
Local Open Scope nat_scope.

(** grid_tools.cc 31-39; leaving the loop early does not change the result *)
Definition no_divisor (i : nat) : bool := forallb (fun j => negb (i mod j =? 0)) (seq 2 (i / 2 - 1)).

(** 20-45 *)
Definition get_primes (first last : nat) : list nat :=
  filter (fun i => negb ((i =? 1) || (i =? 0)) && no_divisor i) (seq first (last + 1 - first)).

(** 58-59: [n_ref / p] is an integer division; [log2(0)] is minus infinity *)
Definition ceil_log2_nat (n : nat) : option nat := if n =? 0 then None else Some (Nat.log2_up n).

(** 60-62: [unsigned int] of the product, difference modulo 2^32, conversion to [int] *)
Definition elements_delta (n_current n_ref : nat) : option Z :=
  let c := Z.of_nat n_current in
  if (2 ^ 32 <=? c)%Z then None
  else
    let w := ((c - Z.of_nat n_ref) mod 2 ^ 32)%Z in
    let i := if (w <? 2 ^ 31)%Z then w else (w - 2 ^ 32)%Z in
    if (i =? - 2 ^ 31)%Z then None else Some (Z.abs i).

(** 56-70 *)
Fixpoint choose (n_ref : nat) (primes : list nat) (prime refs : nat) (min_delta : Z) : option (nat * nat) :=
  match primes with
  | [] => Some (prime, refs)
  | p :: r =>
      s <- ceil_log2_nat (n_ref / p) ;;
      delta <- elements_delta (p * 2 ^ s) n_ref ;;
      if (delta <? min_delta)%Z then choose n_ref r p s delta else choose n_ref r prime refs min_delta
  end.

(** 47-73 *)
Definition decompose (n_ref max_prime : nat) : option (nat * nat) :=
  choose n_ref (get_primes 2 max_prime) 0 0 (2 ^ 32 - 1)%Z.

Fixpoint decompose_all (max_prime : nat) (subs : list nat) : option (list (nat * nat)) :=
  match subs with
  | [] => Some []
  | n :: r => p <- decompose n max_prime ;; ps <- decompose_all max_prime r ;; Some (p :: ps)
  end.

Definition min_element (l : list nat) : option nat :=
  match l with [] => None | x :: r => Some (fold_left Nat.min r x) end.

(** 75-103: number of base refinements and the new subdivisions *)
Definition adjust (max_prime : nat) (subs : list nat) : option (nat * list nat) :=
  if max_prime =? 0 then Some (0, subs)
  else
    ps <- decompose_all max_prime subs ;;
    base <- min_element (map snd ps) ;;
    Some (base, map (fun p => fst p * 2 ^ (snd p - base)) ps).

(** grid_tools.h 599-629: global refinements done at once, delayed refinements *)
Inductive initial_refine := Base | Full | NoRefine.
Definition make_initial_refines (refine : initial_refine) (n_base n_interface : nat) : nat * nat :=
  match refine with
  | Base => (n_base, n_interface)
  | Full => (n_base + n_interface, 0)
  | NoRefine => (0, n_base + n_interface)
  end.

(** [static_cast<unsigned int>(ceil(x))] *)
Definition ceil_unsigned (x : Q) : option nat := let c := Qceiling x in if (c <? 0)%Z then None else Some (Z.to_nat c).

(** [static_cast<unsigned int>(ceil(log2(x)))]: [ceil(log2 x)] is the smallest [k] with
    [x <= 2^k]; it is negative for [x <= 1/2]. *)
Definition ceil_log2 (x : Q) : option nat :=
  if Qle_bool x (1 # 2) then None else Some (Nat.log2_up (Z.to_nat (Qceiling x))).

(** [static_cast<unsigned int>(round(x))] *)
Definition round_unsigned (x : Q) : option nat :=
  if Qle_bool x (- (1 # 2)) then None else Some (Z.to_nat (Qfloor (x + (1 # 2)))).

Fixpoint map_opt {A B} (f : A -> option B) (l : list A) : option (list B) :=
  match l with [] => Some [] | x :: r => y <- f x ;; ys <- map_opt f r ;; Some (y :: ys) end.

Record mesh := mkMesh { level0 : list nat; global_refs : nat; delayed_refs : nat }.

(** 651-693; [sizes] is the vector [domain_size] *)
Definition mesh_from_interface (sizes : list Q) (interface_width divisions_per_interface : Q) (refine : initial_refine)
    (max_prime : nat) (max_level0 : Q) (divisions_per_element : nat) : option mesh :=
  let dpe := inject_Z (Z.of_nat divisions_per_element) in
  elements <- qdiv divisions_per_interface dpe ;;
  max_elements <- qdiv max_level0 dpe ;;
  h_e <- qdiv interface_width elements ;;
  ratio <- qdiv elements max_elements ;;
  n_interface <- ceil_log2 ratio ;;
  subs <- map_opt (fun size => x <- qdiv size h_e ;; ceil_unsigned (x / inject_Z (2 ^ Z.of_nat n_interface))) sizes ;;
  a <- adjust max_prime subs ;;
  let g := make_initial_refines refine (fst a) n_interface in
  Some (mkMesh (snd a) (fst g) (snd g)).

(** 741-780 *)
Definition mesh_from_radius (sizes : list Q) (interface_width divisions_per_interface r_ref : Q) (refine : initial_refine)
    (max_prime : nat) (divisions_per_element : nat) : option mesh :=
  elements <- qdiv divisions_per_interface (inject_Z (Z.of_nat divisions_per_element)) ;;
  h_e <- qdiv interface_width elements ;;
  let h_ref := (2 * r_ref)%Q in
  ratio <- qdiv h_ref h_e ;;
  n_interface <- ceil_log2 ratio ;;
  subs <- map_opt (fun size => x <- qdiv size h_ref ;; round_unsigned x) sizes ;;
  a <- adjust max_prime subs ;;
  let g := make_initial_refines refine (fst a) n_interface in
  Some (mkMesh (snd a) (fst g) (snd g)).
