(** The product of an operator with a vector: treatment of the constrained entries and the
    change between block vectors and vectors with interleaved components
    (applications/sintering/include/pf-applications/sintering/operator_base.h 230-352,
    include/pf-applications/numerics/vector_tools.h 43-93).

    The cell loop [vmult_internal] and the product with the assembled matrix are functions
    given from outside: they get the source and return the destination, the old content of
    which is overwritten.  [pre_vmult] and [post_vmult] do nothing but for the two operators
    at the end of this file.  Access out of range is [None].  Ghost entries are not
    modelled. *)
From Coq Require Import List Arith.
From Verif Require Import Util.
Import ListNotations.

Section Values.
Context {A : Type} (zero : A).

(** [vector.block(b).local_element(j)] *)
Definition bget (v : list (list A)) (x : nat * nat) : option A := obind (vget v (fst x)) (fun blk => vget blk (snd x)).
Definition bset (v : list (list A)) (x : nat * nat) (a : A) : option (list (list A)) :=
  obind (vget v (fst x)) (fun blk => obind (vset blk (snd x) a) (fun blk => vset v (fst x) blk)).

(** The two loops around the cell loop, 254-262 and 266-275 (vector) and 313-320 and 324-332
    (blocks); an entry of [ops] holds the address in the vector and the slot in
    [constrained_values_src].  [get] and [set] are [local_element] of the vector type. *)
Section Loops.
Context {M X : Type} (get : M -> X -> option A) (set : M -> X -> A -> option M).
Fixpoint save_loop (ops : list (X * nat)) (src : M) (buf : list A) : option (M * list A) :=
  match ops with
  | [] => Some (src, buf)
  | (x, s) :: ops => obind (get src x) (fun v => obind (vset buf s v) (fun buf => obind (set src x zero) (fun src => save_loop ops src buf)))
  end.
Fixpoint restore_loop (ops : list (X * nat)) (buf : list A) (src dst : M) : option (M * M) :=
  match ops with
  | [] => Some (src, dst)
  | (x, s) :: ops => obind (vget buf s) (fun v => obind (set src x v) (fun src => obind (get src x) (fun v =>
      obind (set dst x v) (fun dst => restore_loop ops buf src dst))))
  end.
End Loops.

(** [constrained_values_src.resize(n)] *)
Definition resize (n : nat) (l : list A) : list A := firstn n l ++ repeat zero (n - length l).

(** 238-248, 300-310: the cache, filled if it is empty *)
Definition fill_cache (n_components : nat) (dofs cs : list nat) (buf : list A) : list nat * list A :=
  match cs with [] => (dofs, resize (n_components * length dofs) buf) | _ => (cs, buf) end.

(** 294-333: block vectors; returns destination, source and cache *)
Definition block_ops (n_components : nat) (cs : list nat) : list ((nat * nat) * nat) :=
  flat_map (fun b => map (fun ic => ((b, snd ic), fst ic + b * length cs)) (combine (seq 0 (length cs)) cs)) (seq 0 n_components).
Definition vmult_block (n_components : nat) (dofs cs : list nat) (buf : list A) (internal : list (list A) -> list (list A)) (src : list (list A))
    : option (list (list A) * list (list A) * (list nat * list A)) :=
  let '(cs, buf) := fill_cache n_components dofs cs buf in
  obind (save_loop bget bset (block_ops n_components cs) src buf) (fun '(src, buf) =>
  let dst := internal src in
  obind (restore_loop bget bset (block_ops n_components cs) buf src dst) (fun '(src, dst) => Some (dst, src, (cs, buf)))).

(** 230-282: vectors; [user_comp] is the number of components for a scalar element, one
    otherwise *)
Definition flat_ops (user_comp : nat) (cs : list nat) : list (nat * nat) :=
  flat_map (fun ic => map (fun b => (snd ic * user_comp + b, fst ic * user_comp + b)) (seq 0 user_comp)) (combine (seq 0 (length cs)) cs).
(** 277-282: the third loop *)
Fixpoint third_loop (ics : list (nat * nat)) (buf src dst : list A) : option (list A * list A) :=
  match ics with
  | [] => Some (src, dst)
  | (i, c) :: ics => obind (vget buf i) (fun v => obind (vset src c v) (fun src => obind (vset dst c v) (fun dst => third_loop ics buf src dst)))
  end.
Definition vmult_flat (n_components : nat) (scalar_element : bool) (dofs cs : list nat) (buf : list A) (internal : list A -> list A) (src : list A)
    : option (list A * list A * (list nat * list A)) :=
  let '(cs, buf) := fill_cache n_components dofs cs buf in
  let user_comp := if scalar_element then n_components else 1 in
  obind (save_loop vget vset (flat_ops user_comp cs) src buf) (fun '(src, buf) =>
  let dst := internal src in
  obind (restore_loop vget vset (flat_ops user_comp cs) buf src dst) (fun '(src, dst) =>
  obind (third_loop (combine (seq 0 (length cs)) cs) buf src dst) (fun '(src, dst) => Some (dst, src, (cs, buf))))).

(** vector_tools.h 56-65: the inner loop over the blocks *)
Fixpoint split_inner (bs : list nat) (i j : nat) (src : list A) (dst : list (list A)) : option (nat * list (list A)) :=
  match bs with
  | [] => Some (i, dst)
  | b :: bs => obind (vget src i) (fun v => obind (bset dst (b, j) v) (fun dst => split_inner bs (S i) j src dst))
  end.
(** the outer loop; without blocks it never ends (no fuel left: [None]) *)
Fixpoint split_loop (fuel i j : nat) (src : list A) (dst : list (list A)) : option (list (list A)) :=
  if Nat.ltb i (length src) then
    match fuel with 0 => None | S fuel => obind (split_inner (seq 0 (length dst)) i j src dst) (fun '(i, dst) => split_loop fuel i (S j) src dst) end
  else Some dst.
Definition split_up_components_fast (src : list A) (dst : list (list A)) := split_loop (length src) 0 0 src dst.

(** vector_tools.h 84-93 *)
Fixpoint merge_inner (bs : list nat) (i j : nat) (src : list (list A)) (dst : list A) : option (nat * list A) :=
  match bs with
  | [] => Some (i, dst)
  | b :: bs => obind (bget src (b, j)) (fun v => obind (vset dst i v) (fun dst => merge_inner bs (S i) j src dst))
  end.
Fixpoint merge_loop (fuel i j : nat) (src : list (list A)) (dst : list A) : option (list A) :=
  if Nat.ltb i (length dst) then
    match fuel with 0 => None | S fuel => obind (merge_inner (seq 0 (length src)) i j src dst) (fun '(i, dst) => merge_loop fuel i (S j) src dst) end
  else Some dst.
Definition merge_components_fast (src : list (list A)) (dst : list A) := merge_loop (length dst) 0 0 src dst.

(** 334-350: block vectors and an assembled matrix; [size] is the size of the vectors [src_]
    and [dst_] of the system partitioner *)
Definition vmult_matrix (size : nat) (matrix : list A -> list A) (src dst : list (list A)) : option (list (list A)) :=
  obind (merge_components_fast src (repeat zero size)) (fun src_ => split_up_components_fast (matrix src_) dst).

(** operator_sintering_coupled_monolithic.h 94-172: the hooks of the coupled operator.  [off]
    is the number of the first block of displacements, [zc] the nodes without material,
    [displ] the supported nodes of each direction.  [zero_c_constraints_values[i][d]] is
    slot [i * dim + d], the values of [displ] are stored one after another. *)
Definition zc_ops (off dim : nat) (zc : list nat) : list ((nat * nat) * nat) :=
  flat_map (fun ic => map (fun d => ((off + d, snd ic), fst ic * dim + d)) (seq 0 dim)) (combine (seq 0 (length zc)) zc).
Definition displ_addresses (off : nat) (displ : list (list nat)) : list (nat * nat) :=
  flat_map (fun dl => map (fun j => (off + fst dl, j)) (snd dl)) (combine (seq 0 (length displ)) displ).
Definition displ_ops (off : nat) (displ : list (list nat)) : list ((nat * nat) * nat) :=
  combine (displ_addresses off displ) (seq 0 (length (displ_addresses off displ))).
(** 160-171: only the destination is written *)
Fixpoint dst_loop (ops : list ((nat * nat) * nat)) (buf : list A) (dst : list (list A)) : option (list (list A)) :=
  match ops with
  | [] => Some dst
  | (x, s) :: ops => obind (vget buf s) (fun v => obind (bset dst x v) (fun dst => dst_loop ops buf dst))
  end.
Definition vmult_coupled (off dim : nat) (zc : list nat) (displ : list (list nat))
    (n_components : nat) (dofs cs : list nat) (buf : list A) (internal : list (list A) -> list (list A)) (src : list (list A))
    : option (list (list A) * list (list A) * (list nat * list A)) :=
  obind (save_loop bget bset (zc_ops off dim zc) src (repeat zero (length zc * dim))) (fun '(src, zbuf) =>
  obind (save_loop bget bset (displ_ops off displ) src (repeat zero (length (displ_addresses off displ)))) (fun '(src, dbuf) =>
  obind (vmult_block n_components dofs cs buf internal src) (fun '(dst, src, cache) =>
  obind (restore_loop bget bset (displ_ops off displ) dbuf src dst) (fun '(src, dst) =>
  obind (dst_loop (zc_ops off dim zc) zbuf dst) (fun dst => Some (dst, src, cache)))))).

(** operator_elastic_linear.h 147-180: the hooks of the elastic operator; [dbc] holds the
    addresses and values of the Dirichlet conditions in the order of the loops *)
Fixpoint assign_loop (dbc : list ((nat * nat) * A)) (v : list (list A)) : option (list (list A)) :=
  match dbc with [] => Some v | (x, a) :: dbc => obind (bset v x a) (fun v => assign_loop dbc v) end.
Definition vmult_elastic (dbc : list ((nat * nat) * A))
    (n_components : nat) (dofs cs : list nat) (buf : list A) (internal : list (list A) -> list (list A)) (src : list (list A))
    : option (list (list A) * list (list A) * (list nat * list A)) :=
  obind (assign_loop dbc src) (fun src =>
  obind (vmult_block n_components dofs cs buf internal src) (fun '(dst, src, cache) =>
  obind (assign_loop (map (fun xa => (fst xa, zero)) dbc) src) (fun src =>
  obind (assign_loop dbc dst) (fun dst => Some (dst, src, cache))))).
End Values.
