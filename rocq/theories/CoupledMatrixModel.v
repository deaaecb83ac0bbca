(** The product of the coupled operator with an assembled matrix: the hooks for plain vectors
    (operator_sintering_coupled_monolithic.h 326-392), the matrix branches of the two products
    (operator_base.h 230-292 and 334-350) and the hooks for block vectors (94-172) around the
    second one.  The member [zero_c_constraints_values] is shared by both pairs of hooks.
    [off] is [data.n_components() + n_additional_components()], [n] is [n_components()].
    An index out of range is [None].  The matrix is an arbitrary function of the vector. *)
From Coq Require Import List Arith Lia.
From Verif Require Import Util VmultModel.
Import ListNotations.

Section CoupledMatrix.
Context {A : Type} (zero : A).

(** 337-352 and 371-384: [matrix_index] and the slot [i][d] of the saved values *)
Definition flat_zc_ops (n off dim : nat) (zc : list nat) : list (nat * nat) :=
  flat_map (fun ic => map (fun d => (n * snd ic + off + d, fst ic * dim + d)) (seq 0 dim)) (combine (seq 0 (length zc)) zc).
(** 354-361 and 386-392 *)
Definition flat_displ (n off : nat) (displ : list (list nat)) : list nat :=
  flat_map (fun dl => map (fun j => n * j + off + fst dl) (snd dl)) (combine (seq 0 (length displ)) displ).
(** 360 and 391: zero is written *)
Fixpoint zero_loop (xs : list nat) (v : list A) : option (list A) :=
  match xs with [] => Some v | x :: xs => obind (vset v x zero) (fun v => zero_loop xs v) end.
(** 371-384 *)
Fixpoint flat_dst_loop (ops : list (nat * nat)) (buf dst : list A) : option (list A) :=
  match ops with
  | [] => Some dst
  | (x, s) :: ops => obind (vget buf s) (fun v => obind (vset dst x v) (fun dst => flat_dst_loop ops buf dst))
  end.

(** 326-362 *)
Definition pre_flat (n off dim : nat) (zc : list nat) (displ : list (list nat)) (src zbuf : list A) : option (list A * list A) :=
  obind (save_loop zero vget vset (flat_zc_ops n off dim zc) src (resize zero (length zc * dim) zbuf)) (fun '(src, zbuf) =>
  obind (zero_loop (flat_displ n off displ) src) (fun src => Some (src, zbuf))).
(** 364-393 *)
Definition post_flat (n off dim : nat) (zc : list nat) (displ : list (list nat)) (zbuf dst : list A) : option (list A) :=
  obind (flat_dst_loop (flat_zc_ops n off dim zc) zbuf dst) (fun dst => zero_loop (flat_displ n off displ) dst).

(** operator_base.h 230-292, [matrix_based]: destination, source and saved values *)
Definition vmult_coupled_flat (n off dim : nat) (zc : list nat) (displ : list (list nat)) (matrix : list A -> list A) (src zbuf : list A)
    : option (list A * list A * list A) :=
  obind (pre_flat n off dim zc displ src zbuf) (fun '(src, zbuf) =>
  let dst := matrix src in
  obind (post_flat n off dim zc displ zbuf dst) (fun dst => Some (dst, src, zbuf))).

(** operator_base.h 294-353, [matrix_based], with the hooks of the coupled operator; [size] is
    the size of the vectors of the system partitioner, [dst] the destination on entry *)
Definition vmult_coupled_matrix (n off dim : nat) (zc : list nat) (displ : list (list nat)) (size : nat) (matrix : list A -> list A)
    (src dst : list (list A)) (zbuf : list A) : option (list (list A) * list (list A) * list A) :=
  obind (save_loop zero bget bset (zc_ops off dim zc) src (resize zero (length zc * dim) zbuf)) (fun '(src, zbuf) =>
  obind (save_loop zero bget bset (displ_ops off displ) src (repeat zero (length (displ_addresses off displ)))) (fun '(src, dbuf) =>
  obind (merge_components_fast src (repeat zero size)) (fun src_ =>
  obind (vmult_coupled_flat n off dim zc displ matrix src_ zbuf) (fun '(dst_, src_, zbuf) =>
  obind (split_up_components_fast dst_ dst) (fun dst =>
  obind (restore_loop bget bset (displ_ops off displ) dbuf src dst) (fun '(src, dst) =>
  obind (dst_loop (zc_ops off dim zc) zbuf dst) (fun dst => Some (dst, src, zbuf)))))))).
End CoupledMatrix.
