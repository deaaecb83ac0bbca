(** Model of the evaluation of particle measures, centers, maximum values, radii
    and moments of inertia over all ranks,
    include/pf-applications/grain_tracker/distributed_stitching.h 213-437 and
    motion.h 27, 59-91.

    A locally owned cell is given by the data the code reads of it.  Cells of all
    ranks are in one list; rank [me] works on its own ones in the order of the
    list.  [MPI_Allreduce] adds (or takes the maximum of) the vectors of ranks
    0..n_ranks-1.  Numbers are exact.  [None]: out of range access. *)
From Coq Require Import List QArith Qabs Arith Bool.
From Verif Require Import Util FloodModel.
Import ListNotations.

Record cell := mkCell {
  c_rank : nat;
  c_particle : option nat;       (* particle_ids, None: invalid_particle_id *)
  c_measure : Q;
  c_center : list Q }.

Definition add_at (v : list Q) (i : nat) (x : Q) : option (list Q) :=
  a <- vget v i ;; vset v i (a + x).

Fixpoint add_all (v : list Q) (l : list (nat * Q)) : option (list Q) :=
  match l with
  | [] => Some v
  | (i, x) :: r => v <- add_at v i x ;; add_all v r
  end.

(** Loop over the cells of rank [me]; [contrib u c] are the additions for cell [c]
    of particle [u]. *)
Fixpoint accumulate (contrib : nat -> cell -> list (nat * Q)) (me : nat) (cells : list cell) (v : list Q)
  : option (list Q) :=
  match cells with
  | [] => Some v
  | c :: r =>
      if (c_rank c =? me)%nat then
        match c_particle c with
        | None => accumulate contrib me r v
        | Some u => v <- add_all v (contrib u c) ;; accumulate contrib me r v
        end
      else accumulate contrib me r v
  end.

Fixpoint vadd (a b : list Q) : list Q :=
  match a, b with
  | x :: a, y :: b => (x + y) :: vadd a b
  | _, _ => []
  end.

(** [MPI_Allreduce] with [MPI_SUM] of the vectors of all ranks *)
Fixpoint reduce_sum (f : nat -> option (list Q)) (n_ranks : nat) (n : nat) : option (list Q) :=
  match n_ranks with
  | O => Some (repeat 0 n)
  | S r => a <- reduce_sum f r n ;; b <- f r ;; Some (vadd a b)
  end.

(** 291-295: measure and measure times coordinates, at [n_features * u + ...] *)
Definition info_contrib (dim : nat) (u : nat) (c : cell) : list (nat * Q) :=
  (((1 + dim) * u + 0)%nat, c_measure c) ::
  map (fun d => (((1 + dim) * u + 1 + d)%nat, nth d (c_center c) 0 * c_measure c)) (seq 0 dim).

(** 261-317 [compute_particles_info]; a center is [None] (not a number) if the
    measure is zero. *)
Definition particles_info (dim n_particles n_ranks : nat) (cells : list cell)
  : option (list (list (option Q)) * list Q) :=
  info <- reduce_sum (fun me => accumulate (info_contrib dim) me cells (repeat 0 (n_particles * (1 + dim))%nat))
            n_ranks (n_particles * (1 + dim))%nat ;;
  Some (map (fun i => map (fun d => qdiv (nth (i * (1 + dim) + 1 + d)%nat info 0) (nth (i * (1 + dim))%nat info 0)) (seq 0 dim))
          (seq 0 n_particles),
        map (fun i => nth (i * (1 + dim))%nat info 0) (seq 0 n_particles)).

(** motion.h 59-91 [evaluate_inertia_properties] with [r = cell center - center] *)
Definition inertia_data (dim : nat) (r : list Q) (measure : Q) : list Q :=
  let x := nth 0 r 0 in let y := nth 1 r 0 in let z := nth 2 r 0 in
  if (dim =? 2)%nat then [y * y * measure; x * x * measure; - x * y * measure]
  else [(y * y + z * z) * measure; (x * x + z * z) * measure; (x * x + y * y) * measure;
        - x * y * measure; - x * z * measure; - y * z * measure].

(** motion.h 27: [dim * ((dim + 1) / 2.)] *)
Definition num_inertias (dim : nat) : nat := Nat.div (dim * (dim + 1)) 2.

Definition inertia_contrib (dim : nat) (centers : list (list Q)) (u : nat) (c : cell) : list (nat * Q) :=
  let r := map (fun d => nth d (c_center c) 0 - nth d (nth u centers []) 0) (seq 0 dim) in
  combine (map (fun j => num_inertias dim * u + j)%nat (seq 0 (num_inertias dim))) (inertia_data dim r (c_measure c)).

(** 395-437 [compute_particles_inertia] *)
Definition particles_inertia (dim n_ranks : nat) (centers : list (list Q)) (cells : list cell) : option (list Q) :=
  reduce_sum (fun me => accumulate (inertia_contrib dim centers) me cells (repeat 0 (length centers * num_inertias dim)%nat))
    n_ranks (length centers * num_inertias dim)%nat.

(** ** Maximum values *)
Fixpoint vmax (a b : list Q) : list Q :=
  match a, b with
  | x :: a, y :: b => qmax x y :: vmax a b
  | _, _ => []
  end.

(** [MPI_Allreduce] with [MPI_MAX], at least one rank *)
Fixpoint reduce_max (f : nat -> option (list Q)) (n_ranks : nat) : option (list Q) :=
  match n_ranks with
  | O => None
  | S O => f 0%nat
  | S r => a <- reduce_max f r ;; b <- f r ;; Some (vmax a b)
  end.

(** 230-248: the cells of rank [me], here given by their local particle number
    ([particle_id - local_offset]); the value is assigned, not accumulated. *)
Fixpoint max_loop (to_global : list nat) (local_max : list Q) (locals : list nat) (v : list Q) : option (list Q) :=
  match locals with
  | [] => Some v
  | l :: r =>
      u <- vget to_global l ;;
      x <- vget local_max l ;;
      v <- vset v u x ;;
      max_loop to_global local_max r v
  end.

(** 213-259 [compute_particles_max_values]; per rank: (local to global ids, local
    maximum values, local particle number of the owned cells with particle) *)
Definition particles_max_values (n_particles : nat) (ranks : list (list nat * list Q * list nat)) : option (list Q) :=
  reduce_max (fun me => r <- vget ranks me ;;
      max_loop (fst (fst r)) (snd (fst r)) (snd r) (repeat 0 n_particles)) (length ranks).

(** ** Radii and remote points *)
(** 333-362 on rank [me]; [dist c] and [dist_vec c] are the distance of the far
    end of the cell from the center of its particle and the vector to it. *)
Fixpoint radii_loop (dist : cell -> Q) (dist_vec : cell -> list Q) (me : nat) (cells : list cell)
  (radii : list Q) (remotes : list (list Q)) : option (list Q * list (list Q)) :=
  match cells with
  | [] => Some (radii, remotes)
  | c :: r =>
      if (c_rank c =? me)%nat then
        match c_particle c with
        | None => radii_loop dist dist_vec me r radii remotes
        | Some u =>
            a <- vget radii u ;;
            remotes <- (if qltb a (dist c) then vset remotes u (dist_vec c) else Some remotes) ;;
            radii <- vset radii u (qmax a (dist c)) ;;
            radii_loop dist dist_vec me r radii remotes
        end
      else radii_loop dist dist_vec me r radii remotes
  end.

Definition local_radii (dim n_particles : nat) (dist : cell -> Q) (dist_vec : cell -> list Q) (cells : list cell) (me : nat) :=
  radii_loop dist dist_vec me cells (repeat 0 n_particles) (repeat (repeat 0 dim) n_particles).

(** 366-372: the reduced radii *)
Definition particles_radii (dim n_particles n_ranks : nat) (dist : cell -> Q) (dist_vec : cell -> list Q)
  (cells : list cell) : option (list Q) :=
  reduce_max (fun me => s <- local_radii dim n_particles dist dist_vec cells me ;; Some (fst s)) n_ranks.

(** 379-383: remote points of other ranks are set to zero; [eps = 1e-16] *)
Definition keep_remote (dim : nat) (global loc : Q) (p : list Q) : list Q :=
  if qltb (1 # 10000000000000000) (Qabs (global - loc)) then repeat 0 dim else p.

(** 319-393 [compute_particles_radii] with [evaluate_remotes]: remote point of
    particle [u] *)
Definition particle_remote (dim n_particles n_ranks : nat) (dist : cell -> Q) (dist_vec : cell -> list Q)
  (cells : list cell) (u : nat) : option (list Q) :=
  radii <- particles_radii dim n_particles n_ranks dist dist_vec cells ;;
  reduce_sum (fun me =>
     s <- local_radii dim n_particles dist dist_vec cells me ;;
     g <- vget radii u ;; l <- vget (fst s) u ;; p <- vget (snd s) u ;;
     Some (keep_remote dim g l p)) n_ranks dim.
