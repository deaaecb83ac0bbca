(** Model of the listing of grains, include/pf-applications/grain_tracker/output.h 29-160 and
    200-252, with tracking.h 246-260.  [None] is undefined behaviour or an exception.  What
    [Segment::print] writes (segment.h 102-108) is a value of any type [L]; the centers are
    rational numbers, so they are never NaN. *)
From Coq Require Import List QArith Arith Bool Permutation Sorted.
From Verif Require Import Util.
Import ListNotations.
Local Open Scope nat_scope.

Section Grains.
Variable L : Type.

Record segment := mkSegment { center : list Q; radius : Q; label : L }.
Record grain := mkGrain { grain_id : nat; op_id : nat; old_op_id : nat; segments : list segment }.
(** [std::map<unsigned int, Grain>] *)
Notation grain_map := (list (nat * grain)).

Fixpoint map_all {A B} (f : A -> option B) (l : list A) : option (list B) :=
  match l with [] => Some [] | x :: r => y <- f x ;; ys <- map_all f r ;; Some (y :: ys) end.
(** [at] *)
Fixpoint find {A} (m : list (nat * A)) (k : nat) : option A :=
  match m with [] => None | (x, v) :: r => if Nat.eqb x k then Some v else find r k end.

(** 88-101, 119-129: the comparison of centers *)
Fixpoint center_less (a b : list Q) : bool :=
  match a, b with
  | x :: a, y :: b => if Qeq_bool x y then center_less a b else qltb x y
  | _, _ => false
  end.

(** [std::sort]: any order of the elements in which no element comes after one that is
    greater *)
Definition std_sort {A} (less : A -> A -> bool) (l l' : list A) : Prop :=
  Permutation l l' /\ StronglySorted (fun a b => less b a = false) l'.

(** 83-101 for the numbers of two segments *)
Definition segment_less (g : grain) (i j : nat) : bool :=
  match nth_error (segments g) i, nth_error (segments g) j with
  | Some a, Some b => center_less (center a) (center b)
  | _, _ => false
  end.
(** 66-102 *)
Definition order_segments (gs : grain_map) (os : list (nat * list nat)) : Prop :=
  Forall2 (fun kg ko => fst ko = fst kg /\ std_sort (segment_less (snd kg)) (seq 0 (length (segments (snd kg)))) (snd ko)) gs os.

(** 109-117: the center of the first segment *)
Definition min_center (gs : grain_map) (os : list (nat * list nat)) (k : nat) : option (list Q) :=
  g <- find gs k ;; o <- find os (grain_id g) ;; i <- nth_error o 0 ;; s <- nth_error (segments g) i ;; Some (center s).
(** 104-130 *)
Definition grain_less (gs : grain_map) (os : list (nat * list nat)) (a b : nat) : bool :=
  match min_center gs os a, min_center gs os b with Some x, Some y => center_less x y | _, _ => false end.

(** 134-159: what is printed for a grain: order parameter, old order parameter, number of
    segments and the segments *)
Definition grain_lines (gs : grain_map) (os : list (nat * list nat)) (k : nat) : option (nat * nat * nat * list L) :=
  g <- find gs k ;; o <- find os k ;;
  ls <- map_all (fun i => s <- nth_error (segments g) i ;; Some (label s)) o ;;
  Some (op_id g, old_op_id g, length (segments g), ls).

Record listing := mkListing { n_ops : nat; n_grains : nat; entries : list (nat * nat * nat * list L) }.

(** tracking.h 246-260: the size of the set *)
Definition active_ops (gs : grain_map) : nat := length (nodup Nat.eq_dec (map (fun kg => op_id (snd kg)) gs)).

(** 57-160, the possible results.  If there are two grains or more, each of them is compared
    at least once. *)
Definition print_grains_invariant (gs : grain_map) (r : option listing) : Prop :=
  exists os, order_segments gs os /\
    ((2 <= length gs /\ (exists k, In k (map fst gs) /\ min_center gs os k = None) /\ r = None) \/
     ((length gs < 2 \/ forall k, In k (map fst gs) -> min_center gs os k <> None) /\
      exists ord, std_sort (grain_less gs os) (map fst gs) ord /\
        r = (ls <- map_all (grain_lines gs os) ord ;; Some (mkListing (active_ops gs) (length gs) ls)))).

(** 29-55: the other listing, in the order of the map; it shows the number of the grain *)
Definition print_grains (gs : grain_map) : nat * nat * list (nat * nat * nat * nat * list L) :=
  (active_ops gs, length gs,
   map (fun kg => (op_id (snd kg), old_op_id (snd kg), length (segments (snd kg)), grain_id (snd kg), map label (segments (snd kg)))) gs).

(** ** 200-252.  [insert_global_particles] of deal.II: the particles are those that the
    processes pass, all of them together, if they are in the domain ([inside]). *)
Variable inside : list Q -> bool.
Definition particles_of (gs : grain_map) : list (list Q * (nat * Q * nat)) :=
  flat_map (fun kg => map (fun s => (center s, (fst kg, radius s, op_id (snd kg)))) (segments (snd kg))) gs.
Definition insert_global_particles (passed : list (list (list Q * (nat * Q * nat)))) : list (list Q * (nat * Q * nat)) :=
  filter (fun p => inside (fst p)) (concat passed).
(** every process has all grains *)
Definition output_particles (n_processes : nat) (gs : grain_map) : list (list Q * (nat * Q * nat)) :=
  insert_global_particles (map (fun _ => particles_of gs) (seq 0 n_processes)).
End Grains.
