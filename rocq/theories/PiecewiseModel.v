(** Model of the piecewise linear function, include/pf-applications/numerics/functions.h
    43-128, used as temperature function in
    applications/sintering/include/pf-applications/sintering/driver.h 892-894.

    Numbers are rationals; a division by zero (infinite or undefined in floating point) and
    an iterator outside of the vector give [None]. *)
From Coq Require Import QArith List Bool Arith.
From Verif Require Import Util.
Import ListNotations.
Local Open Scope nat_scope.

Notation pair_t := (Q * Q)%type.

(** 60-68, [add_pair]: inserted before the first pair with greater abscissa.
    [std::upper_bound] searches by bisection; on the sorted vectors that arise this is the
    first position. *)
Fixpoint add_pair (x y : Q) (pairs : list pair_t) : list pair_t :=
  match pairs with
  | [] => [(x, y)]
  | p :: r => if qltb x (fst p) then (x, y) :: p :: r else p :: add_pair x y r
  end.

(** 79-84: position of the first pair whose abscissa is not less, [std::lower_bound] *)
Fixpoint lower_bound (x : Q) (pairs : list pair_t) : nat :=
  match pairs with
  | [] => 0
  | p :: r => if qltb (fst p) x then S (lower_bound x r) else 0
  end.

(** 119-121: line through the pairs at two positions *)
Definition line (pairs : list pair_t) (i1 i2 : nat) (x : Q) : option Q :=
  p1 <- vget pairs i1 ;;
  p2 <- vget pairs i2 ;;
  k <- qdiv (snd p1 - snd p2) (fst p1 - fst p2) ;;
  let b := (snd p1 - k * fst p1)%Q in
  Some (k * x + b)%Q.

(** 70-125 *)
Definition value (extrapolate_linear : bool) (pairs : list pair_t) (x : Q) : option Q :=
  match pairs with
  | [] => Some 0%Q
  | _ =>
    let it := lower_bound x pairs in
    let n := length pairs in
    if Nat.eqb it 0 then
      if extrapolate_linear then line pairs 0 1 x else option_map snd (vget pairs it)
    else if Nat.eqb it n then
      if extrapolate_linear then
        if Nat.ltb n 2 then None else line pairs (n - 2) (n - 1) x
      else option_map snd (vget pairs (n - 1))
    else line pairs (it - 1) it x
  end.

(** pairs added one after the other to an empty function *)
Definition build (l : list pair_t) : list pair_t := fold_left (fun acc p => add_pair (fst p) (snd p) acc) l [].
