(** Model of the limitation of solution values,
    include/pf-applications/numerics/phasefield_tools.h 22-46, and of the mask it is called
    with, applications/sintering/include/pf-applications/sintering/operator_sintering_data.h
    120-147 (calls in driver.h 1943-1946 and 2048-2051).

    A value is a rational number or a NaN (infinite values are not modelled); a block is the
    list of its locally owned entries.  A mask is a list of booleans, the empty mask selects
    everything (deal.II's [ComponentMask]).  [None]: exception or access out of range. *)
From Coq Require Import QArith List Bool Arith.
From Verif Require Import Util.
Import ListNotations.
Local Open Scope nat_scope.

Inductive num := Num (q : Q) | NaN.

(** comparisons with a NaN are false *)
Definition nlt (a b : num) : bool := match a, b with Num p, Num q => qltb p q | _, _ => false end.

(** 38-43 *)
Definition limit (val_min val_max : Q) (v : num) : num :=
  if nlt v (Num val_min) then Num val_min
  else if nlt (Num val_max) v then Num val_max
  else v.

(** [mask[b]] *)
Definition selected (mask : list bool) (b : nat) : option bool :=
  match mask with [] => Some true | _ => vget mask b end.

(** 35-44 from block [b] on *)
Fixpoint limit_loop (mask : list bool) (lo hi : Q) (b : nat) (blocks : list (list num)) : option (list (list num)) :=
  match blocks with
  | [] => Some []
  | v :: r =>
      s <- selected mask b ;;
      r' <- limit_loop mask lo hi (S b) r ;;
      Some ((if s : bool then map (limit lo hi) v else v) :: r')
  end.

(** 24-45 *)
Definition limit_vector_values (blocks : list (list num)) (mask : list bool) (lo hi : Q) : option (list (list num)) :=
  if (Nat.eqb (length mask) 0 || Nat.eqb (length blocks) (length mask))%bool then limit_loop mask lo hi 0 blocks else None.

(** operator_sintering_data.h 142-144 *)
Fixpoint set_grains (offset g n : nat) (mask : list bool) : option (list bool) :=
  match n with
  | O => Some mask
  | S n => m <- vset mask (offset + g) true ;; set_grains offset (S g) n m
  end.

(** 138-147; [n_grains] is [number_of_components - op_components_offset] *)
Definition build_pf_component_mask (offset n_components n_total : nat) : option (list bool) :=
  let n_grains := n_components - offset in
  m <- vset (repeat false n_total) 0 true ;;
  set_grains offset 0 n_grains m.
