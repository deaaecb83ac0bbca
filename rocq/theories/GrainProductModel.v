(** The product with the mixed second derivatives in the free energies of grain growth and of
    the grand potential: operator_grain_growth.h 242-262 and
    operator_grand_potential_greenquist.h 578-592.  A [VectorizedArray] is one real number. *)
From Coq Require Import List Reals Arith.
From Verif Require Import Util FreeEnergyModel.
Import ListNotations.
Local Open Scope R_scope.

(** operator_grain_growth.h 242-262.  [temp] is declared without a value (254): [junk] is what
    it holds then.  The loops are those of free_energy.h 246-251. *)
Definition gg_apply_d2f (junk L : R) (etas : list R) (n_grains : nat) (value result : list R) : option (list R) :=
  if Nat.leb n_grains 1 then Some result
  else
    temp <- dot_loop etas value (n_grains - 1) 1 junk ;;
    add_loop (L * 4) etas value temp n_grains 0 result.

(** operator_grand_potential_greenquist.h 578-592: nothing is done *)
Definition gp_apply_d2f (L : R) (etas : list R) (n_grains : nat) (value result : list R) : option (list R) := Some result.
