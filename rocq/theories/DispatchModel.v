(** Model of the choices made at compile time:
    applications/sintering/include/pf-applications/sintering/instantiation.h 27-151 (numbers of
    components and grains), include/pf-applications/base/mask.h 20-111 (bit masks), and of the
    data an evaluation of the free energy has for a mask:
    applications/sintering/include/pf-applications/sintering/free_energy.h 33-184,
    operator_grain_growth.h 46-191.
    A template parameter is a number; the code that runs for it is an oracle. *)
From Coq Require Import List NArith ZArith Arith Bool.
From Verif Require Import Util MeshFlagsModel.
Import ListNotations.

(** instantiation.h 88-92: a switch over the cases [lo .. hi]; the body of case [n] is given by
    [body n]; [None]: the exception of the default case *)
Fixpoint switch {A} (cases : list N) (body : N -> A) (n : N) : option A :=
  match cases with [] => None | c :: cases => if N.eqb c n then Some (body c) else switch cases body n end.
(** BOOST_PP_REPEAT_FROM_TO(lo, hi + 1, ...) *)
Definition from_to (lo hi : N) : list N := map N.of_nat (seq (N.to_nat lo) (N.to_nat hi + 1 - N.to_nat lo)).
(** 88-89: EXPAND_CONST: number of components and number of grains handed to the operation *)
Definition expand_const (max_grains : N) (to_components : N -> N) (n : N) : N * option N := (to_components (N.min max_grains n), Some (N.min max_grains n)).
(** 91-92: EXPAND_NONCONST: there is no number of grains (-1) *)
Definition expand_nonconst (max_components : N) (n : N) : N * option N := (N.min max_components n, None).
(** 97-142: EXPAND_OPERATIONS; [scalar]: can_decay_to_scalar_v<T>; [grains]: number of grains and
    relation to the number of components if the class has them; [n_components] of the object *)
Definition expand_operations (MAX : N) (scalar : bool) (grains : option (N * (N -> N))) (n_components : N) : option (N * option N) :=
  let lo := if scalar then 2%N else 1%N in
  match grains with
  | Some (n_grains, to_components) => switch (from_to lo MAX) (expand_const MAX to_components) n_grains
  | None => switch (from_to lo (MAX + 2)) (expand_nonconst (MAX + 2)) n_components
  end.
(** 144-151: EXPAND_OPERATIONS_N_COMP_NT *)
Definition expand_n_comp_nt (MAX n_comp_nt : N) : option (N * option N) := switch (from_to 2 (MAX + 2)) (expand_nonconst (MAX + 2)) n_comp_nt.

(** The classes with grains; [n] is n_components() of the data they work on.
    operator_sintering_generic.h 622-632, operator_grand_potential_greenquist.h 792-802: the grains
    follow the two fields of the composition *)
Definition sintering_operator (MAX n : N) := expand_operations MAX false (Some (u32_sub n 2, fun g => (g + 2)%N)) n.
(** operator_grain_growth.h 492-515 *)
Definition grain_growth_operator (MAX n : N) := expand_operations MAX true (Some (n, fun g => g)) n.
(** preconditioners.h 73-83, 217-227, 330-340: blocks of the preconditioner for the composition, the
    displacements and the grains; operator_sintering_data.h 126-130: number of grains *)
Definition cahn_hilliard_block (MAX n : N) := expand_operations MAX false (Some (u32_sub n 2, fun _ => 2%N)) 2.
Definition solid_block (MAX dim n : N) := expand_operations MAX false (Some (u32_sub n 2, fun _ => dim)) dim.
Definition allen_cahn_block (MAX n : N) := expand_operations MAX false (Some (u32_sub n 2, fun g => g)) (u32_sub n 2).

(** mask.h 22-38: Mask<N, M...>; numbers are ints of 32 bits and [None] stands for a shift by a
    negative number or out of range.  Mask<0> is the empty mask. *)
Definition to_int (z : Z) : Z := ((z + 2 ^ 31) mod 2 ^ 32 - 2 ^ 31)%Z.
Definition shift (n : Z) : option Z := if Z.leb 1 n && Z.leb n 32 then Some (to_int (2 ^ (n - 1))) else None.
Fixpoint mask (bits : list Z) : option Z :=
  match bits with
  | [] => None
  | [0%Z] => Some 0%Z
  | [n] => shift n
  | n :: bits => obind (shift n) (fun a => obind (mask bits) (fun b => Some (Z.lor a b)))
  end.
(** 40-49: is_bit_set *)
Definition is_bit_set (m : Z) (bit : Z) : option bool := obind (shift bit) (fun s => Some (Z.ltb 0 (Z.land m s))).
(** 51-67, 96-111: any_bit_of, any_energy_eval_of *)
Fixpoint any_bit_of (m : Z) (bits : list Z) : option bool :=
  match bits with
  | [] => None
  | [b] => is_bit_set m b
  | b :: bits => obind (is_bit_set m b) (fun s => if s then Some true else any_bit_of m bits)
  end.
(** 77-90: EnergyEvaluation *)
Definition zero : Z := 1. Definition first : Z := 2. Definition second : Z := 3.

(** free_energy.h 33-184: the functions of an evaluation; the sum of cubes is only computed for masks
    with zero or first.  [None] is reading it without (the check in 121-123 and 134-136 is
    an assertion of the debug build).  The numbers are given by an oracle of the sums. *)
Inductive energy_function := F | DfDc | DfDeta | D2fDc2 | D2fDcDeta | D2fDeta2 | D2fDetaDeta.
Definition order (f : energy_function) : Z := match f with F => zero | DfDc | DfDeta => first | _ => second end.
Definition eval {A} (m : Z) (power2 power3 : A) (fn : A -> option A -> option A) : option A :=
  obind (any_bit_of m [zero; first]) (fun with_power_3 => fn power2 (if with_power_3 then Some power3 else None)).
(** which of the functions use the sum of cubes: 118-131 and 133-143 *)
Definition energy {A} (value : energy_function -> A -> A -> A) (value2 : energy_function -> A -> A) (f : energy_function) (p2 : A) (p3 : option A) : option A :=
  match f with F | DfDc => obind p3 (fun p3 => Some (value f p2 p3)) | _ => Some (value2 f p2) end.
