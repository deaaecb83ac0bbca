(** Model of the free energy, include/pf-applications/numerics/power_helper.h 31-126,
    applications/sintering/include/pf-applications/sintering/free_energy.h 29-253 and
    applications/sintering/src/tools.cc 18-44.

    [double] and one lane of a vectorized array are real numbers.  [None]: access out
    of range or use of the sum of the third powers in an evaluator without it. *)
From Coq Require Import List Reals Arith.
From Verif Require Import Util.
Import ListNotations.
Local Open Scope R_scope.

(** deal.II [Utilities::fixed_power<p>], for non-negative [p]; the first argument bounds
    the depth *)
Fixpoint fixed_power_rec (fuel p : nat) (x : R) : R :=
  match fuel with
  | O => 1
  | S fuel =>
      match p with
      | O => 1
      | _ => if Nat.eqb (p mod 2) 1 then x * fixed_power_rec fuel (p / 2) (x * x) else fixed_power_rec fuel (p / 2) (x * x)
      end
  end.
Definition fixed_power (p : nat) (x : R) : R := fixed_power_rec p p x.

(** power_helper.h 36-79: the general class, [n] entries of a pointer *)
Fixpoint power_loop (p : nat) (etas : list R) (n i : nat) (acc : R) : option R :=
  match n with
  | O => Some acc
  | S n => e <- vget etas i ;; power_loop p etas n (S i) (acc + fixed_power p e)
  end.

(** 48-79: array, tensor, vector *)
Definition power_accumulate (p : nat) (etas : list R) : R := fold_left (fun a b => a + fixed_power p b) etas 0.

(** 82-126: the class for two entries and powers two and three *)
Definition power_sum (n p : nat) (etas : list R) : option R :=
  match n, p with
  | 2%nat, 2%nat => a <- vget etas 0 ;; b <- vget etas 1 ;; Some (a * a + b * b)
  | 2%nat, 3%nat => a <- vget etas 0 ;; b <- vget etas 1 ;; Some (a * a * a + b * b * b)
  | _, _ => power_loop p etas n 0 0
  end.

(** free_energy.h 170-176 *)
Record evaluation := mkEval { e_A : R; e_B : R; e_c : R; e_s2 : R; e_s3 : option R }.

(** 41-55: number of grains at compile time, [state] is a pointer *)
Definition eval_static (with_power_3 : bool) (A B : R) (state : list R) (n_grains : nat) : option evaluation :=
  c <- vget state 0 ;;
  let etas := skipn 2 state in
  s2 <- power_sum n_grains 2 etas ;;
  if with_power_3 then s3 <- power_sum n_grains 3 etas ;; Some (mkEval A B c s2 (Some s3)) else Some (mkEval A B c s2 None).

(** 84-86 *)
Fixpoint copy_etas (state : list R) (n i : nat) : option (list R) :=
  match n with
  | O => Some []
  | S n => e <- vget state (2 + i) ;; r <- copy_etas state n (S i) ;; Some (e :: r)
  end.

(** 75-91: number of grains at run time *)
Definition eval_dynamic (with_power_3 : bool) (A B : R) (state : list R) (n_grains : nat) : option evaluation :=
  c <- vget state 0 ;;
  etas <- copy_etas state n_grains 0 ;;
  Some (mkEval A B c (power_accumulate 2 etas) (if with_power_3 then Some (power_accumulate 3 etas) else None)).

(** 111-122 *)
Definition f (e : evaluation) : option R :=
  s3 <- e_s3 e ;;
  let c := e_c e in let s2 := e_s2 e in
  Some (e_A e * (c * c) * ((- c + 1) * (- c + 1)) + e_B e * ((c * c) + (-6 * c + 6) * s2 - (-4 * c + 8) * s3 + 3 * (s2 * s2))).

(** 124-134 *)
Definition df_dc (e : evaluation) : option R :=
  s3 <- e_s3 e ;;
  let c := e_c e in
  Some (e_A e * (c * c) * (2 * c - 2) + 2 * e_A e * c * ((- c + 1) * (- c + 1)) + e_B e * (2 * c - 6 * e_s2 e + 4 * s3)).

(** 136-141 *)
Definition df_detai (e : evaluation) (etai : R) : R :=
  etai * (e_B e * 12) * (etai * (1 * e_c e - 2) + (- e_c e + 1) + e_s2 e).

(** 143-148 *)
Definition d2f_dc2 (e : evaluation) : R :=
  let c := e_c e in
  2 * e_A e * (c * c) + 4 * e_A e * c * (2 * c - 2) + 2 * e_A e * ((- c + 1) * (- c + 1)) + 2 * e_B e.

(** 150-154 *)
Definition d2f_dcdetai (e : evaluation) (etai : R) : R := (e_B e * 12) * etai * (etai - 1).

(** 156-161 *)
Definition d2f_detai2 (e : evaluation) (etai : R) : R :=
  e_B e * (12 - 12 * e_c e + 2 * etai * (12 * e_c e - 24) + 24 * (etai * etai) + 12 * e_s2 e).

(** 163-168 *)
Definition d2f_detaidetaj (e : evaluation) (etai etaj : R) : R := 24 * e_B e * etai * etaj.

(** 246-247 *)
Fixpoint dot_loop (etas value : list R) (n i : nat) (acc : R) : option R :=
  match n with
  | O => Some acc
  | S n => e <- vget etas i ;; v <- vget value i ;; dot_loop etas value n (S i) (acc + e * v)
  end.

(** 249-251 *)
Fixpoint add_loop (coef : R) (etas value : list R) (temp : R) (n i : nat) (result : list R) : option (list R) :=
  match n with
  | O => Some result
  | S n =>
      e <- vget etas i ;; v <- vget value i ;; r <- vget result i ;;
      result <- vset result i (r + coef * e * (temp - e * v)) ;;
      add_loop coef etas value temp n (S i) result
  end.

(** 233-252 *)
Definition apply_d2f_detaidetaj (L B : R) (etas : list R) (n_grains : nat) (value result : list R) : option (list R) :=
  if Nat.leb n_grains 1 then Some result
  else
    e <- vget etas 0 ;; v <- vget value 0 ;;
    temp <- dot_loop etas value (n_grains - 1) 1 (e * v) ;;
    add_loop (L * 24 * B) etas value temp n_grains 0 result.

(** tools.cc 18-44; the divisors [energy_scale], [interface_width] are not checked *)
Record energy_coefficients := mkCoeffs { q_A : R; q_B : R; q_kappa_c : R; q_kappa_p : R }.
Definition compute_energy_params (surface_energy gb_energy interface_width length_scale energy_scale : R) : energy_coefficients :=
  let gb := gb_energy / energy_scale * length_scale * length_scale in
  let surface := surface_energy / energy_scale * length_scale * length_scale in
  mkCoeffs ((12 * surface - 7 * gb) / interface_width) (gb / interface_width)
    (3 / 4 * (2 * surface - gb) * interface_width) (3 / 4 * gb * interface_width).
