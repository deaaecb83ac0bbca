(** C01, C02: the implicit time derivative formulas. *)
From Coq Require Import List Arith ZArith QArith Lia.
From Verif Require Import Util TimeSchemesModel TimeSchemesSpec TimeSchemesProofs.
Import ListNotations.
Local Open Scope Q_scope.

(** C01. With k accepted positive step sizes, BDF-k differentiates every
    polynomial of degree at most k exactly, for every (variable) step size
    sequence and every time t. *)
Theorem C01_bdf_exact : forall s dts p t,
  positive dts -> length dts = get_order s -> (length p <= S (get_order s))%nat ->
  exists w r,
    compute_weights s dts = Some w /\
    compute_time_derivative 0 (peval p t) w (past_values p t dts) = Some r /\
    r == peval (pderiv p) t.
Proof.
  intros s dts p t HP HL HD. pose proof (get_order_le s).
  destruct (exact_padded s dts p t [] HP) as [w [r [E1 [E2 E3]]]].
  - destruct s; simpl in *; lia.
  - lia.
  - simpl; lia.
  - rewrite HL, Nat.sub_diag in E1. simpl in E1. rewrite !app_nil_r in *. eauto.
Qed.
Print Assumptions C01_bdf_exact.

(** t^3 - 2 t with uneven steps at t = 2: derivative 10. *)
Example C01_case :
  exists w, compute_weights BDF3 [1#2; 1#3; 2] = Some w /\
    option_map Qred (compute_time_derivative 0 (peval [0; -(2); 0; 1] 2) w
       (past_values [0; -(2); 0; 1] 2 [1#2; 1#3; 2])) = Some (10#1).
Proof. eexists; split; vm_compute; reflexivity. Qed.

(** The order is sharp: BDF2 is not exact for t^3. *)
Example C01_sharp :
  exists w, compute_weights BDF2 [1; 1] = Some w /\
    option_map Qred (compute_time_derivative 0 (peval [0;0;0;1] 0) w
       (past_values [0;0;0;1] 0 [1;1])) = Some (-(2)#1).
Proof. eexists; split; vm_compute; reflexivity. Qed.

(** C02. During start-up only m of the k step sizes are known (the others are
    zero): the weights are those of the order m formula, the weights of the
    missing solutions are exactly zero, the weights sum to zero, and the result
    is exact up to degree m whatever the missing old solutions contain. *)
Theorem C02_startup_weights : forall s pos,
  positive pos -> (length pos <= get_order s)%nat ->
  exists w,
    compute_weights s (pos ++ repeat 0 (get_order s - length pos)) = Some w /\
    length w = S (get_order s) /\
    (forall i, (length pos < i <= get_order s)%nat -> nth_error w i = Some 0) /\
    qsum w == 0.
Proof. exact sum_padded. Qed.
Print Assumptions C02_startup_weights.

Theorem C02_startup_is_lower_order : forall s pos s',
  positive pos -> (1 <= length pos <= get_order s)%nat -> get_order s' = length pos ->
  exists w, compute_weights s' pos = Some w /\
    compute_weights s (pos ++ repeat 0 (get_order s - length pos)) =
      Some (w ++ repeat 0 (get_order s - length pos)).
Proof. exact startup_lower. Qed.
Print Assumptions C02_startup_is_lower_order.

Theorem C02_startup_exact : forall s pos p t missing,
  positive pos -> (1 <= length pos <= get_order s)%nat -> (length p <= S (length pos))%nat ->
  length missing = (get_order s - length pos)%nat ->
  exists w r,
    compute_weights s (pos ++ repeat 0 (get_order s - length pos)) = Some w /\
    compute_time_derivative 0 (peval p t) w (past_values p t pos ++ missing) = Some r /\
    r == peval (pderiv p) t.
Proof. exact exact_padded. Qed.
Print Assumptions C02_startup_exact.

Example C02_case :
  option_map (map Qred) (compute_weights BDF3 [1#2; 0; 0]) = Some [2; -(2); 0; 0] /\
  option_map (map Qred) (compute_weights BDF3 [1#2; 1; 0]) =
    option_map (fun w => map Qred w ++ [0]) (compute_weights BDF2 [1#2; 1]).
Proof. split; vm_compute; reflexivity. Qed.

(** What the start-up rule does not cover: zeros anywhere but at the end are
    a division by zero in the code. *)
Theorem C02_zero_step_first_refuted :
  compute_weights BDF2 [0; 1] = None.
Proof. reflexivity. Qed.
Print Assumptions C02_zero_step_first_refuted.
