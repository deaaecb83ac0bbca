(** C03, C04: bookkeeping of step sizes, saving and restoring it. *)
From Coq Require Import List Arith ZArith QArith Lia.
From Verif Require Import Util TimeSchemesModel TimeSchemesSpec TimeDataModel TimeDataSpec
  TimeDataProofs.
Import ListNotations.
Local Open Scope nat_scope.

(** C03. For every scheme (order 1, 2, 3 or explicit) and every sequence of
    accepted steps and retries the stored step sizes are the current one
    followed by the newest accepted ones, padded with zeros. *)
Theorem C03_stored_steps : forall s dt_init ops d,
  run_td s dt_init ops = Some d ->
  td_dt d = newest (Nat.max (match s with Some sc => get_order sc | None => 0 end) 1)
                   (run dt_init ops).
Proof. intros s x ops d H. apply run_td_inv in H. exact (proj1 (proj2 (proj2 H))). Qed.
Print Assumptions C03_stored_steps.

(** ... and nothing undefined happens when the step sizes are positive. *)
Theorem C03_defined : forall s dt_init ops,
  (0 < dt_init)%Q -> positive_ops ops -> exists d, run_td s dt_init ops = Some d.
Proof. exact run_td_defined. Qed.
Print Assumptions C03_defined.

(** C01+C02+C03 together: after any history the stored weights differentiate
    polynomials exactly, where the old solutions are those at the accepted
    times; solutions older than the history do not matter. *)
Theorem C03_stored_weights_exact : forall sc dt_init ops d p t missing,
  (0 < dt_init)%Q -> positive_ops ops -> run_td (Some sc) dt_init ops = Some d ->
  let known := firstn (get_order sc)
                 (current (run dt_init ops) :: accepted (run dt_init ops)) in
  length p <= S (length known) ->
  length missing = get_order sc - length known ->
  exists v, compute_time_derivative 0 (peval p t) (td_weights d)
              (past_values p t known ++ missing) = Some v /\
            (v == peval (pderiv p) t)%Q.
Proof. exact stored_weights_exact. Qed.
Print Assumptions C03_stored_weights_exact.

(** First step 1, accepted; second attempt 2 fails, repeated with 1/2,
    accepted; third attempt 3. *)
Example C03_case :
  option_map td_dt (run_td (Some BDF3) 1%Q
     [Update 2%Q; Replace (1#2)%Q; Update 3%Q]) = Some [3%Q; (1#2)%Q; 1%Q] /\
  option_map td_dt (run_td (Some BDF2) 1%Q [Replace (1#2)%Q]) = Some [(1#2)%Q; 0%Q].
Proof. split; vm_compute; reflexivity. Qed.

(** C04. Implicit schemes: what is loaded has the order and the step sizes that
    were saved. *)
Theorem C04_roundtrip_implicit_partial : forall sc dt_init ops d,
  run_td (Some sc) dt_init ops = Some d ->
  exists d', load td_default (save_td d) = Some d' /\
    td_order d' = td_order d /\ td_dt d' = td_dt d /\ td_scheme d' = None.
Proof. exact load_save_implicit. Qed.
Print Assumptions C04_roundtrip_implicit_partial.

(** The state rebuilt by the restart code with the same scheme is the saved
    one, weights included. *)
Theorem C04_restart_same_scheme_partial : forall sc dt_init ops d,
  (0 < dt_init)%Q -> positive_ops ops -> run_td (Some sc) dt_init ops = Some d ->
  restart_time_data (Some sc) (save_td d) true = Some d.
Proof. exact restart_same. Qed.
Print Assumptions C04_restart_same_scheme_partial.

(** With another implicit scheme as many step sizes as it needs are taken
    over, missing ones are zero, and the weights belong to them. *)
Theorem C04_restart_other_scheme_partial : forall sc dt_init ops d sc',
  (0 < dt_init)%Q -> positive_ops ops -> run_td (Some sc) dt_init ops = Some d ->
  exists d', restart_time_data (Some sc') (save_td d) true = Some d' /\
    td_scheme d' = Some sc' /\ td_order d' = get_order sc' /\
    td_dt d' = firstn (get_order sc') (newest (get_order sc) (run dt_init ops)
                 ++ repeat 0%Q (get_order sc')) /\
    compute_weights sc' (td_dt d') = Some (td_weights d').
Proof. exact restart_full. Qed.
Print Assumptions C04_restart_other_scheme_partial.

(** Without the history the scheme starts anew with the saved step size. *)
Theorem C04_restart_short_partial : forall sc dt_init ops d sc',
  (0 < dt_init)%Q -> positive_ops ops -> run_td (Some sc) dt_init ops = Some d ->
  exists d', restart_time_data (Some sc') (save_td d) false = Some d' /\
    td_ctor_init (Some sc') (current (run dt_init ops)) = Some d'.
Proof. exact restart_short. Qed.
Print Assumptions C04_restart_short_partial.

Example C04_case : exists d,
  run_td (Some BDF2) 1%Q [Update 2%Q; Update 5%Q] = Some d /\
  restart_time_data (Some BDF2) (save_td d) true = Some d /\
  option_map td_dt (restart_time_data (Some BDF3) (save_td d) true) = Some [5%Q; 2%Q; 0%Q] /\
  option_map td_dt (restart_time_data (Some BDF3) (save_td d) false) = Some [5%Q; 0%Q; 0%Q].
Proof. eexists; repeat split; vm_compute; reflexivity. Qed.

(** The full claim is false: for every explicit scheme (no implicit scheme
    object, order 0) the loaded state has no step size at all and both restart
    paths read it out of range. *)
Theorem C04_explicit_refuted : forall dt_init, exists d,
  run_td None dt_init [] = Some d /\ get_current_dt d = Some dt_init /\
  (exists l, load td_default (save_td d) = Some l /\ td_dt l = [] /\ get_current_dt l = None) /\
  (forall s full, restart_time_data s (save_td d) full = None).
Proof.
  intro x. eexists. split; [reflexivity|]. split; [reflexivity|]. split.
  - eexists. split; [reflexivity|]. split; reflexivity.
  - intros s full. destruct full; reflexivity.
Qed.
Print Assumptions C04_explicit_refuted.
