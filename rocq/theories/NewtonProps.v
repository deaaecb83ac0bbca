(** C14, C15, C51: the Newton solvers. *)
From Coq Require Import QArith Qround Lqa List Arith Bool Lia.
From Verif Require Import Util NewtonModel NewtonProofs.
Import ListNotations.
Local Open Scope nat_scope.

(** A norm is not negative. *)
Definition is_norm {V} (norm : V -> fl) : Prop := forall v q, norm v = Fin q -> (0 <= q)%Q.

Lemma converged : forall p v c0 q0, c0 = Fin q0 -> (0 <= q0)%Q ->
  (forall q, v = Fin q -> (0 <= q)%Q) ->
  fle v (Fin (abs_tol p)) = true \/ fle (fdiv v c0) (Fin (rel_tol p)) = true ->
  exists q, v = Fin q /\ ((q <= abs_tol p)%Q \/ ((0 < q0)%Q /\ (q <= rel_tol p * q0)%Q)).
Proof.
  intros p v c0 q0 -> H0 HV H. destruct H as [H|H].
  - apply fle_fin in H. destruct H as (q & -> & H). eauto.
  - apply fle_fin in H. destruct H as (r & E & H). destruct v as [q| |]; try discriminate.
    exists q. split; [reflexivity|]. right. simpl in E.
    destruct (Qeq_bool q0 0) eqn:EQ.
    + destruct (Qeq_bool q 0); discriminate.
    + injection E as <-. assert (~ (q0 == 0)%Q) by (intro C; apply Qeq_bool_iff in C; congruence).
      assert (P : (0 < q0)%Q) by (apply Qle_lteq in H0; destruct H0 as [?|C]; [assumption|]; symmetry in C; contradiction).
      split; [assumption|].
      assert (E : (q == q / q0 * q0)%Q) by (field; assumption). rewrite E.
      apply Qmult_le_compat_r; lra.
Qed.

(** Success means: the returned vector has a finite residual that satisfies
    one of the tolerances, and a user supplied check agreed. *)
Theorem C14_success :
  forall V (residual : V -> V) norm add neg linear p fuel hp user hn hl x lg s,
  is_norm norm ->
  damped_newton residual norm add neg linear p fuel hp user hn hl x lg = Returned s ->
  exists q q0, norm (residual (dst s)) = Fin q /\ norm (residual x) = Fin q0 /\
    ((q <= abs_tol p)%Q \/ ((0 < q0)%Q /\ (q <= rel_tol p * q0)%Q)) /\
    (forall f, user = Some f -> f (it s) (Fin q) (dst s) (residual (dst s)) = Success).
Proof.
  intros V residual norm add neg linear p fuel hp user hn hl x lg s HN H. unfold damped_newton in H.
  set (s0 := newton_start residual norm p hn hl x lg) in *. cbv zeta in H.
  destruct (norm_r s0) as [q0| |] eqn:E0;
    try (rewrite bad_start in H by (congruence || (intros; discriminate)); discriminate).
  pose proof (newton_loop_invariant residual norm add neg linear p (consistent residual norm) hp user (Fin q0)) as INV.
  assert (STEP : forall s s', consistent residual norm s ->
     check p user (it s) (norm_r s) (Fin q0) (dst s) (res s) = Iterate ->
     newton_pass residual norm add neg linear p hp s = Running s' -> consistent residual norm s').
  { intros a b _ _ HP. apply newton_pass_running in HP. destruct HP as (_ & [b' tr mid HC _ _ _ _ _ _] & _). exact HC. }
  specialize (INV STEP fuel s0 (start_consistent residual norm p hn hl x lg)). rewrite H in INV.
  destruct INV as ([R1 R2] & HC). apply check_success in HC. destruct HC as [HC HU].
  destruct (converged p (norm_r s) (Fin q0) q0 eq_refl) as (q & Eq & Hq).
  - eapply HN. exact E0.
  - intros q Hq. rewrite R2 in Hq. eapply HN. exact Hq.
  - exact HC.
  - exists q, q0. split; [congruence|]. split; [exact E0|]. split; [exact Hq|].
    intros f Hf. specialize (HU f Hf). rewrite Eq, R1 in HU. exact HU.
Qed.
Print Assumptions C14_success.

(** A residual that is infinite or not a number makes the solver fail at once;
    the opposite direction: an already converged start is returned unchanged,
    without a linear solve. *)
Theorem C14_nan_start :
  forall V (residual : V -> V) norm add neg linear p fuel hp user hn hl x lg,
  norm (residual x) = NaN \/ norm (residual x) = Inf ->
  exists s, damped_newton residual norm add neg linear p fuel hp user hn hl x lg = NoConvergence s /\
    dst s = x /\ it s = 0.
Proof.
  intros V residual norm add neg linear p fuel hp user hn hl x lg H.
  exists (newton_start residual norm p hn hl x lg). split; [|split; reflexivity].
  unfold damped_newton. cbv zeta. apply bad_start; [reflexivity|].
  intros q. cbn [newton_start norm_r]. destruct H as [-> | ->]; discriminate.
Qed.
Print Assumptions C14_nan_start.

Theorem C14_converged_start :
  forall V (residual : V -> V) norm add neg linear p fuel hp hn hl x lg q,
  norm (residual x) = Fin q -> (q <= abs_tol p)%Q ->
  exists s, damped_newton residual norm add neg linear p fuel hp None hn hl x lg = Returned s /\
    dst s = x /\ it s = 0 /\ hist_newton s = (if reuse_preconditioner p then hn else 0).
Proof.
  intros V residual norm add neg linear p fuel hp hn hl x lg q E H.
  exists (newton_start residual norm p hn hl x lg). split; [|repeat split].
  unfold damped_newton. cbv zeta.
  assert (C : check p (V := V) None 0 (norm (residual x)) (norm (residual x)) x (residual x) = Success).
  { unfold check, control_check. rewrite E. simpl fgt at 1. simpl fle at 1.
    assert (qltb (abs_tol p) q = false) as -> by (apply qltb_false; assumption).
    assert (Qle_bool q (abs_tol p) = true) as -> by (apply Qle_bool_iff; assumption). reflexivity. }
  destruct fuel; cbn [newton_loop newton_start it norm_r dst res]; rewrite C; reflexivity.
Qed.
Print Assumptions C14_converged_start.

(** A residual norm of the reference problem x^2 = 4 (scaled), solved by
    Newton with the exact derivative. *)
Definition demo_p := {| max_iter := 10; abs_tol := (1 # 1000000); rel_tol := (1 # 100000);
  do_update := true; threshold_newton_iter := 2; threshold_linear_iter := 20;
  reuse_preconditioner := true; use_damping := true |}.
Definition demo := damped_newton (V := Q) (fun x => Qred (x * x - 4)) (fun r => Fin (if Qle_bool 0 r then r else - r)%Q)
  (fun w x y => Qred (x + w * y)) (fun r => - r)%Q
  (fun lg r => match lg with EPreconditioner v :: _ | EJacobian v :: _ => Some (Qred (r / (2 * v)), 3) | _ => None end)
  demo_p.
Definition demo_result (o : outcome Q) : option (nat * Q) :=
  match o with Returned s => Some (it s, Qred (inject_Z (Qfloor (dst s * 1000000)))) | _ => None end.

Example C14_case : demo_result (demo 10 true None 0 0 3%Q []) = Some (3, inject_Z 2000010) /\
  is_norm (fun r : Q => Fin (if Qle_bool 0 r then r else - r)%Q).
Proof.
  split; [vm_compute; reflexivity|]. intros v q E. injection E as <-.
  destruct (Qle_bool 0 v) eqn:E; [apply Qle_bool_iff; assumption|].
  assert (~ (0 <= v)%Q) by (intro C; apply Qle_bool_iff in C; congruence).
  apply Qnot_le_lt in H. lra.
Qed.

(** The solver stops: at most [max_iter] iterations, each with at most 100
    residual evaluations, for any residual whatsoever, provided the user check
    (if there is one) never asks for another iteration; the one installed by
    the time integrator always answers "success". *)
Theorem C15_budget :
  forall V (residual : V -> V) norm add neg linear p fuel hp user hn hl x,
  (forall f, user = Some f -> forall st v x r, f st v x r <> Iterate) ->
  max_iter p <= fuel ->
  match damped_newton residual norm add neg linear p fuel hp user hn hl x [] with
  | Returned s | NoConvergence s => it s <= max_iter p /\ n_residuals (log s) <= 1 + 100 * it s
  | NoDamping s | LinearThrew s => it s < max_iter p /\ n_residuals (log s) <= 1 + 100 * S (it s)
  | Undefined => threshold_newton_iter p = 0
  | Running _ => False
  end.
Proof.
  intros V residual norm add neg linear p fuel hp user hn hl x HU HF. unfold damped_newton. cbv zeta.
  set (s0 := newton_start residual norm p hn hl x []).
  pose proof (loop_stops residual norm add neg linear p hp user (norm_r s0) HU fuel s0
    ltac:(simpl; lia)) as STOP.
  pose proof (newton_loop_invariant residual norm add neg linear p
    (fun s => it s <= max_iter p /\ n_residuals (log s) <= 1 + 100 * it s) hp user (norm_r s0)) as INV.
  assert (STEP : forall s s', it s <= max_iter p /\ n_residuals (log s) <= 1 + 100 * it s ->
     check p user (it s) (norm_r s) (norm_r s0) (dst s) (res s) = Iterate ->
     newton_pass residual norm add neg linear p hp s = Running s' ->
     it s' <= max_iter p /\ n_residuals (log s') <= 1 + 100 * it s').
  { intros a b [H1 H2] HC HP. apply newton_pass_running in HP. destruct HP as (_ & HP & _).
    pose proof (passed_residuals _ _ _ _ HP). destruct HP as [b tr mid _ HI _ _ _ _ _].
    apply check_iterate in HC; [|intros f ->; apply HU; reflexivity]. lia. }
  specialize (INV STEP fuel s0 ltac:(simpl; lia)).
  destruct (newton_loop residual norm add neg linear p fuel hp user (norm_r s0) s0) as [s|s|s|s| |s] eqn:E.
  - apply INV.
  - destruct INV as (s1 & [H1 H2] & HP & HC).
    destruct (pass_failed_log _ _ _ _ _ _ _ _ _ (or_introl HP)) as (I1 & _ & _ & _ & I2).
    apply check_iterate in HC; [|intros f ->; apply HU; reflexivity]. lia.
  - apply INV.
  - destruct INV as (s1 & [H1 H2] & HP & HC).
    destruct (pass_failed_log _ _ _ _ _ _ _ _ _ (or_intror HP)) as (I1 & _ & _ & _ & I2).
    apply check_iterate in HC; [|intros f ->; apply HU; reflexivity]. lia.
  - exact INV.
  - exact (STOP s eq_refl).
Qed.
Print Assumptions C15_budget.

(** With damping every accepted iterate has a smaller residual norm than the
    one before, whatever the linear solver delivered. *)
Theorem C15_monotone :
  forall V (residual : V -> V) norm add neg linear p fuel hp user hn hl x,
  is_norm norm -> use_damping p = true ->
  match damped_newton residual norm add neg linear p fuel hp user hn hl x [] with
  | Returned s | NoConvergence s | NoDamping s | LinearThrew s | Running s =>
      decreasing (accepted (log s)) /\ length (accepted (log s)) = S (it s) /\
      hd_error (accepted (log s)) = Some (norm (residual (dst s))) /\
      last (accepted (log s)) NaN = norm (residual x)
  | Undefined => threshold_newton_iter p = 0
  end.
Proof.
  intros V residual norm add neg linear p fuel hp user hn hl x HN HD. unfold damped_newton. cbv zeta.
  set (s0 := newton_start residual norm p hn hl x []).
  destruct (norm_r s0) as [q0| |] eqn:E0;
    try (rewrite (bad_start residual norm add neg linear p) by (congruence || (intros; discriminate));
         simpl; auto).
  set (P := fun s : nstate V => consistent residual norm s /\ (exists q, norm_r s = Fin q) /\
    decreasing (accepted (log s)) /\ length (accepted (log s)) = S (it s) /\
    hd_error (accepted (log s)) = Some (norm_r s) /\ last (accepted (log s)) NaN = norm (residual x)).
  pose proof (newton_loop_invariant residual norm add neg linear p P hp user (Fin q0)) as INV.
  assert (STEP : forall s s', P s ->
     check p user (it s) (norm_r s) (Fin q0) (dst s) (res s) = Iterate ->
     newton_pass residual norm add neg linear p hp s = Running s' -> P s').
  { intros a b ([HC1 HC2] & (q & Hq) & H1 & H2 & H3 & H4) _ HP.
    apply newton_pass_running in HP. destruct HP as (_ & HP & HR).
    destruct (HR HD) as (r & Hr & HL).
    assert (LT : (r < q)%Q).
    { apply HL; [exact Hq|]. rewrite HC2 in Hq. eapply HN. exact Hq. }
    pose proof (passed_accepted _ _ _ _ HP) as EA. destruct HP as [b tr mid HC HI _ _ _ _ _].
    unfold P. rewrite EA. destruct (accepted (log a)) as [|h t] eqn:ET; [discriminate|].
    injection H3 as H3. split; [exact HC|]. split; [eauto|]. split.
    - split; [|exact H1]. exists r, q. rewrite H3. auto.
    - split; [simpl in *; lia|]. split; [reflexivity|]. exact H4. }
  assert (P0 : P s0).
  { split; [apply start_consistent|]. split; [eauto|]. simpl. auto. }
  specialize (INV STEP fuel s0 P0).
  assert (FIN : forall s, P s -> decreasing (accepted (log s)) /\ length (accepted (log s)) = S (it s) /\
      hd_error (accepted (log s)) = Some (norm (residual (dst s))) /\
      last (accepted (log s)) NaN = norm (residual x)).
  { intros s ([HC1 HC2] & _ & H1 & H2 & H3 & H4). rewrite <- HC2. auto. }
  destruct (newton_loop residual norm add neg linear p fuel hp user (Fin q0) s0) as [s|s|s|s| |s].
  - apply FIN, INV.
  - destruct INV as (s1 & H1 & HP & _).
    destruct (pass_failed_log _ _ _ _ _ _ _ _ _ (or_introl HP)) as (I1 & I2 & _ & I3 & _).
    rewrite I1, I2, I3. apply FIN, H1.
  - apply FIN, INV.
  - destruct INV as (s1 & H1 & HP & _).
    destruct (pass_failed_log _ _ _ _ _ _ _ _ _ (or_intror HP)) as (I1 & I2 & _ & I3 & _).
    rewrite I1, I2, I3. apply FIN, H1.
  - exact INV.
  - apply FIN, INV.
Qed.
Print Assumptions C15_monotone.

Example C15_case :
  match demo 10 true None 0 0 3%Q [] with
  | Returned s => n_residuals (log s) = 4 /\ length (accepted (log s)) = 4
  | _ => False
  end.
Proof. vm_compute. auto. Qed.

(** A user check that keeps asking for another iteration overrides the limit:
    the solver then never stops, although it converged at once. *)
Theorem C15_user_check_refuted :
  exists (p : params) (user : option (nat -> fl -> unit -> unit -> state)), max_iter p = 3 /\
  forall fuel, exists s,
    damped_newton (fun u => u) (fun _ => Fin 0) (fun _ x _ => x) (fun u => u)
      (fun _ _ => Some (tt, 1)) p fuel true user 0 0 tt [] = Running s /\ it s = fuel.
Proof.
  exists {| max_iter := 3; abs_tol := 1; rel_tol := 1; do_update := true; threshold_newton_iter := 10;
     threshold_linear_iter := 20; reuse_preconditioner := true; use_damping := false |},
    (Some (fun _ _ _ _ => Iterate)).
  split; [reflexivity|]. unfold damped_newton. cbv zeta. cbn [newton_start norm_r].
  set (p := {| max_iter := 3; abs_tol := 1; rel_tol := 1; do_update := true; threshold_newton_iter := 10;
     threshold_linear_iter := 20; reuse_preconditioner := true; use_damping := false |}).
  assert (G : forall fuel (s : nstate unit), norm_r s = Fin 0 ->
     exists s', newton_loop (fun u => u) (fun _ => Fin 0) (fun _ x _ => x) (fun u => u)
      (fun _ _ => Some (tt, 1)) p fuel true (Some (fun _ _ _ _ => Iterate)) (Fin 0) s = Running s' /\
      it s' = fuel + it s).
  { induction fuel as [|fuel IH]; intros s E; cbn [newton_loop].
    - unfold check, control_check. rewrite E. cbn. exists s. auto.
    - unfold check, control_check. rewrite E. cbn [abs_tol rel_tol p].
      change (fgt (Fin 0) (Fin 1)) with false. change (fle (Fin 0) (Fin 1)) with true. cbn [andb orb].
      unfold newton_pass. cbn [threshold_newton_iter p Nat.eqb use_damping].
      edestruct IH as (s' & E1 & E2); [|rewrite E1; exists s'; split; [reflexivity|]; rewrite E2; simpl; lia].
      reflexivity. }
  intro fuel. destruct (G fuel (newton_start (fun u : unit => u) (fun _ => Fin 0) p 0 0 tt []) eq_refl)
    as (s & E1 & E2).
  exists s. split; [exact E1|]. rewrite E2. simpl. lia.
Qed.
Print Assumptions C15_user_check_refuted.

(** ** The solver of newton.h *)
Theorem C14_simple_newton_success :
  forall V (residual : V -> V) norm add neg linear p fuel up ev x s, is_norm norm ->
  old_newton residual norm add neg linear p fuel up ev x = Returned s ->
  exists q q0, norm (residual (dst s)) = Fin q /\ norm (residual x) = Fin q0 /\
    ((q <= abs_tol p)%Q \/ ((0 < q0)%Q /\ (q <= rel_tol p * q0)%Q)).
Proof.
  intros V residual norm add neg linear p fuel up ev x s HN H. unfold old_newton in H.
  match type of H with context [old_loop _ _ _ _ _ _ _ _ _ _ ?st] => set (s0 := st) in * end.
  cbv zeta in H.
  destruct (norm_r s0) as [q0| |] eqn:E0;
    try (destruct fuel; cbn [old_loop] in H; rewrite E0 in H; discriminate).
  pose proof (old_loop_invariant residual norm add neg linear p (consistent residual norm) up ev (Fin q0)) as INV.
  assert (STEP : forall s s', consistent residual norm s -> old_continue p (Fin q0) s = true ->
     old_pass residual norm add neg linear up ev s = Running s' -> consistent residual norm s').
  { intros a b _ _ HP. apply old_pass_running in HP. destruct HP as ([b' tr mid HC _ _ _ _ _ _] & _). exact HC. }
  specialize (INV STEP fuel s0 ltac:(split; reflexivity)). rewrite H in INV.
  destruct INV as ([R1 R2] & HC).
  destruct (converged p (norm_r s) (Fin q0) q0 eq_refl) as (q & Eq & Hq).
  - eapply HN. exact E0.
  - intros q Hq. rewrite R2 in Hq. eapply HN. exact Hq.
  - exact HC.
  - exists q, q0. split; [congruence|]. split; [exact E0|exact Hq].
Qed.
Print Assumptions C14_simple_newton_success.

Theorem C15_simple_newton :
  forall V (residual : V -> V) norm add neg linear p fuel up ev x, is_norm norm ->
  max_iter p <= fuel ->
  match old_newton residual norm add neg linear p fuel up ev x with
  | Returned s | NoConvergence s =>
      it s <= max_iter p /\ n_residuals (log s) <= 1 + 100 * it s /\
      decreasing (accepted (log s)) /\ length (accepted (log s)) = S (it s)
  | Running _ => False
  | _ => True
  end.
Proof.
  intros V residual norm add neg linear p fuel up ev x HN HF. unfold old_newton.
  match goal with |- context [old_loop _ _ _ _ _ _ _ _ _ _ ?st] => set (s0 := st) in * end.
  cbv zeta.
  destruct (norm_r s0) as [q0| |] eqn:E0;
    try (destruct fuel; cbn [old_loop]; rewrite E0; simpl; lia).
  set (P := fun s : nstate V => consistent residual norm s /\ (exists q, norm_r s = Fin q) /\
    it s <= max_iter p /\ n_residuals (log s) <= 1 + 100 * it s /\
    decreasing (accepted (log s)) /\ length (accepted (log s)) = S (it s) /\
    hd_error (accepted (log s)) = Some (norm_r s)).
  assert (STEP : forall s s', P s -> old_continue p (Fin q0) s = true ->
     old_pass residual norm add neg linear up ev s = Running s' -> P s').
  { intros a b ([HC1 HC2] & (q & Hq) & B1 & B2 & H1 & H2 & H3) HC HP.
    apply old_pass_running in HP. destruct HP as (HP & r & Hr & HL).
    assert (LT : (r < q)%Q).
    { apply HL; [exact Hq|]. rewrite HC2 in Hq. eapply HN. exact Hq. }
    pose proof (passed_accepted _ _ _ _ HP) as EA. pose proof (passed_residuals _ _ _ _ HP) as ER.
    destruct HP as [b tr mid HCb HI _ _ _ _ _].
    unfold old_continue in HC. apply andb_true_iff in HC. destruct HC as [_ HC]. apply Nat.ltb_lt in HC.
    unfold P. rewrite EA. destruct (accepted (log a)) as [|h t] eqn:ET; [discriminate|].
    injection H3 as H3. split; [exact HCb|]. split; [eauto|]. split; [lia|]. split; [lia|]. split.
    - split; [|exact H1]. exists r, q. rewrite H3. auto.
    - split; [simpl in *; lia|]. reflexivity. }
  assert (P0 : P s0).
  { split; [split; reflexivity|]. split; [eauto|]. simpl. repeat split; lia. }
  pose proof (old_loop_invariant residual norm add neg linear p P up ev (Fin q0) STEP fuel s0 P0) as INV.
  assert (STOP : forall fuel s, max_iter p <= it s + fuel -> forall s',
     old_loop residual norm add neg linear p fuel up ev (Fin q0) s <> Running s').
  { clear. intro fuel. induction fuel as [|fuel IH]; intros s H s' C; cbn [old_loop] in C;
      fold (old_continue p (Fin q0) s) in C; destruct (old_continue p (Fin q0) s) eqn:E;
      try (destruct (_ || _) in C; discriminate).
    - unfold old_continue in E. apply andb_true_iff in E. destruct E as [_ E]. apply Nat.ltb_lt in E. lia.
    - destruct (old_pass residual norm add neg linear up ev s) as [s1|s1|s1|s1| |s1] eqn:EP; try discriminate.
      apply old_pass_running in EP. destruct EP as (HP0 & _). destruct HP0 as [s1 tr mid _ HI _ _ _ _ _].
      apply (IH s1 ltac:(lia) s' C). }
  specialize (STOP fuel s0 ltac:(simpl; lia)).
  destruct (old_loop residual norm add neg linear p fuel up ev (Fin q0) s0) as [s|s|s|s| |s]; try exact I.
  - destruct INV as ((_ & _ & H) & _). tauto.
  - destruct INV as (_ & _ & H). tauto.
  - exact (STOP s eq_refl).
Qed.
Print Assumptions C15_simple_newton.

(** ** C51: age of the preconditioner over a whole simulation *)

(** Sequences of solves with the same solver object; between them [clear] may
    be called and the vectors are arbitrary.  A solve may end in any way. *)
Inductive session {V} (p : params) : nat -> nat -> list (event V) -> Prop :=
| session_new : session p 0 0 []
| session_clear : forall hn hl lg, session p hn hl lg -> session p 0 0 lg
| session_solve : forall hn hl lg residual norm add neg linear fuel user x s,
    session p hn hl lg ->
    (let o := damped_newton residual norm add neg linear p fuel true user hn hl x lg in
     o = Returned s \/ o = NoDamping s \/ o = NoConvergence s \/ o = LinearThrew s) ->
    session p (hist_newton s) (hist_linear s) (log s).

(** Every linear solve uses a preconditioner that was set up less than
    [threshold_newton_iter] completed iterations earlier. *)
Theorem C51_preconditioner_age : forall V p hn hl (lg : list (event V)) after before,
  do_update p = true -> session p hn hl lg ->
  lg = after ++ ELinear :: before ->
  exists k, age before = Some k /\ k < threshold_newton_iter p.
Proof.
  intros V p hn hl lg after before HU HS E.
  assert (INV : age_inv p hn lg).
  { clear after before E. induction HS as [|hn hl lg HS IH|hn hl lg residual norm add neg linear fuel user x s HS IH HO].
    - split; [|lia]. intros a b E. destruct a; discriminate.
    - split; [apply IH|lia].
    - pose proof (loop_age residual norm add neg linear p user
        (norm_r (newton_start residual norm p hn hl x lg)) HU fuel (newton_start residual norm p hn hl x lg)) as L.
      assert (H0 : age_inv p (hist_newton (newton_start residual norm p hn hl x lg))
                     (log (newton_start residual norm p hn hl x lg))).
      { destruct IH as [F A]. split.
        - simpl. repeat apply fresh_cons; try discriminate. exact F.
        - simpl. destruct (reuse_preconditioner p); [exact A|lia]. }
      specialize (L H0). unfold damped_newton in HO. cbv zeta in HO.
      destruct HO as [HO|[HO|[HO|HO]]]; rewrite HO in L; exact L. }
  apply (proj1 INV after before E).
Qed.
Print Assumptions C51_preconditioner_age.

(** The demonstration solve: threshold 2, three iterations, preconditioner set
    up in the first and the third. *)
Example C51_case :
  match demo 10 true None 0 0 3%Q [] with
  | Returned s =>
      session demo_p (hist_newton s) (hist_linear s) (log s) /\
      length (filter (fun e => match e with EPreconditioner _ => true | _ => false end) (log s)) = 2 /\
      length (filter (fun e => match e with ELinear => true | _ => false end) (log s)) = 3
  | _ => False
  end.
Proof.
  destruct (demo 10 true None 0 0 3%Q []) as [s|s|s|s| |s] eqn:E; try (vm_compute in E; discriminate).
  split.
  - eapply session_solve; [apply session_new|]. left. exact E.
  - assert (E2 : match demo 10 true None 0 0 3%Q [] with Returned s =>
      length (filter (fun e => match e with EPreconditioner _ => true | _ => false end) (log s)) = 2 /\
      length (filter (fun e => match e with ELinear => true | _ => false end) (log s)) = 3 | _ => False end)
      by (vm_compute; auto).
    rewrite E in E2. exact E2.
Qed.
