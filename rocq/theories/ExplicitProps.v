(** Property C45: explicit schemes. *)
From Coq Require Import List Reals Arith Bool Lia Lra FunctionalExtensionality.
From Verif Require Import ExplicitModel.
Import ListNotations.
Local Open Scope R_scope.

Ltac vext := apply functional_extensionality; intro; apply functional_extensionality; intro.

(** Forward Euler: time dependent blocks move by minus the step times the residual at the
    old time and state, stationary blocks are minus the residual at the new time. *)
Theorem C45_forward_euler : forall f minv time_pde n dt t u,
  let r := make_step f minv time_pde n forward_euler dt t u in
  snd r = t + dt
  /\ (forall b i, (b < n)%nat -> time_pde b = true -> fst r b i = u b i - dt * minv b (f t u b) i)
  /\ (forall b i, (b < n)%nat -> time_pde b = false -> exists u',
       (forall b i, (b < n)%nat -> time_pde b = true -> u' b i = fst r b i)
       /\ fst r b i = - minv b (f (t + dt) u' b) i).
Proof.
  intros f minv time_pde n dt t u. unfold make_step. cbn [length Nat.leb forward_euler fold_left do_stage fst snd].
  unfold forward_euler. cbn [fold_left do_stage current increment now_time fst snd].
  split; [ring |].
  set (u' := fun b => badd _ _).
  assert (P : forall b i, (b < n)%nat -> time_pde b = true -> u' b i = u b i - dt * minv b (f t u b) i).
  { intros b i Hb Ht. unfold u', do_stage, badd, bscale. cbn [current increment work now_time fst snd]. apply Nat.ltb_lt in Hb. rewrite !Hb, !Ht. destruct (Req_EM_T 0 0) as [_ | N]; [ring | lra]. }
  assert (T : t + 0 * dt + dt = t + dt) by ring. rewrite T.
  assert (K : forall b i, (b < n)%nat -> time_pde b = true -> update_algebraic f minv time_pde n (t + dt) u' b i = u' b i).
  { intros b i Hb Ht. unfold update_algebraic. destruct (has_stationary time_pde n); [| reflexivity]. rewrite Ht, andb_false_r. reflexivity. }
  split.
  - intros b i Hb Ht. rewrite K by assumption. apply P; assumption.
  - intros b i Hb Ht. exists u'. split; [intros; symmetry; apply K; assumption |].
    unfold update_algebraic. assert (S : has_stationary time_pde n = true).
    { unfold has_stationary. apply existsb_exists. exists b. split; [apply in_seq; lia | rewrite Ht; reflexivity]. }
    rewrite S, Ht. apply Nat.ltb_lt in Hb. rewrite Hb. cbn [negb andb]. unfold bscale. ring.
Qed.
Print Assumptions C45_forward_euler.

(** Without stationary equations the four stage scheme is the classical Runge-Kutta scheme for
    du/dt = - M^-1 f: stages at t, t + dt/2, t + dt/2, t + dt. *)
Theorem C45_runge_kutta_4 : forall f minv time_pde n dt t u, (forall b, (b < n)%nat -> time_pde b = true) ->
  let g := fun s v b i => if Nat.ltb b n then - minv b (f s v b) i else 0 in
  let k1 := g t u in
  let k2 := g (t + dt / 2) (fun b i => u b i + dt / 2 * k1 b i) in
  let k3 := g (t + dt / 2) (fun b i => u b i + dt / 2 * k2 b i) in
  let k4 := g (t + dt) (fun b i => u b i + dt * k3 b i) in
  make_step f minv time_pde n runge_kutta_4 dt t u
  = ((fun b i => u b i + dt / 6 * (k1 b i + 2 * k2 b i + 2 * k3 b i + k4 b i)), t + dt).
Proof.
  intros f minv time_pde n dt t u Hall g k1 k2 k3 k4. unfold make_step.
  assert (S : has_stationary time_pde n = false).
  { unfold has_stationary. apply not_true_iff_false. intros E. apply existsb_exists in E. destruct E as [b [I N]].
    apply in_seq in I. rewrite Hall in N by lia. discriminate. }
  unfold update_algebraic. rewrite S.
  assert (Stage : forall s a w, w <> 0 -> a <> 0 -> current s = u ->
    do_stage f minv time_pde n false dt t s (a, w)
    = mkStage u (fun b i => if Nat.ltb b n then u b i + dt * w * g (now_time s) (work s) b i else work s b i)
        (fun b i => increment s b i + a * dt * g (now_time s) (work s) b i) (t + w * dt)).
  { intros s a w Hw Ha Hc. unfold do_stage. cbn [fst snd]. rewrite Hc. f_equal; vext; unfold g, badd, bscale;
      destruct (Nat.ltb_spec x n) as [L | L]; try rewrite (Hall x L); try (destruct (Req_EM_T w 0); [contradiction |]); try (field; exact Ha); ring. }
  assert (Last : forall s a, current s = u ->
    do_stage f minv time_pde n false dt t s (a, 0)
    = mkStage u (work s) (fun b i => increment s b i + a * dt * g (now_time s) (work s) b i) (t + 0 * dt)).
  { intros s a Hc. unfold do_stage. cbn [fst snd]. rewrite Hc. f_equal; vext; unfold g, badd, bscale;
      destruct (Nat.ltb_spec x n) as [L | L]; try rewrite (Hall x L); try (destruct (Req_EM_T 0 0); [| lra]); try reflexivity; ring. }
  unfold runge_kutta_4. cbn [length Nat.leb fold_left].
  rewrite (Stage _ (1 / 6) (1 / 2)) by (lra || reflexivity). cbn [now_time work increment current].
  rewrite (Stage _ (1 / 3) (1 / 2)) by (lra || reflexivity). cbn [now_time work increment current].
  rewrite (Stage _ (1 / 3) 1) by (lra || reflexivity). cbn [now_time work increment current].
  rewrite Last by reflexivity. cbn [now_time work increment current].
  (* the states of the stages *)
  assert (W1 : (fun b i => if Nat.ltb b n then u b i + dt * (1 / 2) * g t u b i else u b i) = (fun b i => u b i + dt / 2 * k1 b i)).
  { vext. unfold k1, g. destruct (Nat.ltb x n); field. }
  rewrite W1. replace (t + 1 / 2 * dt) with (t + dt / 2) by field.
  fold k2.
  assert (W2 : (fun b i => if Nat.ltb b n then u b i + dt * (1 / 2) * k2 b i else if Nat.ltb b n then u b i + dt * (1 / 2) * g t u b i else u b i)
             = (fun b i => u b i + dt / 2 * k2 b i)).
  { vext. destruct (Nat.ltb x n) eqn:E; [field |]. unfold k2, g. rewrite E. ring. }
  rewrite W2. fold k3.
  assert (W3 : (fun b i => if Nat.ltb b n then u b i + dt * 1 * k3 b i else if Nat.ltb b n then u b i + dt * (1 / 2) * k2 b i else if Nat.ltb b n then u b i + dt * (1 / 2) * g t u b i else u b i)
             = (fun b i => u b i + dt * k3 b i)).
  { vext. destruct (Nat.ltb x n) eqn:E; [field |]. unfold k3, g. rewrite E. ring. }
  rewrite W3. replace (t + 1 * dt) with (t + dt) by ring. fold k4.
  f_equal; [| ring]. vext. unfold badd. cbn [now_time work increment current].
  fold k1. fold k2. fold k3. fold k4. field.
Qed.
Print Assumptions C45_runge_kutta_4.

(** hence right-hand sides that are cubic polynomials of the time are integrated exactly *)
Theorem C45_cubic_exact : forall n dt t u (a0 a1 a2 a3 : nat -> nat -> R) b i, (b < n)%nat ->
  fst (make_step (fun s _ b i => - (a0 b i + a1 b i * s + a2 b i * s ^ 2 + a3 b i * s ^ 3)) (fun _ v => v) (fun _ => true) n runge_kutta_4 dt t u) b i
  = u b i + ((a0 b i * (t + dt) + a1 b i * (t + dt) ^ 2 / 2 + a2 b i * (t + dt) ^ 3 / 3 + a3 b i * (t + dt) ^ 4 / 4)
             - (a0 b i * t + a1 b i * t ^ 2 / 2 + a2 b i * t ^ 3 / 3 + a3 b i * t ^ 4 / 4)).
Proof.
  intros n dt t u a0 a1 a2 a3 b i Hb. rewrite C45_runge_kutta_4 by reflexivity. cbn [fst].
  apply Nat.ltb_lt in Hb. rewrite Hb. field.
Qed.
Print Assumptions C45_cubic_exact.

(** and forward Euler integrates constant ones exactly *)
Theorem C45_constant_exact : forall n dt t u (a : nat -> nat -> R) b i, (b < n)%nat ->
  fst (make_step (fun _ _ b i => - a b i) (fun _ v => v) (fun _ => true) n forward_euler dt t u) b i = u b i + dt * a b i.
Proof.
  intros n dt t u a b i Hb. destruct (C45_forward_euler (fun _ _ b i => - a b i) (fun _ v => v) (fun _ => true) n dt t u) as [_ [H _]].
  rewrite H by (assumption || reflexivity). ring.
Qed.
Print Assumptions C45_constant_exact.

(** the linear test equation du/dt = lambda u is advanced with the Taylor polynomials of the
    exponential function of degree one and four *)
Theorem C45_linear_order : forall n dt t u lambda b i, (b < n)%nat ->
  let z := lambda * dt in
  fst (make_step (fun _ v b i => - (lambda * v b i)) (fun _ v => v) (fun _ => true) n forward_euler dt t u) b i = (1 + z) * u b i
  /\ fst (make_step (fun _ v b i => - (lambda * v b i)) (fun _ v => v) (fun _ => true) n runge_kutta_4 dt t u) b i
     = (1 + z + z ^ 2 / 2 + z ^ 3 / 6 + z ^ 4 / 24) * u b i.
Proof.
  intros n dt t u lambda b i Hb z. split.
  - destruct (C45_forward_euler (fun _ v b i => - (lambda * v b i)) (fun _ v => v) (fun _ => true) n dt t u) as [_ [H _]].
    rewrite H by (assumption || reflexivity). unfold z. ring.
  - rewrite C45_runge_kutta_4 by reflexivity. cbn [fst]. apply Nat.ltb_lt in Hb. rewrite Hb. unfold z. field.
Qed.
Print Assumptions C45_linear_order.

(** At the end of every scheme the stationary blocks are minus the residual at the new time. *)
Theorem C45_stationary : forall f minv time_pde n stages dt t u b, (b < n)%nat -> time_pde b = false ->
  exists u', (forall b, (n <= b)%nat \/ time_pde b = true -> u' b = fst (make_step f minv time_pde n stages dt t u) b)
    /\ fst (make_step f minv time_pde n stages dt t u) b = bscale (-1) (minv b (f (snd (make_step f minv time_pde n stages dt t u)) u' b)).
Proof.
  intros f minv time_pde n stages dt t u b Hb Ht. unfold make_step. cbn [fst snd].
  set (s := fold_left _ _ _). exists (fun b => badd (current s b) (increment s b)).
  assert (S : has_stationary time_pde n = true).
  { unfold has_stationary. apply existsb_exists. exists b. split; [apply in_seq; lia | rewrite Ht; reflexivity]. }
  unfold update_algebraic. rewrite S. split.
  - intros b' [L | L].
    + destruct (Nat.ltb_spec b' n); [lia | reflexivity].
    + rewrite L, andb_false_r. reflexivity.
  - rewrite Ht. apply Nat.ltb_lt in Hb. rewrite Hb. reflexivity.
Qed.
Print Assumptions C45_stationary.

(** With a stationary equation the scheme is not the classical one: every stage uses the
    stationary values of the stage before.  For du/dt + m = 0, m - u = 0 (so du/dt = -u,
    started consistently) the step is correct to first order only. *)
Theorem C45_stationary_stages_refuted : forall dt t u0,
  let f := fun (_ : R) (v : vector) (b : nat) (i : nat) => match b with O => v 1%nat i | _ => - v 0%nat i end in
  let r := fst (make_step f (fun _ v => v) (fun b => Nat.eqb b 0) 2 runge_kutta_4 dt t (fun _ _ => u0)) in
  r 0%nat 0%nat = (1 - dt + dt ^ 2 / 4) * u0 /\ r 1%nat 0%nat = r 0%nat 0%nat
  /\ (0 < dt < 1 -> u0 <> 0 -> r 0%nat 0%nat <> (1 - dt + dt ^ 2 / 2 - dt ^ 3 / 6 + dt ^ 4 / 24) * u0).
Proof.
  intros dt t u0 f r.
  assert (E : r 0%nat 0%nat = (1 - dt + dt ^ 2 / 4) * u0 /\ r 1%nat 0%nat = r 0%nat 0%nat).
  { unfold r, make_step, runge_kutta_4. cbn [length Nat.leb fold_left fst snd]. unfold do_stage, f. cbn [fst snd current work increment now_time].
    destruct (Req_EM_T (1 / 2) 0); [lra |]. destruct (Req_EM_T 1 0); [lra |]. destruct (Req_EM_T 0 0); [| lra].
    cbn [Nat.ltb Nat.leb Nat.eqb]. unfold update_algebraic, has_stationary. cbn [seq existsb Nat.eqb negb orb andb Nat.ltb Nat.leb].
    unfold badd, bscale. split; field. }
  split; [exact (proj1 E) |]. split; [exact (proj2 E) |]. rewrite (proj1 E). intros Hdt Hu H.
  apply Rmult_eq_reg_r in H; [| exact Hu].
  assert (X : dt * dt * (1 / 4 - dt / 6 + dt * dt / 24) = 0) by lra.
  assert (0 < dt * dt) by (apply Rmult_lt_0_compat; lra).
  apply Rmult_integral in X. destruct X as [X | X]; lra.
Qed.
Print Assumptions C45_stationary_stages_refuted.

Example C45_case :
  fst (make_step (fun s v b i => - (s * v b i)) (fun _ v => v) (fun _ => true) 1 forward_euler (1 / 2) 2 (fun _ _ => 3)) 0%nat 0%nat = 6
  /\ snd (make_step (fun s v b i => - (s * v b i)) (fun _ v => v) (fun _ => true) 1 runge_kutta_4 (1 / 2) 2 (fun _ _ => 3)) = 5 / 2.
Proof.
  split.
  - destruct (C45_forward_euler (fun s v b i => - (s * v b i)) (fun _ v => v) (fun _ => true) 1 (1 / 2) 2 (fun _ _ => 3)) as [_ [H _]].
    rewrite H by (lia || reflexivity). lra.
  - rewrite C45_runge_kutta_4 by reflexivity. cbn [snd]. lra.
Qed.
