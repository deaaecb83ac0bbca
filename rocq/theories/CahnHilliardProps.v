(** C87: the applications for the equation of Cahn and Hilliard. *)
From Coq Require Import List Reals Arith Bool Lia Lra.
From Verif Require Import Util OperatorModel OperatorProps FreeEnergyProofs MobilityProofs CahnHilliardModel.
From Verif Require KksProps.
Import ListNotations.
Local Open Scope R_scope.

(** ** The energy *)
Definition potential (c : R) : R := (c * (1 - c)) ^ 2.

(** C87_potential: the two functions are the derivatives of the double well, whose curvature is
    nowhere below -1; equal only half way between the phases *)
Theorem C87_potential : forall c,
  derivable_pt_lim potential c (df_dc c) /\ derivable_pt_lim df_dc c (d2f_dc2 c) /\
  -1 <= d2f_dc2 c /\ (d2f_dc2 c = -1 <-> c = 1 / 2) /\
  (df_dc c = 0 <-> c = 0 \/ c = 1 \/ c = 1 / 2).
Proof.
  intro c. assert (I : derivable_pt_lim (fun t => t) c 1) by apply derivable_pt_lim_id.
  split; [|split; [|split; [|split]]].
  - eapply derivable_ext with (g := fun t => (t * (1 - t)) * (t * (1 - t))); [intro t; unfold potential; ring|].
    assert (J : derivable_pt_lim (fun t => t * (1 - t)) c (1 * (1 - c) + c * (0 - 1))).
    { apply (derivable_mult (fun t => t) (fun t => 1 - t)); [exact I|]. apply derivable_minus; [apply derivable_const0|exact I]. }
    eapply derivable_eq; [|apply (derivable_mult (fun t => t * (1 - t)) (fun t => t * (1 - t))); exact J].
    cbv beta. unfold df_dc. field.
  - assert (J1 : derivable_pt_lim (fun t => t - 1) c (1 - 0)) by (apply derivable_minus; [exact I|apply derivable_const0]).
    assert (J2 : derivable_pt_lim (fun t => t - 1 / 2) c (1 - 0)) by (apply derivable_minus; [exact I|apply derivable_const0]).
    assert (J0 : derivable_pt_lim (fun t => 4 * t) c (4 * 1)) by (apply derivable_pt_lim_scal; exact I).
    assert (J3 := derivable_mult _ _ _ _ _ J0 J1). cbv beta in J3.
    assert (J4 := derivable_mult _ _ _ _ _ J3 J2). cbv beta in J4.
    eapply derivable_eq; [|exact J4]. unfold d2f_dc2. field.
  - assert (E : d2f_dc2 c = -1 + 12 * (c - 1 / 2) ^ 2) by (unfold d2f_dc2; field). assert (H := pow2_ge_0 (c - 1 / 2)). lra.
  - assert (E : d2f_dc2 c = -1 + 12 * (c - 1 / 2) ^ 2) by (unfold d2f_dc2; field). split.
    + intro H. assert (Z : (c - 1 / 2) * (c - 1 / 2) = 0) by (cbn [pow] in E; lra).
      apply Rmult_integral in Z. lra.
    + intros ->. rewrite E. ring.
  - unfold df_dc. split.
    + intro H. apply Rmult_integral in H. destruct H as [H|H]; [|right; right; lra].
      apply Rmult_integral in H. destruct H as [H|H]; [left; lra|right; left; lra].
    + intros [-> | [-> | -> ]]; field.
Qed.
Print Assumptions C87_potential.

Lemma potential_below : forall a b, potential a - potential b <= df_dc a * (a - b) + 1 / 2 * ((a - b) * (a - b)).
Proof.
  intros a b.
  assert (E : df_dc a * (a - b) + 1 / 2 * ((a - b) * (a - b)) - (potential a - potential b)
              = (b - a) * (b - a) * ((2 * a - 1 + (b - a)) ^ 2 + 2 * (a - 1 / 2) ^ 2)) by (unfold df_dc, potential; field).
  assert (H1 := pow2_ge_0 (2 * a - 1 + (b - a))). assert (H2 := pow2_ge_0 (a - 1 / 2)).
  assert (H : 0 <= (b - a) * (b - a) * ((2 * a - 1 + (b - a)) ^ 2 + 2 * (a - 1 / 2) ^ 2)) by (apply Rmult_le_pos; [apply Rle_0_sqr|lra]).
  lra.
Qed.

Lemma vsum_le : forall n f g, (forall j, (j < n)%nat -> f j <= g j) -> vsum n f <= vsum n g.
Proof.
  induction n as [|n IH]; intros f g H; cbn [vsum]; [lra|].
  assert (f n <= g n) by (apply H; lia). assert (vsum n f <= vsum n g) by (apply IH; intros; apply H; lia). lra.
Qed.

Section Domain.
Variables (n dim nq : nat) (weight : nat -> R) (shape : nat -> nat -> R) (slope : nat -> nat -> nat -> R).
Notation value_q := (value_q n shape).
Notation grad_q := (grad_q n slope).
Notation integrated := (integrated dim nq weight shape slope).
Notation residual := (residual n dim nq weight shape slope).
Notation vmult := (vmult n dim nq weight shape slope).
Notation solves := (solves n dim nq weight shape slope).
Notation explicit_rhs := (explicit_rhs n dim nq weight shape slope).
Notation explicit_step := (explicit_step n dim nq weight shape slope).
Notation explicit_run := (explicit_run n dim nq weight shape slope).
Notation mass := (mass nq weight shape).

(** ** The linearised problem *)
Definition line (y x : fields) (t : R) : fields := fun comp i => y comp i + t * x comp i.
Lemma value_line : forall y x t q comp, value_q (line y x t) q comp = value_q y q comp + t * value_q x q comp.
Proof using. intros. unfold CahnHilliardModel.value_q, line. rewrite <- vsum_scale, <- vsum_plus. apply vsum_ext. intros. ring. Qed.
Lemma grad_line : forall y x t q comp d, grad_q (line y x t) q comp d = grad_q y q comp d + t * grad_q x q comp d.
Proof using. intros. unfold CahnHilliardModel.grad_q, line. rewrite <- vsum_scale, <- vsum_plus. apply vsum_ext. intros. ring. Qed.

Lemma residual_value_deriv : forall dt v v' old comp,
  derivable_pt_lim (fun t => residual_value dt (fun c => v c + t * v' c) old comp) 0 (vmult_value dt v v' comp).
Proof using.
  intros dt v v' old comp. destruct comp as [|comp]; cbn [residual_value vmult_value].
  - unfold Rdiv. apply derivable_scal. eapply derivable_eq; [|apply derivable_minus; [apply derivable_line|apply derivable_const0]]. ring.
  - eapply derivable_eq; [|eapply derivable_plus].
    2:{ apply derivable_pt_lim_opp. apply derivable_line. }
    2:{ apply (derivable_pt_lim_comp (fun t => v 0%nat + t * v' 0%nat) df_dc 0 (v' 0%nat) (d2f_dc2 (v 0%nat))); [apply derivable_line|].
        replace (v 0%nat + 0 * v' 0%nat) with (v 0%nat) by ring. apply (C87_potential (v 0%nat)). }
    reflexivity.
Qed.

Lemma derivable_scal_l : forall g x a k, derivable_pt_lim g x a -> derivable_pt_lim (fun t => k * g t) x (k * a).
Proof using. intros. apply (derivable_pt_lim_scal g k); assumption. Qed.

(** C87_jacobian: the operator of the linearised problem is the derivative of the residual at
    the state whose values are stored, for every mesh and every direction *)
Theorem C87_jacobian : forall M kappa dt old y x comp i,
  derivable_pt_lim (fun t => residual M kappa dt old (line y x t) comp i) 0
    (vmult M kappa dt (evaluate_newton_step n shape y) x comp i).
Proof using.
  intros. unfold CahnHilliardModel.residual, CahnHilliardModel.vmult, CahnHilliardModel.integrated.
  apply (vsum_deriv nq (fun q t => weight q * (residual_value dt (value_q (line y x t) q) (value_q old q) comp * shape i q +
     vsum dim (fun d => residual_gradient M kappa (grad_q (line y x t) q) comp d * slope i d q)))).
  intros q _. apply derivable_scal_l. apply derivable_plus.
  - apply derivable_scal. eapply derivable_ext; [|apply (residual_value_deriv dt (value_q y q) (value_q x q) (value_q old q) comp)].
    intro t. cbv beta. destruct comp; cbn [residual_value]; rewrite !value_line; reflexivity.
  - apply (vsum_deriv dim (fun d t => residual_gradient M kappa (grad_q (line y x t) q) comp d * slope i d q)).
    intros d _. apply derivable_scal. destruct comp; cbn [residual_gradient vmult_gradient].
    + apply (derivable_ext (fun t => M * (grad_q y q 1 d + t * grad_q x q 1 d))); [intro t; rewrite grad_line; reflexivity|].
      apply derivable_scal_l, derivable_line.
    + apply (derivable_ext (fun t => kappa * (grad_q y q 0 d + t * grad_q x q 0 d))); [intro t; rewrite grad_line; reflexivity|].
      apply derivable_scal_l, derivable_line.
Qed.

(** ** Testing with a field *)
Lemma tested : forall vr gr comp (x : fields) k,
  vsum n (fun i => x k i * integrated vr gr comp i) =
  vsum nq (fun q => weight q * (vr q comp * value_q x q k + vsum dim (fun d => gr q comp d * grad_q x q k d))).
Proof using.
  intros. unfold CahnHilliardModel.integrated, CahnHilliardModel.value_q, CahnHilliardModel.grad_q.
  rewrite (vsum_ext n _ (fun i => vsum nq (fun q => weight q * (vr q comp * (shape i q * x k i) + vsum dim (fun d => gr q comp d * (slope i d q * x k i)))))).
  2:{ intros i _. rewrite <- vsum_scale. apply vsum_ext. intros q _.
      rewrite (vsum_ext dim (fun d => gr q comp d * (slope i d q * x k i)) (fun d => x k i * (gr q comp d * slope i d q))) by (intros; ring).
      rewrite vsum_scale. ring. }
  rewrite KksProps.vsum_swap. apply vsum_ext. intros q _. rewrite vsum_scale. f_equal. rewrite vsum_plus, vsum_scale. f_equal.
  rewrite KksProps.vsum_swap. apply vsum_ext. intros d _. rewrite vsum_scale. reflexivity.
Qed.

(** the integral of a field over the domain *)
Definition integral (f : nat -> R) : R := vsum nq (fun q => weight q * vsum n (fun i => shape i q * f i)).
(** [E = int f(c) + kappa/2 |grad c|^2] *)
Definition energy (kappa : R) (y : fields) : R :=
  vsum nq (fun q => weight q * (potential (value_q y q 0) + vsum dim (fun d => kappa / 2 * (grad_q y q 0 d * grad_q y q 0 d)))).
(** [int |grad mu|^2] *)
Definition dissipation (y : fields) : R :=
  vsum nq (fun q => weight q * vsum dim (fun d => grad_q y q 1 d * grad_q y q 1 d)).

(** C87_energy: whatever the old solution is, the energy of a solution of a step is lower, by at
    least half of what is dissipated, as long as [dt * M <= 4 * kappa] *)
Theorem C87_energy : forall M kappa dt old y, (forall q, (q < nq)%nat -> 0 <= weight q) -> 0 < dt -> 0 <= M -> dt * M <= 4 * kappa ->
  solves M kappa dt old y -> energy kappa y + dt * M / 2 * dissipation y <= energy kappa old.
Proof using.
  intros M kappa dt old y W Hdt HM HK S.
  set (delta := fun comp i => y comp i - old comp i).
  assert (VD : forall q, value_q delta q 0 = value_q y q 0 - value_q old q 0).
  { intro q. unfold CahnHilliardModel.value_q, delta. replace (vsum n (fun i => shape i q * y 0%nat i) - vsum n (fun i => shape i q * old 0%nat i))
      with (1 * vsum n (fun i => shape i q * y 0%nat i) + (-1) * vsum n (fun i => shape i q * old 0%nat i)) by ring.
    rewrite <- vsum_lin. apply vsum_ext. intros. ring. }
  assert (GD : forall q d, grad_q delta q 0 d = grad_q y q 0 d - grad_q old q 0 d).
  { intros q d. unfold CahnHilliardModel.grad_q, delta. replace (vsum n (fun i => slope i d q * y 0%nat i) - vsum n (fun i => slope i d q * old 0%nat i))
      with (1 * vsum n (fun i => slope i d q * y 0%nat i) + (-1) * vsum n (fun i => slope i d q * old 0%nat i)) by ring.
    rewrite <- vsum_lin. apply vsum_ext. intros. ring. }
  assert (T : forall x comp k, (comp < 2)%nat ->
    vsum nq (fun q => weight q * (residual_value dt (value_q y q) (value_q old q) comp * value_q x q k +
      vsum dim (fun d => residual_gradient M kappa (grad_q y q) comp d * grad_q x q k d))) = 0).
  { intros x comp k Hc. rewrite <- (tested (fun q => residual_value dt (value_q y q) (value_q old q)) (fun q => residual_gradient M kappa (grad_q y q))).
    rewrite (vsum_ext n _ (fun _ => 0)); [apply vsum_zero|]. intros i Hi. 
    assert (E := S comp i Hc Hi). unfold CahnHilliardModel.residual in E. rewrite E. ring. }
  assert (T1 := T y 0%nat 1%nat ltac:(lia)). assert (T2 := T delta 1%nat 0%nat ltac:(lia)). assert (T3 := T delta 0%nat 0%nat ltac:(lia)).
  clear T S. cbn [residual_value residual_gradient] in T1, T2, T3.
  unfold energy, dissipation.
  (* everything on one side, as one sum over the points *)
  match goal with |- ?A + ?k * ?B <= ?C => enough (H : A + k * B + (-1) * C <= dt * 0 + (0 + (dt / 2) * 0)) by lra end.
  rewrite <- T1 at 1. rewrite <- T2 at 1. rewrite <- T3.
  rewrite <- !vsum_scale, <- !vsum_plus. apply vsum_le. intros q Hq. specialize (W q Hq).
  rewrite !VD.
  set (a := value_q y q 0). set (b := value_q old q 0). set (m := value_q y q 1).
  assert (P := potential_below a b).
  (* the sums over the directions *)
  assert (G : vsum dim (fun d => kappa / 2 * (grad_q y q 0 d * grad_q y q 0 d)) + dt * M / 2 * vsum dim (fun d => grad_q y q 1 d * grad_q y q 1 d)
     + -1 * vsum dim (fun d => kappa / 2 * (grad_q old q 0 d * grad_q old q 0 d))
     <= dt * vsum dim (fun d => M * grad_q y q 1 d * grad_q y q 1 d) +
        (vsum dim (fun d => kappa * grad_q y q 0 d * grad_q delta q 0 d) + dt / 2 * vsum dim (fun d => M * grad_q y q 1 d * grad_q delta q 0 d))).
  { rewrite <- !vsum_scale, <- !vsum_plus. apply vsum_le. intros d _. rewrite GD.
    set (g := grad_q y q 0 d). set (g0 := grad_q old q 0 d). set (v := grad_q y q 1 d).
    assert (S0 : 0 <= dt * M) by (apply Rmult_le_pos; lra).
    assert (S1 : 0 <= (dt * M) * (v + (g - g0) / 2) ^ 2) by (apply Rmult_le_pos; [exact S0|apply pow2_ge_0]).
    assert (S2 : 0 <= (4 * kappa - dt * M) * (g - g0) ^ 2) by (apply Rmult_le_pos; [lra|apply pow2_ge_0]).
    assert (E : dt * (M * v * v) + (kappa * g * (g - g0) + dt / 2 * (M * v * (g - g0)))
       - (kappa / 2 * (g * g) + dt * M / 2 * (v * v) + -1 * (kappa / 2 * (g0 * g0)))
       = 1 / 2 * ((dt * M) * (v + (g - g0) / 2) ^ 2) + 1 / 8 * ((4 * kappa - dt * M) * (g - g0) ^ 2)) by field.
    lra. }
  set (X1 := vsum dim (fun d => kappa / 2 * (grad_q y q 0 d * grad_q y q 0 d))) in *.
  set (X2 := vsum dim (fun d => grad_q y q 1 d * grad_q y q 1 d)) in *.
  set (X3 := vsum dim (fun d => kappa / 2 * (grad_q old q 0 d * grad_q old q 0 d))) in *.
  set (Y1 := vsum dim (fun d => M * grad_q y q 1 d * grad_q y q 1 d)) in *.
  set (Y2 := vsum dim (fun d => kappa * grad_q y q 0 d * grad_q delta q 0 d)) in *.
  set (Y3 := vsum dim (fun d => M * grad_q y q 1 d * grad_q delta q 0 d)) in *.
  assert (F : potential a + X1 + dt * M / 2 * X2 + -1 * (potential b + X3)
     <= dt * ((a - b) / dt * m + Y1) + ((- m + df_dc a) * (a - b) + Y2 + dt / 2 * ((a - b) / dt * (a - b) + Y3))).
  { replace (dt * ((a - b) / dt * m + Y1)) with ((a - b) * m + dt * Y1) by (field; lra).
    replace (dt / 2 * ((a - b) / dt * (a - b) + Y3)) with (1 / 2 * ((a - b) * (a - b)) + dt / 2 * Y3) by (field; lra). lra. }
  apply (Rmult_le_compat_l (weight q)) in F; [|exact W]. 
  match type of F with ?l <= ?r => match goal with |- ?l' <= ?r' => replace l' with l by ring; replace r' with r by ring; exact F end end.
Qed.

(** ** The amount of the substance *)
Section Unity.
Hypothesis unity : forall q, (q < nq)%nat -> vsum n (fun i => shape i q) = 1.
Hypothesis unity_slope : forall q d, (q < nq)%nat -> (d < dim)%nat -> vsum n (fun i => slope i d q) = 0.

Lemma tested_one : forall vr gr comp, vsum n (fun i => integrated vr gr comp i) = vsum nq (fun q => weight q * vr q comp).
Proof using unity unity_slope.
  intros. assert (T := tested vr gr comp (fun _ _ => 1) 0). cbv beta in T.
  rewrite (vsum_ext n _ (fun i => integrated vr gr comp i)) in T by (intros; ring). rewrite T. apply vsum_ext. intros q Hq. f_equal.
  unfold CahnHilliardModel.value_q, CahnHilliardModel.grad_q.
  rewrite (vsum_ext n _ (fun i => shape i q)) by (intros; ring). rewrite unity by exact Hq.
  rewrite (vsum_ext dim _ (fun _ => 0)); [rewrite vsum_zero; ring|].
  intros d Hd. rewrite (vsum_ext n _ (fun i => slope i d q)) by (intros; ring). rewrite unity_slope by assumption. ring.
Qed.

(** C87_mass: a solution of an implicit step contains the substance of the old solution, and its
    potential has the mean of the derivative of the double well *)
Theorem C87_mass : forall M kappa dt old y, dt <> 0 -> solves M kappa dt old y ->
  integral (y 0%nat) = integral (old 0%nat) /\
  integral (y 1%nat) = vsum nq (fun q => weight q * df_dc (value_q y q 0)).
Proof using unity unity_slope.
  intros M kappa dt old y Hdt S.
  assert (T : forall comp, (comp < 2)%nat -> vsum nq (fun q => weight q * residual_value dt (value_q y q) (value_q old q) comp) = 0).
  { intros comp Hc. rewrite <- (tested_one (fun q => residual_value dt (value_q y q) (value_q old q)) (fun q => residual_gradient M kappa (grad_q y q))).
    rewrite (vsum_ext n _ (fun _ => 0)); [apply vsum_zero|]. intros i Hi. apply S; assumption. }
  assert (T0 := T 0%nat ltac:(lia)). assert (T1 := T 1%nat ltac:(lia)). cbn [residual_value] in T0, T1. split.
  - assert (E : integral (y 0%nat) - integral (old 0%nat) = dt * 0).
    { rewrite <- T0. unfold integral. rewrite <- vsum_scale.
      replace (vsum nq (fun q => weight q * vsum n (fun i => shape i q * y 0%nat i)) - vsum nq (fun q => weight q * vsum n (fun i => shape i q * old 0%nat i)))
        with (1 * vsum nq (fun q => weight q * vsum n (fun i => shape i q * y 0%nat i)) + (-1) * vsum nq (fun q => weight q * vsum n (fun i => shape i q * old 0%nat i))) by ring.
      rewrite <- vsum_lin. apply vsum_ext. intros q _. unfold CahnHilliardModel.value_q. field. exact Hdt. }
    lra.
  - assert (E : integral (y 1%nat) = vsum nq (fun q => weight q * df_dc (value_q y q 0)) + (-1) * 0).
    { rewrite <- T1. unfold integral. rewrite <- vsum_scale, <- vsum_plus. apply vsum_ext. intros q _. unfold CahnHilliardModel.value_q. ring. }
    lra.
Qed.

Lemma mass_sum : forall f, vsum n (fun i => vsum n (fun j => mass i j * f j)) = integral f.
Proof using unity.
  intro f. rewrite KksProps.vsum_swap. unfold integral, CahnHilliardModel.mass.
  rewrite (vsum_ext n _ (fun j => vsum nq (fun q => weight q * (shape j q * f j)))).
  - rewrite KksProps.vsum_swap. apply vsum_ext. intros q _. rewrite vsum_scale. reflexivity.
  - intros j _. rewrite (vsum_ext n _ (fun i => f j * vsum nq (fun q => weight q * (shape i q * shape j q)))) by (intros; ring).
    rewrite vsum_scale, KksProps.vsum_swap, <- vsum_scale. apply vsum_ext. intros q Hq.
    rewrite (vsum_ext n _ (fun i => weight q * shape j q * shape i q)) by (intros; ring). rewrite vsum_scale, unity by exact Hq. ring.
Qed.

(** C87_explicit: any number of steps of the explicit scheme keeps the substance, with any time
    step *)
Theorem C87_explicit : forall M kappa dt k y y', explicit_run M kappa dt k y y' -> integral (y' 0%nat) = integral (y 0%nat).
Proof using unity unity_slope.
  intros M kappa dt k y y' H. induction H as [y|k y y1 y2 H IH S]; [reflexivity|]. rewrite <- IH.
  rewrite <- mass_sum. rewrite (vsum_ext n _ (fun i => explicit_rhs M kappa dt y1 0 i)) by (intros i Hi; apply S; [lia|exact Hi]).
  unfold CahnHilliardModel.explicit_rhs. rewrite tested_one. reflexivity.
Qed.
End Unity.

(** C87_lag_refuted: the explicit scheme moves the concentration with the potential of the step
    before, which is zero at first: whatever the initial concentration is, the first step leaves
    it as it is, and the file written after step [k] carries the time of step [k - 1] *)
Theorem C87_lag_refuted :
  (forall x, (forall i, (i < n)%nat -> vsum n (fun j => mass i j * x j) = 0) -> forall i, (i < n)%nat -> x i = 0) ->
  forall M kappa dt y y', (forall i, (i < n)%nat -> y 1%nat i = 0) -> explicit_step M kappa dt y y' ->
  (forall i, (i < n)%nat -> y' 0%nat i = y 0%nat i) /\
  forall k, (0 < k)%nat -> INR k * dt - explicit_label dt k = dt.
Proof using.
  intros NS M kappa dt y y' Z S. split.
  - assert (E : forall i, (i < n)%nat -> (fun i => y' 0%nat i - y 0%nat i) i = 0).
    { apply NS. intros i Hi.
      rewrite (vsum_ext n _ (fun j => 1 * (mass i j * y' 0%nat j) + (-1) * (mass i j * y 0%nat j))) by (intros; ring).
      rewrite vsum_lin, S by (try exact Hi; lia). unfold CahnHilliardModel.explicit_rhs, CahnHilliardModel.integrated. cbn [explicit_value explicit_gradient].
      assert (G : forall q d, grad_q y q 1 d = 0).
      { intros q d. unfold CahnHilliardModel.grad_q. rewrite (vsum_ext n _ (fun _ => 0)); [apply vsum_zero|]. intros j Hj. rewrite Z by exact Hj. ring. }
      enough (X : vsum nq (fun q => weight q * (value_q y q 0 * shape i q + vsum dim (fun d => - dt * M * grad_q y q 1 d * slope i d q)))
                  = vsum n (fun j => mass i j * y 0%nat j)) by lra.
      unfold CahnHilliardModel.mass.
      rewrite (vsum_ext n (fun j => vsum nq (fun q => weight q * (shape i q * shape j q)) * y 0%nat j)
                 (fun j => vsum nq (fun q => weight q * (shape i q * (shape j q * y 0%nat j))))).
      2:{ intros j _. rewrite Rmult_comm, <- vsum_scale. apply vsum_ext. intros. ring. }
      rewrite KksProps.vsum_swap. apply vsum_ext. intros q _. rewrite !vsum_scale. f_equal.
      rewrite (vsum_ext dim _ (fun _ => 0)) by (intros; rewrite G; ring). rewrite vsum_zero. unfold CahnHilliardModel.value_q. ring. }
    intros i Hi. specialize (E i Hi). cbv beta in E. lra.
  - intros k Hk. unfold explicit_label. rewrite minus_INR by lia. cbn [INR]. ring.
Qed.
End Domain.
Print Assumptions C87_jacobian. Print Assumptions C87_energy. Print Assumptions C87_mass. Print Assumptions C87_explicit. Print Assumptions C87_lag_refuted.

(** ** Initial values *)
Lemma tanh_range : forall x, -1 < tanh x < 1.
Proof.
  intro x. assert (C := KksProps.cosh_pos x). unfold tanh.
  assert (H1 : 0 < cosh x - sinh x) by (unfold cosh, sinh; assert (H := exp_pos (- x)); lra).
  assert (H2 : 0 < cosh x + sinh x) by (unfold cosh, sinh; assert (H := exp_pos x); lra).
  split; apply Rmult_lt_reg_r with (cosh x); try exact C; unfold Rdiv; rewrite Rmult_assoc, Rinv_l by lra; lra.
Qed.
Lemma bubbles_pos : forall p cs rs, 0 <= bubbles p cs rs.
Proof.
  intros p cs. induction cs as [|c cs IH]; intros [|r rs]; cbn [bubbles]; try lra.
  specialize (IH rs). assert (T := tanh_range ((dist p c - r) / (3 / 2))). lra.
Qed.
(** a bubble alone *)
Definition bubble (p c : R * R) (r : R) : R := 1 / 2 * (1 - tanh ((dist p c - r) / (3 / 2))).
Lemma bubbles_member : forall p cs rs k, (k < length cs)%nat -> (k < length rs)%nat ->
  bubble p (nth k cs (0, 0)) (nth k rs 0) <= bubbles p cs rs.
Proof.
  intros p cs. induction cs as [|c cs IH]; intros [|r rs] k H1 H2; cbn [length] in *; try lia. cbn [bubbles].
  assert (T := tanh_range ((dist p c - r) / (3 / 2))). destruct k as [|k]; cbn [nth].
  - unfold bubble. assert (P := bubbles_pos p cs rs). lra.
  - specialize (IH rs k ltac:(lia) ltac:(lia)). lra.
Qed.

(** C87_initial: the initial concentration is between 0 and 1, at least that of every bubble
    alone, more than one half inside the bubbles, and the potential is zero *)
Theorem C87_initial : forall p,
  0 <= initial_value p 0 <= 1 /\ initial_value p 1 = 0 /\
  (forall k, (k < 12)%nat -> bubble p (nth k center (0, 0)) (nth k rad 0) <= initial_value p 0) /\
  (forall k, (k < 12)%nat -> dist p (nth k center (0, 0)) <= nth k rad 0 -> 1 / 2 <= initial_value p 0).
Proof.
  intro p. assert (P := bubbles_pos p center rad).
  assert (B : forall k, (k < 12)%nat -> bubble p (nth k center (0, 0)) (nth k rad 0) <= initial_value p 0).
  { intros k Hk. assert (H := bubbles_member p center rad k Hk Hk). unfold initial_value. cbn [Nat.eqb]. cbv zeta.
    destruct (Rlt_dec 1 (bubbles p center rad)); [|exact H].
    unfold bubble. assert (T := tanh_range ((dist p (nth k center (0, 0)) - nth k rad 0) / (3 / 2))). lra. }
  split; [|split; [reflexivity|split; [exact B|]]].
  - unfold initial_value. cbn [Nat.eqb]. cbv zeta. destruct (Rlt_dec 1 (bubbles p center rad)); lra.
  - intros k Hk D. specialize (B k Hk). unfold bubble in B.
    assert (N : tanh ((dist p (nth k center (0, 0)) - nth k rad 0) / (3 / 2)) <= 0).
    { assert (X : (dist p (nth k center (0, 0)) - nth k rad 0) / (3 / 2) <= 0) by lra. revert X.
      generalize ((dist p (nth k center (0, 0)) - nth k rad 0) / (3 / 2)). intros x X. unfold tanh. assert (C := KksProps.cosh_pos x).
      assert (sinh x <= 0).
      { unfold sinh. assert (exp x <= exp (- x)); [|lra]. destruct (Req_dec x 0) as [->|NZ]; [rewrite Ropp_0; lra|]. left. apply exp_increasing. lra. }
      assert (0 < / cosh x) by (apply Rinv_0_lt_compat; exact C). unfold Rdiv.
      assert (H' := Rmult_le_compat_r (/ cosh x) (sinh x) 0 ltac:(lra) H). lra. }
    lra.
Qed.
Print Assumptions C87_initial.

(** ** The time loop *)
Section Loop.
Variables (K : clock) (solver : fields -> R -> fields -> nat -> nat -> Prop).
Notation next_dt := (next_dt K).
Notation pass := (pass K solver).
Notation passes := (passes K solver).
Hypothesis min_pos : 0 < dt_min K.
Hypothesis growth : 1 <= dt_increment K.
Hypothesis range : dt_min K < dt_max K.

Definition solved (h : list (option R)) : nat := length (filter (fun e => match e with Some _ => true | None => false end) h).
Definition failed (h : list (option R)) : nat := length (filter (fun e => match e with Some _ => false | None => true end) h).
Definition simulated (h : list (option R)) : R := fold_right (fun e a => match e with Some dt => dt + a | None => a end) 0 h.

Lemma solved_app : forall h e, solved (h ++ [e]) = (solved h + match e with Some _ => 1 | None => 0 end)%nat.
Proof using. intros. unfold solved. rewrite filter_app, app_length. destruct e; reflexivity. Qed.
Lemma failed_app : forall h e, failed (h ++ [e]) = (failed h + match e with Some _ => 0 | None => 1 end)%nat.
Proof using. intros. unfold failed. rewrite filter_app, app_length. destruct e; reflexivity. Qed.
Lemma simulated_app : forall h e, simulated (h ++ [e]) = simulated h + match e with Some dt => dt | None => 0 end.
Proof using.
  intros h e. induction h as [|x h IH]; unfold simulated in *; cbn [fold_right app]; [destruct e; lra|].
  rewrite IH. destruct x; destruct e; lra.
Qed.
Lemma length_split : forall h, length h = (solved h + failed h)%nat.
Proof using. unfold solved, failed. induction h as [|[x|] h IH]; cbn [filter length]; lia. Qed.

(** what the next time step can be *)
Lemma next_dt_cases : forall newton linear t dt, dt <= dt_max K -> 0 < dt ->
  (t + next_dt newton linear t dt = t_end K /\ t < t_end K - 1 / 1000000000 /\ next_dt newton linear t dt <= dt_max K) \/
  (dt <= next_dt newton linear t dt <= dt_max K /\ (t + next_dt newton linear t dt <= t_end K \/ Rabs (t - t_end K) <= 1 / 1000000000 /\ next_dt newton linear t dt = dt)) \/
  (t_end K + 1 / 1000000000 < t).
Proof using growth range.
  intros newton linear t dt H Hp. unfold CahnHilliardModel.next_dt. cbv zeta.
  destruct (Rlt_dec (1 / 1000000000) (Rabs (t - t_end K))) as [F|F]; [|right; left; split; [lra|right; split; lra]].
  set (dt1 := if _ : bool then _ else dt).
  assert (B : dt <= dt1 <= dt_max K).
  { unfold dt1. destruct ((newton <? desirable_newton K)%nat && (linear <? desirable_linear K)%nat); [|lra].
    destruct (Rlt_dec (dt_max K) (dt * dt_increment K)); [lra|]. split; [|lra].
    rewrite <- (Rmult_1_r dt) at 1. apply Rmult_le_compat_l; lra. }
  destruct (Rlt_dec (t_end K) (t + dt1)) as [G|G]; [|right; left; split; [exact B|left; lra]].
  destruct (Rle_or_lt t (t_end K)) as [L|L].
  - left. split; [lra|]. rewrite Rabs_left1 in F by lra. lra.
  - right. right. rewrite Rabs_right in F by lra. lra.
Qed.

(** the states of a run that started with a time step between the bounds *)
Definition sound (s : loop) : Prop :=
  (dt_min K < l_dt s <= dt_max K) \/ (l_t s = t_end K /\ 0 < l_dt s <= dt_max K) \/ (t_end K < l_t s /\ 0 < l_dt s <= dt_max K).

Lemma sound_pass : forall e s s', sound s -> pass e s s' -> sound s'.
Proof using min_pos growth range.
  intros e s s' V P. destruct P as [s y newton linear L _|s L F].
  - unfold sound, after_solved. cbn [l_t l_dt].
    assert (Hd : l_dt s <= dt_max K /\ 0 < l_dt s) by (destruct V as [V|[V|V]]; lra).
    destruct (next_dt_cases newton linear (l_t s) (l_dt s) (proj1 Hd) (proj2 Hd)) as [(E & Lt & B)|[(B & R0)|O]].
    + right. left. split; [lra|]. lra.
    + destruct V as [V|[(V & V1)|V]]; [left; lra| |lra]. right. right. lra.
    + lra.
  - unfold sound, after_failed. cbn [l_t l_dt]. left. destruct V as [V|[V|V]]; lra.
Qed.

(** C87_steps: in every run, whatever the nonlinear solver does, each step is solved with a
    positive time step of at most [dt_max] *)
Theorem C87_steps : forall h s0 s, dt_min K < l_dt s0 <= dt_max K -> passes h s0 s ->
  (forall dt, In (Some dt) h -> 0 < dt <= dt_max K) /\ 0 < l_dt s <= dt_max K /\ l_t s0 <= l_t s.
Proof using min_pos growth range.
  intros h s0 s I H.
  enough (G : sound s /\ (forall dt, In (Some dt) h -> 0 < dt <= dt_max K) /\ l_t s0 <= l_t s).
  { destruct G as (V & G & G'). split; [exact G|]. split; [|exact G']. destruct V as [V|[V|V]]; lra. }
  induction H as [s|h e s s1 s2 H IH P]; [split; [left; exact I|split; [intros dt []|lra]]|].
  destruct (IH I) as (V & A & T). assert (V2 := sound_pass _ _ _ V P).
  split; [exact V2|]. split.
  - intros dt Hin. apply in_app_or in Hin. destruct Hin as [Hin|[->|[]]]; [apply A; exact Hin|].
    inversion P; subst. destruct V as [V|[V|V]]; lra.
  - destruct P as [s1 y newton linear L _|s1 L F]; cbn [after_solved after_failed l_t]; [|exact T].
    assert (0 < next_dt newton linear (l_t s1) (l_dt s1)); [|lra]. unfold sound in V2. cbn [after_solved l_t l_dt] in V2. lra.
Qed.

(** C87_terminates: in every run the steps that are solved number at most [t_end / dt_min + 2],
    and each of them is preceded by at most [m] failures, where [dt_max <= 2^m * dt_min]: no
    run is endless *)
Theorem C87_terminates : forall m h s0 s, dt_min K < l_dt s0 <= dt_max K -> 0 <= l_t s0 <= t_end K -> dt_max K <= 2 ^ m * dt_min K -> passes h s0 s ->
  INR (solved h) * dt_min K <= t_end K + 2 * dt_min K /\ (failed h <= m * S (solved h))%nat.
Proof using min_pos growth range.
  intros m h s0 s I I0 Hm H.
  assert (PW : forall a b, 2 ^ a <= 2 ^ b -> (a <= b)%nat).
  { intros a b L. destruct (le_lt_dec a b) as [|X]; [assumption|]. assert (2 ^ b < 2 ^ a) by (apply Rlt_pow; [lra|exact X]). lra. }
  assert (P2 : forall a, 0 < 2 ^ a) by (intro a; apply pow_lt; lra).
  enough (G : 0 < l_dt s <= dt_max K /\ l_dt s * 2 ^ failed h <= dt_max K * 2 ^ (m * solved h) /\ (failed h <= m * S (solved h))%nat /\
    ((dt_min K < l_dt s /\ l_t s <= t_end K /\ INR (solved h) * dt_min K <= l_t s) \/
     (l_t s = t_end K /\ INR (solved h) * dt_min K <= t_end K + dt_min K) \/
     (t_end K < l_t s /\ INR (solved h) * dt_min K <= t_end K + 2 * dt_min K))).
  { destruct G as (_ & _ & G & D). split; [|exact G]. destruct D as [D|[D|D]]; lra. }
  induction H as [s|h e s s1 s2 H IH P].
  { split; [lra|]. unfold solved, failed. cbn [filter length INR]. rewrite Nat.mul_0_r. cbn [pow]. split; [lra|]. split; [lia|]. left. lra. }
  destruct (IH I I0) as (A & B & C & D). clear IH H I I0.
  destruct P as [s1 y newton linear L _|s1 L F].
  - rewrite solved_app, failed_app, Nat.add_0_r, Nat.add_1_r. cbn [after_solved l_t l_dt]. rewrite S_INR.
    assert (N := next_dt_cases newton linear (l_t s1) (l_dt s1) (proj2 A) (proj1 A)).
    set (dt' := next_dt newton linear (l_t s1) (l_dt s1)) in *.
    assert (A' : 0 < dt' <= dt_max K) by (destruct N as [N|[N|N]]; lra).
    split; [exact A'|]. split.
    { apply Rle_trans with (dt_max K * 2 ^ failed h).
      - apply Rmult_le_compat_r; [left; apply P2|lra].
      - apply Rmult_le_compat_l; [lra|]. apply Rle_pow; [lra|exact C]. }
    split; [nia|]. destruct D as [(D1 & D2 & D3)|[(D1 & D2)|(D1 & D2)]]; [| |lra].
    + destruct N as [(N1 & N2 & N3)|[(N1 & N2)|N1]]; [right; left; lra| |lra].
      destruct (Rle_or_lt (l_t s1 + dt') (t_end K)); [left|right; right]; lra.
    + right. right. destruct N as [N|[(N1 & N2)|N]]; lra.
  - rewrite solved_app, failed_app, Nat.add_0_r, Nat.add_1_r. cbn [after_failed l_t l_dt].
    split; [lra|]. split; [cbn [pow]; lra|]. split.
    { apply PW. replace (m * S (solved h))%nat with (m * solved h + m)%nat by lia. rewrite pow_add. cbn [pow].
      apply Rmult_le_reg_r with (dt_min K); [exact min_pos|].
      apply Rle_trans with (2 * 2 ^ failed h * (l_dt s1 * (1 / 2))); [apply Rmult_le_compat_l; [specialize (P2 (failed h)); lra|lra]|].
      apply Rle_trans with (dt_max K * 2 ^ (m * solved h)); [lra|].
      rewrite (Rmult_comm (2 ^ (m * solved h))), Rmult_assoc, (Rmult_comm (2 ^ (m * solved h))), <- Rmult_assoc.
      apply Rmult_le_compat_r; [left; apply P2|exact Hm]. }
    destruct D as [(D1 & D2 & D3)|[(D1 & D2)|(D1 & D2)]]; [left; lra|right; left; lra|lra].
Qed.

(** C87_clock: as long as no step fails, the recorded time is ahead of the simulated one by the
    growth of the time step *)
Theorem C87_clock : forall h s0 s, passes h s0 s -> failed h = 0%nat ->
  l_t s - l_t s0 = simulated h + (l_dt s - l_dt s0).
Proof using.
  intros h s0 s H. induction H as [s|h e s s1 s2 H IH P]; intro Z; [unfold simulated; cbn [fold_right]; lra|].
  rewrite failed_app in Z. specialize (IH ltac:(lia)). rewrite simulated_app.
  destruct P as [s1 y newton linear L _|s1 L F]; [|lia]. cbn [after_solved l_t l_dt]. lra.
Qed.

(** C87_overrun_refuted: a run never ends at the end time; its last pass is always a step that
    is solved although the end time is reached up to 1e-9, and it moves the time beyond the end *)
Theorem C87_overrun_refuted : forall h s0 s, passes h s0 s -> dt_min K < l_dt s0 <= dt_max K -> l_t s0 <= t_end K -> t_end K < l_t s ->
  exists h1 s1, h = h1 ++ [Some (l_dt s1)] /\ passes h1 s0 s1 /\
    t_end K - 1 / 1000000000 <= l_t s1 <= t_end K /\ l_t s = l_t s1 + l_dt s1 /\ 0 < l_dt s1.
Proof using min_pos growth range.
  intros h s0 s H I I0 E. inversion H as [s'|h1 e s' s1 s2 H1 P]; subst; [lra|].
  destruct (C87_steps _ _ _ I H1) as (_ & A & _).
  destruct P as [s1 y newton linear L _|s1 L F]; cbn [after_solved after_failed l_t] in E; [|lra].
  exists h1, s1. split; [reflexivity|]. split; [exact H1|]. cbn [after_solved l_t].
  destruct (next_dt_cases newton linear (l_t s1) (l_dt s1) (proj2 A) (proj1 A)) as [N|[(N1 & [N2|(N2 & N3)])|N]]; [lra|lra| |lra].
  split; [|split; [rewrite N3; reflexivity|lra]]. rewrite Rabs_left1 in N2 by lra. lra.
Qed.

(** C87_output: files written later than the first carry times more than the interval apart *)
Theorem C87_output : forall e s s', pass e s s' -> l_last s' = l_last s \/ (l_last s' = l_t s' /\ l_last s + output_interval K < l_last s').
Proof using.
  intros e s s' [s1 y newton linear L _|s1 L F]; cbn [after_solved after_failed l_t l_last]; [|left; reflexivity].
  destruct (Rlt_dec _ _); [right; split; [reflexivity|lra]|left; reflexivity].
Qed.
(** the solution is the old one after a failure *)
Theorem C87_restored : forall s s', pass None s s' -> l_sol s' = l_sol s /\ l_t s' = l_t s /\ l_dt s' = l_dt s / 2.
Proof using. intros s s' P. inversion P; subst. cbn [after_failed l_sol l_t l_dt]. split; [reflexivity|split; [reflexivity|lra]]. Qed.
End Loop.
Print Assumptions C87_steps. Print Assumptions C87_terminates. Print Assumptions C87_clock. Print Assumptions C87_overrun_refuted. Print Assumptions C87_output. Print Assumptions C87_restored.

Lemma code_ok : 0 < dt_min code_clock /\ 1 <= dt_increment code_clock /\ dt_min code_clock < dt_max code_clock /\
  dt_min code_clock < code_dt <= dt_max code_clock /\ dt_max code_clock <= 2 ^ 14 * dt_min code_clock.
Proof. unfold code_clock, code_dt; cbn [dt_min dt_max dt_increment]. repeat split; lra. Qed.

(** C87_time_refuted: with the numbers of the program and a solver that is fast, the recorded
    time is wrong after two steps: 0.0264 instead of 0.022 *)
Theorem C87_time_refuted : forall solver y0, (forall old dt, exists y, solver old dt y 3%nat 10%nat) ->
  exists s, passes code_clock solver [Some (10 / 1000); Some (12 / 1000)] (mkLoop 0 code_dt y0 0) s /\
    simulated [Some (10 / 1000); Some (12 / 1000)] = 220 / 10000 /\ l_t s = 264 / 10000.
Proof.
  intros solver y0 H.
  assert (N : forall t dt, 0 <= t <= 1 -> 0 <= dt <= 1 / 10 -> next_dt code_clock 3 10 t dt = dt * (12 / 10)).
  { intros t dt Ht Hd. unfold next_dt, code_clock. cbn [t_end dt_max dt_increment desirable_newton desirable_linear Nat.ltb Nat.leb andb]. cbv zeta.
    rewrite Rabs_left by lra. destruct (Rlt_dec _ _) as [_|F]; [|exfalso; lra].
    destruct (Rlt_dec (100 * (1 / 100)) (dt * (12 / 10))) as [F|_]; [exfalso; lra|].
    destruct (Rlt_dec 100 (t + dt * (12 / 10))) as [F|_]; [exfalso; lra|reflexivity]. }
  destruct (H y0 code_dt) as (y1 & H1).
  set (s0 := mkLoop 0 code_dt y0 0). set (s1 := after_solved code_clock s0 y1 3 10).
  assert (T0 : next_dt code_clock 3 10 0 code_dt = 12 / 1000) by (rewrite N; unfold code_dt; lra).
  assert (D1 : l_dt s1 = 12 / 1000) by (unfold s1, after_solved, s0; cbn [l_dt l_t]; exact T0).
  assert (T1 : l_t s1 = 12 / 1000) by (unfold s1, after_solved, s0; cbn [l_dt l_t]; rewrite T0; lra).
  destruct (H y1 (12 / 1000)) as (y2 & H2).
  exists (after_solved code_clock s1 y2 3 10). split; [|split].
  - apply (passes_next code_clock solver [Some (10 / 1000)] (Some (12 / 1000)) s0 s1).
    + apply (passes_next code_clock solver [] (Some (10 / 1000)) s0 s0); [constructor|].
      replace (10 / 1000) with (l_dt s0) by (unfold s0, code_dt; cbn [l_dt]; lra).
      apply pass_solved; [unfold s0, code_clock; cbn [l_t t_end]; lra|exact H1].
    + rewrite <- D1. apply pass_solved; [rewrite T1; unfold code_clock; cbn [t_end]; lra|].
      rewrite D1. unfold s1 at 1. cbn [after_solved l_sol]. exact H2.
  - unfold simulated. cbn [fold_right]. lra.
  - unfold after_solved. cbn [l_t]. rewrite T1, D1, N by lra. lra.
Qed.
Print Assumptions C87_time_refuted.

(** C87_run: every run of the implicit program, with the numbers of the code and whatever steps
    fail, keeps the substance and never raises the energy *)
Theorem C87_run : forall n dim nq weight shape slope (solver : fields -> R -> fields -> nat -> nat -> Prop) h y0 s,
  (forall q, (q < nq)%nat -> vsum n (fun i => shape i q) = 1) ->
  (forall q d, (q < nq)%nat -> (d < dim)%nat -> vsum n (fun i => slope i d q) = 0) ->
  (forall q, (q < nq)%nat -> 0 <= weight q) ->
  (forall old dt y newton linear, solver old dt y newton linear -> solves n dim nq weight shape slope 1 (3 / 2) dt old y) ->
  passes code_clock solver h (mkLoop 0 code_dt y0 0) s ->
  integral n nq weight shape (l_sol s 0%nat) = integral n nq weight shape (y0 0%nat) /\
  energy n dim nq weight shape slope (3 / 2) (l_sol s) <= energy n dim nq weight shape slope (3 / 2) y0.
Proof.
  intros n dim nq weight shape slope solver h y0 s U US W SV H.
  destruct code_ok as (O1 & O2 & O3 & O4 & _).
  remember (mkLoop 0 code_dt y0 0) as s0 eqn:E0.
  assert (I : dt_min code_clock < l_dt s0 <= dt_max code_clock) by (rewrite E0; exact O4).
  assert (Y : l_sol s0 = y0) by (rewrite E0; reflexivity). clear E0. rewrite <- Y. clear Y.
  induction H as [s|h e s s1 s2 H IH P]; [split; [reflexivity|lra]|].
  destruct (IH I) as (IH1 & IH2). destruct (C87_steps _ _ O1 O2 O3 _ _ _ I H) as (_ & D & _).
  destruct P as [s1 y newton linear L V|s1 L F]; cbn [after_solved after_failed l_sol]; [|split; assumption].
  specialize (SV _ _ _ _ _ V). assert (D1 : l_dt s1 <= 1) by (unfold code_clock in D; cbn [dt_max] in D; lra). split.
  - rewrite <- IH1. apply (C87_mass n dim nq weight shape slope U US 1 (3 / 2) (l_dt s1)); [lra|exact SV].
  - assert (Q := C87_energy n dim nq weight shape slope 1 (3 / 2) (l_dt s1) (l_sol s1) y W ltac:(lra) ltac:(lra) ltac:(lra) SV).
    assert (0 <= dissipation n dim nq weight slope y).
    { unfold dissipation. rewrite <- (vsum_zero nq). apply vsum_le. intros q Hq. apply Rmult_le_pos; [apply W; exact Hq|].
      rewrite <- (vsum_zero dim). apply vsum_le. intros d _. apply Rle_0_sqr. }
    assert (0 <= l_dt s1 * 1 / 2 * dissipation n dim nq weight slope y) by (apply Rmult_le_pos; lra). lra.
Qed.
Print Assumptions C87_run.

(** an interval with two points at its ends: a step from [(-0.12, 1.12)] to [(0, 1)], which keeps
    the substance and lowers the energy *)
Definition hat (i q : nat) : R := if Nat.eqb i q then 1 else 0.
Definition hat_slope (i d q : nat) : R := if Nat.eqb i 0 then -1 else 1.
Definition example_old : fields := fun comp i => if Nat.eqb comp 0 then (if Nat.eqb i 0 then - (12 / 100) else 112 / 100) else 0.
Definition example_new : fields := fun comp i => if Nat.eqb comp 0 then (if Nat.eqb i 0 then 0 else 1) else (if Nat.eqb i 0 then -3 else 3).
Example cahn_hilliard_example :
  (forall q, (q < 2)%nat -> vsum 2 (fun i => hat i q) = 1) /\
  (forall q d, (q < 2)%nat -> (d < 1)%nat -> vsum 2 (fun i => hat_slope i d q) = 0) /\
  solves 2 1 2 (fun _ => 1 / 2) hat hat_slope 1 (3 / 2) (1 / 100) example_old example_new /\
  integral 2 2 (fun _ => 1 / 2) hat (example_old 0%nat) = 1 / 2 /\ integral 2 2 (fun _ => 1 / 2) hat (example_new 0%nat) = 1 / 2 /\
  energy 2 1 2 (fun _ => 1 / 2) hat hat_slope (3 / 2) example_new = 3 / 4 /\
  3 / 4 < energy 2 1 2 (fun _ => 1 / 2) hat hat_slope (3 / 2) example_old.
Proof.
  split; [intros [|[|q]] Hq; try lia; unfold hat; cbn [vsum Nat.eqb]; lra|].
  split; [intros q d Hq Hd; unfold hat_slope; cbn [vsum Nat.eqb]; lra|].
  split.
  { intros [|[|comp]] [|[|i]] Hc Hi; try lia;
    unfold solves, residual, integrated, residual_value, residual_gradient, value_q, grad_q, example_old, example_new, hat, hat_slope, df_dc;
    cbn [vsum Nat.eqb]; field. }
  split; [unfold integral, hat, example_old; cbn [vsum Nat.eqb]; lra|].
  split; [unfold integral, hat, example_new; cbn [vsum Nat.eqb]; lra|].
  split; unfold energy, value_q, grad_q, potential, hat, hat_slope, example_old, example_new; cbn [vsum Nat.eqb]; lra.
Qed.
