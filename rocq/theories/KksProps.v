(** C85: the two-phase application after Kim, Kim and Suzuki. *)
From Coq Require Import List Reals Arith Bool Lia Lra.
From Verif Require Import Util OperatorModel OperatorProps FreeEnergyProofs MobilityProofs KksModel.
Import ListNotations.
Local Open Scope R_scope.

(** C85_phases: the concentrations of the phases are the only ones that give the concentration
    of the mixture with equal chemical potentials *)
Theorem C85_phases : forall P c phi, denom P phi <> 0 ->
  phi 0%nat * calc_ca P c phi 0 + phi 1%nat * calc_ca P c phi 1 = c /\
  calc_mu (calc_ca P c phi 0) (kk P 0) (cc P 0) = calc_mu (calc_ca P c phi 1) (kk P 1) (cc P 1) /\
  forall x0 x1, phi 0%nat * x0 + phi 1%nat * x1 = c -> kk P 0 * (x0 - cc P 0) = kk P 1 * (x1 - cc P 1) ->
    x0 = calc_ca P c phi 0 /\ x1 = calc_ca P c phi 1.
Proof.
  intros P c phi H. unfold calc_ca, calc_mu, nom, linf, other, denom in *. cbn [Nat.eqb].
  split; [field; lra|]. split; [field; lra|].
  intros x0 x1 E1 E2. split.
  - apply (Rmult_eq_reg_r (kk P 0 * phi 1%nat + kk P 1 * phi 0%nat)); [|exact H].
    unfold Rdiv. rewrite Rmult_assoc, Rinv_l, Rmult_1_r by exact H. subst c.
    replace (kk P 1 * x1) with (kk P 0 * (x0 - cc P 0) + kk P 1 * cc P 1) by lra.
    transitivity (phi 1%nat * (kk P 0 * x0) + kk P 1 * phi 0%nat * x0); [ring|].
    replace (kk P 0 * x0) with (kk P 1 * (x1 - cc P 1) + kk P 0 * cc P 0) by lra. ring.
  - apply (Rmult_eq_reg_r (kk P 0 * phi 1%nat + kk P 1 * phi 0%nat)); [|exact H].
    unfold Rdiv. rewrite Rmult_assoc, Rinv_l, Rmult_1_r by exact H. subst c.
    transitivity (phi 0%nat * (kk P 1 * x1) + kk P 0 * phi 1%nat * x1); [ring|].
    replace (kk P 1 * x1) with (kk P 0 * (x0 - cc P 0) + kk P 1 * cc P 1) by lra. ring.
Qed.
Print Assumptions C85_phases.

(** C85_gradient: [calc_grad_ca] is the derivative of the concentration of a phase *)
Theorem C85_gradient : forall P c c' phi phi' a, denom P phi <> 0 ->
  derivable_pt_lim (fun t => calc_ca P (c + t * c') (fun b => phi b + t * phi' b) a) 0 (calc_grad_ca P c c' phi phi' a).
Proof.
  intros P c c' phi phi' a H.
  assert (N : derivable_pt_lim (fun t => nom P (c + t * c') (fun b => phi b + t * phi' b) a) 0 (nom P c' phi' a)).
  { apply (derivable_ext (fun t => nom P c phi a + t * nom P c' phi' a)); [|apply derivable_line]. intro t. unfold nom. ring. }
  assert (E : derivable_pt_lim (fun t => denom P (fun b => phi b + t * phi' b)) 0 (denom P phi')).
  { apply (derivable_ext (fun t => denom P phi + t * denom P phi')); [|apply derivable_line]. intro t. unfold denom. ring. }
  assert (E0 : denom P (fun b => phi b + 0 * phi' b) = denom P phi) by (unfold denom; ring).
  assert (N0 : nom P (c + 0 * c') (fun b => phi b + 0 * phi' b) a = nom P c phi a) by (unfold nom; ring).
  assert (D := derivable_pt_lim_div _ _ 0 _ _ N E). cbv beta in D. rewrite E0 in D. specialize (D H). rewrite N0 in D.
  apply (derivable_eq _ _ _ (calc_grad_ca P c c' phi phi' a)) in D; [|unfold calc_grad_ca, Rsqr; field; exact H].
  apply (derivable_ext _ _ _ _ (fun y => eq_refl)) in D. exact D.
Qed.
Print Assumptions C85_gradient.

(** the free energy of the two phases without the gradients: a well and the parts of the phases
    with their own concentrations *)
Definition energy (P : phases) (B c : R) (phi : nat -> R) : R :=
  B * (phi 0%nat * phi 0%nat) * (phi 1%nat * phi 1%nat)
  + phi 0%nat * calc_ga (calc_ca P c phi 0) (kk P 0) (cc P 0) + phi 1%nat * calc_ga (calc_ca P c phi 1) (kk P 1) (cc P 1).

(** C85_driving: the driving forces are the derivatives of this energy with respect to the
    phases, and the chemical potential the one with respect to the concentration *)
Theorem C85_driving : forall P B c c' phi phi', denom P phi <> 0 ->
  derivable_pt_lim (fun t => energy P B (c + t * c') (fun b => phi b + t * phi' b)) 0
    (vvars P B c phi 0 * phi' 0%nat + vvars P B c phi 1 * phi' 1%nat + calc_mu (calc_ca P c phi 0) (kk P 0) (cc P 0) * c').
Proof.
  intros P B c c' phi phi' H.
  assert (G := C85_gradient P c c' phi phi'). assert (G0 := G 0%nat H). assert (G1 := G 1%nat H).
  set (f0 := fun t => calc_ca P (c + t * c') (fun b => phi b + t * phi' b) 0) in *.
  set (f1 := fun t => calc_ca P (c + t * c') (fun b => phi b + t * phi' b) 1) in *.
  assert (L : forall a, derivable_pt_lim (fun t => phi a + t * phi' a) 0 (phi' a)) by (intro a; apply derivable_line).
  assert (Q : forall f l k c0, derivable_pt_lim f 0 l -> derivable_pt_lim (fun t => calc_ga (f t) k c0) 0 (k * (f 0 - c0) * l)).
  { intros f l k c0 Df.
    assert (X := derivable_minus _ _ _ _ _ Df (derivable_const0 c0 0)).
    assert (Y := derivable_scal _ _ _ (1 / 2 * k) (derivable_mult _ _ _ _ _ X X)).
    apply (derivable_eq _ _ _ (k * (f 0 - c0) * l)) in Y; [|field].
    revert Y. apply derivable_ext. intro t. unfold calc_ga. ring. }
  assert (D := derivable_plus _ _ _ _ _ (derivable_plus _ _ _ _ _
    (derivable_mult _ _ _ _ _ (derivable_mult _ _ _ _ _ (derivable_const0 B 0) (derivable_mult _ _ _ _ _ (L 0%nat) (L 0%nat)))
      (derivable_mult _ _ _ _ _ (L 1%nat) (L 1%nat)))
    (derivable_mult _ _ _ _ _ (L 0%nat) (Q f0 _ (kk P 0) (cc P 0) G0)))
    (derivable_mult _ _ _ _ _ (L 1%nat) (Q f1 _ (kk P 1) (cc P 1) G1))).
  cbv beta in D. 
  assert (F0 : f0 0 = calc_ca P c phi 0) by (unfold f0, calc_ca, nom, denom; f_equal; ring).
  assert (F1 : f1 0 = calc_ca P c phi 1) by (unfold f1, calc_ca, nom, denom; f_equal; ring).
  rewrite F0, F1 in D.
  eapply derivable_eq; [|eapply derivable_ext; [|exact D]; intro t; reflexivity].
  unfold vvars, calc_ga, calc_mu, calc_grad_ca, calc_ca, nom, linf, other. cbn [Nat.eqb]. unfold denom in *. field. exact H.
Qed.
Print Assumptions C85_driving.

(** C85_flux: the concentration flows down the gradient of the chemical potential *)
Theorem C85_flux : forall P L A D c phi c_grad phi_grad d, denom P phi <> 0 -> kk P 0 <> 0 -> kk P 1 <> 0 ->
  let grad_mu := kk P 0 * calc_grad_ca P c (c_grad d) phi (fun a => phi_grad a d) 0 in
  grad_mu = kk P 1 * calc_grad_ca P c (c_grad d) phi (fun a => phi_grad a d) 1 /\
  derivable_pt_lim (fun t => calc_mu (calc_ca P (c + t * c_grad d) (fun b => phi b + t * phi_grad b d) 0) (kk P 0) (cc P 0)) 0 grad_mu /\
  gradient_result P L A D c phi c_grad phi_grad 2 d = - (D * (phi 0%nat / kk P 0 + phi 1%nat / kk P 1)) * grad_mu /\
  (0 <= D -> 0 < kk P 0 -> 0 < kk P 1 -> 0 <= phi 0%nat -> 0 <= phi 1%nat -> gradient_result P L A D c phi c_grad phi_grad 2 d * grad_mu <= 0).
Proof.
  intros P L A D c phi c_grad phi_grad d H H0 H1 grad_mu.
  assert (E : grad_mu = kk P 1 * calc_grad_ca P c (c_grad d) phi (fun a => phi_grad a d) 1).
  { unfold grad_mu, calc_grad_ca, nom, linf, other. cbn [Nat.eqb]. unfold denom in *. field. exact H. }
  split; [exact E|]. split.
  { assert (G := C85_gradient P c (c_grad d) phi (fun a => phi_grad a d) 0 H).
    assert (X := derivable_scal _ _ _ (kk P 0) (derivable_minus _ _ _ _ _ G (derivable_const0 (cc P 0) 0))). cbv beta in X.
    eapply derivable_eq; [|eapply derivable_ext; [|exact X]; intro t; unfold calc_mu; apply Rmult_comm]. unfold grad_mu. ring. }
  assert (R : gradient_result P L A D c phi c_grad phi_grad 2 d = - (D * (phi 0%nat / kk P 0 + phi 1%nat / kk P 1)) * grad_mu).
  { cbn [gradient_result].
    assert (X0 : calc_grad_ca P c (c_grad d) phi (fun a => phi_grad a d) 0 = grad_mu / kk P 0) by (unfold grad_mu; field; exact H0).
    assert (X1 : calc_grad_ca P c (c_grad d) phi (fun a => phi_grad a d) 1 = grad_mu / kk P 1) by (rewrite E; field; exact H1).
    rewrite X0, X1. field. split; assumption. }
  split; [exact R|]. intros HD K0 K1 p0 p1. rewrite R.
  assert (Q : 0 <= phi 0%nat / kk P 0 + phi 1%nat / kk P 1).
  { apply Rplus_le_le_0_compat; (apply Rmult_le_pos; [assumption|apply Rlt_le; apply Rinv_0_lt_compat; assumption]). }
  assert (S1 := Rmult_le_pos _ _ HD Q). assert (S2 := Rle_0_sqr grad_mu). unfold Rsqr in S2.
  assert (S3 := Rmult_le_pos _ _ S1 S2). lra.
Qed.
Print Assumptions C85_flux.

(** ** Both phases together *)
Lemma sum_zero_values : forall P L B c phi, value_result P L B c phi 0 + value_result P L B c phi 1 = 0.
Proof. intros. cbn [value_result]. unfold Rdiv. ring. Qed.
Lemma sum_zero_gradients : forall P L A D c phi cg pg d, gradient_result P L A D c phi cg pg 0 d + gradient_result P L A D c phi cg pg 1 d = 0.
Proof. intros. cbn [gradient_result]. unfold Rdiv. ring. Qed.

Lemma nsz_positive : forall phi, 0 < phi 0%nat + phi 1%nat -> nsz phi <> 0.
Proof.
  intros phi H. unfold nsz, active. destruct (Rlt_dec 0 (phi 0%nat)); destruct (Rlt_dec 0 (phi 1%nat)); try lra.
Qed.

Section Run.
Variable P : phases.
Variables (L A B D : R).
Variables (n dim nq : nat) (weight : nat -> R) (shape : nat -> nat -> R) (slope : nat -> nat -> nat -> R).
(** the shape functions add up to one *)
Hypothesis unity : forall q, (q < nq)%nat -> vsum n (fun i => shape i q) = 1.
Hypothesis unity_slope : forall d q, vsum n (fun i => slope i d q) = 0.
Notation assembled := (assembled P L A B D n dim nq weight shape slope).
Notation rhs := (evaluate_rhs P L A B D n dim nq weight shape slope).
Notation evaluated := (evaluated P L A B D n dim nq weight shape slope).
Notation stages := (stages P L A B D n dim nq weight shape slope).
Notation run := (run P L A B D n dim nq weight shape slope).
Notation mass := (mass nq weight shape).

(** the integral of a field over the domain *)
Definition integral (f : nat -> R) : R := vsum nq (fun q => weight q * vsum n (fun i => shape i q * f i)).

Lemma vsum_swap : forall a b (f : nat -> nat -> R), vsum a (fun i => vsum b (fun j => f i j)) = vsum b (fun j => vsum a (fun i => f i j)).
Proof using.
  induction a as [|a IH]; intros b f; cbn [vsum]; [symmetry; apply vsum_zero|].
  rewrite IH, <- vsum_plus. reflexivity.
Qed.

(** what is assembled for the phases cancels, and for the concentration it adds up to zero *)
Lemma assembled_phases : forall y i, assembled y 0 i + assembled y 1 i = 0.
Proof using.
  intros y i. unfold KksModel.assembled. rewrite <- vsum_plus. rewrite <- (vsum_zero nq). apply vsum_ext. intros q _. cbv zeta.
  rewrite <- Rmult_plus_distr_l.
  match goal with |- weight q * (?a * ?s + ?x + (?b * ?s + ?z)) = 0 => replace (a * s + x + (b * s + z)) with ((a + b) * s + (x + z)) by ring end.
  rewrite sum_zero_values, <- vsum_plus.
  rewrite (vsum_ext dim _ (fun _ => 0)); [rewrite vsum_zero; ring|].
  intros d _. rewrite <- Rmult_plus_distr_r, sum_zero_gradients. ring.
Qed.

Lemma assembled_concentration : forall y, vsum n (fun i => assembled y 2 i) = 0.
Proof using unity unity_slope.
  intro y. unfold KksModel.assembled. rewrite vsum_swap. rewrite <- (vsum_zero nq). apply vsum_ext. intros q _. cbv zeta.
  rewrite vsum_scale, vsum_plus. cbn [value_result].
  rewrite (vsum_ext n (fun j => 0 * shape j q) (fun _ => 0)) by (intros; ring). rewrite vsum_zero, vsum_swap.
  rewrite (vsum_ext dim _ (fun _ => 0)); [rewrite vsum_zero; ring|].
  intros d _. rewrite vsum_scale, unity_slope. ring.
Qed.

Lemma mass_sum : forall f, vsum n (fun i => vsum n (fun j => mass i j * f j)) = integral f.
Proof using unity.
  intro f. rewrite vsum_swap. unfold integral, KksModel.mass.
  rewrite (vsum_ext n _ (fun j => vsum nq (fun q => weight q * (shape j q * f j)))).
  - rewrite vsum_swap. apply vsum_ext. intros q _. rewrite vsum_scale. reflexivity.
  - intros j _. rewrite (vsum_ext n _ (fun i => f j * vsum nq (fun q => weight q * (shape i q * shape j q)))) by (intros; ring).
    rewrite vsum_scale, vsum_swap, <- vsum_scale. apply vsum_ext. intros q Hq.
    rewrite (vsum_ext n _ (fun i => weight q * shape j q * shape i q)) by (intros; ring). rewrite vsum_scale, unity by exact Hq. ring.
Qed.

(** C85_increment: whatever the state is, an increment leaves the sum of the phases and the
    amount of the substance unchanged *)
Theorem C85_increment : forall y incr,
  (forall x, (forall i, (i < n)%nat -> vsum n (fun j => mass i j * x j) = 0) -> forall i, (i < n)%nat -> x i = 0) ->
  evaluated y incr ->
  (forall i, (i < n)%nat -> incr 0%nat i + incr 1%nat i = 0) /\ integral (incr 2%nat) = 0.
Proof using unity unity_slope.
  intros y incr NS (r & E & S). unfold evaluate_rhs in E. destruct (forallb _ _); [|discriminate]. injection E as <-. split.
  - apply (NS (fun i => incr 0%nat i + incr 1%nat i)). intros i Hi.
    rewrite (vsum_ext n _ (fun j => mass i j * incr 0%nat j + mass i j * incr 1%nat j)) by (intros; ring).
    rewrite vsum_plus, !S by (try lia; exact Hi). apply assembled_phases.
  - rewrite <- mass_sum. rewrite (vsum_ext n _ (fun i => assembled y 2 i)).
    + apply assembled_concentration.
    + intros i Hi. apply S; [lia|exact Hi].
Qed.

(** the sum of the phases is one at every point of every cell *)
Definition sum_one (y : nat -> nat -> R) : Prop := forall i, (i < n)%nat -> y 0%nat i + y 1%nat i = 1.

(** C85_defined: as long as the phases add up to one and have the same positive constant, no
    division by zero occurs, whatever values the phases have *)
Theorem C85_defined : forall y k, 0 < k -> kk P 0 = k -> kk P 1 = k -> sum_one y -> exists r, rhs y = Some r.
Proof using unity.
  intros y k Hk K0 K1 S. unfold evaluate_rhs.
  assert (X : forallb (fun q => defined P (fun a => value_q n shape y a q)) (seq 0 nq) = true).
  { apply forallb_forall. intros q Hq. apply in_seq in Hq.
    assert (V : value_q n shape y 0 q + value_q n shape y 1 q = 1).
    { unfold value_q. rewrite <- vsum_plus, <- (unity q) by lia. apply vsum_ext. intros i Hi. rewrite <- Rmult_plus_distr_l, S by exact Hi. ring. }
    unfold defined. destruct (Req_EM_T (denom P (fun a => value_q n shape y a q)) 0) as [E|_].
    - exfalso. unfold denom in E. rewrite K0, K1 in E. assert (Z : k * (value_q n shape y 0 q + value_q n shape y 1 q) = 0) by lra. rewrite V in Z. lra.
    - destruct (Req_EM_T (nsz (fun a => value_q n shape y a q)) 0) as [E|_]; [|reflexivity].
      exfalso. revert E. apply nsz_positive. rewrite V. lra. }
  rewrite X. eexists. reflexivity.
Qed.

(** C85_run: in a run of any explicit method the phases add up to one in all time steps and the
    amount of the substance stays the same *)
Theorem C85_run : forall rows last dts y y',
  (forall x, (forall i, (i < n)%nat -> vsum n (fun j => mass i j * x j) = 0) -> forall i, (i < n)%nat -> x i = 0) ->
  sum_one y -> run rows last dts y y' -> sum_one y' /\ integral (y' 2%nat) = integral (y 2%nat).
Proof using unity unity_slope.
  intros rows last dts y y' NS S R.
  assert (C : forall coef ks, Forall (fun k => (forall i, (i < n)%nat -> k 0%nat i + k 1%nat i = 0) /\ integral (k 2%nat) = 0) ks ->
    (forall i, (i < n)%nat -> combination coef ks 0 i + combination coef ks 1 i = 0) /\ integral (combination coef ks 2) = 0).
  { assert (Z : integral (fun _ => 0) = 0).
    { unfold integral. rewrite (vsum_ext nq _ (fun _ => 0)); [apply vsum_zero|]. intros q _.
      rewrite (vsum_ext n _ (fun _ => 0)) by (intros; ring). rewrite vsum_zero. ring. }
    induction coef as [|a coef IH]; intros ks F; [cbn [combination]; split; [intros; ring|exact Z]|].
    destruct ks as [|k ks]; [cbn [combination]; split; [intros; ring|exact Z]|].
    inversion F as [|? ? (F1 & F2) F3]; subst. destruct (IH ks F3) as (I1 & I2). cbn [combination]. split.
    - intros i Hi. transitivity (a * (k 0%nat i + k 1%nat i) + (combination coef ks 0 i + combination coef ks 1 i)); [ring|].
      rewrite F1, I1 by exact Hi. ring.
    - transitivity (a * integral (k 2%nat) + integral (combination coef ks 2)); [|rewrite F2, I2; ring].
      unfold integral. rewrite <- vsum_scale, <- vsum_plus. apply vsum_ext. intros q _.
      rewrite <- Rmult_assoc, (Rmult_comm a (weight q)), Rmult_assoc, <- Rmult_plus_distr_l. f_equal.
      rewrite <- vsum_scale, <- vsum_plus. apply vsum_ext. intros. ring. }
  assert (G : forall y dt rows ks, stages y dt rows ks ->
    Forall (fun k => (forall i, (i < n)%nat -> k 0%nat i + k 1%nat i = 0) /\ integral (k 2%nat) = 0) ks).
  { intros y0 dt rows0 ks H. induction H as [|rows0 ks row k H IH Ev]; [constructor|]. apply Forall_app. split; [exact IH|].
    constructor; [|constructor]. exact (C85_increment _ _ NS Ev). }
  induction R as [y|dt dts y y1 y2 (ks & K & ->) R IH]; [split; [exact S|reflexivity]|].
  destruct (C last ks (G _ _ _ _ K)) as (C1 & C2).
  assert (S1 : sum_one (moved y dt last ks)).
  { intros i Hi. unfold moved. transitivity ((y 0%nat i + y 1%nat i) + dt * (combination last ks 0 i + combination last ks 1 i)); [ring|].
    rewrite C1, S by exact Hi. ring. }
  destruct (IH S1) as (I1 & I2). split; [exact I1|]. rewrite I2.
  transitivity (integral (y 2%nat) + dt * integral (combination last ks 2)); [|rewrite C2; ring].
  unfold integral, moved. rewrite <- vsum_scale, <- vsum_plus. apply vsum_ext. intros q _.
  rewrite <- Rmult_assoc, (Rmult_comm dt (weight q)), Rmult_assoc, <- Rmult_plus_distr_l. f_equal.
  rewrite <- vsum_scale, <- vsum_plus. apply vsum_ext. intros. ring.
Qed.
End Run.
Print Assumptions C85_increment.
Print Assumptions C85_defined.
Print Assumptions C85_run.

(** ** The initial profile *)
Lemma cosh_pos : forall x, 0 < cosh x.
Proof. intro x. unfold cosh. assert (H1 := exp_pos x). assert (H2 := exp_pos (- x)). lra. Qed.
Lemma cosh_sinh : forall x, cosh x * cosh x - sinh x * sinh x = 1.
Proof.
  intro x. unfold cosh, sinh. assert (E : exp x * exp (- x) = 1) by (rewrite <- exp_plus, Rplus_opp_r; apply exp_0).
  transitivity (exp x * exp (- x)); [field|exact E].
Qed.
Lemma derivable_tanh : forall x, derivable_pt_lim tanh x (1 - tanh x * tanh x).
Proof.
  intro x. assert (C := cosh_pos x).
  assert (D := derivable_pt_lim_div sinh cosh x _ _ (derivable_pt_lim_sinh x) (derivable_pt_lim_cosh x)).
  specialize (D ltac:(lra)). unfold Rsqr in D.
  eapply derivable_eq; [|eapply derivable_ext; [|exact D]; intro t; reflexivity].
  unfold tanh. field. lra.
Qed.

(** C85_profile: with the initial profile, and with the concentration of the smooth interface
    which is given in a comment, the phases are at rest at an interface that is flat, no
    substance flows, and the energy of the interface grows from 0 to [gamma] across it *)
Theorem C85_profile : forall W gamma P L D x, W <> 0 ->
  let phi := fun y a => if Nat.eqb a 0 then initial_phi0 W y else initial_phi1 W y in
  exists slope_phi curvature : R -> R,
    (forall y, derivable_pt_lim (initial_phi0 W) y (slope_phi y)) /\
    (forall y, derivable_pt_lim (initial_phi1 W) y (- slope_phi y)) /\
    (forall y, derivable_pt_lim slope_phi y (curvature y)) /\
    (denom P (phi x) <> 0 ->
      let c := phi x 0%nat * cc P 0 + phi x 1%nat * cc P 1 in
      let c_grad := fun _ : nat => slope_phi x * (cc P 0 - cc P 1) in
      let phi_grad := fun a (_ : nat) => if Nat.eqb a 0 then slope_phi x else - slope_phi x in
      vvars P (constant_B W gamma) c (phi x) 0 - vvars P (constant_B W gamma) c (phi x) 1 = constant_A W gamma * (curvature x - - curvature x) /\
      gradient_result P L (constant_A W gamma) D c (phi x) c_grad phi_grad 2 0 = 0) /\
    (forall y, derivable_pt_lim (fun z => gamma * (3 * initial_phi0 W z ^ 2 - 2 * initial_phi0 W z ^ 3)) y
      (constant_B W gamma * initial_phi0 W y ^ 2 * initial_phi1 W y ^ 2
       + constant_A W gamma / 2 * (slope_phi y * slope_phi y) + constant_A W gamma / 2 * (- slope_phi y * - slope_phi y))).
Proof.
  intros W gamma P L D x HW phi.
  set (p := initial_phi0 W).
  assert (Dp : forall y, derivable_pt_lim p y (2 / W * (p y * (1 - p y)))).
  { intro y. assert (T := derivable_pt_lim_comp (fun z => z / W) tanh y (1 / W) _
      ltac:(eapply derivable_eq; [|eapply derivable_ext; [|exact (derivable_scal _ _ _ (/ W) (derivable_pt_lim_id y))]; intro t; unfold id; reflexivity]; unfold Rdiv; ring)
      (derivable_tanh (y / W))).
    assert (S := derivable_scal _ _ _ (1 / 2) (derivable_plus _ _ _ _ _ (derivable_const0 1 y) T)).
    eapply derivable_eq; [|eapply derivable_ext; [|exact S]; intro t; unfold p, initial_phi0, comp; try apply Rmult_comm; reflexivity].
    cbv beta. unfold p, initial_phi0. field. exact HW. }
  assert (Dq : forall y, derivable_pt_lim (fun z => 2 / W * (p z * (1 - p z))) y (4 / (W * W) * (p y * (1 - p y) * (1 - 2 * p y)))).
  { intro y. assert (S := derivable_scal _ _ _ (2 / W) (derivable_mult _ _ _ _ _ (Dp y) (derivable_minus _ _ _ _ _ (derivable_const0 1 y) (Dp y)))).
    eapply derivable_eq; [|eapply derivable_ext; [|exact S]; intro t; try apply Rmult_comm; reflexivity]. cbv beta. field. exact HW. }
  exists (fun y => 2 / W * (p y * (1 - p y))), (fun y => 4 / (W * W) * (p y * (1 - p y) * (1 - 2 * p y))).
  split; [exact Dp|]. split.
  { intro y. assert (S := derivable_minus _ _ _ _ _ (derivable_const0 1 y) (Dp y)).
    eapply derivable_eq; [|eapply derivable_ext; [|exact S]; intro t; reflexivity]. cbv beta. ring. }
  split; [exact Dq|]. split.
  - intros H c c_grad phi_grad.
    assert (P0 : phi x 0%nat = p x) by reflexivity. assert (P1 : phi x 1%nat = 1 - p x) by reflexivity.
    destruct (C85_phases P c (phi x) H) as (_ & _ & U).
    destruct (U (cc P 0) (cc P 1) eq_refl ltac:(ring)) as (U0 & U1).
    split.
    + unfold vvars. rewrite <- U0, <- U1. unfold calc_ga, calc_mu, other, constant_A, constant_B. cbn [Nat.eqb]. rewrite P0, P1. field. exact HW.
    + cbn [gradient_result]. unfold c_grad, phi_grad. cbv beta.
      assert (Z : forall a, (a < 2)%nat -> calc_grad_ca P c (2 / W * (p x * (1 - p x)) * (cc P 0 - cc P 1)) (phi x)
          (fun a0 => if Nat.eqb a0 0 then 2 / W * (p x * (1 - p x)) else - (2 / W * (p x * (1 - p x)))) a = 0).
      { assert (H' := H). unfold denom in H'. rewrite P0, P1 in H'.
        intros a Ha. unfold calc_grad_ca, nom, linf, other, c, denom.
        destruct a as [|[|a]]; [| |lia]; cbn [Nat.eqb]; rewrite P0, P1; field; (split; [exact HW|exact H'] || (split; [exact H'|exact HW])). }
      rewrite !Z by lia. ring.
  - intro y. assert (S := derivable_scal _ _ _ gamma (derivable_minus _ _ _ _ _
      (derivable_scal _ _ _ 3 (derivable_mult _ _ _ _ _ (Dp y) (Dp y)))
      (derivable_scal _ _ _ 2 (derivable_mult _ _ _ _ _ (Dp y) (derivable_mult _ _ _ _ _ (Dp y) (Dp y)))))).
    eapply derivable_eq; [|eapply derivable_ext; [|exact S]; intro t; fold p; cbv beta; ring].
    cbv beta. unfold constant_A, constant_B, initial_phi1. fold p. field. exact HW.
Qed.
Print Assumptions C85_profile.

(** ** Where the phases leave the range between zero and one *)
Definition code_phases : phases := mkPhases (fun _ => 500) (fun a => if Nat.eqb a 0 then 2 / 100 else 98 / 100).
Definition one_point (comp i : nat) : R := if Nat.eqb comp 0 then 1 else if Nat.eqb comp 1 then 0 else 1 / 100.

(** C85_bound_refuted: where only phase 0 is present and the concentration is below the
    equilibrium one, every step of the method of Euler makes the share of the phase larger than
    one and the share of the other phase negative *)
Theorem C85_bound_refuted : forall L A B D dt, 0 < L -> 0 < dt ->
  sum_one 1 one_point /\
  exists y', run code_phases L A B D 1 0 1 (fun _ => 1) (fun _ _ => 1) (fun _ _ _ => 0) [[]] [1] [dt] one_point y' /\
    1 < y' 0%nat 0%nat /\ y' 1%nat 0%nat < 0.
Proof.
  intros L A B D dt HL Hdt. split; [intros i _; unfold one_point; cbn [Nat.eqb]; ring|].
  set (incr := fun comp (_ : nat) => value_result code_phases L B (1 / 100) (fun a => if Nat.eqb a 0 then 1 else 0) comp).
  assert (V0 : incr 0%nat 0%nat = 24 / 5 * L).
  { unfold incr. cbn [value_result]. unfold nsz, active, vvars, calc_ga, calc_mu, calc_ca, nom, denom, linf, other, code_phases. cbn [Nat.eqb kk cc].
    destruct (Rlt_dec 0 1); [|lra]. destruct (Rlt_dec 0 0); [lra|]. field. }
  assert (V1 : incr 1%nat 0%nat = - (24 / 5 * L)).
  { rewrite <- V0. unfold incr. cbn [value_result]. unfold Rdiv. ring. }
  exists (moved one_point dt [1] [incr]). split.
  - eapply run_step; [|apply run_end]. exists [incr]. split; [|reflexivity].
    apply (stages_next _ _ _ _ _ _ _ _ _ _ _ one_point dt [] [] [] incr); [constructor|].
    assert (V : forall a q, value_q 1 (fun _ _ => 1) (moved one_point dt [] []) a q = if Nat.eqb a 0 then 1 else if Nat.eqb a 1 then 0 else 1 / 100).
    { intros a q. unfold value_q. cbn [vsum]. unfold moved, one_point. cbn [combination]. ring. }
    assert (F : forallb (fun q => defined code_phases (fun a => value_q 1 (fun _ _ => 1) (moved one_point dt [] []) a q)) (seq 0 1) = true).
    { cbn [seq forallb]. unfold defined, denom, nsz. rewrite !V. cbn [Nat.eqb]. unfold active, code_phases. cbn [kk].
      destruct (Req_EM_T (500 * 0 + 500 * 1) 0); [lra|]. destruct (Rlt_dec 0 1); [|lra]. destruct (Rlt_dec 0 0); [lra|].
      destruct (Req_EM_T (1 + 0) 0); [lra|]. reflexivity. }
    eexists. split.
    + unfold evaluate_rhs. rewrite F. reflexivity.
    + intros comp i _ _. unfold assembled, mass. cbv zeta. cbn [vsum]. unfold incr.
      replace (value_result code_phases L B (value_q 1 (fun _ _ => 1) (moved one_point dt [] []) 2 0)
        (fun a => value_q 1 (fun _ _ => 1) (moved one_point dt [] []) a 0) comp)
        with (value_result code_phases L B (1 / 100) (fun a => if Nat.eqb a 0 then 1 else 0) comp); [ring|].
      rewrite V. cbn [Nat.eqb]. destruct comp as [|[|comp]]; cbn [value_result]; try reflexivity;
      unfold nsz, vvars, calc_ca, nom, denom, other; cbn [Nat.eqb]; rewrite !V; cbn [Nat.eqb]; reflexivity.
  - unfold moved. cbn [combination]. rewrite V0, V1. unfold one_point. cbn [Nat.eqb]. 
    assert (X := Rmult_lt_0_compat _ _ HL Hdt). split; lra.
Qed.
Print Assumptions C85_bound_refuted.

(** the initial values of two neighbouring nodes meet the hypotheses of [C85_run] and the step
    exists; [shape] and [slope] are those of a linear element of length one, with the trapezoidal
    rule *)
Definition hat (i q : nat) : R := if Nat.eqb i q then 1 else 0.
Definition hat_slope (i d q : nat) : R := if Nat.eqb i 0 then -1 else 1.
Example C85_run_example : forall L A B D dt, let W := 1 / 10 in
  let y := fun comp i => match comp with 0%nat => initial_phi0 W (INR i) | 1%nat => initial_phi1 W (INR i) | _ => 98 / 100 end in
  (forall q, (q < 2)%nat -> vsum 2 (fun i => hat i q) = 1) /\ (forall d q, vsum 2 (fun i => hat_slope i d q) = 0) /\
  (forall x, (forall i, (i < 2)%nat -> vsum 2 (fun j => mass 2 (fun _ => 1 / 2) hat i j * x j) = 0) -> forall i, (i < 2)%nat -> x i = 0) /\
  sum_one 2 y /\
  exists y', run code_phases L A B D 2 1 2 (fun _ => 1 / 2) hat hat_slope [[]] [1] [dt] y y'.
Proof.
  intros L A B D dt W y.
  assert (M : forall (x : nat -> R) i, (i < 2)%nat -> vsum 2 (fun j => mass 2 (fun _ => 1 / 2) hat i j * x j) = 1 / 2 * x i).
  { intros x i Hi. unfold mass, hat. cbn [vsum]. destruct i as [|[|i]]; [| |lia]; cbn [Nat.eqb]; ring. }
  assert (H1 : forall q, (q < 2)%nat -> vsum 2 (fun i => hat i q) = 1).
  { intros q Hq. unfold hat. cbn [vsum]. destruct q as [|[|q]]; [| |lia]; cbn [Nat.eqb]; ring. }
  split; [exact H1|]. split; [intros; unfold hat_slope; cbn [vsum Nat.eqb]; ring|]. split.
  { intros x H i Hi. assert (E := H i Hi). rewrite M in E by exact Hi. lra. }
  assert (S : sum_one 2 y) by (intros i _; unfold y, initial_phi1; ring). split; [exact S|].
  assert (R : exists r, evaluate_rhs code_phases L A B D 2 1 2 (fun _ => 1 / 2) hat hat_slope (moved y dt [] []) = Some r).
  { unfold evaluate_rhs.
    assert (X : forallb (fun q => defined code_phases (fun a => value_q 2 hat (moved y dt [] []) a q)) (seq 0 2) = true).
    { apply forallb_forall. intros q Hq. apply in_seq in Hq.
      assert (V : value_q 2 hat (moved y dt [] []) 0 q + value_q 2 hat (moved y dt [] []) 1 q = 1).
      { unfold value_q. rewrite <- vsum_plus, <- (H1 q) by lia. apply vsum_ext. intros i Hi. unfold moved. cbn [combination].
        rewrite !Rmult_0_r, !Rplus_0_r, <- Rmult_plus_distr_l, S by exact Hi. ring. }
      unfold defined. destruct (Req_EM_T (denom _ _) 0) as [E|_]; [unfold denom, code_phases in E; cbn [kk] in E; lra|].
      destruct (Req_EM_T (nsz _) 0) as [E|_]; [|reflexivity].
      exfalso. revert E. apply nsz_positive. rewrite V. lra. }
    rewrite X. eexists. reflexivity. }
  destruct R as (r & R). exists (moved y dt [1] [fun comp i => 2 * r comp i]).
  eapply run_step; [|apply run_end]. exists [fun comp i => 2 * r comp i]. split; [|reflexivity].
  apply (stages_next _ _ _ _ _ _ _ _ _ _ _ y dt [] [] []); [constructor|].
  exists r. split; [exact R|]. intros comp i _ Hi. rewrite M by exact Hi. field.
Qed.
