(** C88: the applications for the equation of Allen and Cahn. *)
From Coq Require Import List Reals Arith Bool Lia Lra.
From Verif Require Import Util OperatorModel OperatorProps FreeEnergyProofs MobilityProofs CahnHilliardModel AllenCahnModel.
From Verif Require KksProps CahnHilliardProps.
Local Open Scope R_scope.

Definition well (phi : R) : R := 1 / 2 * (phi * phi - 1) ^ 2.

(** C88_potential: the two functions are the derivatives of the double well with the phases -1
    and 1; its curvature is nowhere below -2 *)
Theorem C88_potential : forall phi,
  derivable_pt_lim well phi (df_dphi phi) /\ derivable_pt_lim df_dphi phi (d2f_dphi2 phi) /\ -2 <= d2f_dphi2 phi /\
  (df_dphi phi = 0 <-> phi = 0 \/ phi = 1 \/ phi = -1) /\
  (forall psi, well 1 <= well psi /\ well (-1) <= well psi) /\ d2f_dphi2 0 < 0.
Proof.
  intro c. assert (I : derivable_pt_lim (fun t => t) c 1) by apply derivable_pt_lim_id.
  assert (I2 : derivable_pt_lim (fun t => t * t) c (1 * c + c * 1)) by (apply (derivable_mult (fun t => t) (fun t => t)); exact I).
  split; [|split; [|split; [|split; [|split]]]].
  - assert (J : derivable_pt_lim (fun t => t * t - 1) c (1 * c + c * 1 - 0)) by (apply derivable_minus; [exact I2|apply derivable_const0]).
    assert (J2 := derivable_mult _ _ _ _ _ J J). cbv beta in J2.
    assert (J3 := derivable_scal _ _ _ (1 / 2) J2). cbv beta in J3.
    eapply derivable_eq; [|eapply derivable_ext; [|exact J3]]; [unfold df_dphi; field|intro t; unfold well; field].
  - assert (I3 := derivable_mult _ _ _ _ _ I2 I). cbv beta in I3.
    assert (J := derivable_minus _ _ _ _ _ (derivable_scal _ _ _ 2 I3) (derivable_scal _ _ _ 2 I)). cbv beta in J.
    eapply derivable_eq; [|exact J]. unfold d2f_dphi2. ring.
  - unfold d2f_dphi2. assert (H := Rle_0_sqr c). unfold Rsqr in H. lra.
  - unfold df_dphi. split.
    + intro H. assert (Z : c * ((c - 1) * (c + 1)) = 0) by lra. apply Rmult_integral in Z. destruct Z as [Z|Z]; [left; exact Z|].
      apply Rmult_integral in Z. destruct Z; [right; left|right; right]; lra.
    + intros [-> | [-> | -> ]]; ring.
  - intro psi. unfold well. assert (H := pow2_ge_0 (psi * psi - 1)). split.
    + replace (1 / 2 * (1 * 1 - 1) ^ 2) with 0 by field. lra.
    + replace (1 / 2 * (-1 * -1 - 1) ^ 2) with 0 by field. lra.
  - unfold d2f_dphi2. lra.
Qed.
Print Assumptions C88_potential.

Lemma well_below : forall a b, well a - well b <= df_dphi a * (a - b) + (a - b) * (a - b).
Proof.
  intros a b.
  assert (E : df_dphi a * (a - b) + (a - b) * (a - b) - (well a - well b) = (a - b) * (a - b) * (a * a + 1 / 2 * (a + b) ^ 2)).
  { unfold df_dphi, well. field. }
  assert (H1 := pow2_ge_0 (a + b)). assert (H2 := Rle_0_sqr a). unfold Rsqr in H2.
  assert (H : 0 <= (a - b) * (a - b) * (a * a + 1 / 2 * (a + b) ^ 2)) by (apply Rmult_le_pos; [apply Rle_0_sqr|lra]). lra.
Qed.

Section Domain.
Variables (n dim nq : nat) (weight : nat -> R) (shape : nat -> nat -> R) (slope : nat -> nat -> nat -> R).
Variables (M kappa dt : R).
Notation value_q := (value_q n shape).
Notation grad_q := (grad_q n slope).
Notation integrated := (integrated dim nq weight shape slope).
Notation residual_two := (residual_two n dim nq weight shape slope M kappa dt).
Notation vmult_two := (vmult_two n dim nq weight shape slope M kappa dt).
Notation solves_two := (solves_two n dim nq weight shape slope M kappa dt).
Notation explicit_step := (explicit_step n dim nq weight shape slope M kappa dt).
Notation line := CahnHilliardProps.line.

(** C88_jacobian: with two phases the operator of the linearised problem is the derivative of the
    residual *)
Theorem C88_jacobian : forall old y x comp i,
  derivable_pt_lim (fun t => residual_two old (line y x t) comp i) 0 (vmult_two (evaluate_newton_step n shape y) x comp i).
Proof using.
  intros. unfold AllenCahnModel.residual_two, AllenCahnModel.vmult_two, CahnHilliardModel.integrated, evaluate_newton_step.
  apply (vsum_deriv nq (fun q t => weight q * ((value_q (line y x t) q comp - value_q old q comp + dt * M * df_dphi (value_q (line y x t) q comp)) * shape i q +
     vsum dim (fun d => dt * M * kappa * grad_q (line y x t) q comp d * slope i d q)))).
  intros q _. apply CahnHilliardProps.derivable_scal_l. apply derivable_plus.
  - apply derivable_scal. set (a := value_q y q comp). set (b := value_q x q comp).
    apply (derivable_ext (fun t => (a + t * b - value_q old q comp) + dt * M * df_dphi (a + t * b))).
    { intro t. rewrite CahnHilliardProps.value_line. reflexivity. }
    eapply derivable_eq; [|apply derivable_plus; [apply derivable_minus; [apply derivable_line|apply derivable_const0]|]].
    2:{ apply CahnHilliardProps.derivable_scal_l. apply (derivable_pt_lim_comp (fun t => a + t * b) df_dphi 0 b (d2f_dphi2 a)); [apply derivable_line|].
        replace (a + 0 * b) with a by ring. apply (C88_potential a). }
    ring.
  - apply (vsum_deriv dim (fun d t => dt * M * kappa * grad_q (line y x t) q comp d * slope i d q)).
    intros d _. apply derivable_scal. apply (derivable_ext (fun t => dt * M * kappa * (grad_q y q comp d + t * grad_q x q comp d))).
    { intro t. rewrite CahnHilliardProps.grad_line. reflexivity. }
    apply CahnHilliardProps.derivable_scal_l, derivable_line.
Qed.

(** C88_symmetric: it is symmetric, and positive as soon as [2 * dt * M < 1], as the method of
    conjugate gradients requires, whatever the linearisation point is *)
Theorem C88_symmetric : forall lin x z comp,
  vsum n (fun i => z comp i * vmult_two lin x comp i) = vsum n (fun i => x comp i * vmult_two lin z comp i) /\
  ((forall q, (q < nq)%nat -> 0 <= weight q) -> 0 <= dt * M -> 0 <= kappa ->
   (1 - 2 * (dt * M)) * vsum nq (fun q => weight q * (value_q x q comp * value_q x q comp)) <= vsum n (fun i => x comp i * vmult_two lin x comp i)).
Proof using.
  intros lin x z comp. unfold AllenCahnModel.vmult_two. rewrite !CahnHilliardProps.tested. split.
  - apply vsum_ext. intros q _. f_equal. f_equal; [ring|]. apply vsum_ext. intros d _. ring.
  - intros W HM HK. rewrite <- vsum_scale. apply CahnHilliardProps.vsum_le. intros q Hq. specialize (W q Hq).
    rewrite <- Rmult_assoc, (Rmult_comm _ (weight q)), Rmult_assoc. apply Rmult_le_compat_l; [exact W|].
    assert (P := proj1 (proj2 (proj2 (C88_potential (lin q comp))))). set (v := value_q x q comp).
    assert (G : 0 <= vsum dim (fun d => dt * M * kappa * grad_q x q comp d * grad_q x q comp d)).
    { rewrite <- (vsum_zero dim). apply CahnHilliardProps.vsum_le. intros d _. rewrite Rmult_assoc.
      apply Rmult_le_pos; [apply Rmult_le_pos; assumption|apply Rle_0_sqr]. }
    assert (V : 0 <= v * v) by apply Rle_0_sqr.
    assert (X : dt * M * (-2) <= dt * M * d2f_dphi2 (lin q comp)) by (apply Rmult_le_compat_l; [exact HM|exact P]).
    assert (Y : (1 - 2 * (dt * M)) * (v * v) <= (1 + dt * M * d2f_dphi2 (lin q comp)) * (v * v)) by (apply Rmult_le_compat_r; [exact V|lra]).
    rewrite (Rmult_assoc _ v v). lra.
Qed.

(** [E = int f(phi) + kappa/2 |grad phi|^2] *)
Definition energy (y : fields) (comp : nat) : R :=
  vsum nq (fun q => weight q * (well (value_q y q comp) + vsum dim (fun d => kappa / 2 * (grad_q y q comp d * grad_q y q comp d)))).
Definition change (y old : fields) (comp : nat) : R :=
  vsum nq (fun q => weight q * ((value_q y q comp - value_q old q comp) * (value_q y q comp - value_q old q comp))).

(** C88_energy: with two phases a solution of a step has a lower energy for each phase as long as
    [dt * M <= 1] *)
Theorem C88_energy : forall old y comp, (comp < 2)%nat -> (forall q, (q < nq)%nat -> 0 <= weight q) -> 0 < dt * M -> 0 <= kappa ->
  solves_two old y -> dt * M * energy y comp + (1 - dt * M) * change y old comp <= dt * M * energy old comp.
Proof using.
  intros old y comp Hc W HM HK S. set (s := dt * M) in *.
  set (delta := fun comp i => y comp i - old comp i).
  assert (VD : forall q, value_q delta q comp = value_q y q comp - value_q old q comp).
  { intro q. unfold CahnHilliardModel.value_q, delta. replace (vsum n (fun i => shape i q * y comp i) - vsum n (fun i => shape i q * old comp i))
      with (1 * vsum n (fun i => shape i q * y comp i) + (-1) * vsum n (fun i => shape i q * old comp i)) by ring.
    rewrite <- vsum_lin. apply vsum_ext. intros. ring. }
  assert (GD : forall q d, grad_q delta q comp d = grad_q y q comp d - grad_q old q comp d).
  { intros q d. unfold CahnHilliardModel.grad_q, delta. replace (vsum n (fun i => slope i d q * y comp i) - vsum n (fun i => slope i d q * old comp i))
      with (1 * vsum n (fun i => slope i d q * y comp i) + (-1) * vsum n (fun i => slope i d q * old comp i)) by ring.
    rewrite <- vsum_lin. apply vsum_ext. intros. ring. }
  assert (T : vsum nq (fun q => weight q * ((value_q y q comp - value_q old q comp + s * df_dphi (value_q y q comp)) * value_q delta q comp +
      vsum dim (fun d => s * kappa * grad_q y q comp d * grad_q delta q comp d))) = 0).
  { rewrite <- (CahnHilliardProps.tested n dim nq weight shape slope (fun q comp => value_q y q comp - value_q old q comp + s * df_dphi (value_q y q comp))
                  (fun q comp d => s * kappa * grad_q y q comp d)).
    rewrite (vsum_ext n _ (fun _ => 0)); [apply vsum_zero|]. intros i Hi.
    assert (E := S comp i Hc Hi). unfold AllenCahnModel.residual_two in E. fold s in E. rewrite E. ring. }
  unfold energy, change.
  match goal with |- ?a * ?A + ?b * ?B <= ?c * ?C => enough (H : a * A + b * B + (- c) * C <= 0) by lra end.
  rewrite <- T. rewrite <- !vsum_scale, <- !vsum_plus. apply CahnHilliardProps.vsum_le. intros q Hq. specialize (W q Hq). rewrite VD.
  set (a := value_q y q comp). set (b := value_q old q comp).
  assert (P := well_below a b).
  assert (G : s * vsum dim (fun d => kappa / 2 * (grad_q y q comp d * grad_q y q comp d)) + - s * vsum dim (fun d => kappa / 2 * (grad_q old q comp d * grad_q old q comp d))
     <= vsum dim (fun d => s * kappa * grad_q y q comp d * grad_q delta q comp d)).
  { rewrite <- !vsum_scale, <- !vsum_plus. apply CahnHilliardProps.vsum_le. intros d _. rewrite GD.
    set (g := grad_q y q comp d). set (g0 := grad_q old q comp d).
    assert (0 <= s * kappa * (g - g0) ^ 2) by (apply Rmult_le_pos; [apply Rmult_le_pos; lra|apply pow2_ge_0]).
    assert (E : s * kappa * g * (g - g0) - (s * (kappa / 2 * (g * g)) + - s * (kappa / 2 * (g0 * g0))) = 1 / 2 * (s * kappa * (g - g0) ^ 2)) by field. lra. }
  set (X1 := vsum dim (fun d => kappa / 2 * (grad_q y q comp d * grad_q y q comp d))) in *.
  set (X2 := vsum dim (fun d => kappa / 2 * (grad_q old q comp d * grad_q old q comp d))) in *.
  set (Y1 := vsum dim (fun d => s * kappa * grad_q y q comp d * grad_q delta q comp d)) in *.
  assert (P' : s * (well a - well b) <= s * (df_dphi a * (a - b) + (a - b) * (a - b))) by (apply Rmult_le_compat_l; [lra|exact P]).
  assert (F : s * (well a + X1) + (1 - s) * ((a - b) * (a - b)) + - s * (well b + X2) <= (a - b + s * df_dphi a) * (a - b) + Y1) by lra.
  apply (Rmult_le_compat_l (weight q)) in F; [|exact W].
  match type of F with ?l <= ?r => match goal with |- ?l' <= ?r' => replace l' with l by ring; replace r' with r by ring; exact F end end.
Qed.

(** ** Uniform states *)
Section Unity.
Hypothesis unity : forall q, (q < nq)%nat -> vsum n (fun i => shape i q) = 1.
Hypothesis unity_slope : forall q d, (q < nq)%nat -> (d < dim)%nat -> vsum n (fun i => slope i d q) = 0.
Hypothesis regular : forall x, (forall i, (i < n)%nat -> vsum n (fun j => mass nq weight shape i j * x j) = 0) -> forall i, (i < n)%nat -> x i = 0.

Definition uniform (y : fields) (comp : nat) (c : R) : Prop := forall i, (i < n)%nat -> y comp i = c.
Lemma uniform_value : forall y comp c q, uniform y comp c -> (q < nq)%nat -> value_q y q comp = c.
Proof using unity.
  intros y comp c q U Hq. unfold CahnHilliardModel.value_q. rewrite (vsum_ext n _ (fun i => c * shape i q)) by (intros i Hi; rewrite U by exact Hi; ring).
  rewrite vsum_scale, unity by exact Hq. ring.
Qed.
Lemma uniform_grad : forall y comp c q d, uniform y comp c -> (q < nq)%nat -> (d < dim)%nat -> grad_q y q comp d = 0.
Proof using unity_slope.
  intros y comp c q d U Hq Hd. unfold CahnHilliardModel.grad_q. rewrite (vsum_ext n _ (fun i => c * slope i d q)) by (intros i Hi; rewrite U by exact Hi; ring).
  rewrite vsum_scale, unity_slope by assumption. ring.
Qed.

(** C88_uniform: a step of an explicit program takes a uniform phase to the uniform phase of one
    step of Euler for [phi' = - M f'(phi)] *)
Theorem C88_uniform : forall comps y y' comp c, (comp < comps)%nat -> uniform y comp c -> explicit_step comps y y' ->
  uniform y' comp (c - dt * M * df_dphi c).
Proof using unity unity_slope regular.
  intros comps y y' comp c Hc U S. set (c' := c - dt * M * df_dphi c).
  assert (E : forall i, (i < n)%nat -> (fun i => y' comp i - c') i = 0).
  { apply regular. intros i Hi.
    rewrite (vsum_ext n _ (fun j => 1 * (mass nq weight shape i j * y' comp j) + (- c') * mass nq weight shape i j)) by (intros; ring).
    rewrite vsum_lin, S by assumption. unfold AllenCahnModel.explicit_rhs, CahnHilliardModel.integrated, mass.
    rewrite KksProps.vsum_swap.
    match goal with |- 1 * ?A + - c' * ?B = 0 => enough (X : A = c' * B) by lra end. rewrite <- vsum_scale. apply vsum_ext. intros q Hq.
    rewrite (uniform_value y comp c q U Hq). fold c'.
    rewrite (vsum_ext dim _ (fun _ => 0)) by (intros d Hd; rewrite (uniform_grad y comp c q d U Hq Hd); ring).
    rewrite vsum_zero. rewrite (vsum_ext n _ (fun j => weight q * shape i q * shape j q)) by (intros; ring).
    rewrite vsum_scale, unity by exact Hq. ring. }
  intros i Hi. specialize (E i Hi). cbv beta in E. lra.
Qed.
End Unity.
End Domain.
Print Assumptions C88_jacobian. Print Assumptions C88_symmetric. Print Assumptions C88_energy. Print Assumptions C88_uniform.

(** ** The initial values and the phase that is missing *)
(** C88_initial: all initial values are strictly between 0 and 1, where 1 is a phase and 0 is not *)
Theorem C88_initial : forall comp dist1 dist2,
  0 < initial_one dist1 < 1 /\ 0 < initial_impl_two comp dist1 < 1 /\ 0 < initial_two comp dist1 dist2 < 1.
Proof.
  intros comp dist1 dist2. unfold initial_one, initial_impl_two, initial_two.
  assert (A := CahnHilliardProps.tanh_range (2 * (dist1 - 20))).
  assert (B := CahnHilliardProps.tanh_range (2 * (dist1 - 20 / (INR comp + 1)))).
  assert (C := CahnHilliardProps.tanh_range (2 * (dist2 - 15))).
  split; [lra|]. split; [lra|]. destruct (Nat.eqb comp 0); lra.
Qed.
Print Assumptions C88_initial.

(** [k] steps of Euler *)
Fixpoint euler (s : R) (k : nat) (c : R) : R := match k with O => c | S k => euler s k (c - s * df_dphi c) end.

Lemma euler_grows : forall s c, 0 < s <= 1 / 4 -> 0 < c < 1 -> c < c - s * df_dphi c < 1.
Proof.
  intros s c Hs Hc. unfold df_dphi.
  assert (P : 0 < s * c * ((1 - c) * (1 + c))) by (apply Rmult_lt_0_compat; [apply Rmult_lt_0_compat; lra|apply Rmult_lt_0_compat; lra]).
  assert (Q' : s * c * (1 + c) < 1 / 2).
  { assert (c * (1 + c) < 2) by (assert (c * c < 1 * 1) by (apply Rmult_gt_0_lt_compat; lra); lra).
    assert (0 < c * (1 + c)) by (apply Rmult_lt_0_compat; lra).
    apply Rle_lt_trans with (1 / 4 * (c * (1 + c))); [rewrite Rmult_assoc; apply Rmult_le_compat_r; lra|lra]. }
  assert (Z : 0 < (1 - c) * (1 - 2 * (s * c * (1 + c)))) by (apply Rmult_lt_0_compat; lra).
  split; [lra|]. replace (c - s * (c * c * c * 2 - c * 2)) with (1 - (1 - c) * (1 - 2 * (s * c * (1 + c)))) by ring. lra.
Qed.
Lemma euler_range : forall s k c, 0 < s <= 1 / 4 -> 0 < c < 1 -> c <= euler s k c < 1.
Proof.
  intros s k. induction k as [|k IH]; intros c Hs Hc; cbn [euler]; [lra|].
  assert (G := euler_grows s c Hs Hc). specialize (IH (c - s * df_dphi c) Hs ltac:(lra)). lra.
Qed.
Lemma euler_snoc : forall s k c, euler s (S k) c = euler s k c - s * df_dphi (euler s k c).
Proof. intros s k. induction k as [|k IH]; intro c; [reflexivity|]. cbn [euler] in *. rewrite IH. reflexivity. Qed.

(** C88_background_refuted: the region outside of the particles, which the initial values put
    close to 0, does not stay without the phase: however small the uniform value is there, it
    exceeds any value below 1 after finitely many steps *)
Theorem C88_background_refuted : forall s c target, 0 < s <= 1 / 4 -> 0 < c < 1 -> target < 1 ->
  exists k0, forall k, (k0 <= k)%nat -> target <= euler s k c < 1.
Proof.
  intros s c target Hs Hc Ht.
  destruct (Rle_or_lt target c) as [L|L].
  { exists 0%nat. intros k _. assert (R0 := euler_range s k c Hs Hc). lra. }
  set (step := 2 * s * (c * (1 - target))).
  assert (SP : 0 < step) by (unfold step; apply Rmult_lt_0_compat; [lra|apply Rmult_lt_0_compat; lra]).
  assert (G : forall k, target <= euler s k c \/ c + INR k * step <= euler s k c).
  { induction k as [|k IH]; [right; cbn [INR euler]; lra|]. rewrite euler_snoc, S_INR.
    assert (R0 := euler_range s k c Hs Hc). set (e := euler s k c) in *.
    assert (R1 := euler_grows s e Hs ltac:(lra)).
    destruct (Rle_or_lt target e) as [T|T]; [left; lra|]. destruct IH as [IH|IH]; [lra|]. right.
    assert (ST : step <= - s * df_dphi e).
    { unfold step, df_dphi. replace (- s * (e * e * e * 2 - e * 2)) with (2 * s * (e * (1 - e) * (1 + e))) by ring.
      apply Rmult_le_compat_l; [lra|].
      apply Rle_trans with (e * (1 - e)).
      - apply Rmult_le_compat; lra.
      - rewrite <- (Rmult_1_r (e * (1 - e))) at 1. apply Rmult_le_compat_l; [apply Rmult_le_pos; lra|lra]. }
    lra. }
  destruct (archimed_cor1 step SP) as (N & HN & NP).
  assert (INN : 0 < INR N) by (apply lt_0_INR; exact NP).
  assert (ONE : 1 < INR N * step).
  { apply Rmult_lt_reg_l with (/ INR N); [apply Rinv_0_lt_compat; exact INN|]. rewrite <- Rmult_assoc, Rinv_l by lra. lra. }
  assert (T0 : target <= euler s N c).
  { destruct (G N) as [T|T]; [exact T|]. assert (R0 := euler_range s N c Hs Hc). lra. }
  exists N. intros k Hk. induction Hk as [|k Hk IH].
  - assert (R0 := euler_range s N c Hs Hc). lra.
  - rewrite euler_snoc. assert (R0 := euler_range s k c Hs Hc). assert (R1 := euler_grows s (euler s k c) Hs ltac:(lra)). lra.
Qed.
Print Assumptions C88_background_refuted.

(** C88_uniform_run: that is what the explicit programs compute in every run from a uniform phase,
    on every mesh: the phase tends to 1 *)
Theorem C88_uniform_run : forall n dim nq weight shape slope M kappa dt comps (ys : nat -> fields) comp c target,
  (forall q, (q < nq)%nat -> vsum n (fun i => shape i q) = 1) ->
  (forall q d, (q < nq)%nat -> (d < dim)%nat -> vsum n (fun i => slope i d q) = 0) ->
  (forall x, (forall i, (i < n)%nat -> vsum n (fun j => mass nq weight shape i j * x j) = 0) -> forall i, (i < n)%nat -> x i = 0) ->
  (comp < comps)%nat -> (forall k, explicit_step n dim nq weight shape slope M kappa dt comps (ys k) (ys (S k))) ->
  uniform n (ys 0%nat) comp c -> 0 < dt * M <= 1 / 4 -> 0 < c < 1 -> target < 1 ->
  (forall k i, (i < n)%nat -> c <= ys k comp i < 1) /\
  exists k0, forall k i, (k0 <= k)%nat -> (i < n)%nat -> target <= ys k comp i < 1.
Proof.
  intros n dim nq weight shape slope M kappa dt comps ys comp c target U US RG Hc ST U0 Hs Hr Ht.
  assert (E : forall k, uniform n (ys k) comp (euler (dt * M) k c)).
  { induction k as [|k IH]; [exact U0|]. rewrite euler_snoc.
    exact (C88_uniform n dim nq weight shape slope M kappa dt U US RG comps (ys k) (ys (S k)) comp _ Hc IH (ST k)). }
  split.
  - intros k i Hi. rewrite (E k i Hi). apply euler_range; assumption.
  - destruct (C88_background_refuted (dt * M) c target Hs Hr Ht) as (k0 & G). exists k0. intros k i Hk Hi. rewrite (E k i Hi). apply G. exact Hk.
Qed.
Print Assumptions C88_uniform_run.

(** ** The implicit program with one phase *)
(** a domain with one function and one point, where all states are uniform *)
Definition one_shape (i q : nat) : R := 1.
Definition one_slope (i d q : nat) : R := 0.
Definition state (c : R) : fields := fun _ _ => c.
Lemma one_residual : forall M kappa dt a c, residual_one 1 1 1 (fun _ => 1) one_shape one_slope M kappa dt (state a) (state c) 0 0
  = (1 + dt * M * df_dphi c) * c - a.
Proof.
  intros. unfold residual_one, integrated, value_q, grad_q, one_shape, one_slope, state. cbn [vsum].
  replace (0 + 1 * c) with c by ring. replace (0 + 1 * a) with a by ring. ring.
Qed.

(** C88_one_refuted: the residual of the program with one phase multiplies the derivative of the
    double well by the phase once more (the source asks "is that really correct???"): there are
    steps that end nearer to the unstable state and with a higher energy, and the residual of
    the program with two phases is not zero there *)
Theorem C88_one_refuted : forall M kappa dt c, 0 < dt -> 0 < M -> dt * M <= 1 / 4 -> -1 < c < 0 ->
  let a := (1 + dt * M * df_dphi c) * c in
  solves_one 1 1 1 (fun _ => 1) one_shape one_slope M kappa dt (state a) (state c) /\
  -1 < a < c /\ well a < well c /\
  ~ solves_two 1 1 1 (fun _ => 1) one_shape one_slope M kappa dt (state a) (state c).
Proof.
  intros M kappa dt c Hdt HM Hs Hc. cbv zeta. set (a := (1 + dt * M * df_dphi c) * c).
  assert (S0 : 0 < dt * M) by (apply Rmult_lt_0_compat; lra).
  assert (D : 0 < df_dphi c).
  { unfold df_dphi. replace (c * c * c * 2 - c * 2) with (2 * ((- c) * ((1 - c) * (1 + c)))) by ring.
    apply Rmult_lt_0_compat; [lra|]. apply Rmult_lt_0_compat; [lra|]. apply Rmult_lt_0_compat; lra. }
  assert (LE : a < c).
  { unfold a. assert (0 < dt * M * df_dphi c * (- c)) by (apply Rmult_lt_0_compat; [apply Rmult_lt_0_compat; lra|lra]). lra. }
  assert (GE : -1 < a).
  { unfold a, df_dphi. set (s := dt * M) in *. set (u := - c).
    replace ((1 + s * (c * c * c * 2 - c * 2)) * c) with (-1 + (1 + c) * (1 - 2 * s * (u * u * (1 + u)))) by (unfold u; ring).
    assert (U : 0 < u < 1) by (unfold u; lra).
    assert (U2 : 0 < u * u < 1) by (split; [apply Rmult_lt_0_compat; lra|assert (u * u < 1 * 1) by (apply Rmult_gt_0_lt_compat; lra); lra]).
    assert (U3 : u * u * (1 + u) < 1 * 2) by (apply Rmult_gt_0_lt_compat; lra).
    assert (U4 : 0 < u * u * (1 + u)) by (apply Rmult_lt_0_compat; lra).
    assert (B1 : 2 * s * (u * u * (1 + u)) <= 1 / 2 * (u * u * (1 + u))) by (apply Rmult_le_compat_r; lra).
    assert (0 < (1 + c) * (1 - 2 * s * (u * u * (1 + u)))) by (apply Rmult_lt_0_compat; lra). lra. }
  split; [|split; [lra|split]].
  - intros i Hi. assert (i = 0%nat) by lia. subst i. rewrite one_residual. unfold a. ring.
  - unfold well. assert (C2 : c * c < a * a).
    { replace (a * a) with ((- a) * (- a)) by ring. replace (c * c) with ((- c) * (- c)) by ring. apply Rmult_gt_0_lt_compat; lra. }
    assert (A1 : a * a < 1) by (replace (a * a) with ((- a) * (- a)) by ring; assert ((- a) * (- a) < 1 * 1) by (apply Rmult_gt_0_lt_compat; lra); lra).
    cbn [pow]. rewrite !Rmult_1_r.
    assert ((1 - a * a) * (1 - a * a) < (1 - c * c) * (1 - c * c)) by (apply Rmult_gt_0_lt_compat; lra). lra.
  - intro S. specialize (S 0%nat 0%nat ltac:(lia) ltac:(lia)).
    unfold residual_two, integrated, value_q, grad_q, one_shape, one_slope, state in S. cbn [vsum] in S.
    replace (0 + 1 * c) with c in S by ring. replace (0 + 1 * a) with a in S by ring.
    assert (0 < dt * M * df_dphi c) by (apply Rmult_lt_0_compat; lra). lra.
Qed.
Print Assumptions C88_one_refuted.

(** C88_vmult_refuted: what the program with one phase calls the operator of the linearised
    problem is not linear, does not depend on the linearisation point, and depends on gradients
    that were never evaluated *)
Theorem C88_vmult_refuted : forall M kappa dt lin lin' stale, 0 < dt * M ->
  vmult_one 1 1 1 (fun _ => 1) one_shape one_slope M kappa dt stale lin (state 2) 0 0
    <> 2 * vmult_one 1 1 1 (fun _ => 1) one_shape one_slope M kappa dt stale lin (state 1) 0 0 /\
  (forall x comp i, vmult_one 1 1 1 (fun _ => 1) one_shape one_slope M kappa dt stale lin x comp i
    = vmult_one 1 1 1 (fun _ => 1) one_shape one_slope M kappa dt stale lin' x comp i) /\
  (0 < kappa -> forall x, exists stale1 stale2,
     vmult_one 1 1 1 (fun _ => 1) one_shape (fun _ _ _ => 1) M kappa dt stale1 lin x 0 0 <> vmult_one 1 1 1 (fun _ => 1) one_shape (fun _ _ _ => 1) M kappa dt stale2 lin x 0 0).
Proof.
  intros M kappa dt lin lin' stale S0. split; [|split].
  - unfold vmult_one, integrated, value_q, one_shape, one_slope, state. cbn [vsum]. unfold d2f_dphi2. lra.
  - intros. unfold vmult_one. reflexivity.
  - intros HK x. exists (fun _ _ => 0), (fun _ _ => 1). unfold vmult_one, integrated, value_q, one_shape. cbn [vsum].
    assert (0 < dt * M * kappa) by (apply Rmult_lt_0_compat; lra). lra.
Qed.
Print Assumptions C88_vmult_refuted.

(** the numbers of the programs meet the bounds, and a step with two phases *)
Example allen_cahn_example : 1 / 100 * 1 <= 1 / 4 /\ 2 * (1 / 100 * 1) < 1 /\
  (let old := fun comp i => if Nat.eqb comp 0 then 492500 / 1000000 else 1 in
   let new := fun comp i => if Nat.eqb comp 0 then 1 / 2 else 1 in
   solves_two 1 1 1 (fun _ => 1) one_shape one_slope 1 (1 / 2) (1 / 100) old new /\
   energy 1 1 1 (fun _ => 1) one_shape one_slope (1 / 2) new 0 < energy 1 1 1 (fun _ => 1) one_shape one_slope (1 / 2) old 0).
Proof.
  split; [lra|]. split; [lra|]. cbv zeta. split.
  - intros [|[|comp]] [|i] Hc Hi; try lia; unfold residual_two, integrated, value_q, grad_q, one_shape, one_slope, df_dphi; cbn [vsum Nat.eqb]; lra.
  - unfold energy, value_q, grad_q, one_shape, one_slope, well. cbn [vsum Nat.eqb]. lra.
Qed.
