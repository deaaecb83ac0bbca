(** Properties C30, C31 and C55: scalar and tensorial mobility, Arrhenius coefficients. *)
From Coq Require Import List Reals Arith Lia Lra Psatz.
From Verif Require Import MobilityModel FreeEnergyProofs MobilityProofs.
Import ListNotations.
Local Open Scope R_scope.

Definition nonnegative (m : coefficients) : Prop := 0 <= m_vol m /\ 0 <= m_vap m /\ 0 <= m_surf m /\ 0 <= m_gb m.

Lemma surf_nonneg : forall s c, 0 <= s -> 0 <= s * 4 * c * c * (1 - c) * (1 - c).
Proof.
  intros s c H. replace (s * 4 * c * c * (1 - c) * (1 - c)) with (4 * (s * ((c * (1 - c)) * (c * (1 - c))))) by ring.
  assert (Q := Rle_0_sqr (c * (1 - c))). unfold Rsqr in Q. assert (0 <= s * ((c * (1 - c)) * (c * (1 - c)))) by (apply Rmult_le_pos; assumption). lra.
Qed.

Lemma vol_vap_nonneg : forall m c, 0 <= m_vol m -> 0 <= m_vap m -> 0 <= m_vol m * phi c + m_vap m * (1 - phi c).
Proof.
  intros m c H1 H2. assert (P := phi_range c).
  assert (0 <= m_vol m * phi c) by (apply Rmult_le_pos; lra). assert (0 <= m_vap m * (1 - phi c)) by (apply Rmult_le_pos; lra). lra.
Qed.

(** ** C30 *)

(** The mobility is the sum of the four parts written by the postprocessing, it is
    non-negative for every concentration, and the flux dissipates. *)
Theorem C30_nonnegative : forall m c etas, nonnegative m -> Forall (fun e => 0 <= e) etas ->
  0 <= M_scalar m c etas
  /\ M_scalar m c etas = M_vol m c + M_vap m c + M_surf m c + M_gb m etas
  /\ forall dim mu, 0 <= dot dim mu (apply_M_scalar m c etas mu).
Proof.
  intros m c etas [H1 [H2 [H3 H4]]] He.
  assert (P : 0 <= M_scalar m c etas).
  { unfold M_scalar. assert (0 <= eta_ij_sum etas) by (apply outer_sum_nonneg; [exact He | constructor | lra]).
    assert (A := vol_vap_nonneg m c H1 H2). assert (B := surf_nonneg _ c H3).
    assert (0 <= m_gb m * eta_ij_sum etas) by (apply Rmult_le_pos; assumption). lra. }
  split; [exact P |]. split.
  - unfold M_scalar, M_vol, M_vap, M_surf, M_gb. rewrite phi_masked_eq. ring.
  - intros dim mu. unfold apply_M_scalar. rewrite dot_scale. apply Rmult_le_pos; [exact P | apply dot_pos].
Qed.
Print Assumptions C30_nonnegative.

Lemma surf_deriv : forall s c, derivable_pt_lim (fun x => s * 4 * x * x * (1 - x) * (1 - x)) c (s * 8 * c * (1 - 3 * c + 2 * c * c)).
Proof. intros. apply (quartic_deriv 0 0 (4 * s) (-8 * s) (4 * s)); [intros y |]; ring. Qed.

Lemma M_scalar_deriv : forall m c etas l, derivable_pt_lim phi c l ->
  derivable_pt_lim (fun x => M_scalar m x etas) c ((m_vol m - m_vap m) * l + m_surf m * 8 * c * (1 - 3 * c + 2 * c * c)).
Proof.
  intros m c etas l H.
  apply (derivable_ext (fun x => (m_vap m + 2 * m_gb m * eta_ij_sum etas + phi x * (m_vol m - m_vap m)) + m_surf m * 4 * x * x * (1 - x) * (1 - x))).
  - intros y. unfold M_scalar. ring.
  - apply derivable_plus; [| apply surf_deriv].
    eapply derivable_eq; [| apply derivable_plus; [apply derivable_const0 | apply derivable_scal; exact H]]. ring.
Qed.

Lemma rsum_upd : forall etas i x y, nth_error etas i = Some y ->
  rsum (upd etas i x) = rsum etas - y + x /\ sqsum (upd etas i x) = sqsum etas - y * y + x * x.
Proof.
  induction etas as [| e l IH]; intros [| i] x y H; cbn in *; try discriminate.
  - injection H as ->. split; ring.
  - destruct (IH _ x _ H) as [-> ->]. split; ring.
Qed.

(** The derivatives with respect to the concentration (between zero and one) and to every
    order parameter are the derivatives of the mobility, for any number of grains. *)
Theorem C30_derivatives : forall m c etas,
  (0 <= c <= 1 -> derivable_pt_lim (fun x => M_scalar m x etas) c (dM_dc_scalar m c))
  /\ forall i y, nth_error etas i = Some y -> derivable_pt_lim (fun x => M_scalar m c (upd etas i x)) y (dM_detai_scalar m etas i).
Proof.
  intros m c etas. split.
  - intros H. eapply derivable_eq; [| apply M_scalar_deriv; apply phi_deriv_in; exact H]. unfold dM_dc_scalar. ring.
  - intros i y H.
    assert (L : (i < length etas)%nat) by (apply nth_error_Some; congruence).
    unfold dM_detai_scalar. rewrite other_sum_spec.
    destruct (Nat.leb_spec 0 i), (Nat.ltb_spec i (0 + length etas)); try lia. cbn [andb]. rewrite Nat.sub_0_r.
    rewrite (nth_error_nth etas i 0 H).
    set (K := m_vol m * phi c + m_vap m * (1 - phi c) + m_surf m * 4 * c * c * (1 - c) * (1 - c)).
    apply (quartic_deriv (K + m_gb m * ((rsum etas - y) * (rsum etas - y) - (sqsum etas - y * y))) (2 * m_gb m * (rsum etas - y)) 0 0 0).
    + intros x. unfold M_scalar. rewrite eta_ij_sum_spec. destruct (rsum_upd etas i x y H) as [-> ->]. unfold K. field.
    + ring.
Qed.
Print Assumptions C30_derivatives.

(** The linearised flux is the derivative of the flux in the direction of any increment of
    concentration, order parameters and gradient of the chemical potential. *)
Theorem C30_linearised_flux : forall m c etas mu c' values mu' d, 0 <= c <= 1 -> length values = length etas ->
  derivable_pt_lim (fun t => apply_M_scalar m (c + t * c') (vline etas values t) (fun d => mu d + t * mu' d) d) 0
    (apply_M_derivative_scalar m c etas mu c' values mu' d).
Proof.
  intros m c etas mu c' values mu' d Hc Hl. unfold apply_M_scalar, apply_M_derivative_scalar.
  assert (Z : forall l v, length v = length l -> vline l v 0 = l).
  { induction l as [| e r IH]; intros [| v w] H; cbn in H; try discriminate; cbn [vline]; [reflexivity |].
    rewrite IH by congruence. f_equal. ring. }
  assert (D : derivable_pt_lim (fun t => M_scalar m (c + t * c') (vline etas values t)) 0
    (dM_dc_scalar m c * c' + 2 * m_gb m * (rsum etas * rsum values - prodsum etas values))).
  { apply (derivable_ext (fun t => (M_scalar m (c + t * c') []) + eta_ij_sum (vline etas values t) * (2 * m_gb m))).
    - intros t. unfold M_scalar at 1 2. rewrite (eta_ij_sum_spec []). cbn [rsum sqsum]. field.
    - eapply derivable_eq; [| apply derivable_plus;
        [apply (derivable_comp_line (fun x => M_scalar m x [])); apply (proj1 (C30_derivatives m c [])); exact Hc
        | apply derivable_scal; apply eta_ij_deriv; exact Hl]]. ring. }
  eapply derivable_eq; [| apply derivable_mult; [exact D | apply derivable_line]].
  cbv beta. rewrite Z by exact Hl. rewrite factor_loop_spec, fold_plus by exact Hl.
  replace (c + 0 * c') with c by ring. ring.
Qed.
Print Assumptions C30_linearised_flux.

(** Outside of this range the interpolation is cut off, its derivative is not: unless bulk
    and vapour mobilities agree, the reported derivative is wrong there. *)
Theorem C30_outside_refuted : forall m c etas, c < 0 \/ 1 < c -> m_vol m <> m_vap m ->
  ~ derivable_pt_lim (fun x => M_scalar m x etas) c (dM_dc_scalar m c).
Proof.
  intros m c etas H Hm D. assert (D' := M_scalar_deriv m c etas 0 (phi_deriv_out c H)).
  assert (E := uniqueness_limite _ _ _ _ D D'). unfold dM_dc_scalar in E.
  assert (E' : (m_vol m - m_vap m) * ((c * (1 - c)) * (c * (1 - c))) = 0) by lra.
  apply Rmult_integral in E'. destruct E' as [E' | E']; [lra |].
  apply Rmult_integral in E'. destruct E' as [E' | E']; apply Rmult_integral in E'; destruct E'; lra.
Qed.
Print Assumptions C30_outside_refuted.

Example C30_case : let m := mkCoefficients 4 1 2 3 1 in
  nonnegative m /\ M_scalar m (1 / 2) [1; 2; 3] = 69 /\ dM_dc_scalar m (1 / 2) = 45 / 8 /\ dM_detai_scalar m [1; 2; 3] 1 = 24.
Proof.
  unfold nonnegative. cbn [m_vol m_vap m_surf m_gb].
  split; [lra |]. split.
  - unfold M_scalar. rewrite phi_in by lra. unfold phi_raw. rewrite eta_ij_sum_spec. cbn [rsum sqsum m_vol m_vap m_surf m_gb]. lra.
  - unfold dM_dc_scalar, dM_detai_scalar. cbn. split; lra.
Qed.

(** ** C31 *)

(** the flux of the tensorial mobility dissipates, and at least as much as the flux of the
    bulk and vapour parts alone *)
Theorem C31_dissipation : forall dim m c (grains : list egrain) c_grad mu, nonnegative m -> Forall (fun g => 0 <= fst g) grains ->
  (m_vol m * phi c + m_vap m * (1 - phi c)) * dot dim mu mu <= dot dim mu (apply_M_tensorial dim m c grains c_grad mu).
Proof.
  intros dim m c grains c_grad mu [H1 [H2 [H3 H4]]] Hg.
  set (nc := unit_vector dim c_grad).
  set (out := fun d => (f_vol_vap m c + f_surf m c * projector_scale) * mu d - nc d * (f_surf m c * dot dim nc mu)).
  assert (Fs : 0 <= f_surf m c).
  { unfold f_surf. replace (m_surf m * 4 * (c * c) * ((1 - c) * (1 - c))) with (m_surf m * 4 * c * c * (1 - c) * (1 - c)) by ring. apply surf_nonneg. exact H3. }
  assert (O : f_vol_vap m c * dot dim mu mu <= dot dim mu out).
  { rewrite (dot_ext dim mu out mu (fun d => (f_vol_vap m c + f_surf m c * projector_scale) * mu d + (- (f_surf m c * dot dim nc mu)) * nc d));
      [| reflexivity | intros; unfold out; ring].
    rewrite dot_lin, (dot_comm dim mu nc).
    assert (B := unit_vector_bound dim c_grad mu). fold nc in B. assert (P := dot_pos dim mu).
    set (x := dot dim nc mu) in *. set (y := dot dim mu mu) in *. clearbody x y. unfold projector_scale.
    assert (f_surf m c * (x * x) <= f_surf m c * y) by (apply Rmult_le_compat_l; assumption).
    assert (0 <= f_surf m c * y) by (apply Rmult_le_pos; assumption). lra. }
  unfold apply_M_tensorial. fold nc. fold out. change (m_vol m * phi c + m_vap m * (1 - phi c)) with (f_vol_vap m c).
  destruct (Nat.leb (length grains) 1); [exact O |].
  match goal with |- _ <= dot dim mu ?f =>
    rewrite (dot_ext dim mu f mu (fun d => 1 * out d + (2 * m_gb m) * gb_outer (gb_term dim mu) [] grains (fun _ => 0) d)) end;
    [| reflexivity | intros; unfold out; ring].
  rewrite dot_lin.
  assert (G : 0 <= dot dim mu (gb_outer (gb_term dim mu) [] grains (fun _ => 0))).
  { apply gb_outer_dot.
    - intros a b Ia Ib. cbn [app] in *. rewrite Forall_forall in Hg. assert (Pa := Hg a Ia). assert (Pb := Hg b Ib).
      unfold gb_term. set (diff := fun d => snd a d - snd b d). set (k := unit_vector_filter_2 dim diff).
      rewrite (dot_ext dim mu _ mu (fun d => (fst a * fst b) * mu d + (- (fst a * fst b * (k * dot dim diff mu))) * diff d));
        [| reflexivity | intros d; change (snd a d - snd b d) with (diff d); ring].
      rewrite dot_lin, (dot_comm dim mu diff).
      assert (B := filter_bound dim diff mu). fold k in B.
      assert (0 <= fst a * fst b) by (apply Rmult_le_pos; assumption).
      set (x := dot dim diff mu) in *. set (y := dot dim mu mu) in *. clearbody x y k.
      assert (0 <= fst a * fst b * (y - k * (x * x))) by (apply Rmult_le_pos; lra). lra.
    - rewrite (dot_ext dim mu _ mu (fun d => 0 * mu d)); [rewrite dot_scale; lra | reflexivity | intros; ring]. }
  assert (0 <= 2 * m_gb m * dot dim mu (gb_outer (gb_term dim mu) [] grains (fun _ => 0))) by (apply Rmult_le_pos; [lra | exact G]). lra.
Qed.
Print Assumptions C31_dissipation.

Lemma f_surf_deriv : forall m c, derivable_pt_lim (f_surf m) c (m_surf m * 8 * c * (1 - c) * (1 - 2 * c)).
Proof. intros. apply (quartic_deriv 0 0 (4 * m_surf m) (-8 * m_surf m) (4 * m_surf m)); [intros y; unfold f_surf |]; ring. Qed.

Lemma f_vol_vap_deriv : forall m c, 0 <= c <= 1 -> derivable_pt_lim (f_vol_vap m) c ((m_vol m - m_vap m) * (30 * c * c * (1 - c) * (1 - c))).
Proof.
  intros m c H. apply (derivable_ext (fun x => m_vap m + phi x * (m_vol m - m_vap m))).
  - intros y. unfold f_vol_vap. ring.
  - eapply derivable_eq; [| apply derivable_plus; [apply derivable_const0 | apply derivable_scal; apply phi_deriv_in; exact H]]. ring.
Qed.

Lemma unit_vector_zero_line : forall dim g g' d, unit_vector dim (fun d => g d + 0 * g' d) d = unit_vector dim g d.
Proof.
  intros dim g g' d. assert (E : norm dim (fun d => g d + 0 * g' d) = norm dim g).
  { unfold norm. f_equal. apply dot_ext; intros; ring. }
  unfold unit_vector. rewrite E. f_equal. f_equal. ring.
Qed.

(** The derivative of the flux in the direction of increments of the concentration, its
    gradient, the order parameters and the gradient of the chemical potential, where the
    cut-offs do not act: the reported one plus two errors.  (Increments of the gradients of
    the order parameters are not taken into account by the code.) *)
Theorem C31_linearised_flux_partial : forall dim m c grains c_grad mu c' c_grad' mu' k,
  0 <= c <= 1 -> / 10 ^ 6 <= f_surf m c -> / 10 ^ 4 <= norm dim c_grad ->
  derivable_pt_lim (fun t => apply_M_tensorial dim m (c + t * c') (map (gline t) grains) (fun d => c_grad d + t * c_grad' d) (fun d => mu d + t * mu' d) k) 0
    (apply_M_derivative_tensorial dim m c grains c_grad mu c' c_grad' mu' k
     + f_surf m c / 1000 * mu' k
     - 3 * ((m_vol m - m_vap m) * (30 * c * c * (1 - c) * (1 - c)) * c' * mu k)).
Proof.
  intros dim m c grains c_grad mu c' c_grad' mu' k Hc Hf Hn.
  assert (P4 := small_pos 4). assert (T10 : / 10 ^ 10 < norm dim c_grad).
  { assert (/ 10 ^ 10 < / 10 ^ 4) by (apply Rinv_lt_contravar; [apply Rmult_lt_0_compat; apply pow_lt; lra | apply Rlt_pow; [lra | lia]]). lra. }
  assert (GG : 0 < dot dim c_grad c_grad) by (rewrite <- norm_sq; apply Rmult_lt_0_compat; lra).
  set (sc := dot dim c_grad mu).
  set (out := fun t d => (f_vol_vap m (c + t * c') + f_surf m (c + t * c') * projector_scale) * (mu d + t * mu' d)
      - unit_vector dim (fun d => c_grad d + t * c_grad' d) d * (f_surf m (c + t * c') * dot dim (unit_vector dim (fun d => c_grad d + t * c_grad' d)) (fun d => mu d + t * mu' d))).
  assert (Gb := gb_outer_deriv dim mu mu' grains [] (fun _ _ => 0) (fun _ => 0) k (derivable_const0 0 0)). cbn [map] in Gb.
  set (nc := unit_vector dim c_grad).
  set (fs := f_surf m c).
  set (ds := m_surf m * 8 * c * (1 - c) * (1 - 2 * c)).
  set (dp := (m_vol m - m_vap m) * (30 * c * c * (1 - c) * (1 - c))).
  assert (Dout : derivable_pt_lim (fun t => out t k) 0
    ((dp * c' + ds * c' * projector_scale) * mu k + (f_vol_vap m c + fs * projector_scale) * mu' k
     - (ds * c' * (nc k * dot dim nc mu)
        + fs * ((c_grad' k * dot dim c_grad mu + c_grad k * (dot dim c_grad' mu + dot dim c_grad mu')) / dot dim c_grad c_grad
                - c_grad k * dot dim c_grad mu * (2 * dot dim c_grad c_grad') / (dot dim c_grad c_grad * dot dim c_grad c_grad))))).
  { unfold out.
    apply (derivable_ext (fun t => (f_vol_vap m (c + t * c') + f_surf m (c + t * c') * projector_scale) * (mu k + t * mu' k)
      - f_surf m (c + t * c') * (unit_vector dim (fun d => c_grad d + t * c_grad' d) k * dot dim (unit_vector dim (fun d => c_grad d + t * c_grad' d)) (fun d => mu d + t * mu' d)))).
    { intros t. ring. }
    assert (D1 := derivable_comp_line (f_vol_vap m) c c' _ (f_vol_vap_deriv m c Hc)). fold dp in D1.
    assert (D2 := derivable_comp_line (f_surf m) c c' _ (f_surf_deriv m c)). fold ds in D2.
    assert (D3 := projection_deriv dim c_grad c_grad' mu mu' k GG T10).
    eapply derivable_eq; [| apply derivable_minus; [apply derivable_mult; [apply derivable_plus; [exact D1 | apply derivable_scal; exact D2] | apply derivable_line] | apply derivable_mult; [exact D2 | exact D3]]].
    cbv beta. replace (c + 0 * c') with c by ring. fold fs.
    rewrite unit_vector_zero_line. fold nc.
    rewrite (dot_ext dim (unit_vector dim (fun d => c_grad d + 0 * c_grad' d)) (fun d => mu d + 0 * mu' d) nc mu);
      [| intros d; unfold nc; apply unit_vector_zero_line | intros d; ring].
    ring. }
  assert (Eds : df_surf m c = ds).
  { unfold df_surf, mask_lt. replace (m_surf m * (4 * c * c * (1 - c) * (1 - c))) with (f_surf m c) by (unfold f_surf; ring).
    destruct (Rlt_dec (f_surf m c) (/ 10 ^ 6)); [lra | reflexivity]. }
  assert (Efs : mask_lt (f_surf m c) (/ 10 ^ 6) 0 (f_surf m c) = fs).
  { unfold mask_lt. destruct (Rlt_dec (f_surf m c) (/ 10 ^ 6)); [lra | reflexivity]. }
  assert (Enr : mask_lt (norm dim c_grad) (/ 10 ^ 4) 1 (norm dim c_grad) = norm dim c_grad).
  { unfold mask_lt. destruct (Rlt_dec (norm dim c_grad) (/ 10 ^ 4)); [lra | reflexivity]. }
  assert (Enc : forall v, dot dim nc v = dot dim c_grad v / norm dim c_grad).
  { intros v. rewrite dot_comm. rewrite (dot_ext dim v nc v (fun d => / norm dim c_grad * c_grad d)); [| reflexivity |].
    - rewrite dot_scale, dot_comm. unfold Rdiv. ring.
    - intros d. unfold nc. rewrite unit_vector_on by exact T10. unfold Rdiv. ring. }
  assert (Enk : nc k = c_grad k / norm dim c_grad) by (unfold nc; apply unit_vector_on; exact T10).
  assert (NN := norm_sq dim c_grad).
  assert (N0 : norm dim c_grad <> 0) by lra.
  (* the reported derivative without the part of the grain boundaries *)
  set (rep := (f_vol_vap m c + fs) * mu' k - nc k * (fs * dot dim nc mu')
    + (((m_vol m - m_vap m) * (30 * (4 * c * c * (1 - c) * (1 - c))) + ds * projector_scale) * mu k - nc k * (ds * dot dim nc mu)) * c'
    + (- fs / norm dim c_grad) * (dot dim nc mu * (c_grad' k - nc k * dot dim nc c_grad') + nc k * dot dim mu (fun d => c_grad' d - nc d * dot dim nc c_grad'))).
  assert (Etemp : dot dim mu (fun d => c_grad' d - nc d * dot dim nc c_grad') = dot dim mu c_grad' - dot dim nc c_grad' * dot dim nc mu).
  { rewrite (dot_ext dim mu _ mu (fun d => 1 * c_grad' d + (- dot dim nc c_grad') * nc d)); [| reflexivity | intros; ring].
    rewrite dot_lin, (dot_comm dim mu nc). ring. }
  assert (Dout' : derivable_pt_lim (fun t => out t k) 0 (rep + fs / 1000 * mu' k - 3 * (dp * c' * mu k))).
  { eapply derivable_eq; [| exact Dout]. unfold rep. rewrite Etemp, !Enc, Enk, <- NN. rewrite (dot_comm dim mu c_grad'). unfold dp, projector_scale. field. exact N0. }
  apply (derivable_ext (fun t => if Nat.leb (length grains) 1 then out t k
    else out t k + gb_outer (gb_term dim (fun d => mu d + t * mu' d)) [] (map (gline t) grains) (fun _ => 0) k * (2 * m_gb m))).
  { intros t. unfold apply_M_tensorial. rewrite map_length. destruct (Nat.leb (length grains) 1); reflexivity. }
  unfold apply_M_derivative_tensorial.
  fold nc. rewrite Eds, Efs, Enr. fold fs.
  destruct (Nat.leb (length grains) 1).
  - eapply derivable_eq; [| exact Dout']. unfold rep, dp. ring.
  - eapply derivable_eq; [| apply derivable_plus; [exact Dout' | apply derivable_scal; exact Gb]]. unfold rep, dp. ring.
Qed.
Print Assumptions C31_linearised_flux_partial.

(** the derivative with respect to the concentration is four times the derivative of the
    bulk and vapour parts: the reported linearisation is wrong for every direction that
    changes the concentration only *)
Theorem C31_bulk_derivative_refuted : forall dim m c grains c_grad mu c' k,
  0 < c < 1 -> / 10 ^ 6 <= f_surf m c -> / 10 ^ 4 <= norm dim c_grad -> m_vol m <> m_vap m -> c' <> 0 -> mu k <> 0 ->
  ~ derivable_pt_lim (fun t => apply_M_tensorial dim m (c + t * c') (map (gline t) grains) (fun d => c_grad d + t * 0) (fun d => mu d + t * 0) k) 0
      (apply_M_derivative_tensorial dim m c grains c_grad mu c' (fun _ => 0) (fun _ => 0) k).
Proof.
  intros dim m c grains c_grad mu c' k Hc Hf Hn Hm Hc' Hmu D.
  assert (D' := C31_linearised_flux_partial dim m c grains c_grad mu c' (fun _ => 0) (fun _ => 0) k ltac:(lra) Hf Hn). cbv beta in D'.
  assert (E := uniqueness_limite _ _ _ _ D D').
  assert (E' : (m_vol m - m_vap m) * (c' * (mu k * ((c * (1 - c)) * (c * (1 - c))))) = 0) by lra.
  repeat (apply Rmult_integral in E'; destruct E' as [E' | E']; try lra; try contradiction).
Qed.
Print Assumptions C31_bulk_derivative_refuted.

(** the projector scale is missing in the part of the linearisation that is proportional to
    the gradient of the new chemical potential *)
Theorem C31_projector_scale_refuted : forall dim m c grains c_grad mu mu' k,
  0 <= c <= 1 -> / 10 ^ 6 <= f_surf m c -> / 10 ^ 4 <= norm dim c_grad -> mu' k <> 0 ->
  ~ derivable_pt_lim (fun t => apply_M_tensorial dim m (c + t * 0) (map (gline t) grains) (fun d => c_grad d + t * 0) (fun d => mu d + t * mu' d) k) 0
      (apply_M_derivative_tensorial dim m c grains c_grad mu 0 (fun _ => 0) mu' k).
Proof.
  intros dim m c grains c_grad mu mu' k Hc Hf Hn Hmu D.
  assert (D' := C31_linearised_flux_partial dim m c grains c_grad mu 0 (fun _ => 0) mu' k Hc Hf Hn). cbv beta in D'.
  assert (E := uniqueness_limite _ _ _ _ D D'). assert (P := small_pos 6).
  assert (E' : f_surf m c * mu' k = 0) by lra.
  apply Rmult_integral in E'. destruct E' as [E' | E']; [lra | contradiction].
Qed.
Print Assumptions C31_projector_scale_refuted.

(** the separate derivative with respect to the concentration is the one of the linearised
    flux *)
Theorem C31_dM_dc : forall dim m c grains c_grad mu c' k, (length grains <= 1)%nat ->
  apply_M_derivative_tensorial dim m c grains c_grad mu c' (fun _ => 0) (fun _ => 0) k = dM_dc_tensorial dim m c c_grad mu k * c'.
Proof.
  intros dim m c grains c_grad mu c' k H. unfold apply_M_derivative_tensorial, dM_dc_tensorial.
  destruct (Nat.leb_spec (length grains) 1); [| lia].
  set (nc := unit_vector dim c_grad).
  assert (Z : forall v, dot dim v (fun _ => 0) = 0).
  { intros v. rewrite (dot_ext dim v _ v (fun d => 0 * v d)); [rewrite dot_scale; ring | reflexivity | intros; ring]. }
  rewrite (dot_ext dim mu (fun d => 0 - nc d * dot dim nc (fun _ => 0)) mu (fun _ => 0)); [| reflexivity | intros; rewrite Z; ring].
  rewrite !Z. ring.
Qed.
Print Assumptions C31_dM_dc.

Example C31_case : let m := mkCoefficients 4 1 2 3 1 in
  nonnegative m /\ 0 < 1 / 2 < 1 /\ / 10 ^ 6 <= f_surf m (1 / 2) /\ / 10 ^ 4 <= norm 2 (fun d => INR d) /\ m_vol m <> m_vap m.
Proof.
  unfold nonnegative, f_surf. cbn [m_vol m_vap m_surf m_gb].
  assert (S : forall n, / 10 ^ n <= 1).
  { intros n. rewrite <- Rinv_1. apply Rinv_le_contravar; [lra |]. apply pow_R1_Rle. lra. }
  repeat split; try lra.
  - specialize (S 4%nat). unfold norm. cbn [dot INR]. replace (0 + 0 * 0 + 1 * 1) with 1 by ring. rewrite sqrt_1. exact S.
Qed.

(** ** C55 *)

(** positive material data give positive coefficients, and the grain boundary mobility grows
    with the temperature *)
Theorem C55_arrhenius : forall omega w ts ls es kb D1 D2 D3 D4 Q1 Q2 Q3 Q4 D5 Q5 T,
  0 < omega -> 0 < w -> 0 < ts -> 0 < ls -> 0 < es -> 0 < kb -> 0 < T ->
  0 < D1 -> 0 < D2 -> 0 < D3 -> 0 < D4 -> 0 < D5 ->
  let m := calculate omega w ts ls es kb D1 D2 D3 D4 Q1 Q2 Q3 Q4 D5 Q5 T in
  0 < m_vol m /\ 0 < m_vap m /\ 0 < m_surf m /\ 0 < m_gb m /\ 0 < m_L m
  /\ forall T', T < T' -> 0 < Q5 -> m_L m < m_L (calculate omega w ts ls es kb D1 D2 D3 D4 Q1 Q2 Q3 Q4 D5 Q5 T').
Proof.
  intros omega w ts ls es kb D1 D2 D3 D4 Q1 Q2 Q3 Q4 D5 Q5 T Ho Hw Ht Hl He Hk HT H1 H2 H3 H4 H5.
  assert (K : 0 < kb * T) by (apply Rmult_lt_0_compat; assumption).
  assert (D : forall D0 Q0, 0 < D0 -> 0 < diffusion_coefficient omega ts ls es kb D0 Q0 T).
  { intros D0 Q0 H. unfold diffusion_coefficient. assert (X := exp_pos (- Q0 / (kb * T))).
    assert (L3 : 0 < ls ^ 3) by (apply pow_lt; assumption).
    repeat (first [assumption | apply Rdiv_lt_0_compat | apply Rmult_lt_0_compat]). }
  assert (L4 : 0 < ls ^ 4) by (apply pow_lt; assumption).
  assert (P : 0 < D5 * ts * es / ls ^ 4) by (repeat (first [assumption | apply Rdiv_lt_0_compat | apply Rmult_lt_0_compat]); assumption).
  cbn [calculate m_vol m_vap m_surf m_gb m_L].
  repeat split; try (apply D; assumption).
  - unfold gb_mobility_coefficient. assert (X := exp_pos (- Q5 / (kb * T))).
    apply Rdiv_lt_0_compat; [| assumption]. apply Rmult_lt_0_compat; [lra |]. apply Rmult_lt_0_compat; assumption.
  - intros T' HT' HQ. unfold gb_mobility_coefficient.
    assert (K' : kb * T < kb * T') by (apply Rmult_lt_compat_l; assumption).
    assert (X : exp (- Q5 / (kb * T)) < exp (- Q5 / (kb * T'))).
    { apply exp_increasing. unfold Rdiv. rewrite !Ropp_mult_distr_l_reverse. apply Ropp_lt_contravar.
      apply Rmult_lt_compat_l; [exact HQ |]. apply Rinv_lt_contravar; [| exact K']. apply Rmult_lt_0_compat; lra. }
    unfold Rdiv at 1 4. apply Rmult_lt_compat_r; [apply Rinv_0_lt_compat; exact Hw |].
    apply Rmult_lt_compat_l; [lra |]. apply Rmult_lt_compat_l; assumption.
Qed.
Print Assumptions C55_arrhenius.

(** every diffusion coefficient grows with the temperature as long as the thermal energy is
    below the activation energy *)
Theorem C55_diffusion_monotone : forall omega ts ls es k D0 Q T T',
  0 < omega -> 0 < ts -> 0 < ls -> 0 < es -> 0 < k -> 0 < D0 -> 0 < T -> T < T' -> k * T' <= Q ->
  diffusion_coefficient omega ts ls es k D0 Q T < diffusion_coefficient omega ts ls es k D0 Q T'.
Proof.
  intros omega ts ls es k D0 Q T T' Ho Ht Hl He Hk HD HT HT' HQ.
  assert (K : 0 < k * T) by (apply Rmult_lt_0_compat; assumption).
  assert (K' : k * T < k * T') by (apply Rmult_lt_compat_l; assumption).
  assert (C : 0 < D0 * ts / (ls * ls) * (omega / ls ^ 3) * es).
  { assert (0 < ls ^ 3) by (apply pow_lt; assumption). repeat (first [assumption | apply Rdiv_lt_0_compat | apply Rmult_lt_0_compat]). }
  unfold diffusion_coefficient.
  set (x := k * T) in *. set (y := k * T') in *. clearbody x y.
  assert (L3 : ls ^ 3 <> 0) by (apply pow_nonzero; lra).
  replace (D0 * ts / (ls * ls) * exp (- Q / x) * (omega / ls ^ 3) / x * es) with (D0 * ts / (ls * ls) * (omega / ls ^ 3) * es * (exp (- Q / x) / x)) by (field; repeat split; lra).
  replace (D0 * ts / (ls * ls) * exp (- Q / y) * (omega / ls ^ 3) / y * es) with (D0 * ts / (ls * ls) * (omega / ls ^ 3) * es * (exp (- Q / y) / y)) by (field; repeat split; lra).
  apply Rmult_lt_compat_l; [exact C |].
  assert (E : exp (- Q / y) = exp (- Q / x) * exp (Q / x - Q / y)) by (rewrite <- exp_plus; f_equal; field; lra).
  rewrite E. replace (exp (- Q / x) * exp (Q / x - Q / y) / y) with (exp (- Q / x) * (exp (Q / x - Q / y) * / y)) by (field; lra).
  apply Rmult_lt_compat_l; [apply exp_pos |].
  assert (P : 0 < Q / x - Q / y).
  { replace (Q / x - Q / y) with (Q * (y - x) / (x * y)) by (field; lra).
    repeat (first [assumption | lra | apply Rdiv_lt_0_compat | apply Rmult_lt_0_compat]). }
  assert (X := exp_ineq1 _ (not_eq_sym (Rlt_not_eq _ _ P))).
  assert (B : y / x <= 1 + (Q / x - Q / y)).
  { replace (1 + (Q / x - Q / y)) with (y / x + (Q - y) * (y - x) / (x * y)) by (field; lra).
    assert (0 <= (Q - y) * (y - x) / (x * y)); [| lra].
    apply Rmult_le_pos; [apply Rmult_le_pos; lra |]. apply Rlt_le, Rinv_0_lt_compat, Rmult_lt_0_compat; lra. }
  apply Rmult_lt_reg_r with y; [lra |]. rewrite Rmult_assoc, Rinv_l, Rmult_1_r by lra.
  unfold Rdiv in B. lra.
Qed.
Print Assumptions C55_diffusion_monotone.

Example C55_case : diffusion_coefficient 1 1 1 1 1 2 0 1 = 2 /\ gb_mobility_coefficient 1 1 1 1 1 3 0 1 = 4.
Proof.
  unfold diffusion_coefficient, gb_mobility_coefficient.
  replace (- 0 / (1 * 1)) with 0 by field. rewrite exp_0. split; field.
Qed.

(** every mechanism follows the Arrhenius law with its own prefactor and activation energy,
    made dimensionless by the scales *)
Theorem C55_arrhenius_law : forall omega w ts ls es kb D1 D2 D3 D4 Q1 Q2 Q3 Q4 D5 Q5 T,
  0 < w -> 0 < ls -> 0 < kb -> 0 < T ->
  let m := calculate omega w ts ls es kb D1 D2 D3 D4 Q1 Q2 Q3 Q4 D5 Q5 T in
  let law M D Q := M * (ls ^ 5 * (kb * T)) = D * (ts * omega * es) * exp (- Q / (kb * T)) in
  law (m_vol m) D1 Q1 /\ law (m_vap m) D2 Q2 /\ law (m_surf m) D3 Q3 /\ law (m_gb m) D4 Q4
  /\ m_L m * (3 * w * ls ^ 4) = 4 * (D5 * ts * es) * exp (- Q5 / (kb * T)).
Proof.
  intros omega w ts ls es kb D1 D2 D3 D4 Q1 Q2 Q3 Q4 D5 Q5 T Hw Hl Hk HT.
  cbn [calculate m_vol m_vap m_surf m_gb m_L]. cbv zeta.
  unfold diffusion_coefficient, gb_mobility_coefficient.
  repeat match goal with |- _ /\ _ => split end; (field || (generalize (exp (- Q5 / (kb * T))); intro; field)); repeat split; lra.
Qed.
Print Assumptions C55_arrhenius_law.
