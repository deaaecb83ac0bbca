(** Property C61: the linearised operator is the derivative of the residual. *)
From Coq Require Import List Reals Arith Lia Lra FunctionalExtensionality.
From Verif Require Import Util FreeEnergyModel FreeEnergyProofs FreeEnergyProps MobilityModel MobilityProofs MobilityProps OperatorModel OperatorProofs.
Import ListNotations.
Local Open Scope R_scope.

(** ** sums *)
Lemma vsum_ext : forall n f g, (forall j, (j < n)%nat -> f j = g j) -> vsum n f = vsum n g.
Proof. induction n as [| n IH]; intros f g H; cbn [vsum]; [reflexivity |]. rewrite (IH f g), H by (intros; try apply H; lia). reflexivity. Qed.
Lemma vsum_lin : forall n f g a b, vsum n (fun j => a * f j + b * g j) = a * vsum n f + b * vsum n g.
Proof. induction n as [| n IH]; intros; cbn [vsum]; [ring |]. rewrite IH. ring. Qed.
Lemma vsum_scale : forall n f a, vsum n (fun j => a * f j) = a * vsum n f.
Proof. induction n as [| n IH]; intros; cbn [vsum]; [ring |]. rewrite IH. ring. Qed.
Lemma vsum_plus : forall n f g, vsum n (fun j => f j + g j) = vsum n f + vsum n g.
Proof. induction n as [| n IH]; intros; cbn [vsum]; [ring |]. rewrite IH. ring. Qed.
Lemma vsum_zero : forall n, vsum n (fun _ => 0) = 0.
Proof. induction n as [| n IH]; cbn [vsum]; [reflexivity |]. rewrite IH. ring. Qed.
Lemma vsum_first : forall n f, vsum (S n) f = f 0%nat + vsum n (fun j => f (S j)).
Proof. induction n as [| n IH]; intros f; [cbn; ring |]. cbn [vsum] in *. rewrite IH. ring. Qed.
Lemma vsum_deriv : forall n (f : nat -> R -> R) l, (forall j, (j < n)%nat -> derivable_pt_lim (f j) 0 (l j)) ->
  derivable_pt_lim (fun t => vsum n (fun j => f j t)) 0 (vsum n l).
Proof.
  induction n as [| n IH]; intros f l H; cbn [vsum]; [apply derivable_const0 |].
  apply derivable_plus; [apply IH; intros; apply H; lia | apply H; lia].
Qed.

(** ** one point *)
Lemma time_part_deriv' : forall wtd w v v' b, (1 <= wtd)%nat \/ w = 0 -> derivable_pt_lim (fun t => time_part wtd w (v + t * v') b) 0 (v' * w).
Proof.
  intros wtd w v v' b [H | ->]; [apply time_part_deriv; exact H |].
  unfold time_part. apply (derivable_ext (fun t => (if Nat.eqb wtd 2 then b else 0))).
  - intros t. destruct (Nat.leb 1 wtd); ring.
  - eapply derivable_eq; [| apply derivable_const0]. ring.
Qed.

(** At every quadrature point all values and gradients the linearised operator submits are
    the derivatives of those the residual submits, in the direction of any increment of
    the values and gradients. *)
Theorem C61_point : forall p wtd buffer vel c mu etas gc gmu getas c' mu' etas' gc' gmu' getas',
  o_tensorial p = false -> (1 <= wtd)%nat \/ o_weight p = 0 -> 0 <= c <= 1 ->
  length getas = length etas -> length etas' = length etas -> length getas' = length etas -> length vel = length etas ->
  length buffer = S (S (length etas)) ->
  exists VR GR jv jg,
    (forall t, residual_point p wtd buffer vel (vline (c :: mu :: etas) (c' :: mu' :: etas') t) (gvline (gc :: gmu :: getas) (gc' :: gmu' :: getas') t) = Some (VR t, GR t))
    /\ vmult_point p vel (c :: mu :: etas) (gc :: gmu :: getas) (c' :: mu' :: etas') (gc' :: gmu' :: getas') = Some (jv, jg)
    /\ length jv = S (S (length etas)) /\ length jg = S (S (length etas))
    /\ dlist VR jv /\ dvlist GR jg.
Proof.
  intros p wtd buffer vel c mu etas gc gmu getas c' mu' etas' gc' gmu' getas' Ht Hw Hc L1 L2 L3 L4 Lb.
  destruct (vmult_point_spec p vel c mu etas gc gmu getas c' mu' etas' gc' gmu' getas' L2 L3 L4) as [retas [E [Lr G]]].
  exists (fun t => time_part wtd (o_weight p) (c + t * c') (nth 0 buffer 0)
      :: (o_weight_alg p * (mu + t * mu') - df_dc_of p (c + t * c') (vline etas etas' t))
      :: eta_vals p wtd buffer (eval_of p (c + t * c') (vline etas etas' t)) 2 (vline etas etas' t)).
  exists (fun t => advect_c vel (c + t * c') (apply_M p (c + t * c') (vline etas etas' t) (vadd t gc gc') (gvline getas getas' t) (vadd t gmu gmu'))
      :: (fun d => - o_kappa_c p * vadd t gc gc' d) :: advect_etas vel (vline etas etas' t) (eta_grads p (gvline getas getas' t))).
  do 2 eexists. split; [| split; [exact E |]].
  - intros t. cbn [vline gvline]. unfold residual_point.
    rewrite residual_quad_spec; [| rewrite gvline_length, vline_length by congruence; exact L1 | rewrite vline_length by exact L2; exact Lb].
    cbn [obind]. unfold add_advection. cbn [fst snd].
    rewrite advect_spec; [reflexivity | rewrite vline_length by exact L2; exact L4 |].
    unfold eta_grads. rewrite map_length, gvline_length, vline_length by congruence. exact L1.
  - split; [cbn [length]; rewrite Lr; reflexivity |].
    split; [cbn [length]; rewrite advect_etas_length; [rewrite L2; reflexivity | congruence | unfold eta_grads; rewrite map_length; congruence] |].
    split.
    + apply dlist_cons; [apply time_part_deriv'; exact Hw |].
      apply dlist_cons.
      * eapply derivable_eq; [| apply derivable_minus; [apply derivable_scal_l; apply derivable_line | apply df_dc_deriv; exact L2]]. ring.
      * split; [intros t; rewrite eta_vals_length, vline_length by exact L2; congruence |].
        intros k. destruct (le_lt_dec (length etas) k) as [O | O].
        { rewrite (nth_overflow retas) by lia. apply (derivable_ext (fun _ => 0)); [| apply derivable_const0].
          intros t. rewrite nth_overflow; [reflexivity |]. rewrite eta_vals_length, vline_length by exact L2. exact O. }
        apply (derivable_ext (fun t => o_L p * df_detai (eval_of p (c + t * c') (vline etas etas' t)) (nth k etas 0 + t * nth k etas' 0)
           + time_part wtd (o_weight p) (nth k etas 0 + t * nth k etas' 0) (nth (2 + k) buffer 0))).
        { intros t. rewrite eta_vals_nth by (rewrite vline_length by exact L2; exact O). rewrite vline_nth by exact L2. reflexivity. }
        eapply derivable_eq; [| apply derivable_plus; [apply derivable_scal_l; apply df_detai_deriv; exact L2 | apply time_part_deriv'; exact Hw]].
        rewrite G by exact O. ring.
    + apply dvlist_cons.
      { intros d. apply advect_c_deriv. intros e. unfold apply_M, apply_M_derivative. rewrite Ht. unfold vadd.
        apply (C30_linearised_flux (o_mobility p) c etas gmu c' etas' gmu' e Hc L2). }
      apply dvlist_cons.
      { intros d. unfold vadd. eapply derivable_eq; [| apply derivable_scal_l; apply derivable_line]. reflexivity. }
      apply advect_etas_deriv; [exact L2 | exact L4 | unfold eta_grads; rewrite map_length; exact L3 |].
      split.
      * intros t. unfold eta_grads. rewrite !map_length, gvline_length by congruence. congruence.
      * intros k d. rewrite eta_grads_nth.
        apply (derivable_ext (fun t => o_L p * o_kappa_p p * (nth k getas vzero d + t * nth k getas' vzero d))).
        { intros t. rewrite eta_grads_nth, gvline_nth by congruence. reflexivity. }
        apply derivable_scal_l. apply derivable_line.
Qed.
Print Assumptions C61_point.

(** ** assembled *)
Lemma scatter_vsum : forall dim q k i blocks vs gs, length vs = length blocks -> length gs = length blocks ->
  scatter dim q blocks vs gs k i
  = vsum (length blocks) (fun a => if Nat.eqb (nth a blocks 0%nat) k then q_w q * (q_N q i * nth a vs 0 + dot dim (q_G q i) (nth a gs vzero)) else 0).
Proof.
  intros dim q k i. induction blocks as [| b blocks IH]; intros [| v vs] [| g gs] H1 H2; cbn in H1, H2; try discriminate; [reflexivity |].
  cbn [scatter length]. rewrite vsum_first. cbn [nth]. rewrite IH by congruence. reflexivity.
Qed.

Lemma dot_deriv : forall dim (a : vec) (g : R -> vec) (g' : vec), (forall d, derivable_pt_lim (fun t => g t d) 0 (g' d)) ->
  derivable_pt_lim (fun t => dot dim a (g t)) 0 (dot dim a g').
Proof.
  induction dim as [| n IH]; intros a g g' H; cbn [dot]; [apply derivable_const0 |].
  apply derivable_plus; [apply IH; exact H | apply derivable_scal_l; apply H].
Qed.

Lemma scatter_deriv : forall dim q k i blocks (VR : R -> list R) GR jv jg, length jv = length blocks -> length jg = length blocks ->
  dlist VR jv -> dvlist GR jg ->
  derivable_pt_lim (fun t => scatter dim q blocks (VR t) (GR t) k i) 0 (scatter dim q blocks jv jg k i).
Proof.
  intros dim q k i blocks VR GR jv jg L1 L2 [LV DV] [LG DG].
  rewrite scatter_vsum by assumption.
  apply (derivable_ext (fun t => vsum (length blocks) (fun a => (fun a t => if Nat.eqb (nth a blocks 0%nat) k then q_w q * (q_N q i * nth a (VR t) 0 + dot dim (q_G q i) (nth a (GR t) vzero)) else 0) a t))).
  { intros t. rewrite scatter_vsum; [reflexivity | rewrite LV; exact L1 | rewrite LG; exact L2]. }
  apply vsum_deriv. intros a _. cbv beta. destruct (Nat.eqb (nth a blocks 0%nat) k); [| apply derivable_const0].
  apply derivable_scal_l. apply derivable_plus; [apply derivable_scal_l; apply DV |].
  apply (dot_deriv dim (q_G q i) (fun t => nth a (GR t) vzero)). apply DG.
Qed.

(** the state on the line through [u] in direction [v] *)
Definition sline (u v : state) (t : R) : state := fun b j => u b j + t * v b j.

Lemma value_line : forall n q u v t b, value_at n q (sline u v t) b = value_at n q u b + t * value_at n q v b.
Proof.
  intros. unfold value_at, sline. rewrite <- vsum_scale, <- vsum_plus. apply vsum_ext. intros. ring.
Qed.
Lemma values_line : forall n q u v t, values n q (sline u v t) = vline (values n q u) (values n q v) t.
Proof.
  intros. unfold values. induction (q_blocks q) as [| b l IH]; cbn [map vline]; [reflexivity |]. rewrite IH, value_line. reflexivity.
Qed.
Lemma grad_line : forall n q u v t b, grad_at n q (sline u v t) b = vadd t (grad_at n q u b) (grad_at n q v b).
Proof.
  intros. apply functional_extensionality. intros d. unfold grad_at, sline, vadd. rewrite <- vsum_scale, <- vsum_plus. apply vsum_ext. intros. ring.
Qed.
Lemma grads_line : forall n q u v t, grads n q (sline u v t) = gvline (grads n q u) (grads n q v) t.
Proof.
  intros. unfold grads. induction (q_blocks q) as [| b l IH]; cbn [map gvline]; [reflexivity |]. rewrite IH, grad_line. reflexivity.
Qed.

(** every cell reads the concentration, the chemical potential and some order parameters *)
Definition cell_ok (q : point) : Prop :=
  exists ops, q_blocks q = 0%nat :: 1%nat :: ops /\ ~ In 0%nat ops /\ ~ In 1%nat ops /\ length (q_vel q) = length ops.

(** For all meshes, shape functions, quadrature formulas, states, directions, numbers of
    order parameters and velocities: every entry of the product with the linearised
    operator is the derivative of that entry of the residual in the direction of the
    source vector, if the concentration stays between zero and one at the points. *)
Theorem C61_jacobian : forall p n pts wtd history u v k i,
  o_tensorial p = false -> (1 <= wtd)%nat \/ o_weight p = 0 ->
  (forall q, In q pts -> cell_ok q /\ 0 <= value_at n q u 0%nat <= 1) ->
  exists F l,
    (forall t, residual p n pts wtd history (fun b j => u b j + t * v b j) k i = Some (F t))
    /\ vmult p n pts u v k i = Some l
    /\ derivable_pt_lim F 0 l.
Proof.
  intros p n pts wtd history u v k i Ht Hw. unfold residual, vmult.
  induction pts as [| q pts IH]; intros H.
  - exists (fun _ => 0), 0. repeat split; try reflexivity. apply derivable_const0.
  - destruct IH as [F [l [E1 [E2 D]]]]; [intros; apply H; right; assumption |].
    destruct (H q (or_introl eq_refl)) as [[ops [Hb [_ [_ Hv]]]] Hc].
    destruct (C61_point p wtd (values n q history) (q_vel q)
       (value_at n q u 0%nat) (value_at n q u 1%nat) (map (value_at n q u) ops) (grad_at n q u 0%nat) (grad_at n q u 1%nat) (map (grad_at n q u) ops)
       (value_at n q v 0%nat) (value_at n q v 1%nat) (map (value_at n q v) ops) (grad_at n q v 0%nat) (grad_at n q v 1%nat) (map (grad_at n q v) ops))
      as [VR [GR [jv [jg [R1 [R2 [LV [LG [DV DG]]]]]]]]]; rewrite ?map_length; auto.
    { unfold values. rewrite map_length, Hb. reflexivity. }
    exists (fun t => scatter (o_dim p) q (q_blocks q) (VR t) (GR t) k i + F t), (scatter (o_dim p) q (q_blocks q) jv jg k i + l).
    rewrite map_length in LV, LG.
    split; [| split].
    + intros t. cbn [cell_loop]. rewrite (E1 t).
      change (fun b j => u b j + t * v b j) with (sline u v t). rewrite values_line, grads_line.
      assert (VE : forall s, values n q s = value_at n q s 0%nat :: value_at n q s 1%nat :: map (value_at n q s) ops) by (intros s; unfold values; rewrite Hb; reflexivity).
      assert (GE : forall s, grads n q s = grad_at n q s 0%nat :: grad_at n q s 1%nat :: map (grad_at n q s) ops) by (intros s; unfold grads; rewrite Hb; reflexivity).
      rewrite (VE u), (VE v), (GE u), (GE v), R1. reflexivity.
    + cbn [cell_loop]. rewrite E2.
      assert (VE : forall s, values n q s = value_at n q s 0%nat :: value_at n q s 1%nat :: map (value_at n q s) ops) by (intros s; unfold values; rewrite Hb; reflexivity).
      assert (GE : forall s, grads n q s = grad_at n q s 0%nat :: grad_at n q s 1%nat :: map (grad_at n q s) ops) by (intros s; unfold grads; rewrite Hb; reflexivity).
      rewrite (VE u), (VE v), (GE u), (GE v), R2. reflexivity.
    + apply derivable_plus; [| exact D]. apply scatter_deriv; [rewrite Hb; cbn; exact LV | rewrite Hb; cbn; exact LG | exact DV | exact DG].
Qed.
Print Assumptions C61_jacobian.

(** ** Cases and refutations on one linear element in one dimension *)
Definition element (blocks : list nat) (vel : list (option vec)) : point :=
  mkPoint 1 (fun _ => 1 / 2) (fun j _ => if Nat.eqb j 0 then -1 else 1) blocks vel.
Definition ramp (a : nat -> R) (b : nat -> R) : state := fun k j => a k + b k * (if Nat.eqb j 0 then 0 else 1).

Lemma ramp_value : forall blocks vel a b k, value_at 2 (element blocks vel) (ramp a b) k = a k + b k / 2.
Proof. intros. unfold value_at, element, ramp. cbn [vsum q_N Nat.eqb]. lra. Qed.
Lemma ramp_grad : forall blocks vel a b k, grad_at 2 (element blocks vel) (ramp a b) k = fun _ => b k.
Proof. intros. apply functional_extensionality. intros d. unfold grad_at, element, ramp. cbn [vsum q_G Nat.eqb]. lra. Qed.

Example C61_applies :
  let p := mkOp 1 1 1 1 1 1 1 (mkCoefficients 2 0 0 1 1) false in
  let pts := [element [0; 1; 2; 3]%nat [Some (fun _ => 5); None]] in
  let u := ramp (fun k => match k with 0%nat => 1 / 4 | 1%nat => 0 | _ => 1 end) (fun k => match k with 0%nat => 1 / 2 | 1%nat => 1 | _ => 0 end) in
  let v := ramp (fun k => 1) (fun k => 0) in
  (forall q, In q pts -> cell_ok q /\ 0 <= value_at 2 q u 0%nat <= 1)
  /\ vmult p 2 pts u v 0%nat 1%nat = Some (13 / 4).
Proof.
  cbv zeta. split.
  - intros q [<- | []]. split.
    + exists [2; 3]%nat. cbn. repeat split; try reflexivity; intuition discriminate.
    + rewrite ramp_value. lra.
  - unfold vmult. cbn [cell_loop]. unfold values, grads. cbn [q_blocks element map]. rewrite !ramp_value, !ramp_grad.
    match goal with |- context [vmult_point ?p ?vel (?c :: ?mu :: ?etas) (?gc :: ?gmu :: ?getas) (?c' :: ?mu' :: ?etas') (?gc' :: ?gmu' :: ?getas')] =>
      destruct (vmult_point_spec p vel c mu etas gc gmu getas c' mu' etas' gc' gmu' getas' eq_refl eq_refl eq_refl) as [retas [E _]]; rewrite E end.
    cbn [obind fst snd scatter Nat.eqb q_blocks q_w q_N q_G element o_weight o_dim dot advect_c q_vel].
    unfold apply_M_derivative. cbn [o_tensorial]. unfold apply_M_derivative_scalar, M_scalar, dM_dc_scalar. cbn [o_mobility m_vol m_vap m_surf m_gb].
    cbn [fold_left factor_loop]. f_equal.
    destruct retas as [| r1 [| r2 [| r3 r]]]; cbn [advect_etas eta_grads map scatter Nat.eqb]; lra.
Qed.

(** Outside of this range the linearised operator is not the derivative: bulk mobility one,
    concentration two. *)
Theorem C61_outside_refuted : exists p n pts u v F l,
  o_tensorial p = false /\ (forall q, In q pts -> cell_ok q)
  /\ (forall t, residual p n pts 1 u (fun b j => u b j + t * v b j) 0%nat 1%nat = Some (F t))
  /\ vmult p n pts u v 0%nat 1%nat = Some l
  /\ ~ derivable_pt_lim F 0 l.
Proof.
  set (m := mkCoefficients 1 0 0 0 1). set (p := mkOp 1 0 0 0 0 0 1 m false).
  set (q := element [0; 1]%nat []).
  set (u := ramp (fun k => match k with 0%nat => 2 | _ => 0 end) (fun k => match k with 0%nat => 0 | _ => 1 end)).
  set (v := ramp (fun k => match k with 0%nat => 1 | _ => 0 end) (fun k => 0)).
  exists p, 2%nat, [q], u, v, (fun t => M_scalar m (2 + t * 1) []), (dM_dc_scalar m 2 * 1).
  split; [reflexivity |]. split.
  { intros x [<- | []]. exists []. cbn. repeat split; auto. }
  split; [| split].
  - intros t. unfold residual. cbn [cell_loop]. change (fun b j => u b j + t * v b j) with (sline u v t).
    rewrite values_line, grads_line. unfold values, grads, q, u, v. cbn [q_blocks element map]. rewrite !ramp_value, !ramp_grad. cbn [vline gvline].
    unfold residual_point. rewrite residual_quad_spec by reflexivity. cbn [obind].
    unfold add_advection. cbn [fst snd eta_grads map q_vel element]. rewrite advect_spec by reflexivity. cbn [obind fst snd scatter Nat.eqb q_blocks element q_w q_N q_G o_dim dot advect_c].
    unfold apply_M, vadd. cbn [o_tensorial p o_mobility]. unfold apply_M_scalar, time_part. cbn [Nat.leb Nat.eqb o_weight p dot].
    f_equal. replace (2 + 0 / 2 + t * (1 + 0 / 2)) with (2 + t * 1) by field. unfold p; cbn [o_dim dot]. field.
  - unfold vmult. cbn [cell_loop]. unfold values, grads, q, u, v. cbn [q_blocks element map]. rewrite !ramp_value, !ramp_grad.
    match goal with |- context [vmult_point ?p ?vel (?c :: ?mu :: ?etas) (?gc :: ?gmu :: ?getas) (?c' :: ?mu' :: ?etas') (?gc' :: ?gmu' :: ?getas')] =>
      destruct (vmult_point_spec p vel c mu etas gc gmu getas c' mu' etas' gc' gmu' getas' eq_refl eq_refl eq_refl) as [retas [E [Lr _]]]; rewrite E end.
    destruct retas; [| discriminate].
    cbn [obind fst snd scatter Nat.eqb q_blocks q_w q_N q_G element o_weight o_dim dot advect_c q_vel advect_etas eta_grads map].
    unfold apply_M_derivative. cbn [o_tensorial p o_mobility]. unfold apply_M_derivative_scalar. cbn [fold_left factor_loop o_weight p dot].
    f_equal. replace (2 + 0 / 2) with 2 by field. unfold p; cbn [o_dim dot o_weight]. field.
  - intros D. apply (C30_outside_refuted m 2 []); [lra | cbn; lra |].
    apply (derivable_ext (fun x => (fun t => M_scalar m (2 + t * 1) []) (-2 + x * 1))).
    { intros y. cbv beta. f_equal. ring. }
    assert (C := derivable_pt_lim_comp (fun x => -2 + x * 1) (fun t => M_scalar m (2 + t * 1) []) 2 1 (dM_dc_scalar m 2 * 1)).
    unfold comp in C. eapply derivable_eq; [| apply C].
    + ring.
    + apply derivable_line.
    + replace (-2 + 2 * 1) with 0 by ring. exact D.
Qed.
Print Assumptions C61_outside_refuted.

(** With the tensorial mobility the linearised operator is not the derivative, not even in
    the direction of the chemical potential alone: the factor 1001/1000 of the projection
    is missing. *)
Theorem C61_tensorial_refuted : exists p n pts u v F l,
  o_tensorial p = true /\ (forall q, In q pts -> cell_ok q /\ 0 <= value_at n q u 0%nat <= 1)
  /\ (forall t, residual p n pts 1 u (fun b j => u b j + t * v b j) 0%nat 1%nat = Some (F t))
  /\ vmult p n pts u v 0%nat 1%nat = Some l
  /\ ~ derivable_pt_lim F 0 l.
Proof.
  set (m := mkCoefficients 0 0 4 0 1). set (p := mkOp 1 0 0 0 0 0 1 m true).
  set (q := element [0; 1]%nat []).
  set (u := ramp (fun k => match k with 0%nat => 1 / 2 | _ => 0 end) (fun k => 0)).
  set (v := ramp (fun k => 0) (fun k => match k with 0%nat => 0 | _ => 1 end)).
  exists p, 2%nat, [q], u, v, (fun t => 1001 / 1000 * t), 1.
  split; [reflexivity |]. split.
  { intros x [<- | []]. split; [exists []; cbn; repeat split; auto |]. unfold q, u. rewrite ramp_value. lra. }
  assert (N0 : norm 1 (fun _ => 0) = 0) by (unfold norm; cbn [dot]; replace (0 + 0 * 0) with 0 by ring; apply sqrt_0).
  assert (UV : forall d, unit_vector 1 (fun _ => 0) d = 0).
  { intros d. apply unit_vector_off. rewrite N0. assert (P := small_pos 10). lra. }
  split; [| split].
  - intros t. unfold residual. cbn [cell_loop]. change (fun b j => u b j + t * v b j) with (sline u v t).
    rewrite values_line, grads_line. unfold values, grads, q, u, v. cbn [q_blocks element map]. rewrite !ramp_value, !ramp_grad. cbn [vline gvline].
    unfold residual_point. rewrite residual_quad_spec by reflexivity. cbn [obind].
    unfold add_advection. cbn [fst snd eta_grads map q_vel element]. rewrite advect_spec by reflexivity. cbn [obind fst snd scatter Nat.eqb q_blocks element q_w q_N q_G o_dim dot advect_c].
    unfold apply_M. cbn [o_tensorial p o_mobility]. unfold apply_M_tensorial. cbn [combine length Nat.leb dot o_dim p].
    replace (vadd t (fun _ : nat => 0) (fun _ : nat => 0)) with (fun _ : nat => 0) by (apply functional_extensionality; intros; unfold vadd; ring).
    rewrite !UV. unfold time_part, f_vol_vap, f_surf, projector_scale, vadd. cbn [Nat.leb Nat.eqb o_weight p m_vol m_vap m_surf m o_mobility].
    f_equal. unfold p; cbn [o_dim dot o_weight o_mobility]. field.
  - unfold vmult. cbn [cell_loop]. unfold values, grads, q, u, v. cbn [q_blocks element map]. rewrite !ramp_value, !ramp_grad.
    match goal with |- context [vmult_point ?p ?vel (?c :: ?mu :: ?etas) (?gc :: ?gmu :: ?getas) (?c' :: ?mu' :: ?etas') (?gc' :: ?gmu' :: ?getas')] =>
      destruct (vmult_point_spec p vel c mu etas gc gmu getas c' mu' etas' gc' gmu' getas' eq_refl eq_refl eq_refl) as [retas [E [Lr _]]]; rewrite E end.
    destruct retas; [| discriminate].
    cbn [obind fst snd scatter Nat.eqb q_blocks q_w q_N q_G element o_weight o_dim dot advect_c q_vel advect_etas eta_grads map].
    unfold apply_M_derivative. cbn [o_tensorial p o_mobility]. unfold apply_M_derivative_tensorial. cbn [combine length Nat.leb o_weight p dot o_dim].
    rewrite !UV. unfold f_vol_vap, f_surf. cbn [m_vol m_vap m_surf m o_mobility p].
    f_equal. unfold p; cbn [o_dim dot o_weight o_mobility]. unfold df_surf, mask_lt.
    rewrite N0. destruct (Rlt_dec 0 (/ 10 ^ 4)); [| assert (P := small_pos 4); lra]. field.
  - intros D. assert (E := uniqueness_limite _ _ _ _ D (derivable_scal_l _ 0 1 (1001 / 1000) (derivable_pt_lim_id 0))). lra.
Qed.
Print Assumptions C61_tensorial_refuted.
