(** Property C63: without advection the reported free energy does not grow along the
    discrete rate of a solution. *)
From Coq Require Import List Reals Arith Lia Lra FunctionalExtensionality.
From Verif Require Import Util FreeEnergyModel FreeEnergyProofs FreeEnergyProps MobilityModel MobilityProofs MobilityProps OperatorModel OperatorProofs OperatorProps OperatorMassProps.
Import ListNotations.
Local Open Scope R_scope.

(** ** the energy at a point *)
Definition f_of (p : op_data) (c : R) (etas : list R) : R :=
  o_A p * (c * c) * ((- c + 1) * (- c + 1)) + o_B p * ((c * c) + (-6 * c + 6) * psum 2 etas - (-4 * c + 8) * psum 3 etas + 3 * (psum 2 etas * psum 2 etas)).
Fixpoint gsum (dim : nat) (gs hs : list vec) : R := match gs, hs with g :: gs, h :: hs => dot dim g h + gsum dim gs hs | _, _ => 0 end.
Fixpoint desum (e : evaluation) (etas values : list R) : R :=
  match etas, values with eta :: etas, v :: values => df_detai e eta * v + desum e etas values | _, _ => 0 end.

Lemma norm_squares_spec : forall dim gs acc, norm_squares dim gs acc = acc + gsum dim gs gs.
Proof. intros dim. induction gs as [| g gs IH]; intros acc; cbn [norm_squares gsum]; [ring |]. rewrite IH. ring. Qed.

Lemma energy_point_spec : forall p c mu etas gc gmu getas,
  energy_point p (c :: mu :: etas) (gc :: gmu :: getas)
  = Some (gsum (o_dim p) getas getas * (1 / 2 * o_kappa_p p) + 1 / 2 * o_kappa_c p * dot (o_dim p) gc gc + f_of p c etas).
Proof.
  intros. unfold energy_point.
  change (eval_static true (o_A p) (o_B p) (c :: mu :: etas) (length etas)) with (evaluator false true (o_A p) (o_B p) (c :: mu :: etas) (length etas)).
  rewrite evaluator_spec. cbn [obind]. unfold f. cbn [e_s3 e_c e_s2 e_A e_B obind]. rewrite norm_squares_spec. unfold f_of. f_equal. ring.
Qed.

Lemma dot_line2 : forall dim (g h : vec) t, dot dim (vadd t g h) (vadd t g h) = dot dim g g + 2 * t * dot dim g h + t * t * dot dim h h.
Proof. induction dim as [| n IH]; intros g h t; cbn [dot]; [ring |]. rewrite IH. unfold vadd. ring. Qed.
Lemma gsum_line : forall dim gs hs t, length hs = length gs ->
  gsum dim (gvline gs hs t) (gvline gs hs t) = gsum dim gs gs + 2 * t * gsum dim gs hs + t * t * gsum dim hs hs.
Proof.
  intros dim. induction gs as [| g gs IH]; intros [| h hs] t H; cbn in H; try discriminate; cbn [gvline gsum]; [ring |].
  rewrite IH, dot_line2 by congruence. ring.
Qed.

Lemma desum_eq : forall e etas values, length values = length etas ->
  desum e etas values = e_B e * 12 * ((e_c e - 2) * dotp2 etas values + (1 - e_c e + e_s2 e) * dotp etas values).
Proof.
  intros e. induction etas as [| a r IH]; intros [| v w] H; cbn in H; try discriminate; cbn [desum dotp dotp2]; [ring |].
  rewrite IH by congruence. unfold df_detai. ring.
Qed.

Lemma f_deriv : forall p c c' etas values, length values = length etas ->
  derivable_pt_lim (fun t => f_of p (c + t * c') (vline etas values t)) 0 (df_dc_of p c etas * c' + desum (eval_of p c etas) etas values).
Proof.
  intros p c c' etas values H. unfold f_of.
  assert (D2 := psum2_deriv etas values H). assert (D3 := psum3_deriv etas values H).
  assert (Z2 : psum 2 (vline etas values 0) = psum 2 etas) by (rewrite psum2_line by exact H; ring).
  assert (Z3 : psum 3 (vline etas values 0) = psum 3 etas).
  { clear - H. revert values H. induction etas as [| e r IH]; intros [| v w] H; cbn in H; try discriminate; cbn [vline psum]; [reflexivity |].
    rewrite IH by congruence. f_equal. f_equal. ring. }
  set (S2 := fun t => psum 2 (vline etas values t)) in *. set (S3 := fun t => psum 3 (vline etas values t)) in *.
  assert (D1 : derivable_pt_lim (fun t => o_A p * ((c + t * c') * (c + t * c')) * ((- (c + t * c') + 1) * (- (c + t * c') + 1)) + o_B p * ((c + t * c') * (c + t * c'))) 0
     ((o_A p * (c * c) * (2 * c - 2) + 2 * o_A p * c * ((- c + 1) * (- c + 1)) + o_B p * (2 * c)) * c')).
  { apply (derivable_comp_line (fun x => o_A p * (x * x) * ((- x + 1) * (- x + 1)) + o_B p * (x * x))).
    apply (quartic_deriv 0 0 (o_A p + o_B p) (-2 * o_A p) (o_A p)); [intros y |]; ring. }
  apply (derivable_ext (fun t => (o_A p * ((c + t * c') * (c + t * c')) * ((- (c + t * c') + 1) * (- (c + t * c') + 1)) + o_B p * ((c + t * c') * (c + t * c')))
     + (((o_B p * (-6 * c + 6) + t * (o_B p * (-6 * c')))) * S2 t + ((o_B p * (4 * c - 8) + t * (o_B p * (4 * c')))) * S3 t + (S2 t * S2 t) * (3 * o_B p)))).
  { intros t. unfold S2, S3. ring. }
  eapply derivable_eq; [| apply derivable_plus; [exact D1 | apply derivable_plus; [apply derivable_plus; apply derivable_mult; [apply derivable_line | exact D2 | apply derivable_line | exact D3] | apply derivable_scal; apply derivable_mult; exact D2]]].
  cbv beta. change (S2 0) with (psum 2 (vline etas values 0)). change (S3 0) with (psum 3 (vline etas values 0)). rewrite Z2, Z3.
  rewrite desum_eq by exact H. unfold df_dc_of, eval_of. cbn [e_B e_c e_s2]. ring.
Qed.

(** ** testing the residual *)
Fixpoint pairing (dim n : nat) (q : point) (T : state) (blocks : list nat) (vs : list R) (gs : list vec) : R :=
  match blocks, vs, gs with
  | b :: blocks, v :: vs, g :: gs => (value_at n q T b * v + dot dim (grad_at n q T b) g) + pairing dim n q T blocks vs gs
  | _, _, _ => 0
  end.

Lemma vsum_single : forall nb b (f : nat -> R), (b < nb)%nat -> vsum nb (fun k => if Nat.eqb b k then f k else 0) = f b.
Proof.
  induction nb as [| nb IH]; intros b f H; [lia |]. cbn [vsum].
  destruct (Nat.eqb_spec b nb) as [-> | Ne].
  - rewrite (vsum_ext nb _ (fun _ => 0)); [rewrite vsum_zero; ring |].
    intros j Hj. destruct (Nat.eqb_spec nb j); [lia | reflexivity].
  - rewrite IH by lia. ring.
Qed.

Lemma test_entry : forall dim n q (T : state) b v g,
  vsum n (fun i => T b i * (q_w q * (q_N q i * v + dot dim (q_G q i) g))) = q_w q * (value_at n q T b * v + dot dim (grad_at n q T b) g).
Proof.
  intros. rewrite (vsum_ext n _ (fun i => (q_w q * v) * (q_N q i * T b i) + q_w q * dot dim (fun d => q_G q i d * T b i) g)).
  - rewrite vsum_lin, (dot_vsum dim n (fun i d => q_G q i d * T b i) g). unfold value_at, grad_at. ring.
  - intros i _. assert (E : dot dim (fun d => q_G q i d * T b i) g = T b i * dot dim (q_G q i) g).
    { rewrite dot_comm, (dot_comm dim (q_G q i)). rewrite <- dot_scale. apply dot_ext; intros; ring. }
    rewrite E. ring.
Qed.

Lemma test_scatter : forall dim n nb q T blocks vs gs, length vs = length blocks -> length gs = length blocks ->
  (forall b, In b blocks -> (b < nb)%nat) ->
  vsum nb (fun k => vsum n (fun i => T k i * scatter dim q blocks vs gs k i)) = q_w q * pairing dim n q T blocks vs gs.
Proof.
  intros dim n nb q T. induction blocks as [| b blocks IH]; intros [| v vs] [| g gs] H1 H2 Hb; cbn in H1, H2; try discriminate.
  - cbn [scatter pairing]. rewrite (vsum_ext nb _ (fun _ => 0)); [rewrite vsum_zero; ring |].
    intros k _. rewrite (vsum_ext n _ (fun _ => 0)) by (intros; ring). apply vsum_zero.
  - cbn [scatter pairing].
    rewrite (vsum_ext nb _ (fun k => (if Nat.eqb b k then vsum n (fun i => T k i * (q_w q * (q_N q i * v + dot dim (q_G q i) g))) else 0) + vsum n (fun i => T k i * scatter dim q blocks vs gs k i))).
    + rewrite vsum_plus, IH; [| congruence | congruence | intros; apply Hb; right; assumption].
      rewrite (vsum_single nb b (fun k => vsum n (fun i => T k i * (q_w q * (q_N q i * v + dot dim (q_G q i) g))))) by (apply Hb; left; reflexivity).
      rewrite test_entry. ring.
    + intros k _. destruct (Nat.eqb b k).
      * rewrite <- vsum_plus. apply vsum_ext. intros. ring.
      * rewrite Rplus_0_l. apply vsum_ext. intros. ring.
Qed.

(** ** without advection *)
Lemma advect_none : forall vel c etas g0 gs, Forall (fun v => v = None) vel -> length vel = length etas -> length gs = length etas ->
  advect_c vel c g0 = g0 /\ advect_etas vel etas gs = gs.
Proof.
  induction vel as [| v vel IH]; intros c [| e etas] g0 [| g gs] H L1 L2; cbn in L1, L2; try discriminate; [split; reflexivity |].
  inversion H; subst. cbn [advect_c advect_etas]. destruct (IH c etas g0 gs) as [-> ->]; auto.
Qed.

Definition rate (p : op_data) (history u : state) : state := fun b j => u b j * o_weight p + history b j.
Lemma rate_value : forall p n q history u b, value_at n q (rate p history u) b = time_part 2 (o_weight p) (value_at n q u b) (value_at n q history b).
Proof.
  intros. unfold value_at, rate, time_part. cbn [Nat.leb Nat.eqb].
  rewrite (vsum_ext n _ (fun j => o_weight p * (q_N q j * u b j) + 1 * (q_N q j * history b j))) by (intros; ring). rewrite vsum_lin. ring.
Qed.

(** test functions: chemical potential, minus the rate of the concentration, the rates of
    the order parameters over their mobility *)
Definition tester (p : op_data) (history u : state) : state := fun b j =>
  match b with 0%nat => o_weight_alg p * u 1%nat j | 1%nat => - rate p history u 0%nat j | _ => / o_L p * rate p history u b j end.

Lemma value_scale : forall n q (u : state) b (w : state) b' s, (forall j, w b' j = s * u b j) -> value_at n q w b' = s * value_at n q u b.
Proof. intros n q u b w b' s H. unfold value_at. rewrite <- vsum_scale. apply vsum_ext. intros j _. rewrite H. ring. Qed.
Lemma grad_scale : forall n q (u : state) b (w : state) b' s d, (forall j, w b' j = s * u b j) -> grad_at n q w b' d = s * grad_at n q u b d.
Proof. intros n q u b w b' s d H. unfold grad_at. rewrite <- vsum_scale. apply vsum_ext. intros j _. rewrite H. ring. Qed.

Lemma pairing_etas : forall p n q history u e ops i buffer, o_L p <> 0 -> (forall b, In b ops -> (2 <= b)%nat) ->
  (forall k, (k < length ops)%nat -> nth (i + k) buffer 0 = value_at n q history (nth k ops 0%nat)) ->
  pairing (o_dim p) n q (tester p history u) ops (eta_vals p 2 buffer e i (map (value_at n q u) ops)) (eta_grads p (map (grad_at n q u) ops))
  = desum e (map (value_at n q u) ops) (map (value_at n q (rate p history u)) ops)
    + / o_L p * sqsum (map (value_at n q (rate p history u)) ops)
    + o_kappa_p p * gsum (o_dim p) (map (grad_at n q u) ops) (map (grad_at n q (rate p history u)) ops).
Proof.
  intros p n q history u e. induction ops as [| b ops IH]; intros i buffer HL H2 Hb; cbn [map eta_vals eta_grads pairing desum sqsum gsum]; [ring |].
  change (map (fun (g : vec) (d : nat) => o_L p * o_kappa_p p * g d) (map (grad_at n q u) ops)) with (eta_grads p (map (grad_at n q u) ops)).
  rewrite (IH (S i) buffer HL); [| intros; apply H2; right; assumption |].
  2:{ intros k Hk. replace (S i + k)%nat with (i + S k)%nat by lia. rewrite Hb by (cbn [length]; lia). reflexivity. }
  assert (B2 : (2 <= b)%nat) by (apply H2; left; reflexivity).
  assert (Tb : forall j, tester p history u b j = / o_L p * rate p history u b j) by (intros j; destruct b as [| [| b]]; [lia | lia | reflexivity]).
  rewrite (value_scale n q (rate p history u) b (tester p history u) b (/ o_L p) Tb).
  assert (Hi := Hb 0%nat ltac:(cbn [length]; lia)). rewrite Nat.add_0_r in Hi. cbn [nth] in Hi. rewrite Hi.
  rewrite <- rate_value.
  rewrite (dot_ext (o_dim p) (grad_at n q (tester p history u) b) (fun d => o_L p * o_kappa_p p * grad_at n q u b d)
             (fun d => / o_L p * grad_at n q (rate p history u) b d) (fun d => o_L p * o_kappa_p p * grad_at n q u b d));
    [| intros d; apply grad_scale; exact Tb | reflexivity].
  rewrite dot_scale, (dot_comm (o_dim p) _ (grad_at n q u b)), dot_scale.
  field. exact HL.
Qed.

(** every point: energy rate plus dissipation is the residual, tested *)
Definition energy_rate (p : op_data) (n : nat) (q : point) (u v : state) : R :=
  let ops := skipn 2 (q_blocks q) in
  df_dc_of p (value_at n q u 0%nat) (map (value_at n q u) ops) * value_at n q v 0%nat
  + desum (eval_of p (value_at n q u 0%nat) (map (value_at n q u) ops)) (map (value_at n q u) ops) (map (value_at n q v) ops)
  + o_kappa_c p * dot (o_dim p) (grad_at n q u 0%nat) (grad_at n q v 0%nat)
  + o_kappa_p p * gsum (o_dim p) (map (grad_at n q u) ops) (map (grad_at n q v) ops).
Definition flux_dissipation (p : op_data) (n : nat) (q : point) (u : state) : R :=
  let ops := skipn 2 (q_blocks q) in
  dot (o_dim p) (grad_at n q u 1%nat) (apply_M p (value_at n q u 0%nat) (map (value_at n q u) ops) (grad_at n q u 0%nat) (map (grad_at n q u) ops) (grad_at n q u 1%nat)).
Definition op_dissipation (n : nat) (q : point) (v : state) : R := sqsum (map (value_at n q v) (skipn 2 (q_blocks q))).

Lemma point_identity : forall p n q history u, o_L p <> 0 -> cell_ok q -> Forall (fun v => v = None) (q_vel q) ->
  exists vs gs, residual_point p 2 (values n q history) (q_vel q) (values n q u) (grads n q u) = Some (vs, gs)
    /\ length vs = length (q_blocks q) /\ length gs = length (q_blocks q)
    /\ pairing (o_dim p) n q (tester p history u) (q_blocks q) vs gs
       = energy_rate p n q u (rate p history u) + o_weight_alg p * flux_dissipation p n q u + / o_L p * op_dissipation n q (rate p history u).
Proof.
  intros p n q history u HL [ops [Hb [H0 [H1 Hv]]]] Hn. unfold residual_point, values, grads.
  unfold energy_rate, flux_dissipation, op_dissipation. rewrite Hb. cbn [map skipn].
  rewrite residual_quad_spec by (cbn [length]; rewrite ?map_length; reflexivity). cbn [obind].
  unfold add_advection. cbn [fst snd]. rewrite advect_spec; [| rewrite map_length; exact Hv | unfold eta_grads; rewrite !map_length; reflexivity].
  cbn [obind fst snd nth].
  match goal with |- context [advect_etas ?v ?e ?g] => destruct (advect_none v (value_at n q u 0%nat) e
     (apply_M p (value_at n q u 0%nat) (map (value_at n q u) ops) (grad_at n q u 0%nat) (map (grad_at n q u) ops) (grad_at n q u 1%nat)) g Hn) as [-> ->] end.
  { rewrite map_length. exact Hv. }
  { unfold eta_grads. rewrite !map_length. reflexivity. }
  do 2 eexists. split; [reflexivity |].
  split; [cbn [length]; rewrite eta_vals_length, map_length; reflexivity |].
  split; [cbn [length]; unfold eta_grads; rewrite !map_length; reflexivity |].
  cbn [pairing].
  rewrite (pairing_etas p n q history u _ ops 2 (value_at n q history 0%nat :: value_at n q history 1%nat :: map (value_at n q history) ops) HL).
  - rewrite <- rate_value.
    rewrite (value_scale n q u 1%nat (tester p history u) 0%nat (o_weight_alg p)) by reflexivity.
    rewrite (value_scale n q (rate p history u) 0%nat (tester p history u) 1%nat (-1)) by (intros; unfold tester; ring).
    rewrite (dot_ext (o_dim p) (grad_at n q (tester p history u) 0%nat) _ (fun d => o_weight_alg p * grad_at n q u 1%nat d)
       (apply_M p (value_at n q u 0%nat) (map (value_at n q u) ops) (grad_at n q u 0%nat) (map (grad_at n q u) ops) (grad_at n q u 1%nat)));
      [| intros d; apply grad_scale; reflexivity | reflexivity].
    rewrite (dot_ext (o_dim p) (grad_at n q (tester p history u) 1%nat) (fun d => - o_kappa_c p * grad_at n q u 0%nat d) (fun d => -1 * grad_at n q (rate p history u) 0%nat d) (fun d => - o_kappa_c p * grad_at n q u 0%nat d));
      [| intros d; apply grad_scale; intros; unfold tester; ring | reflexivity].
    rewrite dot_scale, (dot_comm (o_dim p) (fun d => -1 * grad_at n q (rate p history u) 0%nat d)), dot_scale.
    rewrite (dot_comm (o_dim p) (fun d => o_weight_alg p * grad_at n q u 1%nat d)), dot_scale.
    rewrite (dot_comm (o_dim p) (apply_M _ _ _ _ _ _)). ring.
  - intros b Ib. destruct b as [| [| b]]; [contradiction | contradiction | lia].
  - intros k Hk. cbn [Nat.add nth]. rewrite (nth_indep _ 0 (value_at n q history 0%nat)) by (rewrite map_length; exact Hk). apply map_nth.
Qed.

(** the energy along the direction [v] *)
Lemma energy_deriv : forall p n pts u v, (forall q, In q pts -> cell_ok q) ->
  exists E, (forall t, free_energy p n pts (sline u v t) = Some (E t))
    /\ derivable_pt_lim E 0 (fold_right Rplus 0 (map (fun q => q_w q * energy_rate p n q u v) pts)).
Proof.
  intros p n. induction pts as [| q pts IH]; intros u v H.
  - exists (fun _ => 0). split; [reflexivity | apply derivable_const0].
  - destruct (IH u v) as [E [E1 E2]]; [intros; apply H; right; assumption |].
    destruct (H q (or_introl eq_refl)) as [ops [Hb _]].
    set (etas := map (value_at n q u) ops). set (etas' := map (value_at n q v) ops).
    set (getas := map (grad_at n q u) ops). set (getas' := map (grad_at n q v) ops).
    set (c := value_at n q u 0%nat). set (c' := value_at n q v 0%nat). set (gc := grad_at n q u 0%nat). set (gc' := grad_at n q v 0%nat).
    assert (L : length etas' = length etas) by (unfold etas, etas'; rewrite !map_length; reflexivity).
    assert (Lg : length getas' = length getas) by (unfold getas, getas'; rewrite !map_length; reflexivity).
    exists (fun t => (gsum (o_dim p) (gvline getas getas' t) (gvline getas getas' t) * (1 / 2 * o_kappa_p p)
        + 1 / 2 * o_kappa_c p * dot (o_dim p) (vadd t gc gc') (vadd t gc gc') + f_of p (c + t * c') (vline etas etas' t)) * q_w q + E t).
    split.
    + intros t. unfold free_energy in *. cbn [domain_quantity]. rewrite (E1 t). rewrite values_line, grads_line. unfold values, grads. rewrite Hb. cbn [map vline gvline].
      fold c c' gc gc' etas etas' getas getas'. rewrite energy_point_spec. reflexivity.
    + cbn [map fold_right]. apply derivable_plus; [| exact E2].
      unfold energy_rate. rewrite Hb. cbn [skipn]. fold c c' gc gc' etas etas' getas getas'.
      eapply derivable_eq; [| apply derivable_scal; apply derivable_plus; [apply derivable_plus | apply f_deriv; exact L]].
      2:{ apply (quartic_deriv (1 / 2 * o_kappa_p p * gsum (o_dim p) getas getas) (o_kappa_p p * gsum (o_dim p) getas getas') (1 / 2 * o_kappa_p p * gsum (o_dim p) getas' getas') 0 0); [| reflexivity].
          intros t. rewrite gsum_line by exact Lg. field. }
      2:{ apply (quartic_deriv (1 / 2 * o_kappa_c p * dot (o_dim p) gc gc) (o_kappa_c p * dot (o_dim p) gc gc') (1 / 2 * o_kappa_c p * dot (o_dim p) gc' gc') 0 0); [| reflexivity].
          intros t. rewrite dot_line2. field. }
      ring.
Qed.

Lemma tested_residual : forall p n nb pts history u, o_L p <> 0 ->
  (forall q, In q pts -> cell_ok q /\ Forall (fun v => v = None) (q_vel q) /\ forall b, In b (q_blocks q) -> (b < nb)%nat) ->
  exists r, (forall k i, residual p n pts 2 history u k i = Some (r k i))
    /\ vsum nb (fun k => vsum n (fun i => tester p history u k i * r k i))
       = fold_right Rplus 0 (map (fun q => q_w q * (energy_rate p n q u (rate p history u) + o_weight_alg p * flux_dissipation p n q u + / o_L p * op_dissipation n q (rate p history u))) pts).
Proof.
  intros p n nb. induction pts as [| q pts IH]; intros history u HL H.
  - exists (fun _ _ => 0). split; [reflexivity |]. cbn [map fold_right].
    rewrite (vsum_ext nb _ (fun _ => 0)); [apply vsum_zero |]. intros k _. rewrite (vsum_ext n _ (fun _ => 0)) by (intros; ring). apply vsum_zero.
  - destruct (IH history u HL) as [r [E1 E2]]; [intros; apply H; right; assumption |].
    destruct (H q (or_introl eq_refl)) as [Ok [Hn Hb]].
    destruct (point_identity p n q history u HL Ok Hn) as [vs [gs [R1 [L1 [L2 P]]]]].
    exists (fun k i => scatter (o_dim p) q (q_blocks q) vs gs k i + r k i). split.
    + intros k i. unfold residual in *. cbn [cell_loop]. rewrite R1. cbn [obind]. rewrite E1. reflexivity.
    + cbn [map fold_right]. rewrite <- P, <- (test_scatter (o_dim p) n nb q (tester p history u) (q_blocks q) vs gs L1 L2 Hb), <- E2, <- vsum_plus.
      apply vsum_ext. intros k _. rewrite <- vsum_plus. apply vsum_ext. intros i _. ring.
Qed.

Lemma flux_nonneg : forall p n q u, nonnegative (o_mobility p) -> cell_ok q ->
  (forall b, In b (q_blocks q) -> (2 <= b)%nat -> 0 <= value_at n q u b) -> 0 <= flux_dissipation p n q u.
Proof.
  intros p n q u Hm [ops [Hb [H0 [H1 _]]]] He. unfold flux_dissipation. rewrite Hb in *. cbn [skipn].
  assert (Pe : Forall (fun e => 0 <= e) (map (value_at n q u) ops)).
  { apply Forall_forall. intros x Ix. apply in_map_iff in Ix. destruct Ix as [b [<- Ib]]. apply He; [right; right; exact Ib |].
    destruct b as [| [| b]]; [contradiction | contradiction | lia]. }
  unfold apply_M. destruct (o_tensorial p).
  - assert (Pg : Forall (fun g : egrain => 0 <= fst g) (combine (map (value_at n q u) ops) (map (grad_at n q u) ops))).
    { apply Forall_forall. intros [e g] Ix. apply in_combine_l in Ix. rewrite Forall_forall in Pe. exact (Pe e Ix). }
    assert (D := C31_dissipation (o_dim p) (o_mobility p) (value_at n q u 0%nat) _ (grad_at n q u 0%nat) (grad_at n q u 1%nat) Hm Pg).
    eapply Rle_trans; [| exact D]. apply Rmult_le_pos; [| apply dot_pos].
    destruct Hm as [M1 [M2 _]]. apply vol_vap_nonneg; assumption.
  - apply (C30_nonnegative (o_mobility p) (value_at n q u 0%nat) _ Hm Pe).
Qed.

Lemma sqsum_nonneg : forall l, 0 <= sqsum l.
Proof. induction l as [| x l IH]; cbn [sqsum]; [lra |]. assert (Q := Rle_0_sqr x). unfold Rsqr in Q. lra. Qed.

(** For all meshes, numbers of order parameters, states and both mobilities: if the residual
    vanishes and there is no advection, the derivative of the reported free energy in the
    direction of the discrete rate (the weighted sum of the new and the old solutions) is
    at most minus the integral of the squares of the rates of the order parameters over
    their mobility; in particular it is not positive. *)
Theorem C63_dissipation : forall p n nb pts history u,
  0 < o_L p -> 0 <= o_weight_alg p -> nonnegative (o_mobility p) ->
  (forall q, In q pts -> cell_ok q /\ Forall (fun v => v = None) (q_vel q) /\ 0 <= q_w q
     /\ forall b, In b (q_blocks q) -> (b < nb)%nat /\ ((2 <= b)%nat -> 0 <= value_at n q u b)) ->
  (forall k i, (k < nb)%nat -> (i < n)%nat -> residual p n pts 2 history u k i = Some 0) ->
  let rate := fun b j => u b j * o_weight p + history b j in
  exists E dE s,
    (forall t, free_energy p n pts (fun b j => u b j + t * rate b j) = Some (E t))
    /\ derivable_pt_lim E 0 dE
    /\ domain_quantity (fun q => Some (fold_right Rplus 0 (map (fun b => Rsqr (value_at n q rate b)) (skipn 2 (q_blocks q))))) pts = Some s
    /\ dE <= - s / o_L p /\ dE <= 0.
Proof.
  intros p n nb pts history u HL Ha Hm Hq Hr. cbv zeta.
  change (fun b j => u b j * o_weight p + history b j) with (rate p history u).
  destruct (energy_deriv p n pts u (rate p history u)) as [E [E1 E2]]; [intros q I; apply (Hq q I) |].
  destruct (tested_residual p n nb pts history u) as [r [R1 R2]]; [lra | |].
  { intros q I. destruct (Hq q I) as [A [B [_ C]]]. split; [exact A | split; [exact B |]]. intros b Ib. apply (C b Ib). }
  assert (Z : vsum nb (fun k => vsum n (fun i => tester p history u k i * r k i)) = 0).
  { rewrite <- (vsum_zero nb). apply vsum_ext. intros k Hk. rewrite <- (vsum_zero n). apply vsum_ext. intros i Hi.
    assert (A := R1 k i). rewrite (Hr k i Hk Hi) in A. injection A as <-. ring. }
  rewrite Z in R2.
  set (dE := fold_right Rplus 0 (map (fun q => q_w q * energy_rate p n q u (rate p history u)) pts)) in *.
  exists E, dE, (fold_right Rplus 0 (map (fun q => q_w q * op_dissipation n q (rate p history u)) pts)).
  split; [exact E1 |]. split; [exact E2 |]. split.
  { clear. induction pts as [| q pts IH]; [reflexivity |]. cbn [domain_quantity map fold_right]. rewrite IH. cbn [obind]. f_equal. f_equal.
    unfold op_dissipation. rewrite Rmult_comm. f_equal. induction (skipn 2 (q_blocks q)) as [| b l IHl]; [reflexivity |]. cbn [map fold_right sqsum]. rewrite IHl. reflexivity. }
  set (s := fold_right Rplus 0 (map (fun q => q_w q * op_dissipation n q (rate p history u)) pts)) in *.
  set (D := fold_right Rplus 0 (map (fun q => q_w q * flux_dissipation p n q u) pts)).
  assert (Sum : dE + o_weight_alg p * D + / o_L p * s = 0).
  { etransitivity; [| symmetry; exact R2]. unfold dE, D, s. clear. induction pts as [| q pts IH]; cbn [map fold_right]; [ring |]. rewrite <- IH. ring. }
  assert (PD : 0 <= D).
  { unfold D. clear - Hm Hq. induction pts as [| q pts IH]; cbn [map fold_right]; [lra |].
    assert (0 <= fold_right Rplus 0 (map (fun q => q_w q * flux_dissipation p n q u) pts)) by (apply IH; intros; apply Hq; right; assumption).
    destruct (Hq q (or_introl eq_refl)) as [Ok [_ [Pw Hb]]].
    assert (0 <= flux_dissipation p n q u) by (apply flux_nonneg; [exact Hm | exact Ok | intros b Ib; apply Hb; exact Ib]).
    assert (0 <= q_w q * flux_dissipation p n q u) by (apply Rmult_le_pos; assumption). lra. }
  assert (PS : 0 <= s).
  { unfold s. clear - Hq. induction pts as [| q pts IH]; cbn [map fold_right]; [lra |].
    assert (0 <= fold_right Rplus 0 (map (fun q => q_w q * op_dissipation n q (rate p history u)) pts)) by (apply IH; intros; apply Hq; right; assumption).
    destruct (Hq q (or_introl eq_refl)) as [_ [_ [Pw _]]].
    assert (0 <= q_w q * op_dissipation n q (rate p history u)) by (apply Rmult_le_pos; [exact Pw | apply sqsum_nonneg]). lra. }
  assert (0 <= o_weight_alg p * D) by (apply Rmult_le_pos; assumption).
  assert (0 < / o_L p) by (apply Rinv_0_lt_compat; exact HL).
  assert (0 <= / o_L p * s) by (apply Rmult_le_pos; lra).
  unfold Rdiv. split; lra.
Qed.
Print Assumptions C63_dissipation.

(** A solution away from equilibrium: constant concentration and one grain whose order
    parameter decays. *)
Example C63_applies :
  let p := mkOp 1 1 1 1 1 1 1 (mkCoefficients 1 1 1 1 1) false in
  let pts := [element [0; 1; 2]%nat [None]] in
  let u := ramp (fun k => match k with 0%nat => 1 / 2 | 1%nat => 11 / 16 | _ => 1 / 4 end) (fun k => 0) in
  let history := ramp (fun k => match k with 0%nat => - (1 / 2) | 1%nat => 0 | _ => - (13 / 16) end) (fun k => 0) in
  (forall q, In q pts -> cell_ok q /\ Forall (fun v => v = None) (q_vel q) /\ 0 <= q_w q
     /\ forall b, In b (q_blocks q) -> (b < 3)%nat /\ ((2 <= b)%nat -> 0 <= value_at 2 q u b))
  /\ (forall k i, (k < 3)%nat -> (i < 2)%nat -> residual p 2 pts 2 history u k i = Some 0)
  /\ u 2%nat 0%nat * o_weight p + history 2%nat 0%nat = - (9 / 16).
Proof.
  cbv zeta. split; [| split].
  - intros q [<- | []]. split; [exists [2]%nat; cbn; repeat split; try reflexivity; intuition discriminate |].
    split; [repeat constructor |]. split; [cbn; lra |].
    intros b Ib. split; [cbn in Ib; lia |]. intros _. rewrite ramp_value. destruct b as [| [| b]]; lra.
  - intros k i Hk Hi. unfold residual. cbn [cell_loop]. unfold values, grads. cbn [q_blocks element map]. rewrite !ramp_value, !ramp_grad.
    unfold residual_point. rewrite residual_quad_spec by reflexivity. cbn [obind]. unfold add_advection. cbn [fst snd eta_grads map q_vel element].
    rewrite advect_spec by reflexivity. cbn [obind fst snd advect_c advect_etas eta_vals nth].
    unfold apply_M. cbn [o_tensorial]. unfold apply_M_scalar, time_part, df_dc_of, df_detai, eval_of, o_L.
    cbn [psum o_A o_B o_weight o_weight_alg o_mobility m_L e_c e_B e_s2 Nat.leb Nat.eqb o_kappa_c o_kappa_p].
    destruct k as [| [| [| k]]]; [| | | lia]; (destruct i as [| [| i]]; [| | lia]); cbn [scatter Nat.eqb q_blocks q_w q_N q_G element o_dim dot]; f_equal; field.
  - unfold ramp. cbn. lra.
Qed.
