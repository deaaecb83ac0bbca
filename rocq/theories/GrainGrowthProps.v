(** Property C65: the grain growth operator is the gradient flow of the free energy it
    reports; its linearisation is the derivative of the residual, symmetric, and definite
    for small time steps. *)
From Coq Require Import Bool List Reals Arith Lia Lra.
From Verif Require Import Util FreeEnergyModel FreeEnergyProofs MobilityModel MobilityProofs MobilityProps OperatorModel OperatorProofs OperatorProps OperatorMassProps OperatorEnergyProps GrainGrowthModel GrainGrowthProofs.
Import ListNotations.
Local Open Scope R_scope.

Lemma values_length : forall n q (u : state), length (values n q u) = length (q_blocks q).
Proof. intros. unfold values. apply map_length. Qed.
Lemma grads_length : forall n q (u : state), length (grads n q u) = length (q_blocks q).
Proof. intros. unfold grads. apply map_length. Qed.

Lemma gg_time_line : forall p wtd olds ig a b t, gg_time p wtd olds ig (a + t * b) = gg_time p wtd olds ig a + t * (if wtd then b * hd 0 (g_weights p) else 0).
Proof. intros. unfold gg_time. destruct wtd; ring. Qed.

(** at a point *)
Lemma gg_point : forall p wtd olds lin value gl gv w ws,
  g_weights p = w :: ws -> wtd = true \/ w = 0 -> length value = length lin -> length gl = length lin -> length gv = length lin ->
  exists jv, gg_vmult_point p lin value gv = Some (jv, gg_grads p gv) /\ length jv = length lin
    /\ dlist (fun t => gg_vals p wtd (gg_of p (vline lin value t)) olds 0 (vline lin value t)) jv
    /\ dvlist (fun t => gg_grads p (gvline gl gv t)) (gg_grads p gv).
Proof.
  intros p wtd olds lin value gl gv w ws Hw Hd Lv Ll Lg.
  destruct (gg_vmult_point_spec p lin value gv w ws Hw Lv Lg) as [jv [E [L N]]].
  exists jv. split; [exact E | split; [exact L | split]].
  - split; [intros t; rewrite gg_vals_length, vline_length by exact Lv; congruence |]. intros k.
    destruct (Nat.ltb_spec k (length lin)) as [K | K].
    + rewrite N by exact K.
      apply (derivable_ext (fun t => gg_df (gg_of p (vline lin value t)) (nth k lin 0 + t * nth k value 0) * g_L p
        + (gg_time p wtd olds k (nth k lin 0) + t * (if wtd then nth k value 0 * hd 0 (g_weights p) else 0)))).
      { intros t. rewrite gg_vals_nth by (rewrite vline_length by exact Lv; exact K). rewrite vline_nth by exact Lv.
        rewrite (gg_time_line p wtd olds (0 + k)). cbn [Nat.add]. ring. }
      eapply derivable_eq; [| apply derivable_plus; [apply derivable_scal; apply gg_df_deriv; exact Lv | apply derivable_line]].
      rewrite Hw. cbn [hd]. destruct Hd as [-> | ->]; [| destruct wtd]; ring.
    + rewrite (nth_overflow jv) by lia.
      apply (derivable_ext (fun _ => 0)); [| apply derivable_const0].
      intros t. rewrite nth_overflow; [reflexivity |]. rewrite gg_vals_length, vline_length by exact Lv. lia.
  - split; [intros t; unfold gg_grads; rewrite !map_length, gvline_length; congruence |]. intros k d. rewrite gg_grads_nth.
    apply (derivable_ext (fun t => g_L p * g_kappa p * (nth k gl vzero d + t * nth k gv vzero d))).
    { intros t. rewrite gg_grads_nth, gvline_nth by congruence. reflexivity. }
    apply derivable_scal_l. apply derivable_line.
Qed.

(** For all meshes, shape functions, quadrature formulas, numbers of order parameters,
    states, old solutions and directions: every entry of the product with the linearised
    operator is the derivative of that entry of the residual in that direction. *)
Theorem C65_jacobian : forall p n pts wtd olds u v k i,
  g_weights p <> [] -> wtd = true \/ hd 0 (g_weights p) = 0 ->
  (length (g_weights p) <= S (length olds))%nat ->
  exists F l,
    (forall t, gg_residual p n pts wtd olds (fun b j => u b j + t * v b j) k i = Some (F t))
    /\ gg_vmult p n pts u v k i = Some l
    /\ derivable_pt_lim F 0 l.
Proof.
  intros p n pts wtd olds u v k i Hw Hd Ho. unfold gg_residual, gg_vmult.
  destruct (g_weights p) as [| w ws] eqn:E; [contradiction |]. cbn [hd length] in *.
  induction pts as [| q pts IH].
  - exists (fun _ => 0), 0. repeat split; try reflexivity. apply derivable_const0.
  - destruct IH as [F [l [E1 [E2 D]]]].
    destruct (gg_point p wtd (map (values n q) olds) (values n q u) (values n q v) (grads n q u) (grads n q v) w ws) as [jv [A [B [C1 C2]]]];
      rewrite ?values_length, ?grads_length; auto.
    exists (fun t => scatter (g_dim p) q (q_blocks q) (gg_vals p wtd (gg_of p (vline (values n q u) (values n q v) t)) (map (values n q) olds) 0 (vline (values n q u) (values n q v) t))
                       (gg_grads p (gvline (grads n q u) (grads n q v) t)) k i + F t),
           (scatter (g_dim p) q (q_blocks q) jv (gg_grads p (grads n q v)) k i + l).
    split; [| split].
    + intros t. cbn [cell_loop]. rewrite (E1 t).
      change (fun b j => u b j + t * v b j) with (sline u v t). rewrite values_line, grads_line.
      rewrite gg_residual_point_spec; [reflexivity | | |].
      * rewrite gvline_length, vline_length, grads_length, values_length; rewrite ?values_length, ?grads_length; reflexivity.
      * intros _. rewrite E, map_length. cbn [tl]. split; [discriminate | lia].
      * intros o Io. apply in_map_iff in Io. destruct Io as [s [<- _]]. rewrite vline_length; rewrite !values_length; reflexivity.
    + cbn [cell_loop]. rewrite E2, A. reflexivity.
    + apply derivable_plus; [| exact D]. apply scatter_deriv; [rewrite B, values_length; reflexivity | unfold gg_grads; rewrite map_length, grads_length; reflexivity | exact C1 | exact C2].
Qed.
Print Assumptions C65_jacobian.

(** ** testing with a direction *)
Lemma gg_pairing : forall p n q (T : state) wtd olds e blocks (u : state) ig,
  pairing (g_dim p) n q T blocks (gg_vals p wtd e olds ig (map (value_at n q u) blocks)) (gg_grads p (map (grad_at n q u) blocks))
  = g_L p * (dfsum e (map (value_at n q u) blocks) (map (value_at n q T) blocks) + g_kappa p * gsum (g_dim p) (map (grad_at n q u) blocks) (map (grad_at n q T) blocks))
    + vsum (length blocks) (fun a => value_at n q T (nth a blocks 0%nat) * gg_time p wtd olds (ig + a) (value_at n q u (nth a blocks 0%nat))).
Proof.
  intros p n q T wtd olds e. induction blocks as [| b blocks IH]; intros u ig; cbn [map gg_vals gg_grads pairing dfsum gsum length]; [cbn [vsum]; ring |].
  change (map (fun (g : vec) (d : nat) => g_L p * g_kappa p * g d) (map (grad_at n q u) blocks)) with (gg_grads p (map (grad_at n q u) blocks)).
  rewrite IH, vsum_first. cbn [nth]. rewrite Nat.add_0_r.
  rewrite (vsum_ext (length blocks) (fun j => value_at n q T (nth j blocks 0%nat) * gg_time p wtd olds (ig + S j) (value_at n q u (nth j blocks 0%nat)))
     (fun j => value_at n q T (nth j blocks 0%nat) * gg_time p wtd olds (S ig + j) (value_at n q u (nth j blocks 0%nat))))
    by (intros j _; replace (ig + S j)%nat with (S ig + j)%nat by lia; reflexivity).
  rewrite dot_scale, (dot_comm (g_dim p) (grad_at n q T b)). ring.
Qed.

Lemma gg_tested : forall p n nb pts wtd olds (u T : state),
  time_ok p wtd olds -> (forall q b, In q pts -> In b (q_blocks q) -> (b < nb)%nat) ->
  exists r, (forall k i, gg_residual p n pts wtd olds u k i = Some (r k i))
    /\ vsum nb (fun k => vsum n (fun i => T k i * r k i))
       = fold_right Rplus 0 (map (fun q => q_w q * pairing (g_dim p) n q T (q_blocks q)
            (gg_vals p wtd (gg_of p (values n q u)) (map (values n q) olds) 0 (values n q u)) (gg_grads p (grads n q u))) pts).
Proof.
  intros p n nb pts wtd olds u T HT. unfold gg_residual. induction pts as [| q pts IH]; intros Hb.
  - exists (fun _ _ => 0). split; [reflexivity |]. cbn [map fold_right].
    rewrite (vsum_ext nb _ (fun _ => 0)); [apply vsum_zero |]. intros k _. rewrite (vsum_ext n _ (fun _ => 0)) by (intros; ring). apply vsum_zero.
  - destruct IH as [r [R1 R2]]; [intros; apply (Hb q0); [right |]; assumption |].
    set (vs := gg_vals p wtd (gg_of p (values n q u)) (map (values n q) olds) 0 (values n q u)).
    set (gs := gg_grads p (grads n q u)).
    exists (fun k i => scatter (g_dim p) q (q_blocks q) vs gs k i + r k i). split.
    + intros k i. cbn [cell_loop]. rewrite (R1 k i). rewrite gg_residual_point_spec; [reflexivity | rewrite grads_length, values_length; reflexivity | |].
      * intros X. rewrite map_length. apply HT. exact X.
      * intros o Io. apply in_map_iff in Io. destruct Io as [s [<- _]]. rewrite !values_length. reflexivity.
    + cbn [map fold_right]. rewrite <- R2.
      rewrite (vsum_ext nb _ (fun k => vsum n (fun i => T k i * scatter (g_dim p) q (q_blocks q) vs gs k i) + vsum n (fun i => T k i * r k i)))
        by (intros k _; rewrite <- vsum_plus; apply vsum_ext; intros; ring).
      rewrite vsum_plus, test_scatter; [reflexivity | | | intros b Ib; apply (Hb q); [left; reflexivity | exact Ib]].
      * unfold vs. rewrite gg_vals_length, values_length. reflexivity.
      * unfold gs, gg_grads. rewrite map_length, grads_length. reflexivity.
Qed.

Lemma gg_energy_line : forall p n pts (u v : state),
  exists E, (forall t, gg_free_energy p n pts (fun b j => u b j + t * v b j) = Some (E t))
    /\ derivable_pt_lim E 0 (fold_right Rplus 0 (map (fun q => q_w q * (dfsum (gg_of p (values n q u)) (values n q u) (values n q v)
         + g_kappa p * gsum (g_dim p) (grads n q u) (grads n q v))) pts)).
Proof.
  intros p n pts u v. unfold gg_free_energy. induction pts as [| q pts [E [E1 E2]]].
  - exists (fun _ => 0). split; [reflexivity | apply derivable_const0].
  - exists (fun t => (gsum (g_dim p) (gvline (grads n q u) (grads n q v) t) (gvline (grads n q u) (grads n q v) t) * (1 / 2 * g_kappa p)
        + gg_energy p (vline (values n q u) (values n q v) t)) * q_w q + E t). split.
    + intros t. cbn [domain_quantity]. rewrite (E1 t). change (fun b j => u b j + t * v b j) with (sline u v t). rewrite values_line, grads_line.
      unfold gg_energy_point. assert (G := gg_f_spec p (vline (values n q u) (values n q v) t)).
      destruct (gg_evaluate true p (vline (values n q u) (values n q v) t) (length (vline (values n q u) (values n q v) t))) as [e |]; [| discriminate].
      cbn [obind] in *. rewrite G. cbn [obind]. rewrite norm_squares_spec, Rplus_0_l. reflexivity.
    + cbn [map fold_right]. apply derivable_plus; [| exact E2].
      eapply derivable_eq; [| apply derivable_scal; apply derivable_plus; [| apply gg_energy_deriv; rewrite !values_length; reflexivity]].
      2:{ apply (quartic_deriv (gsum (g_dim p) (grads n q u) (grads n q u) * (1 / 2 * g_kappa p)) (gsum (g_dim p) (grads n q u) (grads n q v) * g_kappa p)
             (gsum (g_dim p) (grads n q v) (grads n q v) * (1 / 2 * g_kappa p)) 0 0 _ _ (gsum (g_dim p) (grads n q u) (grads n q v) * g_kappa p)); [| ring].
          intros t. rewrite gsum_line by (rewrite !grads_length; reflexivity). field. }
      ring.
Qed.

Lemma fold_plus_ext : forall (A : Type) (f g : A -> R) l, (forall x, In x l -> f x = g x) -> fold_right Rplus 0 (map f l) = fold_right Rplus 0 (map g l).
Proof. intros A f g. induction l as [| x l IH]; intros H; [reflexivity |]. cbn [map fold_right]. rewrite (H x (or_introl eq_refl)), IH; [reflexivity | intros; apply H; right; assumption]. Qed.
Lemma fold_plus_lin : forall (A : Type) (f g : A -> R) a b l,
  fold_right Rplus 0 (map (fun x => a * f x + b * g x) l) = a * fold_right Rplus 0 (map f l) + b * fold_right Rplus 0 (map g l).
Proof. intros A f g a b. induction l as [| x l IH]; cbn [map fold_right]; [ring |]. rewrite IH. ring. Qed.

(** The stationary part of the residual is the mobility times the gradient of the
    reported free energy with respect to the unknowns: tested with any direction it is the
    mobility times the derivative of the energy in that direction. *)
Theorem C65_gradient : forall p n nb pts u v,
  (forall q b, In q pts -> In b (q_blocks q) -> (b < nb)%nat) ->
  exists r E dE,
    (forall k i, gg_residual p n pts false [] u k i = Some (r k i))
    /\ (forall t, gg_free_energy p n pts (fun b j => u b j + t * v b j) = Some (E t))
    /\ derivable_pt_lim E 0 dE
    /\ vsum nb (fun k => vsum n (fun i => v k i * r k i)) = g_L p * dE.
Proof.
  intros p n nb pts u v Hb. destruct (gg_tested p n nb pts false [] u v) as [r [R1 R2]]; [intros X; discriminate | exact Hb |].
  destruct (gg_energy_line p n pts u v) as [E [E1 E2]].
  exists r, E. eexists. split; [exact R1 | split; [exact E1 | split; [exact E2 |]]]. rewrite R2.
  set (h := fun q => q_w q * (dfsum (gg_of p (values n q u)) (values n q u) (values n q v) + g_kappa p * gsum (g_dim p) (grads n q u) (grads n q v))).
  transitivity (g_L p * fold_right Rplus 0 (map h pts) + 0 * fold_right Rplus 0 (map h pts)); [| ring].
  rewrite <- fold_plus_lin. apply fold_plus_ext. intros q _. unfold h, values, grads. rewrite gg_pairing.
  rewrite (vsum_ext _ _ (fun _ => 0)) by (intros; unfold gg_time; ring). rewrite vsum_zero. ring.
Qed.
Print Assumptions C65_gradient.

(** ** dissipation *)
Definition gg_rate (p : gg_data) (olds : list state) (u : state) : state :=
  fun b j => fold_right Rplus 0 (map (fun wo => fst wo * snd wo b j) (combine (g_weights p) (u :: olds))).

Lemma value_combine : forall n q weights (olds : list state) b,
  value_at n q (fun b j => fold_right Rplus 0 (map (fun wo => fst wo * snd wo b j) (combine weights olds))) b
  = fold_right Rplus 0 (map (fun wo => fst wo * value_at n q (snd wo) b) (combine weights olds)).
Proof.
  intros n q. induction weights as [| w ws IH]; intros [| o olds] b; cbn [combine map fold_right];
    try (unfold value_at; rewrite (vsum_ext n _ (fun _ => 0)) by (intros; ring); apply vsum_zero).
  rewrite <- IH. unfold value_at.
  rewrite (vsum_ext n _ (fun j => w * (q_N q j * o b j) + 1 * (q_N q j * fold_right Rplus 0 (map (fun wo => fst wo * snd wo b j) (combine ws olds))))) by (intros; cbn [fst snd]; ring).
  rewrite vsum_lin. cbn [fst snd]. ring.
Qed.
Lemma oldsum_combine : forall n q blocks a weights (olds : list state), (a < length blocks)%nat ->
  oldsum weights (map (fun o => map (value_at n q o) blocks) olds) a
  = fold_right Rplus 0 (map (fun wo => fst wo * value_at n q (snd wo) (nth a blocks 0%nat)) (combine weights olds)).
Proof.
  intros n q blocks a. induction weights as [| w ws IH]; intros [| o olds] H; cbn [map oldsum combine fold_right]; try reflexivity.
  rewrite IH by exact H. cbn [fst snd].
  rewrite (nth_indep (map (value_at n q o) blocks) 0 (value_at n q o 0%nat)) by (rewrite map_length; exact H).
  rewrite map_nth. ring.
Qed.
Lemma gg_time_rate : forall p n q olds u a, g_weights p <> [] -> (a < length (q_blocks q))%nat ->
  gg_time p true (map (values n q) olds) (0 + a) (value_at n q u (nth a (q_blocks q) 0%nat)) = value_at n q (gg_rate p olds u) (nth a (q_blocks q) 0%nat).
Proof.
  intros p n q olds u a Hw Ha. unfold gg_rate. rewrite value_combine. unfold gg_time. cbn [Nat.add].
  destruct (g_weights p) as [| w ws]; [contradiction |]. cbn [hd tl combine map fold_right fst snd].
  change (map (values n q) olds) with (map (fun o => map (value_at n q o) (q_blocks q)) olds). rewrite oldsum_combine by exact Ha. ring.
Qed.

(** Where the residual vanishes, with [rate] the time derivative that the integrator forms
    from the solution and the old ones, the free energy changes along [rate] exactly by
    minus the integral of the squared rates over the mobility. *)
Theorem C65_dissipation : forall p n nb pts olds u,
  g_L p <> 0 -> g_weights p <> [] -> (length (g_weights p) <= S (length olds))%nat ->
  (forall q b, In q pts -> In b (q_blocks q) -> (b < nb)%nat) ->
  (forall k i, (k < nb)%nat -> (i < n)%nat -> gg_residual p n pts true olds u k i = Some 0) ->
  let rate := fun b j => fold_right Rplus 0 (map (fun wo => fst wo * snd wo b j) (combine (g_weights p) (u :: olds))) in
  exists E dE s,
    (forall t, gg_free_energy p n pts (fun b j => u b j + t * rate b j) = Some (E t))
    /\ derivable_pt_lim E 0 dE
    /\ domain_quantity (fun q => Some (fold_right Rplus 0 (map (fun b => Rsqr (value_at n q rate b)) (q_blocks q)))) pts = Some s
    /\ dE = - s / g_L p
    /\ (0 < g_L p -> (forall q, In q pts -> 0 <= q_w q) -> dE <= 0).
Proof.
  intros p n nb pts olds u HL Hw Ho Hb Hr. cbv zeta. fold (gg_rate p olds u).
  destruct (gg_energy_line p n pts u (gg_rate p olds u)) as [E [E1 E2]].
  destruct (gg_tested p n nb pts true olds u (gg_rate p olds u)) as [r [R1 R2]]; [| exact Hb |].
  { intros _. split; [exact Hw |]. destruct (g_weights p); cbn [length tl] in *; lia. }
  assert (Z : vsum nb (fun k => vsum n (fun i => gg_rate p olds u k i * r k i)) = 0).
  { rewrite <- (vsum_zero nb). apply vsum_ext. intros k Hk. rewrite <- (vsum_zero n). apply vsum_ext. intros i Hi.
    assert (A := R1 k i). rewrite (Hr k i Hk Hi) in A. injection A as <-. ring. }
  rewrite Z in R2.
  set (h := fun q => q_w q * (dfsum (gg_of p (values n q u)) (values n q u) (values n q (gg_rate p olds u)) + g_kappa p * gsum (g_dim p) (grads n q u) (grads n q (gg_rate p olds u)))) in *.
  set (g := fun q => fold_right Rplus 0 (map (fun b => Rsqr (value_at n q (gg_rate p olds u) b)) (q_blocks q)) * q_w q).
  exists E, (fold_right Rplus 0 (map h pts)), (fold_right Rplus 0 (map g pts)).
  split; [exact E1 | split; [exact E2 | split]].
  { clear. induction pts as [| q pts IH]; [reflexivity |]. cbn [domain_quantity map fold_right]. rewrite IH. reflexivity. }
  assert (D : 0 = g_L p * fold_right Rplus 0 (map h pts) + 1 * fold_right Rplus 0 (map g pts)).
  { rewrite R2 at 1. rewrite <- fold_plus_lin. apply fold_plus_ext. intros q _. unfold h, g, values at 3 4, grads. rewrite gg_pairing.
    rewrite (vsum_ext _ _ (fun a => Rsqr (value_at n q (gg_rate p olds u) (nth a (q_blocks q) 0%nat)))).
    - replace (vsum (length (q_blocks q)) (fun a => Rsqr (value_at n q (gg_rate p olds u) (nth a (q_blocks q) 0%nat))))
        with (fold_right Rplus 0 (map (fun b => Rsqr (value_at n q (gg_rate p olds u) b)) (q_blocks q))); [unfold values; ring |].
      clear. induction (q_blocks q) as [| b l IH]; [reflexivity |]. cbn [map fold_right length]. rewrite vsum_first. cbn [nth]. rewrite IH. reflexivity.
    - intros a Ha. unfold Rsqr. f_equal. apply gg_time_rate; assumption. }
  split.
  - apply (Rmult_eq_reg_l (g_L p)); [| exact HL]. field_simplify; [| exact HL]. lra.
  - intros Lp Wq. assert (0 <= fold_right Rplus 0 (map g pts)).
    { clear - Wq. induction pts as [| q pts IH]; [cbn; lra |]. cbn [map fold_right]. assert (0 <= g q).
      { unfold g. apply Rmult_le_pos; [| apply Wq; left; reflexivity]. clear. induction (q_blocks q) as [| b l IH]; [cbn; lra |]. cbn [map fold_right].
        assert (X := Rle_0_sqr (value_at n q (gg_rate p olds u) b)). lra. }
      assert (Y := IH (fun q I => Wq q (or_intror I))). lra. }
    assert (Y : g_L p * fold_right Rplus 0 (map h pts) <= 0) by lra.
    destruct (Rle_or_lt (fold_right Rplus 0 (map h pts)) 0) as [X | X]; [exact X |].
    assert (0 < g_L p * fold_right Rplus 0 (map h pts)) by (apply Rmult_lt_0_compat; assumption). lra.
Qed.
Print Assumptions C65_dissipation.

(** ** symmetry and definiteness *)
Fixpoint gg_lin_vals (p : gg_data) (e : gg_eval) (w D : R) (lin value : list R) : list R :=
  match lin, value with
  | l :: lin, v :: value => (v * w + g_L p * gg_d2f_ii e l * v + g_L p * 4 * l * (D - l * v)) :: gg_lin_vals p e w D lin value
  | _, _ => []
  end.
Lemma gg_lin_length : forall p e w D lin value, length value = length lin -> length (gg_lin_vals p e w D lin value) = length lin.
Proof. intros p e w D. induction lin as [| l lin IH]; intros [| v value] H; cbn in H; try discriminate; [reflexivity |]. cbn. f_equal. apply IH. congruence. Qed.
Lemma gg_lin_nth : forall p e w D lin value k, length value = length lin -> (k < length lin)%nat ->
  nth k (gg_lin_vals p e w D lin value) 0 = nth k value 0 * w + g_L p * gg_d2f_ii e (nth k lin 0) * nth k value 0 + g_L p * 4 * nth k lin 0 * (D - nth k lin 0 * nth k value 0).
Proof.
  intros p e w D. induction lin as [| l lin IH]; intros [| v value] [| k] H K; cbn in H, K; try discriminate; try lia; [reflexivity |].
  cbn [gg_lin_vals nth]. apply IH; [congruence | lia].
Qed.
Lemma gg_vmult_point_vals : forall p lin value gs w ws, g_weights p = w :: ws -> length value = length lin -> length gs = length lin ->
  gg_vmult_point p lin value gs = Some (gg_lin_vals p (gg_of p lin) w (dotp lin value) lin value, gg_grads p gs).
Proof.
  intros p lin value gs w ws Hw Lv Lg. destruct (gg_vmult_point_spec p lin value gs w ws Hw Lv Lg) as [jv [E [L N]]]. rewrite E. do 2 f_equal.
  apply (nth_ext _ _ 0 0); [rewrite gg_lin_length by exact Lv; exact L |]. intros k Hk. rewrite N by lia. rewrite gg_lin_nth by (exact Lv || lia). reflexivity.
Qed.

(** the diagonal part *)
Fixpoint diag (p : gg_data) (e : gg_eval) (w : R) (lin a b : list R) : R :=
  match lin, a, b with l :: lin, x :: a, y :: b => (w + g_L p * (gg_d2f_ii e l - 4 * l * l)) * x * y + diag p e w lin a b | _, _, _ => 0 end.
Lemma diag_sym : forall p e w lin a b, diag p e w lin a b = diag p e w lin b a.
Proof. intros p e w. induction lin as [| l lin IH]; intros [| x a] [| y b]; try reflexivity. cbn [diag]. rewrite IH. ring. Qed.
Lemma gsum_sym : forall dim a b, gsum dim a b = gsum dim b a.
Proof. intros dim. induction a as [| x a IH]; intros [| y b]; try reflexivity. cbn [gsum]. rewrite IH, dot_comm. reflexivity. Qed.

Lemma gg_lin_pairing : forall p n q (T v u : state) e w D blocks,
  pairing (g_dim p) n q T blocks (gg_lin_vals p e w D (map (value_at n q u) blocks) (map (value_at n q v) blocks)) (gg_grads p (map (grad_at n q v) blocks))
  = diag p e w (map (value_at n q u) blocks) (map (value_at n q v) blocks) (map (value_at n q T) blocks)
    + g_L p * 4 * dotp (map (value_at n q u) blocks) (map (value_at n q T) blocks) * D
    + g_L p * g_kappa p * gsum (g_dim p) (map (grad_at n q v) blocks) (map (grad_at n q T) blocks).
Proof.
  intros p n q T v u e w D. induction blocks as [| b blocks IH]; cbn [map gg_lin_vals gg_grads pairing diag dotp gsum]; [ring |].
  change (map (fun (g : vec) (d : nat) => g_L p * g_kappa p * g d) (map (grad_at n q v) blocks)) with (gg_grads p (map (grad_at n q v) blocks)).
  rewrite IH, dot_scale, (dot_comm (g_dim p) (grad_at n q T b)). ring.
Qed.

Definition gg_form (p : gg_data) (n : nat) (u v T : state) (q : point) : R :=
  q_w q * (diag p (gg_of p (values n q u)) (hd 0 (g_weights p)) (values n q u) (values n q v) (values n q T)
    + g_L p * 4 * dotp (values n q u) (values n q T) * dotp (values n q u) (values n q v)
    + g_L p * g_kappa p * gsum (g_dim p) (grads n q v) (grads n q T)).

Lemma gg_tested_lin : forall p n nb pts (u v T : state),
  g_weights p <> [] -> (forall q b, In q pts -> In b (q_blocks q) -> (b < nb)%nat) ->
  exists r, (forall k i, gg_vmult p n pts u v k i = Some (r k i))
    /\ vsum nb (fun k => vsum n (fun i => T k i * r k i)) = fold_right Rplus 0 (map (gg_form p n u v T) pts).
Proof.
  intros p n nb pts u v T Hw. destruct (g_weights p) as [| w ws] eqn:Ew; [contradiction |]. unfold gg_vmult.
  induction pts as [| q pts IH]; intros Hb.
  - exists (fun _ _ => 0). split; [reflexivity |]. cbn [map fold_right].
    rewrite (vsum_ext nb _ (fun _ => 0)); [apply vsum_zero |]. intros k _. rewrite (vsum_ext n _ (fun _ => 0)) by (intros; ring). apply vsum_zero.
  - destruct IH as [r [R1 R2]]; [intros; apply (Hb q0); [right |]; assumption |].
    set (vs := gg_lin_vals p (gg_of p (values n q u)) w (dotp (values n q u) (values n q v)) (values n q u) (values n q v)).
    set (gs := gg_grads p (grads n q v)).
    exists (fun k i => scatter (g_dim p) q (q_blocks q) vs gs k i + r k i). split.
    + intros k i. cbn [cell_loop]. rewrite (R1 k i). rewrite (gg_vmult_point_vals p (values n q u) (values n q v) (grads n q v) w ws Ew); [reflexivity | |]; rewrite ?grads_length, !values_length; reflexivity.
    + cbn [map fold_right]. rewrite <- R2.
      rewrite (vsum_ext nb _ (fun k => vsum n (fun i => T k i * scatter (g_dim p) q (q_blocks q) vs gs k i) + vsum n (fun i => T k i * r k i)))
        by (intros k _; rewrite <- vsum_plus; apply vsum_ext; intros; ring).
      rewrite vsum_plus, test_scatter; [| | | intros b Ib; apply (Hb q); [left; reflexivity | exact Ib]].
      * f_equal. unfold gg_form, vs, gs, values, grads. rewrite gg_lin_pairing, Ew. cbn [hd]. ring.
      * unfold vs. rewrite gg_lin_length; rewrite !values_length; reflexivity.
      * unfold gs, gg_grads. rewrite map_length, grads_length. reflexivity.
Qed.

(** The linearised operator is symmetric. *)
Theorem C65_symmetric : forall p n nb pts u v w,
  g_weights p <> [] -> (forall q b, In q pts -> In b (q_blocks q) -> (b < nb)%nat) ->
  exists Jv Jw,
    (forall k i, gg_vmult p n pts u v k i = Some (Jv k i)) /\ (forall k i, gg_vmult p n pts u w k i = Some (Jw k i))
    /\ vsum nb (fun k => vsum n (fun i => w k i * Jv k i)) = vsum nb (fun k => vsum n (fun i => v k i * Jw k i)).
Proof.
  intros p n nb pts u v w Hw Hb. destruct (gg_tested_lin p n nb pts u v w Hw Hb) as [Jv [V1 V2]]. destruct (gg_tested_lin p n nb pts u w v Hw Hb) as [Jw [W1 W2]].
  exists Jv, Jw. split; [exact V1 | split; [exact W1 |]]. rewrite V2, W2. apply fold_plus_ext. intros q _. unfold gg_form.
  rewrite (diag_sym _ _ _ _ (values n q w)), (gsum_sym _ (grads n q w)). ring.
Qed.
Print Assumptions C65_symmetric.

Lemma psum2_dot : forall a, dotp a a = psum 2 a.
Proof. induction a as [| x a IH]; [reflexivity |]. cbn [dotp psum]. rewrite IH. ring. Qed.
Lemma gsum_nonneg : forall dim a, 0 <= gsum dim a a.
Proof. intros dim. induction a as [| x a IH]; cbn [gsum]; [lra |]. assert (X := dot_pos dim x). lra. Qed.

Lemma diag_bound : forall p e w lin a, 0 <= g_L p -> 1 <= y_B e -> (forall l, In l lin -> l * l <= y_s2 e) -> length a = length lin ->
  (w - g_L p * (y_A e + y_s2 e)) * psum 2 a <= diag p e w lin a a.
Proof.
  intros p e w. induction lin as [| l lin IH]; intros [| x a] HL HB Hs H; cbn in H; try discriminate; cbn [psum diag]; [lra |].
  assert (X := IH a HL HB (fun l I => Hs l (or_intror I)) ltac:(congruence)). rewrite Rmult_plus_distr_l.
  assert (Y : (w - g_L p * (y_A e + y_s2 e)) * x ^ 2 <= (w + g_L p * (gg_d2f_ii e l - 4 * l * l)) * x * x); [| lra].
  assert (S2 := Hs l (or_introl eq_refl)). unfold gg_d2f_ii.
  assert (P : 0 <= g_L p * ((3 * y_B e - 6) * (l * l) + 3 * y_s2 e)).
  { apply Rmult_le_pos; [exact HL |]. assert (0 <= (y_B e - 1) * (l * l)) by (apply Rmult_le_pos; [lra | apply Rle_0_sqr]). assert (0 <= l * l) by apply Rle_0_sqr. lra. }
  assert (P' := Rmult_le_pos _ _ P (Rle_0_sqr x)). unfold Rsqr in P'. nra.
Qed.

(** If the weight of the time derivative exceeds the mobility times [A] plus the sum of the
    squares of the order parameters at every point, the linearised operator is positive
    definite on the states that some point sees. *)
Theorem C65_definite : forall p n nb pts u v delta,
  0 <= g_L p -> 0 <= g_kappa p -> 1 <= g_B p -> g_weights p <> [] ->
  (forall q b, In q pts -> In b (q_blocks q) -> (b < nb)%nat) ->
  (forall q, In q pts -> 0 <= q_w q
     /\ g_L p * (g_A p + fold_right Rplus 0 (map (fun b => Rsqr (value_at n q u b)) (q_blocks q))) + delta <= hd 0 (g_weights p)) ->
  exists Jv s,
    (forall k i, gg_vmult p n pts u v k i = Some (Jv k i))
    /\ domain_quantity (fun q => Some (fold_right Rplus 0 (map (fun b => Rsqr (value_at n q v b)) (q_blocks q)))) pts = Some s
    /\ delta * s <= vsum nb (fun k => vsum n (fun i => v k i * Jv k i)).
Proof.
  intros p n nb pts u v delta HL Hk HB Hw Hb Hq. destruct (gg_tested_lin p n nb pts u v v Hw Hb) as [Jv [V1 V2]].
  assert (S2 : forall (q : point) (s : state), fold_right Rplus 0 (map (fun b => Rsqr (value_at n q s b)) (q_blocks q)) = psum 2 (values n q s)).
  { intros q s. unfold values. clear. induction (q_blocks q) as [| b l IH]; [reflexivity |]. cbn [map fold_right psum]. rewrite IH. unfold Rsqr. ring. }
  exists Jv, (fold_right Rplus 0 (map (fun q => psum 2 (values n q v) * q_w q) pts)). split; [exact V1 | split].
  { clear - S2. induction pts as [| q pts IH]; [reflexivity |]. cbn [domain_quantity map fold_right]. rewrite IH, S2. reflexivity. }
  rewrite V2. clear V1 V2 Hb. induction pts as [| q pts IH]; [cbn; lra |]. cbn [map fold_right].
  assert (X := IH (fun q I => Hq q (or_intror I))). destruct (Hq q (or_introl eq_refl)) as [W Hd]. rewrite S2 in Hd. rewrite Rmult_plus_distr_l.
  assert (Y : delta * (psum 2 (values n q v) * q_w q) <= gg_form p n u v v q); [| lra].
  unfold gg_form.
  assert (B := diag_bound p (gg_of p (values n q u)) (hd 0 (g_weights p)) (values n q u) (values n q v) HL HB). cbn [gg_of y_s2 y_A] in B.
  assert (B' : (hd 0 (g_weights p) - g_L p * (g_A p + psum 2 (values n q u))) * psum 2 (values n q v)
     <= diag p (gg_of p (values n q u)) (hd 0 (g_weights p)) (values n q u) (values n q v) (values n q v)).
  { apply B; [| rewrite !values_length; reflexivity]. intros l Il. assert (Z := psum2_in (values n q u) l Il). lra. }
  assert (G := gsum_nonneg (g_dim p) (grads n q v)).
  assert (P1 : 0 <= g_L p * g_kappa p * gsum (g_dim p) (grads n q v) (grads n q v)) by (apply Rmult_le_pos; [apply Rmult_le_pos |]; assumption).
  assert (P2 : 0 <= g_L p * 4 * dotp (values n q u) (values n q v) * dotp (values n q u) (values n q v)).
  { rewrite Rmult_assoc. apply Rmult_le_pos; [lra | apply Rle_0_sqr]. }
  assert (P3 : delta * psum 2 (values n q v) <= (hd 0 (g_weights p) - g_L p * (g_A p + psum 2 (values n q u))) * psum 2 (values n q v)).
  { apply Rmult_le_compat_r; [apply psum2_nonneg | lra]. }
  replace (delta * (psum 2 (values n q v) * q_w q)) with (q_w q * (delta * psum 2 (values n q v))) by ring.
  apply Rmult_le_compat_l; [exact W | lra].
Qed.
Print Assumptions C65_definite.

(** ** A case: one linear element in one dimension, two growing order parameters. *)
Example C65_case :
  let p := mkGG 1 1 2 1 [4; -4] 1 in
  let pts := [element [0; 1]%nat []] in
  let u := ramp (fun k => if Nat.eqb k 0 then 1 / 2 else 1 / 4) (fun _ => 0) in
  let olds := [ramp (fun k => if Nat.eqb k 0 then 11 / 32 else 25 / 128) (fun _ => 0)] in
  g_weights p <> [] /\ (length (g_weights p) <= S (length olds))%nat
  /\ (forall q b, In q pts -> In b (q_blocks q) -> (b < 2)%nat)
  /\ (forall k i, (k < 2)%nat -> (i < 2)%nat -> gg_residual p 2 pts true olds u k i = Some 0)
  /\ fold_right Rplus 0 (map (fun wo => fst wo * snd wo 0%nat 0%nat) (combine (g_weights p) (u :: olds))) = 5 / 8
  /\ (forall q, In q pts -> 0 <= q_w q
     /\ g_L p * (g_A p + fold_right Rplus 0 (map (fun b => Rsqr (value_at 2 q u b)) (q_blocks q))) + 1 <= hd 0 (g_weights p)).
Proof.
  cbv zeta. split; [discriminate |]. split; [cbn; lia |]. split.
  { intros q b [<- | []] Hb. cbn in Hb. lia. }
  split; [| split].
  - intros k i Hk Hi. unfold gg_residual. cbn [cell_loop]. rewrite gg_residual_point_spec; [| reflexivity | |].
    + cbn [obind fst snd]. unfold values, grads. cbn [q_blocks element map]. rewrite !ramp_value, !ramp_grad.
      unfold gg_grads, gg_time, gg_df, gg_of. cbn [gg_vals map psum y_A y_B y_s2 g_A g_B g_L g_kappa g_weights hd tl oldsum nth Nat.eqb].
      unfold gg_df, gg_time. cbn [y_A y_B y_s2 g_A g_B g_L g_kappa g_weights hd tl oldsum nth].
      destruct k as [| [| k]]; [| | lia]; (destruct i as [| [| i]]; [| | lia]); cbn [scatter Nat.eqb q_blocks q_w q_N q_G element g_dim dot]; f_equal; field.
    + intros _. split; [discriminate | cbn; lia].
    + intros o [<- | []]. reflexivity.
  - unfold ramp. cbn. lra.
  - intros q [<- | []]. split; [cbn; lra |]. cbn [q_blocks element map fold_right]. rewrite !ramp_value. unfold Rsqr. cbn [Nat.eqb g_L g_A g_weights hd]. lra.
Qed.
