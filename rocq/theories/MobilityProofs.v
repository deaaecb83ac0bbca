(** Lemmas on the mobilities. *)
From Coq Require Import List Reals Arith Lia Lra Psatz.
From Verif Require Import MobilityModel FreeEnergyProofs.
Import ListNotations.
Local Open Scope R_scope.

(** ** derivatives *)
Lemma derivable_local : forall g h x l d, 0 < d -> (forall y, Rabs (y - x) < d -> g y = h y) ->
  derivable_pt_lim g x l -> derivable_pt_lim h x l.
Proof.
  intros g h x l d Hd E D eps He. destruct (D eps He) as [[e Hep] Hl]. cbn in Hl.
  assert (Hm : 0 < Rmin e d) by (apply Rmin_pos; assumption).
  exists (mkposreal _ Hm). intros t Ht Hs. cbn in Hs.
  assert (Rmin e d <= e) by apply Rmin_l. assert (Rmin e d <= d) by apply Rmin_r.
  rewrite <- !E; [apply Hl; [exact Ht | lra] | |].
  - replace (x - x) with 0 by ring. rewrite Rabs_R0. exact Hd.
  - replace (x + t - x) with t by ring. lra.
Qed.

Lemma derivable_lip : forall g h x, (forall y, Rabs (h y - h x) <= Rabs (g y - g x)) ->
  derivable_pt_lim g x 0 -> derivable_pt_lim h x 0.
Proof.
  intros g h x L D eps He. destruct (D eps He) as [d Hd]. exists d. intros t Ht Hs.
  specialize (Hd t Ht Hs). rewrite Rminus_0_r in *. unfold Rdiv in *. rewrite Rabs_mult in *.
  eapply Rle_lt_trans; [| exact Hd]. apply Rmult_le_compat_r; [apply Rabs_pos | apply L].
Qed.

Lemma derivable_const0 : forall a x, derivable_pt_lim (fun _ => a) x 0.
Proof. intros. apply (derivable_pt_lim_const a x). Qed.

Lemma derivable_line : forall a b x, derivable_pt_lim (fun t => a + t * b) x b.
Proof. intros. apply (quartic_deriv a b 0 0 0); [intros y |]; ring. Qed.

Lemma derivable_comp_line : forall g a b l, derivable_pt_lim g a l -> derivable_pt_lim (fun t => g (a + t * b)) 0 (l * b).
Proof.
  intros g a b l H. apply (derivable_pt_lim_comp (fun t => a + t * b) g 0 b l); [apply derivable_line |].
  replace (a + 0 * b) with a by ring. exact H.
Qed.

Lemma derivable_plus : forall g h x a b, derivable_pt_lim g x a -> derivable_pt_lim h x b -> derivable_pt_lim (fun t => g t + h t) x (a + b).
Proof. intros. apply (derivable_pt_lim_plus g h); assumption. Qed.
Lemma derivable_minus : forall g h x a b, derivable_pt_lim g x a -> derivable_pt_lim h x b -> derivable_pt_lim (fun t => g t - h t) x (a - b).
Proof. intros. apply (derivable_pt_lim_minus g h); assumption. Qed.
Lemma derivable_mult : forall g h x a b, derivable_pt_lim g x a -> derivable_pt_lim h x b -> derivable_pt_lim (fun t => g t * h t) x (a * h x + g x * b).
Proof. intros. apply (derivable_pt_lim_mult g h); assumption. Qed.
Lemma derivable_scal : forall g x a k, derivable_pt_lim g x a -> derivable_pt_lim (fun t => g t * k) x (a * k).
Proof.
  intros g x a k H. replace (a * k) with (a * k + g x * 0) by ring.
  apply (derivable_mult g (fun _ => k)); [exact H | apply derivable_const0].
Qed.

Lemma derivable_eq : forall g x a b, a = b -> derivable_pt_lim g x a -> derivable_pt_lim g x b.
Proof. intros g x a b -> H. exact H. Qed.

(** ** the interpolation *)
Lemma phi_raw_deriv : forall c, derivable_pt_lim phi_raw c (30 * c * c * (1 - c) * (1 - c)).
Proof.
  intros c.
  apply (derivable_ext (fun y => (10 * y ^ 3 + -15 * y ^ 4) + 6 * y ^ 5)); [intros y; unfold phi_raw; ring |].
  eapply derivable_eq; [| apply derivable_plus; [apply derivable_plus; apply mono_deriv | apply mono_deriv]].
  simpl INR. cbn [Nat.pred]. ring.
Qed.

Lemma quad_pos : forall c, 0 < 10 - 15 * c + 6 * c * c.
Proof. intros c. replace (10 - 15 * c + 6 * c * c) with (6 * ((c - 5 / 4) * (c - 5 / 4)) + 5 / 8) by field. assert (H := Rle_0_sqr (c - 5 / 4)). unfold Rsqr in H. lra. Qed.

Lemma phi_raw_pos : forall c, 0 <= c -> 0 <= phi_raw c.
Proof.
  intros c H. unfold phi_raw. assert (Q := quad_pos c). apply Rmult_le_pos; [| lra].
  apply Rmult_le_pos; [apply Rmult_le_pos |]; assumption.
Qed.

Lemma phi_raw_low : forall c, c <= 0 -> phi_raw c <= 0.
Proof.
  intros c H. unfold phi_raw. assert (Q := quad_pos c).
  assert (0 <= (- c) * (- c) * (- c) * (10 - 15 * c + 6 * c * c)).
  { apply Rmult_le_pos; [| lra]. apply Rmult_le_pos; [apply Rmult_le_pos |]; lra. }
  lra.
Qed.

Lemma phi_raw_one : forall c, phi_raw c - 1 = (c - 1) ^ 3 * (6 * c * c + 3 * c + 1).
Proof. intros. unfold phi_raw. ring. Qed.

Lemma phi_raw_high : forall c, 1 <= c -> 1 <= phi_raw c.
Proof.
  intros c H. assert (E := phi_raw_one c).
  assert (0 <= (c - 1) ^ 3) by (apply pow_le; lra). assert (0 <= 6 * c * c + 3 * c + 1) by nra.
  assert (0 <= (c - 1) ^ 3 * (6 * c * c + 3 * c + 1)) by (apply Rmult_le_pos; assumption). lra.
Qed.

Lemma phi_raw_le1 : forall c, c <= 1 -> phi_raw c <= 1.
Proof.
  intros c H. assert (E := phi_raw_one c).
  assert (0 <= (1 - c) ^ 3) by (apply pow_le; lra).
  assert (0 <= 6 * c * c + 3 * c + 1) by nra.
  assert (0 <= (1 - c) ^ 3 * (6 * c * c + 3 * c + 1)) by (apply Rmult_le_pos; assumption).
  replace ((c - 1) ^ 3 * (6 * c * c + 3 * c + 1)) with (- ((1 - c) ^ 3 * (6 * c * c + 3 * c + 1))) in E by ring. lra.
Qed.

Lemma phi_in : forall c, 0 <= c <= 1 -> phi c = phi_raw c.
Proof.
  intros c [H0 H1]. unfold phi. apply phi_raw_pos in H0. apply phi_raw_le1 in H1.
  rewrite Rmax_right, Rmin_right; lra.
Qed.
Lemma phi_low : forall c, c <= 0 -> phi c = 0.
Proof. intros c H. unfold phi. apply phi_raw_low in H. rewrite Rmax_left, Rmin_right; lra. Qed.
Lemma phi_high : forall c, 1 <= c -> phi c = 1.
Proof. intros c H. unfold phi. apply phi_raw_high in H. rewrite Rmax_right, Rmin_left; lra. Qed.

Lemma phi_range : forall c, 0 <= phi c <= 1.
Proof.
  intros c. unfold phi. split; [| apply Rmin_l].
  apply Rmin_glb; [lra |]. apply Rmax_l.
Qed.

Lemma phi_masked_eq : forall c, phi_masked c = phi c.
Proof.
  intros c. unfold phi_masked, phi, mask_lt, mask_gt. set (p := phi_raw c). clearbody p.
  destruct (Rlt_dec p 0).
  - destruct (Rlt_dec 1 0); [lra |]. rewrite Rmax_left, Rmin_right; lra.
  - destruct (Rlt_dec 1 p).
    + rewrite Rmax_right, Rmin_left; lra.
    + rewrite Rmax_right, Rmin_right; lra.
Qed.

Lemma clamp_lip : forall a b, Rabs (Rmin 1 (Rmax 0 a) - Rmin 1 (Rmax 0 b)) <= Rabs (a - b).
Proof.
  intros a b. unfold Rmin, Rmax. destruct (Rle_dec 0 a), (Rle_dec 0 b);
  repeat match goal with |- context [Rle_dec ?x ?y] => destruct (Rle_dec x y) end;
  unfold Rabs; repeat match goal with |- context [Rcase_abs ?x] => destruct (Rcase_abs x) end; lra.
Qed.

Lemma phi_deriv_in : forall c, 0 <= c <= 1 -> derivable_pt_lim phi c (30 * c * c * (1 - c) * (1 - c)).
Proof.
  intros c [H0 H1].
  assert (B : (c = 0 \/ c = 1) \/ (0 < c < 1)) by lra.
  destruct B as [B | B].
  - assert (Z : 30 * c * c * (1 - c) * (1 - c) = 0) by (destruct B as [-> | ->]; ring).
    rewrite Z. apply (derivable_lip phi_raw).
    + intros y. unfold phi. apply clamp_lip.
    + rewrite <- Z. apply phi_raw_deriv.
  - assert (P : 0 < Rmin c (1 - c)) by (apply Rmin_pos; lra).
    apply (derivable_local phi_raw _ _ _ (Rmin c (1 - c)) P); [| apply phi_raw_deriv].
    intros y Hy. symmetry. apply phi_in.
    assert (Rmin c (1 - c) <= c) by apply Rmin_l. assert (Rmin c (1 - c) <= 1 - c) by apply Rmin_r.
    apply Rabs_def2 in Hy. lra.
Qed.

Lemma phi_deriv_out : forall c, c < 0 \/ 1 < c -> derivable_pt_lim phi c 0.
Proof.
  intros c [H | H].
  - apply (derivable_local (fun _ => 0) _ _ _ (- c)); [lra | | apply derivable_const0].
    intros y Hy. apply Rabs_def2 in Hy. symmetry. apply phi_low. lra.
  - apply (derivable_local (fun _ => 1) _ _ _ (c - 1)); [lra | | apply derivable_const0].
    intros y Hy. apply Rabs_def2 in Hy. symmetry. apply phi_high. lra.
Qed.

(** ** sums of the order parameters *)
Fixpoint rsum (l : list R) : R := match l with [] => 0 | x :: r => x + rsum r end.
Fixpoint sqsum (l : list R) : R := match l with [] => 0 | x :: r => x * x + sqsum r end.
Fixpoint prodsum (l m : list R) : R := match l, m with x :: l, y :: m => x * y + prodsum l m | _, _ => 0 end.

Lemma rsum_app : forall a b, rsum (a ++ b) = rsum a + rsum b.
Proof. induction a as [| x a IH]; intros b; cbn; [ring | rewrite IH; ring]. Qed.

Lemma inner_sum_spec : forall e before acc, inner_sum e before acc = acc + e * rsum before.
Proof. intros e. induction before as [| b r IH]; intros acc; cbn; [ring | rewrite IH; ring]. Qed.

Lemma outer_sum_spec : forall etas before acc,
  outer_sum before etas acc = acc + rsum before * rsum etas + (rsum etas * rsum etas - sqsum etas) / 2.
Proof.
  induction etas as [| e r IH]; intros before acc; cbn [outer_sum rsum sqsum]; [lra |].
  rewrite IH, inner_sum_spec, rsum_app. cbn [rsum]. lra.
Qed.

Lemma eta_ij_sum_spec : forall etas, eta_ij_sum etas = (rsum etas * rsum etas - sqsum etas) / 2.
Proof. intros. unfold eta_ij_sum. rewrite outer_sum_spec. cbn [rsum]. lra. Qed.

Lemma rsum_nonneg : forall l, Forall (fun e => 0 <= e) l -> 0 <= rsum l.
Proof. induction 1; cbn; lra. Qed.

Lemma outer_sum_nonneg : forall etas before acc, Forall (fun e => 0 <= e) etas -> Forall (fun e => 0 <= e) before -> 0 <= acc -> 0 <= outer_sum before etas acc.
Proof.
  induction etas as [| e r IH]; intros before acc He Hb Ha; cbn [outer_sum]; [exact Ha |].
  inversion He; subst. apply IH; [assumption | apply Forall_app; auto |].
  rewrite inner_sum_spec. assert (0 <= rsum before) by (apply rsum_nonneg; exact Hb). nra.
Qed.

Lemma fold_plus : forall l a, fold_left Rplus l a = a + rsum l.
Proof. induction l as [| x l IH]; intros a; cbn; [ring | rewrite IH; ring]. Qed.

Lemma factor_loop_spec : forall s etas values acc, length values = length etas ->
  factor_loop s etas values acc = acc + s * rsum values - prodsum etas values.
Proof.
  intros s. induction etas as [| e r IH]; intros [| v w] acc H; cbn in H; try discriminate; cbn [factor_loop rsum prodsum]; [ring |].
  rewrite IH by congruence. ring.
Qed.

Lemma other_sum_spec : forall etas j i acc,
  other_sum etas j i acc = acc + rsum etas - (if andb (Nat.leb j i) (Nat.ltb i (j + length etas)) then nth (i - j) etas 0 else 0).
Proof.
  induction etas as [| e r IH]; intros j i acc; cbn [other_sum length rsum].
  - destruct (Nat.leb_spec j i), (Nat.ltb_spec i (j + 0)); cbn [andb]; try lia; ring.
  - rewrite IH. destruct (Nat.eqb_spec j i) as [-> | Ne].
    + rewrite Nat.sub_diag. cbn [nth].
      destruct (Nat.leb_spec (S i) i), (Nat.ltb_spec i (S i + length r)), (Nat.leb_spec i i), (Nat.ltb_spec i (i + S (length r))); cbn [andb]; try lia; ring.
    + destruct (Nat.leb_spec (S j) i), (Nat.ltb_spec i (S j + length r)), (Nat.leb_spec j i), (Nat.ltb_spec i (j + S (length r))); cbn [andb]; try lia; try ring.
      replace (i - j)%nat with (S (i - S j)) by lia. cbn [nth]. ring.
Qed.

(** a line in the space of the order parameters *)
Fixpoint vline (etas values : list R) (t : R) : list R :=
  match etas, values with e :: r, v :: s => (e + t * v) :: vline r s t | _, _ => [] end.

Lemma vline_sums : forall etas values t, length values = length etas ->
  rsum (vline etas values t) = rsum etas + t * rsum values
  /\ sqsum (vline etas values t) = sqsum etas + 2 * t * prodsum etas values + t * t * sqsum values.
Proof.
  induction etas as [| e r IH]; intros [| v w] t H; cbn in H; try discriminate; cbn [vline rsum sqsum prodsum]; [split; ring |].
  destruct (IH w t ltac:(congruence)) as [E1 E2]. rewrite E1, E2. split; ring.
Qed.

Lemma eta_ij_deriv : forall etas values, length values = length etas ->
  derivable_pt_lim (fun t => eta_ij_sum (vline etas values t)) 0 (rsum etas * rsum values - prodsum etas values).
Proof.
  intros etas values H.
  apply (quartic_deriv ((rsum etas * rsum etas - sqsum etas) / 2) (rsum etas * rsum values - prodsum etas values)
           ((rsum values * rsum values - sqsum values) / 2) 0 0).
  - intros t. rewrite eta_ij_sum_spec. destruct (vline_sums etas values t H) as [-> ->]. lra.
  - ring.
Qed.

(** ** vectors *)
Lemma dot_ext : forall dim a b a' b', (forall d, a d = a' d) -> (forall d, b d = b' d) -> dot dim a b = dot dim a' b'.
Proof. induction dim as [| n IH]; intros a b a' b' Ha Hb; cbn [dot]; [reflexivity |]. rewrite (IH a b a' b' Ha Hb), Ha, Hb. reflexivity. Qed.
Lemma dot_comm : forall dim a b, dot dim a b = dot dim b a.
Proof. induction dim as [| n IH]; intros; cbn [dot]; [reflexivity |]. rewrite IH. ring. Qed.
Lemma dot_lin : forall dim a b c s t, dot dim a (fun d => s * b d + t * c d) = s * dot dim a b + t * dot dim a c.
Proof. induction dim as [| n IH]; intros; cbn [dot]; [ring |]. rewrite IH. ring. Qed.
Lemma dot_scale : forall dim a b s, dot dim a (fun d => s * b d) = s * dot dim a b.
Proof. induction dim as [| n IH]; intros; cbn [dot]; [ring |]. rewrite IH. ring. Qed.
Lemma dot_line : forall dim a b c t, dot dim a (fun d => b d + t * c d) = dot dim a b + t * dot dim a c.
Proof. induction dim as [| n IH]; intros; cbn [dot]; [ring |]. rewrite IH. ring. Qed.
Lemma dot_pos : forall dim a, 0 <= dot dim a a.
Proof. induction dim as [| n IH]; intros a; cbn [dot]; [lra |]. specialize (IH a). nra. Qed.

Lemma sq_le : forall a b, 0 <= b -> a * a <= b * b -> a <= b.
Proof. intros. nra. Qed.

Lemma cauchy : forall dim a b, dot dim a b * dot dim a b <= dot dim a a * dot dim b b.
Proof.
  induction dim as [| n IH]; intros a b; cbn [dot]; [lra |].
  specialize (IH a b). assert (Ha := dot_pos n a). assert (Hb := dot_pos n b).
  set (x := dot n a b) in *. set (X := dot n a a) in *. set (Y := dot n b b) in *. set (p := a n). set (q := b n).
  clearbody x X Y p q.
  assert (K : 2 * (x * (p * q)) <= X * (q * q) + Y * (p * p)).
  { apply sq_le; [nra |].
    assert (E : (X * (q * q) + Y * (p * p)) * (X * (q * q) + Y * (p * p)) - 4 * (X * Y) * ((p * q) * (p * q)) = (X * (q * q) - Y * (p * p)) * (X * (q * q) - Y * (p * p))) by ring.
    assert (H1 := Rle_0_sqr (X * (q * q) - Y * (p * p))). assert (H2 := Rle_0_sqr (p * q)). unfold Rsqr in H1, H2.
    assert (H3 : (x * x) * ((p * q) * (p * q)) <= (X * Y) * ((p * q) * (p * q))) by (apply Rmult_le_compat_r; assumption).
    lra. }
  lra.
Qed.

Lemma small_pos : forall n, 0 < / 10 ^ n.
Proof. intros. apply Rinv_0_lt_compat. apply pow_lt. lra. Qed.

Lemma norm_sq : forall dim v, norm dim v * norm dim v = dot dim v v.
Proof. intros. apply sqrt_sqrt. apply dot_pos. Qed.

Lemma unit_vector_on : forall dim v d, / 10 ^ 10 < norm dim v -> unit_vector dim v d = v d / norm dim v.
Proof.
  intros dim v d H. unfold unit_vector, mask_gt, mask_lt.
  destruct (Rlt_dec (/ 10 ^ 10) (norm dim v)); [| lra].
  destruct (Rlt_dec (norm dim v) (/ 10 ^ 10)); [lra |]. ring.
Qed.

Lemma unit_vector_off : forall dim v d, ~ / 10 ^ 10 < norm dim v -> unit_vector dim v d = 0.
Proof.
  intros dim v d H. unfold unit_vector, mask_gt.
  destruct (Rlt_dec (/ 10 ^ 10) (norm dim v)); [contradiction |]. ring.
Qed.

(** the projection on the unit vector does not enlarge *)
Lemma unit_vector_bound : forall dim v mu, dot dim (unit_vector dim v) mu * dot dim (unit_vector dim v) mu <= dot dim mu mu.
Proof.
  intros dim v mu. destruct (Rlt_dec (/ 10 ^ 10) (norm dim v)) as [H | H].
  - assert (P := small_pos 10).
    assert (E : dot dim (unit_vector dim v) mu = dot dim v mu / norm dim v).
    { rewrite dot_comm. rewrite (dot_ext dim mu (unit_vector dim v) mu (fun d => / norm dim v * v d)).
      - rewrite dot_scale, dot_comm. unfold Rdiv. ring.
      - reflexivity.
      - intros d. rewrite unit_vector_on by exact H. unfold Rdiv. ring. }
    rewrite E. assert (N : 0 < norm dim v) by lra. assert (C := cauchy dim v mu). rewrite <- norm_sq in C.
    set (n := norm dim v) in *. set (x := dot dim v mu) in *. clearbody n x.
    apply Rmult_le_reg_l with (r := n * n); [nra |].
    replace (n * n * (x / n * (x / n))) with (x * x) by (field; lra). exact C.
  - assert (E : dot dim (unit_vector dim v) mu = 0).
    { rewrite dot_comm. rewrite (dot_ext dim mu (unit_vector dim v) mu (fun d => 0 * v d)).
      - rewrite dot_scale. ring.
      - reflexivity.
      - intros d. rewrite unit_vector_off by exact H. ring. }
    rewrite E. assert (D := dot_pos dim mu). lra.
Qed.

Lemma filter_bound : forall dim v mu, unit_vector_filter_2 dim v * (dot dim v mu * dot dim v mu) <= dot dim mu mu.
Proof.
  intros dim v mu. unfold unit_vector_filter_2, mask_gt, mask_lt.
  assert (P := small_pos 20). assert (C := cauchy dim v mu). assert (D := dot_pos dim mu).
  destruct (Rlt_dec (/ 10 ^ 20) (dot dim v v)) as [H | H].
  - destruct (Rlt_dec (dot dim v v) (/ 10 ^ 20)); [lra |].
    set (nn := dot dim v v) in *. set (x := dot dim v mu) in *. clearbody nn x.
    apply Rmult_le_reg_l with (r := nn); [lra |].
    replace (nn * (1 / nn * (x * x))) with (x * x) by (field; lra). exact C.
  - unfold Rdiv. rewrite !Rmult_0_l. exact D.
Qed.

(** ** the sum over pairs of grains *)
Lemma gb_inner_dot : forall dim term mu g before acc,
  (forall b, In b before -> 0 <= dot dim mu (term g b)) -> 0 <= dot dim mu acc -> 0 <= dot dim mu (gb_inner term g before acc).
Proof.
  intros dim term mu g. induction before as [| b r IH]; intros acc H Ha; cbn [gb_inner]; [exact Ha |].
  apply IH; [intros; apply H; right; assumption |].
  rewrite (dot_ext dim mu _ mu (fun d => 1 * acc d + 1 * term g b d)); [| reflexivity | intros; ring].
  rewrite dot_lin. assert (0 <= dot dim mu (term g b)) by (apply H; left; reflexivity). lra.
Qed.

Lemma gb_outer_dot : forall dim term mu grains before acc,
  (forall a b, In a (before ++ grains) -> In b (before ++ grains) -> 0 <= dot dim mu (term a b)) ->
  0 <= dot dim mu acc -> 0 <= dot dim mu (gb_outer term before grains acc).
Proof.
  intros dim term mu. induction grains as [| g r IH]; intros before acc H Ha; cbn [gb_outer]; [exact Ha |].
  apply IH.
  - intros a b Ia Ib. rewrite <- app_assoc in Ia, Ib. apply H; assumption.
  - apply gb_inner_dot; [| exact Ha]. intros b Hb. apply H; apply in_app_iff; [right; left; reflexivity | left; exact Hb].
Qed.

(** the grains on a line: the gradients do not change *)
Definition gline (t : R) (g : egrain * R) : egrain := (fst (fst g) + t * snd g, snd (fst g)).

Lemma gb_term_deriv : forall dim mu mu' gi gj d,
  derivable_pt_lim (fun t => gb_term dim (fun d => mu d + t * mu' d) (gline t gi) (gline t gj) d) 0 (gb_term_derivative dim mu mu' gi gj d).
Proof.
  intros dim mu mu' gi gj d. unfold gb_term, gb_term_derivative, gline. cbn [fst snd].
  set (diff := fun d => snd (fst gi) d - snd (fst gj) d).
  set (k := unit_vector_filter_2 dim diff).
  set (a := fst (fst gi)). set (b := fst (fst gj)). set (v := snd gi). set (w := snd gj).
  set (p := dot dim diff mu). set (q := dot dim diff mu').
  set (A := mu d - diff d * (k * p)). set (B := mu' d - diff d * (k * q)).
  apply (quartic_deriv (A * (a * b)) (B * (a * b) + A * (a * w + v * b)) (B * (a * w + v * b) + A * (v * w)) (B * (v * w)) 0).
  - intros t. rewrite dot_line. fold p q. change (snd (fst gi) d - snd (fst gj) d) with (diff d). unfold A, B. ring.
  - change (snd (fst gi) d - snd (fst gj) d) with (diff d). unfold A, B. ring.
Qed.

Lemma gb_inner_deriv : forall dim mu mu' g before (acc : R -> vec) acc' d,
  derivable_pt_lim (fun t => acc t d) 0 (acc' d) ->
  derivable_pt_lim (fun t => gb_inner (gb_term dim (fun d => mu d + t * mu' d)) (gline t g) (map (gline t) before) (acc t) d) 0
    (gbd_inner (gb_term_derivative dim mu mu') g before acc' d).
Proof.
  intros dim mu mu' g. induction before as [| b r IH]; intros acc acc' d H; cbn [gb_inner gbd_inner map]; [exact H |].
  apply (IH (fun t e => acc t e + gb_term dim (fun d => mu d + t * mu' d) (gline t g) (gline t b) e)).
  apply derivable_plus; [exact H | apply gb_term_deriv].
Qed.

Lemma gb_outer_deriv : forall dim mu mu' grains before (acc : R -> vec) acc' d,
  derivable_pt_lim (fun t => acc t d) 0 (acc' d) ->
  derivable_pt_lim (fun t => gb_outer (gb_term dim (fun d => mu d + t * mu' d)) (map (gline t) before) (map (gline t) grains) (acc t) d) 0
    (gbd_outer (gb_term_derivative dim mu mu') before grains acc' d).
Proof.
  intros dim mu mu'. induction grains as [| g r IH]; intros before acc acc' d H; cbn [gb_outer gbd_outer map]; [exact H |].
  assert (D := IH (before ++ [g]) (fun t => gb_inner (gb_term dim (fun d => mu d + t * mu' d)) (gline t g) (map (gline t) before) (acc t))
                 (gbd_inner (gb_term_derivative dim mu mu') g before acc') d (gb_inner_deriv dim mu mu' g before acc acc' d H)).
  refine (derivable_ext _ _ _ _ _ D). intros t. cbv beta. rewrite map_app. reflexivity.
Qed.

(** ** the projection on the normal *)
Lemma projection_deriv : forall dim g g' mu mu' k, 0 < dot dim g g -> / 10 ^ 10 < norm dim g ->
  derivable_pt_lim (fun t => unit_vector dim (fun d => g d + t * g' d) k * dot dim (unit_vector dim (fun d => g d + t * g' d)) (fun d => mu d + t * mu' d)) 0
    ((g' k * dot dim g mu + g k * (dot dim g' mu + dot dim g mu')) / dot dim g g - g k * dot dim g mu * (2 * dot dim g g') / (dot dim g g * dot dim g g)).
Proof.
  intros dim g g' mu mu' k Hg Hn.
  set (gg := dot dim g g) in *. set (gd := dot dim g g'). set (dd := dot dim g' g').
  set (gm := dot dim g mu). set (dm := dot dim g' mu). set (gn := dot dim g mu'). set (dn := dot dim g' mu').
  assert (Q : forall t, dot dim (fun d => g d + t * g' d) (fun d => g d + t * g' d) = gg + 2 * t * gd + t * t * dd).
  { intros t. rewrite dot_line. rewrite !(dot_comm dim (fun d => g d + t * g' d)), !dot_line.
    rewrite (dot_comm dim g' g). unfold gg, gd, dd. ring. }
  assert (P : forall t, dot dim (fun d => g d + t * g' d) (fun d => mu d + t * mu' d) = gm + t * (dm + gn) + t * t * dn).
  { intros t. rewrite dot_line. rewrite !(dot_comm dim (fun d => g d + t * g' d)), !dot_line.
    rewrite !(dot_comm dim mu), !(dot_comm dim mu'). unfold gm, dm, gn, dn. ring. }
  assert (S10 := small_pos 10).
  (* near zero the norm stays above the threshold *)
  assert (Near : exists e, 0 < e /\ forall t, Rabs t < e -> / 10 ^ 10 < norm dim (fun d => g d + t * g' d)).
  { set (q := / 10 ^ 10) in *.
    assert (G : q * q < gg) by (unfold gg; rewrite <- norm_sq; set (n := norm dim g) in *; clearbody n; nra).
    set (m := 2 * Rabs gd + dd + 1).
    assert (D0 : 0 <= dd) by apply dot_pos. assert (A0 := Rabs_pos gd).
    assert (M : 1 <= m) by (unfold m; lra).
    exists (Rmin 1 ((gg - q * q) / m)). split.
    { apply Rmin_pos; [lra |]. apply Rdiv_lt_0_compat; lra. }
    intros t Ht.
    assert (T1 : Rabs t < 1) by (eapply Rlt_le_trans; [exact Ht | apply Rmin_l]).
    assert (T2 : Rabs t < (gg - q * q) / m) by (eapply Rlt_le_trans; [exact Ht | apply Rmin_r]).
    assert (T3 : Rabs t * m < gg - q * q).
    { apply (Rmult_lt_compat_r m) in T2; [| lra]. replace ((gg - q * q) / m * m) with (gg - q * q) in T2 by (field; lra). exact T2. }
    apply Rnot_le_lt. intros C.
    assert (N0 : 0 <= norm dim (fun d => g d + t * g' d)) by apply sqrt_pos.
    assert (N2 := norm_sq dim (fun d => g d + t * g' d)). rewrite Q in N2.
    set (nn := norm dim (fun d => g d + t * g' d)) in *. clearbody nn.
    assert (nn * nn <= q * q) by nra.
    assert (L : Rabs t * (2 * Rabs gd) >= - (2 * t * gd)).
    { assert (Rabs (t * gd) = Rabs t * Rabs gd) by apply Rabs_mult. assert (- (t * gd) <= Rabs (t * gd)) by (rewrite <- Rabs_Ropp; apply Rle_abs). lra. }
    assert (Tp := Rabs_pos t). assert (0 <= t * t * dd) by nra.
    unfold m in T3. nra. }
  destruct Near as [e [He Near]].
  apply (derivable_local (fun t => ((g k + t * g' k) * (gm + t * (dm + gn) + t * t * dn)) / (gg + 2 * t * gd + t * t * dd)) _ 0 _ e He).
  - intros t Ht. rewrite Rminus_0_r in Ht. specialize (Near t Ht).
    assert (NZ : norm dim (fun d => g d + t * g' d) <> 0) by lra.
    rewrite unit_vector_on by exact Near.
    assert (E : dot dim (unit_vector dim (fun d => g d + t * g' d)) (fun d => mu d + t * mu' d) = (gm + t * (dm + gn) + t * t * dn) / norm dim (fun d => g d + t * g' d)).
    { rewrite dot_comm.
      rewrite (dot_ext dim _ (unit_vector dim (fun d => g d + t * g' d)) (fun d => mu d + t * mu' d) (fun d => / norm dim (fun d => g d + t * g' d) * (g d + t * g' d))).
      - rewrite dot_scale, dot_comm, P. unfold Rdiv. ring.
      - reflexivity.
      - intros d. rewrite unit_vector_on by exact Near. unfold Rdiv. ring. }
    rewrite E. assert (N2 := norm_sq dim (fun d => g d + t * g' d)). rewrite Q in N2. rewrite <- N2.
    field. exact NZ.
  - assert (D1 : derivable_pt_lim (fun t => (g k + t * g' k) * (gm + t * (dm + gn) + t * t * dn)) 0 (g' k * gm + g k * (dm + gn))).
    { apply (quartic_deriv (g k * gm) (g' k * gm + g k * (dm + gn)) (g' k * (dm + gn) + g k * dn) (g' k * dn) 0); [intros y |]; ring. }
    assert (D2 : derivable_pt_lim (fun t => gg + 2 * t * gd + t * t * dd) 0 (2 * gd)).
    { apply (quartic_deriv gg (2 * gd) dd 0 0); [intros y |]; ring. }
    assert (NZ : gg + 2 * 0 * gd + 0 * 0 * dd <> 0) by lra.
    assert (D := derivable_pt_lim_div (fun t => (g k + t * g' k) * (gm + t * (dm + gn) + t * t * dn)) (fun t => gg + 2 * t * gd + t * t * dd) 0 _ _ D1 D2 NZ).
    eapply derivable_eq; [| exact D]. unfold Rsqr. field. lra.
Qed.
