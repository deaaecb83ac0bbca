(** Properties of ellipsoids and of the distance between them. *)
From Coq Require Import Reals Lra Lia Psatz Bool Arith List.
From Verif Require Import MobilityModel MobilityProofs VecGeom NeckProps MotionModel MotionProps EllipsoidModel EllipsoidProofs.
Import ListNotations.
Local Open Scope R_scope.

(** ** What an ellipsoid is *)
Definition level (dim : nat) (c : vec) (r : nat -> R) (a : nat -> vec) (p : vec) : R :=
  dsum dim (fun d => (dot dim (fun i => p i - c i) (a d) / r d) * (dot dim (fun i => p i - c i) (a d) / r d)).
Definition in_ellipsoid (dim : nat) (c : vec) (r : nat -> R) (a : nat -> vec) (p : vec) : Prop := level dim c r a p <= 1.
Definition proper (dim : nat) (r : nat -> R) (a : nat -> vec) : Prop :=
  (dim = 2%nat \/ dim = 3%nat) /\ orthonormal dim a /\ forall d, (d < dim)%nat -> 0 < r d.

Lemma dsum_le : forall n f g, (forall d, (d < n)%nat -> f d <= g d) -> dsum n f <= dsum n g.
Proof. induction n as [|n IH]; intros f g H; cbn [dsum]; [lra|]. pose proof (H n ltac:(lia)). pose proof (IH f g ltac:(intros; apply H; lia)). lra. Qed.
Lemma dsum_nonneg : forall n f, (forall d, (d < n)%nat -> 0 <= f d) -> 0 <= dsum n f.
Proof. intros n f H. rewrite <- (dsum_zero n). apply dsum_le. exact H. Qed.

Lemma mm_mv : forall dim A B x i, mv dim (mm dim A B) x i = mv dim A (mv dim B x) i.
Proof.
  intros. unfold mv, mm. rewrite (dsum_ext dim _ (fun j => dsum dim (fun k => A i k * (B k j * x j)))).
  - rewrite dsum_swap. apply dsum_ext. intros k _. rewrite dsum_scale. reflexivity.
  - intros j _. rewrite Rmult_comm, <- dsum_scale. apply dsum_ext. intros. ring.
Qed.

Lemma own_axes_entry : forall dim axes i d, (d < dim)%nat -> rotation_tensor_from_own_axes dim axes false i d = axes d i.
Proof.
  intros dim axes i d Hd. unfold rotation_tensor_from_own_axes, rotation_tensor_from_axes, outer_product.
  rewrite (dsum_ext dim _ (fun e => axes e i * delta e d)); [apply (dsum_delta dim (fun e => axes e i)); exact Hd|].
  intros e _. unfold global_axes, delta. rewrite Nat.eqb_sym. reflexivity.
Qed.

Lemma mv_ext : forall dim A x y i, (forall d, (d < dim)%nat -> x d = y d) -> mv dim A x i = mv dim A y i.
Proof. intros. unfold mv. apply dsum_ext. intros. rewrite H by assumption. reflexivity. Qed.

Lemma A_mv : forall dim c r a x i,
  mv dim (el_A (make_ellipsoid dim c r a)) x i = dsum dim (fun d => a d i * (dot dim x (a d) / (r d * r d))).
Proof.
  intros. cbn [make_ellipsoid el_A]. rewrite mm_mv, mm_mv. unfold mv at 1. apply dsum_ext. intros d Hd.
  rewrite own_axes_entry by exact Hd. f_equal. unfold mv.
  rewrite (dsum_ext dim _ (fun e => (1 / (r d * r d) * dot dim x (a d)) * delta e d)).
  - rewrite (dsum_delta dim (fun _ => 1 / (r d * r d) * dot dim x (a d))) by exact Hd. unfold Rdiv. ring.
  - intros e He. unfold delta. rewrite Nat.eqb_sym. destruct (Nat.eqb e d) eqn:F; [|ring]. apply Nat.eqb_eq in F. subst e.
    rewrite Rmult_1_r. f_equal. rewrite dot_dsum. apply dsum_ext. intros j _. unfold mt. rewrite own_axes_entry by exact Hd. ring.
Qed.

Lemma A_form : forall dim c r a x y, dot dim (mv dim (el_A (make_ellipsoid dim c r a)) x) y =
  dsum dim (fun d => dot dim x (a d) * dot dim y (a d) / (r d * r d)).
Proof.
  intros. rewrite (dot_ext dim _ y _ y (fun i => A_mv dim c r a x i) (fun _ => eq_refl)). rewrite dot_dsum.
  rewrite (dsum_ext dim _ (fun i => dsum dim (fun d => y i * (a d i * (dot dim x (a d) / (r d * r d)))))).
  - rewrite dsum_swap. apply dsum_ext. intros d _.
    rewrite (dsum_ext dim _ (fun i => dot dim x (a d) / (r d * r d) * (y i * a d i))) by (intros; ring).
    rewrite dsum_scale, <- dot_dsum. unfold Rdiv. ring.
  - intros i _. rewrite Rmult_comm, <- dsum_scale. reflexivity.
Qed.

Lemma form_level : forall dim c r a p, form dim (make_ellipsoid dim c r a) p = 1 / 2 * (level dim c r a p - 1).
Proof.
  intros dim c r a p. unfold form. cbn [el_b el_alpha make_ellipsoid].
  change (fun d => - mv dim (mm dim (mm dim (rotation_tensor_from_own_axes dim a false) (fun i j => if Nat.eqb i j then 1 / (r i * r i) else 0)) (mt (rotation_tensor_from_own_axes dim a false))) c d)
    with (fun d => - mv dim (el_A (make_ellipsoid dim c r a)) c d).
  change (mv dim (mm dim (mm dim (rotation_tensor_from_own_axes dim a false) (fun i j => if Nat.eqb i j then 1 / (r i * r i) else 0)) (mt (rotation_tensor_from_own_axes dim a false))) c)
    with (mv dim (el_A (make_ellipsoid dim c r a)) c).
  rewrite (dot_ext dim (fun d => - mv dim _ c d) p (fun d => -1 * mv dim (el_A (make_ellipsoid dim c r a)) c d) p) by (intros; ring).
  rewrite (dot_comm dim (fun d => -1 * _) p), dot_scale, (dot_comm dim p).
  rewrite !A_form. unfold level.
  rewrite (dsum_ext dim (fun d => dot dim (fun i => p i - c i) (a d) / r d * (dot dim (fun i => p i - c i) (a d) / r d))
    (fun d => dot dim p (a d) * dot dim p (a d) / (r d * r d) +
      ((-2) * (dot dim c (a d) * dot dim p (a d) / (r d * r d)) + dot dim c (a d) * dot dim c (a d) / (r d * r d)))).
  - rewrite !dsum_plus, dsum_scale. field.
  - intros d _. rewrite dot_minus_l. unfold Rdiv. rewrite Rinv_mult. ring.
Qed.

Lemma vmax_ge : forall n r d, (d <= n)%nat -> r d <= vmax n r.
Proof.
  induction n as [|n IH]; intros r d Hd; cbn [vmax]; [replace d with 0%nat by lia; lra|].
  destruct (Nat.eq_dec d (S n)) as [->|K]; [apply Rmax_r|]. apply Rle_trans with (vmax n r); [apply IH; lia|apply Rmax_l].
Qed.
Lemma vmax_in : forall n r, exists d, (d <= n)%nat /\ vmax n r = r d.
Proof.
  induction n as [|n IH]; intros r; cbn [vmax]; [exists 0%nat; split; [lia|reflexivity]|].
  destruct (IH r) as (d & Hd & E). unfold Rmax. destruct (Rle_dec (vmax n r) (r (S n))); [exists (S n)|exists d]; split; try lia; [reflexivity|exact E].
Qed.

Lemma mnorm_bound : forall dim A x, norm dim (mv dim A x) <= mnorm dim A * norm dim x.
Proof.
  intros dim A x. unfold mnorm, norm. rewrite <- sqrt_mult_alt.
  - apply sqrt_le_1_alt. rewrite dot_dsum, Rmult_comm, <- dsum_scale. apply dsum_le. intros i _. rewrite !mv_dot.
    pose proof (cauchy dim (A i) x) as K. rewrite (dot_dsum dim (A i) (A i)) in K. lra.
  - apply dsum_nonneg. intros i _. apply dsum_nonneg. intros j _. apply Rle_0_sqr.
Qed.

Lemma form_bound : forall dim A x, dot dim (mv dim A x) x <= mnorm dim A * dot dim x x.
Proof.
  intros dim A x. apply Rle_trans with (norm dim (mv dim A x) * norm dim x); [apply dot_norm|].
  rewrite <- norm_sq. rewrite <- Rmult_assoc. apply Rmult_le_compat_r; [apply norm_nonneg|apply mnorm_bound].
Qed.

Lemma level_radius : forall dim c r a p, proper dim r a -> dot dim (fun i => p i - c i) (fun i => p i - c i) <=
  vmax (dim - 1) r * vmax (dim - 1) r * level dim c r a p.
Proof.
  intros dim c r a p (Hdim & Ha & Hr). rewrite (parseval dim a _ _ Hdim Ha). unfold level. rewrite <- dsum_scale. apply dsum_le.
  intros d Hd. pose proof (Hr d Hd) as P. pose proof (vmax_ge (dim - 1) r d ltac:(lia)) as M.
  set (m := vmax (dim - 1) r) in *. set (y := dot dim (fun i => p i - c i) (a d)).
  replace (m * m * (y / r d * (y / r d))) with ((m * m) * (1 / (r d * r d)) * (y * y)) by (field; lra).
  rewrite <- (Rmult_1_l (y * y)) at 1. apply Rmult_le_compat_r; [apply Rle_0_sqr|].
  apply Rmult_le_reg_r with (r d * r d); [apply Rmult_lt_0_compat; exact P|].
  replace (m * m * (1 / (r d * r d)) * (r d * r d)) with (m * m) by (field; lra). rewrite Rmult_1_l.
  apply Rmult_le_compat; lra.
Qed.

Lemma make_quadratic : forall dim c r a, proper dim r a -> quadratic dim (make_ellipsoid dim c r a).
Proof.
  intros dim c r a HP. pose proof HP as (Hdim & Ha & Hr).
  assert (Hpos : forall x, 0 < dot dim x x -> 0 < dot dim (mv dim (el_A (make_ellipsoid dim c r a)) x) x).
  { intros x Hx. rewrite A_form.
    pose proof (level_radius dim (fun _ => 0) r a x HP) as K.
    rewrite (dot_ext dim _ _ x x) in K by (intros; ring).
    assert (L : level dim (fun _ => 0) r a x = dsum dim (fun d => dot dim x (a d) * dot dim x (a d) / (r d * r d))).
    { unfold level. apply dsum_ext. intros d Hd. pose proof (Hr d Hd). rewrite (dot_ext dim (fun i => x i - 0) (a d) x (a d)) by (intros; ring). field. lra. }
    rewrite <- L. destruct (Rlt_dec 0 (level dim (fun _ => 0) r a x)) as [G|G]; [exact G|]. exfalso.
    assert (0 <= vmax (dim - 1) r * vmax (dim - 1) r * - level dim (fun _ => 0) r a x) by (apply Rmult_le_pos; [apply Rle_0_sqr|lra]). lra. }
  assert (Hmax : 0 < vmax (dim - 1) r).
  { destruct (vmax_in (dim - 1) r) as (d & Hd & E). rewrite E. apply Hr. lia. }
  constructor.
  - intros x y. rewrite !A_form. apply dsum_ext. intros. unfold Rdiv. ring.
  - exact Hpos.
  - intros x. apply form_bound.
  - assert (D0 : dot dim (a 0%nat) (a 0%nat) = 1) by (rewrite Ha by lia; reflexivity).
    pose proof (Hpos (a 0%nat) ltac:(lra)) as P. pose proof (form_bound dim (el_A (make_ellipsoid dim c r a)) (a 0%nat)) as K.
    rewrite D0 in K. change (el_norm (make_ellipsoid dim c r a)) with (mnorm dim (el_A (make_ellipsoid dim c r a))). lra.
  - rewrite form_level. cbn [el_center make_ellipsoid].
    assert (L : level dim c r a c = 0).
    { unfold level. rewrite <- (dsum_zero dim). apply dsum_ext. intros d _. rewrite dot_minus_l. unfold Rdiv. ring. }
    rewrite L. lra.
  - intros x Hx. rewrite form_level in Hx. cbn [el_center el_max make_ellipsoid]. unfold vdist.
    apply sq_le; [lra|]. rewrite norm_sq. pose proof (level_radius dim c r a x HP) as K.
    assert (0 <= vmax (dim - 1) r * vmax (dim - 1) r * (1 - level dim c r a x)) by (apply Rmult_le_pos; [apply Rle_0_sqr|lra]). lra.
  - exact Hmax.
Qed.

(** The quadratic form describes the ellipsoid. *)
Theorem C56_inside : forall dim c r a p tol,
  el_inside dim (make_ellipsoid dim c r a) p tol = true <->
  level dim c r a p <= 1 + 2 * tol.
Proof.
  intros. unfold el_inside. rewrite form_level. destruct (Rle_dec _ _); split; intros; try discriminate; try reflexivity; lra.
Qed.
Print Assumptions C56_inside.

(** Radii are semi-axes: the end points of the axes are on the surface, and the ellipsoid
    lies between the balls of the smallest and the largest radius. *)
Lemma vmin_le : forall n r d, (d <= n)%nat -> vmin n r <= r d.
Proof.
  induction n as [|n IH]; intros r d Hd; cbn [vmin]; [replace d with 0%nat by lia; lra|].
  destruct (Nat.eq_dec d (S n)) as [->|K]; [apply Rmin_r|]. apply Rle_trans with (vmin n r); [apply Rmin_l|apply IH; lia].
Qed.
Lemma vmin_in : forall n r, exists d, (d <= n)%nat /\ vmin n r = r d.
Proof.
  induction n as [|n IH]; intros r; cbn [vmin]; [exists 0%nat; split; [lia|reflexivity]|].
  destruct (IH r) as (d & Hd & E). unfold Rmin. destruct (Rle_dec (vmin n r) (r (S n))); [exists d|exists (S n)]; split; try lia; [exact E|reflexivity].
Qed.
Theorem C56_semi_axes : forall dim c r a, proper dim r a ->
  let E := make_ellipsoid dim c r a in
  (forall d s, (d < dim)%nat -> s * s = 1 -> form dim E (fun i => c i + s * r d * a d i) = 0) /\
  (forall p, form dim E p <= 0 -> vdist dim p c <= el_max E) /\
  (forall p, vdist dim p c <= el_min E -> form dim E p <= 0).
Proof.
  intros dim c r a HP E. pose proof HP as (Hdim & Ha & Hr). split; [|split].
  - intros d s Hd Hs. unfold E. rewrite form_level.
    assert (L : level dim c r a (fun i => c i + s * r d * a d i) = 1).
    { unfold level. rewrite (dsum_ext dim _ (fun e => (fun _ => 1) e * delta e d)); [apply dsum_delta; exact Hd|].
      intros e He. rewrite (dot_ext dim _ (a e) (fun i => (s * r d) * a d i) (a e)) by (intros; ring).
      rewrite dot_comm, dot_scale, (Ha e d He Hd). unfold delta. destruct (Nat.eqb e d) eqn:F; [|unfold Rdiv; ring].
      apply Nat.eqb_eq in F. subst e. pose proof (Hr d Hd). rewrite Rmult_1_r. replace (s * r d / r d) with s by (field; lra). lra. }
    rewrite L. lra.
  - intros p Hp. exact (q_radius _ _ (make_quadratic dim c r a HP) p Hp).
  - intros p Hp. unfold E in *. cbn [el_min make_ellipsoid] in Hp. rewrite form_level.
    assert (Hmin : 0 < vmin (dim - 1) r). { destruct (vmin_in (dim - 1) r) as (d & Hd & Ed). rewrite Ed. apply Hr. lia. }
    assert (K : vmin (dim - 1) r * vmin (dim - 1) r * level dim c r a p <= dot dim (fun i => p i - c i) (fun i => p i - c i)).
    { rewrite (parseval dim a _ _ Hdim Ha). unfold level. rewrite <- dsum_scale. apply dsum_le.
      intros d Hd. pose proof (Hr d Hd) as P. pose proof (vmin_le (dim - 1) r d ltac:(lia)) as M.
      set (m := vmin (dim - 1) r) in *. set (y := dot dim (fun i => p i - c i) (a d)).
      replace (m * m * (y / r d * (y / r d))) with ((m * m) * (1 / (r d * r d)) * (y * y)) by (field; lra).
      rewrite <- (Rmult_1_l (y * y)) at 2. apply Rmult_le_compat_r; [apply Rle_0_sqr|].
      apply Rmult_le_reg_r with (r d * r d); [apply Rmult_lt_0_compat; exact P|].
      replace (m * m * (1 / (r d * r d)) * (r d * r d)) with (m * m) by (field; lra). rewrite Rmult_1_l.
      apply Rmult_le_compat; lra. }
    rewrite <- norm_sq in K. change (norm dim (fun i => p i - c i)) with (vdist dim p c) in K.
    set (m := vmin (dim - 1) r) in *. set (l := level dim c r a p) in *. pose proof (vdist_nonneg dim p c) as V.
    assert (vdist dim p c * vdist dim p c <= m * m) by (apply Rmult_le_compat; assumption).
    assert (m * m * l <= m * m * 1) by lra. apply Rmult_le_reg_l in H0; [lra|apply Rmult_lt_0_compat; exact Hmin].
Qed.
Print Assumptions C56_semi_axes.

(** ** One iteration *)
Definition gap (dim : nat) (g v : vec) : R := 1 - dot dim g v / (norm dim g * norm dim v).

Definition state (dim : nat) (E1 E2 : ellipsoid) (c1 c2 : vec) (D cut : R) : Prop :=
  form dim E1 c1 < 0 /\ form dim E2 c2 < 0 /\
  (exists rho1 rho2, 0 <= rho1 /\ 0 <= rho2 /\
    (forall y, vdist dim y c1 <= rho1 -> form dim E1 y <= 0) /\ (forall y, vdist dim y c2 <= rho2 -> form dim E2 y <= 0) /\
    vdist dim c2 c1 <= rho1 + D + rho2 - cut) /\
  (exists p q, form dim E1 p <= 0 /\ form dim E2 q <= 0 /\ D = vdist dim p q).

Lemma vdist_along : forall dim c1 c2 s t, vdist dim (along c1 c2 s) (along c1 c2 t) = Rabs (s - t) * vdist dim c2 c1.
Proof. intros. unfold vdist, along. rewrite <- norm_scale. apply norm_ext. intros. ring. Qed.

Lemma exit_bound : forall dim E1 E2 c1 c2 D cut t1 t2, state dim E1 E2 c1 c2 D cut ->
  0 < t1 <= 1 -> 0 <= t2 < 1 -> t1 <= t2 ->
  (forall s, 0 <= s -> form dim E1 (along c1 c2 s) <= 0 <-> s <= t1) ->
  (forall s, s <= 1 -> form dim E2 (along c1 c2 s) <= 0 <-> t2 <= s) ->
  vdist dim (along c1 c2 t1) (along c1 c2 t2) <= D - cut.
Proof.
  intros dim E1 E2 c1 c2 D cut t1 t2 (H1 & H2 & (r1 & r2 & R1 & R2 & B1 & B2 & L) & _) T1 T2 T F1 F2.
  rewrite vdist_along. rewrite Rabs_left1 by lra. pose proof (vdist_nonneg dim c2 c1) as V. set (l := vdist dim c2 c1) in *.
  assert (K1 : r1 <= t1 * l).
  { destruct (Rle_dec r1 (t1 * l)) as [G|G]; [exact G|]. exfalso.
    (* a point a little further is in the ball *)
    assert (exists s, t1 < s /\ s <= 1 /\ s * l <= r1).
    { destruct (Rle_dec l r1) as [Q1|Q1]; [exists 1; repeat split; lra|]. exists (r1 / l).
      assert (0 < l) by lra. split; [|split].
      - apply Rmult_lt_reg_r with l; [assumption|]. unfold Rdiv. rewrite Rmult_assoc, Rinv_l, Rmult_1_r by lra. lra.
      - apply Rmult_le_reg_r with l; [assumption|]. unfold Rdiv. rewrite Rmult_assoc, Rinv_l, Rmult_1_r by lra. lra.
      - unfold Rdiv. rewrite Rmult_assoc, Rinv_l, Rmult_1_r by lra. lra. }
    destruct H as (s & S1 & S2 & S3). assert (s <= t1); [|lra]. apply F1; [lra|]. apply B1.
    assert (Ev : vdist dim (along c1 c2 s) c1 = s * l).
    { unfold vdist. rewrite (norm_ext dim _ (fun i => s * (c2 i - c1 i))) by (intros; unfold along; ring). rewrite norm_scale.
      rewrite Rabs_right by lra. reflexivity. }
    rewrite Ev. exact S3. }
  assert (K2 : r2 <= (1 - t2) * l).
  { destruct (Rle_dec r2 ((1 - t2) * l)) as [G|G]; [exact G|]. exfalso.
    assert (exists s, s < t2 /\ 0 <= s /\ s <= 1 /\ (1 - s) * l <= r2).
    { assert (X : t2 = 0 \/ 0 < t2) by lra. destruct X as [X|X]; [lra|].
      destruct (Rle_dec l r2) as [Q1|Q1]; [exists 0; repeat split; lra|]. exists (1 - r2 / l). assert (0 < l) by lra.
      assert (Er : r2 / l * l = r2) by (field; lra). set (w := r2 / l) in *. clearbody w.
      assert (w <= 1) by (apply Rmult_le_reg_r with l; [assumption|]; lra).
      assert (1 - t2 < w) by (apply Rmult_lt_reg_r with l; [assumption|]; lra).
      repeat split; lra. }
    destruct H as (s & S1 & S2 & S3 & S4). assert (t2 <= s); [|lra]. apply F2; [lra|]. apply B2.
    assert (Ev : vdist dim (along c1 c2 s) c2 = (1 - s) * l).
    { unfold vdist. rewrite (norm_ext dim _ (fun i => (- (1 - s)) * (c2 i - c1 i))) by (intros; unfold along; ring). rewrite norm_scale.
      rewrite Rabs_left1 by lra. unfold l, vdist. ring. }
    rewrite Ev. exact S4. }
  lra.
Qed.

(** Two edges with an angle between them are longer than their sum by at least ... *)
Lemma shortcut : forall dim g v rho, 0 < norm dim g -> 0 < norm dim v -> 0 <= rho ->
  norm dim (fun d => rho / norm dim g * g d + v d) <= rho + norm dim v - rho * norm dim v / (rho + norm dim v) * gap dim g v.
Proof.
  intros dim g v rho G V R. unfold gap.
  set (w := dot dim g v / (norm dim g * norm dim v)).
  assert (W : dot dim g v = w * (norm dim g * norm dim v)) by (unfold w; field; lra).
  assert (W1 : w <= 1).
  { apply Rmult_le_reg_r with (norm dim g * norm dim v); [apply Rmult_lt_0_compat; assumption|]. rewrite <- W, Rmult_1_l. apply dot_norm. }
  assert (E : dot dim (fun d => rho / norm dim g * g d + v d) (fun d => rho / norm dim g * g d + v d) =
    rho * rho + norm dim v * norm dim v + 2 * rho * norm dim v * w).
  { rewrite (dot_ext dim _ _ (fun d => v d + rho / norm dim g * g d) (fun d => v d + rho / norm dim g * g d)) by (intros; ring).
    rewrite dot_line_l, !dot_line, (dot_comm dim v g), W, <- !norm_sq. field. lra. }
  assert (W0 : -1 <= w).
  { apply Rmult_le_reg_r with (norm dim g * norm dim v); [apply Rmult_lt_0_compat; assumption|]. rewrite <- W.
    pose proof (dot_norm dim g (fun d => - v d)) as K. rewrite norm_opp in K.
    rewrite (dot_ext dim g (fun d => - v d) g (fun d => -1 * v d)) in K by (intros; ring). rewrite dot_scale in K. lra. }
  clearbody w. set (n := norm dim v) in *. clearbody n.
  assert (Sp : 0 < rho + n) by lra. set (k := rho * n / (rho + n)).
  assert (Kk : k * (rho + n) = rho * n) by (unfold k; field; lra).
  assert (K0 : 0 <= k). { unfold k. apply Rmult_le_pos; [apply Rmult_le_pos; lra|]. apply Rlt_le, Rinv_0_lt_compat. exact Sp. }
  assert (Kb : 2 * k <= rho + n).
  { apply Rmult_le_reg_r with (rho + n); [exact Sp|]. pose proof (Rle_0_sqr (rho - n)) as Q1. unfold Rsqr in Q1.
    pose proof (Rle_0_sqr (rho + n)) as Q2. unfold Rsqr in Q2. lra. }
  clearbody k. apply sq_le.
  - assert (k * (1 - w) <= k * 2) by (apply Rmult_le_compat_l; lra). lra.
  - rewrite norm_sq, E. assert (0 <= k * (1 - w) * (k * (1 - w))) by apply Rle_0_sqr.
    replace ((rho + n - k * (1 - w)) * (rho + n - k * (1 - w))) with
      ((rho + n) * (rho + n) - 2 * (k * (rho + n)) * (1 - w) + k * (1 - w) * (k * (1 - w))) by ring. rewrite Kk. lra.
Qed.

Lemma inner_shift : forall dim E x d, quadratic dim E -> form dim E x = 0 ->
  inner dim E x d = x d - inner_radius dim E x / norm dim (gradient dim E x) * gradient dim E x d.
Proof.
  intros dim E x d HE Hx. unfold inner, inner_radius. pose proof (q_norm _ _ HE). pose proof (gradient_pos dim E x HE Hx). field. lra.
Qed.

Lemma new_state : forall dim E1 E2 x1 x2, quadratic dim E1 -> quadratic dim E2 -> form dim E1 x1 = 0 -> form dim E2 x2 = 0 ->
  state dim E1 E2 (inner dim E1 x1) (inner dim E2 x2) (vdist dim x1 x2) 0.
Proof.
  intros dim E1 E2 x1 x2 HE1 HE2 H1 H2. unfold state. split; [apply inner_inside; assumption|]. split; [apply inner_inside; assumption|]. split.
  - exists (inner_radius dim E1 x1), (inner_radius dim E2 x2). rewrite <- (inner_dist dim E1 x1 HE1), <- (inner_dist dim E2 x2 HE2).
    split; [apply vdist_nonneg|]. split; [apply vdist_nonneg|]. split; [|split].
    + intros y Hy. apply (inner_ball dim E1 x1 y HE1 H1). rewrite <- (inner_dist dim E1 x1 HE1). exact Hy.
    + intros y Hy. apply (inner_ball dim E2 x2 y HE2 H2). rewrite <- (inner_dist dim E2 x2 HE2). exact Hy.
    + pose proof (vdist_triangle dim (inner dim E2 x2) x2 (inner dim E1 x1)) as T1.
      pose proof (vdist_triangle dim x2 x1 (inner dim E1 x1)) as T2.
      rewrite (vdist_sym dim (inner dim E2 x2) x2) in T1. rewrite (vdist_sym dim x2 x1) in T2. lra.
  - exists x1, x2. split; [lra|]. split; [lra|reflexivity].
Qed.

(** The new reference points are closer by the angle between gradient and connection. *)
Lemma new_state_cut : forall dim E1 E2 x1 x2 rho eta gam, quadratic dim E1 -> quadratic dim E2 -> form dim E1 x1 = 0 -> form dim E2 x2 = 0 ->
  0 < rho -> 0 < eta -> 0 <= gam -> eta <= vdist dim x1 x2 ->
  rho <= inner_radius dim E1 x1 -> rho <= inner_radius dim E2 x2 ->
  gam <= gap dim (gradient dim E1 x1) (fun d => x2 d - x1 d) \/ gam <= gap dim (gradient dim E2 x2) (fun d => x1 d - x2 d) ->
  state dim E1 E2 (inner dim E1 x1) (inner dim E2 x2) (vdist dim x1 x2) (rho * eta / (rho + eta) * gam).
Proof.
  intros dim E1 E2 x1 x2 rho eta gam HE1 HE2 H1 H2 Hr He Hg HD R1 R2 HG.
  destruct (new_state dim E1 E2 x1 x2 HE1 HE2 H1 H2) as (A1 & A2 & (_ & PQ)). split; [exact A1|]. split; [exact A2|]. split; [|exact PQ].
  exists (inner_radius dim E1 x1), (inner_radius dim E2 x2).
  split; [lra|]. split; [lra|]. split; [intros y; apply (inner_ball dim E1 x1 y HE1 H1)|]. split; [intros y; apply (inner_ball dim E2 x2 y HE2 H2)|].
  pose proof (gradient_pos dim E1 x1 HE1 H1) as G1. pose proof (gradient_pos dim E2 x2 HE2 H2) as G2.
  assert (MK : forall s D, rho <= s -> eta <= D -> rho * eta / (rho + eta) <= s * D / (s + D)).
  { intros s D Hs HDD. apply Rmult_le_reg_r with ((rho + eta) * (s + D)); [apply Rmult_lt_0_compat; lra|].
    replace (rho * eta / (rho + eta) * ((rho + eta) * (s + D))) with (rho * eta * (s + D)) by (field; lra).
    replace (s * D / (s + D) * ((rho + eta) * (s + D))) with (s * D * (rho + eta)) by (field; lra).
    assert (0 <= rho * s * (D - eta)) by (apply Rmult_le_pos; [apply Rmult_le_pos|]; lra).
    assert (0 <= eta * D * (s - rho)) by (apply Rmult_le_pos; [apply Rmult_le_pos|]; lra). lra. }
  assert (CU : forall s D gp, rho <= s -> eta <= D -> gam <= gp -> rho * eta / (rho + eta) * gam <= s * D / (s + D) * gp).
  { intros s D gp Hs HDD Hgp. apply Rmult_le_compat; [|exact Hg|apply MK; assumption|exact Hgp].
    apply Rmult_le_pos; [apply Rmult_le_pos; lra|]. apply Rlt_le, Rinv_0_lt_compat. lra. }
  destruct HG as [HG|HG].
  - pose proof (vdist_triangle dim (inner dim E2 x2) x2 (inner dim E1 x1)) as T1.
    rewrite (vdist_sym dim (inner dim E2 x2) x2), (inner_dist dim E2 x2 HE2) in T1.
    assert (V : norm dim (fun d => x2 d - x1 d) = vdist dim x1 x2) by (rewrite vdist_sym; reflexivity).
    assert (T2 : vdist dim x2 (inner dim E1 x1) <= inner_radius dim E1 x1 + vdist dim x1 x2 - rho * eta / (rho + eta) * gam).
    { unfold vdist at 1. rewrite (norm_ext dim _ (fun d => inner_radius dim E1 x1 / norm dim (gradient dim E1 x1) * gradient dim E1 x1 d + (x2 d - x1 d)))
        by (intros; rewrite (inner_shift dim E1 x1 _ HE1 H1); ring).
      pose proof (shortcut dim (gradient dim E1 x1) (fun d => x2 d - x1 d) (inner_radius dim E1 x1) G1 ltac:(rewrite V; lra) ltac:(lra)) as Sc.
      rewrite V in Sc. pose proof (CU _ _ _ R1 HD HG). cbv beta in Sc. lra. }
    lra.
  - pose proof (vdist_triangle dim (inner dim E2 x2) x1 (inner dim E1 x1)) as T1.
    rewrite (inner_dist dim E1 x1 HE1) in T1.
    assert (V : norm dim (fun d => x1 d - x2 d) = vdist dim x1 x2) by reflexivity.
    assert (T2 : vdist dim x1 (inner dim E2 x2) <= inner_radius dim E2 x2 + vdist dim x1 x2 - rho * eta / (rho + eta) * gam).
    { unfold vdist at 1. rewrite (norm_ext dim _ (fun d => inner_radius dim E2 x2 / norm dim (gradient dim E2 x2) * gradient dim E2 x2 d + (x1 d - x2 d)))
        by (intros; rewrite (inner_shift dim E2 x2 _ HE2 H2); ring).
      pose proof (shortcut dim (gradient dim E2 x2) (fun d => x1 d - x2 d) (inner_radius dim E2 x2) G2 ltac:(rewrite V; lra) ltac:(lra)) as Sc.
      rewrite V in Sc. pose proof (CU _ _ _ R2 HD HG). cbv beta in Sc. lra. }
    rewrite (vdist_sym dim (inner dim E2 x2) x1) in T1. lra.
Qed.

(** What one pass of the loop does. *)
Lemma iteration : forall dim E1 E2 tr tc tol eps c1 c2 D cut, quadratic dim E1 -> quadratic dim E2 -> state dim E1 E2 c1 c2 D cut ->
  ((forall fuel iter, distance_iterations dim E1 E2 tr tc tol eps (S fuel) c1 c2 D iter = Some (0, iter, true)) /\
    exists p, form dim E1 p <= 0 /\ form dim E2 p <= 0) \/
  (exists x1 x2, form dim E1 x1 = 0 /\ form dim E2 x2 = 0 /\ vdist dim x1 x2 <= D - cut /\
    0 <= dot dim (gradient dim E1 x1) (fun d => x2 d - x1 d) /\ 0 <= dot dim (gradient dim E2 x2) (fun d => x1 d - x2 d) /\
    (((forall fuel iter, distance_iterations dim E1 E2 tr tc tol eps (S fuel) c1 c2 D iter = Some (vdist dim x1 x2, S iter, true)) /\
       (tc = true -> crit dim (fun d => x2 d - x1 d) (gradient dim E1 x1) eps = true /\
                     crit dim (fun d => x1 d - x2 d) (gradient dim E2 x2) eps = true)) \/
     forall fuel iter, distance_iterations dim E1 E2 tr tc tol eps (S fuel) c1 c2 D iter =
       distance_iterations dim E1 E2 tr tc tol eps fuel (inner dim E1 x1) (inner dim E2 x2) (vdist dim x1 x2) (S iter))).
Proof.
  intros dim E1 E2 tr tc tol eps c1 c2 D cut HE1 HE2 HS. pose proof HS as (H1 & H2 & _).
  cbn [distance_iterations].
  destruct (find_first dim E1 c1 c2 HE1 H1) as [[F1 G1]|(t1 & F1 & T1 & Z1 & S1 & D1)]; try rewrite F1.
  { left. split; [intros; reflexivity|]. exists c2. lra. }
  destruct (find_second dim E2 c1 c2 HE2 H2) as [[F2 G2]|(t2 & F2 & T2 & Z2 & S2 & D2)]; try rewrite F2.
  { left. split; [intros; reflexivity|]. exists c1. lra. }
  destruct (Rlt_dec t2 t1) as [L|L].
  { left. split; [intros; reflexivity|]. exists (along c1 c2 t1). split; [lra|]. apply S2; lra. }
  right. exists (along c1 c2 t1), (along c1 c2 t2). split; [exact Z1|]. split; [exact Z2|].
  split; [apply (exit_bound dim E1 E2 c1 c2 D cut t1 t2 HS); try assumption; lra|].
  split.
  { rewrite (dot_ext dim _ (fun d => along c1 c2 t2 d - along c1 c2 t1 d) (gradient dim E1 (along c1 c2 t1)) (fun d => (t2 - t1) * (c2 d - c1 d)))
      by (intros; unfold along; ring). rewrite dot_scale. apply Rmult_le_pos; lra. }
  split.
  { rewrite (dot_ext dim _ (fun d => along c1 c2 t1 d - along c1 c2 t2 d) (gradient dim E2 (along c1 c2 t2)) (fun d => (- (t2 - t1)) * (c2 d - c1 d)))
      by (intros; unfold along; ring). rewrite dot_scale.
    assert (0 <= (t2 - t1) * - dot dim (gradient dim E2 (along c1 c2 t2)) (fun d => c2 d - c1 d)) by (apply Rmult_le_pos; lra). lra. }
  destruct ((if tr then _ else true) && (if tc then _ else true)) eqn:OK; [left|right; intros; reflexivity].
  split; [intros; reflexivity|]. intros ->. apply andb_true_iff in OK. destruct OK as [_ OK]. apply andb_true_iff in OK. exact OK.
Qed.

Lemma first_state : forall dim E1 E2, quadratic dim E1 -> quadratic dim E2 ->
  state dim E1 E2 (el_center E1) (el_center E2) (vdist dim (el_center E2) (el_center E1)) 0.
Proof.
  intros dim E1 E2 HE1 HE2. pose proof (q_center _ _ HE1) as Q1. pose proof (q_center _ _ HE2) as Q2. unfold state.
  split; [lra|]. split; [lra|]. split.
  - exists 0, 0. split; [lra|]. split; [lra|].
    assert (Z : forall E y, form dim E (el_center E) = - (1 / 2) -> vdist dim y (el_center E) <= 0 -> form dim E y <= 0).
    { intros E y HQ Hy. rewrite (same_point dim E (el_center E) y); [lra|]. rewrite <- norm_sq.
      pose proof (vdist_nonneg dim y (el_center E)) as V. unfold vdist in *. replace (norm dim (fun d => y d - el_center E d)) with 0 by lra. ring. }
    split; [intros y; apply Z; exact Q1|]. split; [intros y; apply Z; exact Q2|]. lra.
  - exists (el_center E1), (el_center E2). split; [lra|]. split; [lra|]. apply vdist_sym.
Qed.

(** ** The algorithm *)
Lemma never_throws : forall dim E1 E2 tr tc tol eps, quadratic dim E1 -> quadratic dim E2 ->
  forall fuel c1 c2 D iter, state dim E1 E2 c1 c2 D 0 ->
  exists d it cv, distance_iterations dim E1 E2 tr tc tol eps fuel c1 c2 D iter = Some (d, it, cv) /\ (it <= iter + fuel)%nat /\ d <= D /\
    exists p q, form dim E1 p <= 0 /\ form dim E2 q <= 0 /\ d = vdist dim p q.
Proof.
  intros dim E1 E2 tr tc tol eps HE1 HE2. induction fuel as [|fuel IH]; intros c1 c2 D iter HS.
  - exists D, iter, false. split; [reflexivity|]. split; [lia|]. split; [lra|]. destruct HS as (_ & _ & _ & PQ). exact PQ.
  - assert (DP : 0 <= D) by (destruct HS as (_ & _ & _ & p & q & _ & _ & ->); apply vdist_nonneg).
    destruct (iteration dim E1 E2 tr tc tol eps c1 c2 D 0 HE1 HE2 HS) as [[E (p & P1 & P2)]|(x1 & x2 & Z1 & Z2 & Dd & _ & _ & K)].
    + exists 0, iter, true. split; [apply E|]. split; [lia|]. split; [exact DP|]. exists p, p. split; [exact P1|]. split; [exact P2|]. symmetry. apply vdist_refl.
    + destruct K as [[E _]|E].
      * exists (vdist dim x1 x2), (S iter), true. split; [apply E|]. split; [lia|]. split; [lra|]. exists x1, x2. split; [lra|]. split; [lra|reflexivity].
      * destruct (IH (inner dim E1 x1) (inner dim E2 x2) (vdist dim x1 x2) (S iter) (new_state dim E1 E2 x1 x2 HE1 HE2 Z1 Z2)) as (d & it & cv & R & I & Ld & PQ).
        exists d, it, cv. rewrite E. split; [exact R|]. split; [lia|]. split; [lra|exact PQ].
Qed.

(** The distance is that between two points of the ellipsoids; in particular it is zero only
    if they have a common point.  No exception is raised unless the centers coincide. *)
Theorem C56_distance : forall dim c1 r1 a1 c2 r2 a2 tr tc tol n, proper dim r1 a1 -> proper dim r2 a2 ->
  tr || tc = true -> tol < vdist dim c2 c1 ->
  exists d it cv, ellipsoid_distance dim (make_ellipsoid dim c1 r1 a1) (make_ellipsoid dim c2 r2 a2) tr tc tol n = Some (d, it, cv) /\
    (it <= n)%nat /\ d <= vdist dim c2 c1 /\
    exists p q, in_ellipsoid dim c1 r1 a1 p /\ in_ellipsoid dim c2 r2 a2 q /\ d = vdist dim p q.
Proof.
  intros dim c1 r1 a1 c2 r2 a2 tr tc tol n P1 P2 Ht Hd. unfold ellipsoid_distance. rewrite Ht. cbv zeta. cbn [el_center make_ellipsoid] in *.
  destruct (Rlt_dec tol (vdist dim c2 c1)) as [L|L]; [|contradiction].
  destruct (never_throws dim _ _ tr tc tol (sqrt (2 * tol / (vmax (dim - 1) r1 + vmax (dim - 1) r2))) (make_quadratic dim c1 r1 a1 P1) (make_quadratic dim c2 r2 a2 P2) n c1 c2
    (vdist dim c2 c1) 0%nat) as (d & it & cv & R & I & Ld & p & q & Hp & Hq & E).
  { exact (first_state dim _ _ (make_quadratic dim c1 r1 a1 P1) (make_quadratic dim c2 r2 a2 P2)). }
  exists d, it, cv. split; [exact R|]. split; [lia|]. split; [exact Ld|]. exists p, q. rewrite form_level in Hp, Hq. unfold in_ellipsoid.
  split; [lra|]. split; [lra|exact E].
Qed.
Print Assumptions C56_distance.

Theorem C56_coinciding_centers_throw : forall dim E1 E2 tr tc tol n, vdist dim (el_center E2) (el_center E1) <= tol ->
  ellipsoid_distance dim E1 E2 tr tc tol n = None.
Proof.
  intros. unfold ellipsoid_distance. destruct (tr || tc); [|reflexivity]. cbv zeta. destruct (Rlt_dec _ _); [lra|reflexivity].
Qed.
Print Assumptions C56_coinciding_centers_throw.

(** More iterations never give a larger distance. *)
Lemma monotone_iterations : forall dim E1 E2 tr tc tol eps, quadratic dim E1 -> quadratic dim E2 ->
  forall fuel c1 c2 D iter d it cv d' it' cv', state dim E1 E2 c1 c2 D 0 ->
  distance_iterations dim E1 E2 tr tc tol eps fuel c1 c2 D iter = Some (d, it, cv) ->
  distance_iterations dim E1 E2 tr tc tol eps (S fuel) c1 c2 D iter = Some (d', it', cv') -> d' <= d.
Proof.
  intros dim E1 E2 tr tc tol eps HE1 HE2. induction fuel as [|fuel IH]; intros c1 c2 D iter d it cv d' it' cv' HS R R'.
  - destruct (never_throws dim E1 E2 tr tc tol eps HE1 HE2 1 c1 c2 D iter HS) as (e & i & c & Q1 & _ & Le & _).
    rewrite Q1 in R'. cbn [distance_iterations] in R. injection R as <- _ _. injection R' as <- _ _. exact Le.
  - destruct (iteration dim E1 E2 tr tc tol eps c1 c2 D 0 HE1 HE2 HS) as [[E _]|(x1 & x2 & Z1 & Z2 & Dd & _ & _ & K)].
    + rewrite E in R, R'. injection R as <- _ _. injection R' as <- _ _. lra.
    + destruct K as [[E _]|E]; rewrite E in R, R'.
      * injection R as <- _ _. injection R' as <- _ _. lra.
      * exact (IH _ _ _ _ _ _ _ _ _ _ (new_state dim E1 E2 x1 x2 HE1 HE2 Z1 Z2) R R').
Qed.
Theorem C56_monotone : forall dim c1 r1 a1 c2 r2 a2 tr tc tol n d it cv d' it' cv', proper dim r1 a1 -> proper dim r2 a2 ->
  let E1 := make_ellipsoid dim c1 r1 a1 in let E2 := make_ellipsoid dim c2 r2 a2 in
  ellipsoid_distance dim E1 E2 tr tc tol n = Some (d, it, cv) ->
  ellipsoid_distance dim E1 E2 tr tc tol (S n) = Some (d', it', cv') -> d' <= d.
Proof.
  intros dim c1 r1 a1 c2 r2 a2 tr tc tol n d it cv d' it' cv' P1 P2 E1 E2. unfold ellipsoid_distance. destruct (tr || tc); [|discriminate].
  cbv zeta. destruct (Rlt_dec tol _); [|discriminate]. intros R R'.
  exact (monotone_iterations dim E1 E2 tr tc tol _ (make_quadratic dim c1 r1 a1 P1) (make_quadratic dim c2 r2 a2 P2) n _ _ _ _ _ _ _ _ _ _
    (first_state dim E1 E2 (make_quadratic dim c1 r1 a1 P1) (make_quadratic dim c2 r2 a2 P2)) R R').
Qed.
Print Assumptions C56_monotone.

(** ** Accuracy *)
Lemma diameter : forall dim E x p, quadratic dim E -> form dim E x <= 0 -> form dim E p <= 0 -> vdist dim p x <= 2 * el_max E.
Proof.
  intros dim E x p HE Hx Hp. pose proof (q_radius _ _ HE x Hx). pose proof (q_radius _ _ HE p Hp).
  pose proof (vdist_triangle dim p (el_center E) x) as T. rewrite (vdist_sym dim (el_center E) x) in T. lra.
Qed.

Lemma support_gap : forall dim E x p v e, quadratic dim E -> form dim E x = 0 -> form dim E p <= 0 -> 0 < norm dim v -> 0 <= e ->
  gap dim (gradient dim E x) v <= e * e / 2 ->
  dot dim v (fun d => p d - x d) <= norm dim v * (2 * el_max E * e).
Proof.
  intros dim E x p v e HE Hx Hp Hv He Hg. pose proof (gradient_pos dim E x HE Hx) as G. set (g := gradient dim E x) in *.
  set (w := fun d => 1 / norm dim v * v d + (- (1 / norm dim g)) * g d).
  assert (W : dot dim w w = 2 * gap dim g v).
  { unfold gap, w. rewrite dot_lin. rewrite !(dot_comm dim (fun d => _ + _)). rewrite !dot_lin, (dot_comm dim v g), <- !norm_sq. field. lra. }
  assert (Wn : norm dim w <= e) by (apply sq_le; [exact He|]; rewrite norm_sq; lra).
  pose proof (supporting dim E x p HE Hx Hp) as Sp. fold g in Sp.
  pose proof (diameter dim E x p HE (Req_le _ _ Hx) Hp) as Dm. unfold vdist in Dm.
  pose proof (dot_norm dim w (fun d => p d - x d)) as C.
  assert (C2 : norm dim w * norm dim (fun d => p d - x d) <= e * (2 * el_max E)).
  { apply Rmult_le_compat; try assumption; apply norm_nonneg. }
  assert (Ew : dot dim w (fun d => p d - x d) = 1 / norm dim v * dot dim v (fun d => p d - x d) + - (1 / norm dim g) * dot dim g (fun d => p d - x d)).
  { unfold w. rewrite dot_comm, dot_lin, (dot_comm dim _ v), (dot_comm dim _ g). reflexivity. }
  assert (0 <= 1 / norm dim g * - dot dim g (fun d => p d - x d)).
  { apply Rmult_le_pos; [|lra]. apply Rlt_le, Rdiv_lt_0_compat; lra. }
  assert (K : 1 / norm dim v * dot dim v (fun d => p d - x d) <= 2 * el_max E * e) by lra.
  apply Rmult_le_compat_l with (r := norm dim v) in K; [|lra].
  replace (norm dim v * (1 / norm dim v * dot dim v (fun d => p d - x d))) with (dot dim v (fun d => p d - x d)) in K by (field; lra). exact K.
Qed.

Lemma accuracy : forall dim E1 E2 x1 x2 p q e, quadratic dim E1 -> quadratic dim E2 -> form dim E1 x1 = 0 -> form dim E2 x2 = 0 ->
  form dim E1 p <= 0 -> form dim E2 q <= 0 -> 0 < vdist dim x1 x2 -> 0 <= e ->
  gap dim (gradient dim E1 x1) (fun d => x2 d - x1 d) <= e * e / 2 ->
  gap dim (gradient dim E2 x2) (fun d => x1 d - x2 d) <= e * e / 2 ->
  vdist dim x1 x2 <= vdist dim p q + 2 * (el_max E1 + el_max E2) * e.
Proof.
  intros dim E1 E2 x1 x2 p q e HE1 HE2 Z1 Z2 Hp Hq HD He G1 G2.
  assert (V1 : norm dim (fun d => x2 d - x1 d) = vdist dim x1 x2) by (rewrite vdist_sym; reflexivity).
  assert (V2 : norm dim (fun d => x1 d - x2 d) = vdist dim x1 x2) by reflexivity.
  pose proof (support_gap dim E1 x1 p (fun d => x2 d - x1 d) e HE1 Z1 Hp ltac:(lra) He G1) as K1.
  pose proof (support_gap dim E2 x2 q (fun d => x1 d - x2 d) e HE2 Z2 Hq ltac:(lra) He G2) as K2.
  rewrite V1 in K1. rewrite V2 in K2.
  pose proof (dot_norm dim (fun d => x2 d - x1 d) (fun d => q d - p d)) as C. rewrite V1 in C.
  assert (Vq : norm dim (fun d => q d - p d) = vdist dim p q) by (rewrite vdist_sym; reflexivity). rewrite Vq in C.
  assert (Sum : dot dim (fun d => x2 d - x1 d) (fun d => q d - p d) =
    vdist dim x1 x2 * vdist dim x1 x2 - dot dim (fun d => x1 d - x2 d) (fun d => q d - x2 d) - dot dim (fun d => x2 d - x1 d) (fun d => p d - x1 d)).
  { rewrite <- V1. rewrite norm_sq. rewrite !dot_minus, !dot_minus_l. ring. }
  apply Rmult_le_reg_l with (vdist dim x1 x2); [exact HD|]. lra.
Qed.

Lemma crit_gap : forall dim v g eps, 0 < norm dim g -> 0 <= dot dim g v -> crit dim v g eps = true ->
  0 < norm dim v /\ gap dim g v <= eps * eps / 2.
Proof.
  intros dim v g eps G Hd. unfold crit. destruct (Rlt_dec _ _) as [L|L]; [intros _|discriminate].
  rewrite <- !norm_sq in L. rewrite (dot_comm dim v g) in L.
  pose proof (norm_nonneg dim v) as V. pose proof (dot_norm dim g v) as C.
  assert (Vp : 0 < norm dim v).
  { destruct V as [V|V]; [exact V|]. rewrite <- V in *. assert (D0 : dot dim g v = 0) by lra. rewrite D0 in L. lra. }
  split; [exact Vp|]. unfold gap. set (w := dot dim g v / (norm dim g * norm dim v)).
  assert (W : dot dim g v = w * (norm dim g * norm dim v)) by (unfold w; field; lra).
  assert (P : 0 < norm dim g * norm dim v) by (apply Rmult_lt_0_compat; assumption).
  assert (W0 : 0 <= w). { unfold w. apply Rmult_le_pos; [exact Hd|]. apply Rlt_le, Rinv_0_lt_compat. exact P. }
  rewrite W in L. clearbody w. set (m := norm dim g * norm dim v) in *.
  assert (L2 : (1 - eps * eps / 2) * (1 - eps * eps / 2) < w * w).
  { apply Rmult_lt_reg_r with (m * m); [apply Rmult_lt_0_compat; exact P|].
    replace (w * w * (m * m)) with (w * m * (w * m)) by ring.
    replace ((1 - eps * eps / 2) * (1 - eps * eps / 2) * (m * m)) with
      ((1 - eps * eps / 2) * (1 - eps * eps / 2) * (norm dim v * norm dim v) * (norm dim g * norm dim g)) by (unfold m; ring). exact L. }
  assert (1 - eps * eps / 2 <= w) by (apply sq_le; [exact W0|lra]). lra.
Qed.

(** If the test of collinearity is chosen and says that the iteration has converged, then
    the distance is at most 2 (r1 + r2) eps larger than that of any two points. *)
Lemma collinear_accuracy : forall dim E1 E2 tr tol eps p q, quadratic dim E1 -> quadratic dim E2 -> 0 <= eps ->
  form dim E1 p <= 0 -> form dim E2 q <= 0 ->
  forall fuel c1 c2 D iter d it, state dim E1 E2 c1 c2 D 0 ->
  distance_iterations dim E1 E2 tr true tol eps fuel c1 c2 D iter = Some (d, it, true) ->
  d <= vdist dim p q + 2 * (el_max E1 + el_max E2) * eps.
Proof.
  intros dim E1 E2 tr tol eps p q HE1 HE2 He Hp Hq.
  assert (B : 0 <= vdist dim p q + 2 * (el_max E1 + el_max E2) * eps).
  { pose proof (vdist_nonneg dim p q). pose proof (q_max _ _ HE1). pose proof (q_max _ _ HE2).
    assert (0 <= 2 * (el_max E1 + el_max E2) * eps) by (apply Rmult_le_pos; lra). lra. }
  induction fuel as [|fuel IH]; intros c1 c2 D iter d it HS R; [discriminate|].
  destruct (iteration dim E1 E2 tr true tol eps c1 c2 D 0 HE1 HE2 HS) as [[E _]|(x1 & x2 & Z1 & Z2 & Dd & O1 & O2 & K)].
  - rewrite E in R. injection R as <- _. exact B.
  - destruct K as [[E C]|E]; rewrite E in R.
    + injection R as <- _. destruct (C eq_refl) as [C1 C2].
      destruct (crit_gap dim _ _ eps (gradient_pos dim E1 x1 HE1 Z1) O1 C1) as [V1 G1].
      destruct (crit_gap dim _ _ eps (gradient_pos dim E2 x2 HE2 Z2) O2 C2) as [V2 G2].
      apply (accuracy dim E1 E2 x1 x2 p q eps HE1 HE2 Z1 Z2 Hp Hq); [|exact He|exact G1|exact G2].
      exact V2.
    + exact (IH _ _ _ _ _ _ (new_state dim E1 E2 x1 x2 HE1 HE2 Z1 Z2) R).
Qed.
Theorem C56_collinear_accuracy : forall dim c1 r1 a1 c2 r2 a2 tr tol n d it, proper dim r1 a1 -> proper dim r2 a2 ->
  let R := vmax (dim - 1) r1 + vmax (dim - 1) r2 in
  ellipsoid_distance dim (make_ellipsoid dim c1 r1 a1) (make_ellipsoid dim c2 r2 a2) tr true tol n = Some (d, it, true) ->
  forall p q, in_ellipsoid dim c1 r1 a1 p -> in_ellipsoid dim c2 r2 a2 q ->
  d <= vdist dim p q + 2 * R * sqrt (2 * tol / R).
Proof.
  intros dim c1 r1 a1 c2 r2 a2 tr tol n d it P1 P2 R H p q Hp Hq. unfold ellipsoid_distance in H. rewrite orb_true_r in H.
  cbv zeta in H. destruct (Rlt_dec tol _); [|discriminate].
  refine (collinear_accuracy dim _ _ tr tol (sqrt (2 * tol / R)) p q (make_quadratic dim c1 r1 a1 P1) (make_quadratic dim c2 r2 a2 P2) (sqrt_pos _) _ _ n _ _ _ _ _ _ _ H).
  - rewrite form_level. unfold in_ellipsoid in Hp. lra.
  - rewrite form_level. unfold in_ellipsoid in Hq. lra.
  - exact (first_state dim _ _ (make_quadratic dim c1 r1 a1 P1) (make_quadratic dim c2 r2 a2 P2)).
Qed.
Print Assumptions C56_collinear_accuracy.

(** ** Convergence *)
Lemma run : forall dim E1 E2 tr tol eps eta p q, quadratic dim E1 -> quadratic dim E2 -> 0 <= eps -> 0 < eta ->
  form dim E1 p <= 0 -> form dim E2 q <= 0 ->
  let R := el_max E1 + el_max E2 in
  let rho := Rmin (1 / (2 * el_max E1) / el_norm E1) (1 / (2 * el_max E2) / el_norm E2) in
  let drop := rho * eta / (rho + eta) * (eta / (2 * R) * (eta / (2 * R)) / 2) in
  forall fuel c1 c2 D cut iter d it cv, 0 <= cut -> state dim E1 E2 c1 c2 D cut ->
  distance_iterations dim E1 E2 tr true tol eps (S fuel) c1 c2 D iter = Some (d, it, cv) ->
  d <= vdist dim p q + eta \/ d <= vdist dim p q + 2 * R * eps \/ d <= D - cut - INR fuel * drop.
Proof.
  intros dim E1 E2 tr tol eps eta p q HE1 HE2 He Heta Hp Hq R rho drop.
  pose proof (q_max _ _ HE1) as M1. pose proof (q_max _ _ HE2) as M2. pose proof (q_norm _ _ HE1) as N1. pose proof (q_norm _ _ HE2) as N2.
  assert (Rho : 0 < rho).
  { unfold rho. apply Rmin_glb_lt; apply Rdiv_lt_0_compat; try assumption; apply Rdiv_lt_0_compat; lra. }
  assert (RP : 0 < R) by (unfold R; lra).
  assert (RB : forall E x, quadratic dim E -> form dim E x = 0 -> 1 / (2 * el_max E) / el_norm E <= inner_radius dim E x).
  { intros E x HE Hx. unfold inner_radius, Rdiv. apply Rmult_le_compat_r; [apply Rlt_le, Rinv_0_lt_compat, (q_norm _ _ HE)|].
    exact (gradient_large dim E x HE Hx). }
  induction fuel as [|fuel IH]; intros c1 c2 D cut iter d it cv Hcut HS H.
  - assert (Ld : forall x1 x2, vdist dim x1 x2 <= D - cut -> vdist dim x1 x2 <= D - cut - INR 0 * drop) by (intros; cbn [INR]; lra).
    destruct (iteration dim E1 E2 tr true tol eps c1 c2 D cut HE1 HE2 HS) as [[E _]|(x1 & x2 & Z1 & Z2 & Dd & O1 & O2 & K)].
    + rewrite E in H. injection H as <- _ _. left. pose proof (vdist_nonneg dim p q). lra.
    + right. right. destruct K as [[E _]|E]; rewrite E in H; cbn [distance_iterations] in H; injection H as <- _ _; apply Ld; exact Dd.
  - destruct (iteration dim E1 E2 tr true tol eps c1 c2 D cut HE1 HE2 HS) as [[E _]|(x1 & x2 & Z1 & Z2 & Dd & O1 & O2 & K)].
    + rewrite E in H. injection H as <- _ _. left. pose proof (vdist_nonneg dim p q). lra.
    + destruct K as [[E C]|E]; rewrite E in H.
      * right. left. injection H as <- _ _. destruct (C eq_refl) as [C1 C2].
        destruct (crit_gap dim _ _ eps (gradient_pos dim E1 x1 HE1 Z1) O1 C1) as [V1 G1].
        destruct (crit_gap dim _ _ eps (gradient_pos dim E2 x2 HE2 Z2) O2 C2) as [V2 G2].
        exact (accuracy dim E1 E2 x1 x2 p q eps HE1 HE2 Z1 Z2 Hp Hq V2 He G1 G2).
      * destruct (Rle_dec (vdist dim x1 x2) (vdist dim p q + eta)) as [Near|Far].
        { left. destruct (never_throws dim E1 E2 tr true tol eps HE1 HE2 (S fuel) _ _ _ (S iter) (new_state dim E1 E2 x1 x2 HE1 HE2 Z1 Z2)) as (d' & i' & c' & Q1 & _ & Le & _).
          rewrite Q1 in H. injection H as <- _ _. lra. }
        assert (De : eta <= vdist dim x1 x2) by (pose proof (vdist_nonneg dim p q); lra).
        set (e := eta / (2 * R)) in *.
        assert (E0 : 0 < e) by (apply Rdiv_lt_0_compat; lra).
        assert (HG : e * e / 2 <= gap dim (gradient dim E1 x1) (fun d => x2 d - x1 d) \/ e * e / 2 <= gap dim (gradient dim E2 x2) (fun d => x1 d - x2 d)).
        { destruct (Rle_dec (e * e / 2) (gap dim (gradient dim E1 x1) (fun d => x2 d - x1 d))) as [L1|L1]; [left; exact L1|].
          destruct (Rle_dec (e * e / 2) (gap dim (gradient dim E2 x2) (fun d => x1 d - x2 d))) as [L2|L2]; [right; exact L2|]. exfalso. apply Far.
          pose proof (accuracy dim E1 E2 x1 x2 p q e HE1 HE2 Z1 Z2 Hp Hq ltac:(lra) ltac:(lra) ltac:(lra) ltac:(lra)) as Ac. fold R in Ac.
          replace (2 * R * e) with eta in Ac by (unfold e; field; lra). exact Ac. }
        assert (Ee : 0 <= e * e / 2). { assert (0 < e * e) by (apply Rmult_lt_0_compat; exact E0). lra. }
        assert (B1 : rho <= inner_radius dim E1 x1) by (apply Rle_trans with (2 := RB E1 x1 HE1 Z1); apply Rmin_l).
        assert (B2 : rho <= inner_radius dim E2 x2) by (apply Rle_trans with (2 := RB E2 x2 HE2 Z2); apply Rmin_r).
        pose proof (new_state_cut dim E1 E2 x1 x2 rho eta (e * e / 2) HE1 HE2 Z1 Z2 Rho Heta Ee De B1 B2 HG) as NS. fold drop in NS.
        assert (DP : 0 <= drop).
        { unfold drop. apply Rmult_le_pos; [|exact Ee]. apply Rmult_le_pos; [apply Rmult_le_pos; lra|]. apply Rlt_le, Rinv_0_lt_compat. lra. }
        destruct (IH _ _ _ _ _ _ _ _ DP NS H) as [A|[A|A]]; [left; exact A|right; left; exact A|right; right].
        rewrite S_INR. lra.
Qed.

(** With the test of collinearity, the distance comes within [eta], or within the tolerance of
    that test, of the smallest distance of points of the ellipsoids, if the iterations are
    enough. *)
Theorem C56_converges : forall dim c1 r1 a1 c2 r2 a2 tr tol eta, proper dim r1 a1 -> proper dim r2 a2 -> 0 < eta ->
  let R := vmax (dim - 1) r1 + vmax (dim - 1) r2 in
  exists n0, forall n d it cv, (n0 <= n)%nat ->
  ellipsoid_distance dim (make_ellipsoid dim c1 r1 a1) (make_ellipsoid dim c2 r2 a2) tr true tol n = Some (d, it, cv) ->
  forall p q, in_ellipsoid dim c1 r1 a1 p -> in_ellipsoid dim c2 r2 a2 q ->
  d <= vdist dim p q + Rmax eta (2 * R * sqrt (2 * tol / R)).
Proof.
  intros dim c1 r1 a1 c2 r2 a2 tr tol eta P1 P2 Heta R.
  set (E1 := make_ellipsoid dim c1 r1 a1). set (E2 := make_ellipsoid dim c2 r2 a2).
  pose proof (make_quadratic dim c1 r1 a1 P1) as HE1. fold E1 in HE1. pose proof (make_quadratic dim c2 r2 a2 P2) as HE2. fold E2 in HE2.
  set (rho := Rmin (1 / (2 * el_max E1) / el_norm E1) (1 / (2 * el_max E2) / el_norm E2)).
  set (drop := rho * eta / (rho + eta) * (eta / (2 * R) * (eta / (2 * R)) / 2)).
  pose proof (q_max _ _ HE1) as M1. pose proof (q_max _ _ HE2) as M2. pose proof (q_norm _ _ HE1) as N1. pose proof (q_norm _ _ HE2) as N2.
  assert (Rho : 0 < rho).
  { unfold rho. apply Rmin_glb_lt; apply Rdiv_lt_0_compat; try assumption; apply Rdiv_lt_0_compat; lra. }
  assert (RP : 0 < R) by (change (0 < el_max E1 + el_max E2); lra).
  assert (DP : 0 < drop).
  { unfold drop. assert (0 < eta / (2 * R)) by (apply Rdiv_lt_0_compat; lra). apply Rmult_lt_0_compat.
    - apply Rdiv_lt_0_compat; [apply Rmult_lt_0_compat; lra|lra].
    - assert (0 < eta / (2 * R) * (eta / (2 * R))) by (apply Rmult_lt_0_compat; assumption). lra. }
  set (D0 := vdist dim c2 c1). pose proof (vdist_nonneg dim c2 c1) as DD. fold D0 in DD.
  assert (UB : exists m, D0 / drop < INR m).
  { exists (Z.to_nat (up (D0 / drop))). destruct (archimed (D0 / drop)) as [U _].
    assert (0 <= D0 / drop) by (apply Rmult_le_pos; [exact DD|apply Rlt_le, Rinv_0_lt_compat; exact DP]).
    rewrite INR_IZR_INZ, Z2Nat.id; [lra|]. apply le_IZR. lra. }
  destruct UB as [m Hm].
  exists (S m). intros n d it cv Hn H p q Hp Hq. destruct n as [|n]; [lia|].
  unfold ellipsoid_distance in H. rewrite orb_true_r in H. cbv zeta in H. destruct (Rlt_dec tol _); [|discriminate].
  assert (Fp : form dim E1 p <= 0) by (unfold E1; rewrite form_level; unfold in_ellipsoid in Hp; lra).
  assert (Fq : form dim E2 q <= 0) by (unfold E2; rewrite form_level; unfold in_ellipsoid in Hq; lra).
  destruct (run dim E1 E2 tr tol (sqrt (2 * tol / R)) eta p q HE1 HE2 (sqrt_pos _) Heta Fp Fq n c1 c2 D0 0 0%nat d it cv (Rle_refl 0) (first_state dim E1 E2 HE1 HE2) H) as [A|[A|A]].
  - pose proof (Rmax_l eta (2 * R * sqrt (2 * tol / R))). lra.
  - pose proof (Rmax_r eta (2 * R * sqrt (2 * tol / R))). change (el_max E1 + el_max E2) with R in A. lra.
  - change (el_max E1 + el_max E2) with R in A. fold rho in A. fold drop in A.
    assert (INR m <= INR n) by (apply le_INR; lia).
    assert (D0 < INR n * drop).
    { apply Rlt_le_trans with (INR m * drop); [|apply Rmult_le_compat_r; lra].
      apply Rmult_lt_reg_r with (/ drop); [apply Rinv_0_lt_compat; exact DP|]. rewrite Rmult_assoc, Rinv_r, Rmult_1_r by lra. exact Hm. }
    pose proof (vdist_nonneg dim p q). pose proof (Rmax_l eta (2 * R * sqrt (2 * tol / R))). lra.
Qed.
Print Assumptions C56_converges.

(** ** The default criterion *)
(** Two needles that cross: the default test, on the relative change only, reports
    convergence in the first iteration with a distance near one. *)
Definition needle1 : nat -> vec := fun d i => match d, i with 0%nat, 0%nat => 3 / 5 | 0%nat, 1%nat => 4 / 5 | 1%nat, 0%nat => - (4 / 5) | 1%nat, 1%nat => 3 / 5 | _, _ => 0 end.
Definition needle2 : nat -> vec := fun d i => match d, i with 0%nat, 0%nat => - (3 / 5) | 0%nat, 1%nat => 4 / 5 | 1%nat, 0%nat => 4 / 5 | 1%nat, 1%nat => 3 / 5 | _, _ => 0 end.
Definition needle_radii : nat -> R := fun d => match d with 0%nat => 10 | _ => 1 / 10 ^ 7 end.
Definition origin : vec := fun _ => 0.
Definition unit_x : vec := fun i => match i with 0%nat => 1 | _ => 0 end.
Definition crossing : vec := fun i => match i with 0%nat => 1 / 2 | 1%nat => 2 / 3 | _ => 0 end.

Lemma needles_proper : proper 2 needle_radii needle1 /\ proper 2 needle_radii needle2.
Proof.
  split; (split; [left; reflexivity|]); split.
  1, 3: intros d e Hd He; destruct d as [|[|d]]; destruct e as [|[|e]]; try lia; unfold delta; cbn; lra.
  1, 2: intros d Hd; unfold needle_radii; destruct d; lra.
Qed.

Theorem C56_converged_refuted :
  in_ellipsoid 2 origin needle_radii needle1 crossing /\ in_ellipsoid 2 unit_x needle_radii needle2 crossing /\
  exists d, ellipsoid_distance 2 (make_ellipsoid 2 origin needle_radii needle1) (make_ellipsoid 2 unit_x needle_radii needle2)
    true false (1 / 10 ^ 6) 100 = Some (d, 1%nat, true) /\ 9 / 10 < d.
Proof.
  destruct needles_proper as [P1 P2].
  split; [unfold in_ellipsoid, level; cbn; unfold needle_radii, origin; lra|].
  split; [unfold in_ellipsoid, level; cbn; unfold needle_radii; lra|].
  pose proof (make_quadratic 2 origin needle_radii needle1 P1) as Q1. pose proof (make_quadratic 2 unit_x needle_radii needle2 P2) as Q2.
  assert (L1 : forall t, form 2 (make_ellipsoid 2 origin needle_radii needle1) (along origin unit_x t) =
    1 / 2 * (t * t * (9 / 2500 + 16 / 25 * 10 ^ 14) - 1)).
  { intros t. rewrite form_level. unfold level, along, origin, unit_x, needle1, needle_radii. cbn [dsum dot]. field. }
  assert (L2 : forall t, form 2 (make_ellipsoid 2 unit_x needle_radii needle2) (along origin unit_x t) =
    1 / 2 * ((1 - t) * (1 - t) * (9 / 2500 + 16 / 25 * 10 ^ 14) - 1)).
  { intros t. rewrite form_level. unfold level, along, origin, unit_x, needle2, needle_radii. cbn [dsum dot]. field. }
  assert (V : vdist 2 unit_x origin = 1).
  { unfold vdist. apply norm_unique; [lra|]. unfold unit_x, origin. cbn [dot]. ring. }
  assert (Small : forall x, 0 <= x -> x * x * (9 / 2500 + 16 / 25 * 10 ^ 14) - 1 = 0 -> x <= 5 / 4 / 10 ^ 7).
  { intros x Hx E. apply sq_le; [lra|]. assert (0 <= x * x) by apply Rle_0_sqr. lra. }
  unfold ellipsoid_distance. cbn [orb]. cbv zeta. cbn [el_center make_ellipsoid].
  change (mkEllipsoid _ _ _ _ needle_radii _ _ needle1 origin) with (make_ellipsoid 2 origin needle_radii needle1).
  change (mkEllipsoid _ _ _ _ needle_radii _ _ needle2 unit_x) with (make_ellipsoid 2 unit_x needle_radii needle2).
  rewrite V. destruct (Rlt_dec (1 / 10 ^ 6) 1) as [_|L]; [|exfalso; apply L; lra].
  generalize (sqrt (2 * (1 / 10 ^ 6) / (el_max (make_ellipsoid 2 origin needle_radii needle1) + el_max (make_ellipsoid 2 unit_x needle_radii needle2)))) as eps. intros eps.
  change 100%nat with (S 99). generalize 99%nat. intros fuel. cbn [distance_iterations].
  destruct (find_first 2 _ origin unit_x Q1) as [[_ G]|(t1 & F1 & T1 & Z1 & _)].
  { rewrite <- (along_start 2 _ origin unit_x), L1. lra. }
  { exfalso. rewrite <- (along_end 2 _ origin unit_x), L1 in G. lra. }
  destruct (find_second 2 _ origin unit_x Q2) as [[_ G]|(t2 & F2 & T2 & Z2 & _)].
  { rewrite <- (along_end 2 _ origin unit_x), L2. lra. }
  { exfalso. rewrite <- (along_start 2 _ origin unit_x), L2 in G. lra. }
  rewrite F1, F2. rewrite L1 in Z1. rewrite L2 in Z2.
  pose proof (Small t1 ltac:(lra) ltac:(lra)) as B1. pose proof (Small (1 - t2) ltac:(lra) ltac:(lra)) as B2. clear Z1 Z2 F1 F2 L1 L2.
  destruct (Rlt_dec t2 t1) as [L|_]; [exfalso; lra|].
  rewrite vdist_along, V. rewrite (Rabs_left1 (t1 - t2)) by lra. destruct (Req_EM_T 1 0) as [L|_]; [exfalso; lra|].
  rewrite (Rabs_left1 (- (t1 - t2) * 1 - 1)) by lra.
  destruct (Rlt_dec _ _) as [_|L]; [|exfalso; apply L; lra]. cbn [andb].
  eexists. split; [reflexivity|]. lra.
Qed.
Print Assumptions C56_converged_refuted.

(** ** Radii from moments of inertia *)
Lemma cs_ext : forall f g cells, (forall p m, In (p, m) cells -> f p m = g p m) -> cell_sum f cells = cell_sum g cells.
Proof.
  intros f g cells. induction cells as [|[p m] cells IH]; intros H; [reflexivity|]. cbn [cell_sum fold_right fst snd].
  rewrite (H p m) by (left; reflexivity). f_equal. apply IH. intros. apply H. right. assumption.
Qed.
Lemma cs_lin : forall s f g cells, cell_sum (fun p m => f p m + s * g p m) cells = cell_sum f cells + s * cell_sum g cells.
Proof.
  intros s f g cells. induction cells as [|[p m] cells IH]; cbn [cell_sum fold_right fst snd]; [ring|].
  unfold cell_sum in IH. rewrite IH. ring.
Qed.
Lemma cs_nonneg : forall f cells, (forall p m, In (p, m) cells -> 0 <= f p m) -> 0 <= cell_sum f cells.
Proof.
  intros f cells. induction cells as [|[p m] cells IH]; intros H; cbn [cell_sum fold_right fst snd]; [lra|].
  pose proof (H p m (or_introl eq_refl)). assert (0 <= cell_sum f cells) by (apply IH; intros; apply H; right; assumption).
  unfold cell_sum in *. lra.
Qed.

Theorem C56_radii : forall dim c cells a M, dim = 2%nat \/ dim = 3%nat -> orthonormal dim a -> 0 < M -> (forall p m, In (p, m) cells -> 0 <= m) ->
  let I d := dot dim (mv dim (symmetric_tensor dim (particle_inertia dim c cells)) (a d)) (a d) in
  forall d, (d < dim)%nat -> exists rho, radii_from_inertia dim I M d = Some rho /\ 0 <= rho /\
    rho * rho = (INR dim + 2) / M * cell_sum (fun p m => m * (dot dim (fun i => p i - c i) (a d) * dot dim (fun i => p i - c i) (a d))) cells.
Proof.
  intros dim c cells a M Hdim Ha HM Hm I d Hd.
  set (T := fun e => cell_sum (fun p m => m * (dot dim (fun i => p i - c i) (a e) * dot dim (fun i => p i - c i) (a e))) cells).
  set (U := cell_sum (fun p m => m * dot dim (fun i => p i - c i) (fun i => p i - c i)) cells).
  assert (HI : forall e, (e < dim)%nat -> I e = U - T e).
  { intros e He. unfold I. rewrite (proj1 (C53_inertia dim c cells (a e) Hdim)). rewrite (Ha e e He He). unfold delta. rewrite Nat.eqb_refl.
    replace (U - T e) with (U + (-1) * T e) by ring. unfold U, T. rewrite <- cs_lin. apply cs_ext. intros. ring. }
  assert (HU : U = dsum dim T).
  { unfold U. rewrite (cs_ext _ (fun p m => m * dsum dim (fun e => dot dim (fun i => p i - c i) (a e) * dot dim (fun i => p i - c i) (a e)))).
    - destruct Hdim as [-> | -> ]; cbn [dsum]; unfold T.
      + replace (cell_sum _ cells) with (cell_sum (fun p m => (0 + 1 * (m * (dot 2 (fun i => p i - c i) (a 0%nat) * dot 2 (fun i => p i - c i) (a 0%nat)))) +
          1 * (m * (dot 2 (fun i => p i - c i) (a 1%nat) * dot 2 (fun i => p i - c i) (a 1%nat)))) cells) by (apply cs_ext; intros; ring).
        rewrite !cs_lin. replace (cell_sum (fun _ _ => 0) cells) with 0; [ring|].
        clear. induction cells as [|x l IH]; [reflexivity|]. cbn [cell_sum fold_right]. unfold cell_sum in IH. rewrite <- IH. ring.
      + replace (cell_sum _ cells) with (cell_sum (fun p m => ((0 + 1 * (m * (dot 3 (fun i => p i - c i) (a 0%nat) * dot 3 (fun i => p i - c i) (a 0%nat)))) +
          1 * (m * (dot 3 (fun i => p i - c i) (a 1%nat) * dot 3 (fun i => p i - c i) (a 1%nat)))) +
          1 * (m * (dot 3 (fun i => p i - c i) (a 2%nat) * dot 3 (fun i => p i - c i) (a 2%nat)))) cells) by (apply cs_ext; intros; ring).
        rewrite !cs_lin. replace (cell_sum (fun _ _ => 0) cells) with 0; [ring|].
        clear. induction cells as [|x l IH]; [reflexivity|]. cbn [cell_sum fold_right]. unfold cell_sum in IH. rewrite <- IH. ring.
    - intros p m _. rewrite (parseval dim a _ _ Hdim Ha). reflexivity. }
  assert (HT : forall e, 0 <= T e).
  { intros e. unfold T. apply cs_nonneg. intros p m Hp. apply Rmult_le_pos; [exact (Hm p m Hp)|apply Rle_0_sqr]. }
  change (cell_sum (fun p m => m * (dot dim (fun i => p i - c i) (a d) * dot dim (fun i => p i - c i) (a d))) cells) with (T d).
  assert (Fin : forall x, x = (INR dim + 2) / M * T d -> exists rho, real_sqrt x = Some rho /\ 0 <= rho /\ rho * rho = (INR dim + 2) / M * T d).
  { intros x ->. assert (0 <= (INR dim + 2) / M * T d).
    { apply Rmult_le_pos; [|apply HT]. apply Rmult_le_pos; [pose proof (pos_INR dim); lra|apply Rlt_le, Rinv_0_lt_compat; exact HM]. }
    unfold real_sqrt. destruct (Rle_dec 0 _) as [L|L]; [|contradiction]. exists (sqrt ((INR dim + 2) / M * T d)).
    split; [reflexivity|]. split; [apply sqrt_pos|apply sqrt_sqrt; exact H]. }
  unfold radii_from_inertia. cbv zeta.
  destruct Hdim as [-> | -> ]; cbn [Nat.eqb]; cbn [dsum] in HU.
  - pose proof (HI 0%nat ltac:(lia)) as I0. pose proof (HI 1%nat ltac:(lia)) as I1.
    destruct d as [|[|d]]; try lia; apply Fin; [rewrite I1|rewrite I0]; rewrite HU; cbn [INR]; field; lra.
  - pose proof (HI 0%nat ltac:(lia)) as I0. pose proof (HI 1%nat ltac:(lia)) as I1. pose proof (HI 2%nat ltac:(lia)) as I2.
    destruct d as [|[|[|d]]]; try lia; apply Fin; rewrite I0, I1, I2, HU; cbn [INR]; field; lra.
Qed.
Print Assumptions C56_radii.

(** Only the centers of the cells enter: a row of cells, or a single cell, has a radius of
    zero, for which the quadratic form has no finite coefficients. *)
Theorem C56_row_refuted : forall xs a M, 0 < M -> orthonormal 2 a -> a 0%nat 1%nat = 0 ->
  let cells := map (fun x => ((fun i => match i with 0%nat => x | _ => 0 end), 1)) xs in
  let I d := dot 2 (mv 2 (symmetric_tensor 2 (particle_inertia 2 origin cells)) (a d)) (a d) in
  radii_from_inertia 2 I M 1%nat = Some 0.
Proof.
  intros xs a M HM Ha A01 cells I.
  destruct (C56_radii 2 origin cells a M (or_introl eq_refl) Ha HM) with (d := 1%nat) as (rho & E & P & Sq).
  - intros p m Hp. unfold cells in Hp. apply in_map_iff in Hp. destruct Hp as (x & K & _). injection K as _ <-. lra.
  - lia.
  - fold I in E. rewrite E. f_equal. apply Rsqr_0_uniq. unfold Rsqr. rewrite Sq. rewrite (cs_ext _ (fun _ _ => 0)).
    + replace (cell_sum (fun _ _ => 0) cells) with 0; [ring|]. clear. induction cells as [|x l IH]; [reflexivity|].
      cbn [cell_sum fold_right]. unfold cell_sum in IH. rewrite <- IH. ring.
    + intros p m Hp. unfold cells in Hp. apply in_map_iff in Hp. destruct Hp as (x & K & _). injection K as <- <-.
      pose proof (Ha 0%nat 1%nat ltac:(lia) ltac:(lia)) as O. pose proof (Ha 0%nat 0%nat ltac:(lia) ltac:(lia)) as O0. unfold delta in O, O0. cbn in O, O0. unfold origin. cbn.
      rewrite A01 in *. assert (a 1%nat 0%nat = 0).
      { assert (K0 : a 0%nat 0%nat * a 1%nat 0%nat = 0) by lra. apply Rmult_integral in K0. destruct K0 as [K0|K0]; [rewrite K0 in O0; lra|exact K0]. }
      rewrite H. ring.
Qed.
Print Assumptions C56_row_refuted.

(** The constructor from the quadratic form divides by twice the constant, which has the
    other sign for an ellipsoid about the origin: no radius is a number. *)
Theorem C56_from_form_refuted : forall dim r a d, proper dim r a -> (d < dim)%nat ->
  let E := make_ellipsoid dim origin r a in
  let lambda := - (1 / (r d * r d)) in
  (forall i, 1 / (2 * el_alpha E) * mv dim (el_A E) (a d) i = lambda * a d i) /\ form_radius lambda = None.
Proof.
  intros dim r a d (Hdim & Ha & Hr) Hd E lambda. pose proof (Hr d Hd) as P. split.
  - intros i. unfold E. rewrite A_mv. rewrite (dsum_ext dim _ (fun e => (a e i * (1 / (r e * r e))) * delta e d)).
    + rewrite (dsum_delta dim (fun e => a e i * (1 / (r e * r e)))) by exact Hd.
      cbn [el_alpha make_ellipsoid]. rewrite (dot_comm dim _ origin). unfold origin at 1. rewrite dot_zero_l. unfold lambda. field. lra.
    + intros e He. rewrite (Ha d e Hd He). unfold delta. rewrite Nat.eqb_sym. destruct (Nat.eqb e d); unfold Rdiv; ring.
  - unfold form_radius. destruct (Rlt_dec 0 lambda) as [L|L]; [|reflexivity]. exfalso. unfold lambda in L.
    assert (0 < 1 / (r d * r d)) by (apply Rdiv_lt_0_compat; [lra|apply Rmult_lt_0_compat; exact P]). lra.
Qed.
Print Assumptions C56_from_form_refuted.

(** The axes are not serialized: a scaled copy of a restored ellipsoid contains every point. *)
Theorem C56_restored_refuted : forall dim saved target s p, (forall d i, el_axes target d i = 0) ->
  form dim (scaled_ellipsoid dim (restored saved target) s) p = - (1 / 2).
Proof.
  intros dim saved target s p H. unfold scaled_ellipsoid. rewrite form_level.
  assert (L : forall c r, level dim c r (el_axes (restored saved target)) p = 0).
  { intros c r. unfold level. rewrite <- (dsum_zero dim). apply dsum_ext. intros d _.
    rewrite (dot_ext dim _ (el_axes (restored saved target) d) (fun i => p i - c i) (fun _ => 0)); [|reflexivity|exact (H d)].
    rewrite dot_comm, dot_zero_l. unfold Rdiv. ring. }
  rewrite L. lra.
Qed.
Print Assumptions C56_restored_refuted.

(** ** Enlarged ellipsoids *)
Lemma level_along : forall dim c r a p t, level dim c r a (along c p t) = t * t * level dim c r a p.
Proof.
  intros. unfold level. rewrite <- dsum_scale. apply dsum_ext. intros d _.
  rewrite (dot_ext dim (fun i => along c p t i - c i) (a d) (fun i => t * (p i - c i)) (a d)) by (intros; unfold along; ring).
  rewrite dot_comm, dot_scale, (dot_comm dim (a d)). unfold Rdiv. ring.
Qed.
Lemma level_scaled : forall dim c r a p s, level dim c (fun d => r d * s) a p = / s * / s * level dim c r a p.
Proof.
  intros. unfold level. rewrite <- dsum_scale. apply dsum_ext. intros d _. unfold Rdiv. rewrite Rinv_mult. ring.
Qed.
Lemma level_nonneg : forall dim c r a p, 0 <= level dim c r a p.
Proof. intros. unfold level. apply dsum_nonneg. intros. apply Rle_0_sqr. Qed.

(** What the search from the center finds. *)
Lemma find_center : forall dim c r a p, proper dim r a ->
  (find_intersection dim (make_ellipsoid dim c r a) c p = Some (0, true) /\ level dim c r a p < 1) \/
  exists t, find_intersection dim (make_ellipsoid dim c r a) c p = Some (t, false) /\ 0 < t <= 1 /\ t * t * level dim c r a p = 1.
Proof.
  intros dim c r a p HP. pose proof (make_quadratic dim c r a HP) as HE. pose proof (q_center _ _ HE) as QC. cbn [el_center make_ellipsoid] in QC.
  change (form dim (make_ellipsoid dim c r a) c = - (1 / 2)) in QC.
  destruct (find_first dim _ c p HE ltac:(rewrite QC; lra)) as [[F G]|(t & F & T & Z & _)].
  - left. split; [exact F|]. rewrite form_level in G. lra.
  - right. exists t. split; [exact F|]. split; [exact T|]. rewrite form_level, level_along in Z. lra.
Qed.

(** The remote point is covered, and nothing is lost. *)
Theorem C56_covering : forall dim c r a remote, proper dim r a -> exists s, 1 <= s /\
  covering_ellipsoid dim (make_ellipsoid dim c r a) remote = Some (if Req_EM_T s 1 then make_ellipsoid dim c r a else make_ellipsoid dim c (fun d => r d * s) a) /\
  in_ellipsoid dim c (fun d => r d * s) a remote /\
  (forall p, in_ellipsoid dim c r a p -> in_ellipsoid dim c (fun d => r d * s) a p) /\
  (in_ellipsoid dim c r a remote -> s = 1).
Proof.
  intros dim c r a remote HP. unfold covering_ellipsoid. cbn [el_center make_ellipsoid].
  change (mkEllipsoid _ _ _ _ r _ _ a c) with (make_ellipsoid dim c r a).
  assert (One : forall p, level dim c (fun d => r d * 1) a p = level dim c r a p) by (intros p; rewrite level_scaled, Rinv_1; ring).
  unfold in_ellipsoid. destruct (find_center dim c r a remote HP) as [[F G]|(t & F & T & Z)]; rewrite F.
  - exists 1. split; [lra|]. destruct (Req_EM_T 1 1) as [_|K]; [|lra]. destruct (Rlt_dec 0 0) as [K|_]; [lra|]. cbn [andb].
    split; [reflexivity|]. split; [rewrite One; lra|]. split; [intros p; rewrite One; lra|reflexivity].
  - destruct (Rlt_dec 0 t) as [_|K]; [|lra]. cbn [andb]. destruct (Rlt_dec t 1) as [K|K].
    + exists (1 / t). assert (I1 : / (1 / t) = t) by (field; lra).
      assert (G1 : 1 < 1 / t) by (apply Rmult_lt_reg_r with t; [lra|]; replace (1 / t * t) with 1 by (field; lra); lra).
      split; [lra|]. destruct (Req_EM_T (1 / t) 1) as [X|_]; [lra|]. split; [reflexivity|]. split; [rewrite level_scaled, I1; lra|]. split.
      * intros p Hp. rewrite level_scaled, I1. pose proof (level_nonneg dim c r a p) as L0.
        assert (t * t <= 1 * 1) by (apply Rmult_le_compat; lra).
        assert (t * t * level dim c r a p <= 1 * 1 * level dim c r a p) by (apply Rmult_le_compat_r; lra). lra.
      * intros Hr. exfalso. assert (t * t < 1 * 1) by (apply Rmult_le_0_lt_compat; lra).
        pose proof (level_nonneg dim c r a remote) as L0. assert (0 <= t * t) by apply Rle_0_sqr.
        assert (t * t * level dim c r a remote <= t * t * 1) by (apply Rmult_le_compat_l; lra). lra.
    + assert (t = 1) by lra. subst t. exists 1. split; [lra|]. destruct (Req_EM_T 1 1) as [_|X]; [|lra].
      split; [reflexivity|]. split; [rewrite One; lra|]. split; [intros p; rewrite One; lra|reflexivity].
Qed.
Print Assumptions C56_covering.

(** The scale over all cells: every outer point is covered, and the scale is not larger than
    one of them needs. *)
Lemma scale_spec : forall dim c r a, proper dim r a -> forall points s0, 1 <= s0 ->
  exists s, particle_scale dim (make_ellipsoid dim c r a) points s0 = Some s /\ s0 <= s /\
  (forall p, In p points -> level dim c r a p <= 1 + 2 * (1 / 10 ^ 9) \/ level dim c r a p <= s * s) /\
  (s = s0 \/ exists p, In p points /\ level dim c r a p = s * s).
Proof.
  intros dim c r a HP. induction points as [|p points IH]; intros s0 H0.
  - exists s0. split; [reflexivity|]. split; [lra|]. split; [intros p []|left; reflexivity].
  - cbn [particle_scale]. assert (K : exists s1, cell_scale dim (make_ellipsoid dim c r a) p s0 = Some s1 /\ s0 <= s1 /\
      (level dim c r a p <= 1 + 2 * (1 / 10 ^ 9) \/ level dim c r a p <= s1 * s1) /\ (s1 = s0 \/ level dim c r a p = s1 * s1)).
    { unfold cell_scale. destruct (el_inside dim (make_ellipsoid dim c r a) p (1 / 10 ^ 9)) eqn:In1.
      - exists s0. apply C56_inside in In1. split; [reflexivity|]. split; [lra|]. split; [left; exact In1|left; reflexivity].
      - cbn [el_center make_ellipsoid]. change (mkEllipsoid _ _ _ _ r _ _ a c) with (make_ellipsoid dim c r a).
        destruct (find_center dim c r a p HP) as [[F G]|(t & F & T & Z)]; rewrite F.
        + destruct (Rlt_dec 0 0) as [X|_]; [lra|]. cbn [andb]. exists s0. split; [reflexivity|]. split; [lra|]. split; [left; lra|left; reflexivity].
        + destruct (Rlt_dec 0 t) as [_|X]; [|lra]. cbn [andb]. assert (Lv : level dim c r a p = 1 / t * (1 / t)).
          { apply Rmult_eq_reg_l with (t * t); [|apply Rmult_integral_contrapositive; lra]. rewrite Z. field. lra. }
          destruct (Rlt_dec t 1) as [X|X].
          * exists (Rmax (1 / t) s0). split; [reflexivity|]. split; [apply Rmax_r|]. rewrite Lv.
            assert (0 < 1 / t) by (apply Rdiv_lt_0_compat; lra). split.
            -- right. apply Rmult_le_compat; try lra; apply Rmax_l.
            -- unfold Rmax. destruct (Rle_dec (1 / t) s0); [left; reflexivity|right; reflexivity].
          * exists s0. split; [reflexivity|]. split; [lra|]. split; [left|left; reflexivity]. assert (t = 1) by lra. subst t. rewrite Lv. lra. }
    destruct K as (s1 & C1 & L1 & B1 & W1). rewrite C1. destruct (IH s1 ltac:(lra)) as (s & C2 & L2 & B2 & W2).
    exists s. split; [exact C2|]. split; [lra|]. split.
    + intros q [<-|Hq]; [|exact (B2 q Hq)]. destruct B1 as [B1|B1]; [left; exact B1|right]. apply Rle_trans with (1 := B1). apply Rmult_le_compat; lra.
    + destruct W2 as [->|(q & Hq & E)]; [|right; exists q; split; [right; exact Hq|exact E]].
      destruct W1 as [->|E]; [left; reflexivity|right; exists p; split; [left; reflexivity|exact E]].
Qed.
Theorem C56_scale : forall dim c r a points, proper dim r a ->
  let E := make_ellipsoid dim c r a in
  exists s, particle_scale dim E points 1 = Some s /\ 1 <= s /\
  (s = 1 \/ exists p, In p points /\ level dim c (fun d => r d * s) a p = 1) /\
  (forall p, In p points -> 2 * form dim (final_ellipsoid dim E s) p + 1 <= (1 + 1 / 10 ^ 9) * (1 + 1 / 10 ^ 9)) /\
  (forall p, form dim E p <= 0 -> form dim (final_ellipsoid dim E s) p <= 0).
Proof.
  intros dim c r a points HP E. destruct (scale_spec dim c r a HP points 1 (Rle_refl 1)) as (s & C & L & B & W).
  exists s. split; [exact C|]. split; [exact L|].
  assert (Is : 0 < / s) by (apply Rinv_0_lt_compat; lra). assert (Es : / s * / s * (s * s) = 1) by (field; lra).
  assert (Is1 : / s <= 1) by (rewrite <- Rinv_1; apply Rinv_le_contravar; lra).
  assert (Sub : forall p, / s * / s * level dim c r a p <= level dim c r a p).
  { intros p. pose proof (level_nonneg dim c r a p) as L0. assert (/ s * / s <= 1 * 1) by (apply Rmult_le_compat; lra).
    assert (/ s * / s * level dim c r a p <= 1 * 1 * level dim c r a p) by (apply Rmult_le_compat_r; lra). lra. }
  split; [|split].
  - destruct W as [->|(p & Hp & Ep)]; [left; reflexivity|right]. exists p. split; [exact Hp|]. rewrite level_scaled, Ep. exact Es.
  - intros p Hp. unfold final_ellipsoid, scaled_ellipsoid. cbn [el_center el_radii el_axes make_ellipsoid E].
    destruct (Rlt_dec (1 + 1 / 10 ^ 9) s) as [G|G].
    + unfold E. cbn [el_center el_radii el_axes make_ellipsoid]. rewrite form_level, level_scaled. destruct (B p Hp) as [B1|B1].
      * pose proof (Sub p). lra.
      * assert (/ s * / s * level dim c r a p <= / s * / s * (s * s)) by (apply Rmult_le_compat_l; [apply Rle_0_sqr|exact B1]). lra.
    + unfold E. rewrite form_level. destruct (B p Hp) as [B1|B1]; [lra|].
      assert (s * s <= (1 + 1 / 10 ^ 9) * (1 + 1 / 10 ^ 9)) by (apply Rmult_le_compat; lra). lra.
  - intros p Hp. unfold E in Hp. rewrite form_level in Hp. unfold final_ellipsoid, scaled_ellipsoid. destruct (Rlt_dec _ s) as [G|G]; unfold E; [|rewrite form_level; exact Hp].
    cbn [el_center el_radii el_axes make_ellipsoid]. rewrite form_level, level_scaled. pose proof (Sub p). lra.
Qed.
Print Assumptions C56_scale.

(** Only the outer points of the cells are covered, not the cells: a square of side one with
    its center at (1, 0) in a flat ellipsoid. *)
Theorem C56_cell_refuted : let r := fun d => match d with 0%nat => 10 | _ => 1 / 10 end in
  let E := make_ellipsoid 2 origin r global_axes in
  let outer := fun i => match i with 0%nat => 1 + sqrt 2 / 2 | _ => 0 end in
  let corner := fun i => match i with 0%nat => 3 / 2 | _ => 1 / 2 end in
  proper 2 r global_axes /\ particle_scale 2 E [outer] 1 = Some 1 /\ ~ in_ellipsoid 2 origin r global_axes corner.
Proof.
  intros r E outer corner. split; [|split].
  - split; [left; reflexivity|]. split.
    + intros d e Hd He. destruct d as [|[|d]]; destruct e as [|[|e]]; try lia; unfold delta; cbn; unfold global_axes; cbn; ring.
    + intros d Hd. unfold r. destruct d; lra.
  - cbn [particle_scale]. unfold cell_scale, E. rewrite (proj2 (C56_inside 2 origin r global_axes outer (1 / 10 ^ 9))); [reflexivity|].
    assert (S2 : sqrt 2 <= 2). { rewrite <- (sqrt_square 2) at 2 by lra. apply sqrt_le_1_alt. lra. } pose proof (sqrt_pos 2) as S0.
    unfold level. cbn [dsum dot]. unfold outer, origin, r, global_axes. cbn [Nat.eqb].
    set (q := sqrt 2) in *. clearbody q. replace (0 + _ + _) with ((1 + q / 2) * (1 + q / 2) / 100) by field.
    assert ((1 + q / 2) * (1 + q / 2) <= 2 * 2) by (apply Rmult_le_compat; lra). lra.
  - unfold in_ellipsoid, level. cbn [dsum dot]. unfold corner, origin, r, global_axes. cbn [Nat.eqb]. lra.
Qed.
Print Assumptions C56_cell_refuted.

(** ** Examples *)
Example C56_applies : proper 2 needle_radii needle1. Proof. exact (proj1 needles_proper). Qed.
(** two unit circles with centers three apart: the first intersection is exact *)
Example C56_circles : let r := fun _ : nat => 1 in let c2 := fun i => match i with 0%nat => 3 | _ => 0 end in
  exists it cv, ellipsoid_distance 2 (make_ellipsoid 2 origin r global_axes) (make_ellipsoid 2 c2 r global_axes) true false (1 / 10 ^ 6) 1 = Some (1, it, cv).
Proof.
  intros r c2.
  assert (P : proper 2 r global_axes).
  { split; [left; reflexivity|]. split; [|intros; unfold r; lra].
    intros d e Hd He. destruct d as [|[|d]]; destruct e as [|[|e]]; try lia; unfold delta; cbn; unfold global_axes; cbn; ring. }
  assert (V : vdist 2 c2 origin = 3).
  { unfold vdist. apply norm_unique; [lra|]. unfold c2, origin. cbn [dot]. ring. }
  pose proof (make_quadratic 2 origin r global_axes P) as Q1. pose proof (make_quadratic 2 c2 r global_axes P) as Q2.
  assert (L1 : forall t, form 2 (make_ellipsoid 2 origin r global_axes) (along origin c2 t) = 1 / 2 * (9 * t * t - 1)).
  { intros t. rewrite form_level. unfold level, along, origin, c2, global_axes, r. cbn [dsum dot Nat.eqb]. field. }
  assert (L2 : forall t, form 2 (make_ellipsoid 2 c2 r global_axes) (along origin c2 t) = 1 / 2 * (9 * (1 - t) * (1 - t) - 1)).
  { intros t. rewrite form_level. unfold level, along, origin, c2, global_axes, r. cbn [dsum dot Nat.eqb]. field. }
  unfold ellipsoid_distance. cbn [orb]. cbv zeta. cbn [el_center make_ellipsoid].
  change (mkEllipsoid _ _ _ _ r _ _ global_axes origin) with (make_ellipsoid 2 origin r global_axes).
  change (mkEllipsoid _ _ _ _ r _ _ global_axes c2) with (make_ellipsoid 2 c2 r global_axes).
  rewrite V. destruct (Rlt_dec (1 / 10 ^ 6) 3) as [_|L]; [|exfalso; apply L; lra].
  cbn [distance_iterations].
  destruct (find_first 2 _ origin c2 Q1) as [[_ G]|(t1 & F1 & T1 & Z1 & _)].
  { rewrite <- (along_start 2 _ origin c2), L1. lra. }
  { exfalso. rewrite <- (along_end 2 _ origin c2), L1 in G. lra. }
  destruct (find_second 2 _ origin c2 Q2) as [[_ G]|(t2 & F2 & T2 & Z2 & _)].
  { rewrite <- (along_end 2 _ origin c2), L2. lra. }
  { exfalso. rewrite <- (along_start 2 _ origin c2), L2 in G. lra. }
  rewrite F1, F2. rewrite L1 in Z1. rewrite L2 in Z2.
  assert (E1 : t1 = 1 / 3).
  { assert (K : (t1 - 1 / 3) * (t1 + 1 / 3) = 0) by lra. apply Rmult_integral in K. lra. }
  assert (E2 : t2 = 2 / 3).
  { assert (K : (1 - t2 - 1 / 3) * (1 - t2 + 1 / 3) = 0) by lra. apply Rmult_integral in K. lra. }
  clear F1 F2 Z1 Z2. subst t1 t2. destruct (Rlt_dec (2 / 3) (1 / 3)) as [L|_]; [exfalso; lra|].
  rewrite vdist_along, V. rewrite (Rabs_left1 (1 / 3 - 2 / 3)) by lra. replace (- (1 / 3 - 2 / 3) * 3) with 1 by field.
  destruct ((if Req_EM_T 3 0 then _ else _) && true); eexists; eexists; reflexivity.
Qed.
