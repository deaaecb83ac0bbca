(** C67: the operators of the block preconditioner are the diagonal blocks of the
    linearised operator. *)
From Coq Require Import String List Reals Arith Bool Lia Lra FunctionalExtensionality.
From Verif Require Import Util FreeEnergyModel FreeEnergyProofs MobilityModel MobilityProofs OperatorModel OperatorProofs OperatorProps PreconModel PreconProofs.
Import ListNotations.
Local Open Scope list_scope.
Local Open Scope R_scope.

(** ** concentration and chemical potential *)

Lemma ch_point_spec : forall p vels c mu etas gmu v0 v1 g0 g1,
  ch_point p vels (c :: mu :: etas) gmu [v0; v1] [g0; g1]
  = Some ([v0 * o_weight p; v1 * o_weight_alg p - d2f_dc2 (eval_lin p c etas) * v0],
          [ch_advection vels v0 (fun d => apply_M_scalar (o_mobility p) c etas g1 d + dM_dc_scalar (o_mobility p) c * gmu d * v0 + 0 * g0 d);
           fun d => - o_kappa_c p * g0 d]).
Proof. intros. unfold ch_point. rewrite eval_static_spec. reflexivity. Qed.

(** For all meshes, states, velocities, numbers of order parameters and cut-offs: the
    Cahn-Hilliard operator is the block of the first two components of the linearised
    operator (scalar mobility). *)
Theorem C67_cahn_hilliard : forall p n ng cells u src k i, o_tensorial p = false -> (k < 2)%nat ->
  exists l, ch_vmult p n ng cells u src k i = Some l
    /\ vmult p n (map (jacobian_point ng) cells) u (fun b j => if Nat.ltb b 2 then src b j else 0) k i = Some l.
Proof.
  intros p n ng cells u src k i Ht Hk. unfold ch_vmult, vmult.
  set (src' := fun b j => if Nat.ltb b 2 then src b j else 0).
  induction cells as [| q cells [l [E1 E2]]]; [exists 0; split; reflexivity |].
  cbn [map sub_loop cell_loop]. rewrite E1, E2.
  unfold values, grads. cbn [jacobian_point q_blocks q_vel map]. rewrite !map_map.
  change (value_at n (jacobian_point ng q)) with (value_at n (bare q)). change (grad_at n (jacobian_point ng q)) with (grad_at n (bare q)).
  set (val := fun g => value_at n (bare q) u (S (S g))). set (val' := fun g => value_at n (bare q) src' (S (S g))).
  set (gr' := fun g => grad_at n (bare q) src' (S (S g))).
  rewrite (vmult_point_map p (value_at n (bare q) u 0%nat) (value_at n (bare q) u 1%nat) (grad_at n (bare q) u 0%nat) (grad_at n (bare q) u 1%nat) (map (fun x => grad_at n (bare q) u (S (S x))) (relevant ng q))
     (value_at n (bare q) src' 0%nat) (value_at n (bare q) src' 1%nat) (grad_at n (bare q) src' 0%nat) (grad_at n (bare q) src' 1%nat) val val' gr' (k_vel q) (relevant ng q)).
  assert (V : map val' (relevant ng q) = map (fun _ => 0) (relevant ng q)).
  { apply map_ext. intros g. apply value_zero. intros j. reflexivity. }
  rewrite V, dcsum_zero_map.
  unfold nonlinear_values. fold val. rewrite ch_point_spec.
  replace (eval_lin p (value_at n (bare q) u 0%nat) (map (fun g => if k_rel q g then val g else 0) (seq 0 ng)))
    with (eval_lin p (value_at n (bare q) u 0%nat) (map val (relevant ng q))).
  2: { unfold eval_lin. rewrite (dense_psum2 (k_rel q) val). reflexivity. }
  cbn [obind fst snd]. eexists. split; [reflexivity |]. f_equal. f_equal.
  rewrite scatter_bare. unfold velocities. rewrite (dense_velocities (k_rel q) (k_vel q)). fold (relevant ng q).
  change (value_at n (bare q) src' 0%nat) with (value_at n (bare q) src 0%nat). change (value_at n (bare q) src' 1%nat) with (value_at n (bare q) src 1%nat).
  change (grad_at n (bare q) src' 0%nat) with (grad_at n (bare q) src 0%nat). change (grad_at n (bare q) src' 1%nat) with (grad_at n (bare q) src 1%nat).
  cbn [scatter]. rewrite (scatter_not (o_dim p) (bare q) k i (map (fun g => S (S g)) (relevant ng q))).
  2: { intros C. apply in_map_iff in C. destruct C as [x [Hx _]]. lia. }
  replace (apply_M_derivative p (value_at n (bare q) u 0%nat) (map val (relevant ng q)) (grad_at n (bare q) u 0%nat) (map (fun x => grad_at n (bare q) u (S (S x))) (relevant ng q)) (grad_at n (bare q) u 1%nat) (value_at n (bare q) src 0%nat) (map (fun _ => 0) (relevant ng q)) (grad_at n (bare q) src 0%nat) (grad_at n (bare q) src 1%nat))
    with (fun d => apply_M_scalar (o_mobility p) (value_at n (bare q) u 0%nat) (map (fun g => if k_rel q g then val g else 0) (seq 0 ng)) (grad_at n (bare q) src 1%nat) d
            + dM_dc_scalar (o_mobility p) (value_at n (bare q) u 0%nat) * grad_at n (bare q) u 1%nat d * value_at n (bare q) src 0%nat + 0 * grad_at n (bare q) src 0%nat d).
  2: { apply functional_extensionality. intros d. unfold apply_M_derivative. rewrite Ht. unfold apply_M_derivative_scalar, apply_M_scalar, M_scalar.
       rewrite (dense_ij (k_rel q) val). fold (relevant ng q). rewrite factor_loop_spec by (rewrite !map_length; reflexivity).
       rewrite rsum_zero, prodsum_zero_map. ring. }
  replace (value_at n (bare q) src 1%nat * o_weight_alg p) with (o_weight_alg p * value_at n (bare q) src 1%nat) by ring.
  destruct k as [| [| k]]; [| | lia]; cbn [Nat.eqb]; rewrite ?Rminus_0_r; reflexivity.
Qed.
Print Assumptions C67_cahn_hilliard.

(** ** order parameters *)
Lemma ac_point_spec : forall p coupled ng c mu (val val' : nat -> R) (gr' : nat -> vec) (vel : nat -> option vec), (2 <= ng)%nat ->
  ac_point p coupled (map vel (seq 0 ng)) (c :: mu :: map val (seq 0 ng)) (map val' (seq 0 ng)) (map gr' (seq 0 ng))
  = Some (map (fun g => val' g * o_weight p + o_L p * d2f_detai2 (eval_lin p c (map val (seq 0 ng))) (val g) * val' g
                 + (if coupled then o_L p * 24 * o_B p * val g * (dotp (map val (seq 0 ng)) (map val' (seq 0 ng)) - val g * val' g) else 0)) (seq 0 ng),
          map (fun g => match vel g with Some v => fun d => o_L p * o_kappa_p p * gr' g d - v d * val' 0%nat | None => fun d => o_L p * o_kappa_p p * gr' g d end) (seq 0 ng)).
Proof.
  intros p coupled ng c mu val val' gr' vel H. unfold ac_point.
  assert (E : exists r, map val' (seq 0 ng) = val' 0%nat :: val' 1%nat :: r).
  { destruct ng as [| [| ng]]; [lia | lia |]. cbn [seq map]. eexists. reflexivity. }
  destruct E as [r E]. rewrite E, <- E. rewrite eval_static_spec. cbn [obind]. fold (eval_lin p c (map val (seq 0 ng))).
  rewrite ac_rows_map by (lia || reflexivity). cbn [obind fst snd].
  rewrite (ac_advection_map vel (val' 0%nat) (fun g d => o_L p * o_kappa_p p * gr' g d)). reflexivity.
Qed.

(** For all meshes, states and numbers of order parameters from two on: without cut-off,
    and with no order parameter but the first moving, the Allen-Cahn operator is the block
    of the order parameters of the linearised operator. *)
Theorem C67_allen_cahn_partial : forall p n ng cells u src k i, (2 <= ng)%nat ->
  (forall q g, In q cells -> (g < ng)%nat -> k_rel q g = true) ->
  (forall q g, In q cells -> (0 < g)%nat -> k_vel q g = None) ->
  exists l, ac_vmult p true n ng cells u (fun b => src (S (S b))) k i = Some l
    /\ vmult p n (map (jacobian_point ng) cells) u (fun b j => if Nat.ltb b 2 then 0 else src b j) (S (S k)) i = Some l.
Proof.
  intros p n ng cells u src k i Hg HR HV. unfold ac_vmult, vmult.
  set (src' := fun b j => if Nat.ltb b 2 then 0 else src b j).
  induction cells as [| q cells IH]; [exists 0; split; reflexivity |].
  destruct IH as [l [E1 E2]]; [intros; apply HR; [right |]; assumption | intros; apply HV; [right |]; assumption |].
  cbn [map sub_loop cell_loop]. rewrite E1, E2.
  unfold values, grads. cbn [jacobian_point q_blocks q_vel map]. rewrite !map_map.
  change (value_at n (jacobian_point ng q)) with (value_at n (bare q)). change (grad_at n (jacobian_point ng q)) with (grad_at n (bare q)).
  assert (RA : relevant ng q = seq 0 ng) by (apply relevant_all; intros g Hg'; apply HR; [left; reflexivity | exact Hg']).
  rewrite RA.
  set (val := fun g => value_at n (bare q) u (S (S g))). set (val' := fun g => value_at n (bare q) src' (S (S g))).
  set (gr' := fun g => grad_at n (bare q) src' (S (S g))).
  rewrite (vmult_point_map p (value_at n (bare q) u 0%nat) (value_at n (bare q) u 1%nat) (grad_at n (bare q) u 0%nat) (grad_at n (bare q) u 1%nat) (map (fun x => grad_at n (bare q) u (S (S x))) (seq 0 ng))
     (value_at n (bare q) src' 0%nat) (value_at n (bare q) src' 1%nat) (grad_at n (bare q) src' 0%nat) (grad_at n (bare q) src' 1%nat) val val' gr' (k_vel q) (seq 0 ng)).
  unfold nonlinear_values, velocities.
  replace (map (fun g => if k_rel q g then value_at n (bare q) u (S (S g)) else 0) (seq 0 ng)) with (map val (seq 0 ng)).
  2: { apply map_ext_in. intros g I. apply in_seq in I. rewrite HR; [reflexivity | left; reflexivity | lia]. }
  replace (map (fun g => if k_rel q g then k_vel q g else None) (seq 0 ng)) with (map (k_vel q) (seq 0 ng)).
  2: { apply map_ext_in. intros g I. apply in_seq in I. rewrite HR; [reflexivity | left; reflexivity | lia]. }
  change (map (value_at n (bare q) (fun b : nat => src (S (S b)))) (seq 0 ng)) with (map val' (seq 0 ng)).
  change (map (grad_at n (bare q) (fun b : nat => src (S (S b)))) (seq 0 ng)) with (map gr' (seq 0 ng)).
  rewrite ac_point_spec by exact Hg. cbn [obind fst snd]. eexists. split; [reflexivity |]. f_equal. f_equal.
  rewrite scatter_bare. cbn [scatter Nat.eqb]. rewrite !Rplus_0_l, scatter_shift. f_equal.
  - apply map_ext. intros g. unfold lin_row.
    assert (C0 : value_at n (bare q) src' 0%nat = 0) by (apply value_zero; reflexivity). rewrite C0. ring.
  - apply map_ext. intros g. unfold lin_grad. destruct g as [| g]; [reflexivity |]. rewrite HV; [reflexivity | left; reflexivity | lia].
Qed.
Print Assumptions C67_allen_cahn_partial.

(** two grains on one element: *)
Definition unit_cell (rel : nat -> bool) (vel : nat -> option vec) : qcell :=
  mkCell 1 (fun _ => 1 / 2) (fun j _ => if Nat.eqb j 0 then -1 else 1) rel vel.
Definition one_op : op_data := mkOp 1 1 1 1 1 1 1 (mkCoefficients 0 0 0 0 0) false.

Example C67_case :
  let cells := [unit_cell (fun _ => true) (fun g => if Nat.eqb g 0 then Some (fun _ => 3) else None)] in
  (forall q g, In q cells -> (g < 2)%nat -> k_rel q g = true) /\ (forall q g, In q cells -> (0 < g)%nat -> k_vel q g = None)
  /\ ac_vmult one_op true 2 2 cells (ramp (fun _ => 1) (fun _ => 0)) (ramp (fun _ => 1) (fun _ => 0)) 0 1 = Some (1 / 2 - 3).
Proof.
  cbv zeta. split; [intros q g [<- | []] _; reflexivity |]. split.
  { intros q g [<- | []] H. destruct g; [lia | reflexivity]. }
  unfold ac_vmult. cbn [sub_loop]. unfold nonlinear_values, velocities.
  rewrite ac_point_spec with (vel := fun g => if k_rel (unit_cell (fun _ => true) (fun g => if Nat.eqb g 0 then Some (fun _ => 3) else None)) g then k_vel (unit_cell (fun _ => true) (fun g => if Nat.eqb g 0 then Some (fun _ => 3) else None)) g else None) by lia.
  cbn [obind fst snd seq map scatter Nat.eqb unit_cell k_rel k_vel bare q_w q_N q_G k_w k_N k_G o_dim one_op dot o_weight].
  f_equal. unfold value_at, grad_at, ramp, o_L. cbn. lra.
Qed.

(** The second order parameter moves: its row takes the value of the first one.  Velocity
    one, source only in the second order parameter. *)
Theorem C67_advection_refuted : exists p n ng cells u src k i x y,
  (forall q g, In q cells -> k_rel q g = true) /\ o_tensorial p = false
  /\ ac_vmult p true n ng cells u (fun b => src (S (S b))) k i = Some x
  /\ vmult p n (map (jacobian_point ng) cells) u (fun b j => if Nat.ltb b 2 then 0 else src b j) (S (S k)) i = Some y
  /\ x <> y.
Proof.
  set (q := unit_cell (fun _ => true) (fun g => if Nat.eqb g 1 then Some (fun _ => 1) else None)).
  set (src := fun (b j : nat) => if Nat.eqb b 3 then 1 else 0).
  exists one_op, 2%nat, 2%nat, [q], (fun _ _ => 0), src, 1%nat, 1%nat.
  assert (AC : exists x, ac_vmult one_op true 2 2 [q] (fun _ _ => 0) (fun b => src (S (S b))) 1 1 = Some x /\ x = 1 / 2).
  { unfold ac_vmult. cbn [sub_loop]. unfold nonlinear_values, velocities.
    rewrite ac_point_spec with (vel := fun g => if k_rel q g then k_vel q g else None) by lia.
    eexists. split; [reflexivity |]. cbn [fst snd seq map scatter Nat.eqb]. unfold q. cbn [unit_cell k_rel k_vel bare q_w q_N q_G k_w k_N k_G o_dim one_op dot o_weight Nat.eqb].
    unfold value_at, grad_at, o_L, src. cbn. lra. }
  assert (J : exists y, vmult one_op 2 (map (jacobian_point 2) [q]) (fun _ _ => 0) (fun b j => if Nat.ltb b 2 then 0 else src b j) 3 1 = Some y /\ y = - (1 / 2)).
  { unfold vmult. cbn [map cell_loop]. unfold values, grads. cbn [jacobian_point q_blocks q_vel map]. rewrite !map_map.
    change (value_at 2 (jacobian_point 2 q)) with (value_at 2 (bare q)). change (grad_at 2 (jacobian_point 2 q)) with (grad_at 2 (bare q)).
    rewrite (vmult_point_map one_op _ _ _ _ (map (fun x => grad_at 2 (bare q) (fun _ _ => 0) (S (S x))) (relevant 2 q)) _ _ _ _
      (fun g => value_at 2 (bare q) (fun _ _ => 0) (S (S g))) (fun g => value_at 2 (bare q) (fun b j => if Nat.ltb b 2 then 0 else src b j) (S (S g)))
      (fun g => grad_at 2 (bare q) (fun b j => if Nat.ltb b 2 then 0 else src b j) (S (S g))) (k_vel q) (relevant 2 q)).
    eexists. split; [reflexivity |]. cbn [fst snd].
    replace (relevant 2 q) with [0; 1]%nat by reflexivity. cbn [map scatter Nat.eqb]. unfold lin_row, lin_grad, q.
    cbn [unit_cell jacobian_point k_rel k_vel bare q_w q_N q_G k_w k_N k_G o_dim one_op dot o_weight Nat.eqb map].
    unfold value_at, grad_at, o_L, src. cbn. lra. }
  destruct AC as [x [E1 ->]], J as [y [E2 ->]]. exists (1 / 2), (- (1 / 2)).
  split; [intros q' g [<- | []]; reflexivity |]. split; [reflexivity |]. split; [exact E1 | split; [exact E2 | lra]].
Qed.
Print Assumptions C67_advection_refuted.

(** With the cut-off the Allen-Cahn operator also acts in cells where an order parameter is
    not relevant; the linearised operator does not. *)
Theorem C67_cut_off_refuted : exists p n ng cells u src k i x,
  (forall q g, In q cells -> k_vel q g = None) /\ o_tensorial p = false
  /\ ac_vmult p true n ng cells u (fun b => src (S (S b))) k i = Some x
  /\ vmult p n (map (jacobian_point ng) cells) u (fun b j => if Nat.ltb b 2 then 0 else src b j) (S (S k)) i = Some 0
  /\ x <> 0.
Proof.
  set (q := unit_cell (fun g => Nat.eqb g 0) (fun _ => None)).
  set (src := fun (b j : nat) => if Nat.eqb b 3 then 1 else 0).
  exists one_op, 2%nat, 2%nat, [q], (fun _ _ => 0), src, 1%nat, 1%nat.
  assert (AC : exists x, ac_vmult one_op true 2 2 [q] (fun _ _ => 0) (fun b => src (S (S b))) 1 1 = Some x /\ x = 1 / 2).
  { unfold ac_vmult. cbn [sub_loop]. unfold nonlinear_values, velocities.
    rewrite ac_point_spec with (vel := fun g => if k_rel q g then k_vel q g else None) (val := fun g => if k_rel q g then value_at 2 (bare q) (fun _ _ => 0) (S (S g)) else 0) by lia.
    eexists. split; [reflexivity |]. cbn [fst snd seq map scatter Nat.eqb]. unfold q. cbn [unit_cell k_rel k_vel bare q_w q_N q_G k_w k_N k_G o_dim one_op dot o_weight Nat.eqb].
    unfold value_at, grad_at, o_L, src. cbn. lra. }
  destruct AC as [x [E1 ->]]. exists (1 / 2).
  split; [intros q' g [<- | []]; reflexivity |]. split; [reflexivity |]. split; [exact E1 | split; [| lra]].
  unfold vmult. cbn [map cell_loop]. unfold values, grads. cbn [jacobian_point q_blocks q_vel map]. rewrite !map_map.
  change (value_at 2 (jacobian_point 2 q)) with (value_at 2 (bare q)). change (grad_at 2 (jacobian_point 2 q)) with (grad_at 2 (bare q)).
  rewrite (vmult_point_map one_op _ _ _ _ (map (fun x => grad_at 2 (bare q) (fun _ _ => 0) (S (S x))) (relevant 2 q)) _ _ _ _
      (fun g => value_at 2 (bare q) (fun _ _ => 0) (S (S g))) (fun g => value_at 2 (bare q) (fun b j => if Nat.ltb b 2 then 0 else src b j) (S (S g)))
      (fun g => grad_at 2 (bare q) (fun b j => if Nat.ltb b 2 then 0 else src b j) (S (S g))) (k_vel q) (relevant 2 q)).
  cbn [obind fst snd]. f_equal. rewrite scatter_not; [ring |]. cbn. intuition discriminate.
Qed.
Print Assumptions C67_cut_off_refuted.

(** ** matrices of the single order parameters *)
Lemma vsum_abs : forall m f, Rabs (vsum m f) <= vsum m (fun i => Rabs (f i)).
Proof. induction m as [| m IH]; intros f; cbn [vsum]; [rewrite Rabs_R0; lra |]. eapply Rle_trans; [apply Rabs_triang |]. specialize (IH f). lra. Qed.
Lemma vsum_le : forall m f g, (forall i, (i < m)%nat -> f i <= g i) -> vsum m f <= vsum m g.
Proof. induction m as [| m IH]; intros f g H; cbn [vsum]; [lra |]. assert (vsum m f <= vsum m g) by (apply IH; intros; apply H; lia). assert (f m <= g m) by (apply H; lia). lra. Qed.
Lemma vsum_scale_r : forall m f a, vsum m (fun i => f i * a) = vsum m f * a.
Proof. induction m as [| m IH]; intros f a; cbn [vsum]; [ring |]. rewrite IH. ring. Qed.

Lemma rmax_fold : forall (l : list nat) f a, 0 <= a -> 0 <= fold_left (fun acc j => Rmax acc (Rabs (f j))) l a.
Proof. induction l as [| j l IH]; intros f a H; [exact H |]. cbn [fold_left]. apply IH. eapply Rle_trans; [exact H | apply Rmax_l]. Qed.
Lemma matrix_max_pos : forall m M, 0 <= matrix_max m M.
Proof.
  intros m M. unfold matrix_max. assert (G : forall l a, 0 <= a -> 0 <= fold_left (fun acc i => fold_left (fun acc j => Rmax acc (Rabs (M i j))) (seq 0 m) acc) l a).
  { induction l as [| i l IH]; intros a H; [exact H |]. cbn [fold_left]. apply IH. apply rmax_fold. exact H. }
  apply G. lra.
Qed.
Lemma clip_error_bound : forall m M i j, Rabs (clip m M i j - M i j) <= / 10 ^ 10 * matrix_max m M.
Proof.
  intros m M i j. unfold clip. destruct (Rlt_dec (Rabs (M i j)) (/ 10 ^ 10 * matrix_max m M)) as [H | H].
  - rewrite Rminus_0_l, Rabs_Ropp. lra.
  - rewrite Rminus_diag_eq by reflexivity. rewrite Rabs_R0. apply Rmult_le_pos; [left; apply small_pos | apply matrix_max_pos].
Qed.
Lemma assembly_error : forall m (C : nat -> nat -> R) M I J,
  Rabs (vsum m (fun i => vsum m (fun j => C i I * clip m M i j * C j J)) - vsum m (fun i => vsum m (fun j => C i I * M i j * C j J)))
  <= / 10 ^ 10 * matrix_max m M * (vsum m (fun i => Rabs (C i I)) * vsum m (fun j => Rabs (C j J))).
Proof.
  intros m C M I J.
  replace (vsum m (fun i => vsum m (fun j => C i I * clip m M i j * C j J)) - vsum m (fun i => vsum m (fun j => C i I * M i j * C j J)))
    with (vsum m (fun i => vsum m (fun j => C i I * (clip m M i j - M i j) * C j J))).
  2: { transitivity (1 * vsum m (fun i => vsum m (fun j => C i I * clip m M i j * C j J)) + (-1) * vsum m (fun i => vsum m (fun j => C i I * M i j * C j J))); [| ring].
       rewrite <- vsum_lin. apply vsum_ext. intros i _. rewrite <- vsum_lin. apply vsum_ext. intros j _. ring. }
  eapply Rle_trans; [apply vsum_abs |].
  replace (/ 10 ^ 10 * matrix_max m M * (vsum m (fun i => Rabs (C i I)) * vsum m (fun j => Rabs (C j J))))
    with (vsum m (fun i => Rabs (C i I) * (/ 10 ^ 10 * matrix_max m M) * vsum m (fun j => Rabs (C j J)))).
  2: { rewrite vsum_scale_r, vsum_scale_r. ring. }
  apply vsum_le. intros i _. eapply Rle_trans; [apply vsum_abs |]. rewrite <- vsum_scale. apply vsum_le. intros j _.
  rewrite !Rabs_mult. apply Rmult_le_compat_r; [apply Rabs_pos |]. apply Rmult_le_compat_l; [apply Rabs_pos |]. apply clip_error_bound.
Qed.

Lemma tabulate_some : forall {A} (f : nat -> option A) (g : nat -> A) js, (forall j, In j js -> f j = Some (g j)) -> tabulate f js = Some (map g js).
Proof.
  intros A f g. induction js as [| j js IH]; intros H; [reflexivity |]. cbn [tabulate map]. rewrite (H j (or_introl eq_refl)). cbn [obind].
  rewrite IH by (intros; apply H; right; assumption). reflexivity.
Qed.

(** the form of the operator at a point: bulk coefficient, gradient coefficient, velocity *)
Definition point_form (dim : nat) (w al be : R) (ve : vec) (N1 : R) (G1 : vec) (N2 : R) (G2 : vec) : R :=
  w * (N1 * (al * N2) + dot dim G1 (fun d => be * G2 d - ve d * N2)).
Lemma dot_vsum_l : forall dim m (C : nat -> R) (G : nat -> vec) h, dot dim (fun d => vsum m (fun i => C i * G i d)) h = vsum m (fun i => C i * dot dim (G i) h).
Proof.
  induction dim as [| dim IH]; intros m C G h; cbn [dot].
  - rewrite (vsum_ext _ _ (fun _ => 0)) by (intros; ring). symmetry. apply vsum_zero.
  - rewrite IH. rewrite <- vsum_scale_r. rewrite <- vsum_plus. apply vsum_ext. intros. ring.
Qed.
Lemma form_left : forall dim w al be ve m C N G N2 G2,
  point_form dim w al be ve (vsum m (fun i => C i * N i)) (fun d => vsum m (fun i => C i * G i d)) N2 G2
  = vsum m (fun i => C i * point_form dim w al be ve (N i) (G i) N2 G2).
Proof.
  intros. unfold point_form. rewrite dot_vsum_l. rewrite <- vsum_scale_r. rewrite <- vsum_plus, <- vsum_scale. apply vsum_ext. intros. ring.
Qed.
Lemma form_right : forall dim w al be ve m C N G N1 G1,
  point_form dim w al be ve N1 G1 (vsum m (fun i => C i * N i)) (fun d => vsum m (fun i => C i * G i d))
  = vsum m (fun i => C i * point_form dim w al be ve N1 G1 (N i) (G i)).
Proof.
  intros. unfold point_form.
  rewrite (dot_comm dim G1 (fun d => be * vsum m (fun i => C i * G i d) - ve d * vsum m (fun i => C i * N i))).
  replace (fun d => be * vsum m (fun i => C i * G i d) - ve d * vsum m (fun i => C i * N i)) with (fun d => vsum m (fun i => C i * (fun d => be * G i d - ve d * N i) d)).
  2: { apply functional_extensionality. intros d. rewrite <- !vsum_scale.
       transitivity (1 * vsum m (fun j => be * (C j * G j d)) + (-1) * vsum m (fun j => ve d * (C j * N j))); [| ring]. rewrite <- vsum_lin. apply vsum_ext. intros. ring. }
  rewrite (dot_vsum_l dim m C (fun i d => be * G i d - ve d * N i)). rewrite <- vsum_scale, <- vsum_scale, <- vsum_plus, <- vsum_scale.
  apply vsum_ext. intros i _. rewrite (dot_comm dim (fun d => be * G i d - ve d * N i)). ring.
Qed.

Definition velocity_or_zero (v : option vec) : vec := match v with Some v => v | None => fun _ => 0 end.
(** coefficients of the point for order parameter [b] *)
Definition al_of (p : op_data) (n ng : nat) (u : state) (g : qcell) (b : nat) : R :=
  if k_rel g b then o_weight p + o_L p * d2f_detai2 (eval_lin p (value_at n (bare g) u 0%nat) (map (fun x => value_at n (bare g) u (S (S x))) (relevant ng g))) (value_at n (bare g) u (S (S b))) else 0.
Definition be_of (p : op_data) (g : qcell) (b : nat) : R := if k_rel g b then o_L p * o_kappa_p p else 0.
Definition ve_of (g : qcell) (b : nat) : vec := velocity_or_zero (if k_rel g b then k_vel g b else None).

Lemma local_point : forall p cut_off n ng u a q b i j, (b < ng)%nat -> (cut_off = false -> k_rel q b = true) ->
  exists e l, eval_dynamic false (o_A p) (o_B p) (nonlinear_values n ng (global_point a q) u) ng = Some e
    /\ vget (nonlinear_values n ng (global_point a q) u) (2 + b) = Some l
    /\ let r := block_point p cut_off q b (d2f_detai2 e l) j in
       k_w q * (k_N q i * fst r + dot (o_dim p) (k_G q i) (snd r))
       = point_form (o_dim p) (k_w q) (al_of p n ng u (global_point a q) b) (be_of p (global_point a q) b) (ve_of (global_point a q) b) (k_N q i) (k_G q i) (k_N q j) (k_G q j).
Proof.
  intros p cut_off n ng u a q b i j Hb Hc. set (g := global_point a q).
  set (val := fun x => value_at n (bare g) u (S (S x))).
  exists (eval_lin p (value_at n (bare g) u 0%nat) (map val (relevant ng g))), (if k_rel g b then val b else 0).
  split; [| split].
  - unfold nonlinear_values. fold val.
    replace ng with (length (map (fun g0 => if k_rel g g0 then val g0 else 0) (seq 0 ng))) at 2 by (rewrite map_length, seq_length; reflexivity).
    rewrite eval_dynamic_spec. unfold eval_lin. rewrite (dense_psum2 (k_rel g) val). reflexivity.
  - unfold nonlinear_values, vget. cbn [Nat.add nth_error].
    assert (NE : nth_error (seq 0 ng) b = Some b) by (rewrite (nth_error_nth' _ 0%nat) by (rewrite seq_length; exact Hb); rewrite seq_nth by exact Hb; reflexivity).
    rewrite (map_nth_error _ _ _ NE). reflexivity.
  - cbv zeta. unfold block_point, point_form, al_of, be_of, ve_of. change (k_rel g b) with (k_rel q b). change (k_vel g b) with (k_vel q b).
    destruct (k_rel q b).
    + rewrite andb_false_r. cbn [fst snd]. f_equal. f_equal; [unfold val; ring |]. destruct (k_vel q b); cbn [velocity_or_zero]; [reflexivity |].
      apply dot_ext; [reflexivity |]. intros d. ring.
    + destruct cut_off; [| discriminate (Hc eq_refl)]. cbn [andb negb fst snd velocity_or_zero]. f_equal. f_equal; [ring |]. apply dot_ext; [reflexivity |]. intros d. ring.
Qed.

(** the form of a point of cell [a] for two pairs of shape functions *)
Definition cell_form (p : op_data) (n ng : nat) (u : state) (a : acell) (b : nat) (q : qcell) (N1 : R) (G1 : vec) (N2 : R) (G2 : vec) : R :=
  point_form (o_dim p) (k_w q) (al_of p n ng u (global_point a q) b) (be_of p (global_point a q) b) (ve_of (global_point a q) b) N1 G1 N2 G2.
Lemma local_entry_spec : forall p cut_off n ng u a b i j pts, (b < ng)%nat -> (cut_off = false -> forall q, In q pts -> k_rel q b = true) ->
  local_entry p cut_off n ng u a b pts i j
  = Some (fold_right Rplus 0 (map (fun q => cell_form p n ng u a b q (k_N q i) (k_G q i) (k_N q j) (k_G q j)) pts)).
Proof.
  intros p cut_off n ng u a b i j pts Hb. induction pts as [| q pts IH]; intros Hc; [reflexivity |].
  destruct (local_point p cut_off n ng u a q b i j Hb) as [e [l [E1 [E2 E3]]]]; [intros H; apply Hc; [exact H | left; reflexivity] |].
  cbn [local_entry map fold_right]. rewrite E1. cbn [obind]. rewrite E2. cbn [obind].
  rewrite IH by (intros H q' I; apply Hc; [exact H | right; exact I]). cbn [obind]. cbv zeta in E3. rewrite E3. reflexivity.
Qed.
Lemma local_matrix_spec : forall p cut_off n ng u a b, (b < ng)%nat -> (cut_off = false -> forall q, In q (a_pts a) -> k_rel q b = true) ->
  exists M, local_matrix p cut_off n ng u a b = Some M
    /\ forall i j, (i < a_m a)%nat -> (j < a_m a)%nat ->
         M i j = fold_right Rplus 0 (map (fun q => cell_form p n ng u a b q (k_N q i) (k_G q i) (k_N q j) (k_G q j)) (a_pts a)).
Proof.
  intros p cut_off n ng u a b Hb Hc. unfold local_matrix.
  set (F := fun i j => fold_right Rplus 0 (map (fun q => cell_form p n ng u a b q (k_N q i) (k_G q i) (k_N q j) (k_G q j)) (a_pts a))).
  rewrite (tabulate_some _ (fun i => map (F i) (seq 0 (a_m a)))).
  2: { intros i _. rewrite (tabulate_some _ (F i)); [reflexivity |]. intros j _. apply local_entry_spec; assumption. }
  cbn [obind]. eexists. split; [reflexivity |]. intros i j Hi Hj. cbv beta.
  rewrite (nth_indep _ [] (map (F 0%nat) (seq 0 (a_m a)))) by (rewrite map_length, seq_length; exact Hi).
  rewrite (map_nth (fun i => map (F i) (seq 0 (a_m a)))). rewrite (nth_indep _ 0 (F (nth i (seq 0 (a_m a)) 0%nat) 0%nat)) by (rewrite map_length, seq_length; exact Hj).
  rewrite map_nth. rewrite !seq_nth by assumption. reflexivity.
Qed.
Lemma vsum_fold : forall {A} m (h : nat -> A -> R) l, vsum m (fun i => fold_right Rplus 0 (map (h i) l)) = fold_right Rplus 0 (map (fun x => vsum m (fun i => h i x)) l).
Proof.
  intros A m h. induction l as [| x l IH]; cbn [map fold_right]; [apply vsum_zero |]. rewrite vsum_plus, IH. reflexivity.
Qed.
Lemma vsum_swap_const : forall m f a, a * vsum m f = vsum m (fun i => a * f i).
Proof. intros. symmetry. apply vsum_scale. Qed.

(** the assembled matrix of a cell, before small entries are removed *)
Lemma assembled_cell : forall p n ng u a b (M : nat -> nat -> R) I J,
  (forall i j, (i < a_m a)%nat -> (j < a_m a)%nat -> M i j = fold_right Rplus 0 (map (fun q => cell_form p n ng u a b q (k_N q i) (k_G q i) (k_N q j) (k_G q j)) (a_pts a))) ->
  vsum (a_m a) (fun i => vsum (a_m a) (fun j => a_C a i I * M i j * a_C a j J))
  = fold_right Rplus 0 (map (fun q => cell_form p n ng u a b q (k_N (global_point a q) I) (k_G (global_point a q) I) (k_N (global_point a q) J) (k_G (global_point a q) J)) (a_pts a)).
Proof.
  intros p n ng u a b M I J H.
  transitivity (vsum (a_m a) (fun i => vsum (a_m a) (fun j => fold_right Rplus 0 (map (fun q => a_C a i I * (a_C a j J * cell_form p n ng u a b q (k_N q i) (k_G q i) (k_N q j) (k_G q j))) (a_pts a))))).
  { apply vsum_ext. intros i Hi. apply vsum_ext. intros j Hj. rewrite H by assumption. clear H. induction (a_pts a) as [| q l IH]; cbn [map fold_right]; [ring |]. rewrite <- IH. ring. }
  transitivity (vsum (a_m a) (fun i => fold_right Rplus 0 (map (fun q => vsum (a_m a) (fun j => a_C a i I * (a_C a j J * cell_form p n ng u a b q (k_N q i) (k_G q i) (k_N q j) (k_G q j)))) (a_pts a)))).
  { apply vsum_ext. intros i _. apply vsum_fold. }
  rewrite vsum_fold. f_equal. apply map_ext. intros q. unfold cell_form. cbn [global_point k_N k_G].
  rewrite form_left. apply vsum_ext. intros i _. rewrite vsum_scale. f_equal.
  symmetry. apply (form_right (o_dim p) (k_w q) _ _ _ (a_m a) (fun i => a_C a i J) (k_N q) (k_G q)).
Qed.

(** ** the entry of the linearised operator *)
Definition unit_vec (b J : nat) : state := fun c j => if Nat.eqb c b && Nat.eqb j J then 1 else 0.
Lemma vsum_single : forall n J f, (J < n)%nat -> (forall j, j <> J -> f j = 0) -> vsum n f = f J.
Proof.
  induction n as [| n IH]; intros J f H Z; [lia |]. cbn [vsum]. destruct (Nat.eq_dec J n) as [-> | D].
  - rewrite (vsum_ext _ _ (fun _ => 0)) by (intros; apply Z; lia). rewrite vsum_zero. ring.
  - rewrite (IH J) by (lia || exact Z). rewrite (Z n) by lia. ring.
Qed.
Lemma dotp_single : forall (val val' : nat -> R) b l, NoDup l -> In b l -> (forall g, g <> b -> val' g = 0) -> dotp (map val l) (map val' l) = val b * val' b.
Proof.
  intros val val' b. induction l as [| a l IH]; intros N I Z; [destruct I |]. inversion N as [| x y N1 N2]; subst. cbn [map dotp].
  destruct (Nat.eq_dec a b) as [-> | D].
  - assert (R0 : dotp (map val l) (map val' l) = 0).
    { clear - N1 Z. induction l as [| c l IH]; [reflexivity |]. cbn [map dotp]. rewrite IH by (intros C; apply N1; right; exact C). rewrite (Z c); [ring |]. intros ->. apply N1. left. reflexivity. }
    rewrite R0. ring.
  - destruct I as [-> | I]; [contradiction |]. rewrite IH by assumption. rewrite (Z a D). ring.
Qed.

Lemma jacobian_entry_point : forall p n ng u g b I J, (b < ng)%nat -> (J < n)%nat ->
  exists vs gs, vmult_point p (q_vel (jacobian_point ng g)) (values n (jacobian_point ng g) u) (grads n (jacobian_point ng g) u)
       (values n (jacobian_point ng g) (unit_vec (S (S b)) J)) (grads n (jacobian_point ng g) (unit_vec (S (S b)) J)) = Some (vs, gs)
    /\ scatter (o_dim p) (jacobian_point ng g) (q_blocks (jacobian_point ng g)) vs gs (S (S b)) I
       = point_form (o_dim p) (k_w g) (al_of p n ng u g b) (be_of p g b) (ve_of g b) (k_N g I) (k_G g I) (k_N g J) (k_G g J).
Proof.
  intros p n ng u g b I J Hb HJ. unfold values, grads. cbn [jacobian_point q_blocks q_vel map]. rewrite !map_map.
  change (value_at n (jacobian_point ng g)) with (value_at n (bare g)). change (grad_at n (jacobian_point ng g)) with (grad_at n (bare g)).
  set (src := unit_vec (S (S b)) J).
  set (val := fun x => value_at n (bare g) u (S (S x))). set (val' := fun x => value_at n (bare g) src (S (S x))). set (gr' := fun x => grad_at n (bare g) src (S (S x))).
  rewrite (vmult_point_map p (value_at n (bare g) u 0%nat) (value_at n (bare g) u 1%nat) (grad_at n (bare g) u 0%nat) (grad_at n (bare g) u 1%nat) (map (fun x => grad_at n (bare g) u (S (S x))) (relevant ng g))
     (value_at n (bare g) src 0%nat) (value_at n (bare g) src 1%nat) (grad_at n (bare g) src 0%nat) (grad_at n (bare g) src 1%nat) val val' gr' (k_vel g) (relevant ng g)).
  do 2 eexists. split; [reflexivity |]. rewrite scatter_bare. cbn [scatter Nat.eqb]. rewrite !Rplus_0_l, scatter_shift, scatter_map by apply relevant_nodup.
  assert (C0 : value_at n (bare g) src 0%nat = 0) by (apply value_zero; reflexivity).
  assert (Vb : val' b = k_N g J).
  { unfold val', value_at. rewrite (vsum_single n J) by (exact HJ || (intros j Hj; unfold src, unit_vec; rewrite Nat.eqb_refl; destruct (Nat.eqb_spec j J); [contradiction |]; cbn [andb]; ring)).
    unfold src, unit_vec. rewrite !Nat.eqb_refl. cbn [andb bare q_N]. ring. }
  assert (Gb : forall d, gr' b d = k_G g J d).
  { intros d. unfold gr', grad_at. rewrite (vsum_single n J) by (exact HJ || (intros j Hj; unfold src, unit_vec; rewrite Nat.eqb_refl; destruct (Nat.eqb_spec j J); [contradiction |]; cbn [andb]; ring)).
    unfold src, unit_vec. rewrite !Nat.eqb_refl. cbn [andb bare q_G]. ring. }
  assert (V0 : forall x, x <> b -> val' x = 0).
  { intros x D. unfold val'. apply value_zero. intros j. unfold src, unit_vec. cbn [Nat.eqb]. destruct (Nat.eqb_spec x b); [contradiction | reflexivity]. }
  unfold point_form, al_of, be_of, ve_of.
  destruct (in_dec Nat.eq_dec b (relevant ng g)) as [i | n0].
  - assert (Rb : k_rel g b = true) by (apply filter_In in i; apply i). rewrite Rb. fold val. cbn [bare q_w q_N q_G]. f_equal. f_equal.
    + f_equal. unfold lin_row. rewrite C0, (dotp_single val val' b) by (try apply relevant_nodup; assumption). rewrite Vb. unfold val. ring.
    + unfold lin_grad. rewrite Vb. destruct (k_vel g b); cbn [velocity_or_zero]; apply dot_ext; try reflexivity; intros d; rewrite Gb; ring.
  - assert (Rb : k_rel g b = false).
    { destruct (k_rel g b) eqn:E; [| reflexivity]. exfalso. apply n0. apply filter_In. split; [apply in_seq; lia | exact E]. }
    rewrite Rb. cbn [velocity_or_zero].
    rewrite (dot_ext (o_dim p) (k_G g I) (fun d => 0 * k_G g J d - 0 * k_N g J) (k_G g I) (fun d => 0 * k_G g J d)) by (intros; ring). rewrite dot_scale. ring.
Qed.

(** ** the theorem *)
(** what the removal of small entries can change at most *)
Fixpoint clipping (p : op_data) (cut_off : bool) (n ng : nat) (u : state) (b : nat) (cells : list acell) (I J : nat) : option R :=
  match cells with
  | [] => Some 0
  | a :: cells =>
      M <- local_matrix p cut_off n ng u a b ;;
      s <- clipping p cut_off n ng u b cells I J ;;
      Some (/ 10 ^ 10 * matrix_max (a_m a) M * (vsum (a_m a) (fun i => Rabs (a_C a i I)) * vsum (a_m a) (fun j => Rabs (a_C a j J))) + s)
  end.
Definition all_points (cells : list acell) : list qcell := flat_map (fun a => map (global_point a) (a_pts a)) cells.

Lemma cell_loop_app : forall dim f a b k i x y, cell_loop dim f a k i = Some x -> cell_loop dim f b k i = Some y -> cell_loop dim f (a ++ b) k i = Some (x + y).
Proof.
  intros dim f. induction a as [| q a IH]; intros b k i x y H1 H2; cbn [cell_loop app] in *.
  - inversion H1. rewrite H2. f_equal. ring.
  - destruct (f q) as [r |]; [| discriminate]. cbn [obind] in *. destruct (cell_loop dim f a k i) as [s |] eqn:E; [| discriminate]. cbn [obind] in H1.
    rewrite (IH b k i s y E H2). inversion H1. cbn [obind]. f_equal. ring.
Qed.

(** For all meshes with any linear constraints, states, velocities, numbers of order
    parameters and cut-offs: every entry of the matrix of order parameter [b] is the entry
    of the linearised operator up to the removal of entries below 1e-10 times the largest
    one of the cell; with the cut-off, zeros on the diagonal are replaced by one. *)
Theorem C67_blocked : forall p cut_off n ng u b cells I J, (b < ng)%nat -> (J < n)%nat ->
  (cut_off = false -> forall a q, In a cells -> In q (a_pts a) -> k_rel q b = true) ->
  exists z y err,
    block_entry p cut_off n ng u b cells I J = Some z
    /\ vmult p n (map (jacobian_point ng) (all_points cells)) u (fun c j => if Nat.eqb c (2 + b) && Nat.eqb j J then 1 else 0) (2 + b) I = Some y
    /\ clipping p cut_off n ng u b cells I J = Some err
    /\ (Rabs (z - y) <= err \/ cut_off = true /\ I = J /\ z = 1 /\ Rabs y <= err).
Proof.
  intros p cut_off n ng u b cells I J Hb HJ Hc.
  assert (G : exists x y err, assemble p cut_off n ng u b cells I J = Some x
    /\ vmult p n (map (jacobian_point ng) (all_points cells)) u (unit_vec (S (S b)) J) (S (S b)) I = Some y
    /\ clipping p cut_off n ng u b cells I J = Some err /\ Rabs (x - y) <= err).
  { induction cells as [| a cells IH].
    - exists 0, 0, 0. repeat split; try reflexivity. rewrite Rminus_0_r, Rabs_R0. lra.
    - destruct IH as [x [y [err [E1 [E2 [E3 B]]]]]]; [intros H a' q I1 I2; apply (Hc H a' q); [right; exact I1 | exact I2] |].
      destruct (local_matrix_spec p cut_off n ng u a b Hb) as [M [EM HM]]; [intros H q Iq; apply (Hc H a q); [left; reflexivity | exact Iq] |].
      assert (JP : cell_loop (o_dim p) (fun q => vmult_point p (q_vel q) (values n q u) (grads n q u) (values n q (unit_vec (S (S b)) J)) (grads n q (unit_vec (S (S b)) J)))
         (map (jacobian_point ng) (map (global_point a) (a_pts a))) (S (S b)) I
         = Some (fold_right Rplus 0 (map (fun q => cell_form p n ng u a b q (k_N (global_point a q) I) (k_G (global_point a q) I) (k_N (global_point a q) J) (k_G (global_point a q) J)) (a_pts a)))).
      { clear - Hb HJ. induction (a_pts a) as [| q l IH]; [reflexivity |]. cbn [map cell_loop fold_right].
        destruct (jacobian_entry_point p n ng u (global_point a q) b I J Hb HJ) as [vs [gs [P1 P2]]]. rewrite P1. cbn [obind fst snd]. rewrite IH. cbn [obind]. rewrite P2. reflexivity. }
      exists (vsum (a_m a) (fun i => vsum (a_m a) (fun j => a_C a i I * clip (a_m a) M i j * a_C a j J)) + x).
      eexists. exists (/ 10 ^ 10 * matrix_max (a_m a) M * (vsum (a_m a) (fun i => Rabs (a_C a i I)) * vsum (a_m a) (fun j => Rabs (a_C a j J))) + err).
      split; [cbn [assemble]; rewrite EM; cbn [obind]; rewrite E1; reflexivity |].
      split; [| split].
      + cbn [all_points flat_map]. fold (all_points cells). rewrite map_app. unfold vmult. apply cell_loop_app; [exact JP | exact E2].
      + cbn [clipping]. rewrite EM. cbn [obind]. rewrite E3. reflexivity.
      + rewrite <- (assembled_cell p n ng u a b M I J HM). assert (AE := assembly_error (a_m a) (a_C a) M I J).
        match goal with |- Rabs (?A + x - (?B + y)) <= _ => replace (A + x - (B + y)) with ((A - B) + (x - y)) by ring end.
        eapply Rle_trans; [apply Rabs_triang |]. lra. }
  destruct G as [x [y [err [E1 [E2 [E3 B]]]]]]. unfold block_entry. rewrite E1. cbn [obind].
  destruct cut_off; cbn [andb]; [destruct (Nat.eqb_spec I J) as [D | D]; [destruct (Req_EM_T x 0) as [Z | Z] |] |].
  - exists 1, y, err. split; [reflexivity | split; [exact E2 | split; [exact E3 | right]]].
    repeat split; [exact D |]. rewrite Z, Rminus_0_l, Rabs_Ropp in B. exact B.
  - exists x, y, err. split; [reflexivity | split; [exact E2 | split; [exact E3 | left; exact B]]].
  - exists x, y, err. split; [reflexivity | split; [exact E2 | split; [exact E3 | left; exact B]]].
  - exists x, y, err. split; [reflexivity | split; [exact E2 | split; [exact E3 | left; exact B]]].
Qed.
Print Assumptions C67_blocked.

Definition live_op : op_data := mkOp 1 1 1 1 1 1 1 (mkCoefficients 0 0 0 0 1) false.
(** two grains on an element with two local degrees of freedom, the second constrained to
    half of the first; order parameter 1 with the cut-off *)
Example C67_blocked_case :
  let a := mkAcell 2 (fun i I => if Nat.eqb I 0 then if Nat.eqb i 0 then 1 else 1 / 2 else 0) [unit_cell (fun _ => true) (fun g => if Nat.eqb g 0 then Some (fun _ => 3) else None)] in
  (1 < 2)%nat /\ (0 < 1)%nat /\ clipping live_op true 1 2 (fun _ _ => 0) 1 [a; a] 0 0 <> None
  /\ vmult live_op 1 (map (jacobian_point 2) (all_points [a])) (fun _ _ => 0) (fun c j => if Nat.eqb c 3 && Nat.eqb j 0 then 1 else 0) 3 0 = Some (13 * (9 / 16) + 1 / 4).
Proof.
  cbv zeta. split; [lia |]. split; [lia |].
  match goal with |- clipping _ _ _ _ _ _ [?x; _] _ _ <> None /\ _ => set (a := x) end.
  split.
  - destruct (C67_blocked live_op true 1 2 (fun _ _ => 0) 1 [a; a] 0 0) as [z [y [err [_ [_ [E _]]]]]]; [lia | lia | discriminate |]. rewrite E. discriminate.
  - unfold all_points. cbn [flat_map a_pts a map app]. unfold vmult. cbn [cell_loop].
    destruct (jacobian_entry_point live_op 1 2 (fun _ _ => 0) (global_point a (unit_cell (fun _ => true) (fun g => if Nat.eqb g 0 then Some (fun _ => 3) else None))) 1 0 0) as [vs [gs [E1 E2]]]; [lia | lia |].
    unfold unit_vec in E1. rewrite E1. cbn [obind fst snd]. rewrite E2. f_equal.
    unfold point_form, al_of, be_of, ve_of, a, o_L. unfold eval_lin, d2f_detai2. cbn. lra.
Qed.

(** ** approximations with one matrix for all order parameters *)
(** parameters.h 1144-1148 offers "all", "const", "max", "avg".  "max" is not the largest
    second derivative, "avg" is not their mean. *)
Theorem C67_labels_refuted : exists ds a m,
  scaling_of "max" ds = Some m /\ In a ds /\ Rabs m < Rabs a
  /\ exists v, scaling_of "avg" ds = Some v /\ v <> (nth 0 ds 0 + nth 1 ds 0) / 2 /\ length ds = 2%nat.
Proof.
  exists [1; 3], 3, 2. split; [cbn; f_equal; lra |]. split; [right; left; reflexivity |]. split; [rewrite !Rabs_right by lra; lra |].
  exists 3. split; [| split; [cbn; lra | reflexivity]].
  unfold scaling_of. cbn [to_value String.eqb Ascii.eqb Bool.eqb obind scaling fold_left]. unfold max_step.
  destruct (Rlt_dec (Rabs 1) (Rabs 0)) as [H | _]; [rewrite (Rabs_right 1), Rabs_R0 in H by lra; lra |].
  destruct (Rlt_dec (Rabs 3) (Rabs 1)) as [H | _]; [rewrite !Rabs_right in H by lra; lra |]. reflexivity.
Qed.
Print Assumptions C67_labels_refuted.

Lemma fold_max_step : forall ds a, let m := fold_left max_step ds a in (m = a \/ In m ds) /\ Rabs a <= Rabs m /\ forall d, In d ds -> Rabs d <= Rabs m.
Proof.
  induction ds as [| x ds IH]; intros a; cbv zeta; cbn [fold_left].
  - split; [left; reflexivity |]. split; [lra | intros d []].
  - destruct (IH (max_step a x)) as [H1 [H2 H3]]. unfold max_step in *. destruct (Rlt_dec (Rabs x) (Rabs a)) as [L | L].
    + split; [destruct H1 as [-> | H1]; [left; reflexivity | right; right; exact H1] |]. split; [exact H2 |]. intros d [<- | I]; [lra | apply H3; exact I].
    + split; [destruct H1 as [-> | H1]; right; [left; reflexivity | right; exact H1] |]. split; [lra |]. intros d [<- | I]; [exact H2 | apply H3; exact I].
Qed.

(** For all numbers of order parameters: with "max" and "avg" exchanged the labels are
    right; "const" leaves the energy out; other labels are refused. *)
Theorem C67_labels_swapped_partial : forall ds, ds <> [] ->
  (exists m, scaling_of "max" ds = Some m /\ m * INR (length ds) = fold_right Rplus 0 ds)
  /\ (exists v, scaling_of "avg" ds = Some v /\ In v ds /\ forall d, In d ds -> Rabs d <= Rabs v)
  /\ scaling_of "const" ds = Some 0
  /\ (forall l, ~ In l ["all"; "const"; "max"; "avg"]%string -> scaling_of l ds = None).
Proof.
  intros ds NE. assert (L : INR (length ds) <> 0) by (apply not_0_INR; destruct ds; [contradiction | discriminate]).
  split; [| split; [| split]].
  - eexists. split; [reflexivity |]. rewrite fold_symmetric by (intros; ring). field. exact L.
  - exists (fold_left max_step ds 0). split; [reflexivity |]. destruct (fold_max_step ds 0) as [H1 [_ H3]]. split; [| exact H3].
    destruct H1 as [H1 | H1]; [| exact H1]. rewrite H1 in H3. rewrite H1. destruct ds as [| d ds]; [contradiction |]. left.
    specialize (H3 d (or_introl eq_refl)). rewrite Rabs_R0 in H3. assert (P := Rabs_pos d). destruct (Req_dec d 0) as [-> | D]; [reflexivity |]. apply Rabs_pos_lt in D. lra.
  - reflexivity.
  - intros l H. unfold scaling_of, to_value. cbn [In] in H.
    destruct (String.eqb_spec l "all"); [exfalso; apply H; auto |]. destruct (String.eqb_spec l "const"); [exfalso; apply H; auto |].
    destruct (String.eqb_spec l "max"); [exfalso; apply H; auto |]. destruct (String.eqb_spec l "avg"); [exfalso; apply H; auto 6 |]. reflexivity.
Qed.
Print Assumptions C67_labels_swapped_partial.

(** ** blocks given to the preconditioners *)
(** For all numbers of blocks and dimensions: the ranges given to the preconditioners
    cover every block exactly once, in order. *)
Theorem C67_views : forall dim n_blocks (solid : bool), (2 + (if solid then dim else 0) <= n_blocks)%nat ->
  exists vs, views dim n_blocks solid = Some vs /\ concat vs = seq 0 n_blocks
    /\ nth 0 vs [] = [0; 1]%nat /\ length vs = (if solid then 3 else 2)%nat /\ (solid = true -> length (nth 2 vs []) = dim).
Proof.
  intros dim nb solid H. unfold views, view. change (Nat.leb 0 2) with true. cbn [obind]. destruct solid.
  - destruct (Nat.ltb_spec nb dim); [lia |]. destruct (Nat.leb_spec 2 (nb - dim)); [| lia]. cbn [obind].
    destruct (Nat.leb_spec (nb - dim) nb); [| lia]. cbn [obind]. eexists. split; [reflexivity |].
    split; [| split; [reflexivity | split; [reflexivity | intros _; cbn [nth]; rewrite seq_length; lia]]].
    cbn [concat]. rewrite app_nil_r.
    replace (seq (nb - dim) (nb - (nb - dim))) with (seq (2 + (nb - dim - 2)) (nb - (nb - dim))) by (f_equal; lia).
    rewrite <- seq_app. change (seq 0 (2 - 0)) with (seq 0 2). rewrite <- (seq_app 2 _ 0). f_equal. lia.
  - destruct (Nat.leb_spec 2 nb); [| lia]. cbn [obind]. eexists. split; [reflexivity |].
    split; [| split; [reflexivity | split; [reflexivity | discriminate]]].
    cbn [concat]. rewrite app_nil_r. change (seq 0 (2 - 0)) with (seq 0 2). rewrite <- (seq_app 2 _ 0). f_equal. lia.
Qed.
Print Assumptions C67_views.
Example C67_views_case : views 3 9 true = Some [[0; 1]; [2; 3; 4; 5]; [6; 7; 8]]%nat.
Proof. reflexivity. Qed.

(** With one order parameter the Allen-Cahn operator throws. *)
Theorem C67_one_grain_refuted : exists p n cells u src k i, ac_vmult p true n 1 cells u src k i = None /\ cells <> [].
Proof.
  exists one_op, 2%nat, [unit_cell (fun _ => true) (fun _ => None)], (fun _ _ => 0), (fun _ _ => 0), 0%nat, 0%nat. split; [reflexivity | discriminate].
Qed.
Print Assumptions C67_one_grain_refuted.
