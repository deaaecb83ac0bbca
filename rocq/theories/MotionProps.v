(** C53: rotations and moments of inertia of the grains. *)
From Coq Require Import List Reals Arith Lra Lia Psatz Nsatz.
From Verif Require Import MobilityModel MobilityProofs VecGeom InitialModel NeckProps MotionModel.
Import ListNotations.
Local Open Scope R_scope.

(** ** Specification *)
Definition delta (d e : nat) : R := if Nat.eqb d e then 1 else 0.
Definition orthonormal (dim : nat) (a : nat -> vec) : Prop :=
  forall d e, (d < dim)%nat -> (e < dim)%nat -> dot dim (a d) (a e) = delta d e.
Definition is_rotation (Q : mat) : Prop :=
  (forall x y, dot 3 (mv 3 Q x) (mv 3 Q y) = dot 3 x y) /\
  dot 3 (cross (mv 3 Q (global_axes 0)) (mv 3 Q (global_axes 1))) (mv 3 Q (global_axes 2)) = 1.

(** ** Sums *)
Lemma dsum_ext : forall n f g, (forall d, (d < n)%nat -> f d = g d) -> dsum n f = dsum n g.
Proof. induction n as [|n IH]; intros f g H; cbn [dsum]; [reflexivity|]. rewrite (IH f g) by (intros; apply H; lia). rewrite H by lia. reflexivity. Qed.
Lemma dsum_plus : forall n f g, dsum n (fun d => f d + g d) = dsum n f + dsum n g.
Proof. induction n as [|n IH]; intros; cbn [dsum]; [ring|]. rewrite IH. ring. Qed.
Lemma dsum_scale : forall n f c, dsum n (fun d => c * f d) = c * dsum n f.
Proof. induction n as [|n IH]; intros; cbn [dsum]; [ring|]. rewrite IH. ring. Qed.
Lemma dsum_zero : forall n, dsum n (fun _ => 0) = 0.
Proof. induction n as [|n IH]; cbn [dsum]; [reflexivity|]. rewrite IH. ring. Qed.
Lemma dsum_swap : forall n m f, dsum n (fun i => dsum m (fun j => f i j)) = dsum m (fun j => dsum n (fun i => f i j)).
Proof.
  induction n as [|n IH]; intros m f; cbn [dsum]; [rewrite dsum_zero; reflexivity|].
  rewrite IH, <- dsum_plus. reflexivity.
Qed.
Lemma dsum_delta : forall n f e, (e < n)%nat -> dsum n (fun d => f d * delta d e) = f e.
Proof.
  induction n as [|n IH]; intros f e H; [lia|]. cbn [dsum]. unfold delta at 2. destruct (Nat.eqb_spec n e) as [->|N].
  - rewrite (dsum_ext e _ (fun _ => 0)); [rewrite dsum_zero; ring|]. intros d Hd. unfold delta.
    destruct (Nat.eqb_spec d e); [lia|ring].
  - rewrite IH by lia. ring.
Qed.
Lemma dot_dsum : forall dim a b, dot dim a b = dsum dim (fun d => a d * b d).
Proof. induction dim as [|n IH]; intros; cbn [dot dsum]; [reflexivity|]. rewrite IH. reflexivity. Qed.
Lemma mv_dot : forall dim A x i, mv dim A x i = dot dim (A i) x.
Proof. intros. unfold mv. rewrite dot_dsum. reflexivity. Qed.
Lemma dot_ext_lt : forall dim a b a' b', (forall d, (d < dim)%nat -> a d = a' d) -> (forall d, (d < dim)%nat -> b d = b' d) ->
  dot dim a b = dot dim a' b'.
Proof. intros. rewrite !dot_dsum. apply dsum_ext. intros d Hd. rewrite H, H0 by exact Hd. reflexivity. Qed.

(** Orthonormal vectors form a basis. *)
Lemma parseval : forall dim a x y, dim = 2%nat \/ dim = 3%nat -> orthonormal dim a ->
  dot dim x y = dsum dim (fun d => dot dim x (a d) * dot dim y (a d)).
Proof.
  intros dim a x y [-> | -> ] H.
  - assert (H00 := H 0%nat 0%nat ltac:(lia) ltac:(lia)). assert (H01 := H 0%nat 1%nat ltac:(lia) ltac:(lia)).
    assert (H11 := H 1%nat 1%nat ltac:(lia) ltac:(lia)).
    unfold delta in *. cbn [Nat.eqb dot dsum] in *.
    set (p := a 0%nat 0%nat) in *. set (q := a 0%nat 1%nat) in *. set (r := a 1%nat 0%nat) in *. set (s := a 1%nat 1%nat) in *.
    set (x0 := x 0%nat). set (x1 := x 1%nat). set (y0 := y 0%nat). set (y1 := y 1%nat). clearbody p q r s x0 x1 y0 y1.
    nsatz.
  - assert (H00 := H 0%nat 0%nat ltac:(lia) ltac:(lia)). assert (H01 := H 0%nat 1%nat ltac:(lia) ltac:(lia)).
    assert (H02 := H 0%nat 2%nat ltac:(lia) ltac:(lia)). assert (H11 := H 1%nat 1%nat ltac:(lia) ltac:(lia)).
    assert (H12 := H 1%nat 2%nat ltac:(lia) ltac:(lia)). assert (H22 := H 2%nat 2%nat ltac:(lia) ltac:(lia)).
    unfold delta in *. cbn [Nat.eqb dot dsum] in *.
    set (a0 := a 0%nat 0%nat) in *. set (a1 := a 0%nat 1%nat) in *. set (a2 := a 0%nat 2%nat) in *.
    set (b0 := a 1%nat 0%nat) in *. set (b1 := a 1%nat 1%nat) in *. set (b2 := a 1%nat 2%nat) in *.
    set (c0 := a 2%nat 0%nat) in *. set (c1 := a 2%nat 1%nat) in *. set (c2 := a 2%nat 2%nat) in *.
    set (x0 := x 0%nat). set (x1 := x 1%nat). set (x2 := x 2%nat). set (y0 := y 0%nat). set (y1 := y 1%nat). set (y2 := y 2%nat).
    clearbody a0 a1 a2 b0 b1 b2 c0 c1 c2 x0 x1 x2 y0 y1 y2.
    assert (E : a0 * a0 + b0 * b0 + c0 * c0 = 1 /\ a1 * a1 + b1 * b1 + c1 * c1 = 1 /\ a2 * a2 + b2 * b2 + c2 * c2 = 1 /\
                a0 * a1 + b0 * b1 + c0 * c1 = 0 /\ a0 * a2 + b0 * b2 + c0 * c2 = 0 /\ a1 * a2 + b1 * b2 + c1 * c2 = 0).
    { repeat split; nsatz. }
    clear - E. destruct E as (E00 & E11 & E22 & E01 & E02 & E12). nsatz.
Qed.

(** ** Rotations between systems of axes *)
Lemma from_axes_mv : forall dim axes axes0 x i,
  mv dim (rotation_tensor_from_axes dim axes axes0) x i = dsum dim (fun d => axes0 d i * dot dim x (axes d)).
Proof.
  intros dim axes axes0 x i. unfold mv, rotation_tensor_from_axes, outer_product.
  rewrite (dsum_ext dim _ (fun j => dsum dim (fun d => axes0 d i * (axes d j * x j)))).
  2:{ intros j _. rewrite (Rmult_comm _ (x j)), <- dsum_scale. apply dsum_ext. intros d _. ring. }
  rewrite dsum_swap. apply dsum_ext. intros d _. rewrite dsum_scale. f_equal. rewrite dot_comm, dot_dsum. reflexivity.
Qed.

Lemma dot_global : forall dim x d, (d < dim)%nat -> dot dim x (global_axes d) = x d.
Proof.
  intros dim x d H. rewrite dot_dsum. rewrite (dsum_ext dim _ (fun i => x i * delta i d)) by reflexivity.
  apply dsum_delta. exact H.
Qed.

Lemma global_orthonormal : forall dim, orthonormal dim global_axes.
Proof. intros dim d e Hd He. rewrite dot_global by exact He. unfold global_axes, delta. rewrite Nat.eqb_sym. reflexivity. Qed.

(** The tensor carries the first system to the second one and keeps lengths and angles. *)
Theorem C53_axes : forall dim axes axes0, dim = 2%nat \/ dim = 3%nat -> orthonormal dim axes -> orthonormal dim axes0 ->
  let Q := rotation_tensor_from_axes dim axes axes0 in
  (forall d i, (d < dim)%nat -> mv dim Q (axes d) i = axes0 d i) /\
  (forall x y, dot dim (mv dim Q x) (mv dim Q y) = dot dim x y).
Proof.
  intros dim axes axes0 Hdim HA H0 Q. split.
  - intros d i Hd. unfold Q. rewrite from_axes_mv.
    rewrite (dsum_ext dim _ (fun e => axes0 e i * delta e d)); [apply (dsum_delta dim (fun e => axes0 e i)); exact Hd|].
    intros e He. rewrite (HA d e Hd He). unfold delta. rewrite Nat.eqb_sym. reflexivity.
  - intros x y. rewrite (parseval dim axes x y Hdim HA).
    rewrite (parseval dim axes0 (mv dim Q x) (mv dim Q y) Hdim H0). apply dsum_ext.
    assert (E : forall z d, (d < dim)%nat -> dot dim (mv dim Q z) (axes0 d) = dot dim z (axes d)).
    { intros z d Hd. rewrite dot_dsum.
      rewrite (dsum_ext dim _ (fun i => dsum dim (fun e => dot dim z (axes e) * (axes0 e i * axes0 d i)))).
      2:{ intros i _. unfold Q. rewrite from_axes_mv, Rmult_comm, <- dsum_scale. apply dsum_ext. intros e _. ring. }
      rewrite dsum_swap. rewrite (dsum_ext dim _ (fun e => dot dim z (axes e) * delta e d)).
      - apply (dsum_delta dim (fun e => dot dim z (axes e))). exact Hd.
      - intros e He. rewrite dsum_scale. f_equal. rewrite <- (H0 e d He Hd), dot_dsum. reflexivity. }
    intros d Hd. rewrite !E by exact Hd. reflexivity.
Qed.
Print Assumptions C53_axes.

(** With one system only: to the own axes, or back if transposed. *)
Theorem C53_own_axes : forall dim axes d i, (d < dim)%nat -> (i < dim)%nat -> orthonormal dim axes ->
  mv dim (rotation_tensor_from_own_axes dim axes false) (global_axes d) i = axes d i /\
  mv dim (rotation_tensor_from_own_axes dim axes true) (axes d) i = global_axes d i.
Proof.
  intros dim axes d i Hd Hi HA. unfold rotation_tensor_from_own_axes. rewrite !from_axes_mv. split.
  - rewrite (dsum_ext dim _ (fun e => axes e i * delta e d)); [apply (dsum_delta dim (fun e => axes e i)); exact Hd|].
    intros e He. rewrite (global_orthonormal dim d e Hd He). unfold delta. rewrite Nat.eqb_sym. reflexivity.
  - rewrite (dsum_ext dim _ (fun e => global_axes e i * delta e d)); [apply (dsum_delta dim (fun e => global_axes e i)); exact Hd|].
    intros e He. rewrite (HA d e Hd He). unfold delta. rewrite Nat.eqb_sym. reflexivity.
Qed.
Print Assumptions C53_own_axes.

(** The comment of the function gives Q = e_i e_i0^T, which would carry [axes0] to [axes];
    a quarter turn shows the difference. *)
Definition quarter : nat -> vec := fun d i =>
  match d, i with 0%nat, 1%nat => 1 | 1%nat, 0%nat => -1 | _, _ => 0 end.
Theorem C53_documented_refuted : orthonormal 2 quarter /\
  quarter 0%nat 1%nat = 1 /\ mv 2 (rotation_tensor_from_axes 2 quarter global_axes) (global_axes 0) 1%nat = -1.
Proof.
  split; [|split].
  - intros d e Hd He. destruct d as [|[|d]]; destruct e as [|[|e]]; try lia; unfold delta; cbn; ring.
  - reflexivity.
  - rewrite from_axes_mv. unfold global_axes, quarter. cbn. ring.
Qed.
Print Assumptions C53_documented_refuted.

(** ** Rotation about an axis *)
Lemma mv3 : forall A x i, mv 3 A x i = A i 0%nat * x 0%nat + A i 1%nat * x 1%nat + A i 2%nat * x 2%nat.
Proof. intros. unfold mv. cbn [dsum]. ring. Qed.

Lemma half_angle : forall t, cos t = 1 - 2 * (sin (t / 2) * sin (t / 2)) /\ sin t = 2 * (sin (t / 2) * cos (t / 2)) /\
  cos (t / 2) * cos (t / 2) = 1 - sin (t / 2) * sin (t / 2).
Proof.
  intros t. pose proof (cos_2a_sin (t / 2)) as C. pose proof (sin_2a (t / 2)) as D.
  replace (2 * (t / 2)) with t in C, D by field.
  pose proof (sin2_cos2 (t / 2)) as H. unfold Rsqr in H. split; [lra|]. split; lra.
Qed.

(** Rodrigues' formula: the rotation by the angle about the axis. *)
Theorem C53_rodrigues : forall n t v i, dot 3 n n = 1 -> (i < 3)%nat ->
  mv 3 (rotation_via_quaternions n t) v i = cos t * v i + sin t * cross n v i + (1 - cos t) * dot 3 n v * n i.
Proof.
  intros n t v i Hn Hi. destruct (half_angle t) as (Ec & Es & Eq). rewrite Ec, Es. rewrite mv3, !dot3 in *.
  set (c := cos (t / 2)) in *. set (s := sin (t / 2)) in *.
  destruct i as [|[|[|i]]]; try lia; unfold rotation_via_quaternions; fold c; fold s; cbn [cross]; clearbody c s; clear Ec Es;
    set (n0 := n 0%nat) in *; set (n1 := n 1%nat) in *; set (n2 := n 2%nat) in *;
    set (v0 := v 0%nat) in *; set (v1 := v 1%nat) in *; set (v2 := v 2%nat) in *; clearbody n0 n1 n2 v0 v1 v2;
    assert (N : n0 * n0 = 1 - n1 * n1 - n2 * n2) by lra; ring [N].
Qed.
Print Assumptions C53_rodrigues.

Theorem C53_rotation : forall n t, dot 3 n n = 1 -> is_rotation (rotation_via_quaternions n t).
Proof.
  intros n t Hn. unfold is_rotation. split.
  - intros x y. rewrite (dot3 (mv 3 _ x)). rewrite !C53_rodrigues by (try exact Hn; lia).
    pose proof (sin2_cos2 t) as T. unfold Rsqr in T. rewrite !dot3 in *. cbn [cross].
    set (c := cos t) in *. set (s := sin t) in *. clearbody c s.
    set (n0 := n 0%nat) in *; set (n1 := n 1%nat) in *; set (n2 := n 2%nat) in *.
    set (x0 := x 0%nat) in *; set (x1 := x 1%nat) in *; set (x2 := x 2%nat) in *.
    set (y0 := y 0%nat) in *; set (y1 := y 1%nat) in *; set (y2 := y 2%nat) in *.
    clearbody n0 n1 n2 x0 x1 x2 y0 y1 y2.
    assert (N : n0 * n0 = 1 - n1 * n1 - n2 * n2) by lra. assert (M : s * s = 1 - c * c) by lra. ring [N M].
  - rewrite dot3. cbn [cross]. rewrite !C53_rodrigues by (try exact Hn; lia).
    pose proof (sin2_cos2 t) as T. unfold Rsqr in T. rewrite !dot3 in *. cbn [cross]. unfold global_axes. cbn [Nat.eqb].
    set (c := cos t) in *. set (s := sin t) in *. clearbody c s.
    set (n0 := n 0%nat) in *; set (n1 := n 1%nat) in *; set (n2 := n 2%nat) in *. clearbody n0 n1 n2.
    assert (N : n0 * n0 = 1 - n1 * n1 - n2 * n2) by lra. assert (M : s * s = 1 - c * c) by lra. ring [N M].
Qed.
Print Assumptions C53_rotation.

(** Two turns about the same axis add up. *)
Theorem C53_composition : forall n s t v i, dot 3 n n = 1 -> (i < 3)%nat ->
  mv 3 (rotation_via_quaternions n s) (mv 3 (rotation_via_quaternions n t) v) i = mv 3 (rotation_via_quaternions n (s + t)) v i.
Proof.
  intros n s t v i Hn Hi. rewrite !(C53_rodrigues n s), !(C53_rodrigues n (s + t)) by assumption.
  rewrite (dot3 n (mv 3 _ v)). rewrite cos_plus, sin_plus.
  pose proof (sin2_cos2 t) as T. pose proof (sin2_cos2 s) as U. unfold Rsqr in T, U.
  assert (K : cross n (mv 3 (rotation_via_quaternions n t) v) i =
    cross n (fun i => cos t * v i + sin t * cross n v i + (1 - cos t) * dot 3 n v * n i) i).
  { destruct i as [|[|[|i]]]; try lia; cbn [cross]; rewrite !(C53_rodrigues n t) by (try exact Hn; lia); reflexivity. }
  rewrite K. rewrite !(C53_rodrigues n t) by (try exact Hn; lia). rewrite !dot3 in *.
  set (ct := cos t) in *. set (st := sin t) in *. set (cs := cos s) in *. set (ss := sin s) in *. clearbody ct st cs ss. clear K.
  destruct i as [|[|[|i]]]; try lia; cbn [cross];
    set (n0 := n 0%nat) in *; set (n1 := n 1%nat) in *; set (n2 := n 2%nat) in *;
    set (v0 := v 0%nat) in *; set (v1 := v 1%nat) in *; set (v2 := v 2%nat) in *; clearbody n0 n1 n2 v0 v1 v2;
    assert (N : n0 * n0 = 1 - n1 * n1 - n2 * n2) by lra; ring [N].
Qed.
Print Assumptions C53_composition.

(** The axis has to be of length one: a half turn about a longer axis does not keep lengths. *)
Theorem C53_long_axis_refuted : let n := fun d => 2 * global_axes 2 d in
  dot 3 (mv 3 (rotation_via_quaternions n PI) (global_axes 0)) (mv 3 (rotation_via_quaternions n PI) (global_axes 0)) = 49.
Proof.
  cbv zeta. rewrite dot3, !mv3. unfold rotation_via_quaternions, global_axes. cbn [Nat.eqb]. rewrite sin_PI2, cos_PI2. ring.
Qed.
Print Assumptions C53_long_axis_refuted.

(** ** Moments of inertia *)
Definition cell_sum (f : vec -> R -> R) (cells : list (vec * R)) : R := fold_right (fun c s => f (fst c) (snd c) + s) 0 cells.

Lemma inertia_entries : forall dim center cells, dim = 2%nat \/ dim = 3%nat ->
  particle_inertia dim center cells =
  map (fun f => cell_sum (fun p m => f (fun d => p d - center d) m) cells)
    (if Nat.eqb dim 2 then
       [fun r m => r 1%nat * r 1%nat * m; fun r m => r 0%nat * r 0%nat * m; fun r m => - r 0%nat * r 1%nat * m]
     else
       [fun r m => (r 1%nat * r 1%nat + r 2%nat * r 2%nat) * m; fun r m => (r 0%nat * r 0%nat + r 2%nat * r 2%nat) * m;
        fun r m => (r 0%nat * r 0%nat + r 1%nat * r 1%nat) * m;
        fun r m => - r 0%nat * r 1%nat * m; fun r m => - r 0%nat * r 2%nat * m; fun r m => - r 1%nat * r 2%nat * m]).
Proof.
  intros dim center cells Hdim. unfold particle_inertia.
  assert (G : forall (fs : list (vec -> R -> R)) (upd : vec -> R -> list R -> list R),
    (forall r m data, length data = length fs -> upd r m data = map (fun p => fst p + snd p) (combine data (map (fun f => f r m) fs))) ->
    forall cells data, length data = length fs ->
    fold_left (fun data (c : vec * R) => upd (fun d => fst c d - center d) (snd c) data) cells data =
    map (fun p => fst p + snd p) (combine data (map (fun f => cell_sum (fun p m => f (fun d => p d - center d) m) cells) fs))).
  { clear. intros fs upd HU cells. induction cells as [|c cells IH]; intros data HL; cbn [fold_left].
    - clear HU. revert data HL. induction fs as [|f fs IH]; intros [|x data] HL; try discriminate; [reflexivity|].
      cbn [map combine fst snd cell_sum fold_right]. rewrite Rplus_0_r. f_equal. apply IH. injection HL as HL. exact HL.
    - rewrite IH; rewrite HU by exact HL.
      2:{ rewrite map_length, combine_length, map_length, HL. apply Nat.min_id. }
      clear IH HU. revert data HL. induction fs as [|f fs IH]; intros [|x data] HL; try discriminate; [reflexivity|].
      cbn [map combine fst snd]. f_equal; [cbn [cell_sum fold_right]; unfold cell_sum; ring|]. apply IH. injection HL as HL. exact HL. }
  assert (Z : forall l, map (fun p => fst p + snd p) (combine (repeat 0 (length l)) l) = l).
  { induction l as [|x l IH]; [reflexivity|]. cbn [length repeat combine map fst snd]. rewrite IH, Rplus_0_l. reflexivity. }
  destruct Hdim as [-> | -> ]; cbn [Nat.eqb].
  - rewrite (G [fun r m => r 1%nat * r 1%nat * m; fun r m => r 0%nat * r 0%nat * m; fun r m => - r 0%nat * r 1%nat * m] (evaluate_inertia_properties 2)).
    + apply (Z [_; _; _]).
    + intros r m data _. reflexivity.
    + reflexivity.
  - rewrite (G [fun r m => (r 1%nat * r 1%nat + r 2%nat * r 2%nat) * m; fun r m => (r 0%nat * r 0%nat + r 2%nat * r 2%nat) * m;
        fun r m => (r 0%nat * r 0%nat + r 1%nat * r 1%nat) * m;
        fun r m => - r 0%nat * r 1%nat * m; fun r m => - r 0%nat * r 2%nat * m; fun r m => - r 1%nat * r 2%nat * m] (evaluate_inertia_properties 3)).
    + apply (Z [_; _; _; _; _; _]).
    + intros r m data _. reflexivity.
    + reflexivity.
Qed.

Lemma cell_sum_lin : forall f g a b cells, cell_sum (fun p m => a * f p m + b * g p m) cells = a * cell_sum f cells + b * cell_sum g cells.
Proof. intros f g a b. induction cells as [|c cells IH]; cbn [cell_sum fold_right]; [ring|]. unfold cell_sum in *. rewrite IH. ring. Qed.
Lemma cell_sum_ext : forall f g cells, (forall p m, f p m = g p m) -> cell_sum f cells = cell_sum g cells.
Proof. intros f g cells H. induction cells as [|c cells IH]; cbn [cell_sum fold_right]; [reflexivity|]. rewrite H. unfold cell_sum in IH. rewrite IH. reflexivity. Qed.
Lemma cell_sum_nonneg : forall f cells, (forall p m, In (p, m) cells -> 0 <= f p m) -> 0 <= cell_sum f cells.
Proof.
  intros f cells. induction cells as [|[p m] cells IH]; intros H; cbn [cell_sum fold_right]; [lra|].
  pose proof (H p m (or_introl eq_refl)). assert (0 <= cell_sum f cells) by (apply IH; intros; apply H; right; assumption).
  unfold cell_sum in *. cbn [fst snd]. lra.
Qed.

(** The moment about a direction is the sum of the measures times the squared distances to
    that line, and the tensor is symmetric. *)
Theorem C53_inertia : forall dim center cells u, dim = 2%nat \/ dim = 3%nat ->
  let A := symmetric_tensor dim (particle_inertia dim center cells) in
  let r p := fun d => p d - center d in
  dot dim (mv dim A u) u =
    cell_sum (fun p m => m * (dot dim (r p) (r p) * dot dim u u - dot dim (r p) u * dot dim (r p) u)) cells /\
  (forall i j, A i j = A j i).
Proof.
  intros dim center cells u Hdim A r. split.
  - unfold A, r. rewrite inertia_entries by exact Hdim.
    destruct Hdim as [-> | -> ]; cbn [Nat.eqb]; unfold symmetric_tensor, mv; cbn [dot dsum map List.nth Nat.eqb Nat.add].
    all: clear A r; induction cells as [|[p m] cells IH]; cbn [cell_sum fold_right fst snd]; [ring|];
      unfold cell_sum in IH; rewrite <- IH; clear IH; ring.
  - intros i j. unfold A, symmetric_tensor. rewrite (Nat.eqb_sym j i), (Nat.add_comm j i).
    destruct (Nat.eqb_spec i j) as [->|_]; reflexivity.
Qed.
Print Assumptions C53_inertia.

(** Hence no moment is negative. *)
Theorem C53_inertia_positive : forall dim center cells u, dim = 2%nat \/ dim = 3%nat -> (forall p m, In (p, m) cells -> 0 <= m) ->
  0 <= dot dim (mv dim (symmetric_tensor dim (particle_inertia dim center cells)) u) u.
Proof.
  intros dim center cells u Hdim Hm. rewrite (proj1 (C53_inertia dim center cells u Hdim)). apply cell_sum_nonneg.
  intros p m Hp. apply Rmult_le_pos; [exact (Hm p m Hp)|]. pose proof (cauchy dim (fun d => p d - center d) u). lra.
Qed.
Print Assumptions C53_inertia_positive.

(** However the cells are spread over the processes, the result is that of all cells. *)
Theorem C53_inertia_parallel : forall dim center processes, dim = 2%nat \/ dim = 3%nat ->
  reduced_inertia dim center processes = particle_inertia dim center (concat processes).
Proof.
  intros dim center processes Hdim. rewrite (inertia_entries dim center _ Hdim). unfold reduced_inertia.
  assert (G : forall (fs : list (vec -> R -> R)) processes,
    (forall cells, In cells processes -> particle_inertia dim center cells = map (fun f => cell_sum (fun p m => f (fun d => p d - center d) m) cells) fs) ->
    forall s, length s = length fs ->
    fold_left (fun s cells => map (fun p => fst p + snd p) (combine s (particle_inertia dim center cells))) processes s =
    map (fun p => fst p + snd p) (combine s (map (fun f => cell_sum (fun p m => f (fun d => p d - center d) m) (concat processes)) fs))).
  { clear. intros fs processes. induction processes as [|c processes IH]; intros HP s HL; cbn [fold_left concat].
    - clear HP. revert s HL. induction fs as [|f fs IH]; intros [|x s] HL; try discriminate; [reflexivity|].
      cbn [map combine fst snd cell_sum fold_right]. rewrite Rplus_0_r. f_equal. apply IH. injection HL as HL. exact HL.
    - rewrite (HP c) by (left; reflexivity). rewrite IH.
      2:{ intros cells H. apply HP. right. exact H. }
      2:{ rewrite map_length, combine_length, map_length, HL. apply Nat.min_id. }
      clear IH HP. revert s HL. induction fs as [|f fs IH]; intros [|x s] HL; try discriminate; [reflexivity|].
      cbn [map combine fst snd]. f_equal; [|apply IH; injection HL as HL; exact HL].
      assert (A : forall g (l l' : list (vec * R)), cell_sum g (l ++ l') = cell_sum g l + cell_sum g l').
      { intros g l l'. unfold cell_sum. induction l as [|y l IH']; cbn [app fold_right]; [ring|]. rewrite IH'. ring. }
      rewrite A. ring. }
  assert (Z : forall l, map (fun p => fst p + snd p) (combine (repeat 0 (length l)) l) = l).
  { induction l as [|x l IH]; [reflexivity|]. cbn [length repeat combine map fst snd]. rewrite IH, Rplus_0_l. reflexivity. }
  rewrite (G _ processes (fun cells _ => inertia_entries dim center cells Hdim)).
  - destruct Hdim as [-> | -> ]; cbn [Nat.eqb]; [apply (Z [_; _; _])|apply (Z [_; _; _; _; _; _])].
  - destruct Hdim as [-> | -> ]; reflexivity.
Qed.
Print Assumptions C53_inertia_parallel.

(** A quarter turn about the third axis, and two cells. *)
Example C53_quarter_turn : mv 3 (rotation_via_quaternions (global_axes 2) (PI / 2)) (global_axes 0) 1%nat = 1.
Proof.
  rewrite C53_rodrigues; [|rewrite dot_global by lia; reflexivity|lia].
  rewrite cos_PI2, sin_PI2. rewrite dot_global by lia. unfold global_axes. cbn. ring.
Qed.
Example C53_two_cells : particle_inertia 2 (fun _ => 0) [(global_axes 0, 2); (fun d => 1, 3)] = [3; 5; -3].
Proof. rewrite inertia_entries by (left; reflexivity). cbn. unfold global_axes. cbn. f_equal; [ring|]. f_equal; [ring|]. f_equal. ring. Qed.
