(** Distances in [dim] dimensions: shared lemmas on [dot] and [norm] (MobilityModel.v). *)
From Coq Require Import Reals Lra Lia Arith Psatz.
From Verif Require Import MobilityModel MobilityProofs.
Local Open Scope R_scope.

(** [Point::distance] of deal.II *)
Definition vdist (dim : nat) (a b : vec) : R := norm dim (fun d => a d - b d).

Lemma norm_nonneg : forall dim v, 0 <= norm dim v.
Proof. intros. apply sqrt_pos. Qed.

Lemma norm_ext : forall dim a b, (forall d, a d = b d) -> norm dim a = norm dim b.
Proof. intros dim a b H. unfold norm. f_equal. apply dot_ext; exact H. Qed.

Lemma norm_unique : forall dim v x, 0 <= x -> x * x = dot dim v v -> norm dim v = x.
Proof.
  intros dim v x Hx E. unfold norm. rewrite <- E. apply sqrt_square. exact Hx.
Qed.

Lemma norm_scale : forall dim s v, norm dim (fun d => s * v d) = Rabs s * norm dim v.
Proof.
  intros dim s v. apply norm_unique.
  - apply Rmult_le_pos; [apply Rabs_pos|apply norm_nonneg].
  - replace (Rabs s * norm dim v * (Rabs s * norm dim v)) with (Rabs s * Rabs s * (norm dim v * norm dim v)) by ring.
    rewrite norm_sq. assert (E : Rabs s * Rabs s = s * s) by (rewrite <- Rabs_mult; apply Rabs_pos_eq; nra). rewrite E.
    rewrite dot_scale. rewrite (dot_comm dim (fun d => s * v d) v). rewrite dot_scale. ring.
Qed.

Lemma norm_opp : forall dim v, norm dim (fun d => - v d) = norm dim v.
Proof.
  intros dim v. rewrite (norm_ext dim (fun d => - v d) (fun d => (-1) * v d)) by (intro; ring). rewrite norm_scale.
  rewrite Rabs_left by lra. ring.
Qed.

Lemma dot_norm : forall dim a b, dot dim a b <= norm dim a * norm dim b.
Proof.
  intros dim a b. apply sq_le.
  - apply Rmult_le_pos; apply norm_nonneg.
  - replace (norm dim a * norm dim b * (norm dim a * norm dim b)) with ((norm dim a * norm dim a) * (norm dim b * norm dim b)) by ring.
    rewrite !norm_sq. apply cauchy.
Qed.

Lemma dot_sum_sq : forall dim a b, dot dim (fun d => a d + b d) (fun d => a d + b d) = dot dim a a + 2 * dot dim a b + dot dim b b.
Proof. induction dim as [|n IH]; intros a b; cbn [dot]; [ring|]. rewrite IH. ring. Qed.

Lemma norm_triangle : forall dim a b, norm dim (fun d => a d + b d) <= norm dim a + norm dim b.
Proof.
  intros dim a b. apply sq_le.
  - apply Rplus_le_le_0_compat; apply norm_nonneg.
  - rewrite norm_sq, dot_sum_sq. pose proof (dot_norm dim a b) as H.
    replace ((norm dim a + norm dim b) * (norm dim a + norm dim b)) with (norm dim a * norm dim a + 2 * (norm dim a * norm dim b) + norm dim b * norm dim b) by ring.
    rewrite !norm_sq. lra.
Qed.

Lemma vdist_nonneg : forall dim a b, 0 <= vdist dim a b.
Proof. intros. apply norm_nonneg. Qed.

Lemma vdist_sym : forall dim a b, vdist dim a b = vdist dim b a.
Proof. intros dim a b. unfold vdist. rewrite <- norm_opp. apply norm_ext. intro d. ring. Qed.

Lemma vdist_triangle : forall dim a b c, vdist dim a c <= vdist dim a b + vdist dim b c.
Proof.
  intros dim a b c. unfold vdist. rewrite (norm_ext dim (fun d => a d - c d) (fun d => (a d - b d) + (b d - c d))) by (intro; ring).
  apply norm_triangle.
Qed.

Lemma dot_zero_l : forall dim v, dot dim (fun _ => 0) v = 0.
Proof. induction dim as [|n IH]; intro v; cbn [dot]; [reflexivity|]. rewrite IH. ring. Qed.

Lemma vdist_refl : forall dim a, vdist dim a a = 0.
Proof.
  intros dim a. unfold vdist. apply norm_unique; [lra|]. rewrite (dot_ext dim _ _ (fun _ => 0) (fun _ => 0)) by (intro; ring). rewrite dot_zero_l. ring.
Qed.

(** components of a vector of length 0 *)
Lemma dot_zero : forall dim v, dot dim v v = 0 -> forall d, (d < dim)%nat -> v d = 0.
Proof.
  induction dim as [|n IH]; intros v H d L; [inversion L|]. cbn [dot] in H. pose proof (dot_pos n v). assert (v n * v n = 0) by nra. assert (H2 : dot n v v = 0) by nra.
  destruct (Nat.eq_dec d n) as [->|N]; [nra|]. apply (IH v H2 d). lia.
Qed.
