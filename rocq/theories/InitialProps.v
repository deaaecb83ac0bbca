(** Initial order parameters and concentration (property C39). *)
From Coq Require Import List Arith Bool Reals Lra Lia Permutation.
From Verif Require Import Util MobilityModel MobilityProofs VecGeom PackingModel PackingProps InitialModel.
Import ListNotations.
Local Open Scope R_scope.

(** The distances between which the interface of a sphere lies. *)
Definition lo (dir : direction) (rc w : R) : R := match dir with Inside => rc | Outside => rc - w | Middle => rc - w / 2 end.
Definition hi (dir : direction) (rc w : R) : R := match dir with Inside => rc + w | Outside => rc | Middle => rc + w / 2 end.

Lemma sphere_eq : forall dim w dir p c rc, is_in_sphere dim w dir p c rc =
  if Rle_dec (vdist dim c p) (lo dir rc w) then 1
  else if Rlt_dec (vdist dim c p) (hi dir rc w) then (1 + cos ((vdist dim c p - lo dir rc w) / w * PI)) / 2 else 0.
Proof.
  intros. unfold is_in_sphere. set (x := vdist dim c p).
  assert (A : rc - interface_offset dir w - w / 2 = lo dir rc w) by (destruct dir; cbn [interface_offset lo]; lra).
  assert (B : rc - interface_offset dir w + w / 2 = hi dir rc w) by (destruct dir; cbn [interface_offset hi]; lra).
  rewrite A, B. replace (x - (rc - interface_offset dir w) + w / 2) with (x - lo dir rc w) by lra.
  destruct (Rle_dec x (lo dir rc w)); [reflexivity|]. destruct (Rlt_dec x (hi dir rc w)); [|reflexivity]. lra.
Qed.

Lemma hi_lo : forall dir rc w, hi dir rc w = lo dir rc w + w.
Proof. intros [| |] rc w; cbn [hi lo]; lra. Qed.

Lemma sphere_range : forall dim w dir p c rc, 0 <= is_in_sphere dim w dir p c rc <= 1.
Proof.
  intros. rewrite sphere_eq. destruct (Rle_dec _ _); [lra|]. destruct (Rlt_dec _ _); [|lra].
  pose proof (COS_bound ((vdist dim c p - lo dir rc w) / w * PI)). lra.
Qed.

Lemma pos_in : forall x a w, 0 < w -> a < x < a + w -> 0 < (x - a) / w * PI < PI.
Proof.
  intros x a w Hw H. pose proof PI_RGT_0 as P. assert (E : 0 < (x - a) / w < 1).
  { split; [apply Rdiv_lt_0_compat; lra|]. apply (Rmult_lt_reg_r w); [assumption|]. unfold Rdiv. rewrite Rmult_assoc, Rinv_l by lra. lra. }
  split; [apply Rmult_lt_0_compat; lra|]. rewrite <- (Rmult_1_l PI) at 2. apply Rmult_lt_compat_r; lra.
Qed.

Lemma sphere_mid : forall dim w dir p c rc, 0 < w -> lo dir rc w < vdist dim c p < hi dir rc w ->
  0 < is_in_sphere dim w dir p c rc < 1.
Proof.
  intros dim w dir p c rc Hw H. rewrite sphere_eq. destruct (Rle_dec _ _); [lra|]. destruct (Rlt_dec _ _); [|lra].
  rewrite hi_lo in H. destruct (pos_in _ _ _ Hw H) as (A & B). pose proof PI_RGT_0.
  set (t := (vdist dim c p - lo dir rc w) / w * PI) in *.
  pose proof (cos_decreasing_1 0 t) as D1. rewrite cos_0 in D1. pose proof (cos_decreasing_1 t PI) as D2. rewrite cos_PI in D2.
  specialize (D1 ltac:(lra) ltac:(lra) ltac:(lra) ltac:(lra) ltac:(lra)). specialize (D2 ltac:(lra) ltac:(lra) ltac:(lra) ltac:(lra) ltac:(lra)). lra.
Qed.

(** The value of a particle: between zero and one, one exactly up to the inner end of the
    interface, zero exactly from its outer end on, one half in its middle and strictly
    decreasing across. *)
Theorem C39_sphere : forall dim w dir c rc, 0 < w ->
  (forall p, 0 <= is_in_sphere dim w dir p c rc <= 1) /\
  (forall p, is_in_sphere dim w dir p c rc = 1 <-> vdist dim p c <= lo dir rc w) /\
  (forall p, is_in_sphere dim w dir p c rc = 0 <-> lo dir rc w + w <= vdist dim p c) /\
  (forall p, vdist dim p c = lo dir rc w + w / 2 -> is_in_sphere dim w dir p c rc = 1 / 2) /\
  (forall p q, lo dir rc w <= vdist dim p c -> vdist dim p c < vdist dim q c -> vdist dim q c <= lo dir rc w + w ->
    is_in_sphere dim w dir q c rc < is_in_sphere dim w dir p c rc).
Proof.
  intros dim w dir c rc Hw. split; [|split; [|split; [|split]]].
  - intro p. apply sphere_range.
  - intro p. rewrite (vdist_sym dim p c). split; intro H.
    + destruct (Rle_dec (vdist dim c p) (lo dir rc w)) as [|n]; [assumption|]. destruct (Rlt_dec (vdist dim c p) (hi dir rc w)).
      * pose proof (sphere_mid dim w dir p c rc Hw). lra.
      * rewrite sphere_eq in H. destruct (Rle_dec _ _); [lra|]. destruct (Rlt_dec _ _); lra.
    + rewrite sphere_eq. destruct (Rle_dec _ _); lra.
  - intro p. rewrite (vdist_sym dim p c). rewrite <- hi_lo. split; intro H.
    + destruct (Rle_dec (hi dir rc w) (vdist dim c p)) as [|n]; [assumption|]. destruct (Rlt_dec (lo dir rc w) (vdist dim c p)).
      * pose proof (sphere_mid dim w dir p c rc Hw). lra.
      * rewrite sphere_eq in H. destruct (Rle_dec _ _); [lra|]. destruct (Rlt_dec _ _); lra.
    + rewrite sphere_eq. rewrite hi_lo in *. destruct (Rle_dec _ _); [lra|]. destruct (Rlt_dec _ _); lra.
  - intros p E. rewrite vdist_sym in E. rewrite sphere_eq, E, hi_lo. destruct (Rle_dec _ _); [lra|]. destruct (Rlt_dec _ _); [|lra].
    replace ((lo dir rc w + w / 2 - lo dir rc w) / w * PI) with (PI / 2) by (field; lra). rewrite cos_PI2. lra.
  - intros p q A B D. rewrite (vdist_sym dim p) in *. rewrite (vdist_sym dim q) in *.
    rewrite !sphere_eq, hi_lo. set (x := vdist dim c p) in *. set (y := vdist dim c q) in *.
    destruct (Rle_dec y (lo dir rc w)); [lra|]. pose proof PI_RGT_0 as P.
    assert (T : forall z, lo dir rc w <= z <= lo dir rc w + w -> 0 <= (z - lo dir rc w) / w * PI <= PI).
    { intros z Hz. assert (0 <= (z - lo dir rc w) / w <= 1).
      { split; [apply Rmult_le_pos; [lra|left; apply Rinv_0_lt_compat; assumption]|].
        apply (Rmult_le_reg_r w); [assumption|]. unfold Rdiv. rewrite Rmult_assoc, Rinv_l by lra. lra. }
      split; [apply Rmult_le_pos; lra|]. rewrite <- (Rmult_1_l PI) at 2. apply Rmult_le_compat_r; lra. }
    assert (C : cos ((y - lo dir rc w) / w * PI) < cos ((x - lo dir rc w) / w * PI)).
    { pose proof (T x ltac:(lra)). pose proof (T y ltac:(lra)). apply cos_decreasing_1; try lra.
      apply Rmult_lt_compat_r; [assumption|]. apply Rmult_lt_compat_r; [apply Rinv_0_lt_compat; assumption|lra]. }
    pose proof (COS_bound ((y - lo dir rc w) / w * PI)). pose proof (COS_bound ((x - lo dir rc w) / w * PI)).
    destruct (Rlt_dec y (lo dir rc w + w)).
    + destruct (Rle_dec x (lo dir rc w)); [lra|]. destruct (Rlt_dec x (lo dir rc w + w)); lra.
    + destruct (Rle_dec x (lo dir rc w)); [lra|]. destruct (Rlt_dec x (lo dir rc w + w)); lra.
Qed.
Print Assumptions C39_sphere.

Example C39_sphere_applies : 0 < 1 /\ lo Middle 5 1 = 9 / 2 /\ hi Middle 5 1 = 11 / 2.
Proof. cbn [lo hi]. lra. Qed.

(** No interface: the indicator of the ball. *)
Theorem C39_sharp : forall dim dir p c rc,
  is_in_sphere dim 0 dir p c rc = if Rle_dec (vdist dim p c) rc then 1 else 0.
Proof.
  intros. rewrite (vdist_sym dim p c), sphere_eq, hi_lo. assert (E : lo dir rc 0 = rc) by (destruct dir; cbn [lo]; lra). rewrite E.
  destruct (Rle_dec _ _); [reflexivity|]. destruct (Rlt_dec _ _); lra.
Qed.
Print Assumptions C39_sharp.

(** * Where the interface lies *)

(** The meaning of the directions: the interface of width [w] lies within the particle,
    half in half out, or around it. *)
Definition meant (dir : direction) (rc w : R) : R * R :=
  match dir with Inside => (rc - w, rc) | Middle => (rc - w / 2, rc + w / 2) | Outside => (rc, rc + w) end.

(** A point on the first axis. *)
Definition on_axis (x : R) : vec := fun d => match d with O => x | _ => 0 end.
Lemma axis_dist : forall dim x y, (0 < dim)%nat -> vdist dim (on_axis x) (on_axis y) = Rabs (x - y).
Proof.
  intros dim x y Hd. unfold vdist. apply norm_unique; [apply Rabs_pos|].
  rewrite <- Rabs_mult, Rabs_pos_eq by (apply Rle_0_sqr).
  destruct dim as [|n]; [lia|]. clear Hd. induction n as [|n IH]; [cbn [dot on_axis]; ring|].
  change (dot (S (S n)) (fun d => on_axis x d - on_axis y d) (fun d => on_axis x d - on_axis y d))
    with (dot (S n) (fun d => on_axis x d - on_axis y d) (fun d => on_axis x d - on_axis y d) +
          (on_axis x (S n) - on_axis y (S n)) * (on_axis x (S n) - on_axis y (S n))).
  rewrite <- IH. cbn [on_axis]. ring.
Qed.

(** Proved for the direction in the middle, for all points around a particle. *)
Theorem C39_interface_middle_partial : forall dim w p c rc, 0 < w ->
  (0 < is_in_sphere dim w Middle p c rc < 1 <-> fst (meant Middle rc w) < vdist dim p c < snd (meant Middle rc w)).
Proof.
  intros dim w p c rc Hw. destruct (C39_sphere dim w Middle c rc Hw) as (R & A & B & _). specialize (R p). specialize (A p). specialize (B p).
  cbn [meant fst snd lo] in *. split; intro H.
  - split; apply Rnot_le_lt; intro K; [apply A in K|assert (K' : rc - w / 2 + w <= vdist dim p c) by lra; apply B in K']; lra.
  - split; apply Rnot_le_lt; intro K.
    + assert (E : is_in_sphere dim w Middle p c rc = 0) by lra. apply B in E. lra.
    + assert (E : is_in_sphere dim w Middle p c rc = 1) by lra. apply A in E. lra.
Qed.
Print Assumptions C39_interface_middle_partial.

(** The other two directions are exchanged: for every particle the interface meant to lie
    inside lies around it and the other way round. *)
Theorem C39_interface_exchanged_refuted : forall dim w p c rc, 0 < w ->
  (0 < is_in_sphere dim w Inside p c rc < 1 <-> fst (meant Outside rc w) < vdist dim p c < snd (meant Outside rc w)) /\
  (0 < is_in_sphere dim w Outside p c rc < 1 <-> fst (meant Inside rc w) < vdist dim p c < snd (meant Inside rc w)).
Proof.
  intros dim w p c rc Hw. split.
  - destruct (C39_sphere dim w Inside c rc Hw) as (R & A & B & _). specialize (R p). specialize (A p). specialize (B p).
    cbn [meant fst snd lo] in *. split; intro H.
    + split; apply Rnot_le_lt; intro K; [apply A in K|apply B in K]; lra.
    + split; apply Rnot_le_lt; intro K.
      * assert (E : is_in_sphere dim w Inside p c rc = 0) by lra. apply B in E. lra.
      * assert (E : is_in_sphere dim w Inside p c rc = 1) by lra. apply A in E. lra.
  - destruct (C39_sphere dim w Outside c rc Hw) as (R & A & B & _). specialize (R p). specialize (A p). specialize (B p).
    cbn [meant fst snd lo] in *. split; intro H.
    + split; apply Rnot_le_lt; intro K; [apply A in K|assert (K' : rc - w + w <= vdist dim p c) by lra; apply B in K']; lra.
    + split; apply Rnot_le_lt; intro K.
      * assert (E : is_in_sphere dim w Outside p c rc = 0) by lra. apply B in E. lra.
      * assert (E : is_in_sphere dim w Outside p c rc = 1) by lra. apply A in E. lra.
Qed.
Print Assumptions C39_interface_exchanged_refuted.

Example C39_interface_inside_wrong : ~ (forall p, 0 < is_in_sphere 2 1 Inside p (on_axis 0) 5 < 1 ->
  fst (meant Inside 5 1) < vdist 2 p (on_axis 0) < snd (meant Inside 5 1)).
Proof.
  intro H. specialize (H (on_axis (11 / 2))). cbn [meant fst snd] in H. rewrite axis_dist in H by lia.
  assert (D : Rabs (11 / 2 - 0) = 11 / 2) by (rewrite Rabs_pos_eq; lra). rewrite D in H.
  assert (0 < is_in_sphere 2 1 Inside (on_axis (11 / 2)) (on_axis 0) 5 < 1); [|specialize (H H0); lra].
  apply (C39_interface_exchanged_refuted 2 1 (on_axis (11 / 2)) (on_axis 0) 5 ltac:(lra)). rewrite axis_dist by lia. rewrite D. cbn [meant fst snd]. lra.
Qed.

(** The grains of a microstructure respect all three directions.  A point is described by
    its signed distance [s] to the edge, negative inside, so that [r + s] takes the place of
    the distance to the center. *)
Definition signed (s : R) : list (bool * R) := [(if Rlt_dec s 0 then true else false, Rabs s)].

Theorem C39_microstructure : forall w dir s, 0 < w ->
  0 <= micro_op_value w dir (signed s) <= 1 /\
  (micro_op_value w dir (signed s) = 1 <-> s <= fst (meant dir 0 w) \/ (dir = Outside /\ s < 0)) /\
  (micro_op_value w dir (signed s) = 0 <-> snd (meant dir 0 w) <= s \/ (dir = Inside /\ 0 <= s)).
Proof.
  intros w dir s Hw. unfold micro_op_value, signed. cbn [micro_loop].
  assert (Q1 : forall x, 0 <= x -> 0 <= x / w) by (intros x Hx; apply Rmult_le_pos; [exact Hx|left; apply Rinv_0_lt_compat; exact Hw]).
  assert (Q0 : forall x, x / w * w = x) by (intro; field; lra).
  destruct (Rlt_dec s 0) as [Hs|Hs].
  - destruct dir; cbn [ref_h ref_b ref_k meant fst snd].
    + destruct (Req_EM_T w 0); [lra|]. rewrite Rabs_left by assumption. destruct (Rlt_dec (- s) w) as [L|L].
      * replace (0 + 1 * - s / w) with ((- s) / w) by (field; lra). pose proof (Q0 (- s)) as E. pose proof (Q1 (- s) ltac:(lra)).
        assert (- s / w < 1) by (apply (Rmult_lt_reg_r w); lra).
        assert (- s / w <> 0) by (intro K; rewrite K in E; lra).
        split; [lra|]. split; split; intro K; try (exfalso; lra); (destruct K as [K|(K & K')]; [exfalso; lra|discriminate K]).
      * split; [lra|]. split; split; intro K; first [left; lra|exfalso; lra|lra].
    + split; [lra|]. split; split; intro K; first [right; split; [reflexivity|lra]|exfalso; lra|lra].
    + destruct (Req_EM_T w 0); [lra|]. rewrite Rabs_left by assumption. destruct (Rlt_dec (- s) (w / 2)) as [L|L].
      * replace (1 / 2 + 1 / 2 * - s / (w / 2)) with (1 / 2 + - s / w) by (field; lra). pose proof (Q0 (- s)) as E. pose proof (Q1 (- s) ltac:(lra)).
        assert (- s / w < 1 / 2) by (apply (Rmult_lt_reg_r w); lra).
        split; [lra|]. split; split; intro K; try (exfalso; lra); (destruct K as [K|(K & K')]; [exfalso; lra|discriminate K]).
      * split; [lra|]. split; split; intro K; first [left; lra|exfalso; lra|lra].
  - destruct (Rlt_dec 0 w); [|lra]. destruct dir; cbn [ref_h ref_b ref_k meant fst snd].
    + split; [lra|]. split; split; intro K; first [right; split; [reflexivity|lra]|exfalso; lra|lra|idtac].
    + rewrite Rabs_pos_eq by lra. destruct (Rlt_dec s w) as [L|L].
      * replace (1 - 1 * s / w) with (1 - s / w) by (field; lra). pose proof (Q0 s) as E. pose proof (Q1 s ltac:(lra)).
        assert (s / w < 1) by (apply (Rmult_lt_reg_r w); lra). rewrite Rmax_right by lra.
        split; [lra|]. split; split; intro K.
        -- left. assert (Z : s / w = 0) by lra. rewrite Z in E. lra.
        -- destruct K as [K|(K & K')]; [|lra]. assert (Z : s = 0) by lra. assert (s / w = 0) by (rewrite Z; field; lra). lra.
        -- lra.
        -- destruct K as [K|(K & K')]; [lra|discriminate].
      * rewrite Rmax_left by lra. split; [lra|]. split; split; intro K; first [left; lra|exfalso; lra|lra].
    + rewrite Rabs_pos_eq by lra. destruct (Rlt_dec s (w / 2)) as [L|L].
      * replace (1 / 2 - 1 / 2 * s / (w / 2)) with (1 / 2 - s / w) by (field; lra). pose proof (Q0 s) as E. pose proof (Q1 s ltac:(lra)).
        assert (s / w < 1 / 2) by (apply (Rmult_lt_reg_r w); lra). rewrite Rmax_right by lra.
        split; [lra|]. split; split; intro K; try (exfalso; lra); (destruct K as [K|(K & K')]; [exfalso; lra|discriminate K]).
      * rewrite Rmax_left by lra. split; [lra|]. split; split; intro K; first [left; lra|exfalso; lra|lra].
Qed.
Print Assumptions C39_microstructure.

Example C39_microstructure_applies : fst (meant Inside 0 1) = -1 /\ snd (meant Outside 0 1) = 1.
Proof. cbn [meant fst snd]. lra. Qed.

(** * Values of order parameters *)
Lemma first_spec : forall l, (first_non_zero l = 0 <-> forall v, In v l -> v = 0) /\ (first_non_zero l <> 0 -> In (first_non_zero l) l).
Proof.
  induction l as [|v r (A & B)].
  - cbn. split; [split; [intros _ v []|reflexivity]|intro H; lra].
  - cbn [first_non_zero]. destruct (Req_EM_T v 0) as [->|Hv].
    + destruct r as [|u r].
      * split; [split; [intros _ x [<-|[]]; reflexivity|reflexivity]|intro H; lra].
      * split; [|intro H; right; apply B, H]. rewrite A. split; [intros H x [<-|Hx]; [reflexivity|apply H, Hx]|].
        intros H x Hx. apply H. right. exact Hx.
    + split; [|left; reflexivity]. split; [intro; lra|]. intro H. apply H. left. reflexivity.
Qed.

Lemma first_range : forall l, (forall v, In v l -> 0 <= v <= 1) -> 0 <= first_non_zero l <= 1.
Proof.
  intros l H. destruct (first_spec l) as (_ & B). destruct (Req_EM_T (first_non_zero l) 0) as [E|E]; [lra|]. apply H, B, E.
Qed.

Lemma value_range : forall dim w dir p q ns, 0 <= value_for_particle dim w dir p q ns <= 1.
Proof.
  intros. unfold value_for_particle. pose proof (sphere_range dim w dir p (p_center q) (p_radius q)) as H.
  destruct (Req_EM_T _ 0); [exact H|]. destruct (secondary _ _ _ _ _) as [((q2 & z) & c2)|]; [|exact H].
  destruct (neck_coordinate _ _ _ _ _) as [xp|]; [|lra]. destruct (Rlt_dec xp (w / 2)); [|lra].
  destruct (Rlt_dec (1 / 2) c2); [|exact H]. destruct (Rlt_dec (- w / 2) xp); [|exact H].
  pose proof (SIN_bound (PI * xp / w)). lra.
Qed.

(** Every order parameter of the packings, of the cloud and of a microstructure lies
    between zero and one at every point.  (The distance to an edge is not negative.) *)
Theorem C39_order_parameters : 
  (forall dim w dir r0 centers p, 0 <= array_op_value dim w dir r0 centers p <= 1) /\
  (forall dim w dir orient ps p ids v, cloud_op_value dim w dir orient ps p ids = Some v -> 0 <= v <= 1) /\
  (forall w dir cands, 0 <= w -> (forall b dist, In (b, dist) cands -> 0 <= dist) -> 0 <= micro_op_value w dir cands <= 1).
Proof.
  split; [|split].
  - intros. unfold array_op_value. apply first_range. intros v Hv. apply in_map_iff in Hv. destruct Hv as (c & <- & _). apply sphere_range.
  - intros dim w dir orient ps p ids. induction ids as [|i r IH]; intros v E; cbn [cloud_op_value] in E; [injection E as <-; lra|].
    unfold particle_value in E. destruct (vget ps i) as [q|]; [|discriminate]. cbn [obind] in E.
    pose proof (value_range dim w dir p q (neighbours dim orient ps i q)) as V.
    destruct (Req_EM_T _ 0); [|injection E as <-; exact V]. destruct r; [injection E as <-; exact V|apply IH, E].
  - intros w dir cands Hw H. unfold micro_op_value. assert (G : forall x, 0 <= x <= 1 -> 0 <= micro_loop w dir cands x <= 1); [|apply G; lra].
    induction cands as [|(b, dist) r IH]; intros x Hx; cbn [micro_loop]; [exact Hx|].
    specialize (IH (fun b d Hi => H b d (or_intror Hi))). pose proof (H b dist (or_introl eq_refl)) as Hd.
    assert (F : forall h, 0 < h -> dist < h -> 0 <= dist / h < 1).
    { intros h Hh Hl. split; [apply Rmult_le_pos; [exact Hd|left; apply Rinv_0_lt_compat; exact Hh]|].
      apply (Rmult_lt_reg_r h); [exact Hh|]. unfold Rdiv. rewrite Rmult_assoc, Rinv_l by lra. lra. }
    destruct b.
    + destruct dir; [|lra|]; (destruct (Req_EM_T w 0); [lra|]); (destruct (Rlt_dec dist _) as [L|L]; [|lra]); cbn [ref_h ref_b ref_k] in *.
      * specialize (F w ltac:(lra) L). replace (1 * dist / w) with (dist / w) by (field; lra). lra.
      * specialize (F (w / 2) ltac:(lra) L). replace (1 / 2 * dist / (w / 2)) with (1 / 2 * (dist / (w / 2))) by (field; lra). lra.
    + destruct (Rlt_dec 0 w); [|apply IH, Hx]. destruct dir; [apply IH, Hx| |]; apply IH; cbn [ref_h ref_b ref_k].
      * split; [apply (Rle_trans _ x); [lra|apply Rmax_l]|]. apply Rmax_lub; [lra|]. destruct (Rlt_dec dist w) as [L|L]; [|lra].
        specialize (F w ltac:(lra) L). replace (1 * dist / w) with (dist / w) by (field; lra). lra.
      * split; [apply (Rle_trans _ x); [lra|apply Rmax_l]|]. apply Rmax_lub; [lra|]. destruct (Rlt_dec dist (w / 2)) as [L|L]; [|lra].
        specialize (F (w / 2) ltac:(lra) L). replace (1 / 2 * dist / (w / 2)) with (1 / 2 * (dist / (w / 2))) by (field; lra). lra.
Qed.
Print Assumptions C39_order_parameters.

(** * Concentration *)
Lemma sum_bounds : forall l a, (forall v, In v l -> 0 <= v) ->
  a <= fold_left Rplus l a /\ (forall v, In v l -> a + v <= fold_left Rplus l a) /\
  (fold_left Rplus l a = a -> forall v, In v l -> v = 0) /\ ((forall v, In v l -> v = 0) -> fold_left Rplus l a = a).
Proof.
  induction l as [|x l IH]; intros a H; cbn [fold_left].
  - split; [lra|]. split; [intros v []|]. split; [intros _ v []|reflexivity].
  - destruct (IH (a + x) (fun v Hv => H v (or_intror Hv))) as (A & B & C & D). pose proof (H x (or_introl eq_refl)) as Hx.
    split; [lra|]. split; [|split].
    + intros v [<-|Hv]; [exact A|]. specialize (B v Hv). lra.
    + intros E v [<-|Hv]; [lra|]. apply C; [|exact Hv]. lra.
    + intro Z. rewrite D by (intros v Hv; apply Z; right; exact Hv). rewrite (Z x (or_introl eq_refl)). lra.
Qed.

(** Whatever the order parameters (values between zero and one, at least one of them
    unless accumulated): the concentration lies between zero and one, is at least every order
    parameter, vanishes exactly where all of them do, is one where one of them is, and is
    the largest of them unless accumulated.  As a void it is one minus that. *)
Theorem C39_concentration : forall acc vals, (forall v, In v vals -> 0 <= v <= 1) -> (vals <> [] \/ acc = true) ->
  exists c, concentration acc false vals = Some c /\ concentration acc true vals = Some (1 - c) /\
    0 <= c <= 1 /\ (forall v, In v vals -> v <= c) /\ (c = 0 <-> forall v, In v vals -> v = 0) /\
    (In 1 vals -> c = 1) /\ (acc = false -> In c vals).
Proof.
  intros acc vals H N. unfold concentration. destruct acc.
  - eexists. cbn [obind]. split; [reflexivity|]. split; [reflexivity|].
    destruct (sum_bounds vals 0 (fun v Hv => proj1 (H v Hv))) as (A & B & C & D). set (s := fold_left Rplus vals 0) in *.
    assert (M : Rmin 1 s = 1 /\ 1 <= s \/ Rmin 1 s = s /\ s <= 1).
    { destruct (Rle_dec 1 s); [left; split; [apply Rmin_left|]; lra|right; split; [apply Rmin_right|]; lra]. }
    split; [lra|]. split; [intros v Hv; specialize (B v Hv); specialize (H v Hv); lra|]. split; [split|split].
    + intro E. apply C. lra.
    + intro Z. specialize (D Z). lra.
    + intro I. specialize (B 1 I). lra.
    + discriminate.
  - destruct vals as [|x l]; [destruct N as [N|N]; [destruct (N eq_refl)|discriminate]|].
    cbn [max_element obind]. eexists. split; [reflexivity|]. split; [reflexivity|]. destruct (fold_max l x) as (A & B).
    set (m := fold_left (fun a b => if Rlt_dec a b then b else a) l x) in *. pose proof (H m B) as Hm.
    split; [exact Hm|]. split; [exact A|]. split; [split|split].
    + intros E v Hv. specialize (A v Hv). specialize (H v Hv). lra.
    + intro Z. apply Z, B.
    + intro I. specialize (A 1 I). lra.
    + intros _. exact B.
Qed.
Print Assumptions C39_concentration.

Example C39_concentration_applies : (forall v, In v [1 / 3; 1 / 2] -> 0 <= v <= 1) /\
  concentration false false [1 / 3; 1 / 2] = Some (1 / 2) /\ concentration true false [1 / 3; 1 / 2] = Some (5 / 6).
Proof.
  split; [intros v [<-|[<-|[]]]; lra|]. unfold concentration. cbn [max_element fold_left obind]. split.
  - destruct (Rlt_dec (1 / 3) (1 / 2)); [reflexivity|lra].
  - rewrite Rmin_right by lra. f_equal. lra.
Qed.

(** The components: with two or more leading components the concentration and the chemical
    potential (zero) are the last two of them, with one leading component it is the
    concentration, and the order parameters follow. *)
Theorem C39_components : forall offset n_ops acc void op_value, (0 < offset)%nat ->
  do_value offset n_ops acc void op_value (offset - Nat.min offset 2) = concentration acc void (map op_value (seq 0 n_ops)) /\
  ((2 <= offset)%nat -> do_value offset n_ops acc void op_value (offset - 1) = Some 0) /\
  forall i, do_value offset n_ops acc void op_value (offset + i) = Some (op_value i).
Proof.
  intros offset n_ops acc void op_value Ho. unfold do_value. split; [|split].
  - destruct offset as [|[|k]]; [lia|reflexivity|]. replace (S (S k) - Nat.min (S (S k)) 2)%nat with (S (S k) - 2)%nat by lia.
    rewrite Nat.eqb_refl. reflexivity.
  - intro H. destruct offset as [|[|k]]; [lia|lia|]. cbn [Nat.leb andb].
    destruct (Nat.eqb_spec (S (S k) - 1) (S (S k) - 2)); [lia|]. cbn [Nat.eqb andb orb]. rewrite Nat.eqb_refl. reflexivity.
  - intro i. assert (E1 : (offset + i =? offset - 2)%nat = false) by (apply Nat.eqb_neq; lia).
    assert (E2 : (offset + i =? offset - 1)%nat = false) by (apply Nat.eqb_neq; lia).
    assert (E3 : (offset + i =? 0)%nat = false) by (apply Nat.eqb_neq; lia).
    assert (E4 : (offset + i <? offset)%nat = false) by (apply Nat.ltb_ge; lia).
    rewrite E1, E2, E3, E4, !andb_false_r. cbn [orb]. do 2 f_equal. lia.
Qed.
Print Assumptions C39_components.

(** * Packings of equal particles *)

(** At every point: the order parameter is zero exactly outside of all of its grains, and
    if at most one of its grains reaches the point, it is the value of that grain, whatever
    the order of the grains. *)
Theorem C39_array : forall dim w dir r0 centers p, 0 < w ->
  (array_op_value dim w dir r0 centers p = 0 <-> forall c, In c centers -> lo dir r0 w + w <= vdist dim p c) /\
  forall c, In c centers ->
    (forall c', In c' centers -> c' <> c -> lo dir r0 w + w <= vdist dim p c') ->
    array_op_value dim w dir r0 centers p = is_in_sphere dim w dir p c r0.
Proof.
  intros dim w dir r0 centers p Hw. unfold array_op_value. destruct (first_spec (map (fun c => is_in_sphere dim w dir p c r0) centers)) as (A & B). split.
  - rewrite A. split.
    + intros H c Hc. apply (C39_sphere dim w dir c r0 Hw). apply H. apply in_map_iff. exists c. split; [reflexivity|exact Hc].
    + intros H v Hv. apply in_map_iff in Hv. destruct Hv as (c & <- & Hc). apply (C39_sphere dim w dir c r0 Hw). apply H, Hc.
  - intros c Hc Ho. destruct (Req_EM_T (first_non_zero (map (fun c => is_in_sphere dim w dir p c r0) centers)) 0) as [E|E].
    + rewrite E. symmetry. apply (proj1 A E). apply in_map_iff. exists c. split; [reflexivity|exact Hc].
    + pose proof (B E) as I. apply in_map_iff in I. destruct I as (c' & E' & Hc'). rewrite <- E'.
      destruct (Rle_dec (lo dir r0 w + w) (vdist dim p c')) as [L|L].
      * apply (C39_sphere dim w dir c' r0 Hw) in L. lra.
      * destruct (Rle_dec (lo dir r0 w + w) (vdist dim p c)) as [L'|L'].
        -- exfalso. apply L. apply Ho; [exact Hc'|]. intros ->. apply L, L'.
        -- destruct (Req_EM_T (is_in_sphere dim w dir p c' r0) (is_in_sphere dim w dir p c r0)) as [|D]; [assumption|].
           exfalso. apply L, Ho; [exact Hc'|]. intros ->. apply D. reflexivity.
Qed.
Print Assumptions C39_array.

Example C39_array_applies : forall c', In c' [on_axis 0; on_axis 20] -> c' <> on_axis 0 -> lo Middle 5 1 + 1 <= vdist 2 (on_axis 5) c'.
Proof.
  intros c' [<-|[<-|[]]] H; [destruct (H eq_refl)|]. rewrite axis_dist by lia. rewrite Rabs_left by lra. cbn [lo]. lra.
Qed.
