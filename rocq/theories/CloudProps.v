(** The initial cloud of particles (property C38). *)
From Coq Require Import List Arith Bool Reals Lra Lia Permutation.
From Verif Require Import Util MapModel MobilityModel MobilityProofs VecGeom PackingModel PackingProps InitialModel InitialProps NeckProps.
Import ListNotations.
Local Open Scope R_scope.

(** * Domain *)
Lemma boundaries_spec : forall ps huge tiny d, let b := cloud_boundaries huge tiny ps d in
  fst b <= huge /\ tiny <= snd b /\
  (forall p, In p ps -> fst b <= p_center p d - p_radius p /\ p_center p d + p_radius p <= snd b) /\
  (fst b = huge \/ exists p, In p ps /\ fst b = p_center p d - p_radius p) /\
  (snd b = tiny \/ exists p, In p ps /\ snd b = p_center p d + p_radius p).
Proof.
  unfold cloud_boundaries. induction ps as [|q ps IH]; intros huge tiny d; cbv zeta; cbn [fold_left].
  - split; [cbn; lra|]. split; [cbn; lra|]. split; [intros p []|]. split; left; reflexivity.
  - cbv zeta. cbn [fst snd]. set (h := if Rlt_dec (p_center q d - p_radius q) huge then _ else _). set (t := if Rlt_dec tiny _ then _ else _).
    destruct (IH h t d) as (A & B & C & D & E). cbn zeta in *. set (b := fold_left _ ps (h, t)) in *.
    assert (Hh : h <= huge /\ h <= p_center q d - p_radius q /\ (h = huge \/ h = p_center q d - p_radius q)) by (unfold h; destruct (Rlt_dec _ _); (split; [lra|split; [lra|first [left; lra|right; lra]]])).
    assert (Ht : tiny <= t /\ p_center q d + p_radius q <= t /\ (t = tiny \/ t = p_center q d + p_radius q)).
    { unfold t. clear. destruct (Rlt_dec tiny (p_center q d + p_radius q)); (split; [lra|split; [lra|first [left; lra|right; lra]]]). }
        split; [lra|]. split; [lra|]. split; [|split].
    + intros p [<-|Hp]; [lra|apply C, Hp].
    + destruct D as [D|(p & Hp & D)].
      * destruct Hh as (_ & _ & [Hh|Hh]); [left; lra|right; exists q; split; [left; reflexivity|lra]].
      * right. exists p. split; [right; exact Hp|exact D].
    + destruct E as [E|(p & Hp & E)].
      * destruct Ht as (_ & _ & [Ht|Ht]); [left; lra|right; exists q; split; [left; reflexivity|lra]].
      * right. exists p. split; [right; exact Hp|exact E].
Qed.

Lemma component_le : forall dim v d, (d < dim)%nat -> Rabs (v d) <= norm dim v.
Proof.
  intros dim v d Hd. apply sq_le; [apply norm_nonneg|]. rewrite norm_sq, <- Rabs_mult, Rabs_pos_eq by apply Rle_0_sqr.
  induction dim as [|n IH]; [lia|]. cbn [dot]. pose proof (Rle_0_sqr (v n)) as S1. pose proof (dot_pos n v). unfold Rsqr in S1.
  destruct (Nat.eq_dec d n) as [->|]; [lra|]. specialize (IH ltac:(lia)). lra.
Qed.

(** Every point of every particle lies within the reported domain. *)
Theorem C38_domain_encloses : forall dim huge tiny ps q x d, In q ps -> vdist dim x (p_center q) <= p_radius q -> (d < dim)%nat ->
  fst (cloud_boundaries huge tiny ps d) <= x d <= snd (cloud_boundaries huge tiny ps d).
Proof.
  intros dim huge tiny ps q x d Hq Hx Hd. destruct (boundaries_spec ps huge tiny d) as (_ & _ & C & _). cbn zeta in C. specialize (C q Hq).
  pose proof (component_le dim (fun d => x d - p_center q d) d Hd) as K. cbn beta in K. unfold vdist in Hx.
  assert (Rabs (x d - p_center q d) <= p_radius q) as L by lra. unfold Rabs in L. destruct (Rcase_abs _); lra.
Qed.
Print Assumptions C38_domain_encloses.

Example C38_domain_applies : In left_p [left_p; right_p] /\ vdist 2 (on_axis 5) (p_center left_p) <= p_radius left_p.
Proof. split; [left; reflexivity|]. cbn [left_p p_center p_radius]. rewrite axis_dist by lia. rewrite Rabs_pos_eq; lra. Qed.

(** The domain is the smallest one if in every direction some particle reaches beyond the
    start value of the upper bound (a positive number close to zero). *)
Theorem C38_domain_tight_partial : forall huge tiny ps d, ps <> [] ->
  (forall p, In p ps -> p_center p d - p_radius p < huge) -> (exists p, In p ps /\ tiny < p_center p d + p_radius p) ->
  (exists p, In p ps /\ fst (cloud_boundaries huge tiny ps d) = p_center p d - p_radius p) /\
  (exists p, In p ps /\ snd (cloud_boundaries huge tiny ps d) = p_center p d + p_radius p).
Proof.
  intros huge tiny ps d Hne Hh (q & Hq & Ht). destruct (boundaries_spec ps huge tiny d) as (_ & _ & C & D & E). cbn zeta in *. split.
  - destruct D as [D|D]; [|exact D]. specialize (C q Hq). specialize (Hh q Hq). lra.
  - destruct E as [E|E]; [|exact E]. specialize (C q Hq). lra.
Qed.
Print Assumptions C38_domain_tight_partial.

(** A particle with negative coordinates: the domain reaches up to zero. *)
Theorem C38_domain_tight_refuted : forall huge tiny ps d, 0 < tiny -> (forall p, In p ps -> p_center p d + p_radius p <= 0) ->
  snd (cloud_boundaries huge tiny ps d) = tiny.
Proof.
  intros huge tiny ps d Ht H. destruct (boundaries_spec ps huge tiny d) as (_ & B & _ & _ & E). cbn zeta in *.
  destruct E as [E|(p & Hp & E)]; [exact E|]. specialize (H p Hp). lra.
Qed.
Print Assumptions C38_domain_tight_refuted.

Example C38_domain_tight_applies : forall p, In p [mkParticle (on_axis (-100)) 5] -> p_center p 0%nat + p_radius p <= 0.
Proof. intros p [<-|[]]. cbn. lra. Qed.

(** * Order parameters of the particles *)

(** What [SparsityTools::color_sparsity_pattern] ensures: colors 1, 2, ..., [k], different
    ones for linked particles.  It needs a symmetric pattern, see [C38_linked_symmetric]. *)
Definition coloring (dim : nat) (w ib rb : R) (ps : list particle) (color : nat -> nat) (k : nat) : Prop :=
  (forall i, (i < length ps)%nat -> (1 <= color i <= k)%nat) /\
  (forall c, (1 <= c <= k)%nat -> exists i, (i < length ps)%nat /\ color i = c) /\
  (forall i j p q, i <> j -> vget ps i = Some p -> vget ps j = Some q -> linked dim w ib rb p q -> color i <> color j).

Theorem C38_linked_symmetric : forall dim w ib rb p q, linked dim w ib rb p q -> linked dim w ib rb q p.
Proof.
  intros dim w ib rb p q H. unfold linked in *. rewrite vdist_sym, Rmax_comm, (Rplus_comm (p_radius q)). exact H.
Qed.
Print Assumptions C38_linked_symmetric.

(** The order parameter given to a particle. *)
Definition op_of (minimize : bool) (color : nat -> nat) (i : nat) : nat := if minimize then (color i - 1)%nat else i.

Definition some_list (l : list nat) : option (list nat) := match l with [] => None | _ => Some l end.
Definition built (i : nat) (f : nat -> nat) (m : op_map) : Prop :=
  msorted m /\ forall op, mget op m = some_list (filter (fun g => f g =? op)%nat (seq 0 i)).

Lemma push_built : forall i f m, built i f m -> built (S i) f (push (f i) i m).
Proof.
  intros i f m (Hs & H). unfold push. split; [apply mput_sorted, Hs|]. intro op. rewrite mget_mput, filter_seq_S, !H.
  destruct (Nat.eqb_spec (f i) op) as [<-|]; [|rewrite app_nil_r; reflexivity].
  destruct (filter (fun g => f g =? f i)%nat (seq 0 i)); reflexivity.
Qed.

Lemma color_built : forall color k i m, built i (fun g => color g - 1)%nat m -> built (i + k) (fun g => color g - 1)%nat (color_grains color k i m).
Proof.
  intros color. induction k as [|k IH]; intros i m B; cbn [color_grains]; [rewrite Nat.add_0_r; exact B|].
  replace (i + S k)%nat with (S i + k)%nat by lia. apply IH. apply (push_built i (fun g => color g - 1)%nat m B).
Qed.
Lemma own_built : forall k i m, built i (fun g => g) m -> built (i + k) (fun g => g) (own_grains k i m).
Proof.
  induction k as [|k IH]; intros i m B; cbn [own_grains]; [rewrite Nat.add_0_r; exact B|].
  replace (i + S k)%nat with (S i + k)%nat by lia. apply IH. apply (push_built i (fun g => g) m B).
Qed.
Lemma built_nil : forall f, built 0 f [].
Proof. intro f. split; [constructor|]. reflexivity. Qed.

Lemma built_given : forall n k f m, built n f m -> (forall g, (g < n)%nat -> (f g < k)%nat) ->
  (forall op, (op < k)%nat -> exists g, (g < n)%nat /\ f g = op) -> given_by n k f m.
Proof.
  intros n k f m (Hs & H) Hf Ho. split; [exact Hs|]. split; [exact Hf|]. intro op. rewrite H.
  destruct (Nat.ltb_spec op k) as [L|L].
  - destruct (Ho op L) as (g & Hg & E). destruct (filter (fun g => f g =? op)%nat (seq 0 n)) eqn:F; [|reflexivity].
    assert (I : In g (filter (fun g => f g =? op)%nat (seq 0 n))) by (apply filter_In; split; [apply in_seq; lia|apply Nat.eqb_eq, E]). rewrite F in I. destruct I.
  - destruct (filter (fun g => f g =? op)%nat (seq 0 n)) as [|g l] eqn:F; [reflexivity|].
    assert (I : In g (filter (fun g => f g =? op)%nat (seq 0 n))) by (rewrite F; left; reflexivity). apply filter_In in I. destruct I as (I & E).
    apply in_seq in I. apply Nat.eqb_eq in E. specialize (Hf g ltac:(lia)). lia.
Qed.

Lemma cloud_given : forall dim w ib rb ps color k minimize, (minimize = true -> coloring dim w ib rb ps color k) ->
  given_by (length ps) (if minimize then k else length ps) (op_of minimize color) (cloud_ops minimize color (length ps)).
Proof.
  intros dim w ib rb ps color k [|] H; unfold cloud_ops, op_of.
  - destruct (H eq_refl) as (A & B & _). apply built_given.
    + apply (color_built color (length ps) 0 [] (built_nil _)).
    + intros g Hg. specialize (A g Hg). lia.
    + intros op Ho. destruct (B (S op) ltac:(lia)) as (i & Hi & E). exists i. split; [exact Hi|lia].
  - apply built_given; [apply (own_built (length ps) 0 [] (built_nil _))|auto|]. intros op Ho. exists op. auto.
Qed.

(** Every particle has exactly one order parameter, the order parameters are numbered
    from zero, and touching particles have different ones. *)
Theorem C38_touching_differ : forall dim w ib rb ps color k minimize, 0 <= w -> 0 <= ib -> 0 <= rb -> (forall p, In p ps -> 0 <= p_radius p) ->
  (minimize = true -> coloring dim w ib rb ps color k) ->
  let m := cloud_ops minimize color (length ps) in
  well_assigned (length ps) m /\ length m = (if minimize then k else length ps) /\
  forall i j p q op op', i <> j -> vget ps i = Some p -> vget ps j = Some q -> vdist dim (p_center p) (p_center q) <= p_radius p + p_radius q ->
    has m op i -> has m op' j -> op <> op'.
Proof.
  intros dim w ib rb ps color k minimize Hw Hib Hrb Hr Hc m. pose proof (cloud_given dim w ib rb ps color k minimize Hc) as G.
  destruct (given_well _ _ _ _ G) as (W & L). split; [exact W|]. split; [exact L|].
  intros i j p q op op' Hij Ei Ej Hd H1 H2. apply (given_has _ _ _ _ G) in H1. apply (given_has _ _ _ _ G) in H2.
  destruct H1 as (Hi & <-). destruct H2 as (Hj & <-). unfold op_of. destruct minimize; [|exact Hij].
  destruct (Hc eq_refl) as (A & _ & C). pose proof (A i Hi). pose proof (A j Hj).
  enough (color i <> color j) by lia. apply (C i j p q Hij Ei Ej). unfold linked. rewrite vdist_sym.
  assert (0 <= ib * w) by (apply Rmult_le_pos; assumption).
  assert (0 <= Rmax (p_radius p) (p_radius q)). { pose proof (Hr p (nth_error_In _ _ Ei)). pose proof (Rmax_l (p_radius p) (p_radius q)). lra. }
  assert (0 <= rb * Rmax (p_radius p) (p_radius q)) by (apply Rmult_le_pos; assumption). lra.
Qed.
Print Assumptions C38_touching_differ.

Lemma some_inj : forall A (x y : A), Some x = Some y -> y = x.
Proof. intros A x y E. injection E as E. symmetry. exact E. Qed.

(** Three particles in a row, the outer ones far from each other: two order parameters. *)
Definition row3 := [mkParticle (on_axis 0) 5; mkParticle (on_axis 10) 5; mkParticle (on_axis 20) 5].
Definition color3 (i : nat) : nat := match i with 1%nat => 2%nat | _ => 1%nat end.
Example C38_touching_applies : coloring 2 1 1 0 row3 color3 2 /\ cloud_ops true color3 3 = [(0, [0; 2]); (1, [1])]%nat /\ vdist 2 (on_axis 0) (on_axis 10) <= 5 + 5.
Proof.
  assert (D : forall x y, vdist 2 (on_axis x) (on_axis y) = Rabs (x - y)) by (intros; apply axis_dist; lia).
  split; [|split; [reflexivity|rewrite D, Rabs_left; lra]]. split; [|split].
  - intros [|[|[|i]]] Hi; cbn in *; lia.
  - intros c Hc. assert (c = 1 \/ c = 2)%nat as [-> | ->] by lia; [exists 0%nat|exists 1%nat]; cbn; auto with arith.
  - intros i j p q Hij Ei Ej H. unfold linked in H.
    destruct i as [|[|[|i]]]; cbn in Ei; [| | |destruct i; discriminate]; (destruct j as [|[|[|j]]]; cbn in Ej; [| | |destruct j; discriminate]);
      try (cbn; lia); apply some_inj in Ei; apply some_inj in Ej; subst p q; cbn [p_center p_radius] in H; rewrite D in H; rewrite Rmax_left in H by lra; exfalso.
    + rewrite Rabs_pos_eq in H; lra.
    + rewrite Rabs_left in H; lra.
Qed.

(** * Particles with the same order parameter *)

(** Particles that are not linked do not reach the same point, if twice the part of the
    interface outside of a particle fits in the buffer. *)
Lemma not_both : forall dim w dir ib rb p q x, 0 < w -> 0 <= ib -> 0 <= rb -> 0 <= p_radius p -> (dir = Inside -> 1 <= ib) ->
  ~ linked dim w ib rb p q ->
  is_in_sphere dim w dir x (p_center p) (p_radius p) = 0 \/ is_in_sphere dim w dir x (p_center q) (p_radius q) = 0.
Proof.
  intros dim w dir ib rb p q x Hw Hib Hrb Hr Hin H.
  destruct (Req_EM_T (is_in_sphere dim w dir x (p_center p) (p_radius p)) 0) as [|E1]; [left; assumption|].
  destruct (Req_EM_T (is_in_sphere dim w dir x (p_center q) (p_radius q)) 0) as [|E2]; [right; assumption|]. exfalso. apply H.
  assert (L1 : vdist dim x (p_center p) < lo dir (p_radius p) w + w).
  { apply Rnot_le_lt. intro K. apply E1. apply (C39_sphere dim w dir (p_center p) (p_radius p) Hw). exact K. }
  assert (L2 : vdist dim x (p_center q) < lo dir (p_radius q) w + w).
  { apply Rnot_le_lt. intro K. apply E2. apply (C39_sphere dim w dir (p_center q) (p_radius q) Hw). exact K. }
  pose proof (vdist_triangle dim (p_center q) x (p_center p)) as T. rewrite (vdist_sym dim (p_center q) x) in T.
  assert (0 <= Rmax (p_radius p) (p_radius q)) by (pose proof (Rmax_l (p_radius p) (p_radius q)); lra).
  assert (0 <= rb * Rmax (p_radius p) (p_radius q)) by (apply Rmult_le_pos; assumption).
  assert (0 <= ib * w) by (apply Rmult_le_pos; lra).
  unfold linked. destruct dir; cbn [lo] in *; [|lra|lra]. specialize (Hin eq_refl). assert (w <= ib * w) by (rewrite <- (Rmult_1_l w) at 1; apply Rmult_le_compat_r; lra). lra.
Qed.

(** Two particles with the same order parameter do not reach the same point; with the
    interface around the particles (direction inside) the ratio of the buffer to the width
    has to be at least one. *)
Theorem C38_same_op_apart_partial : forall dim w dir ib rb ps color k minimize i j p q op x, 0 < w -> 0 <= ib -> 0 <= rb ->
  (forall p, In p ps -> 0 <= p_radius p) -> (dir = Inside -> 1 <= ib) -> (minimize = true -> coloring dim w ib rb ps color k) ->
  let m := cloud_ops minimize color (length ps) in
  i <> j -> vget ps i = Some p -> vget ps j = Some q -> has m op i -> has m op j ->
  is_in_sphere dim w dir x (p_center p) (p_radius p) = 0 \/ is_in_sphere dim w dir x (p_center q) (p_radius q) = 0.
Proof.
  intros dim w dir ib rb ps color k minimize i j p q op x Hw Hib Hrb Hr Hin Hc m Hij Ei Ej H1 H2.
  pose proof (cloud_given dim w ib rb ps color k minimize Hc) as G.
  apply (given_has _ _ _ _ G) in H1. apply (given_has _ _ _ _ G) in H2. destruct H1 as (Hi & E1). destruct H2 as (Hj & E2).
  unfold op_of in *. destruct minimize; [|lia]. destruct (Hc eq_refl) as (A & _ & C). pose proof (A i Hi). pose proof (A j Hj).
  apply (not_both dim w dir ib rb); try assumption; [exact (Hr p (nth_error_In _ _ Ei))|].
  intro K. apply (C i j p q Hij Ei Ej K). lia.
Qed.
Print Assumptions C38_same_op_apart_partial.

(** With the default ratio of the class, one half, and the direction inside: two particles
    that are not linked, so that one order parameter is a valid coloring, reach the same
    point. *)
Theorem C38_same_op_apart_refuted : exists p q x, coloring 2 1 (1 / 2) 0 [p; q] (fun _ => 1%nat) 1 /\ has (cloud_ops true (fun _ => 1%nat) 2) 0 0 /\ has (cloud_ops true (fun _ => 1%nat) 2) 0 1 /\ is_in_sphere 2 1 Inside x (p_center p) (p_radius p) <> 0 /\ is_in_sphere 2 1 Inside x (p_center q) (p_radius q) <> 0.
Proof.
  exists (mkParticle (on_axis 0) 5), (mkParticle (on_axis (47 / 4)) 5), (on_axis (47 / 8)).
  assert (D : forall x y, vdist 2 (on_axis x) (on_axis y) = Rabs (x - y)) by (intros; apply axis_dist; lia).
  split; [|split; [|split; [|split]]].
  - split; [intros; lia|]. split; [intros c Hc; exists 0%nat; cbn; lia|].
    intros i j p q Hij Ei Ej H. unfold linked in H. exfalso.
    destruct i as [|[|i]]; cbn in Ei; [| |destruct i; discriminate]; (destruct j as [|[|j]]; cbn in Ej; [| |destruct j; discriminate]); try lia;
      apply some_inj in Ei; apply some_inj in Ej; subst p q; cbn [p_center p_radius] in H; rewrite D in H; rewrite Rmax_left in H by lra.
    + rewrite Rabs_pos_eq in H; lra.
    + rewrite Rabs_left in H; lra.
  - exists [0; 1]%nat. split; [reflexivity|left; reflexivity].
  - exists [0; 1]%nat. split; [reflexivity|right; left; reflexivity].
  - cbn [p_center p_radius]. intro E. apply (C39_sphere 2 1 Inside (on_axis 0) 5 ltac:(lra)) in E. cbn [lo] in E. rewrite D, Rabs_pos_eq in E; lra.
  - cbn [p_center p_radius]. intro E. apply (C39_sphere 2 1 Inside (on_axis (47 / 4)) 5 ltac:(lra)) in E. cbn [lo] in E. rewrite D, Rabs_left in E; lra.
Qed.
Print Assumptions C38_same_op_apart_refuted.

(** * Independence of the order *)
Lemma cloud_first : forall dim w dir orient ps p ids v, cloud_op_value dim w dir orient ps p ids = Some v -> v <> 0 ->
  exists i, In i ids /\ particle_value dim w dir orient ps p i = Some v.
Proof.
  intros dim w dir orient ps p. induction ids as [|i r IH]; intros v E Hv; cbn [cloud_op_value] in E; [injection E as <-; lra|].
  destruct (particle_value dim w dir orient ps p i) as [u|] eqn:U; [|discriminate]. cbn [obind] in E.
  destruct (Req_EM_T u 0) as [Z|Z].
  - destruct r as [|j r]; [injection E as <-; lra|]. destruct (IH v E Hv) as (k & Hk & Ek). exists k. split; [right; exact Hk|exact Ek].
  - injection E as <-. exists i. split; [left; reflexivity|exact U].
Qed.

Lemma cloud_zero : forall dim w dir orient ps p ids, cloud_op_value dim w dir orient ps p ids = Some 0 ->
  forall i v, In i ids -> particle_value dim w dir orient ps p i = Some v -> v = 0.
Proof.
  intros dim w dir orient ps p. induction ids as [|i r IH]; intros E j v Hj Ej; cbn [cloud_op_value] in E; [destruct Hj|].
  destruct (particle_value dim w dir orient ps p i) as [u|] eqn:U; [|discriminate]. cbn [obind] in E.
  destruct (Req_EM_T u 0) as [Z|Z].
  - destruct Hj as [<-|Hj]; [congruence|]. destruct r as [|k r]; [destruct Hj|]. apply (IH E j v Hj Ej).
  - injection E as E. lra.
Qed.

Lemma cloud_total : forall dim w dir orient ps p ids, (forall i, In i ids -> (i < length ps)%nat) ->
  exists v, cloud_op_value dim w dir orient ps p ids = Some v.
Proof.
  intros dim w dir orient ps p. induction ids as [|i r IH]; intro H; cbn [cloud_op_value]; [eexists; reflexivity|].
  unfold particle_value. destruct (vget_some _ ps i (H i (or_introl eq_refl))) as (q & Eq). rewrite Eq. cbn [obind].
  destruct (Req_EM_T _ 0); [|eexists; reflexivity]. destruct r; [eexists; reflexivity|]. apply IH. intros j Hj. apply H. right. exact Hj.
Qed.

(** The value of an order parameter does not depend on the order of its particles, as long
    as no two of them reach the point (see [C38_same_op_apart_partial]). *)
Theorem C38_grain_order_partial : forall dim w dir orient ps x ids ids', Permutation ids ids' -> (forall i, In i ids -> (i < length ps)%nat) ->
  (forall i j p q, In i ids -> In j ids -> i <> j -> vget ps i = Some p -> vget ps j = Some q ->
     is_in_sphere dim w dir x (p_center p) (p_radius p) = 0 \/ is_in_sphere dim w dir x (p_center q) (p_radius q) = 0) ->
  exists v, cloud_op_value dim w dir orient ps x ids = Some v /\ cloud_op_value dim w dir orient ps x ids' = Some v.
Proof.
  intros dim w dir orient ps x ids ids' P Hl Hd.
  assert (Hl' : forall i, In i ids' -> (i < length ps)%nat) by (intros i Hi; apply Hl; apply (Permutation_in i (Permutation_sym P)), Hi).
  destruct (cloud_total dim w dir orient ps x ids Hl) as (v & Ev). destruct (cloud_total dim w dir orient ps x ids' Hl') as (v' & Ev').
  exists v. split; [exact Ev|]. rewrite Ev'. f_equal.
  assert (VZ : forall i p u, vget ps i = Some p -> particle_value dim w dir orient ps x i = Some u -> u <> 0 -> is_in_sphere dim w dir x (p_center p) (p_radius p) <> 0).
  { intros i p u Ei E Hu Z. unfold particle_value in E. rewrite Ei in E. cbn [obind] in E. injection E as <-. apply Hu. unfold value_for_particle.
    destruct (Req_EM_T _ 0) as [Y|Y]; [exact Y|]. destruct (Y Z). }
  destruct (Req_EM_T v 0) as [Z|Z].
  - destruct (Req_EM_T v' 0) as [Z'|Z']; [lra|]. destruct (cloud_first _ _ _ _ _ _ _ _ Ev' Z') as (i & Hi & Ei). subst v.
    apply (cloud_zero _ _ _ _ _ _ _ Ev i v'); [apply (Permutation_in i (Permutation_sym P)), Hi|exact Ei].
  - destruct (cloud_first _ _ _ _ _ _ _ _ Ev Z) as (i & Hi & Ei).
    destruct (Req_EM_T v' 0) as [Z'|Z'].
    + subst v'. exfalso. apply Z. apply (cloud_zero _ _ _ _ _ _ _ Ev' i v); [apply (Permutation_in i P), Hi|exact Ei].
    + destruct (cloud_first _ _ _ _ _ _ _ _ Ev' Z') as (j & Hj & Ej). destruct (Nat.eq_dec i j) as [->|Hij]; [congruence|]. exfalso.
      pose proof (Permutation_in j (Permutation_sym P) Hj) as Hj'.
      destruct (vget_some _ ps i (Hl i Hi)) as (p & Ep). destruct (vget_some _ ps j (Hl j Hj')) as (q & Eq).
      pose proof (VZ i p v Ep Ei Z). pose proof (VZ j q v' Eq Ej Z'). destruct (Hd i j p q Hi Hj' Hij Ep Eq); contradiction.
Qed.
Print Assumptions C38_grain_order_partial.

(** The outer particles of the row. *)
Example C38_grain_order_applies : forall i j p q, In i [0; 2]%nat -> In j [0; 2]%nat -> i <> j -> vget row3 i = Some p -> vget row3 j = Some q ->
  is_in_sphere 2 1 Middle (on_axis 3) (p_center p) (p_radius p) = 0 \/ is_in_sphere 2 1 Middle (on_axis 3) (p_center q) (p_radius q) = 0.
Proof.
  assert (B : is_in_sphere 2 1 Middle (on_axis 3) (on_axis 20) 5 = 0).
  { apply (C39_sphere 2 1 Middle (on_axis 20) 5 ltac:(lra)). cbn [lo]. rewrite axis_dist by lia. rewrite Rabs_left; lra. }
  intros i j p q [<-|[<-|[]]] [<-|[<-|[]]] Hij Ei Ej; try lia; cbn in Ei, Ej; apply some_inj in Ei; apply some_inj in Ej; subst p q; cbn [p_center p_radius]; auto.
Qed.

(** Nor on the order of the neighbours of a particle, if no two neighbours have the same
    value at the point (other than zero). *)
Lemma secondary_spec : forall dim w dir p ns best, (match best with Some (_, c) => 0 < c | None => True end) ->
  let c (q : particle * vec) := is_in_sphere dim w dir p (p_center (fst q)) (p_radius (fst q)) in
  match fold_left (fun best q => if Rlt_dec (match best with Some (_, c) => c | None => 0 end) (c q) then Some (q, c q) else best) ns best with
  | Some (q, v) => (best = Some (q, v) \/ In q ns /\ v = c q) /\ 0 < v /\ (forall q', In q' ns -> c q' <= v) /\ (match best with Some (_, b) => b <= v | None => True end)
  | None => best = None /\ forall q', In q' ns -> c q' <= 0
  end.
Proof.
  intros dim w dir p ns. induction ns as [|a ns IH]; intros best Hb c; cbn [fold_left].
  - destruct best as [(q, v)|]; [|split; [reflexivity|intros q' []]]. split; [left; reflexivity|]. split; [exact Hb|]. split; [intros q' []|lra].
  - destruct (Rlt_dec (match best with Some (_, c) => c | None => 0 end) (c a)) as [L|L].
    + assert (Pa : 0 < c a) by (destruct best as [(q, v)|]; lra). specialize (IH (Some (a, c a)) Pa). cbn zeta in IH. fold c in IH.
      destruct (fold_left _ ns (Some (a, c a))) as [(q, v)|]; [|destruct IH as (X & _); discriminate X].
      destruct IH as (A & B & C & D). split; [right|].
      * destruct A as [A|(A1 & A2)]; [injection A as <- <-; split; [left; reflexivity|reflexivity]|split; [right; exact A1|exact A2]].
      * split; [exact B|]. split; [intros q' [<-|Hq]; [exact D|apply C, Hq]|]. destruct best as [(b, cb)|]; [lra|exact I].
    + specialize (IH best Hb). cbn zeta in IH. fold c in IH. destruct (fold_left _ ns best) as [(q, v)|].
      * destruct IH as (A & B & C & D). split; [destruct A as [A|(A1 & A2)]; [left; exact A|right; split; [right; exact A1|exact A2]]|].
        split; [exact B|]. split; [|exact D]. intros q' [<-|Hq]; [|apply C, Hq]. destruct best as [(b, cb)|]; lra.
      * destruct IH as (A & B). split; [exact A|]. intros q' [<-|Hq]; [|apply B, Hq]. subst best. lra.
Qed.

Theorem C38_neighbour_order_partial : forall dim w dir x p ns ns', Permutation ns ns' ->
  (forall a b, In a ns -> In b ns -> is_in_sphere dim w dir x (p_center (fst a)) (p_radius (fst a)) = is_in_sphere dim w dir x (p_center (fst b)) (p_radius (fst b)) ->
     a = b \/ is_in_sphere dim w dir x (p_center (fst a)) (p_radius (fst a)) = 0) ->
  value_for_particle dim w dir x p ns = value_for_particle dim w dir x p ns'.
Proof.
  intros dim w dir x p ns ns' P H. unfold value_for_particle. destruct (Req_EM_T _ 0); [reflexivity|].
  enough (E : secondary dim w dir x ns = secondary dim w dir x ns') by (rewrite E; reflexivity).
  pose proof (secondary_spec dim w dir x ns None I) as S1. pose proof (secondary_spec dim w dir x ns' None I) as S2. cbn zeta in *.
  change (fold_left _ ns None) with (secondary dim w dir x ns) in S1. change (fold_left _ ns' None) with (secondary dim w dir x ns') in S2.
  assert (P' := Permutation_sym P).
  destruct (secondary dim w dir x ns) as [(q, v)|]; destruct (secondary dim w dir x ns') as [(q', v')|].
  - destruct S1 as ([S1|(I1 & E1)] & P1 & M1 & _); [discriminate|]. destruct S2 as ([S2|(I2 & E2)] & P2 & M2 & _); [discriminate|].
    pose proof (M1 q' (Permutation_in _ P' I2)). pose proof (M2 q (Permutation_in _ P I1)).
    assert (Ev : v = v') by lra. destruct (H q q' I1 (Permutation_in _ P' I2)) as [Eq | Z]; [lra| |lra]. rewrite Eq, Ev. reflexivity.
  - destruct S1 as ([S1|(I1 & E1)] & P1 & _); [discriminate|]. destruct S2 as (_ & S2). specialize (S2 q (Permutation_in _ P I1)). lra.
  - destruct S2 as ([S2|(I2 & E2)] & P2 & _); [discriminate|]. destruct S1 as (_ & S1). specialize (S1 q' (Permutation_in _ P' I2)). lra.
  - reflexivity.
Qed.
Print Assumptions C38_neighbour_order_partial.

Example C38_neighbour_order_applies : forall a b, In a [(left_p, fun _ : nat => 0); (mkParticle (on_axis 50) 5, fun _ : nat => 0)] ->
  In b [(left_p, fun _ : nat => 0); (mkParticle (on_axis 50) 5, fun _ : nat => 0)] ->
  is_in_sphere 2 1 Middle (on_axis 1) (p_center (fst a)) (p_radius (fst a)) = is_in_sphere 2 1 Middle (on_axis 1) (p_center (fst b)) (p_radius (fst b)) ->
  a = b \/ is_in_sphere 2 1 Middle (on_axis 1) (p_center (fst a)) (p_radius (fst a)) = 0.
Proof.
  assert (A : is_in_sphere 2 1 Middle (on_axis 1) (on_axis 0) 5 = 1).
  { apply (C39_sphere 2 1 Middle (on_axis 0) 5 ltac:(lra)). cbn [lo]. rewrite axis_dist by lia. rewrite Rabs_pos_eq; lra. }
  assert (B : is_in_sphere 2 1 Middle (on_axis 1) (on_axis 50) 5 = 0).
  { apply (C39_sphere 2 1 Middle (on_axis 50) 5 ltac:(lra)). cbn [lo]. rewrite axis_dist by lia. rewrite Rabs_left; lra. }
  intros a b [<-|[<-|[]]] [<-|[<-|[]]]; cbn [fst left_p p_center p_radius]; rewrite ?A, ?B; intro E; auto; lra.
Qed.

(** Three particles that all contain a point: the value of the first one there is one or
    zero depending on the order of the other two. *)
Theorem C38_order_refuted : exists p a b x, Permutation [p; a; b] [p; b; a] /\
  (forall o, cloud_op_value 2 1 Middle o [p; a; b] x [0%nat] = Some 1) /\ (forall o, cloud_op_value 2 1 Middle o [p; b; a] x [0%nat] = Some 0).
Proof.
  set (p := mkParticle (on_axis 0) 10). set (a := mkParticle (on_axis 10) 10). set (b := mkParticle (on_axis 2) 10).
  exists p, a, b, (on_axis 3). split; [apply perm_skip, perm_swap|].
  assert (D : forall x y, vdist 2 (on_axis x) (on_axis y) = Rabs (x - y)) by (intros; apply axis_dist; lia).
  assert (S : forall y, -6 <= y <= 12 -> is_in_sphere 2 1 Middle (on_axis 3) (on_axis y) 10 = 1).
  { intros y Hy. apply (C39_sphere 2 1 Middle (on_axis y) 10 ltac:(lra)). cbn [lo]. rewrite D. unfold Rabs. destruct (Rcase_abs _); lra. }
  assert (Ca : in_contact 2 p a = true).
  { unfold in_contact. cbn [p a p_center p_radius]. rewrite D, Rabs_pos_eq by lra. destruct (Rle_dec _ _); [reflexivity|lra]. }
  assert (Cb : in_contact 2 p b = true).
  { unfold in_contact. cbn [p b p_center p_radius]. rewrite D, Rabs_pos_eq by lra. destruct (Rle_dec _ _); [reflexivity|lra]. }
  assert (Sp : is_in_sphere 2 1 Middle (on_axis 3) (p_center p) (p_radius p) = 1) by (apply S; lra).
  assert (Sa : is_in_sphere 2 1 Middle (on_axis 3) (p_center a) (p_radius a) = 1) by (apply S; lra).
  assert (Sb : is_in_sphere 2 1 Middle (on_axis 3) (p_center b) (p_radius b) = 1) by (apply S; lra).
  assert (Na : forall z, neck_coordinate 2 p a z (on_axis 3) = Some (- 2)).
  { intro z. assert (Dp : centers_dist 2 p a = 10) by (unfold centers_dist; cbn [p a p_center]; rewrite D, Rabs_pos_eq; lra).
    rewrite (coordinate 2 p a z (on_axis 3) 5); [|rewrite Dp; lra|intro X; discriminate X|].
    - f_equal. rewrite Dp. unfold between. cbn [dot p a p_center on_axis]. field.
    - rewrite Dp. cbn [p a p_radius]. replace (10 - 10) with 0 by ring. rewrite neck_abs; [|lra|lra|lra|replace (10 - 10) with 0 by ring; rewrite Rabs_R0; lra].
      f_equal. rewrite Rabs_pos_eq; lra. }
  assert (Nb : forall z, neck_coordinate 2 p b z (on_axis 3) = Some 2).
  { intro z. assert (Dp : centers_dist 2 p b = 2) by (unfold centers_dist; cbn [p b p_center]; rewrite D, Rabs_pos_eq; lra).
    rewrite (coordinate 2 p b z (on_axis 3) 1); [|rewrite Dp; lra|intro X; discriminate X|].
    - f_equal. rewrite Dp. unfold between. cbn [dot p b p_center on_axis]. field.
    - rewrite Dp. cbn [p b p_radius]. rewrite neck_abs; [|lra|lra|lra|replace (10 - 10) with 0 by ring; rewrite Rabs_R0; lra].
      f_equal. rewrite Rabs_pos_eq; lra. }
  split; intro o; unfold cloud_op_value, particle_value, neighbours; cbn [vget nth_error obind length seq combine filter fst snd Nat.eqb negb andb];
    rewrite Ca, Cb; cbn [map fst snd]; unfold value_for_particle, secondary; cbn [fold_left fst]; rewrite Sp, Sa, Sb;
    (destruct (Req_EM_T 1 0); [lra|]); (destruct (Rlt_dec 0 1); [|lra]); (destruct (Rlt_dec 1 1); [lra|]).
  - rewrite Na. destruct (Rlt_dec (-2) (1 / 2)); [|lra]. destruct (Rlt_dec (1 / 2) 1); [|lra]. destruct (Rlt_dec (- (1) / 2) (-2)); [lra|].
    destruct (Req_EM_T 1 0); [lra|reflexivity].
  - rewrite Nb. destruct (Rlt_dec 2 (1 / 2)); [lra|]. destruct (Req_EM_T 0 0); reflexivity.
Qed.
Print Assumptions C38_order_refuted.
