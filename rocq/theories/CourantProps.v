(** C81: the check of the Courant condition. *)
From Coq Require Import List Reals Arith Bool Lia Lra Psatz Permutation.
From Verif Require Import Util CourantModel.
Import ListNotations.
Local Open Scope R_scope.

Lemma less_true : forall a b, less a b = true <-> a < b.
Proof. intros a b. unfold less. destruct (Rlt_dec a b); split; intros; auto; try discriminate; contradiction. Qed.
Lemma less_false : forall a b, less a b = false <-> b <= a.
Proof. intros a b. unfold less. destruct (Rlt_dec a b); split; intros; auto; try discriminate; lra. Qed.

Lemma sum_none : forall n f, (forall i, (i < n)%nat -> f i = 0 \/ f i = 1) -> (less 0 (sum_of n f) = false <-> forall i, (i < n)%nat -> f i = 0).
Proof.
  intros n f H. unfold sum_of.
  assert (G : forall l, (forall i, In i l -> f i = 0 \/ f i = 1) -> 0 <= fold_right (fun i a => f i + a) 0 l /\ (fold_right (fun i a => f i + a) 0 l <= 0 <-> forall i, In i l -> f i = 0)).
  { induction l as [|a l IH]; intros K; cbn; [ split; [ lra | split; [ contradiction | lra ] ] | ]. destruct IH as [P E]; [ intros i I; apply K; right; exact I | ].
    destruct (K a (or_introl eq_refl)) as [A | A]; rewrite A.
    - split; [ lra | ]. rewrite Rplus_0_l, E. split; [ intros X i [<- | I]; auto | intros X i I; auto ].
    - split; [ lra | ]. split; [ intros X; lra | intros X; specialize (X a (or_introl eq_refl)); lra ]. }
  destruct (G (seq 0 n)) as [_ E]; [ intros i I; apply in_seq in I; apply H; lia | ]. rewrite less_false, E. split; intros X i L; apply X; [ apply in_seq; lia | apply in_seq in L; lia ].
Qed.

(** The velocity of a segment, from its volume, center, force and torque. *)
Definition seg_velocity (mt mr : R) (s : segm) (r : vec3) : vec3 :=
  vadd (vscale (mt / volume s) (seg_force s)) (vscale (mr / volume s) (vcross (seg_torque s) (vsub r (seg_center s)))).

(** what the loop relies on: the filled lanes come first and have a size, the others have no
    segment, and segments have a volume *)
Definition batch_ok (n_lanes : nat) (b : batch) : Prop :=
  (active b <= n_lanes)%nat /\ (forall i, (i < active b)%nat -> 0 < diameter b i) /\ (forall ig i, (active b <= i)%nat -> segment b ig i = None) /\
  (forall ig i s, segment b ig i = Some s -> 0 < volume s).

(** the condition for one cell *)
Definition cell_fine (n_grains n_q : nat) (mt mr dt : R) (b : batch) (i : nat) : Prop :=
  forall ig q s, (ig < n_grains)%nat -> (q < n_q)%nat -> segment b ig i = Some s -> vnorm (seg_velocity mt mr s (q_point b q i)) * dt < diameter b i.

Section Check.
Variables (n_lanes n_grains n_q : nat) (mt mr huge dt : R).
Hypothesis huge_pos : 0 < huge.

Lemma calc_seg : forall s r, calc_velocity mt mr (lane_data (Some s)) r = seg_velocity mt mr s r.
Proof. intros s r. unfold calc_velocity, seg_velocity. cbn. unfold Rdiv. rewrite !Rmult_1_l. reflexivity. Qed.
Lemma calc_null : forall r, vnorm (calc_velocity mt mr (lane_data None) r) = 0.
Proof. intros r. unfold vnorm, calc_velocity. cbn. transitivity (sqrt 0); [ f_equal; ring | apply sqrt_0 ]. Qed.

Lemma violated_spec : forall b ig q, batch_ok n_lanes b ->
  (violated n_lanes mt mr dt b (fun i => if (i <? active b)%nat then diameter b i else huge) ig q = false <->
   forall i s, (i < active b)%nat -> segment b ig i = Some s -> vnorm (seg_velocity mt mr s (q_point b q i)) * dt < diameter b i).
Proof.
  intros b ig q (A & D & N & V). unfold violated. rewrite sum_none.
  - split.
    + intros H i s L S. specialize (H i ltac:(lia)). cbv beta in H. rewrite S, calc_seg in H. assert (X : (i <? active b)%nat = true) by (apply Nat.ltb_lt; exact L). rewrite X in H.
      destruct (less _ _) eqn:Y; [ apply less_true in Y; exact Y | lra ].
    + intros H i L. destruct (segment b ig i) as [s|] eqn:S.
      * assert (K : (i < active b)%nat) by (destruct (Nat.lt_ge_cases i (active b)) as [K | K]; [ exact K | rewrite (N ig i K) in S; discriminate ]).
        rewrite calc_seg. assert (X : (i <? active b)%nat = true) by (apply Nat.ltb_lt; exact K). rewrite X. assert (Y := H i s K S). apply less_true in Y. rewrite Y. reflexivity.
      * rewrite calc_null, Rmult_0_l. assert (Y : less 0 (if (i <? active b)%nat then diameter b i else huge) = true) by (apply less_true; destruct (Nat.ltb_spec i (active b)); auto). rewrite Y. reflexivity.
  - intros i _. destruct (less _ _); auto.
Qed.
Lemma points_spec : forall b diam ig qs, check_points n_lanes mt mr dt b diam ig qs = true <-> forall q, In q qs -> violated n_lanes mt mr dt b diam ig q = false.
Proof.
  induction qs as [|q r IH]; cbn; [ split; [ contradiction | reflexivity ] | ]. destruct (violated _ _ _ _ _ _ _ _) eqn:E.
  - split; [ discriminate | intros H; specialize (H q (or_introl eq_refl)); congruence ].
  - rewrite IH. split; [ intros H p [<- | I]; auto | intros H p I; auto ].
Qed.
Lemma grains_spec : forall b diam igs st, check_grains n_lanes n_q mt mr dt b diam igs st = true <->
  st = true /\ forall ig, In ig igs -> has_non_zero n_lanes b ig = true -> check_points n_lanes mt mr dt b diam ig (seq 0 n_q) = true.
Proof.
  induction igs as [|ig r IH]; intros st; cbn; [ split; [ intros ->; split; [ reflexivity | contradiction ] | intros [E _]; exact E ] | ].
  destruct st; [ | split; [ discriminate | intros [E _]; exact E ] ]. rewrite IH. split.
  - intros [A B]. split; [ reflexivity | ]. intros j [<- | I] Hj; [ rewrite Hj in A; exact A | auto ].
  - intros [_ B]. split; [ | intros j I Hj; apply B; auto ]. destruct (has_non_zero n_lanes b ig) eqn:E; auto.
Qed.
Lemma has_spec : forall b ig i s, batch_ok n_lanes b -> (i < n_lanes)%nat -> segment b ig i = Some s -> has_non_zero n_lanes b ig = true.
Proof.
  intros b ig i s (_ & _ & _ & V) L S. unfold has_non_zero. apply existsb_exists. exists i. split; [ apply in_seq; lia | ]. apply less_true. rewrite S. cbn. apply Rdiv_lt_0_compat; [ lra | exact (V ig i s S) ].
Qed.
Lemma batches_spec : forall bs st, (forall b, In b bs -> batch_ok n_lanes b) -> exists v, check_batches n_lanes n_grains n_q mt mr dt bs (precompute huge bs) st = Some v /\
  (v = true <-> st = true /\ forall b, In b bs -> forall i, (i < active b)%nat -> cell_fine n_grains n_q mt mr dt b i).
Proof.
  induction bs as [|b bs IH]; intros st H; cbn [precompute map check_batches]; [ exists st; split; [ reflexivity | split; [ intros E; split; [ exact E | contradiction ] | intros [E _]; exact E ] ] | ].
  destruct st; [ | exists false; split; [ reflexivity | split; [ discriminate | intros [E _]; exact E ] ] ].
  destruct (IH (check_grains n_lanes n_q mt mr dt b (fun i => if (i <? active b)%nat then diameter b i else huge) (seq 0 n_grains) true)) as (v & E & S); [ intros c I; apply H; right; exact I | ].
  exists v. split; [ exact E | ]. rewrite S, grains_spec. pose proof (H b (or_introl eq_refl)) as K. split.
  - intros [[_ G] B]. split; [ reflexivity | ]. intros c [<- | I]; [ | apply B; exact I ]. intros i L ig q s Lg Lq X. pose proof K as (A & _).
    specialize (G ig ltac:(apply in_seq; lia) (has_spec b ig i s K ltac:(lia) X)). rewrite points_spec in G. specialize (G q ltac:(apply in_seq; lia)). exact (proj1 (violated_spec b ig q K) G i s L X).
  - intros [_ B]. split; [ split; [ reflexivity | ] | intros c I; apply B; right; exact I ]. intros ig I _. apply points_spec. intros q Iq. apply in_seq in I. apply in_seq in Iq.
    apply (proj2 (violated_spec b ig q K)). intros i s L X. apply (B b (or_introl eq_refl) i L ig q s); [ lia | lia | exact X ].
Qed.
End Check.

(** C81: the check passes exactly if in every cell of every process every grain moves less than
    the diameter of the cell at every quadrature point; there is no exception if the diameters
    belong to the batches. *)
Theorem C81_exact : forall n_lanes n_grains n_q mt mr huge dt procs, 0 < huge -> (forall bs, In bs procs -> forall b, In b bs -> batch_ok n_lanes b) ->
  exists v, check_courant n_lanes n_grains n_q mt mr dt (map (fun bs => (bs, precompute huge bs)) procs) = Some v /\
  (v = true <-> forall bs, In bs procs -> forall b, In b bs -> forall i, (i < active b)%nat -> cell_fine n_grains n_q mt mr dt b i).
Proof.
  intros n_lanes n_grains n_q mt mr huge dt procs P. induction procs as [|bs r IH]; intros H; cbn [map check_courant]; [ exists true; split; [ reflexivity | split; [ contradiction | reflexivity ] ] | ].
  destruct IH as (w & E & S); [ intros cs I; apply H; right; exact I | ].
  destruct (batches_spec n_lanes n_grains n_q mt mr huge dt P bs true (H bs (or_introl eq_refl))) as (v & F & T).
  cbn [fst snd]. unfold local_status. unfold precompute at 1. rewrite map_length, Nat.eqb_refl, F. cbn [obind]. rewrite E. cbn [obind]. exists (v && w). split; [ reflexivity | ].
  rewrite andb_true_iff, T, S. split.
  - intros [[_ A] B] cs [<- | I]; [ exact A | apply B; exact I ].
  - intros A. split; [ split; [ reflexivity | ] | ]; [ intros b I; apply (A bs (or_introl eq_refl) b I) | intros cs I; apply (A cs (or_intror I)) ].
Qed.
Print Assumptions C81_exact.

(** C81: so the answer depends on the cells only, not on the processes and batches they are in. *)
Definition cells_of (procs : list (list batch)) : list (R * (nat -> vec3) * (nat -> option segm)) :=
  flat_map (fun b => map (fun i => (diameter b i, (fun q => q_point b q i), (fun ig => segment b ig i))) (seq 0 (active b))) (concat procs).
Theorem C81_partition : forall n_lanes n_lanes' n_grains n_q mt mr huge dt procs procs', 0 < huge ->
  (forall bs, In bs procs -> forall b, In b bs -> batch_ok n_lanes b) -> (forall bs, In bs procs' -> forall b, In b bs -> batch_ok n_lanes' b) ->
  Permutation (cells_of procs) (cells_of procs') ->
  check_courant n_lanes n_grains n_q mt mr dt (map (fun bs => (bs, precompute huge bs)) procs) = check_courant n_lanes' n_grains n_q mt mr dt (map (fun bs => (bs, precompute huge bs)) procs').
Proof.
  intros n_lanes n_lanes' n_grains n_q mt mr huge dt procs procs' P K K' PM.
  destruct (C81_exact n_lanes n_grains n_q mt mr huge dt procs P K) as (v & E & S). destruct (C81_exact n_lanes' n_grains n_q mt mr huge dt procs' P K') as (w & F & T). rewrite E, F. f_equal.
  set (fine := fun c : R * (nat -> vec3) * (nat -> option segm) => forall ig q s, (ig < n_grains)%nat -> (q < n_q)%nat -> snd c ig = Some s -> vnorm (seg_velocity mt mr s (snd (fst c) q)) * dt < fst (fst c)).
  assert (G : forall ps, (forall bs, In bs ps -> forall b, In b bs -> forall i, (i < active b)%nat -> cell_fine n_grains n_q mt mr dt b i) <-> (forall c, In c (cells_of ps) -> fine c)).
  { intros ps. unfold cells_of. split.
    - intros H c I. apply in_flat_map in I. destruct I as (b & Ib & I). apply in_concat in Ib. destruct Ib as (bs & I1 & I2). apply in_map_iff in I. destruct I as (i & <- & Li). apply in_seq in Li. exact (H bs I1 b I2 i ltac:(lia)).
    - intros H bs I1 b I2 i L. apply (H (diameter b i, (fun q => q_point b q i), (fun ig => segment b ig i))). apply in_flat_map. exists b. split; [ apply in_concat; exists bs; auto | ]. apply in_map_iff. exists i. split; [ reflexivity | apply in_seq; lia ]. }
  assert (X : v = true <-> w = true).
  { rewrite S, T, !G. split; intros H c I; apply H; [ apply (Permutation_in c (Permutation_sym PM)); exact I | apply (Permutation_in c PM); exact I ]. }
  destruct v, w; auto; [ symmetry; apply X; reflexivity | apply X; reflexivity ].
Qed.
Print Assumptions C81_partition.

(** ** Between the points *)
Lemma vnorm_nonneg : forall a, 0 <= vnorm a. Proof. intros a. apply sqrt_pos. Qed.
Lemma sq_sum : forall x y z, 0 <= x * x + y * y + z * z.
Proof. intros. pose proof (Rle_0_sqr x). pose proof (Rle_0_sqr y). pose proof (Rle_0_sqr z). unfold Rsqr in *. lra. Qed.
Lemma vnorm_sq : forall a, vnorm a * vnorm a = vx a * vx a + vy a * vy a + vz a * vz a.
Proof. intros a. apply sqrt_sqrt, sq_sum. Qed.
Lemma square_le : forall a b, 0 <= b -> a * a <= b * b -> a <= b.
Proof. intros a b B H. nra. Qed.
Lemma vscale_norm : forall s a, vnorm (vscale s a) = Rabs s * vnorm a.
Proof.
  intros s a. unfold vnorm, vscale. cbn. rewrite <- sqrt_Rsqr_abs, <- sqrt_mult; [ | apply Rle_0_sqr | apply sq_sum ]. f_equal. unfold Rsqr. ring.
Qed.
Lemma dot_bound : forall a b, vx a * vx b + vy a * vy b + vz a * vz b <= vnorm a * vnorm b.
Proof.
  intros a b. apply square_le; [ apply Rmult_le_pos; apply vnorm_nonneg | ].
  replace (vnorm a * vnorm b * (vnorm a * vnorm b)) with ((vnorm a * vnorm a) * (vnorm b * vnorm b)) by ring. rewrite !vnorm_sq.
  pose proof (sq_sum (vx a * vy b - vy a * vx b) (vy a * vz b - vz a * vy b) (vz a * vx b - vx a * vz b)). nra.
Qed.
Lemma vadd_norm : forall a b, vnorm (vadd a b) <= vnorm a + vnorm b.
Proof.
  intros a b. pose proof (vnorm_nonneg a). pose proof (vnorm_nonneg b). apply square_le; [ lra | ]. rewrite vnorm_sq. cbn. pose proof (dot_bound a b). pose proof (vnorm_sq a). pose proof (vnorm_sq b). nra.
Qed.
Lemma vcross_norm : forall a b, vnorm (vcross a b) <= vnorm a * vnorm b.
Proof.
  intros a b. apply square_le; [ apply Rmult_le_pos; apply vnorm_nonneg | ].
  replace (vnorm a * vnorm b * (vnorm a * vnorm b)) with ((vnorm a * vnorm a) * (vnorm b * vnorm b)) by ring. rewrite !vnorm_sq. cbn.
  pose proof (Rle_0_sqr (vx a * vx b + vy a * vy b + vz a * vz b)). unfold Rsqr in *. nra.
Qed.

(** C81: what the check at one point says about any other point: the difference is at most
    the distance times the angular velocity. *)
Theorem C81_anywhere_partial : forall mt mr s q x dt diam, 0 <= dt -> 0 < volume s -> vnorm (seg_velocity mt mr s q) * dt < diam ->
  vnorm (seg_velocity mt mr s x) * dt < diam + Rabs mr / volume s * vnorm (seg_torque s) * vnorm (vsub x q) * dt.
Proof.
  intros mt mr s q x dt diam T V H.
  assert (E : seg_velocity mt mr s x = vadd (seg_velocity mt mr s q) (vscale (mr / volume s) (vcross (seg_torque s) (vsub x q)))).
  { unfold seg_velocity, vadd, vscale, vcross, vsub. cbn. f_equal; ring. }
  rewrite E. set (v := seg_velocity mt mr s q) in *. set (w := vscale (mr / volume s) (vcross (seg_torque s) (vsub x q))).
  pose proof (vadd_norm v w) as A. assert (B : vnorm w <= Rabs mr / volume s * (vnorm (seg_torque s) * vnorm (vsub x q))).
  { unfold w. rewrite vscale_norm. unfold Rdiv. rewrite Rabs_mult, (Rabs_right (/ volume s)) by (apply Rle_ge, Rlt_le, Rinv_0_lt_compat; exact V).
    apply Rmult_le_compat_l; [ apply Rmult_le_pos; [ apply Rabs_pos | apply Rlt_le, Rinv_0_lt_compat; exact V ] | apply vcross_norm ]. }
  replace (diam + Rabs mr / volume s * vnorm (seg_torque s) * vnorm (vsub x q) * dt) with (diam + Rabs mr / volume s * (vnorm (seg_torque s) * vnorm (vsub x q)) * dt) by ring.
  set (k := Rabs mr / volume s * (vnorm (seg_torque s) * vnorm (vsub x q))) in *.
  apply Rle_lt_trans with ((vnorm v + k) * dt); [ apply Rmult_le_compat_r; lra | ]. rewrite Rmult_plus_distr_r. lra.
Qed.
Print Assumptions C81_anywhere_partial.
(** C81: without rotation the check at one point holds for the whole cell. *)
Theorem C81_translation : forall mt mr s q x dt diam, (mr = 0 \/ seg_torque s = vzero) -> vnorm (seg_velocity mt mr s q) * dt < diam -> vnorm (seg_velocity mt mr s x) * dt < diam.
Proof.
  intros mt mr s q x dt diam H L. replace (seg_velocity mt mr s x) with (seg_velocity mt mr s q); [ exact L | ].
  unfold seg_velocity, vadd, vscale, vcross, vsub. destruct H as [-> | ->]; cbn; f_equal; unfold Rdiv; ring.
Qed.
Print Assumptions C81_translation.
(** C81 refuted with rotation: the four quadrature points of a square pass, its corner moves
    further than the diameter.  The points have coordinates 1/5 and 4/5; those of the Gauss
    formula with two points are further inside. *)
Definition square_point (q : nat) : vec3 := mkV (if Nat.odd q then 4 / 5 else 1 / 5) (if (q <? 2)%nat then 1 / 5 else 4 / 5) 0.
Definition spinning : segm := mkSeg 1 vzero vzero (mkV 0 0 (6 / 5)).
Definition square_batch : batch := mkBatch 1 (fun _ => sqrt 2) (fun q _ => square_point q) (fun ig i => match i with O => Some spinning | _ => None end).
Theorem C81_corner_refuted : batch_ok 1 square_batch /\ check_courant 1 1 4 1 1 1 [([square_batch], precompute 1 [square_batch])] = Some true /\
  vnorm (vsub (mkV 1 1 0) vzero) = diameter square_batch 0 /\ diameter square_batch 0 < vnorm (seg_velocity 1 1 spinning (mkV 1 1 0)) * 1.
Proof.
  assert (S2 : 0 < sqrt 2) by (apply sqrt_lt_R0; lra).
  assert (K : batch_ok 1 square_batch).
  { split; [ cbn; lia | ]. split; [ intros i _; exact S2 | ]. split; [ intros ig i L; cbn in *; destruct i; [ lia | reflexivity ] | ].
    intros ig i s E. cbn in E. destruct i; [ injection E as <-; cbn; lra | discriminate ]. }
  split; [ exact K | ]. split; [ | split ].
  - destruct (C81_exact 1 1 4 1 1 1 1 [[square_batch]] ltac:(lra)) as (v & E & S); [ intros bs [<- | []] b [<- | []]; exact K | ]. cbn [map] in E. rewrite E. f_equal. apply S.
    intros bs [<- | []] b [<- | []] i L ig q s _ Lq X. cbn in X, L. destruct i; [ | discriminate ]. injection X as <-. rewrite Rmult_1_r. cbn [diameter square_batch q_point].
    unfold vnorm. apply sqrt_lt_1_alt. destruct q as [|[|[|[|q]]]]; [ | | | | lia ]; cbn; split; nra.
  - unfold vnorm, vsub. cbn. f_equal. ring.
  - unfold vnorm. rewrite Rmult_1_r. cbn [diameter square_batch]. apply sqrt_lt_1_alt. cbn. split; nra.
Qed.
Print Assumptions C81_corner_refuted.

(** ** Smaller steps *)
(** C81: a check that passes also passes for a smaller step, and for every mesh and velocity
    there is a step from which on it passes: reducing the step after a violation ends. *)
Theorem C81_smaller : forall n_lanes n_grains n_q mt mr huge dt dt' procs, 0 < huge -> (forall bs, In bs procs -> forall b, In b bs -> batch_ok n_lanes b) -> dt' <= dt ->
  check_courant n_lanes n_grains n_q mt mr dt (map (fun bs => (bs, precompute huge bs)) procs) = Some true ->
  check_courant n_lanes n_grains n_q mt mr dt' (map (fun bs => (bs, precompute huge bs)) procs) = Some true.
Proof.
  intros n_lanes n_grains n_q mt mr huge dt dt' procs P K L E.
  destruct (C81_exact n_lanes n_grains n_q mt mr huge dt procs P K) as (v & E' & S). destruct (C81_exact n_lanes n_grains n_q mt mr huge dt' procs P K) as (w & F & T). rewrite E in E'. injection E' as <-. rewrite F. f_equal. apply T.
  intros bs I1 b I2 i Li ig q s Lg Lq X. pose proof (proj1 S eq_refl bs I1 b I2 i Li ig q s Lg Lq X) as Y. pose proof (vnorm_nonneg (seg_velocity mt mr s (q_point b q i))). nra.
Qed.
Print Assumptions C81_smaller.
Lemma uniform : forall (A : Type) (l : list A) (Pr : A -> R -> Prop), (forall a d d', 0 < d' -> d' <= d -> Pr a d -> Pr a d') -> (forall a, In a l -> exists d, 0 < d /\ Pr a d) -> exists d, 0 < d /\ forall a, In a l -> Pr a d.
Proof.
  intros A l Pr M. induction l as [|a l IH]; intros H; [ exists 1; split; [ lra | contradiction ] | ]. destruct IH as (d & D & I); [ intros x X; apply H; right; exact X | ].
  destruct (H a (or_introl eq_refl)) as (e & E & J). exists (Rmin d e). assert (0 < Rmin d e) by (apply Rmin_glb_lt; assumption). split; [ assumption | ]. intros x [<- | X]; [ apply (M a e); auto; apply Rmin_r | apply (M x d); auto; apply Rmin_l ].
Qed.
Theorem C81_small_step : forall n_lanes n_grains n_q mt mr huge procs, 0 < huge -> (forall bs, In bs procs -> forall b, In b bs -> batch_ok n_lanes b) ->
  exists dt, 0 < dt /\ check_courant n_lanes n_grains n_q mt mr dt (map (fun bs => (bs, precompute huge bs)) procs) = Some true.
Proof.
  intros n_lanes n_grains n_q mt mr huge procs P K.
  assert (MONO : forall b i ig q (d d' : R), 0 < d' -> d' <= d -> (forall s, segment b ig i = Some s -> vnorm (seg_velocity mt mr s (q_point b q i)) * d < diameter b i) -> (forall s, segment b ig i = Some s -> vnorm (seg_velocity mt mr s (q_point b q i)) * d' < diameter b i)).
  { intros b i ig q d d' A B H s X. specialize (H s X). pose proof (vnorm_nonneg (seg_velocity mt mr s (q_point b q i))). nra. }
  destruct (uniform _ (concat procs) (fun b d => forall i, In i (seq 0 (active b)) -> forall ig, In ig (seq 0 n_grains) -> forall q, In q (seq 0 n_q) -> forall s, segment b ig i = Some s -> vnorm (seg_velocity mt mr s (q_point b q i)) * d < diameter b i)) as (dt & D & H).
  - intros b d d' A B H i Ii ig Ig q Iq. apply (MONO b i ig q d d' A B). exact (H i Ii ig Ig q Iq).
  - intros b Ib. apply in_concat in Ib. destruct Ib as (bs & I1 & I2). pose proof (K bs I1 b I2) as (_ & DP & _).
    apply (uniform _ (seq 0 (active b)) (fun i d => forall ig, In ig (seq 0 n_grains) -> forall q, In q (seq 0 n_q) -> forall s, segment b ig i = Some s -> vnorm (seg_velocity mt mr s (q_point b q i)) * d < diameter b i)).
    { intros i d d' A B H ig Ig q Iq. apply (MONO b i ig q d d' A B). exact (H ig Ig q Iq). }
    intros i Ii. apply (uniform _ (seq 0 n_grains) (fun ig d => forall q, In q (seq 0 n_q) -> forall s, segment b ig i = Some s -> vnorm (seg_velocity mt mr s (q_point b q i)) * d < diameter b i)).
    { intros ig d d' A B H q Iq. apply (MONO b i ig q d d' A B). exact (H q Iq). }
    intros ig Ig. apply (uniform _ (seq 0 n_q) (fun q d => forall s, segment b ig i = Some s -> vnorm (seg_velocity mt mr s (q_point b q i)) * d < diameter b i)).
    { intros q d d' A B H. apply (MONO b i ig q d d' A B). exact H. }
    intros q Iq. destruct (segment b ig i) as [s|] eqn:S; [ | exists 1; split; [ lra | intros s X; discriminate ] ].
    apply in_seq in Ii. specialize (DP i ltac:(lia)). set (v := vnorm (seg_velocity mt mr s (q_point b q i))). assert (V : 0 <= v) by apply vnorm_nonneg.
    exists (diameter b i / (v + 1)). split; [ apply Rdiv_lt_0_compat; lra | ]. intros s' X. injection X as <-. fold v.
    replace (v * (diameter b i / (v + 1))) with (diameter b i * (v / (v + 1))) by (field; lra). rewrite <- (Rmult_1_r (diameter b i)) at 2. apply Rmult_lt_compat_l; [ exact DP | ].
    apply Rmult_lt_reg_r with (v + 1); [ lra | ]. unfold Rdiv. rewrite Rmult_assoc, Rinv_l by lra. lra.
  - exists dt. split; [ exact D | ]. destruct (C81_exact n_lanes n_grains n_q mt mr huge dt procs P K) as (w & F & T). rewrite F. f_equal. apply T.
    intros bs I1 b I2 i Li ig q s Lg Lq X. apply (H b ltac:(apply in_concat; exists bs; auto) i ltac:(apply in_seq; lia) ig ltac:(apply in_seq; lia) q ltac:(apply in_seq; lia) s X).
Qed.
Print Assumptions C81_small_step.

(** ** The diameters belong to the current mesh *)
(** C81: whatever the run does, at every check the diameters are those of the current mesh. *)
Theorem C81_current : forall fresh adaptive n_init amrs, let s := fold_left (dstep true) amrs (start true fresh adaptive n_init (mkD 0 None)) in d_diam s = Some (d_mesh s).
Proof.
  intros fresh adaptive n_init amrs. cbv zeta.
  assert (G : forall l s, d_diam s = Some (d_mesh s) -> d_diam (fold_left (dstep true) l s) = Some (d_mesh (fold_left (dstep true) l s))).
  { induction l as [|a l IH]; intros s H; [ exact H | ]. cbn [fold_left]. apply IH. destruct a; [ reflexivity | exact H ]. }
  apply G. unfold start. destruct (fresh && adaptive); [ | reflexivity ]. cbv zeta. destruct (n_init =? 0)%nat eqn:E; [ reflexivity | ].
  apply Nat.eqb_neq in E. destruct n_init as [|n]; [ lia | ]. reflexivity.
Qed.
Print Assumptions C81_current.
(** C81: diameters of a mesh with another number of batches raise an exception. *)
Theorem C81_mismatch : forall n_lanes n_grains n_q mt mr dt bs diams r, length diams <> length bs -> check_courant n_lanes n_grains n_q mt mr dt ((bs, diams) :: r) = None.
Proof. intros n_lanes n_grains n_q mt mr dt bs diams r H. cbn. unfold local_status. apply Nat.eqb_neq in H. rewrite H. reflexivity. Qed.
Print Assumptions C81_mismatch.

(** ** Case: one cell of diameter 1 and a grain with velocity 2: too fast for the step 1, not
    for the step 1/4 *)
Definition fast : segm := mkSeg 2 vzero (mkV 4 0 0) vzero.
Definition fast_batch : batch := mkBatch 1 (fun _ => 1) (fun q _ => vzero) (fun ig i => match i with O => Some fast | _ => None end).
Example C81_example : check_courant 2 1 1 1 1 1 [([fast_batch], precompute 9 [fast_batch])] = Some false /\ check_courant 2 1 1 1 1 (1 / 4) [([fast_batch], precompute 9 [fast_batch])] = Some true.
Proof.
  assert (K : batch_ok 2 fast_batch).
  { split; [ cbn; lia | ]. split; [ intros i _; cbn; lra | ]. split; [ intros ig i L; cbn in *; destruct i; [ lia | reflexivity ] | ].
    intros ig i s E. cbn in E. destruct i; [ injection E as <-; cbn; lra | discriminate ]. }
  assert (V : vnorm (seg_velocity 1 1 fast vzero) = 2).
  { unfold vnorm. cbn. replace (_ + _) with (2 * 2) by field. apply sqrt_square. lra. }
  split.
  - destruct (C81_exact 2 1 1 1 1 9 1 [[fast_batch]] ltac:(lra)) as (v & E & S); [ intros bs [<- | []] b [<- | []]; exact K | ]. cbn [map] in E. rewrite E. destruct v; [ | reflexivity ].
    exfalso. pose proof (proj1 S eq_refl [fast_batch] (or_introl eq_refl) fast_batch (or_introl eq_refl) 0%nat ltac:(cbn; lia) 0%nat 0%nat fast ltac:(lia) ltac:(lia) eq_refl) as X. cbn [q_point fast_batch diameter] in X. rewrite V in X. lra.
  - destruct (C81_exact 2 1 1 1 1 9 (1 / 4) [[fast_batch]] ltac:(lra)) as (v & E & S); [ intros bs [<- | []] b [<- | []]; exact K | ]. cbn [map] in E. rewrite E. f_equal. apply S.
    intros bs [<- | []] b [<- | []] i L ig q s _ _ X. cbn in X, L. destruct i; [ | discriminate ]. injection X as <-. cbn [q_point fast_batch diameter]. rewrite V. lra.
Qed.
