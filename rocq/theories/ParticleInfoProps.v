(** C19: measures, centers and maximum values; C52: radii and moments of inertia. *)
From Coq Require Import List QArith Qabs Arith Bool Lia Lqa.
From Verif Require Import Util FloodModel FloodProofs ParticleInfoModel.
Import ListNotations.
Local Open Scope nat_scope.

(** Sum of [f] over a list, cells of a particle. *)
Definition qsum {A} (f : A -> Q) (l : list A) : Q := fold_right (fun x a => (f x + a)%Q) 0%Q l.
Definition cells_of (u : nat) (cells : list cell) : list cell :=
  filter (fun c => match c_particle c with Some v => v =? u | None => false end) cells.

(** Sum of the additions at index [i] *)
Definition sum_at (i : nat) (l : list (nat * Q)) : Q :=
  fold_right (fun p a => if fst p =? i then (snd p + a)%Q else a) 0%Q l.

Lemma nth_vget : forall (v : list Q) i, i < length v -> vget v i = Some (nth i v 0%Q).
Proof. intros v i H. unfold vget. apply nth_error_nth'. exact H. Qed.

Lemma nth_vset : forall v i x v' j, vset v i x = Some v' -> i < length v ->
  nth j v' 0%Q = if j =? i then x else nth j v 0%Q.
Proof.
  intros v i x v' j H Hi. pose proof (vset_get _ _ _ _ _ j H) as G. pose proof (vset_length _ _ _ _ _ H) as L.
  destruct (Nat.lt_ge_cases j (length v)) as [Hj|Hj].
  - rewrite (nth_vget v' j) in G by lia. rewrite (nth_vget v j Hj) in G.
    destruct (j =? i); congruence.
  - rewrite !nth_overflow by lia. destruct (Nat.eqb_spec j i); [lia|reflexivity].
Qed.

Lemma add_all_spec : forall l v, (forall i x, In (i, x) l -> i < length v) ->
  exists v', add_all v l = Some v' /\ length v' = length v /\
    forall i, (nth i v' 0 == nth i v 0 + (if i <? length v then sum_at i l else 0))%Q.
Proof.
  induction l as [|[j x] l IH]; intros v H; cbn [add_all].
  - exists v. split; [reflexivity|]. split; [reflexivity|]. intro i. cbn [sum_at fold_right].
    destruct (i <? length v); ring.
  - pose proof (H j x (or_introl eq_refl)) as Hj. unfold add_at. rewrite (nth_vget v j Hj). cbn [obind].
    destruct (vset_some _ v j (nth j v 0 + x)%Q Hj) as [v1 E1]. rewrite E1. cbn [obind].
    pose proof (vset_length _ _ _ _ _ E1) as L1.
    destruct (IH v1) as (v' & E & L & S).
    { intros i y Hi. rewrite L1. apply (H i y). right. exact Hi. }
    exists v'. split; [exact E|]. split; [lia|]. intro i. rewrite S, L1, (nth_vset _ _ _ _ i E1 Hj).
    cbn [sum_at fold_right fst snd]. rewrite (Nat.eqb_sym j i). fold (sum_at i l).
    destruct (Nat.eqb_spec i j) as [->|Hn].
    + destruct (Nat.ltb_spec j (length v)); [ring|lia].
    + reflexivity.
Qed.

Definition cell_sum (contrib : nat -> cell -> list (nat * Q)) (P : cell -> bool) (cells : list cell) (i : nat) : Q :=
  qsum (fun c => if P c then match c_particle c with None => 0%Q | Some u => sum_at i (contrib u c) end else 0%Q) cells.

Section Sums.
Variable contrib : nat -> cell -> list (nat * Q).
Variable cells : list cell.
Variable n : nat.
Hypothesis RANGE : forall c u i x, In c cells -> c_particle c = Some u -> In (i, x) (contrib u c) -> i < n.

Lemma accumulate_spec : forall me cs v, (forall c, In c cs -> In c cells) -> length v = n ->
  exists v', accumulate contrib me cs v = Some v' /\ length v' = n /\
    forall i, i < n -> (nth i v' 0 == nth i v 0 + cell_sum contrib (fun c => c_rank c =? me) cs i)%Q.
Proof.
  intro me. induction cs as [|c cs IH]; intros v HC HL; cbn [accumulate].
  - exists v. split; [reflexivity|]. split; [exact HL|]. intros i Hi. unfold cell_sum, qsum. cbn [fold_right]. ring.
  - assert (HC' : forall c, In c cs -> In c cells) by (intros; apply HC; right; assumption).
    destruct (c_rank c =? me) eqn:Er.
    + destruct (c_particle c) as [u|] eqn:Eu.
      * destruct (add_all_spec (contrib u c) v) as (v1 & E1 & L1 & S1).
        { intros i x Hi. rewrite HL. apply (RANGE c u i x); [apply HC; left; reflexivity|exact Eu|exact Hi]. }
        rewrite E1. cbn [obind]. destruct (IH v1 HC') as (v' & E & L & S); [lia|].
        exists v'. split; [exact E|]. split; [exact L|]. intros i Hi. rewrite (S i Hi), S1.
        unfold cell_sum, qsum. cbn [fold_right]. rewrite Er, Eu.
        destruct (Nat.ltb_spec i (length v)); [ring|lia].
      * destruct (IH v HC' HL) as (v' & E & L & S). exists v'. split; [exact E|]. split; [exact L|].
        intros i Hi. rewrite (S i Hi). unfold cell_sum, qsum. cbn [fold_right]. rewrite Er, Eu. ring.
    + destruct (IH v HC' HL) as (v' & E & L & S). exists v'. split; [exact E|]. split; [exact L|].
      intros i Hi. rewrite (S i Hi). unfold cell_sum, qsum. cbn [fold_right]. rewrite Er. ring.
Qed.

Lemma vadd_nth : forall a b i, length a = length b -> (nth i (vadd a b) 0 == nth i a 0 + nth i b 0)%Q.
Proof.
  induction a as [|x a IH]; intros [|y b] i H; try discriminate; cbn [vadd].
  - destruct i; simpl; ring.
  - destruct i as [|i]; [reflexivity|]. cbn [nth]. apply IH. cbn in H. congruence.
Qed.

Lemma vadd_length : forall a b, length a = length b -> length (vadd a b) = length a.
Proof. induction a as [|x a IH]; intros [|y b] H; try discriminate; cbn in *; [reflexivity|]. rewrite IH; congruence. Qed.

Lemma reduce_sum_spec : forall n_ranks, exists v,
  reduce_sum (fun me => accumulate contrib me cells (repeat 0%Q n)) n_ranks n = Some v /\ length v = n /\
  forall i, i < n -> (nth i v 0 == cell_sum contrib (fun c => c_rank c <? n_ranks) cells i)%Q.
Proof.
  induction n_ranks as [|r IH]; cbn [reduce_sum].
  - exists (repeat 0%Q n). split; [reflexivity|]. split; [apply repeat_length|]. intros i Hi.
    rewrite nth_repeat. unfold cell_sum, qsum. clear. induction cells as [|c cs IH]; [reflexivity|].
    cbn [fold_right]. rewrite <- IH. replace (c_rank c <? 0) with false by (symmetry; apply Nat.ltb_ge; lia). ring.
  - destruct IH as (a & Ea & La & Sa). rewrite Ea. cbn [obind].
    destruct (accumulate_spec r cells (repeat 0%Q n) (fun c H => H)) as (b & Eb & Lb & Sb); [apply repeat_length|].
    rewrite Eb. cbn [obind]. exists (vadd a b). split; [reflexivity|]. split; [rewrite vadd_length; congruence|].
    intros i Hi. rewrite vadd_nth by congruence. rewrite (Sa i Hi), (Sb i Hi), nth_repeat.
    clear. unfold cell_sum, qsum. induction cells as [|c cs IH]; [cbn [fold_right]; ring|].
    cbn [fold_right]. rewrite <- IH.
    destruct (Nat.ltb_spec (c_rank c) r), (Nat.eqb_spec (c_rank c) r), (Nat.ltb_spec (c_rank c) (S r)); try lia; ring.
Qed.
End Sums.

Lemma cell_sum_of : forall contrib cells n_ranks i f u,
  (forall c, In c cells -> c_rank c < n_ranks) ->
  (forall c v, In c cells -> c_particle c = Some v -> (sum_at i (contrib v c) == if Nat.eqb v u then f c else 0)%Q) ->
  (cell_sum contrib (fun c => c_rank c <? n_ranks) cells i == qsum f (cells_of u cells))%Q.
Proof.
  intros contrib cells n_ranks i f u HR H. unfold cell_sum, cells_of, qsum.
  induction cells as [|c cells IH]; [reflexivity|]. cbn [fold_right filter].
  rewrite IH; [|intros; apply HR; right; assumption|intros; apply H; [right|]; assumption].
  destruct (Nat.ltb_spec (c_rank c) n_ranks) as [_|C]; [|specialize (HR c (or_introl eq_refl)); lia].
  destruct (c_particle c) as [v|] eqn:Ev; [|ring].
  rewrite (H c v (or_introl eq_refl) Ev). destruct (v =? u); cbn [fold_right]; ring.
Qed.

(** Additions of one cell at the entries of particle [u] *)
Lemma sum_at_block : forall (g : nat -> Q) w v u d n s, (forall e, s <= e < s + n -> e < w) -> d < w ->
  (sum_at (w * u + d) (map (fun e => (w * v + e, g e)%nat) (seq s n)) ==
     if (v =? u) && (s <=? d) && (d <? s + n) then g d else 0)%Q.
Proof.
  intros g w v u d n. induction n as [|n IH]; intros s Hw Hd.
  - cbn [seq map sum_at fold_right]. destruct (v =? u); [|reflexivity].
    destruct (Nat.leb_spec s d), (Nat.ltb_spec d (s + 0)); try lia; reflexivity.
  - cbn [seq map sum_at fold_right fst snd]. fold (sum_at (w * u + d) (map (fun e => (w * v + e, g e)%nat) (seq (S s) n))).
    pose proof (IH (S s) ltac:(intros e He; apply Hw; lia) Hd) as IH'.
    assert (Hs : s < w) by (apply Hw; lia).
    destruct (Nat.eqb_spec (w * v + s) (w * u + d)) as [E|E]; rewrite IH'.
    + assert (v = u /\ s = d).
      { assert (v = u).
        { destruct (Nat.lt_trichotomy v u) as [L|[L|L]]; [|exact L|].
          - assert (w * S v <= w * u) by (apply Nat.mul_le_mono_l; lia). lia.
          - assert (w * S u <= w * v) by (apply Nat.mul_le_mono_l; lia). lia. }
        subst. lia. }
      destruct H as [-> ->]. rewrite Nat.eqb_refl. cbn [andb].
      destruct (Nat.leb_spec (S d) d), (Nat.leb_spec d d), (Nat.ltb_spec d (d + S n)); try lia. cbn [andb]. ring.
    + destruct (Nat.eqb_spec v u) as [->|]; [|cbn [andb]; reflexivity]. cbn [andb].
      assert (s <> d) by congruence.
      destruct (Nat.leb_spec (S s) d), (Nat.leb_spec s d), (Nat.ltb_spec d (S s + n)), (Nat.ltb_spec d (s + S n)); try lia; reflexivity.
Qed.

(** [info_contrib] as one block *)
Lemma info_block : forall dim u c, info_contrib dim u c =
  map (fun e => ((1 + dim) * u + e, match e with O => c_measure c | S d => (nth d (c_center c) 0 * c_measure c)%Q end)%nat) (seq 0 (1 + dim)).
Proof.
  intros dim u c. unfold info_contrib. cbn [seq map Nat.add]. f_equal.
  rewrite <- (seq_shift dim 0), map_map. apply map_ext. intro d. f_equal. lia.
Qed.

Lemma info_sum : forall dim v u c e, e < 1 + dim ->
  (sum_at ((1 + dim) * u + e) (info_contrib dim v c) ==
   if v =? u then match e with O => c_measure c | S d => nth d (c_center c) 0 * c_measure c end else 0)%Q.
Proof.
  intros dim v u c e He. rewrite info_block.
  rewrite (sum_at_block (fun e => match e with O => c_measure c | S d => (nth d (c_center c) 0 * c_measure c)%Q end)
             (1 + dim) v u e (1 + dim) 0); [|intros; lia|exact He].
  destruct (v =? u); cbn [andb]; [|reflexivity].
  destruct (Nat.ltb_spec e (0 + (1 + dim))); [|lia]. cbn [Nat.leb andb]. reflexivity.
Qed.

Lemma nth_map_seq : forall (A : Type) (f : nat -> A) n i d, i < n -> nth i (map f (seq 0 n)) d = f i.
Proof.
  intros A f n i d H. rewrite (nth_indep _ d (f 0)) by (rewrite map_length, seq_length; exact H).
  rewrite map_nth, seq_nth by exact H. reflexivity.
Qed.

(** ** C19 *)
(** However the cells are distributed onto the ranks, the measure of a particle
    is the sum over all its cells, and its center is their weighted mean. *)
Theorem C19_measures_centers : forall dim n_particles n_ranks cells,
  (forall c, In c cells -> c_rank c < n_ranks) ->
  (forall c u, In c cells -> c_particle c = Some u -> u < n_particles) ->
  exists centers measures, particles_info dim n_particles n_ranks cells = Some (centers, measures) /\
    length centers = n_particles /\ length measures = n_particles /\
    forall u, u < n_particles ->
      (nth u measures 0 == qsum c_measure (cells_of u cells))%Q /\
      forall d, d < dim -> ~ (qsum c_measure (cells_of u cells) == 0)%Q ->
        exists x, nth d (nth u centers []) None = Some x /\
          (x * qsum c_measure (cells_of u cells) == qsum (fun c => nth d (c_center c) 0 * c_measure c) (cells_of u cells))%Q.
Proof.
  intros dim n_particles n_ranks cells HR HP. unfold particles_info.
  assert (RG : forall c u i x, In c cells -> c_particle c = Some u -> In (i, x) (info_contrib dim u c) -> i < n_particles * (1 + dim)).
  { intros c u i x Hc Hu Hi. rewrite info_block in Hi. apply in_map_iff in Hi. destruct Hi as (e & E & He).
    injection E as <- _. apply in_seq in He. specialize (HP c u Hc Hu).
    assert ((1 + dim) * S u <= (1 + dim) * n_particles) by (apply Nat.mul_le_mono_l; lia). lia. }
  destruct (reduce_sum_spec (info_contrib dim) cells (n_particles * (1 + dim)) RG n_ranks) as (info & E & L & S).
  rewrite E. cbn [obind]. eexists _, _. split; [reflexivity|].
  rewrite !map_length, !seq_length. split; [reflexivity|]. split; [reflexivity|]. intros u Hu.
  assert (ENTRY : forall e, e < 1 + dim -> (nth (u * (1 + dim) + e) info 0 ==
     qsum (fun c => match e with O => c_measure c | S d => nth d (c_center c) 0 * c_measure c end) (cells_of u cells))%Q).
  { intros e He. rewrite S.
    - apply cell_sum_of; [exact HR|]. intros c v _ _. rewrite (Nat.mul_comm u (1 + dim)). apply info_sum. exact He.
    - assert (Datatypes.S u * (1 + dim) <= n_particles * (1 + dim)) by (apply Nat.mul_le_mono_r; lia). lia. }
  pose proof (ENTRY 0 ltac:(lia)) as E0. cbn match in E0. rewrite Nat.add_0_r in E0.
  split; [rewrite nth_map_seq by exact Hu; exact E0|].
  intros d Hd HN. rewrite nth_map_seq by exact Hu. rewrite nth_map_seq by exact Hd.
  pose proof (ENTRY (Datatypes.S d) ltac:(lia)) as E1. cbn match in E1.
  replace (u * (1 + dim) + Datatypes.S d) with (u * (1 + dim) + 1 + d) in E1 by lia.
  unfold qdiv. destruct (Qeq_bool (nth (u * (1 + dim)) info 0%Q) 0) eqn:Eb.
  - apply Qeq_bool_eq in Eb. exfalso. apply HN. rewrite <- E0. exact Eb.
  - eexists. split; [reflexivity|]. rewrite <- E1, <- E0. field. rewrite E0. exact HN.
Qed.
Print Assumptions C19_measures_centers.

(** Changing the distribution onto the ranks does not change measures and
    centers. *)
Definition redistribute (rank : cell -> nat) (cells : list cell) : list cell :=
  map (fun c => mkCell (rank c) (c_particle c) (c_measure c) (c_center c)) cells.

Lemma cells_of_redistribute : forall rank u cells f,
  (forall r c, f (mkCell r (c_particle c) (c_measure c) (c_center c)) = f c) ->
  (qsum f (cells_of u (redistribute rank cells)) == qsum f (cells_of u cells))%Q.
Proof.
  intros rank u cells f Hf. unfold redistribute, cells_of, qsum. induction cells as [|c cells IH]; [reflexivity|].
  cbn [map filter c_particle]. destruct (c_particle c) as [v|] eqn:Ev; [|exact IH].
  destruct (v =? u); [|exact IH]. cbn [fold_right]. rewrite IH, <- Ev.
  rewrite (Hf (rank c) c). reflexivity.
Qed.

Theorem C19_partition_independent : forall dim n_particles n_ranks n_ranks' cells rank,
  (forall c, In c cells -> c_rank c < n_ranks) -> (forall c, In c cells -> rank c < n_ranks') ->
  (forall c u, In c cells -> c_particle c = Some u -> u < n_particles) ->
  (forall u, u < n_particles -> ~ (qsum c_measure (cells_of u cells) == 0)%Q) ->
  exists centers measures centers' measures',
    particles_info dim n_particles n_ranks cells = Some (centers, measures) /\
    particles_info dim n_particles n_ranks' (redistribute rank cells) = Some (centers', measures') /\
    forall u, u < n_particles -> (nth u measures 0 == nth u measures' 0)%Q /\
      forall d, d < dim -> exists x y, nth d (nth u centers []) None = Some x /\
        nth d (nth u centers' []) None = Some y /\ (x == y)%Q.
Proof.
  intros dim n_particles n_ranks n_ranks' cells rank HR HR' HP HN.
  destruct (C19_measures_centers dim n_particles n_ranks cells HR HP) as (ce & ms & E & _ & _ & S).
  destruct (C19_measures_centers dim n_particles n_ranks' (redistribute rank cells)) as (ce' & ms' & E' & _ & _ & S').
  { intros c Hc. apply in_map_iff in Hc. destruct Hc as (c0 & <- & H0). simpl. apply HR', H0. }
  { intros c u Hc. apply in_map_iff in Hc. destruct Hc as (c0 & <- & H0). simpl. apply HP, H0. }
  exists ce, ms, ce', ms'. split; [exact E|]. split; [exact E'|]. intros u Hu.
  destruct (S u Hu) as [S1 S2]. destruct (S' u Hu) as [S1' S2'].
  pose proof (cells_of_redistribute rank u cells c_measure ltac:(reflexivity)) as CM.
  split; [rewrite S1, S1', CM; reflexivity|]. intros d Hd.
  destruct (S2 d Hd (HN u Hu)) as (x & Ex & Hx).
  destruct (S2' d Hd) as (y & Ey & Hy); [rewrite CM; apply HN, Hu|].
  exists x, y. split; [exact Ex|]. split; [exact Ey|].
  pose proof (cells_of_redistribute rank u cells (fun c => nth d (c_center c) 0 * c_measure c)%Q ltac:(reflexivity)) as CC.
  rewrite CC, <- Hx, CM in Hy. specialize (HN u Hu).
  assert (HZ : ((y - x) * qsum c_measure (cells_of u cells) == 0)%Q) by (rewrite <- (Qplus_opp_r (x * qsum c_measure (cells_of u cells))), <- Hy at 1; ring).
  apply Qmult_integral in HZ. destruct HZ as [HZ|HZ]; [lra|contradiction].
Qed.
Print Assumptions C19_partition_independent.

Example C19_case :
  particles_info 2 2 2 [mkCell 0 (Some 1%nat) 1 [0; 0]; mkCell 1 (Some 1%nat) 1 [1; 3]; mkCell 1 (Some 0%nat) 2 [5; 5]; mkCell 0 None 7 [9; 9]]%Q
  = Some ([[Some (10 # 2); Some (10 # 2)]; [Some (1 # 2); Some (3 # 2)]], [2; 2])%Q.
Proof. reflexivity. Qed.

(** *** Maximum values *)
Lemma max_loop_spec : forall to_global local_max locals v n,
  length v = n ->
  (forall l, In l locals -> exists u x, vget to_global l = Some u /\ u < n /\ vget local_max l = Some x) ->
  (forall l l' u, In l locals -> In l' locals -> vget to_global l = Some u -> vget to_global l' = Some u -> l = l') ->
  exists v', max_loop to_global local_max locals v = Some v' /\ length v' = n /\
    forall u, u < n ->
      (forall l, In l locals -> vget to_global l = Some u -> vget local_max l = Some (nth u v' 0%Q)) /\
      ((forall l, In l locals -> vget to_global l <> Some u) -> nth u v' 0%Q = nth u v 0%Q).
Proof.
  intros tg lm. induction locals as [|l locals IH]; intros v n L HD HI; cbn [max_loop].
  - exists v. split; [reflexivity|]. split; [exact L|]. intros u Hu. split; [intros l []|auto].
  - destruct (HD l (or_introl eq_refl)) as (u & x & E1 & Hu & E2). rewrite E1, E2. cbn [obind].
    destruct (vset_some _ v u x ltac:(lia)) as [v1 Ev]. rewrite Ev. cbn [obind].
    destruct (IH v1 n) as (v' & E & L' & S).
    { rewrite (vset_length _ _ _ _ _ Ev). exact L. }
    { intros l' Hl'. apply HD. right. exact Hl'. }
    { intros l1 l2 w H1 H2. apply HI; right; assumption. }
    exists v'. split; [exact E|]. split; [exact L'|]. intros w Hw. destruct (S w Hw) as [S1 S2]. split.
    + intros l' Hl' Ew. destruct Hl' as [<-|Hl']; [|apply S1; assumption].
      destruct (in_dec Nat.eq_dec l locals) as [Hin|Hin]; [apply S1; assumption|].
      assert (u = w) by congruence. subst w.
      rewrite S2.
      * rewrite (nth_vset _ _ _ _ u Ev ltac:(lia)), Nat.eqb_refl. exact E2.
      * intros l' Hl' C. apply Hin. rewrite (HI l l' u (or_introl eq_refl) (or_intror Hl') E1 C). exact Hl'.
    + intro HN. rewrite S2; [|intros l' Hl'; apply HN; right; exact Hl'].
      rewrite (nth_vset _ _ _ _ w Ev ltac:(lia)). destruct (Nat.eqb_spec w u) as [->|]; [|reflexivity].
      exfalso. apply (HN l (or_introl eq_refl)). exact E1.
Qed.

Lemma vmax_nth : forall a b i, length a = length b -> nth i (vmax a b) 0%Q = if i <? length a then qmax (nth i a 0%Q) (nth i b 0%Q) else 0%Q.
Proof.
  induction a as [|x a IH]; intros [|y b] i H; try discriminate; cbn [vmax length].
  - destruct i; reflexivity.
  - destruct i as [|i]; [reflexivity|]. cbn [nth]. rewrite IH by (cbn in H; congruence). reflexivity.
Qed.

Lemma vmax_length : forall a b, length a = length b -> length (vmax a b) = length a.
Proof. induction a as [|x a IH]; intros [|y b] H; try discriminate; cbn in *; [reflexivity|]. rewrite IH; congruence. Qed.

(** Maximum over the ranks: upper bound and attained. *)
Lemma reduce_max_spec : forall f n n_ranks, 0 < n_ranks ->
  (forall r, r < n_ranks -> exists v, f r = Some v /\ length v = n) ->
  exists v, reduce_max f n_ranks = Some v /\ length v = n /\
    forall i, i < n -> (forall r w, r < n_ranks -> f r = Some w -> (nth i w 0 <= nth i v 0)%Q) /\
      exists r w, r < n_ranks /\ f r = Some w /\ nth i v 0%Q = nth i w 0%Q.
Proof.
  intros f n. induction n_ranks as [|r IH]; intros H0 H; [lia|].
  destruct r as [|r].
  - cbn [reduce_max]. destruct (H 0 ltac:(lia)) as (v & E & L). exists v. split; [exact E|]. split; [exact L|].
    intros i Hi. split.
    + intros r w Hr Ew. assert (r = 0) by lia. subst r. assert (w = v) by congruence. subst w. lra.
    + exists 0, v. auto.
  - destruct IH as (a & Ea & La & Sa); [lia|intros q Hq; apply H; lia|].
    destruct (H (S r) ltac:(lia)) as (b & Eb & Lb).
    change (reduce_max f (S (S r))) with (a <- reduce_max f (S r) ;; b <- f (S r) ;; Some (vmax a b)).
    rewrite Ea. cbn [obind]. rewrite Eb. cbn [obind]. exists (vmax a b). split; [reflexivity|].
    split; [rewrite vmax_length; congruence|]. intros i Hi. rewrite vmax_nth by congruence.
    destruct (Nat.ltb_spec i (length a)); [|lia]. destruct (qmax_spec (nth i a 0%Q) (nth i b 0%Q)) as (Q1 & Q2 & Q3).
    destruct (Sa i Hi) as [S1 (r0 & w0 & R0 & F0 & N0)]. split.
    + intros q w Hq Ew. destruct (Nat.eq_dec q (S r)) as [->|].
      * assert (w = b) by congruence. subst w. exact Q2.
      * eapply Qle_trans; [apply (S1 q w ltac:(lia) Ew)|exact Q1].
    + destruct Q3 as [->| ->].
      * exists r0, w0. split; [lia|]. auto.
      * exists (S r), b. split; [lia|]. auto.
Qed.

(** If no rank has two local particles of the same global particle, the result
    is the maximum of the local values: an upper bound for all of them, and, where
    it is positive, one of them. *)
Theorem C19_max_values_partial : forall n_particles ranks,
  ranks <> [] ->
  (forall r tg lm locals, vget ranks r = Some (tg, lm, locals) ->
     (forall l, In l locals -> exists u x, vget tg l = Some u /\ u < n_particles /\ vget lm l = Some x) /\
     (forall l l' u, In l locals -> In l' locals -> vget tg l = Some u -> vget tg l' = Some u -> l = l')) ->
  exists v, particles_max_values n_particles ranks = Some v /\ length v = n_particles /\
    forall u, u < n_particles ->
      (forall r tg lm locals l x, vget ranks r = Some (tg, lm, locals) -> In l locals -> vget tg l = Some u ->
         vget lm l = Some x -> (x <= nth u v 0)%Q) /\
      ((0 < nth u v 0)%Q -> exists r tg lm locals l, vget ranks r = Some (tg, lm, locals) /\ In l locals /\
         vget tg l = Some u /\ vget lm l = Some (nth u v 0%Q)).
Proof.
  intros n ranks HN H. unfold particles_max_values.
  set (f := fun me => r <- vget ranks me ;; max_loop (fst (fst r)) (snd (fst r)) (snd r) (repeat 0%Q n)).
  assert (F : forall r tg lm locals, vget ranks r = Some (tg, lm, locals) -> exists v', f r = Some v' /\ length v' = n /\
    forall u, u < n ->
      (forall l, In l locals -> vget tg l = Some u -> vget lm l = Some (nth u v' 0%Q)) /\
      ((forall l, In l locals -> vget tg l <> Some u) -> nth u v' 0%Q = 0%Q)).
  { intros r tg lm locals E. destruct (H r tg lm locals E) as [H1 H2]. unfold f. rewrite E. cbn [obind fst snd].
    destruct (max_loop_spec tg lm locals (repeat 0%Q n) n (repeat_length _ _) H1 H2) as (v' & E' & L' & S).
    exists v'. split; [exact E'|]. split; [exact L'|]. intros u Hu. destruct (S u Hu) as [S1 S2]. split; [exact S1|].
    intro HH. rewrite (S2 HH). apply nth_repeat. }
  destruct (reduce_max_spec f n (length ranks)) as (v & E & L & S).
  { destruct ranks; [congruence|]. simpl. lia. }
  { intros r Hr. destruct (vget_some _ ranks r Hr) as [[[tg lm] locals] Er].
    destruct (F r tg lm locals Er) as (v' & E' & L' & _). exists v'. auto. }
  exists v. split; [exact E|]. split; [exact L|]. intros u Hu. destruct (S u Hu) as [S1 (r & w & Hr & Fw & Nw)]. split.
  - intros r' tg lm locals l x Er Hl Eu Ex. destruct (F r' tg lm locals Er) as (v' & E' & L' & S').
    destruct (S' u Hu) as [A _]. specialize (A l Hl Eu). assert (x = nth u v' 0%Q) by congruence. subst x.
    apply (S1 r' v'); [eapply vget_lt; exact Er|exact E'].
  - intro Hpos. destruct (vget_some _ ranks r Hr) as [[[tg lm] locals] Er].
    destruct (F r tg lm locals Er) as (v' & E' & L' & S'). assert (w = v') by congruence. subst w.
    destruct (S' u Hu) as [A B].
    destruct (existsb (fun l => match vget tg l with Some u' => u' =? u | None => false end) locals) eqn:Ex.
    + apply existsb_exists in Ex. destruct Ex as (l & Hl & Hu').
      destruct (vget tg l) as [u'|] eqn:Eu; [|discriminate]. apply Nat.eqb_eq in Hu'. subst u'.
      exists r, tg, lm, locals, l. rewrite Nw. auto.
    + exfalso. rewrite Nw, B in Hpos; [apply (Qlt_irrefl 0 Hpos)|].
      intros l Hl C. assert (T : existsb (fun l => match vget tg l with Some u' => u' =? u | None => false end) locals = true).
      { apply existsb_exists. exists l. split; [exact Hl|]. rewrite C. apply Nat.eqb_refl. }
      congruence.
Qed.
Print Assumptions C19_max_values_partial.

(** Rank 0 has two separate parts of one particle, connected through rank 1; the
    value of the second part overwrites that of the first. *)
Theorem C19_max_values_refuted : exists ranks v,
  particles_max_values 1 ranks = Some v /\
  exists tg lm locals, vget ranks 0 = Some (tg, lm, locals) /\ In 0 locals /\ vget tg 0 = Some 0 /\
    vget lm 0 = Some 1%Q /\ (nth 0 v 0 < 1)%Q.
Proof.
  exists [([0; 0], [1; 1 # 2]%Q, [0; 1]); ([0], [4 # 5]%Q, [0])], [4 # 5]%Q.
  split; [reflexivity|]. eexists _, _, _. split; [reflexivity|]. simpl. repeat split; auto; reflexivity.
Qed.
Print Assumptions C19_max_values_refuted.

(** A row of three cells on ranks 0, 1, 0 gives these data: two local particles on
    rank 0, one on rank 1, all of them one global particle. *)
Example C19_max_values_reachable :
  let m := mkMesh 3 [0; 1; 2] (fun _ => []) (fun c => match c with 0 => [1] | 1 => [0; 2] | 2 => [1] | _ => [] end)
    (fun _ _ => []) (fun c => Nat.modulo c 2) (fun c => match c with 0 => (1%Q, []) | 1 => (4 # 5, []) | _ => (1 # 2, []) end) in
  detect_local 9 m 0 0%Q = Some ([Some 0; None; Some 1], 2, [Some 1; Some (1 # 2)]%Q) /\
  detect_local 9 m 1 0%Q = Some ([None; Some 0; None], 1, [Some (4 # 5)]%Q) /\
  match detect_particles 20 20 m 2 0%Q (fun _ ms => ms) with None => [] | Some gid => map gid [0; 1; 2] end = [Some 0; Some 0; Some 0].
Proof. repeat split; reflexivity. Qed.

Example C19_max_case : particles_max_values 2 [([1; 0], [1 # 2; 1]%Q, [0; 1; 0]); ([1], [3 # 4]%Q, [0])] = Some [1; 3 # 4]%Q.
Proof. reflexivity. Qed.

(** ** C52: moments of inertia *)
(** Componentwise sums over all cells of the particle. *)
Theorem C52_inertia : forall dim n_ranks centers cells, dim = 2 \/ dim = 3 ->
  (forall c, In c cells -> c_rank c < n_ranks) ->
  (forall c u, In c cells -> c_particle c = Some u -> u < length centers) ->
  exists v, particles_inertia dim n_ranks centers cells = Some v /\
    length v = length centers * num_inertias dim /\
    forall u j, u < length centers -> j < num_inertias dim ->
      let r c := map (fun d => (nth d (c_center c) 0 - nth d (nth u centers []) 0)%Q) (seq 0 dim) in
      (nth (num_inertias dim * u + j) v 0 == qsum (fun c => nth j (inertia_data dim (r c) (c_measure c)) 0) (cells_of u cells))%Q.
Proof.
  intros dim n_ranks centers cells Hdim HR HP. unfold particles_inertia.
  assert (BL : forall u c, inertia_contrib dim centers u c =
    map (fun e => (num_inertias dim * u + e, nth e (inertia_data dim
       (map (fun d => (nth d (c_center c) 0 - nth d (nth u centers []) 0)%Q) (seq 0 dim)) (c_measure c)) 0%Q)) (seq 0 (num_inertias dim))).
  { intros u c. destruct Hdim as [-> | ->]; reflexivity. }
  assert (RG : forall c u i x, In c cells -> c_particle c = Some u -> In (i, x) (inertia_contrib dim centers u c) ->
             i < length centers * num_inertias dim).
  { intros c u i x Hc Hu Hi. rewrite BL in Hi. apply in_map_iff in Hi. destruct Hi as (e & E & He).
    injection E as <- _. apply in_seq in He. specialize (HP c u Hc Hu).
    assert (num_inertias dim * S u <= num_inertias dim * length centers) by (apply Nat.mul_le_mono_l; lia). lia. }
  destruct (reduce_sum_spec (inertia_contrib dim centers) cells _ RG n_ranks) as (v & E & L & S).
  exists v. split; [exact E|]. split; [exact L|]. intros u j Hu Hj. cbv zeta.
  rewrite S.
  2:{ assert (num_inertias dim * Datatypes.S u <= num_inertias dim * length centers) by (apply Nat.mul_le_mono_l; lia). lia. }
  apply cell_sum_of; [exact HR|]. intros c w _ _. rewrite BL.
  rewrite (sum_at_block (fun e => nth e (inertia_data dim (map (fun d => (nth d (c_center c) 0 - nth d (nth w centers []) 0)%Q) (seq 0 dim)) (c_measure c)) 0%Q)
             (num_inertias dim) w u j (num_inertias dim) 0); [|intros; lia|exact Hj].
  destruct (Nat.eqb_spec w u) as [->|]; cbn [andb]; [|reflexivity].
  destruct (Nat.ltb_spec j (0 + num_inertias dim)); [|lia]. cbn [Nat.leb andb]. reflexivity.
Qed.
Print Assumptions C52_inertia.

(** The moments of inertia (diagonal entries) are non-negative. *)
Theorem C52_inertia_diagonal : forall dim n_ranks centers cells, dim = 2 \/ dim = 3 ->
  (forall c, In c cells -> c_rank c < n_ranks) ->
  (forall c u, In c cells -> c_particle c = Some u -> u < length centers) ->
  (forall c, In c cells -> (0 <= c_measure c)%Q) ->
  exists v, particles_inertia dim n_ranks centers cells = Some v /\
    forall u j, u < length centers -> j < dim -> (0 <= nth (num_inertias dim * u + j) v 0)%Q.
Proof.
  intros dim n_ranks centers cells Hdim HR HP HM.
  destruct (C52_inertia dim n_ranks centers cells Hdim HR HP) as (v & E & L & S).
  exists v. split; [exact E|]. intros u j Hu Hj.
  assert (Hj' : j < num_inertias dim) by (destruct Hdim as [-> | ->]; cbn; lia).
  rewrite (S u j Hu Hj'). cbv zeta.
  assert (SQ : forall a, (0 <= a * a)%Q).
  { intro a. destruct (Qlt_le_dec a 0) as [H|H]; [|apply Qmult_le_0_compat; assumption].
    setoid_replace (a * a)%Q with ((- a) * (- a))%Q by ring. apply Qmult_le_0_compat; lra. }
  assert (POS : forall l, (forall c, In c l -> In c cells) -> (0 <= qsum (fun c => nth j (inertia_data dim
     (map (fun d => nth d (c_center c) 0 - nth d (nth u centers []) 0) (seq 0 dim)) (c_measure c)) 0) l)%Q).
  { unfold qsum. induction l as [|c l IH]; intro H; cbn [fold_right]; [lra|].
    assert (0 <= nth j (inertia_data dim (map (fun d => nth d (c_center c) 0 - nth d (nth u centers []) 0) (seq 0 dim)) (c_measure c)) 0)%Q.
    { pose proof (HM c (H c (or_introl eq_refl))) as Hm.
      set (r := map (fun d => (nth d (c_center c) 0 - nth d (nth u centers []) 0)%Q) (seq 0 dim)).
      pose proof (SQ (nth 0 r 0%Q)). pose proof (SQ (nth 1 r 0%Q)). pose proof (SQ (nth 2 r 0%Q)).
      unfold inertia_data. destruct Hdim as [-> | ->]; cbn [Nat.eqb].
      - destruct j as [|[|j]]; [| |lia]; cbn [nth]; apply Qmult_le_0_compat; assumption.
      - destruct j as [|[|[|j]]]; [| | |lia]; cbn [nth]; (apply Qmult_le_0_compat; [lra|assumption]). }
    specialize (IH (fun c Hc => H c (or_intror Hc))). lra. }
  apply POS. intros c Hc. unfold cells_of in Hc. apply filter_In in Hc. apply Hc.
Qed.
Print Assumptions C52_inertia_diagonal.

Example C52_inertia_case :
  particles_inertia 2 2 [[0; 0]]%Q [mkCell 0 (Some 0%nat) 1 [1; 0]; mkCell 1 (Some 0%nat) 2 [0; 1]; mkCell 0 (Some 0%nat) 1 [1; 1]]%Q
  = Some [3; 2; -1]%Q.
Proof. reflexivity. Qed.

(** ** C52: radii *)
Lemma radii_loop_spec : forall dist dist_vec me n cells radii remotes,
  (forall c u, In c cells -> c_particle c = Some u -> u < n) -> length radii = n -> length remotes = n ->
  exists radii' remotes', radii_loop dist dist_vec me cells radii remotes = Some (radii', remotes') /\
    length radii' = n /\ length remotes' = n /\
    forall u, u < n ->
      (nth u radii 0 <= nth u radii' 0)%Q /\
      (forall c, In c cells -> c_rank c = me -> c_particle c = Some u -> (dist c <= nth u radii' 0)%Q) /\
      ((nth u radii' 0%Q = nth u radii 0%Q /\ vget remotes' u = vget remotes u) \/
       exists c, In c cells /\ c_rank c = me /\ c_particle c = Some u /\ nth u radii' 0%Q = dist c /\
         (nth u radii 0 < dist c)%Q /\ vget remotes' u = Some (dist_vec c)).
Proof.
  intros dist dist_vec me n. induction cells as [|c cells IH]; intros radii remotes HU HL HM; cbn [radii_loop].
  - exists radii, remotes. split; [reflexivity|]. split; [exact HL|]. split; [exact HM|]. intros u Hu.
    split; [lra|]. split; [intros c []|]. left. auto.
  - assert (HU' : forall c u, In c cells -> c_particle c = Some u -> u < n) by (intros; eapply HU; [right; eassumption|assumption]).
    assert (SKIP : (forall u, c_rank c = me -> c_particle c = Some u -> False) ->
      exists radii' remotes', radii_loop dist dist_vec me cells radii remotes = Some (radii', remotes') /\
    length radii' = n /\ length remotes' = n /\
    forall u, u < n ->
      (nth u radii 0 <= nth u radii' 0)%Q /\
      (forall c0, In c0 (c :: cells) -> c_rank c0 = me -> c_particle c0 = Some u -> (dist c0 <= nth u radii' 0)%Q) /\
      ((nth u radii' 0%Q = nth u radii 0%Q /\ vget remotes' u = vget remotes u) \/
       exists c0, In c0 (c :: cells) /\ c_rank c0 = me /\ c_particle c0 = Some u /\ nth u radii' 0%Q = dist c0 /\
         (nth u radii 0 < dist c0)%Q /\ vget remotes' u = Some (dist_vec c0))).
    { intro HS. destruct (IH radii remotes HU' HL HM) as (r' & m' & E & L1 & L2 & S). exists r', m'.
      split; [exact E|]. split; [exact L1|]. split; [exact L2|]. intros u Hu. destruct (S u Hu) as (S1 & S2 & S3).
      split; [exact S1|]. split.
      - intros c0 [<-|H0] R P; [exfalso; apply (HS u R P)|apply S2; assumption].
      - destruct S3 as [S3|(c0 & H0 & S3)]; [left; exact S3|right; exists c0; split; [right; exact H0|exact S3]]. }
    destruct (Nat.eqb_spec (c_rank c) me) as [Er|Er]; [|apply SKIP; intros; contradiction].
    destruct (c_particle c) as [u|] eqn:Eu; [|apply SKIP; intros; discriminate].
    assert (Hu : u < n) by (apply (HU c u); [left; reflexivity|exact Eu]). clear SKIP.
    rewrite (nth_vget radii u) by lia. cbn [obind]. set (a := nth u radii 0%Q).
    destruct (qmax_spec a (dist c)) as (Q1 & Q2 & Q3).
    destruct (vset_some _ radii u (qmax a (dist c)) ltac:(lia)) as [r1 E1].
    assert (RM : exists m1, (if qltb a (dist c) then vset remotes u (dist_vec c) else Some remotes) = Some m1 /\ length m1 = n /\
      (forall w, w <> u -> vget m1 w = vget remotes w) /\
      ((qltb a (dist c) = true /\ vget m1 u = Some (dist_vec c) /\ qmax a (dist c) = dist c) \/
       (qltb a (dist c) = false /\ vget m1 u = vget remotes u /\ qmax a (dist c) = a))).
    { unfold qmax. destruct (qltb a (dist c)) eqn:El.
      - destruct (vset_some _ remotes u (dist_vec c) ltac:(lia)) as [m1 Em]. exists m1. split; [exact Em|].
        split; [rewrite (vset_length _ _ _ _ _ Em); exact HM|]. split.
        + intros w Hw. rewrite (vset_get _ _ _ _ _ _ Em). destruct (Nat.eqb_spec w u); [contradiction|reflexivity].
        + left. rewrite (vset_get _ _ _ _ _ _ Em), Nat.eqb_refl. auto.
      - exists remotes. auto 10. }
    destruct RM as (m1 & Em & Lm & Mw & Mu). rewrite Em. cbn [obind]. rewrite E1. cbn [obind].
    destruct (IH r1 m1 HU') as (r' & m' & E & L1 & L2 & S).
    { rewrite (vset_length _ _ _ _ _ E1). exact HL. }
    { exact Lm. }
    exists r', m'. split; [exact E|]. split; [exact L1|]. split; [exact L2|]. intros w Hw.
    destruct (S w Hw) as (S1 & S2 & S3). rewrite (nth_vset _ _ _ _ w E1 ltac:(lia)) in S1, S3.
    destruct (Nat.eqb_spec w u) as [->|Nw].
    + fold a in S1, S3 |- *. split; [eapply Qle_trans; eassumption|]. split.
      * intros c0 [<-|H0] R P; [eapply Qle_trans; eassumption|apply S2; assumption].
      * destruct S3 as [[S3 S4]|(c0 & H0 & R0 & P0 & N0 & D0 & V0)].
        -- destruct Mu as [(El & Mu1 & Mu2)|(El & Mu1 & Mu2)].
           ++ right. exists c. split; [left; reflexivity|]. split; [exact Er|]. split; [exact Eu|].
              split; [congruence|]. split; [apply qltb_true; exact El|congruence].
           ++ left. split; congruence.
        -- right. exists c0. split; [right; exact H0|]. split; [exact R0|]. split; [exact P0|]. split; [exact N0|].
           split; [eapply Qle_lt_trans; [exact Q1|exact D0]|exact V0].
    + split; [exact S1|]. split.
      * intros c0 [<-|H0] R P; [congruence|apply S2; assumption].
      * destruct S3 as [[S3 S4]|(c0 & H0 & S3)].
        -- left. split; [exact S3|]. rewrite S4. apply Mw. exact Nw.
        -- right. exists c0. split; [right; exact H0|exact S3].
Qed.

(** The radius of a particle is the largest distance over all its cells on
    whatever ranks (0 if there is none). *)
Theorem C52_radii : forall dim n n_ranks dist dist_vec cells,
  0 < n_ranks -> (forall c, In c cells -> c_rank c < n_ranks) ->
  (forall c u, In c cells -> c_particle c = Some u -> u < n) ->
  exists radii, particles_radii dim n n_ranks dist dist_vec cells = Some radii /\ length radii = n /\
    forall u, u < n ->
      (forall c, In c cells -> c_particle c = Some u -> (dist c <= nth u radii 0)%Q) /\
      ((nth u radii 0 == 0)%Q \/ exists c, In c cells /\ c_particle c = Some u /\ nth u radii 0%Q = dist c).
Proof.
  intros dim n n_ranks dist dist_vec cells H0 HR HU. unfold particles_radii, local_radii.
  assert (F : forall me, exists r' m', radii_loop dist dist_vec me cells (repeat 0%Q n) (repeat (repeat 0%Q dim) n) = Some (r', m') /\
    length r' = n /\ forall u, u < n ->
      (forall c, In c cells -> c_rank c = me -> c_particle c = Some u -> (dist c <= nth u r' 0)%Q) /\
      (nth u r' 0%Q = 0%Q \/ exists c, In c cells /\ c_particle c = Some u /\ nth u r' 0%Q = dist c)).
  { intro me. destruct (radii_loop_spec dist dist_vec me n cells (repeat 0%Q n) (repeat (repeat 0%Q dim) n) HU) as (r' & m' & E & L1 & _ & S);
      [apply repeat_length|apply repeat_length|].
    exists r', m'. split; [exact E|]. split; [exact L1|]. intros u Hu. destruct (S u Hu) as (_ & S2 & S3). split; [exact S2|].
    destruct S3 as [[S3 _]|(c & A & B & C & D & _)]; [left; rewrite S3; apply nth_repeat|right; exists c; auto]. }
  destruct (reduce_max_spec (fun me => s <- radii_loop dist dist_vec me cells (repeat 0%Q n) (repeat (repeat 0%Q dim) n) ;; Some (fst s)) n n_ranks H0)
    as (v & E & L & S).
  { intros r _. destruct (F r) as (r' & m' & E & L1 & _). rewrite E. cbn [obind fst]. exists r'. auto. }
  exists v. split; [exact E|]. split; [exact L|]. intros u Hu. destruct (S u Hu) as [S1 (r & w & Hr & Fw & Nw)]. split.
  - intros c Hc Pc. destruct (F (c_rank c)) as (r' & m' & E' & _ & S'). destruct (S' u Hu) as [A _].
    eapply Qle_trans; [apply (A c Hc eq_refl Pc)|]. apply (S1 (c_rank c) r' (HR c Hc)). rewrite E'. reflexivity.
  - destruct (F r) as (r' & m' & E' & _ & S'). rewrite E' in Fw. cbn [obind fst] in Fw. injection Fw as <-.
    destruct (S' u Hu) as [_ [B|(c & A & B & C)]]; [left; rewrite Nw, B; reflexivity|right; exists c; rewrite Nw; auto].
Qed.
Print Assumptions C52_radii.

Example C52_radii_case :
  particles_radii 1 2 2 c_measure c_center [mkCell 0 (Some 1%nat) 3 [1]; mkCell 1 (Some 1%nat) 5 [2]; mkCell 0 (Some 0%nat) 2 [0]; mkCell 1 None 9 [0]]%Q
  = Some [2; 5]%Q.
Proof. reflexivity. Qed.

Lemma reduce_sum_single : forall f dim n_ranks r p, r < n_ranks -> length p = dim -> f r = Some p ->
  (forall q, q < n_ranks -> q <> r -> f q = Some (repeat 0%Q dim)) ->
  exists v, reduce_sum f n_ranks dim = Some v /\ length v = dim /\ forall i, (nth i v 0 == nth i p 0)%Q.
Proof.
  intros f dim n_ranks r p Hr Lp Fp Fz.
  assert (G : forall n, n <= n_ranks -> exists v, reduce_sum f n dim = Some v /\ length v = dim /\
    forall i, (nth i v 0 == if r <? n then nth i p 0 else 0)%Q).
  { induction n as [|n IH]; intro Hn.
    - exists (repeat 0%Q dim). split; [reflexivity|]. split; [apply repeat_length|]. intro i. rewrite nth_repeat. reflexivity.
    - destruct (IH ltac:(lia)) as (v & E & L & S). cbn [reduce_sum]. rewrite E. cbn [obind].
      destruct (Nat.eq_dec n r) as [->|Nr].
      + rewrite Fp. cbn [obind]. exists (vadd v p). split; [reflexivity|]. split; [rewrite vadd_length; congruence|].
        intro i. rewrite vadd_nth by congruence. rewrite S.
        destruct (Nat.ltb_spec r r), (Nat.ltb_spec r (Datatypes.S r)); try lia. ring.
      + rewrite (Fz n ltac:(lia) Nr). cbn [obind]. exists (vadd v (repeat 0%Q dim)). split; [reflexivity|].
        split; [rewrite vadd_length; [exact L|rewrite repeat_length; exact L]|].
        intro i. rewrite vadd_nth by (rewrite repeat_length; exact L). rewrite S, nth_repeat.
        destruct (Nat.ltb_spec r n), (Nat.ltb_spec r (Datatypes.S n)); try lia; ring. }
  destruct (G n_ranks (Nat.le_refl _)) as (v & E & L & S). exists v. split; [exact E|]. split; [exact L|].
  intro i. rewrite S. destruct (Nat.ltb_spec r n_ranks); [reflexivity|lia].
Qed.

(** If the maximum is attained (within 1e-16) on one rank only, the remote point
    is the far end of a cell that attains the radius. *)
Theorem C52_remote_partial : forall dim n n_ranks dist dist_vec cells u r radii local,
  (forall c, In c cells -> c_rank c < n_ranks) ->
  (forall c u, In c cells -> c_particle c = Some u -> u < n) -> u < n -> r < n_ranks ->
  (forall c, length (dist_vec c) = dim) ->
  particles_radii dim n n_ranks dist dist_vec cells = Some radii -> (0 < nth u radii 0)%Q ->
  (forall me s, local_radii dim n dist dist_vec cells me = Some s -> local me = nth u (fst s) 0%Q) ->
  local r = nth u radii 0%Q ->
  (forall q, q < n_ranks -> q <> r -> (1 # 10000000000000000 < Qabs (nth u radii 0 - local q))%Q) ->
  exists p c, particle_remote dim n n_ranks dist dist_vec cells u = Some p /\
    In c cells /\ c_rank c = r /\ c_particle c = Some u /\ dist c = nth u radii 0%Q /\
    forall i, (nth i p 0 == nth i (dist_vec c) 0)%Q.
Proof.
  intros dim n n_ranks dist dist_vec cells u r radii local HR HU Hu Hr HD ER HP HLoc Elr Hother.
  unfold particle_remote. rewrite ER. cbn [obind].
  assert (LR : length radii = n).
  { destruct (C52_radii dim n n_ranks dist dist_vec cells ltac:(lia) HR HU) as (v & E & L & _). congruence. }
  assert (F : forall me, exists r' m', local_radii dim n dist dist_vec cells me = Some (r', m') /\
    length r' = n /\ length m' = n /\
    ((nth u r' 0%Q = 0%Q /\ vget m' u = Some (repeat 0%Q dim)) \/
       exists c, In c cells /\ c_rank c = me /\ c_particle c = Some u /\ nth u r' 0%Q = dist c /\ vget m' u = Some (dist_vec c))).
  { intro me. destruct (radii_loop_spec dist dist_vec me n cells (repeat 0%Q n) (repeat (repeat 0%Q dim) n) HU) as (r' & m' & E & L1 & L2 & S);
      [apply repeat_length|apply repeat_length|].
    exists r', m'. split; [exact E|]. split; [exact L1|]. split; [exact L2|]. destruct (S u Hu) as (_ & _ & [[A B]|(c & A & B & C & D & _ & V)]).
    - left. rewrite A, B, nth_repeat, vget_repeat. destruct (Nat.ltb_spec u n); [auto|lia].
    - right. exists c. auto. }
  destruct (F r) as (r' & m' & E & L1 & L2 & CS).
  assert (Er : nth u r' 0%Q = nth u radii 0%Q) by (rewrite <- Elr; symmetry; apply (HLoc r _ E)).
  destruct CS as [[C1 _]|(c & Hc & Rc & Pc & Dc & Vc)].
  { exfalso. rewrite <- Er, C1 in HP. apply (Qlt_irrefl 0 HP). }
  destruct (reduce_sum_single (fun me =>
     s <- local_radii dim n dist dist_vec cells me ;;
     g <- vget radii u ;; l <- vget (fst s) u ;; p <- vget (snd s) u ;;
     Some (keep_remote dim g l p)) dim n_ranks r (dist_vec c) Hr (HD c)) as (v & Ev & _ & Sv).
  - rewrite E. cbn [obind fst snd]. rewrite (nth_vget radii u) by lia. cbn [obind]. rewrite (nth_vget r' u) by lia. cbn [obind].
    rewrite Vc. cbn [obind]. unfold keep_remote. rewrite Er.
    replace (qltb (1 # 10000000000000000) (Qabs (nth u radii 0 - nth u radii 0)%Q)) with false; [reflexivity|].
    symmetry. apply qltb_false. setoid_replace (nth u radii 0 - nth u radii 0)%Q with 0%Q by ring. discriminate.
  - intros q Hq Nq. destruct (F q) as (rq & mq & Eq & Lq1 & Lq2 & _). rewrite Eq. cbn [obind fst snd].
    rewrite (nth_vget radii u) by lia. cbn [obind]. rewrite (nth_vget rq u) by lia. cbn [obind].
    destruct (vget_some _ mq u ltac:(lia)) as [p0 Ep]. rewrite Ep. cbn [obind]. unfold keep_remote.
    replace (qltb (1 # 10000000000000000) (Qabs (nth u radii 0 - nth u rq 0)%Q)) with true; [reflexivity|].
    symmetry. apply qltb_true. change (nth u rq 0%Q) with (nth u (fst (rq, mq)) 0%Q). rewrite <- (HLoc q _ Eq). apply Hother; assumption.
  - exists v, c. split; [exact Ev|]. split; [exact Hc|]. split; [exact Rc|]. split; [exact Pc|]. split; [congruence|exact Sv].
Qed.
Print Assumptions C52_remote_partial.

Example C52_remote_case :
  let cells := [mkCell 0 (Some 0%nat) 1 [1]; mkCell 1 (Some 0%nat) 2 [-2]; mkCell 0 (Some 0%nat) 1 [-1]]%Q in
  particles_radii 1 1 2 c_measure c_center cells = Some [2]%Q /\
  local_radii 1 1 c_measure c_center cells 0 = Some ([1], [[1]])%Q /\
  local_radii 1 1 c_measure c_center cells 1 = Some ([2], [[-2]])%Q /\
  particle_remote 1 1 2 c_measure c_center cells 0 = Some [-2]%Q.
Proof. repeat split; reflexivity. Qed.

(** If two ranks attain the radius, the points of both are added: the result is
    not the far end of any cell. *)
Theorem C52_remote_refuted : exists cells p,
  particle_remote 1 1 2 c_measure c_center cells 0 = Some p /\
  forall c, In c cells -> ~ (nth 0 p 0 == nth 0 (c_center c) 0)%Q.
Proof.
  exists [mkCell 0 (Some 0%nat) 1 [1]; mkCell 1 (Some 0%nat) 1 [-1]]%Q, [0%Q]. split; [reflexivity|].
  intros c [<-|[<-|[]]]; simpl; intro C; discriminate C.
Qed.
Print Assumptions C52_remote_refuted.
