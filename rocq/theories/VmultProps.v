(** Property C64: the product with an operator is the identity on constrained entries and
    leaves its source unchanged. *)
From Coq Require Import FinFun List Arith Lia ZArith.
From Verif Require Import Util VmultModel VmultProofs.
Import ListNotations.

(** entry [j] of block [b] *)
Definition entry {A} (v : list (list A)) (b j : nat) : option A :=
  match nth_error v b with Some blk => nth_error blk j | None => None end.
Lemma entry_bget : forall A (v : list (list A)) b j, entry v b j = bget v (b, j).
Proof. reflexivity. Qed.
(** [n] blocks of [m] entries *)
Definition blocks {A} (n m : nat) (v : list (list A)) : Prop := length v = n /\ forall blk, In blk v -> length blk = m.
Lemma blocks_shape : forall A n m (v : list (list A)), blocks n m v <-> shape v = repeat m n.
Proof.
  intros A n m v. unfold blocks, shape. split.
  - intros [<- H]. induction v as [| k v IH]; [reflexivity |]. cbn. rewrite (H k (or_introl eq_refl)). f_equal. apply IH. intros. apply H. right. assumption.
  - intros E. split; [assert (L := f_equal (@length nat) E); rewrite map_length, repeat_length in L; exact L |].
    intros blk I. apply (in_map (@length A)) in I. rewrite E in I. apply repeat_spec in I. exact I.
Qed.

(** ** Block vectors, matrix free: for all numbers of components, sizes, constraints, states of
    the cache and cell loops, the product always exists, gives the source back as it was,
    copies the constrained entries of the source to the destination and takes all others
    from the cell loop of a source with zeros in the constrained entries.  The cache is
    valid for the next product. *)
Theorem C64_block : forall A (zero : A) n m dofs cs buf (F : list (list A) -> list (list A)) src,
  blocks n m src -> NoDup dofs -> (forall j, In j dofs -> j < m) ->
  (forall v, blocks n m v -> blocks n m (F v)) ->
  (cs = [] \/ (cs = dofs /\ length buf = n * length dofs)) ->
  exists dst src0 buf', vmult_block zero n dofs cs buf F src = Some (dst, src, (dofs, buf'))
    /\ length buf' = n * length dofs /\ blocks n m src0 /\ blocks n m dst
    /\ (forall b j, b < n -> j < m -> entry src0 b j = if existsb (Nat.eqb j) dofs then Some zero else entry src b j)
    /\ (forall b j, b < n -> j < m -> entry dst b j = if existsb (Nat.eqb j) dofs then entry src b j else entry (F src0) b j).
Proof.
  intros A zero n m dofs cs buf F src Hs Nd Hd HF Hc.
  destruct (vmult_block_spec A zero n m dofs cs buf F src) as [dst [src0 [buf' [E [L [S0 [S1 [C U]]]]]]]]; auto.
  { apply blocks_shape. exact Hs. }
  { intros v Hv. apply blocks_shape. apply HF. apply blocks_shape. exact Hv. }
  exists dst, src0, buf'. split; [exact E |]. split; [exact L |]. split; [apply blocks_shape; exact S0 |]. split; [apply blocks_shape; exact S1 |].
  split; intros b j Hb Hj; rewrite !entry_bget; destruct (existsb (Nat.eqb j) dofs) eqn:Ex.
  - apply existsb_exists in Ex. destruct Ex as [x [I Ex]]. apply Nat.eqb_eq in Ex. subst x. apply (C b j I Hb).
  - apply U. intros I. rewrite (proj2 (existsb_exists (Nat.eqb j) dofs)) in Ex; [discriminate |]. exists j. split; [exact I | apply Nat.eqb_refl].
  - apply existsb_exists in Ex. destruct Ex as [x [I Ex]]. apply Nat.eqb_eq in Ex. subst x. apply (C b j I Hb).
  - apply U. intros I. rewrite (proj2 (existsb_exists (Nat.eqb j) dofs)) in Ex; [discriminate |]. exists j. split; [exact I | apply Nat.eqb_refl].
Qed.
Print Assumptions C64_block.

Example C64_block_applies :
  vmult_block 0%Z 2 [1] [] [] (map (map (fun x => (2 * x + 1)%Z))) [[5; 6]; [7; 8]]%Z = Some ([[11; 6]; [15; 8]], [[5; 6]; [7; 8]], ([1%nat], [6; 8]))%Z.
Proof. reflexivity. Qed.

Lemma flat_map_single : forall B C (g : B -> C) l, flat_map (fun x => [g x]) l = map g l.
Proof. intros. induction l as [| x l IH]; [reflexivity |]. cbn. rewrite IH. reflexivity. Qed.

(** ** Vectors, one component per entry of the constraints *)
Theorem C64_flat : forall A (zero : A) n scalar m dofs cs buf (F : list A -> list A) src,
  (scalar = false \/ n = 1) -> 1 <= n ->
  length src = m -> NoDup dofs -> (forall j, In j dofs -> j < m) ->
  (forall v, length v = m -> length (F v) = m) ->
  (cs = [] \/ (cs = dofs /\ length buf = n * length dofs)) ->
  exists dst src0 buf', vmult_flat zero n scalar dofs cs buf F src = Some (dst, src, (dofs, buf'))
    /\ length src0 = m /\ length dst = m
    /\ (forall j, j < m -> nth_error src0 j = if existsb (Nat.eqb j) dofs then Some zero else nth_error src j)
    /\ (forall j, j < m -> nth_error dst j = if existsb (Nat.eqb j) dofs then nth_error src j else nth_error (F src0) j).
Proof.
  intros A zero n scalar m dofs cs buf F src Hu Hn Hs Nd Hd HF Hc. unfold vmult_flat.
  assert (Hcache : exists buf0, fill_cache zero n dofs cs buf = (dofs, buf0) /\ length buf0 = n * length dofs).
  { destruct Hc as [-> | [-> L]]; cbn [fill_cache].
    - eexists. split; [reflexivity | apply resize_length].
    - destruct dofs as [| d dofs]; cbn [fill_cache]; [eexists; split; [reflexivity | apply resize_length] |].
      exists buf. split; [reflexivity | exact L]. }
  destruct Hcache as [buf0 [-> L0]].
  assert (U1 : (if scalar then n else 1) = 1) by (destruct Hu as [-> | ->]; [reflexivity | destruct scalar; reflexivity]). rewrite U1.
  assert (Ops : flat_ops 1 dofs = map (fun ic => (snd ic, fst ic)) (enum 0 dofs)).
  { unfold flat_ops. fold (enum 0 dofs). rewrite <- (flat_map_single _ _ (fun ic : nat * nat => (snd ic, fst ic))).
    apply flat_map_ext. intros [i c]. cbn. f_equal. f_equal; lia. }
  rewrite Ops. set (ops := map (fun ic => (snd ic, fst ic)) (enum 0 dofs)).
  assert (Mf : map fst ops = dofs) by (unfold ops; rewrite map_map; cbn [fst]; apply map_snd_enum).
  assert (Ms : map snd ops = seq 0 (length dofs)) by (unfold ops; rewrite map_map; cbn [snd]; apply map_fst_enum).
  assert (Io : forall j s, In (j, s) ops <-> vget dofs s = Some j).
  { intros j s. unfold ops. rewrite in_map_iff. split.
    - intros [[i c] [E I]]. cbn [fst snd] in E. injection E as <- <-. apply in_enum in I. rewrite Nat.sub_0_r in I. apply I.
    - intros E. exists (s, j). split; [reflexivity |]. apply in_enum. rewrite Nat.sub_0_r. split; [lia | exact E]. }
  destruct (save_spec zero vget vset (@length A) vset_spec ops src buf0) as [src0 [buf' [E [S0 [L1 [Z [U [B _]]]]]]]].
  { rewrite Mf. exact Nd. }
  { rewrite Ms. apply seq_NoDup. }
  { intros j s I. apply Io in I. assert (s < length dofs) by (apply vget_lt; eauto). apply nth_error_In in I.
    split; [apply vget_lt; rewrite Hs; apply Hd; exact I | rewrite L0; nia]. }
  rewrite E. cbn [obind].
  destruct (restore_spec vget vset (@length A) vset_spec ops buf' src0 (F src0)) as [src' [dst [E2 [S1 [S2 [R V]]]]]].
  { rewrite Mf. exact Nd. }
  { intros j s I. rewrite (B _ _ I). apply Io in I. apply nth_error_In in I. apply Hd in I. assert (length (F src0) = m) by (apply HF; congruence).
    repeat split; apply vget_lt; [rewrite Hs | rewrite S0, Hs | rewrite H]; exact I. }
  rewrite E2. cbn [obind].
  assert (Key : src' = src).
  { apply list_ext. intros j. destruct (in_dec_nat j dofs) as [I | I].
    - apply In_nth_error in I. destruct I as [s Es]. apply Io in Es. destruct (R _ _ Es) as [-> _]. apply (B _ _ Es).
    - rewrite <- Mf in I. destruct (V j I) as [-> _]. apply U. exact I. }
  subst src'.
  rewrite third_same.
  2:{ intros i c I. apply (in_enum nat dofs 0) in I. destruct I as [_ I]. rewrite Nat.sub_0_r in I. apply Io in I.
      destruct (R _ _ I) as [Ra Rb]. assert (Vb := B _ _ I). assert (Lc : c < m) by (apply Hd; apply (nth_error_In dofs i); apply Io; exact I).
      destruct (proj1 (vget_lt A src c)) as [v Ev]; [lia |]. exists v. rewrite Rb, Vb, Ev. repeat split. }
  cbn [obind]. exists dst, src0, buf'. split; [reflexivity |]. split; [congruence |]. split; [rewrite S2; apply HF; congruence |].
  split; intros j Hj; destruct (existsb (Nat.eqb j) dofs) eqn:Ex.
  - apply existsb_exists in Ex. destruct Ex as [x [I Ex]]. apply Nat.eqb_eq in Ex. subst x. apply Z. rewrite Mf. exact I.
  - apply U. rewrite Mf. intros I. rewrite (proj2 (existsb_exists (Nat.eqb j) dofs)) in Ex; [discriminate |]. exists j. split; [exact I | apply Nat.eqb_refl].
  - apply existsb_exists in Ex. destruct Ex as [x [I Ex]]. apply Nat.eqb_eq in Ex. subst x.
    apply In_nth_error in I. destruct I as [s Es]. apply Io in Es. destruct (R _ _ Es) as [_ Rb]. assert (Vb := B _ _ Es). unfold vget in *. congruence.
  - assert (I : ~ In j (map fst ops)).
    { rewrite Mf. intros I. rewrite (proj2 (existsb_exists (Nat.eqb j) dofs)) in Ex; [discriminate |]. exists j. split; [exact I | apply Nat.eqb_refl]. }
    destruct (V j I) as [_ Vb]. exact Vb.
Qed.
Print Assumptions C64_flat.

Example C64_flat_applies :
  vmult_flat 0%Z 1 true [2; 0] [] [] (map (fun x => (x + 1)%Z)) [5; 6; 7]%Z = Some ([5; 7; 7], [5; 6; 7], ([2; 0]%nat, [7; 5]))%Z.
Proof. reflexivity. Qed.

(** With two components on a scalar element the third loop writes to the wrong entries: the
    source comes back changed, and a free entry of the destination is overwritten. *)
Theorem C64_flat_refuted : exists dst src',
  vmult_flat 0%Z 2 true [1] [] [] (fun v => v) [10; 20; 30; 40]%Z = Some (dst, src', ([1], [30; 40]%Z))
  /\ src' = [10; 30; 30; 40]%Z /\ src' <> [10; 20; 30; 40]%Z
  /\ dst = [10; 30; 30; 40]%Z.
Proof. eexists. eexists. split; [reflexivity |]. split; [reflexivity |]. split; [discriminate | reflexivity]. Qed.
Print Assumptions C64_flat_refuted.

(** What holds with any number of components on a scalar element: all components of the
    constrained nodes are hidden from the cell loop, and every entry that the third loop
    does not overwrite comes back unchanged in the source, is the identity at constrained
    nodes and the product elsewhere. *)
Lemma flat_ops_in : forall uc cs x s, In (x, s) (flat_ops uc cs) <-> exists i c b, vget cs i = Some c /\ b < uc /\ x = c * uc + b /\ s = i * uc + b.
Proof.
  intros uc cs x s. unfold flat_ops. fold (enum 0 cs). rewrite in_flat_map. split.
  - intros [[i c] [I1 I2]]. apply in_enum in I1. rewrite Nat.sub_0_r in I1. destruct I1 as [_ I1]. apply in_map_iff in I2. destruct I2 as [b [E I2]]. apply in_seq in I2. cbn [fst snd] in E.
    injection E as <- <-. exists i, c, b. repeat split; [exact I1 | lia].
  - intros [i [c [b [H1 [H2 [-> ->]]]]]]. exists (i, c). split; [apply in_enum; rewrite Nat.sub_0_r; split; [lia | exact H1] |].
    apply in_map_iff. exists b. split; [reflexivity | apply in_seq; lia].
Qed.
Lemma unpair : forall uc a b c d, b < uc -> d < uc -> a * uc + b = c * uc + d -> a = c /\ b = d.
Proof. intros uc a b c d H1 H2 H. assert (a = c) by nia. subst. split; [reflexivity | lia]. Qed.
Lemma flat_ops_nodup : forall uc cs, NoDup cs -> NoDup (map fst (flat_ops uc cs)) /\ NoDup (map snd (flat_ops uc cs)).
Proof.
  intros uc cs N. unfold flat_ops. fold (enum 0 cs).
  assert (F : forall (h : nat * nat -> nat) l, map h (flat_map (fun ic : nat * nat => map (fun b => (snd ic * uc + b, fst ic * uc + b)) (seq 0 uc)) l)
     = flat_map (fun ic : nat * nat => map (fun b => h (snd ic * uc + b, fst ic * uc + b)) (seq 0 uc)) l).
  { intros h. induction l as [| x l IH]; [reflexivity |]. cbn [flat_map]. rewrite map_app, IH, map_map. reflexivity. }
  assert (D : forall m k, NoDup (map (fun b => k * m + b) (seq 0 m))).
  { intros m k. apply FinFun.Injective_map_NoDup; [intros a b H; lia | apply seq_NoDup]. }
  assert (NE : NoDup (enum 0 cs)) by (apply (NoDup_map_inv fst); rewrite map_fst_enum; apply seq_NoDup).
  split; rewrite F; apply nodup_flat_map; try exact NE; cbn [fst snd].
  - intros [i c] _. apply D.
  - intros [i c] [i' c'] z I1 I2 Z1 Z2. apply in_enum in I1. apply in_enum in I2. rewrite Nat.sub_0_r in I1, I2. apply in_map_iff in Z1. apply in_map_iff in Z2.
    destruct Z1 as [b [E1 B1]], Z2 as [b' [E2 B2]]. apply in_seq in B1. apply in_seq in B2. cbn [snd] in E1, E2.
    destruct (unpair uc c b c' b') as [-> _]; [lia | lia | congruence |]. f_equal.
    destruct I1 as [_ I1], I2 as [_ I2]. apply (proj1 (NoDup_nth_error cs) N); [apply vget_lt; eauto | unfold vget in *; congruence].
  - intros [i c] _. apply D.
  - intros [i c] [i' c'] z I1 I2 Z1 Z2. apply in_enum in I1. apply in_enum in I2. apply in_map_iff in Z1. apply in_map_iff in Z2.
    destruct Z1 as [b [E1 B1]], Z2 as [b' [E2 B2]]. apply in_seq in B1. apply in_seq in B2. cbn [fst] in E1, E2.
    destruct (unpair uc i b i' b') as [-> _]; [lia | lia | congruence |]. f_equal. destruct I1 as [_ I1], I2 as [_ I2]. congruence.
Qed.
Lemma third_spec : forall A ics (buf src dst : list A),
  (forall i c, In (i, c) ics -> i < length buf /\ c < length src /\ c < length dst) ->
  exists src' dst', third_loop ics buf src dst = Some (src', dst') /\ length src' = length src /\ length dst' = length dst
    /\ forall x, ~ In x (map snd ics) -> vget src' x = vget src x /\ vget dst' x = vget dst x.
Proof.
  intros A. induction ics as [| [i c] ics IH]; intros buf src dst H.
  - exists src, dst. repeat split; reflexivity.
  - destruct (H i c (or_introl eq_refl)) as [H1 [H2 H3]]. apply vget_lt in H1. destruct H1 as [v Ev].
    destruct (vset_some A src c v H2) as [s1 [E1 [L1 G1]]]. destruct (vset_some A dst c v H3) as [d1 [E2 [L2 G2]]].
    destruct (IH buf s1 d1) as [src' [dst' [E [La [Lb U]]]]]; [intros i' c' I; rewrite L1, L2; apply H; right; exact I |].
    exists src', dst'. cbn [third_loop]. rewrite Ev. cbn [obind]. rewrite E1. cbn [obind]. rewrite E2. cbn [obind].
    split; [exact E |]. split; [congruence |]. split; [congruence |]. cbn [map snd In]. intros x Hx. destruct (U x) as [-> ->]; [tauto |].
    rewrite G1, G2. destruct (Nat.eqb_spec c x); [tauto | split; reflexivity].
Qed.
Theorem C64_flat_components_partial : forall A (zero : A) n m dofs cs buf (F : list A -> list A) src,
  1 <= n -> length src = m * n -> NoDup dofs -> (forall j, In j dofs -> j < m) ->
  (forall v, length v = m * n -> length (F v) = m * n) ->
  (cs = [] \/ (cs = dofs /\ length buf = n * length dofs)) ->
  exists dst src0 src' buf', vmult_flat zero n true dofs cs buf F src = Some (dst, src', (dofs, buf'))
    /\ length src0 = m * n /\ length src' = m * n /\ length dst = m * n
    /\ (forall j b, j < m -> b < n -> nth_error src0 (j * n + b) = if existsb (Nat.eqb j) dofs then Some zero else nth_error src (j * n + b))
    /\ (forall j b, j < m -> b < n -> ~ In (j * n + b) dofs ->
          nth_error src' (j * n + b) = nth_error src (j * n + b)
          /\ nth_error dst (j * n + b) = if existsb (Nat.eqb j) dofs then nth_error src (j * n + b) else nth_error (F src0) (j * n + b)).
Proof.
  intros A zero n m dofs cs buf F src Hn Hs Nd Hd HF Hc. unfold vmult_flat.
  assert (Hcache : exists buf0, fill_cache zero n dofs cs buf = (dofs, buf0) /\ length buf0 = n * length dofs).
  { destruct Hc as [-> | [-> L]]; cbn [fill_cache].
    - eexists. split; [reflexivity | apply resize_length].
    - destruct dofs as [| d dofs]; cbn [fill_cache]; [eexists; split; [reflexivity | apply resize_length] |].
      exists buf. split; [reflexivity | exact L]. }
  destruct Hcache as [buf0 [-> L0]].
  destruct (flat_ops_nodup n dofs Nd) as [N1 N2].
  assert (Vd : forall j s, In (j, s) (flat_ops n dofs) -> j < m * n /\ s < length buf0).
  { intros j s I. apply flat_ops_in in I. destruct I as [i [c [b [H1 [H2 [-> ->]]]]]]. assert (c < m) by (apply Hd; apply nth_error_In with i; exact H1).
    assert (i < length dofs) by (apply vget_lt; eauto). split; [nia |]. rewrite L0. nia. }
  destruct (save_spec zero vget vset (@length A) vset_spec (flat_ops n dofs) src buf0 N1 N2) as [src0 [buf' [E [S0 [L1 [Z [U [B _]]]]]]]].
  { intros j s I. destruct (Vd j s I). split; [apply vget_lt; rewrite Hs; assumption | assumption]. }
  rewrite E. cbn [obind]. assert (LF : length (F src0) = m * n) by (apply HF; congruence).
  destruct (restore_spec vget vset (@length A) vset_spec (flat_ops n dofs) buf' src0 (F src0) N1) as [src1 [dst1 [E2 [S1 [S2 [R V]]]]]].
  { intros j s I. rewrite (B _ _ I). destruct (Vd j s I). repeat split; apply vget_lt; [rewrite Hs | rewrite S0, Hs | rewrite LF]; assumption. }
  rewrite E2. cbn [obind].
  destruct (third_spec A (combine (seq 0 (length dofs)) dofs) buf' src1 dst1) as [src' [dst [E3 [La [Lb T]]]]].
  { intros i c I. fold (enum 0 dofs) in I. apply in_enum in I. rewrite Nat.sub_0_r in I. destruct I as [_ I]. assert (c < m) by (apply Hd; apply nth_error_In with i; exact I).
    assert (i < length dofs) by (apply vget_lt; eauto). rewrite L1, L0, S1, S2, LF, S0, Hs. repeat split; nia. }
  rewrite E3. cbn [obind]. exists dst, src0, src', buf'. split; [reflexivity |]. split; [congruence |]. split; [congruence |]. split; [congruence |].
  assert (IO : forall j b, b < n -> In (j * n + b) (map fst (flat_ops n dofs)) <-> In j dofs).
  { intros j b Hb. rewrite in_map_iff. split.
    - intros [[x s] [Ex I]]. cbn [fst] in Ex. subst x. apply flat_ops_in in I. destruct I as [i [c [b' [H1 [H2 [H3 _]]]]]].
      destruct (unpair n j b c b') as [-> _]; [assumption | assumption | assumption |]. apply nth_error_In with i. exact H1.
    - intros I. apply In_nth_error in I. destruct I as [i Hi]. exists (j * n + b, i * n + b). split; [reflexivity |]. apply flat_ops_in. exists i, j, b. repeat split; assumption. }
  split.
  - intros j b Hj Hb. destruct (existsb (Nat.eqb j) dofs) eqn:Ex.
    + apply Z. apply IO; [exact Hb |]. apply existsb_exists in Ex. destruct Ex as [y [I Ey]]. apply Nat.eqb_eq in Ey. subst. exact I.
    + apply U. rewrite IO by exact Hb. intros I. rewrite (proj2 (existsb_exists (Nat.eqb j) dofs)) in Ex; [discriminate |]. exists j. split; [exact I | apply Nat.eqb_refl].
  - intros j b Hj Hb Hx. change (map snd (combine (seq 0 (length dofs)) dofs)) with (map snd (enum 0 dofs)) in T. rewrite map_snd_enum in T.
    destruct (T (j * n + b) Hx) as [T1 T2]. unfold vget in T1, T2. rewrite T1, T2. destruct (existsb (Nat.eqb j) dofs) eqn:Ex.
    + assert (I : In j dofs) by (apply existsb_exists in Ex; destruct Ex as [y [I Ey]]; apply Nat.eqb_eq in Ey; subst; exact I).
      apply In_nth_error in I. destruct I as [i Hi]. assert (Io : In (j * n + b, i * n + b) (flat_ops n dofs)) by (apply flat_ops_in; exists i, j, b; repeat split; assumption).
      destruct (R _ _ Io) as [R1 R2]. rewrite (B _ _ Io) in R1, R2. split; assumption.
    + assert (NI : ~ In (j * n + b) (map fst (flat_ops n dofs))).
      { rewrite IO by exact Hb. intros I. rewrite (proj2 (existsb_exists (Nat.eqb j) dofs)) in Ex; [discriminate |]. exists j. split; [exact I | apply Nat.eqb_refl]. }
      destruct (V _ NI) as [V1 V2]. split; [unfold vget in V1; rewrite V1; apply U; exact NI | exact V2].
Qed.
Print Assumptions C64_flat_components_partial.
Example C64_flat_components_applies :
  vmult_flat 0%Z 2 true [1] [] [] (map (fun x => (x + 1)%Z)) [10; 20; 30; 40]%Z = Some ([11; 30; 30; 40], [10; 30; 30; 40], ([1]%nat, [30; 40]))%Z.
Proof. reflexivity. Qed.

(** ** Interleaved components: both directions of the change of layout exist for any number of
    blocks but zero and any size, put entry [j] of block [b] to place [j * n + b] and are
    inverse to each other. *)
Theorem C64_layout : forall A n m (v w : list (list A)) (x y : list A), 0 < n -> blocks n m v -> blocks n m w -> length x = m * n -> length y = m * n ->
  (exists z, merge_components_fast v x = Some z /\ length z = m * n
     /\ (forall b j, b < n -> j < m -> nth_error z (j * n + b) = entry v b j)
     /\ split_up_components_fast z w = Some v)
  /\ (exists u, split_up_components_fast x w = Some u /\ blocks n m u
     /\ (forall b j, b < n -> j < m -> entry u b j = nth_error x (j * n + b))
     /\ merge_components_fast u y = Some x).
Proof.
  intros A n m v w x y Hn Hv Hw Hx Hy. apply blocks_shape in Hv. apply blocks_shape in Hw.
  assert (Merge : forall (v : list (list A)) (x : list A), shape v = repeat m n -> length x = m * n -> exists z, merge_components_fast v x = Some z /\ length z = m * n
     /\ forall b j, b < n -> j < m -> vget z (j * n + b) = bget v (b, j)).
  { clear - Hn. intros v x Hv Hx. destruct (merge_loop_spec A v n m Hv Hn m 0 (length x) x) as [z H]; [lia | nia | exact Hx | intros; lia |]. exists z. exact H. }
  assert (Split : forall (x : list A) (w : list (list A)), shape w = repeat m n -> length x = m * n -> exists u, split_up_components_fast x w = Some u /\ shape u = repeat m n
     /\ forall b j, b < n -> j < m -> bget u (b, j) = vget x (j * n + b)).
  { clear - Hn. intros x w Hw Hx. destruct (split_loop_spec A x n m Hn Hx m 0 (length x) w Hw) as [u H]; [lia | nia | intros; lia |]. exists u. exact H. }
  split.
  - destruct (Merge v x Hv Hx) as [z [E [L G]]]. destruct (Split z w Hw L) as [u [E2 [S2 G2]]].
    exists z. split; [exact E |]. split; [exact L |]. split; [exact G |]. rewrite E2. f_equal. apply block_ext; [congruence |].
    intros [b j]. destruct (Nat.lt_ge_cases b n) as [Hb | Hb].
    + destruct (Nat.lt_ge_cases j m) as [Hj | Hj]; [rewrite G2, G by assumption; reflexivity |].
      rewrite (rect_none A v n m b j Hv), (rect_none A u n m b j S2) by lia. reflexivity.
    + rewrite (rect_none A v n m b j Hv), (rect_none A u n m b j S2) by lia. reflexivity.
  - destruct (Split x w Hw Hx) as [u [E [S G]]]. destruct (Merge u y S Hy) as [z [E2 [L2 G2]]].
    exists u. split; [exact E |]. split; [apply blocks_shape; exact S |]. split; [exact G |]. rewrite E2. f_equal. apply list_ext. intros i.
    destruct (Nat.lt_ge_cases i (m * n)) as [Hi | Hi].
    + assert (D := Nat.div_mod i n ltac:(lia)). assert (M := Nat.mod_upper_bound i n ltac:(lia)). assert (Q : i / n < m) by (apply Nat.div_lt_upper_bound; lia).
      replace i with (i / n * n + i mod n) by lia. rewrite G2, G by assumption. reflexivity.
    + unfold vget. rewrite (proj2 (nth_error_None z i)), (proj2 (nth_error_None x i)) by lia. reflexivity.
Qed.
Print Assumptions C64_layout.

(** The product with an assembled matrix on block vectors: entry [j] of block [b] is entry
    [j * n + b] of the product with the interleaved vector. *)
Theorem C64_matrix : forall A (zero : A) n m (matrix : list A -> list A) src dst, 0 < n -> blocks n m src -> blocks n m dst ->
  (forall x, length x = m * n -> length (matrix x) = m * n) ->
  exists x res, vmult_matrix zero (m * n) matrix src dst = Some res /\ blocks n m res /\ length x = m * n
    /\ (forall b j, b < n -> j < m -> nth_error x (j * n + b) = entry src b j)
    /\ (forall b j, b < n -> j < m -> entry res b j = nth_error (matrix x) (j * n + b)).
Proof.
  intros A zero n m matrix src dst Hn Hs Hd HM.
  destruct (C64_layout A n m src dst (repeat zero (m * n)) (repeat zero (m * n)) Hn Hs Hd) as [[x [E [L [G _]]]] _]; [apply repeat_length | apply repeat_length |].
  destruct (C64_layout A n m src dst (matrix x) (matrix x) Hn Hs Hd) as [_ [u [E2 [B2 [G2 _]]]]]; [apply HM; exact L | apply HM; exact L |].
  exists x, u. unfold vmult_matrix. rewrite E. cbn [obind]. split; [exact E2 |]. split; [exact B2 |]. split; [exact L |]. split; [exact G | exact G2].
Qed.
Print Assumptions C64_matrix.

Example C64_matrix_applies :
  vmult_matrix 0%Z 6 (fun x => map (fun a => (10 * a)%Z) x) [[1; 2; 3]; [4; 5; 6]]%Z [[0; 0; 0]; [0; 0; 0]]%Z = Some [[10; 20; 30]; [40; 50; 60]]%Z
  /\ merge_components_fast [[1; 2; 3]; [4; 5; 6]]%Z [0; 0; 0; 0; 0; 0]%Z = Some [1; 4; 2; 5; 3; 6]%Z.
Proof. split; reflexivity. Qed.

(** ** The coupled operator: displacement entries of nodes without material and of supported
    nodes are treated like the constrained ones in the destination; the source keeps its
    entries but for the displacements of the nodes without material. *)
Definition in_zc (off dim : nat) (zc : list nat) (b j : nat) : Prop := off <= b < off + dim /\ In j zc.
Definition in_support (off : nat) (displ : list (list nat)) (b j : nat) : Prop := off <= b /\ exists l, nth_error displ (b - off) = Some l /\ In j l.

Theorem C64_coupled : forall A (zero : A) n m off dim zc displ dofs cs buf (F : list (list A) -> list (list A)) src,
  blocks n m src -> NoDup dofs -> (forall j, In j dofs -> j < m) ->
  (forall v, blocks n m v -> blocks n m (F v)) ->
  (cs = [] \/ (cs = dofs /\ length buf = n * length dofs)) ->
  off + dim <= n -> NoDup zc -> (forall j, In j zc -> j < m) ->
  length displ <= dim -> (forall l, In l displ -> NoDup l /\ forall j, In j l -> j < m) ->
  exists dst src' src0 buf', vmult_coupled zero off dim zc displ n dofs cs buf F src = Some (dst, src', (dofs, buf'))
    /\ blocks n m src0 /\ blocks n m dst /\ blocks n m src'
    /\ (forall b j, b < n -> j < m ->
          ((In j dofs \/ in_zc off dim zc b j \/ in_support off displ b j) -> entry src0 b j = Some zero /\ entry dst b j = entry src b j)
          /\ (~ (In j dofs \/ in_zc off dim zc b j \/ in_support off displ b j) -> entry src0 b j = entry src b j /\ entry dst b j = entry (F src0) b j)
          /\ (in_zc off dim zc b j -> entry src' b j = Some zero) /\ (~ in_zc off dim zc b j -> entry src' b j = entry src b j)).
Proof.
  intros A zero n m off dim zc displ dofs cs buf F src Hs Nd Hd HF Hc Ho Nz Hz Ld Hl.
  assert (Ss : shape src = repeat m n) by (apply blocks_shape; exact Hs).
  destruct (zc_ops_nodup off dim zc Nz) as [Z1 Z2].
  assert (Nda : NoDup (displ_addresses off displ)) by (apply displ_nodup; intros l I; apply (Hl l I)).
  assert (Df : map fst (displ_ops off displ) = displ_addresses off displ) by apply map_fst_combine_seq.
  assert (Ds : map snd (displ_ops off displ) = seq 0 (length (displ_addresses off displ))) by apply map_snd_combine_seq.
  assert (Vz : forall b j, In (b, j) (map fst (zc_ops off dim zc)) -> b < n /\ j < m).
  { intros b j I. apply in_zc_addresses in I. destruct I as [H I]. split; [lia | apply Hz; exact I]. }
  assert (Vd : forall b j, In (b, j) (map fst (displ_ops off displ)) -> b < n /\ j < m).
  { intros b j I. rewrite Df in I. apply in_displ in I. destruct I as [H [l [E I]]]. assert (b - off < length displ) by (apply vget_lt; eauto).
    apply nth_error_In in E. split; [lia | apply (Hl l E); exact I]. }
  unfold vmult_coupled.
  destruct (save_spec zero bget bset shape bset_spec (zc_ops off dim zc) src (repeat zero (length zc * dim)) Z1 Z2) as [s1 [zbuf [E1 [S1 [L1 [ZZ [UZ [BZ _]]]]]]]].
  { intros [b j] s I. split; [apply (rect_valid A src n m b j Ss); apply Vz; apply (in_map fst) in I; exact I |].
    rewrite repeat_length. apply in_zc_ops in I. destruct I as [i [d [Ei [Hdd [_ ->]]]]]. assert (i < length zc) by (apply vget_lt; eauto). nia. }
  rewrite E1. cbn [obind]. assert (S1' : shape s1 = repeat m n) by congruence.
  destruct (save_spec zero bget bset shape bset_spec (displ_ops off displ) s1 (repeat zero (length (displ_addresses off displ)))) as [s2 [dbuf [E2 [S2 [L2 [ZD [UD [BD _]]]]]]]].
  { rewrite Df. exact Nda. }
  { rewrite Ds. apply seq_NoDup. }
  { intros [b j] s I. split; [apply (rect_valid A s1 n m b j S1'); apply Vd; apply (in_map fst) in I; exact I |].
    rewrite repeat_length. apply (in_map snd) in I. rewrite Ds in I. apply in_seq in I. cbn [snd] in I. lia. }
  rewrite E2. cbn [obind]. assert (S2' : shape s2 = repeat m n) by congruence.
  destruct (vmult_block_spec A zero n m dofs cs buf F s2 S2' Nd Hd) as [d3 [src0 [buf' [E3 [_ [S0 [S3 [CC UC]]]]]]]]; [| exact Hc |].
  { intros v Hv. apply blocks_shape. apply HF. apply blocks_shape. exact Hv. }
  rewrite E3. cbn [obind].
  destruct (restore_spec bget bset shape bset_spec (displ_ops off displ) dbuf s2 d3) as [s4 [d4 [E4 [S4 [S5 [RD VD]]]]]].
  { rewrite Df. exact Nda. }
  { intros [b j] s I. rewrite (BD _ _ I). apply (in_map fst) in I. cbn [fst] in I. apply Vd in I.
    repeat split; [apply (rect_valid A s1 n m b j S1') | apply (rect_valid A s2 n m b j S2') | apply (rect_valid A d3 n m b j S3)]; exact I. }
  rewrite E4. cbn [obind].
  destruct (dst_spec A (zc_ops off dim zc) zbuf d4 Z1) as [d5 [E5 [S6 [RZ VZ]]]].
  { intros [b j] s I. rewrite (BZ _ _ I). apply (in_map fst) in I. cbn [fst] in I. apply Vz in I.
    split; [apply (rect_valid A src n m b j Ss) | apply (rect_valid A d4 n m b j)]; [exact I | congruence | exact I]. }
  rewrite E5. cbn [obind]. exists d5, s4, src0, buf'. split; [reflexivity |].
  split; [apply blocks_shape; exact S0 |]. split; [apply blocks_shape; congruence |]. split; [apply blocks_shape; congruence |].
  intros b j Hb Hj. rewrite !entry_bget.
  assert (Pz : in_zc off dim zc b j <-> In (b, j) (map fst (zc_ops off dim zc))) by (rewrite in_zc_addresses; reflexivity).
  assert (Pd : in_support off displ b j <-> In (b, j) (map fst (displ_ops off displ))) by (rewrite Df, in_displ; reflexivity).
  assert (Dz : in_zc off dim zc b j \/ ~ in_zc off dim zc b j) by (rewrite Pz; destruct (in_dec (fun x y : nat * nat => ltac:(decide equality; apply Nat.eq_dec)) (b, j) (map fst (zc_ops off dim zc))); tauto).
  assert (Dd : in_support off displ b j \/ ~ in_support off displ b j) by (rewrite Pd; destruct (in_dec (fun x y : nat * nat => ltac:(decide equality; apply Nat.eq_dec)) (b, j) (map fst (displ_ops off displ))); tauto).
  (* the source after the restoring loop *)
  assert (Src : bget s4 (b, j) = bget s1 (b, j)).
  { destruct Dd as [I | I].
    - apply Pd in I. apply in_map_iff in I. destruct I as [[x s] [Ex I]]. cbn [fst] in Ex. subst x. destruct (RD _ _ I) as [-> _]. apply (BD _ _ I).
    - rewrite Pd in I. destruct (VD _ I) as [-> _]. apply UD. exact I. }
  assert (S2z : in_zc off dim zc b j \/ in_support off displ b j -> bget s2 (b, j) = Some zero).
  { intros H. destruct Dd as [I | I]; [apply ZD; apply Pd; exact I |]. rewrite UD by (rewrite <- Pd; exact I). destruct H as [H | H]; [| contradiction]. apply ZZ. apply Pz. exact H. }
  assert (S2n : ~ in_zc off dim zc b j -> ~ in_support off displ b j -> bget s2 (b, j) = bget src (b, j)).
  { intros H1 H2. rewrite UD by (rewrite <- Pd; exact H2). apply UZ. rewrite <- Pz. exact H1. }
  split; [| split; [| split]].
  - intros H. split.
    + destruct (in_dec_nat j dofs) as [I | I]; [apply (CC b j I Hb) |]. destruct (UC b j I) as [-> _]. apply S2z. tauto.
    + destruct Dz as [I | I].
      * apply Pz in I. apply in_map_iff in I. destruct I as [[x s] [Ex I]]. cbn [fst] in Ex. subst x. rewrite (RZ _ _ I). apply (BZ _ _ I).
      * assert (S1n : bget s1 (b, j) = bget src (b, j)) by (apply UZ; rewrite <- Pz; exact I).
        rewrite VZ by (rewrite <- Pz; exact I). destruct Dd as [J | J].
        -- apply Pd in J. apply in_map_iff in J. destruct J as [[x s] [Ex J]]. cbn [fst] in Ex. subst x. destruct (RD _ _ J) as [_ ->]. rewrite (BD _ _ J). exact S1n.
        -- assert (In j dofs) by tauto. destruct (VD (b, j)) as [_ ->]; [rewrite <- Pd; exact J |]. destruct (CC b j H0 Hb) as [_ ->]. apply S2n; assumption.
  - intros H. destruct (UC b j) as [U1 U2]; [tauto |]. rewrite U1. split; [apply S2n; tauto |].
    rewrite VZ by (rewrite <- Pz; tauto). destruct (VD (b, j)) as [_ ->]; [rewrite <- Pd; tauto |]. exact U2.
  - intros H. rewrite Src. apply ZZ. apply Pz. exact H.
  - intros H. rewrite Src. apply UZ. rewrite <- Pz. exact H.
Qed.
Print Assumptions C64_coupled.

Example C64_coupled_applies :
  vmult_coupled 0%Z 1 2 [] [[0]; [1]] 3 [0] [] [] (map (map (fun x => (x + 100)%Z))) [[1; 2]; [3; 4]; [5; 6]]%Z
  = Some ([[1; 102]; [3; 104]; [5; 6]], [[1; 2]; [3; 4]; [5; 6]], ([0%nat], [1; 0; 5]))%Z.
Proof. reflexivity. Qed.

(** With nodes without material the source comes back changed. *)
Theorem C64_coupled_refuted : exists dst src' cache,
  vmult_coupled 0%Z 1 1 [1] [[]] 2 [] [] [] (fun v => v) [[1; 2]; [3; 4]]%Z = Some (dst, src', cache)
  /\ src' = [[1; 2]; [3; 0]]%Z.
Proof. eexists. eexists. eexists. split; reflexivity. Qed.
Print Assumptions C64_coupled_refuted.

(** ** The elastic operator: the source comes back with zeros in the Dirichlet entries, the
    destination has the prescribed values there, and the cell loop sees these values too. *)
Theorem C64_elastic_partial : forall A (zero : A) n m dbc dofs cs buf (F : list (list A) -> list (list A)) src,
  blocks n m src -> NoDup dofs -> (forall j, In j dofs -> j < m) ->
  (forall v, blocks n m v -> blocks n m (F v)) ->
  (cs = [] \/ (cs = dofs /\ length buf = n * length dofs)) ->
  NoDup (map fst dbc) -> (forall b j, In (b, j) (map fst dbc) -> b < n /\ j < m) ->
  exists dst src' cache, vmult_elastic zero dbc n dofs cs buf F src = Some (dst, src', cache)
    /\ forall b j, b < n -> j < m ->
        (forall a, In ((b, j), a) dbc -> entry dst b j = Some a /\ entry src' b j = Some zero)
        /\ (~ In (b, j) (map fst dbc) -> entry src' b j = entry src b j /\ (In j dofs -> entry dst b j = entry src b j)).
Proof.
  intros A zero n m dbc dofs cs buf F src Hs Nd Hd HF Hc Nb Hb.
  assert (Ss : shape src = repeat m n) by (apply blocks_shape; exact Hs). unfold vmult_elastic.
  destruct (assign_spec A dbc src Nb) as [s1 [E1 [S1 [R1 V1]]]].
  { intros [b j] I. apply (rect_valid A src n m b j Ss). apply Hb. exact I. }
  rewrite E1. cbn [obind]. assert (S1' : shape s1 = repeat m n) by congruence.
  destruct (vmult_block_spec A zero n m dofs cs buf F s1 S1' Nd Hd) as [d2 [src0 [buf' [E2 [_ [S0 [S2 [CC UC]]]]]]]]; [| exact Hc |].
  { intros v Hv. apply blocks_shape. apply HF. apply blocks_shape. exact Hv. }
  rewrite E2. cbn [obind].
  set (zs := map (fun xa : (nat * nat) * A => (fst xa, zero)) dbc).
  assert (Mz : map fst zs = map fst dbc) by (unfold zs; rewrite map_map; reflexivity).
  destruct (assign_spec A zs s1) as [s3 [E3 [S3 [R3 V3]]]].
  { rewrite Mz. exact Nb. }
  { rewrite Mz. intros [b j] I. apply (rect_valid A s1 n m b j S1'). apply Hb. exact I. }
  rewrite E3. cbn [obind].
  destruct (assign_spec A dbc d2 Nb) as [d4 [E4 [S4 [R4 V4]]]].
  { intros [b j] I. apply (rect_valid A d2 n m b j S2). apply Hb. exact I. }
  rewrite E4. cbn [obind]. do 3 eexists. split; [reflexivity |].
  intros b j Lb Lj. rewrite !entry_bget. split.
  - intros a I. split; [apply R4; exact I |]. apply R3. unfold zs. apply in_map_iff. exists ((b, j), a). split; [reflexivity | exact I].
  - intros I. split.
    + rewrite V3 by (rewrite Mz; exact I). apply V1. exact I.
    + intros J. rewrite V4 by exact I. destruct (CC b j J Lb) as [_ ->]. apply V1. exact I.
Qed.
Print Assumptions C64_elastic_partial.

(** It is neither linear - a source of zeros gives a product that is not zero, also off the
    boundary - nor does it keep its source. *)
Theorem C64_elastic_refuted :
  let F := map (fun blk : list Z => match blk with [a; b] => [a - b; b - a]%Z | _ => blk end) in
  (exists cache, vmult_elastic 0%Z [((0, 0), 5%Z)] 1 [] [] [] F [[0; 0]]%Z = Some ([[5; -5]], [[0; 0]], cache)%Z)
  /\ (exists cache, vmult_elastic 0%Z [((0, 0), 0%Z)] 1 [] [] [] F [[7; 1]]%Z = Some ([[0; 1]], [[0; 1]], cache)%Z).
Proof. split; eexists; reflexivity. Qed.
Print Assumptions C64_elastic_refuted.
