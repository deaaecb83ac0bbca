(** Lemmas for VmultProps.v. *)
From Coq Require Import List Arith Lia.
From Verif Require Import Util VmultModel.
Import ListNotations.

Lemma vset_some : forall A (l : list A) i x, i < length l -> exists l', vset l i x = Some l' /\ length l' = length l /\ forall j, vget l' j = if Nat.eqb i j then Some x else vget l j.
Proof.
  intros A. induction l as [| y l IH]; intros i x H; cbn in H; [lia |].
  destruct i as [| i].
  - exists (x :: l). cbn. split; [reflexivity | split; [reflexivity |]]. intros [| j]; reflexivity.
  - destruct (IH i x) as [l' [E [L G]]]; [lia |]. exists (y :: l'). cbn. rewrite E. split; [reflexivity | split; [cbn; lia |]].
    intros [| j]; [reflexivity | apply G].
Qed.
Lemma vset_none : forall A (l : list A) i x, length l <= i -> vset l i x = None.
Proof. intros A. induction l as [| y l IH]; intros i x H; cbn in *; [reflexivity |]. destruct i as [| i]; [lia |]. rewrite IH by lia. reflexivity. Qed.
Lemma vget_lt : forall A (l : list A) i, i < length l <-> exists x, vget l i = Some x.
Proof.
  intros. unfold vget. split.
  - intros H. destruct (nth_error l i) eqn:E; [eauto |]. apply nth_error_None in E. lia.
  - intros [x E]. apply nth_error_Some. congruence.
Qed.
Lemma list_ext : forall A (l k : list A), (forall i, vget l i = vget k i) -> l = k.
Proof.
  intros A. induction l as [| x l IH]; intros [| y k] H.
  - reflexivity.
  - specialize (H 0). discriminate.
  - specialize (H 0). discriminate.
  - f_equal; [specialize (H 0); cbn in H; congruence |]. apply IH. intros i. exact (H (S i)).
Qed.

(** ** the loops that save and restore entries *)
Section Loops.
Context {A M X T : Type} (zero : A) (get : M -> X -> option A) (set : M -> X -> A -> option M) (shape : M -> T).
Hypothesis set_spec : forall m x v, (exists a, get m x = Some a) ->
  exists m', set m x v = Some m' /\ shape m' = shape m /\ get m' x = Some v /\ forall y, y <> x -> get m' y = get m y.

Definition valid (m : M) (x : X) : Prop := exists a, get m x = Some a.

Lemma save_spec : forall ops m buf, NoDup (map fst ops) -> NoDup (map snd ops) ->
  (forall x s, In (x, s) ops -> valid m x /\ s < length buf) ->
  exists m' buf', save_loop zero get set ops m buf = Some (m', buf') /\ shape m' = shape m /\ length buf' = length buf
    /\ (forall x, In x (map fst ops) -> get m' x = Some zero) /\ (forall x, ~ In x (map fst ops) -> get m' x = get m x)
    /\ (forall x s, In (x, s) ops -> vget buf' s = get m x) /\ (forall s, ~ In s (map snd ops) -> vget buf' s = vget buf s).
Proof.
  induction ops as [| [x s] ops IH]; intros m buf N1 N2 H.
  - exists m, buf. cbn. repeat split; try reflexivity; intros; contradiction.
  - cbn [map fst snd] in N1, N2. inversion N1 as [| ? ? X1 X2]; subst. inversion N2 as [| ? ? Y1 Y2]; subst.
    destruct (H x s (or_introl eq_refl)) as [[v Ev] Ls].
    destruct (vset_some A buf s v Ls) as [b1 [Eb [Lb Gb]]].
    destruct (set_spec m x zero (ex_intro _ v Ev)) as [m1 [Em [Sm [Gm1 Gm2]]]].
    destruct (IH m1 b1 X2 Y2) as [m' [buf' [E [S1 [L1 [Z [U [B1 B2]]]]]]]].
    { intros y t I. destruct (H y t (or_intror I)) as [[a Ea] Lt]. split; [| lia].
      exists a. rewrite Gm2; [exact Ea |]. intros ->. apply X1. apply (in_map fst) in I. exact I. }
    exists m', buf'. cbn [save_loop]. rewrite Ev. cbn [obind]. rewrite Eb. cbn [obind]. rewrite Em. cbn [obind].
    split; [exact E |]. split; [congruence |]. split; [lia |]. split; [| split; [| split]].
    + intros y [<- | I]; [rewrite U by exact X1; exact Gm1 | apply Z; exact I].
    + cbn [map fst In]. intros y I. rewrite U by tauto. apply Gm2. intros ->. tauto.
    + intros y t [I | I].
      * injection I as <- <-. rewrite B2 by exact Y1. rewrite Gb, Nat.eqb_refl. symmetry. exact Ev.
      * rewrite (B1 y t I). apply Gm2. intros ->. apply X1. apply (in_map fst) in I. exact I.
    + cbn [map snd In]. intros t I. rewrite B2 by tauto. rewrite Gb. destruct (Nat.eqb_spec s t); [tauto | reflexivity].
Qed.

Lemma restore_spec : forall ops buf src dst, NoDup (map fst ops) ->
  (forall x s, In (x, s) ops -> (exists a, vget buf s = Some a) /\ valid src x /\ valid dst x) ->
  exists src' dst', restore_loop get set ops buf src dst = Some (src', dst') /\ shape src' = shape src /\ shape dst' = shape dst
    /\ (forall x s, In (x, s) ops -> get src' x = vget buf s /\ get dst' x = vget buf s)
    /\ (forall x, ~ In x (map fst ops) -> get src' x = get src x /\ get dst' x = get dst x).
Proof.
  induction ops as [| [x s] ops IH]; intros buf src dst N1 H.
  - exists src, dst. cbn. repeat split; try reflexivity; contradiction.
  - cbn [map fst] in N1. inversion N1 as [| ? ? X1 X2]; subst.
    destruct (H x s (or_introl eq_refl)) as [[v Ev] [Vs Vd]].
    destruct (set_spec src x v Vs) as [s1 [E1 [S1 [G1 U1]]]].
    destruct (set_spec dst x v Vd) as [d1 [E2 [S2 [G2 U2]]]].
    destruct (IH buf s1 d1 X2) as [src' [dst' [E [Sa [Sb [R U]]]]]].
    { intros y t I. destruct (H y t (or_intror I)) as [Vb [[a Ea] [b Eb]]].
      assert (y <> x) by (intros ->; apply X1; apply (in_map fst) in I; exact I).
      split; [exact Vb |]. split; [exists a; rewrite U1 by assumption; exact Ea | exists b; rewrite U2 by assumption; exact Eb]. }
    exists src', dst'. cbn [restore_loop]. rewrite Ev. cbn [obind]. rewrite E1. cbn [obind]. rewrite G1. cbn [obind]. rewrite E2. cbn [obind].
    split; [exact E |]. split; [congruence |]. split; [congruence |]. split.
    + intros y t [I | I]; [| apply R; exact I]. injection I as <- <-. destruct (U x X1) as [-> ->]. rewrite G1, G2, Ev. split; reflexivity.
    + cbn [map fst In]. intros y I. destruct (U y) as [-> ->]; [tauto |]. split; [apply U1 | apply U2]; intros ->; tauto.
Qed.
End Loops.

(** ** numbered lists *)
Definition enum {B} (k : nat) (l : list B) : list (nat * B) := combine (seq k (length l)) l.
Lemma in_enum : forall B (l : list B) k i c, In (i, c) (enum k l) <-> k <= i /\ vget l (i - k) = Some c.
Proof.
  intros B. unfold enum. induction l as [| x l IH]; intros k i c; cbn [length seq combine In].
  - split; [contradiction |]. intros [_ H]. destruct (i - k); discriminate.
  - rewrite IH. split.
    + intros [E | [H1 H2]].
      * injection E as <- <-. split; [lia |]. replace (k - k) with 0 by lia. reflexivity.
      * split; [lia |]. replace (i - k) with (S (i - S k)) by lia. exact H2.
    + intros [H1 H2]. destruct (Nat.eq_dec i k) as [-> | Ne].
      * left. replace (k - k) with 0 in H2 by lia. cbn in H2. congruence.
      * right. split; [lia |]. replace (i - k) with (S (i - S k)) in H2 by lia. exact H2.
Qed.
Lemma map_snd_enum : forall B (l : list B) k, map snd (enum k l) = l.
Proof. intros B. unfold enum. induction l as [| x l IH]; intros k; cbn; [reflexivity |]. rewrite IH. reflexivity. Qed.
Lemma map_fst_enum : forall B (l : list B) k, map fst (enum k l) = seq k (length l).
Proof. intros B. unfold enum. induction l as [| x l IH]; intros k; cbn; [reflexivity |]. rewrite IH. reflexivity. Qed.

Lemma nodup_app : forall B (l k : list B), NoDup l -> NoDup k -> (forall x, In x l -> ~ In x k) -> NoDup (l ++ k).
Proof.
  intros B. induction l as [| x l IH]; intros k H1 H2 H; [exact H2 |]. cbn. inversion H1; subst. constructor.
  - rewrite in_app_iff. intros [C | C]; [contradiction |]. apply (H x (or_introl eq_refl) C).
  - apply IH; [assumption | assumption |]. intros y I. apply H. right. exact I.
Qed.
Lemma nodup_flat_map : forall B C (f : B -> list C) l, NoDup l -> (forall x, In x l -> NoDup (f x)) ->
  (forall x y z, In x l -> In y l -> In z (f x) -> In z (f y) -> x = y) -> NoDup (flat_map f l).
Proof.
  intros B C f. induction l as [| x l IH]; intros N H D; [constructor |]. cbn. inversion N; subst.
  apply nodup_app.
  - apply H. left. reflexivity.
  - apply IH; [assumption | intros; apply H; right; assumption |]. intros y z w I1 I2. apply D; right; assumption.
  - intros z I C2. apply in_flat_map in C2. destruct C2 as [y [I1 I2]].
    assert (x = y) by (apply (D x y z); [left; reflexivity | right; exact I1 | exact I | exact I2]). subst. contradiction.
Qed.
Lemma nodup_map : forall B C (f : B -> C) l, NoDup l -> (forall x y, In x l -> In y l -> f x = f y -> x = y) -> NoDup (map f l).
Proof.
  intros B C f. induction l as [| x l IH]; intros N H; [constructor |]. cbn. inversion N; subst. constructor.
  - rewrite in_map_iff. intros [y [E I]]. assert (y = x) by (apply H; [right; exact I | left; reflexivity | exact E]). subst. contradiction.
  - apply IH; [assumption |]. intros. apply H; [right | right |]; assumption.
Qed.
Lemma map_flat_map : forall B C D (g : C -> D) (f : B -> list C) l, map g (flat_map f l) = flat_map (fun x => map g (f x)) l.
Proof. intros. induction l as [| x l IH]; [reflexivity |]. cbn. rewrite map_app, IH. reflexivity. Qed.

Lemma slot_unique : forall n a b i j, i < n -> j < n -> i + a * n = j + b * n -> a = b /\ i = j.
Proof.
  intros n a b i j Hi Hj E. assert (a = b).
  { destruct (Nat.lt_trichotomy a b) as [L | [L | L]]; [| exact L |]; exfalso; nia. }
  subst. lia.
Qed.

(** ** block vectors *)
Section Blocks.
Context {A : Type}.
Definition shape (v : list (list A)) : list nat := map (@length A) v.
Lemma shape_get : forall (v : list (list A)) b, vget (shape v) b = match vget v b with Some blk => Some (length blk) | None => None end.
Proof. intros. unfold shape, vget. apply nth_error_map. Qed.
Lemma bvalid_shape : forall v b j, (exists a, bget v (b, j) = Some a) <-> exists n, vget (shape v) b = Some n /\ j < n.
Proof.
  intros. unfold bget. cbn [fst snd]. rewrite shape_get. destruct (vget v b) as [blk |]; cbn [obind].
  - rewrite <- vget_lt. split; [intros H; exists (length blk); split; [reflexivity | exact H] | intros [n [E H]]; injection E as <-; exact H].
  - split; [intros [a E]; discriminate | intros [n [E _]]; discriminate].
Qed.
Lemma bset_spec : forall (m : list (list A)) x v, (exists a, bget m x = Some a) ->
  exists m', bset m x v = Some m' /\ shape m' = shape m /\ bget m' x = Some v /\ forall y, y <> x -> bget m' y = bget m y.
Proof.
  intros m [b j] v [a E]. unfold bget in E. cbn [fst snd] in E. destruct (vget m b) as [blk |] eqn:Eb; [| discriminate]. cbn [obind] in E.
  assert (Lj : j < length blk) by (apply vget_lt; eauto). assert (Lb : b < length m) by (apply vget_lt; eauto).
  destruct (vset_some A blk j v Lj) as [blk' [E1 [L1 G1]]]. destruct (vset_some (list A) m b blk' Lb) as [m' [E2 [L2 G2]]].
  exists m'. unfold bset. cbn [fst snd]. rewrite Eb. cbn [obind]. rewrite E1. cbn [obind]. split; [exact E2 |]. split.
  - apply list_ext. intros i. rewrite !shape_get, G2. destruct (Nat.eqb_spec b i) as [-> | _]; [| reflexivity]. rewrite Eb, L1. reflexivity.
  - split.
    + unfold bget. cbn [fst snd]. rewrite G2, Nat.eqb_refl. cbn [obind]. rewrite G1, Nat.eqb_refl. reflexivity.
    + intros [b' j'] Ne. unfold bget. cbn [fst snd]. rewrite G2. destruct (Nat.eqb_spec b b') as [-> | _]; [| reflexivity].
      rewrite Eb. cbn [obind]. rewrite G1. destruct (Nat.eqb_spec j j') as [-> | _]; [congruence | reflexivity].
Qed.
Lemma vset_spec : forall (m : list A) x v, (exists a, vget m x = Some a) ->
  exists m', vset m x v = Some m' /\ length m' = length m /\ vget m' x = Some v /\ forall y, y <> x -> vget m' y = vget m y.
Proof.
  intros m x v H. apply vget_lt in H. destruct (vset_some A m x v H) as [m' [E [L G]]]. exists m'.
  split; [exact E |]. split; [exact L |]. split; [rewrite G, Nat.eqb_refl; reflexivity |].
  intros y Ne. rewrite G. destruct (Nat.eqb_spec x y); [congruence | reflexivity].
Qed.
Lemma block_ext : forall (v w : list (list A)), shape v = shape w -> (forall x, bget v x = bget w x) -> v = w.
Proof.
  intros v w S G. apply list_ext. intros b. assert (Sb : vget (shape v) b = vget (shape w) b) by congruence. rewrite !shape_get in Sb.
  assert (Gb : forall j, bget v (b, j) = bget w (b, j)) by (intros; apply G). unfold bget in Gb. cbn [fst snd] in Gb.
  destruct (vget v b) as [k |], (vget w b) as [l |]; try discriminate; [| reflexivity].
  f_equal. apply list_ext. exact Gb.
Qed.
End Blocks.

(** ** the list of the constrained entries *)
Lemma in_block_ops : forall n cs b j s, In ((b, j), s) (block_ops n cs) <-> b < n /\ exists i, vget cs i = Some j /\ s = i + b * length cs.
Proof.
  intros n cs b j s. unfold block_ops. rewrite in_flat_map. split.
  - intros [b' [Hb I]]. apply in_seq in Hb. apply in_map_iff in I. destruct I as [[i c] [E I]]. cbn [fst snd] in E. injection E as <- <- <-.
    apply (in_enum nat cs 0) in I. destruct I as [_ I]. rewrite Nat.sub_0_r in I. split; [lia |]. exists i. split; [exact I | reflexivity].
  - intros [Hb [i [I ->]]]. exists b. split; [apply in_seq; lia |]. apply in_map_iff. exists (i, j). split; [reflexivity |].
    apply (in_enum nat cs 0). split; [lia |]. rewrite Nat.sub_0_r. exact I.
Qed.
Lemma block_ops_nodup : forall n cs, NoDup cs -> NoDup (map fst (block_ops n cs)) /\ NoDup (map snd (block_ops n cs)).
Proof.
  intros n cs N. unfold block_ops. rewrite !map_flat_map. split.
  - apply nodup_flat_map; [apply seq_NoDup | |].
    + intros b _. rewrite map_map. cbn [fst]. rewrite <- (map_map snd (fun c => (b, c))). apply nodup_map.
      * fold (enum 0 cs). rewrite map_snd_enum. exact N.
      * intros x y _ _ E. congruence.
    + intros b b' z _ _ I1 I2. rewrite map_map in I1, I2. cbn [fst] in I1, I2. apply in_map_iff in I1. apply in_map_iff in I2.
      destruct I1 as [x [<- _]]. destruct I2 as [y [E _]]. congruence.
  - apply nodup_flat_map; [apply seq_NoDup | |].
    + intros b _. rewrite map_map. cbn [snd]. rewrite <- (map_map fst (fun i => i + b * length cs)). apply nodup_map.
      * fold (enum 0 cs). rewrite map_fst_enum. apply seq_NoDup.
      * intros x y _ _ E. lia.
    + intros b b' z _ _ I1 I2. rewrite map_map in I1, I2. cbn [snd] in I1, I2. apply in_map_iff in I1. apply in_map_iff in I2.
      destruct I1 as [[i c] [<- I1]]. destruct I2 as [[i' c'] [E I2]]. cbn [fst] in E.
      apply (in_enum nat cs 0) in I1. apply (in_enum nat cs 0) in I2.
      assert (i < length cs) by (apply vget_lt; exists c; destruct I1 as [_ I1]; rewrite Nat.sub_0_r in I1; exact I1).
      assert (i' < length cs) by (apply vget_lt; exists c'; destruct I2 as [_ I2]; rewrite Nat.sub_0_r in I2; exact I2).
      symmetry. apply (slot_unique (length cs) b' b i' i); assumption.
Qed.
Lemma in_block_addresses : forall n cs b j, In (b, j) (map fst (block_ops n cs)) <-> b < n /\ In j cs.
Proof.
  intros n cs b j. rewrite in_map_iff. split.
  - intros [[[b' j'] s] [E I]]. cbn [fst] in E. injection E as -> ->. apply in_block_ops in I. destruct I as [H [i [Ei _]]].
    split; [exact H |]. apply nth_error_In in Ei. exact Ei.
  - intros [H I]. apply In_nth_error in I. destruct I as [i Ei]. exists ((b, j), i + b * length cs). split; [reflexivity |].
    apply in_block_ops. split; [exact H |]. exists i. split; [exact Ei | reflexivity].
Qed.

Lemma resize_length : forall A (zero : A) n l, length (resize zero n l) = n.
Proof. intros. unfold resize. rewrite app_length, firstn_length, repeat_length. lia. Qed.

(** ** more loops *)
Lemma vset_same : forall A (l : list A) i x, vget l i = Some x -> vset l i x = Some l.
Proof.
  intros A. induction l as [| y l IH]; intros [| i] x H; cbn in *; try discriminate; [congruence |].
  unfold vget in *. rewrite (IH i x H). reflexivity.
Qed.
Lemma third_same : forall A ics (buf src dst : list A),
  (forall i c, In (i, c) ics -> exists v, vget buf i = Some v /\ vget src c = Some v /\ vget dst c = Some v) -> third_loop ics buf src dst = Some (src, dst).
Proof.
  intros A. induction ics as [| [i c] ics IH]; intros buf src dst H; [reflexivity |]. cbn [third_loop].
  destruct (H i c (or_introl eq_refl)) as [v [E1 [E2 E3]]]. rewrite E1. cbn [obind]. rewrite (vset_same _ _ _ _ E2), (vset_same _ _ _ _ E3). cbn [obind].
  apply IH. intros. apply H. right. assumption.
Qed.

Lemma dst_spec : forall A ops (buf : list A) dst, NoDup (map fst ops) ->
  (forall x s, In (x, s) ops -> (exists a, vget buf s = Some a) /\ exists a, bget dst x = Some a) ->
  exists dst', dst_loop ops buf dst = Some dst' /\ shape dst' = shape dst
    /\ (forall x s, In (x, s) ops -> bget dst' x = vget buf s) /\ (forall x, ~ In x (map fst ops) -> bget dst' x = bget dst x).
Proof.
  intros A. induction ops as [| [x s] ops IH]; intros buf dst N1 H.
  - exists dst. cbn. repeat split; try reflexivity; contradiction.
  - cbn [map fst] in N1. inversion N1 as [| ? ? X1 X2]; subst.
    destruct (H x s (or_introl eq_refl)) as [[v Ev] Vd]. destruct (bset_spec dst x v Vd) as [d1 [E2 [S2 [G2 U2]]]].
    destruct (IH buf d1 X2) as [dst' [E [Sb [R U]]]].
    { intros y t I. destruct (H y t (or_intror I)) as [Vb [b Eb]]. assert (y <> x) by (intros ->; apply X1; apply (in_map fst) in I; exact I).
      split; [exact Vb |]. exists b. rewrite U2 by assumption. exact Eb. }
    exists dst'. cbn [dst_loop]. rewrite Ev. cbn [obind]. rewrite E2. cbn [obind]. split; [exact E |]. split; [congruence |]. split.
    + intros y t [I | I]; [| apply R; exact I]. injection I as <- <-. rewrite (U x X1), G2, Ev. reflexivity.
    + cbn [map fst In]. intros y I. rewrite (U y) by tauto. apply U2. intros ->. tauto.
Qed.

Lemma assign_spec : forall A (dbc : list ((nat * nat) * A)) v, NoDup (map fst dbc) -> (forall x, In x (map fst dbc) -> exists a, bget v x = Some a) ->
  exists v', assign_loop dbc v = Some v' /\ shape v' = shape v /\ (forall x a, In (x, a) dbc -> bget v' x = Some a)
    /\ (forall x, ~ In x (map fst dbc) -> bget v' x = bget v x).
Proof.
  intros A. induction dbc as [| [x a] dbc IH]; intros v N1 H.
  - exists v. cbn. repeat split; try reflexivity; contradiction.
  - cbn [map fst] in N1, H. inversion N1 as [| ? ? X1 X2]; subst.
    destruct (bset_spec v x a (H x (or_introl eq_refl))) as [d1 [E2 [S2 [G2 U2]]]].
    destruct (IH d1 X2) as [v' [E [Sb [R U]]]].
    { intros y I. destruct (H y (or_intror I)) as [b Eb]. assert (y <> x) by (intros ->; contradiction). exists b. rewrite U2 by assumption. exact Eb. }
    exists v'. cbn [assign_loop]. rewrite E2. cbn [obind]. split; [exact E |]. split; [congruence |]. split.
    + intros y t [I | I]; [| apply R; exact I]. injection I as <- <-. rewrite (U x X1). exact G2.
    + cbn [map fst In]. intros y I. rewrite (U y) by tauto. apply U2. intros ->. tauto.
Qed.

(** ** the product with a block vector, entry by entry *)
Lemma rect_valid : forall A (v : list (list A)) n m b j, shape v = repeat m n -> ((exists a, bget v (b, j) = Some a) <-> b < n /\ j < m).
Proof.
  intros A v n m b j H. rewrite bvalid_shape, H. split.
  - intros [k [E L]]. assert (b < length (repeat m n)) by (apply vget_lt; eauto). rewrite repeat_length in *.
    apply nth_error_In in E. apply repeat_spec in E. subst. split; assumption.
  - intros [Hb Hj]. exists m. split; [| exact Hj]. unfold vget. rewrite (nth_error_nth' (repeat m n) 0) by (rewrite repeat_length; exact Hb). f_equal.
    apply (repeat_spec n m). apply nth_In. rewrite repeat_length. exact Hb.
Qed.
Lemma rect_none : forall A (v : list (list A)) n m b j, shape v = repeat m n -> ~ (b < n /\ j < m) -> bget v (b, j) = None.
Proof. intros A v n m b j H C. destruct (bget v (b, j)) as [a |] eqn:E; [| reflexivity]. exfalso. apply C. apply (rect_valid A v n m b j H). eauto. Qed.

Lemma in_dec_nat : forall (j : nat) l, In j l \/ ~ In j l.
Proof. intros. destruct (in_dec Nat.eq_dec j l); tauto. Qed.

Lemma vmult_block_spec : forall A (zero : A) n m dofs cs buf (F : list (list A) -> list (list A)) src,
  shape src = repeat m n -> NoDup dofs -> (forall j, In j dofs -> j < m) ->
  (forall v, shape v = repeat m n -> shape (F v) = repeat m n) ->
  (cs = [] \/ (cs = dofs /\ length buf = n * length dofs)) ->
  exists dst src0 buf', vmult_block zero n dofs cs buf F src = Some (dst, src, (dofs, buf'))
    /\ length buf' = n * length dofs /\ shape src0 = repeat m n /\ shape dst = repeat m n
    /\ (forall b j, In j dofs -> b < n -> bget src0 (b, j) = Some zero /\ bget dst (b, j) = bget src (b, j))
    /\ (forall b j, ~ In j dofs -> bget src0 (b, j) = bget src (b, j) /\ bget dst (b, j) = bget (F src0) (b, j)).
Proof.
  intros A zero n m dofs cs buf F src Hs Nd Hd HF Hc. unfold vmult_block.
  assert (Hcache : exists buf0, fill_cache zero n dofs cs buf = (dofs, buf0) /\ length buf0 = n * length dofs).
  { destruct Hc as [-> | [-> L]]; cbn [fill_cache].
    - eexists. split; [reflexivity | apply resize_length].
    - destruct dofs as [| d dofs]; cbn [fill_cache]; [eexists; split; [reflexivity | apply resize_length] |].
      exists buf. split; [reflexivity | exact L]. }
  destruct Hcache as [buf0 [-> L0]].
  destruct (block_ops_nodup n dofs Nd) as [N1 N2].
  destruct (save_spec zero bget bset shape bset_spec (block_ops n dofs) src buf0 N1 N2) as [src0 [buf' [E [S0 [L1 [Z [U [B _]]]]]]]].
  { intros [b j] s I. apply in_block_ops in I. destruct I as [Hb [i [Ei ->]]].
    assert (i < length dofs) by (apply vget_lt; eauto). apply nth_error_In in Ei. split; [| rewrite L0; nia].
    apply (rect_valid A src n m b j Hs). split; [exact Hb | apply Hd; exact Ei]. }
  rewrite E. cbn [obind].
  assert (Sr : shape src0 = repeat m n) by congruence.
  destruct (restore_spec bget bset shape bset_spec (block_ops n dofs) buf' src0 (F src0) N1) as [src' [dst [E2 [S1 [S2 [R V]]]]]].
  { intros [b j] s I. rewrite (B _ _ I). apply in_block_ops in I. destruct I as [Hb [i [Ei _]]]. apply nth_error_In in Ei.
    repeat split; [apply (rect_valid A src n m b j Hs) | apply (rect_valid A src0 n m b j Sr) | apply (rect_valid A (F src0) n m b j (HF _ Sr))]; split; auto. }
  rewrite E2. cbn [obind].
  assert (Key : src' = src).
  { apply block_ext; [congruence |]. intros [b j].
    destruct (in_dec_nat j dofs) as [I | I].
    - destruct (Nat.lt_ge_cases b n) as [Hb | Hb].
      + assert (Ia : In (b, j) (map fst (block_ops n dofs))) by (apply in_block_addresses; split; assumption).
        apply in_map_iff in Ia. destruct Ia as [[x s] [Ex Io]]. cbn [fst] in Ex. subst x.
        destruct (R _ _ Io) as [-> _]. apply (B _ _ Io).
      + rewrite (rect_none A src n m b j Hs) by lia. apply (rect_none A src' n m b j); [congruence | lia].
    - destruct (V (b, j)) as [-> _]; [rewrite in_block_addresses; tauto |]. apply U. rewrite in_block_addresses. tauto. }
  exists dst, src0, buf'. rewrite Key. split; [reflexivity |]. split; [congruence |]. split; [exact Sr |]. split; [rewrite S2; apply HF; exact Sr |]. split.
  - intros b j I Hb. split; [apply Z; apply in_block_addresses; split; assumption |].
    assert (Ia : In (b, j) (map fst (block_ops n dofs))) by (apply in_block_addresses; split; assumption).
    apply in_map_iff in Ia. destruct Ia as [[x s] [Ex Io]]. cbn [fst] in Ex. subst x. destruct (R _ _ Io) as [_ ->]. apply (B _ _ Io).
  - intros b j I. split; [apply U; rewrite in_block_addresses; tauto |]. destruct (V (b, j)) as [_ ->]; [rewrite in_block_addresses; tauto | reflexivity].
Qed.

(** ** the hooks of the coupled operator *)
Lemma in_zc_ops : forall off dim zc b j s, In ((b, j), s) (zc_ops off dim zc) <-> exists i d, vget zc i = Some j /\ d < dim /\ b = off + d /\ s = i * dim + d.
Proof.
  intros. unfold zc_ops. rewrite in_flat_map. split.
  - intros [[i c] [I J]]. apply (in_enum nat zc 0) in I. destruct I as [_ I]. rewrite Nat.sub_0_r in I.
    apply in_map_iff in J. destruct J as [d [E J]]. apply in_seq in J. cbn [fst snd] in E. injection E as <- <- <-. exists i, d. repeat split; [exact I | lia].
  - intros [i [d [E [Hd [-> ->]]]]]. exists (i, j). split; [apply (in_enum nat zc 0); rewrite Nat.sub_0_r; split; [lia | exact E] |].
    apply in_map_iff. exists d. split; [reflexivity | apply in_seq; lia].
Qed.
Lemma in_zc_addresses : forall off dim zc b j, In (b, j) (map fst (zc_ops off dim zc)) <-> off <= b < off + dim /\ In j zc.
Proof.
  intros. rewrite in_map_iff. split.
  - intros [[[b' j'] s] [E I]]. cbn [fst] in E. injection E as -> ->. apply in_zc_ops in I. destruct I as [i [d [Ei [Hd [-> _]]]]]. apply nth_error_In in Ei. split; [lia | exact Ei].
  - intros [H I]. apply In_nth_error in I. destruct I as [i Ei]. exists ((b, j), i * dim + (b - off)). split; [reflexivity |]. apply in_zc_ops. exists i, (b - off). repeat split; [exact Ei | lia | lia].
Qed.
Lemma zc_ops_nodup : forall off dim zc, NoDup zc -> NoDup (map fst (zc_ops off dim zc)) /\ NoDup (map snd (zc_ops off dim zc)).
Proof.
  intros off dim zc N. unfold zc_ops. rewrite !map_flat_map.
  assert (Ne : NoDup (enum 0 zc)) by (apply (NoDup_map_inv fst); rewrite map_fst_enum; apply seq_NoDup).
  split.
  - apply nodup_flat_map; [exact Ne | |].
    + intros [i c] _. rewrite map_map. cbn [fst snd]. apply nodup_map; [apply seq_NoDup |]. intros x y _ _ E. injection E. lia.
    + intros [i c] [i' c'] z I1 I2 J1 J2. rewrite map_map in J1, J2. cbn [fst snd] in J1, J2. apply in_map_iff in J1. apply in_map_iff in J2.
      destruct J1 as [d [<- _]]. destruct J2 as [d' [E _]]. injection E as _ ->. apply in_enum in I1. apply in_enum in I2. destruct I1 as [_ I1]. destruct I2 as [_ I2].
      rewrite Nat.sub_0_r in I1, I2. assert (i = i'); [| subst; reflexivity].
      apply (proj1 (NoDup_nth_error zc) N); [apply vget_lt; eauto | unfold vget in *; congruence].
  - apply nodup_flat_map; [exact Ne | |].
    + intros [i c] _. rewrite map_map. cbn [fst snd]. apply nodup_map; [apply seq_NoDup |]. intros x y _ _ E. lia.
    + intros [i c] [i' c'] z I1 I2 J1 J2. rewrite map_map in J1, J2. cbn [fst snd] in J1, J2. apply in_map_iff in J1. apply in_map_iff in J2.
      destruct J1 as [d [<- D1]]. destruct J2 as [d' [E D2]]. apply in_seq in D1. apply in_seq in D2.
      assert (i' = i) by (apply (slot_unique dim i' i d' d); lia). subst i'.
      apply in_enum in I1. apply in_enum in I2. destruct I1 as [_ I1]. destruct I2 as [_ I2]. congruence.
Qed.

Lemma in_displ : forall off displ b j, In (b, j) (displ_addresses off displ) <-> off <= b /\ exists l, vget displ (b - off) = Some l /\ In j l.
Proof.
  intros. unfold displ_addresses. rewrite in_flat_map. split.
  - intros [[d l] [I J]]. apply (in_enum _ displ 0) in I. destruct I as [_ I]. rewrite Nat.sub_0_r in I. apply in_map_iff in J. cbn [fst snd] in J.
    destruct J as [j' [E J]]. injection E as <- <-. split; [lia |]. exists l. replace (off + d - off) with d by lia. split; assumption.
  - intros [H [l [E I]]]. exists (b - off, l). split; [apply (in_enum _ displ 0); rewrite Nat.sub_0_r; split; [lia | exact E] |].
    apply in_map_iff. exists j. cbn [fst snd]. split; [f_equal; lia | exact I].
Qed.
Lemma displ_nodup : forall off displ, (forall l, In l displ -> NoDup l) -> NoDup (displ_addresses off displ).
Proof.
  intros off displ H. unfold displ_addresses. apply nodup_flat_map.
  - apply (NoDup_map_inv fst). fold (enum 0 displ). rewrite map_fst_enum. apply seq_NoDup.
  - intros [d l] I. cbn [fst snd]. apply (in_enum _ displ 0) in I. destruct I as [_ I]. apply nth_error_In in I. apply nodup_map; [apply H; exact I |]. intros x y _ _ E. congruence.
  - intros [d l] [d' l'] z I1 I2 J1 J2. cbn [fst snd] in J1, J2. apply in_map_iff in J1. apply in_map_iff in J2. destruct J1 as [x [<- _]]. destruct J2 as [y [E _]].
    injection E as E _. assert (d' = d) by lia. subst d'. apply (in_enum _ displ 0) in I1. apply (in_enum _ displ 0) in I2. destruct I1 as [_ I1]. destruct I2 as [_ I2]. congruence.
Qed.
Lemma map_fst_combine_seq : forall B (l : list B) k, map fst (combine l (seq k (length l))) = l.
Proof. intros B. induction l as [| x l IH]; intros k; cbn; [reflexivity |]. rewrite IH. reflexivity. Qed.
Lemma map_snd_combine_seq : forall B (l : list B) k, map snd (combine l (seq k (length l))) = seq k (length l).
Proof. intros B. induction l as [| x l IH]; intros k; cbn; [reflexivity |]. rewrite IH. reflexivity. Qed.

(** ** interleaved components *)
Lemma merge_inner_spec : forall A (src : list (list A)) n m j, shape src = repeat m n -> j < m ->
  forall k b i dst, b + k = n -> i + k <= length dst ->
  exists dst', merge_inner (seq b k) i j src dst = Some (i + k, dst') /\ length dst' = length dst
    /\ (forall t, t < k -> vget dst' (i + t) = bget src (b + t, j)) /\ (forall t, t < i \/ i + k <= t -> vget dst' t = vget dst t).
Proof.
  intros A src n m j Hs Hj. induction k as [| k IH]; intros b i dst Hb Hi.
  - exists dst. cbn [seq merge_inner]. split; [f_equal; f_equal; lia |]. split; [reflexivity |]. split; [intros t Ht; lia | reflexivity].
  - cbn [seq merge_inner].
    destruct (proj2 (rect_valid A src n m b j Hs)) as [v Ev]; [lia |]. rewrite Ev. cbn [obind].
    destruct (vset_some A dst i v) as [d1 [E1 [L1 G1]]]; [lia |]. rewrite E1. cbn [obind].
    destruct (IH (S b) (S i) d1) as [dst' [E2 [L2 [G2 U2]]]]; [lia | lia |].
    exists dst'. rewrite E2. split; [f_equal; f_equal; lia |]. split; [lia |]. split.
    + intros [| t] Ht.
      * rewrite !Nat.add_0_r. rewrite U2 by lia. rewrite G1, Nat.eqb_refl. symmetry. exact Ev.
      * replace (i + S t) with (S i + t) by lia. replace (b + S t) with (S b + t) by lia. apply G2. lia.
    + intros t Ht. rewrite U2 by lia. rewrite G1. destruct (Nat.eqb_spec i t); [lia | reflexivity].
Qed.
Lemma merge_loop_spec : forall A (src : list (list A)) n m, shape src = repeat m n -> 0 < n ->
  forall k j fuel dst, j + k = m -> k <= fuel -> length dst = m * n ->
  (forall b j', b < n -> j' < j -> vget dst (j' * n + b) = bget src (b, j')) ->
  exists dst', merge_loop fuel (j * n) j src dst = Some dst' /\ length dst' = m * n
    /\ forall b j', b < n -> j' < m -> vget dst' (j' * n + b) = bget src (b, j').
Proof.
  intros A src n m Hs Hn. assert (Ln : length src = n) by (assert (E := f_equal (@length nat) Hs); unfold shape in E; rewrite map_length, repeat_length in E; exact E).
  induction k as [| k IH]; intros j fuel dst Hj Hf Hl H.
  - exists dst. assert (E : j = m) by lia. subst j. split; [| split; [exact Hl | exact H]].
    destruct fuel as [| fuel]; cbn [merge_loop]; rewrite Hl; destruct (Nat.ltb_spec (m * n) (m * n)); try lia; reflexivity.
  - destruct fuel as [| fuel]; [lia |]. cbn [merge_loop]. destruct (Nat.ltb_spec (j * n) (length dst)) as [_ | C]; [| nia].
    rewrite Ln. destruct (merge_inner_spec A src n m j Hs ltac:(lia) n 0 (j * n) dst) as [d1 [E1 [L1 [G1 U1]]]]; [lia | nia |].
    rewrite E1. cbn [obind]. replace (j * n + n) with (S j * n) by lia. apply IH; [lia | lia | lia |].
    intros b j' Hb Hj'. destruct (Nat.eq_dec j' j) as [-> | Ne].
    + apply G1. exact Hb.
    + rewrite U1 by (left; nia). apply H; [exact Hb | lia].
Qed.

Lemma split_inner_spec : forall A (src : list A) n m j, j < m ->
  forall k b i dst, shape dst = repeat m n -> b + k = n -> i + k <= length src ->
  exists dst', split_inner (seq b k) i j src dst = Some (i + k, dst') /\ shape dst' = repeat m n
    /\ (forall t, t < k -> bget dst' (b + t, j) = vget src (i + t)) /\ (forall b' j', (j' <> j \/ b' < b) -> bget dst' (b', j') = bget dst (b', j')).
Proof.
  intros A src n m j Hj. induction k as [| k IH]; intros b i dst Hs Hb Hi.
  - exists dst. cbn [seq split_inner]. split; [f_equal; f_equal; lia |]. split; [exact Hs |]. split; [intros t Ht; lia | reflexivity].
  - cbn [seq split_inner].
    destruct (proj1 (vget_lt A src i)) as [v Ev]; [lia |]. rewrite Ev. cbn [obind].
    destruct (bset_spec dst (b, j) v) as [d1 [E1 [L1 [G1 U1]]]]; [apply (rect_valid A dst n m b j Hs); lia |]. rewrite E1. cbn [obind].
    destruct (IH (S b) (S i) d1) as [dst' [E2 [L2 [G2 U2]]]]; [congruence | lia | lia |].
    exists dst'. rewrite E2. split; [f_equal; f_equal; lia |]. split; [exact L2 |]. split.
    + intros [| t] Ht.
      * rewrite !Nat.add_0_r. rewrite U2 by lia. rewrite G1. symmetry. exact Ev.
      * replace (i + S t) with (S i + t) by lia. replace (b + S t) with (S b + t) by lia. apply G2. lia.
    + intros b' j' Ht. rewrite U2 by lia. apply U1. intros E. injection E as -> ->. lia.
Qed.
Lemma split_loop_spec : forall A (src : list A) n m, 0 < n -> length src = m * n ->
  forall k j fuel dst, shape dst = repeat m n -> j + k = m -> k <= fuel ->
  (forall b j', b < n -> j' < j -> bget dst (b, j') = vget src (j' * n + b)) ->
  exists dst', split_loop fuel (j * n) j src dst = Some dst' /\ shape dst' = repeat m n
    /\ forall b j', b < n -> j' < m -> bget dst' (b, j') = vget src (j' * n + b).
Proof.
  intros A src n m Hn Hl. induction k as [| k IH]; intros j fuel dst Hs Hj Hf H.
  - exists dst. assert (E : j = m) by lia. subst j. split; [| split; [exact Hs | exact H]].
    destruct fuel as [| fuel]; cbn [split_loop]; rewrite Hl; destruct (Nat.ltb_spec (m * n) (m * n)); try lia; reflexivity.
  - destruct fuel as [| fuel]; [lia |]. cbn [split_loop]. destruct (Nat.ltb_spec (j * n) (length src)) as [_ | C]; [| nia].
    assert (Ln : length dst = n) by (assert (E := f_equal (@length nat) Hs); unfold shape in E; rewrite map_length, repeat_length in E; exact E).
    rewrite Ln. destruct (split_inner_spec A src n m j ltac:(lia) n 0 (j * n) dst Hs) as [d1 [E1 [L1 [G1 U1]]]]; [lia | nia |].
    rewrite E1. cbn [obind]. replace (j * n + n) with (S j * n) by lia. apply IH; [exact L1 | lia | lia |].
    intros b j' Hb Hj'. destruct (Nat.eq_dec j' j) as [-> | Ne].
    + apply G1. exact Hb.
    + rewrite U1 by lia. apply H; [exact Hb | lia].
Qed.
