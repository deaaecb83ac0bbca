(** Lemmas for C103. *)
From Coq Require Import List QArith Qabs Arith Bool Lia Lqa.
From Verif Require Import Util BlockVectorModel BlockHeapModel.
Import ListNotations.
Local Open Scope nat_scope.

(** What a block vector is, seen from outside: its blocks and the long vector
    made of them; stated without the functions of the model. *)
Definition contents (h : heap) (ps : list nat) : list block := map (fun a => nth a h []) ps.
Definition flat (h : heap) (v : dvec) : list Q := concat (contents h (ptrs v)).
Definition valid (h : heap) (v : dvec) : Prop := forall a, In a (ptrs v) -> a < length h.
Definition shape (h : heap) (ps : list nat) : list nat := map (fun a => length (nth a h [])) ps.
Definition current (h : heap) (v : dvec) : Prop := sizes v = shape h (ptrs v).

Lemma vget_nth : forall (h : heap) a, a < length h -> vget h a = Some (nth a h []).
Proof. intros h a L. unfold vget. apply nth_error_nth'. exact L. Qed.

Lemma ne_nth : forall (h : heap) c y, nth_error h c = Some y -> nth c h [] = y.
Proof. intros h c y E. exact (nth_error_nth h c [] E). Qed.
Lemma ne_none : forall (h : heap) c, nth_error h c = None -> nth c h [] = [].
Proof. intros h c E. apply nth_overflow. apply nth_error_None. exact E. Qed.

Lemma vset_nth : forall (h : heap) a x h1, vset h a x = Some h1 ->
  length h1 = length h /\ (forall c, nth c h1 [] = if c =? a then x else nth c h []).
Proof.
  intros h a x h1 E. split; [exact (vset_length _ _ _ _ _ E)|].
  intro c. pose proof (vset_get _ _ _ _ _ c E) as G. unfold vget in G.
  destruct (nth_error h1 c) as [y|] eqn:E1.
  - apply ne_nth in E1. rewrite E1. destruct (c =? a).
    + congruence.
    + symmetry. apply ne_nth. symmetry. exact G.
  - apply ne_none in E1. rewrite E1. destruct (c =? a); [discriminate|].
    symmetry. apply ne_none. symmetry. exact G.
Qed.

Lemma block_sizes_ok : forall h ps, (forall a, In a ps -> a < length h) ->
  block_sizes h ps = Some (shape h ps).
Proof.
  intros h ps. induction ps as [|a r IH]; intro V; [reflexivity|].
  cbn [block_sizes]. rewrite (vget_nth h a) by (apply V; now left). cbn [obind].
  rewrite IH by (intros c I; apply V; now right). reflexivity.
Qed.

Lemma collect_ok : forall h ps, (forall a, In a ps -> a < length h) ->
  collect_sizes h ps = Some (mkV ps (shape h ps)).
Proof. intros h ps V. unfold collect_sizes. rewrite block_sizes_ok by exact V. reflexivity. Qed.

Lemma contents_ext : forall h k ps, (forall a, In a ps -> nth a k [] = nth a h []) ->
  contents k ps = contents h ps.
Proof. intros h k ps E. unfold contents. apply map_ext_in. exact E. Qed.

Lemma shape_ext : forall h k ps, (forall a, In a ps -> length (nth a k []) = length (nth a h [])) ->
  shape k ps = shape h ps.
Proof. intros h k ps E. unfold shape. apply map_ext_in. exact E. Qed.

Lemma shape_contents : forall h ps, shape h ps = map (@length Q) (contents h ps).
Proof. intros. unfold shape, contents. rewrite map_map. reflexivity. Qed.

Lemma flat_length : forall h ps, length (concat (contents h ps)) = fold_right Nat.add 0 (shape h ps).
Proof.
  intros h ps. induction ps as [|a r IH]; [reflexivity|].
  cbn [contents shape map concat fold_right]. rewrite app_length. f_equal. exact IH.
Qed.

(** ** Entry by entry *)
Definition map2 (g : Q -> Q -> Q) (x y : list Q) : list Q := map (fun p => g (fst p) (snd p)) (combine x y).

Lemma zip_ok : forall g x y, length x = length y -> zip g x y = Some (map2 g x y).
Proof.
  intros g x. induction x as [|a x IH]; intros [|b y] L; cbn in L; try discriminate; [reflexivity|].
  cbn [zip]. rewrite IH by lia. reflexivity.
Qed.

Lemma map2_length : forall g x y, length x = length y -> length (map2 g x y) = length x.
Proof. intros. unfold map2. rewrite map_length, combine_length. lia. Qed.

Lemma map2_app : forall g x y x' y', length x = length y ->
  map2 g (x ++ x') (y ++ y') = map2 g x y ++ map2 g x' y'.
Proof.
  intros g x. induction x as [|a x IH]; intros [|b y] x' y' L; cbn in L; try discriminate; [reflexivity|].
  unfold map2 in *. cbn [app combine map]. f_equal. apply IH. lia.
Qed.

Lemma upd1_ok : forall f ps h, (forall a, In a ps -> a < length h) -> NoDup ps ->
  exists k, upd1 f h ps = Some k /\ length k = length h /\
    contents k ps = map (map f) (contents h ps) /\
    (forall a, ~ In a ps -> nth a k [] = nth a h []).
Proof.
  intros f ps. induction ps as [|a r IH]; intros h V D.
  - exists h. repeat split.
  - cbn [upd1]. pose proof (V a (or_introl eq_refl)) as La. rewrite (vget_nth h a La). cbn [obind].
    destruct (vset_some _ h a (map f (nth a h [])) La) as [h1 E]. rewrite E. cbn [obind].
    destruct (vset_nth _ _ _ _ E) as [L1 N1]. inversion D as [|? ? Na Dr]; subst.
    destruct (IH h1) as [k [Ek [Lk [Ck Fk]]]]; [intros c I; rewrite L1; apply V; now right | exact Dr |].
    exists k. split; [exact Ek|]. split; [congruence|]. split.
    + cbn [contents map] in *. f_equal.
      * rewrite (Fk a Na), N1, Nat.eqb_refl. reflexivity.
      * unfold contents in Ck. rewrite Ck. f_equal. apply map_ext_in. intros c I.
        rewrite N1. destruct (c =? a) eqn:Ea; [|reflexivity].
        apply Nat.eqb_eq in Ea. subst. contradiction.
    + intros c I. rewrite Fk by (intro; apply I; now right). rewrite N1.
      destruct (c =? a) eqn:Ea; [|reflexivity]. apply Nat.eqb_eq in Ea. subst. exfalso. apply I. now left.
Qed.

(** No block of the first list occurs further back in the second: what is
    written by a loop over both is not read by it later. *)
Definition safe (ps qs : list nat) : Prop :=
  forall b c a, b < c -> nth_error ps b = Some a -> nth_error qs c <> Some a.

Lemma safe_tail : forall a b r s, safe (a :: r) (b :: s) -> safe r s /\ ~ In a s.
Proof.
  intros a b r s H. split.
  - intros i j c L E. apply (H (S i) (S j) c); [lia | exact E].
  - intro I. apply In_nth_error in I. destruct I as [j E].
    apply (H 0 (S j) a); [lia | reflexivity | exact E].
Qed.

Lemma upd2_ok : forall g ps qs h, (forall a, In a ps -> a < length h) -> (forall a, In a qs -> a < length h) ->
  NoDup ps -> safe ps qs -> shape h ps = shape h qs ->
  exists k, upd2 g h ps qs = Some k /\ length k = length h /\
    concat (contents k ps) = map2 g (concat (contents h ps)) (concat (contents h qs)) /\
    shape k ps = shape h ps /\
    (forall a, ~ In a ps -> nth a k [] = nth a h []).
Proof.
  intros g ps. induction ps as [|a r IH]; intros qs h V W D SF SH.
  - exists h. repeat split.
  - destruct qs as [|b s]; [discriminate|].
    cbn [upd2]. pose proof (V a (or_introl eq_refl)) as La. pose proof (W b (or_introl eq_refl)) as Lb.
    rewrite (vget_nth h a La), (vget_nth h b Lb). cbn [obind].
    unfold shape in SH. cbn [map] in SH. injection SH as SH1 SH2.
    rewrite zip_ok by exact SH1. cbn [obind].
    destruct (vset_some _ h a (map2 g (nth a h []) (nth b h [])) La) as [h1 E]. rewrite E. cbn [obind].
    destruct (vset_nth _ _ _ _ E) as [L1 N1]. inversion D as [|? ? Na Dr]; subst.
    destruct (safe_tail _ _ _ _ SF) as [SF' Ns].
    assert (Kr : forall c, In c r -> nth c h1 [] = nth c h []).
    { intros c I. rewrite N1. destruct (c =? a) eqn:Ea; [|reflexivity].
      apply Nat.eqb_eq in Ea. subst. contradiction. }
    assert (Ks : forall c, In c s -> nth c h1 [] = nth c h []).
    { intros c I. rewrite N1. destruct (c =? a) eqn:Ea; [|reflexivity].
      apply Nat.eqb_eq in Ea. subst. contradiction. }
    destruct (IH s h1) as [k [Ek [Lk [Ck [Sk Fk]]]]];
      [intros c I; rewrite L1; apply V; now right | intros c I; rewrite L1; apply W; now right
      | exact Dr | exact SF' | |].
    { rewrite (shape_ext h h1 r), (shape_ext h h1 s); [exact SH2 | |]; intros c I; f_equal; auto. }
    exists k. split; [exact Ek|]. split; [congruence|]. split; [|split].
    + cbn [contents map concat]. rewrite map2_app by exact SH1. f_equal.
      * rewrite (Fk a Na), N1, Nat.eqb_refl. reflexivity.
      * unfold contents in Ck. rewrite Ck. f_equal; f_equal; apply map_ext_in; auto.
    + unfold shape in *. cbn [map]. f_equal.
      * rewrite (Fk a Na), N1, Nat.eqb_refl. apply map2_length. exact SH1.
      * rewrite Sk. apply map_ext_in. intros c I. f_equal. auto.
    + intros c I. rewrite Fk by (intro; apply I; now right). rewrite N1.
      destruct (c =? a) eqn:Ea; [|reflexivity]. apply Nat.eqb_eq in Ea. subst. exfalso. apply I. now left.
Qed.

Lemma upd1_shape : forall f h k ps, contents k ps = map (map f) (contents h ps) -> shape k ps = shape h ps.
Proof.
  intros f h k ps E. rewrite !shape_contents, E, map_map. apply map_ext. intro. apply map_length.
Qed.

Lemma concat_map_map : forall (f : Q -> Q) ll, concat (map (map f) ll) = map f (concat ll).
Proof. intros f ll. symmetry. apply concat_map. Qed.

Lemma map2_zero_l : forall (g : Q -> Q -> Q) x, map2 g [] x = [].
Proof. reflexivity. Qed.

Lemma add2_ok : forall a b ps qs rs h,
  (forall c, In c ps -> c < length h) -> (forall c, In c qs -> c < length h) -> (forall c, In c rs -> c < length h) ->
  NoDup ps -> safe ps qs -> safe ps rs -> shape h ps = shape h qs -> shape h ps = shape h rs ->
  exists k, add2_blocks a b h ps qs rs = Some k /\ length k = length h /\
    concat (contents k ps) = map2 (fun s t => (s + t)%Q) (concat (contents h ps))
       (map2 (fun s t => (a * s + b * t)%Q) (concat (contents h qs)) (concat (contents h rs))) /\
    shape k ps = shape h ps /\
    (forall c, ~ In c ps -> nth c k [] = nth c h []).
Proof.
  intros a b ps. induction ps as [|p pr IH]; intros qs rs h V W U D SFq SFr SHq SHr.
  - exists h. repeat split.
  - destruct qs as [|q qr]; [discriminate|]. destruct rs as [|r rr]; [discriminate|].
    cbn [add2_blocks]. pose proof (V p (or_introl eq_refl)) as Lp. pose proof (W q (or_introl eq_refl)) as Lq.
    pose proof (U r (or_introl eq_refl)) as Lr.
    rewrite (vget_nth h p Lp), (vget_nth h q Lq), (vget_nth h r Lr). cbn [obind].
    unfold shape in SHq, SHr. cbn [map] in SHq, SHr. injection SHq as SQ1 SQ2. injection SHr as SR1 SR2.
    rewrite zip_ok by congruence. cbn [obind].
    assert (LL : length (nth p h []) = length (map2 (fun s t => (a * s + b * t)%Q) (nth q h []) (nth r h []))).
    { rewrite map2_length; congruence. }
    rewrite zip_ok by exact LL. cbn [obind].
    match goal with |- context[vset h p ?z] => destruct (vset_some _ h p z Lp) as [h1 E]; rewrite E end.
    cbn [obind].
    destruct (vset_nth _ _ _ _ E) as [L1 N1]. inversion D as [|? ? Np Dr]; subst.
    destruct (safe_tail _ _ _ _ SFq) as [SFq' Nq]. destruct (safe_tail _ _ _ _ SFr) as [SFr' Nr].
    assert (K : forall l, ~ In p l -> forall c, In c l -> nth c h1 [] = nth c h []).
    { intros l NI c I. rewrite N1. destruct (c =? p) eqn:Ea; [|reflexivity].
      apply Nat.eqb_eq in Ea. subst. contradiction. }
    assert (KS : forall l, ~ In p l -> shape h1 l = shape h l).
    { intros l NI. apply shape_ext. intros c I. f_equal. apply (K l NI c I). }
    destruct (IH qr rr h1) as [k [Ek [Lk [Ck [Sk Fk]]]]];
      [intros c I; rewrite L1; apply V; now right | intros c I; rewrite L1; apply W; now right
      | intros c I; rewrite L1; apply U; now right
      | exact Dr | exact SFq' | exact SFr' | rewrite !KS by assumption; exact SQ2 | rewrite !KS by assumption; exact SR2 |].
    exists k. split; [exact Ek|]. split; [congruence|]. split; [|split].
    + cbn [contents map concat]. rewrite (map2_app _ (nth q h []) (nth r h [])) by congruence.
      rewrite map2_app by exact LL. f_equal.
      * rewrite (Fk p Np), N1, Nat.eqb_refl. reflexivity.
      * unfold contents in Ck. rewrite Ck. f_equal; [|f_equal]; f_equal; apply map_ext_in; apply K; assumption.
    + unfold shape in *. cbn [map]. f_equal.
      * rewrite (Fk p Np), N1, Nat.eqb_refl. apply map2_length. exact LL.
      * rewrite Sk. apply map_ext_in. intros c I. f_equal. apply (K pr Np c I).
    + intros c I. rewrite Fk by (intro; apply I; now right). rewrite N1.
      destruct (c =? p) eqn:Ea; [|reflexivity]. apply Nat.eqb_eq in Ea. subst. exfalso. apply I. now left.
Qed.

(** ** Sums *)
Lemma block_sum_app : forall x y, (block_sum (x ++ y) == block_sum x + block_sum y)%Q.
Proof.
  intros x y. unfold block_sum. induction x as [|a x IH]; cbn [app fold_right]; [lra|]. rewrite IH. lra.
Qed.

Lemma fold_sum_ok : forall (f : block -> Q) (F : list Q -> Q) h ps acc,
  (F [] == 0)%Q -> (forall x y, F (x ++ y) == f x + F y)%Q ->
  (forall a, In a ps -> a < length h) ->
  exists n, fold_blocks Qplus (fun x => Some (f x)) h ps acc = Some n /\
            (n == acc + F (concat (contents h ps)))%Q.
Proof.
  intros f F h ps. induction ps as [|a r IH]; intros acc F0 FA V.
  - exists acc. split; [reflexivity|]. cbn [contents map concat]. rewrite F0. lra.
  - cbn [fold_blocks]. rewrite (vget_nth h a) by (apply V; now left). cbn [obind].
    destruct (IH (acc + f (nth a h []))%Q F0 FA) as [n [E Q1]]; [intros c I; apply V; now right|].
    exists n. split; [exact E|]. rewrite Q1. cbn [contents map concat]. rewrite FA.
    unfold contents. lra.
Qed.

Lemma dot_ok : forall ps qs h acc,
  (forall a, In a ps -> a < length h) -> (forall a, In a qs -> a < length h) ->
  shape h ps = shape h qs ->
  exists n, dot_blocks h ps qs acc = Some n /\
    (n == acc + block_sum (map2 Qmult (concat (contents h ps)) (concat (contents h qs))))%Q.
Proof.
  intros ps. induction ps as [|a r IH]; intros qs h acc V W SH.
  - exists acc. split; [reflexivity|]. unfold map2, block_sum. cbn [contents map concat combine fold_right]. lra.
  - destruct qs as [|b s]; [discriminate|]. unfold shape in SH. cbn [map] in SH. injection SH as SH1 SH2.
    cbn [dot_blocks]. rewrite (vget_nth h a) by (apply V; now left). rewrite (vget_nth h b) by (apply W; now left).
    cbn [obind]. unfold block_dot. rewrite zip_ok by exact SH1. cbn [obind].
    destruct (IH s h (acc + block_sum (map2 Qmult (nth a h []) (nth b h [])))%Q) as [n [E Q1]];
      [intros c I; apply V; now right | intros c I; apply W; now right | exact SH2 |].
    exists n. split; [exact E|]. rewrite Q1. cbn [contents map concat].
    rewrite map2_app by exact SH1. rewrite block_sum_app. unfold contents. lra.
Qed.

Lemma qmax_l : forall a b, (a <= qmax a b)%Q.
Proof.
  intros a b. unfold qmax. destruct (qltb a b) eqn:E; [|lra]. apply qltb_true in E. lra.
Qed.
Lemma qmax_r : forall a b, (b <= qmax a b)%Q.
Proof.
  intros a b. unfold qmax. destruct (qltb a b) eqn:E; [lra|]. apply qltb_false in E. exact E.
Qed.
Lemma qmax_or : forall a b, qmax a b = a \/ qmax a b = b.
Proof. intros a b. unfold qmax. destruct (qltb a b); auto. Qed.

Lemma block_linf_ok : forall x, (0 <= block_linf x)%Q /\
  (forall a, In a x -> Qabs a <= block_linf x)%Q /\
  (block_linf x = 0%Q \/ exists a, In a x /\ block_linf x = Qabs a).
Proof.
  intro x. induction x as [|a x [H1 [H2 H3]]].
  - cbn. split; [lra|]. split; [intros a []|]. now left.
  - unfold block_linf in *. cbn [fold_right].
    set (m := fold_right _ _ _) in *. pose proof (qmax_l m (Qabs a)). pose proof (qmax_r m (Qabs a)).
    split; [lra|]. split.
    + intros c [<- | I]; [lra|]. specialize (H2 c I). lra.
    + destruct (qmax_or m (Qabs a)) as [-> | ->].
      * destruct H3 as [H3 | [c [I H3]]]; [now left|]. right. exists c. split; [now right | exact H3].
      * right. exists a. split; [now left | reflexivity].
Qed.

Lemma linf_ok : forall h ps acc, (0 <= acc)%Q -> (forall a, In a ps -> a < length h) ->
  exists n, fold_blocks qmax (fun x => Some (block_linf x)) h ps acc = Some n /\
    (acc <= n)%Q /\ (forall x, In x (concat (contents h ps)) -> Qabs x <= n)%Q /\
    (n = acc \/ n = 0%Q \/ exists x, In x (concat (contents h ps)) /\ n = Qabs x).
Proof.
  intros h ps. induction ps as [|a r IH]; intros acc P V.
  - exists acc. split; [reflexivity|]. split; [lra|]. split; [intros x []|]. now left.
  - cbn [fold_blocks]. rewrite (vget_nth h a) by (apply V; now left). cbn [obind].
    destruct (block_linf_ok (nth a h [])) as [B1 [B2 B3]].
    pose proof (qmax_l acc (block_linf (nth a h []))). pose proof (qmax_r acc (block_linf (nth a h []))).
    destruct (IH (qmax acc (block_linf (nth a h [])))) as [n [E [N1 [N2 N3]]]]; [lra | intros c I; apply V; now right|].
    exists n. split; [exact E|]. split; [lra|]. split.
    + intros x I. cbn [contents map concat] in I. apply in_app_iff in I. destruct I as [I | I].
      * specialize (B2 x I). lra.
      * apply N2. exact I.
    + destruct N3 as [N3 | [N3 | [x [I N3]]]].
      * destruct (qmax_or acc (block_linf (nth a h []))) as [M | M]; rewrite M in N3; [now left|].
        destruct B3 as [B3 | [x [I B3]]]; [right; left; congruence|].
        right. right. exists x. split; [cbn [contents map concat]; apply in_app_iff; now left | congruence].
      * right. now left.
      * right. right. exists x. split; [cbn [contents map concat]; apply in_app_iff; now right | exact N3].
Qed.
