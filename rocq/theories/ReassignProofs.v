(** Proofs for the assignment of order parameters. *)
From Coq Require Import List QArith Arith Bool Lia Lqa Sorted Permutation.
From Verif Require Import Util MapModel TransferModel TransferSpec TransferProofs ReassignModel ReassignSpec.
Import ListNotations.
Local Open Scope nat_scope.

(** ** Sets *)
Notation ssorted := (StronglySorted lt).

Lemma sinsert_in : forall x s y, In y (sinsert x s) <-> y = x \/ In y s.
Proof.
  intros x. induction s as [|a s IH]; intro y; cbn [sinsert In]; [intuition|].
  destruct (x <? a); cbn [In]; [intuition|]. destruct (Nat.eqb_spec x a) as [->|]; cbn [In]; [intuition|]. rewrite IH. intuition.
Qed.

Lemma sinsert_sorted : forall x s, ssorted s -> ssorted (sinsert x s).
Proof.
  intros x. induction s as [|a s IH]; intro H; cbn [sinsert]; [repeat constructor|].
  inversion H as [|? ? H1 H2]; subst. destruct (Nat.ltb_spec x a).
  - constructor; [exact H|]. constructor; [assumption|]. rewrite Forall_forall in *. intros y Hy. specialize (H2 y Hy). lia.
  - destruct (Nat.eqb_spec x a); [exact H|]. constructor; [apply IH, H1|]. rewrite Forall_forall in *. intros y Hy.
    apply sinsert_in in Hy. destruct Hy as [->|Hy]; [lia|apply H2, Hy].
Qed.

Lemma ssorted_ext : forall l l', ssorted l -> ssorted l' -> (forall x, In x l <-> In x l') -> l = l'.
Proof.
  induction l as [|a l IH]; intros [|b l'] H H' E.
  - reflexivity.
  - exfalso. apply (proj2 (E b)). left. reflexivity.
  - exfalso. apply (proj1 (E a)). left. reflexivity.
  - inversion H as [|? ? H1 H2]; inversion H' as [|? ? H1' H2']; subst. rewrite Forall_forall in *.
    assert (a = b).
    { destruct (proj1 (E a) (or_introl eq_refl)) as [X|X]; [congruence|]. destruct (proj2 (E b) (or_introl eq_refl)) as [Y|Y]; [congruence|].
      specialize (H2' a X). specialize (H2 b Y). lia. }
    subst b. f_equal. apply IH; [assumption|assumption|]. intro x. split; intro Hx.
    + destruct (proj1 (E x) (or_intror Hx)) as [<-|X]; [|exact X]. specialize (H2 _ Hx). lia.
    + destruct (proj2 (E x) (or_intror Hx)) as [<-|X]; [|exact X]. specialize (H2' _ Hx). lia.
Qed.

Lemma seq_ssorted : forall n b, ssorted (seq b n).
Proof.
  induction n as [|n IH]; intro b; cbn [seq]; constructor; [apply IH|]. rewrite Forall_forall. intros x Hx. apply in_seq in Hx. lia.
Qed.

Lemma ssorted_ge : forall l b, ssorted l -> (forall x, In x l -> b <= x) -> forall k x, vget l k = Some x -> b + k <= x.
Proof.
  induction l as [|a l IH]; intros b H Hb [|k] x Hx; try discriminate.
  - cbn in Hx. injection Hx as <-. specialize (Hb a (or_introl eq_refl)). lia.
  - inversion H as [|? ? H1 H2]; subst. rewrite Forall_forall in H2. cbn in Hx.
    assert (G : S b + k <= x); [|lia]. apply (IH (S b) H1); [|exact Hx]. intros y Hy. specialize (H2 y Hy). specialize (Hb a (or_introl eq_refl)). lia.
Qed.

Lemma ssorted_seq : forall l b, ssorted l -> (forall x, In x l -> b <= x < b + length l) -> l = seq b (length l).
Proof.
  induction l as [|a l IH]; intros b H Hb; [reflexivity|]. inversion H as [|? ? H1 H2]; subst. rewrite Forall_forall in H2.
  cbn [length seq]. assert (L : l = seq (S b) (length l)).
  { apply IH; [exact H1|]. intros x Hx. specialize (H2 x Hx). pose proof (Hb a (or_introl eq_refl)). pose proof (Hb x (or_intror Hx)). cbn [length] in *. lia. }
  f_equal; [|exact L]. pose proof (Hb a (or_introl eq_refl)) as Ha. destruct l as [|c l]; [cbn [length] in Ha; lia|].
  cbn [length seq] in L. injection L as L _. subst c. specialize (H2 (S b) (or_introl eq_refl)). lia.
Qed.

Lemma ssorted_inj : forall l i j x, ssorted l -> vget l i = Some x -> vget l j = Some x -> i = j.
Proof.
  intros l i j x H Hi Hj. assert (ND : NoDup l).
  { clear Hi Hj. induction H as [|a l H IH F]; constructor; [|exact IH]. rewrite Forall_forall in F. intro C. specialize (F a C). lia. }
  apply (proj1 (NoDup_nth_error l) ND); [apply (vget_lt _ _ _ _ Hi)|]. unfold vget in *. congruence.
Qed.

Lemma last_max : forall l x r, ssorted l -> rev l = x :: r -> In x l /\ forall y, In y l -> y <= x.
Proof.
  intros l x r H E. assert (L : l = rev r ++ [x]) by (rewrite <- (rev_involutive l), E; reflexivity). subst l. split.
  - apply in_or_app. right. left. reflexivity.
  - intros y Hy. apply in_app_or in Hy. destruct Hy as [Hy|[<-|[]]]; [|lia]. revert H Hy. generalize (rev r). clear E r.
    induction l as [|a l IH]; intros H Hy; [destruct Hy|]. cbn [app] in H. inversion H as [|? ? H1 H2]; subst. rewrite Forall_forall in H2.
    destruct Hy as [<-|Hy]; [|apply IH; assumption]. specialize (H2 x). assert (a < x); [|lia]. apply H2. apply in_or_app. right. left. reflexivity.
Qed.

Lemma active_ops_spec : forall grains, ssorted (active_ops grains) /\
  forall x, In x (active_ops grains) <-> exists i p, vget grains i = Some p /\ r_op (snd p) = x.
Proof.
  intro grains. unfold active_ops.
  assert (G : forall l s, ssorted s -> ssorted (fold_left (fun s p => sinsert (r_op (snd p)) s) l s) /\
    forall x, In x (fold_left (fun (s : list nat) (p : nat * rgrain) => sinsert (r_op (snd p)) s) l s) <-> In x s \/ exists p, In p l /\ r_op (snd p) = x).
  { induction l as [|p l IH]; intros s Hs; cbn [fold_left].
    - split; [exact Hs|]. intro x. split; [auto|]. intros [H|(p & [] & _)]. exact H.
    - destruct (IH _ (sinsert_sorted (r_op (snd p)) s Hs)) as [I1 I2]. split; [exact I1|]. intro x. rewrite I2, sinsert_in. split.
      + intros [[->|H]|(q & H1 & H2)]; [right; exists p; split; [left|]; reflexivity|auto|right; exists q; split; [right; exact H1|exact H2]].
      + intros [H|(q & [<-|H1] & H2)]; [auto|auto|right; exists q; auto]. }
  destruct (G grains [] ltac:(constructor)) as [G1 G2]. split; [exact G1|]. intro x. rewrite G2. split.
  - intros [[]|(p & H1 & H2)]. apply In_nth_error in H1. destruct H1 as [i Hi]. exists i, p. auto.
  - intros (i & p & H1 & H2). right. exists p. split; [eapply nth_error_In; exact H1|exact H2].
Qed.

(** ** Distances *)
Lemma min_pairs_spec : forall d a b,
  (forall s t, In s a -> In t b -> ole (min_pairs d a b) (Some (d s t))) /\
  forall x, min_pairs d a b = Some x -> exists s t, In s a /\ In t b /\ x = d s t.
Proof.
  intros d a b. unfold min_pairs.
  assert (IN : forall s ts m, let r := fold_left (fun m t => omin (d s t) m) ts m in
    ole r m /\ (forall t, In t ts -> ole r (Some (d s t))) /\ (r = m \/ exists t, In t ts /\ r = Some (d s t))).
  { intro s. induction ts as [|t ts IH]; intros m r; simpl in r.
    - subst r. split; [apply ole_refl|]. split; [intros t []|auto].
    - subst r. destruct (omin_spec (d s t) m) as (O1 & O2 & O3). destruct (IH (omin (d s t) m)) as (I1 & I2 & I3).
      split; [eapply ole_trans; eassumption|]. split.
      + intros t' [<-|H]; [eapply ole_trans; eassumption|apply I2, H].
      + destruct I3 as [I3|(t' & H & I3)]; [|right; exists t'; split; [right; exact H|exact I3]].
        destruct O3 as [O3|O3]; [left|right; exists t; split; [left; reflexivity|]]; congruence. }
  assert (OUT : forall ss m, let r := fold_left (fun m s => fold_left (fun m t => omin (d s t) m) b m) ss m in
    ole r m /\ (forall s t, In s ss -> In t b -> ole r (Some (d s t))) /\ (r = m \/ exists s t, In s ss /\ In t b /\ r = Some (d s t))).
  { induction ss as [|s ss IH]; intros m r; simpl in r.
    - subst r. split; [apply ole_refl|]. split; [intros s t []|auto].
    - subst r. destruct (IN s b m) as (D1 & D2 & D3). destruct (IH (fold_left (fun m t => omin (d s t) m) b m)) as (I1 & I2 & I3).
      split; [eapply ole_trans; eassumption|]. split.
      + intros s' t [<-|H] Ht; [eapply ole_trans; [exact I1|apply D2, Ht]|apply I2; assumption].
      + destruct I3 as [I3|(s' & t' & H1 & H2 & I3)]; [|right; exists s', t'; split; [right; exact H1|auto]].
        destruct D3 as [D3|(t & Ht & D3)]; [left; congruence|right; exists s, t; split; [left; reflexivity|split; [exact Ht|congruence]]]. }
  destruct (OUT a None) as (_ & O2 & O3). split; [exact O2|]. intros x E. destruct O3 as [O3|(s & t & H1 & H2 & O3)].
  - rewrite O3 in E. discriminate.
  - exists s, t. split; [exact H1|]. split; [exact H2|]. rewrite O3 in E. congruence.
Qed.

Lemma overlaps_iff : forall gap dist trivial ratio fixed a b,
  overlaps gap dist trivial ratio fixed a b = true <-> too_close gap dist trivial ratio fixed a b.
Proof.
  intros gap dist trivial ratio fixed a b. unfold overlaps, too_close.
  set (buffer := (ratio * r_radius a + ratio * r_radius b + fixed)%Q).
  destruct (min_pairs_spec gap (r_segments a) (r_segments b)) as [G1 G2]. destruct (min_pairs_spec dist (r_segments a) (r_segments b)) as [D1 D2].
  destruct (oltb (Some buffer) (min_pairs gap (r_segments a) (r_segments b))) eqn:E1.
  - split; [discriminate|]. intros [(s & t & Hs & Ht & H) _]. exfalso. specialize (G1 s t Hs Ht).
    destruct (min_pairs gap (r_segments a) (r_segments b)) as [m|]; [|destruct G1]. cbn in E1, G1. apply qltb_true in E1. lra.
  - assert (NEAR : exists s t, In s (r_segments a) /\ In t (r_segments b) /\ (gap s t <= buffer)%Q).
    { destruct (min_pairs gap (r_segments a) (r_segments b)) as [m|]; [|discriminate]. cbn in E1. apply qltb_false in E1.
      destruct (G2 m eq_refl) as (s & t & Hs & Ht & ->). exists s, t. auto. }
    assert (TR : existsb (fun s => negb (trivial s)) (r_segments a) || existsb (fun s => negb (trivial s)) (r_segments b) = false <->
      forall s, In s (r_segments a) \/ In s (r_segments b) -> trivial s = true).
    { rewrite orb_false_iff. split.
      - intros [H1 H2] s [Hs|Hs]; destruct (trivial s) eqn:Et; try reflexivity; exfalso.
        + assert (X : existsb (fun s => negb (trivial s)) (r_segments a) = true) by (apply existsb_exists; exists s; rewrite Et; auto). congruence.
        + assert (X : existsb (fun s => negb (trivial s)) (r_segments b) = true) by (apply existsb_exists; exists s; rewrite Et; auto). congruence.
      - intro H. split.
        + destruct (existsb (fun s => negb (trivial s)) (r_segments a)) eqn:X; [|reflexivity]. apply existsb_exists in X. destruct X as (s & Hs & X). rewrite (H s (or_introl Hs)) in X. discriminate.
        + destruct (existsb (fun s => negb (trivial s)) (r_segments b)) eqn:X; [|reflexivity]. apply existsb_exists in X. destruct X as (s & Hs & X). rewrite (H s (or_intror Hs)) in X. discriminate. }
    destruct (existsb (fun s => negb (trivial s)) (r_segments a) || existsb (fun s => negb (trivial s)) (r_segments b)) eqn:E2.
    + assert (NT : ~ forall s, In s (r_segments a) \/ In s (r_segments b) -> trivial s = true) by (intro C; apply TR in C; discriminate).
      split.
      * intro H. split; [exact NEAR|]. right. destruct (min_pairs dist (r_segments a) (r_segments b)) as [m|]; [|discriminate]. cbn in H. apply qltb_true in H.
        destruct (D2 m eq_refl) as (s & t & Hs & Ht & ->). exists s, t. auto.
      * intros [_ [C|(s & t & Hs & Ht & H)]]; [contradiction|]. specialize (D1 s t Hs Ht).
        destruct (min_pairs dist (r_segments a) (r_segments b)) as [m|]; [|destruct D1]. cbn in D1 |- *. apply qltb_true. lra.
    + split; [|reflexivity]. intros _. split; [exact NEAR|]. left. apply TR. reflexivity.
Qed.

(** ** Collision graph *)
Lemma numbering_spec : forall grains b i k id g, NoDup (map fst grains) -> vget grains k = Some (id, g) -> b = i -> mget id (numbering i grains) = Some (b + k).
Proof.
  induction grains as [|[a ga] grains IH]; intros b i [|k] id g ND H ->; try discriminate; cbn [numbering mget].
  - cbn in H. injection H as -> ->. rewrite Nat.eqb_refl. f_equal. lia.
  - cbn in H. cbn [map fst] in ND. inversion ND as [|? ? N1 N2]; subst. destruct (Nat.eqb_spec a id) as [->|].
    + exfalso. apply N1. apply in_map_iff. exists (id, g). split; [reflexivity|eapply nth_error_In; exact H].
    + rewrite (IH (S i) (S i) k id g N2 H eq_refl). f_equal. lia.
Qed.

Lemma skipn_cons : forall A n (l : list A) x, vget l n = Some x -> skipn n l = x :: skipn (S n) l.
Proof.
  intros A. induction n as [|n IH]; intros [|y l] x H; try discriminate.
  - cbn in H. injection H as ->. reflexivity.
  - cbn [skipn]. rewrite (IH l x H). reflexivity.
Qed.

Section Graph.
Variables (gap dist : segment -> segment -> Q) (trivial : segment -> bool) (ratio fixed : Q) (grains : fmap rgrain).
Hypothesis MS : msorted grains.

Definition clash (i j : nat) : Prop := exists a ga b gb, vget grains i = Some (a, ga) /\ vget grains j = Some (b, gb) /\ a < b /\ overlaps gap dist trivial ratio fixed ga gb = true.
Definition clash_op (i j : nat) : Prop := exists a ga b gb, vget grains i = Some (a, ga) /\ vget grains j = Some (b, gb) /\ a < b /\ overlaps gap dist trivial ratio fixed ga gb = true /\ r_op gb = r_op ga.

Lemma position : forall k id g, vget grains k = Some (id, g) -> mget id (numbering 0 grains) = Some k.
Proof. intros k id g H. apply (numbering_spec grains 0 0 k id g (msorted_nodup _ _ MS) H eq_refl). Qed.

Lemma position_unique : forall k k' id g g', vget grains k = Some (id, g) -> vget grains k' = Some (id, g') -> k = k' /\ g = g'.
Proof.
  intros k k' id g g' H H'. pose proof (position _ _ _ H). pose proof (position _ _ _ H'). assert (k = k') by congruence. subst k'. split; [reflexivity|congruence].
Qed.

(** one base grain at position [i], others from position [n] on *)
Lemma other_loop_spec : forall m n i b gb g, length grains = n + m -> vget grains i = Some (b, gb) -> ssorted (snd g) ->
  exists g', other_loop gap dist trivial ratio fixed (numbering 0 grains) b gb (skipn n grains) g = Some g' /\ ssorted (snd g') /\
    (forall x y, In (x, y) (fst g') <-> In (x, y) (fst g) \/ (x = i /\ n <= y /\ clash i y) \/ (y = i /\ n <= x /\ clash i x)) /\
    (forall y, In y (snd g') <-> In y (snd g) \/ (n <= y /\ clash_op i y)).
Proof.
  induction m as [|m IH]; intros n i b gb g L Hi HS.
  - rewrite skipn_all2 by lia. cbn [other_loop]. exists g. split; [reflexivity|]. split; [exact HS|].
    assert (NC : forall y, n <= y -> ~ clash i y).
    { intros y Hy (a & ga & c & gc & _ & H & _). apply vget_lt in H. lia. }
    assert (NC' : forall y, n <= y -> ~ clash_op i y).
    { intros y Hy (a & ga & c & gc & _ & H & _). apply vget_lt in H. lia. }
    split.
    + intros x y. split; [auto|]. intros [H|[(_ & H1 & H2)|(_ & H1 & H2)]]; [exact H| |]; exfalso; eapply NC; eassumption.
    + intro y. split; [auto|]. intros [H|[H1 H2]]; [exact H|]. exfalso. eapply NC'; eassumption.
  - destruct (vget_some _ grains n ltac:(lia)) as [[o go] En].
    pose proof (skipn_cons _ _ _ _ En) as SK.
    rewrite SK. cbn [other_loop].
    assert (CL : clash i n <-> (b <? o) && overlaps gap dist trivial ratio fixed gb go = true).
    { rewrite andb_true_iff, Nat.ltb_lt. split.
      - intros (a & ga & c & gc & H1 & H2 & H3 & H4). rewrite Hi in H1. rewrite En in H2. injection H1 as <- <-. injection H2 as <- <-. auto.
      - intros [H1 H2]. exists b, gb, o, go. auto. }
    assert (CLO : clash_op i n <-> (b <? o) && overlaps gap dist trivial ratio fixed gb go = true /\ r_op go = r_op gb).
    { rewrite andb_true_iff, Nat.ltb_lt. split.
      - intros (a & ga & c & gc & H1 & H2 & H3 & H4 & H5). rewrite Hi in H1. rewrite En in H2. injection H1 as <- <-. injection H2 as <- <-. auto.
      - intros [[H1 H2] H3]. exists b, gb, o, go. auto. }
    assert (SPLIT : forall y, n <= y <-> y = n \/ S n <= y) by (intro y; lia).
    destruct ((b <? o) && overlaps gap dist trivial ratio fixed gb go) eqn:E.
    + rewrite (position _ _ _ Hi), (position _ _ _ En). cbn [obind].
      destruct (IH (S n) i b gb (fst g ++ [(i, n); (n, i)], if r_op go =? r_op gb then sinsert n (snd g) else snd g)) as (g' & E' & S' & A & B).
      { lia. } { exact Hi. } { cbn [snd]. destruct (r_op go =? r_op gb); [apply sinsert_sorted|]; exact HS. }
      exists g'. split; [exact E'|]. split; [exact S'|]. cbn [fst snd] in A, B. split.
      * intros x y. rewrite A, in_app_iff. cbn [In]. pose proof (proj2 CL eq_refl) as C. split.
        -- intros [[H|[H|[H|[]]]]|[(H1 & H2 & H3)|(H1 & H2 & H3)]]; [auto| | | |].
           ++ injection H as <- <-. right. left. split; [reflexivity|]. split; [lia|exact C].
           ++ injection H as <- <-. right. right. split; [reflexivity|]. split; [lia|exact C].
           ++ right. left. split; [exact H1|]. split; [lia|exact H3].
           ++ right. right. split; [exact H1|]. split; [lia|exact H3].
        -- intros [H|[(H1 & H2 & H3)|(H1 & H2 & H3)]]; [auto| |].
           ++ apply SPLIT in H2. destruct H2 as [->|H2]; [left; right; left; congruence|right; left; auto].
           ++ apply SPLIT in H2. destruct H2 as [->|H2]; [left; right; right; left; congruence|right; right; auto].
      * intro y. rewrite B. destruct (Nat.eqb_spec (r_op go) (r_op gb)) as [EO|NO].
        -- rewrite sinsert_in. split.
           ++ intros [[->|H]|(H1 & H2)]; [right; split; [lia|apply CLO; auto]|auto|right; split; [lia|exact H2]].
           ++ intros [H|(H1 & H2)]; [auto|]. apply SPLIT in H1. destruct H1 as [->|H1]; [auto|right; auto].
        -- split.
           ++ intros [H|(H1 & H2)]; [auto|right; split; [lia|exact H2]].
           ++ intros [H|(H1 & H2)]; [auto|]. apply SPLIT in H1. destruct H1 as [->|H1]; [apply CLO in H2; destruct H2; contradiction|right; auto].
    + destruct (IH (S n) i b gb g) as (g' & E' & S' & A & B); [lia|exact Hi|exact HS|].
      exists g'. split; [exact E'|]. split; [exact S'|].
      assert (NC : ~ clash i n) by (intro C; apply CL in C; discriminate).
      assert (NCO : ~ clash_op i n) by (intro C; apply CLO in C; destruct C; discriminate). split.
      * intros x y. rewrite A. split.
        -- intros [H|[(H1 & H2 & H3)|(H1 & H2 & H3)]]; [auto|right; left|right; right]; split; try (split; [lia|]); assumption.
        -- intros [H|[(H1 & H2 & H3)|(H1 & H2 & H3)]]; [auto| |]; apply SPLIT in H2; destruct H2 as [->|H2]; try contradiction; [right; left|right; right]; auto.
      * intro y. rewrite B. split.
        -- intros [H|(H1 & H2)]; [auto|right; split; [lia|exact H2]].
        -- intros [H|(H1 & H2)]; [auto|]. apply SPLIT in H1. destruct H1 as [->|H1]; [contradiction|right; auto].
Qed.

Lemma base_loop_from : forall m n g, length grains = n + m -> ssorted (snd g) ->
  exists g', base_loop gap dist trivial ratio fixed (numbering 0 grains) grains (skipn n grains) g = Some g' /\ ssorted (snd g') /\
    (forall x y, In (x, y) (fst g') <-> In (x, y) (fst g) \/ (n <= x /\ clash x y) \/ (n <= y /\ clash y x)) /\
    (forall y, In y (snd g') <-> In y (snd g) \/ exists x, n <= x /\ clash_op x y).
Proof.
  induction m as [|m IH]; intros n g L HS.
  - rewrite skipn_all2 by lia. cbn [base_loop]. exists g. split; [reflexivity|]. split; [exact HS|].
    assert (NC : forall x y, n <= x -> ~ clash x y).
    { intros x y Hx (a & ga & c & gc & H & _). apply vget_lt in H. lia. }
    assert (NC' : forall x y, n <= x -> ~ clash_op x y).
    { intros x y Hx (a & ga & c & gc & H & _). apply vget_lt in H. lia. }
    split.
    + intros x y. split; [auto|]. intros [H|[(H1 & H2)|(H1 & H2)]]; [exact H| |]; exfalso; eapply NC; eassumption.
    + intro y. split; [auto|]. intros [H|(x & H1 & H2)]; [exact H|]. exfalso. eapply NC'; eassumption.
  - destruct (vget_some _ grains n ltac:(lia)) as [[b gb] En].
    pose proof (skipn_cons _ _ _ _ En) as SK.
    rewrite SK. cbn [base_loop].
    destruct (other_loop_spec (length grains) 0 n b gb g eq_refl En HS) as (g1 & E1 & S1 & A1 & B1). cbn [skipn] in E1. rewrite E1. cbn [obind].
    destruct (IH (S n) g1 ltac:(lia) S1) as (g' & E' & S' & A & B). exists g'. split; [exact E'|]. split; [exact S'|].
    assert (SPLIT : forall y, n <= y <-> y = n \/ S n <= y) by (intro y; lia). split.
    + intros x y. rewrite A, A1. split.
      * intros [[H|[(-> & _ & H)|(-> & _ & H)]]|[(H1 & H2)|(H1 & H2)]]; [auto|right; left; split; [lia|exact H]|right; right; split; [lia|exact H]|right; left; split; [lia|exact H2]|right; right; split; [lia|exact H2]].
      * intros [H|[(H1 & H2)|(H1 & H2)]]; [auto| |]; apply SPLIT in H1; destruct H1 as [->|H1].
        -- left. right. left. split; [reflexivity|]. split; [lia|exact H2].
        -- right. left. auto.
        -- left. right. right. split; [reflexivity|]. split; [lia|exact H2].
        -- right. right. auto.
    + intro y. rewrite B, B1. split.
      * intros [[H|(_ & H)]|(x & H1 & H2)]; [auto|right; exists n; split; [lia|exact H]|right; exists x; split; [lia|exact H2]].
      * intros [H|(x & H1 & H2)]; [auto|]. apply SPLIT in H1. destruct H1 as [->|H1]; [left; right; split; [lia|exact H2]|right; exists x; auto].
Qed.

Lemma base_loop_spec : exists g, base_loop gap dist trivial ratio fixed (numbering 0 grains) grains grains ([], []) = Some g /\ ssorted (snd g) /\
    (forall x y, In (x, y) (fst g) <-> clash x y \/ clash y x) /\
    (forall y, In y (snd g) <-> exists x, clash_op x y).
Proof.
  destruct (base_loop_from (length grains) 0 ([], []) eq_refl) as (g & E & S & A & B); [constructor|]. cbn [skipn] in E. exists g.
  split; [exact E|]. split; [exact S|]. split.
  - intros x y. rewrite A. cbn [fst In]. split; [intros [[]|[(_ & H)|(_ & H)]]; auto|intros [H|H]; right; [left|right]; split; auto; lia].
  - intro y. rewrite B. cbn [snd In]. split; [intros [[]|(x & _ & H)]; eauto|intros [x H]; right; exists x; split; [lia|exact H]].
Qed.

(** ** Applying colours *)
Definition recolored (ops : list nat) (grains' : fmap rgrain) : Prop :=
  length grains' = length grains /\ forall i id g, vget grains i = Some (id, g) -> exists c, vget ops i = Some c /\ vget grains' i = Some (id, set_op g c).

Lemma apply_colors_from : forall shift colors m n, length colors = length grains -> length grains = n + m ->
  exists l ch, apply_colors shift colors (numbering 0 grains) (skipn n grains) = Some (l, ch) /\ length l = m /\
    (forall k id g, vget grains (n + k) = Some (id, g) -> exists c, vget colors (n + k) = Some c /\ vget l k = Some (id, set_op g (c - shift))) /\
    (ch = false -> forall k id g c, vget grains (n + k) = Some (id, g) -> vget colors (n + k) = Some c -> r_op g = c - shift) /\
    (ch = true -> exists k id g c, vget grains (n + k) = Some (id, g) /\ vget colors (n + k) = Some c /\ r_op g <> c - shift).
Proof.
  intros shift colors. induction m as [|m IH]; intros n LC L.
  - rewrite skipn_all2 by lia. cbn [apply_colors]. exists [], false. split; [reflexivity|]. split; [reflexivity|].
    split; [|split; [intros _|discriminate]]; intros k id g; [intro H|intros c H _]; apply vget_lt in H; lia.
  - destruct (vget_some _ grains n ltac:(lia)) as [[b gb] En].
    pose proof (skipn_cons _ _ _ _ En) as SK.
    rewrite SK. cbn [apply_colors]. rewrite (position _ _ _ En). cbn [obind].
    destruct (vget_some _ colors n ltac:(lia)) as [c Ec]. rewrite Ec. cbn [obind].
    destruct (IH (S n) LC ltac:(lia)) as (l & ch & E & Ll & A & B & D). rewrite E. cbn [obind fst snd].
    eexists _, _. split; [reflexivity|]. split; [cbn [length]; lia|]. split.
    + intros [|k] id g H.
      * rewrite Nat.add_0_r in *. rewrite En in H. injection H as <- <-. exists c. auto.
      * rewrite Nat.add_succ_r in *. apply (A k id g H).
    + split; [intros Hch [|k] id g c' H Hc; apply orb_false_iff in Hch; destruct Hch as [H1 H2]|].
      * rewrite Nat.add_0_r in *. rewrite En in H. injection H as <- <-. rewrite Ec in Hc. injection Hc as <-.
        apply negb_false_iff, Nat.eqb_eq in H1. exact H1.
      * rewrite Nat.add_succ_r in *. apply (B H2 k id g c' H Hc).
      * intro Hch. apply orb_true_iff in Hch. destruct Hch as [H|H].
        -- apply negb_true_iff, Nat.eqb_neq in H. exists 0, b, gb, c. rewrite Nat.add_0_r. auto.
        -- destruct (D H) as (k & id & g & c' & D1 & D2 & D3). exists (S k), id, g, c'. rewrite Nat.add_succ_r. auto.
Qed.

Lemma apply_colors_spec : forall shift colors, length colors = length grains ->
  exists l ch, apply_colors shift colors (numbering 0 grains) grains = Some (l, ch) /\
    recolored (map (fun c => c - shift) colors) l /\ (ch = false <-> l = grains).
Proof.
  intros shift colors LC. destruct (apply_colors_from shift colors (length grains) 0 LC eq_refl) as (l & ch & E & Ll & A & B & D).
  cbn [skipn Nat.add] in *. exists l, ch. split; [exact E|]. split.
  - split; [exact Ll|]. intros i id g H. destruct (A i id g H) as (c & C1 & C2). exists (c - shift). split; [|exact C2].
    unfold vget in *. rewrite nth_error_map, C1. reflexivity.
  - split.
    + intro Hch. apply list_ext. intro i. destruct (vget grains i) as [[id g]|] eqn:Ei.
      * destruct (A i id g Ei) as (c & C1 & C2). rewrite C2. f_equal. f_equal. rewrite <- (B Hch i id g c Ei C1). destruct g; reflexivity.
      * apply vget_none. unfold vget in Ei. apply nth_error_None in Ei. lia.
    + intro El. destruct ch; [exfalso|reflexivity]. destruct (D eq_refl) as (k & id & g & c & D1 & D2 & D3).
      destruct (A k id g D1) as (c' & C1 & C2). rewrite El, D1 in C2. assert (c' = c) by congruence. subst c'. injection C2 as C2. apply D3. rewrite C2 at 1. reflexivity.
Qed.
End Graph.

(** ** Fast reassignment *)
Definition entries_ok (n : nat) (sp : list (nat * nat)) : Prop := forall i j, In (i, j) sp -> i < n /\ j < n.

Lemma conflict_spec : forall colors sp, entries_ok (length colors) sp ->
  exists b, conflict sp colors = Some b /\ (b = true <-> exists i j, In (i, j) sp /\ vget colors i = vget colors j).
Proof.
  intros colors. induction sp as [|[i j] sp IH]; intro OK; cbn [conflict].
  - exists false. split; [reflexivity|]. split; [discriminate|]. intros (i & j & [] & _).
  - destruct (OK i j (or_introl eq_refl)) as [Hi Hj]. destruct (vget_some _ _ _ Hi) as [a Ea]. destruct (vget_some _ _ _ Hj) as [c Ec].
    rewrite Ea, Ec. cbn [obind]. destruct (Nat.eqb_spec a c) as [->|NE].
    + exists true. split; [reflexivity|]. split; [|reflexivity]. intros _. exists i, j. split; [left; reflexivity|congruence].
    + destruct IH as (b & E & I); [intros x y H; apply OK; right; exact H|]. exists b. split; [exact E|]. rewrite I. split.
      * intros (x & y & H1 & H2). exists x, y. split; [right; exact H1|exact H2].
      * intros (x & y & [H1|H1] & H2); [injection H1 as <- <-; congruence|]. exists x, y. auto.
Qed.

Lemma erase_neighbours_some : forall sp row colors available, entries_ok (length colors) sp -> exists a, erase_neighbours sp row colors available = Some a.
Proof.
  induction sp as [|[i j] sp IH]; intros row colors available OK; cbn [erase_neighbours]; [eauto|].
  assert (OK' : entries_ok (length colors) sp) by (intros x y H; apply OK; right; exact H).
  destruct (i =? row); [|apply IH, OK']. destruct (vget_some _ _ _ (proj2 (OK i j (or_introl eq_refl)))) as [c Ec]. rewrite Ec. cbn [obind]. apply IH, OK'.
Qed.

Lemma fast_loop_some : forall sp max rows colors active n, entries_ok (length colors) sp -> (forall r, In r rows -> r < length colors) -> ssorted active ->
  exists c a n' p, fast_loop sp max rows colors active n = Some (c, a, n', p) /\ length c = length colors /\ ssorted a.
Proof.
  intros sp max. induction rows as [|row rows IH]; intros colors active n OK HR HS; cbn [fast_loop].
  - eexists _, _, _, _. split; [reflexivity|]. auto.
  - destruct (erase_neighbours_some sp row colors active OK) as [av Ea]. rewrite Ea. cbn [obind].
    assert (SET : forall c, exists colors', vset colors row c = Some colors' /\ length colors' = length colors).
    { intro c. destruct (vset_some _ colors row c (HR row (or_introl eq_refl))) as [x Hx]. exists x. split; [exact Hx|]. eapply vset_length; exact Hx. }
    destruct av as [|c av].
    + destruct (max <? S n); [eexists _, _, _, _; split; [reflexivity|]; split; [reflexivity|apply sinsert_sorted, HS]|].
      destruct (SET n) as (x & Hx & Lx). rewrite Hx. cbn [obind]. rewrite <- Lx. apply IH; [rewrite Lx; exact OK| |apply sinsert_sorted, HS].
      intros r Hr. rewrite Lx. apply HR. right. exact Hr.
    + destruct (SET c) as (x & Hx & Lx). rewrite Hx. cbn [obind]. rewrite <- Lx. apply IH; [rewrite Lx; exact OK| |exact HS].
      intros r Hr. rewrite Lx. apply HR. right. exact Hr.
Qed.

(** ** Compression of the order parameters *)
Lemma offsets_spec : forall n id active offs, offsets id n active = Some offs ->
  forall a o, mget a offs = Some o -> exists k, k < n /\ vget active k = Some a /\ o = a - (id + k).
Proof.
  induction n as [|n IH]; intros id active offs E a o H; cbn [offsets] in E.
  - injection E as <-. discriminate.
  - destruct active as [|x active]; [discriminate|]. destruct (offsets (S id) n active) as [r|] eqn:Er; [|discriminate]. cbn [obind] in E. injection E as <-.
    cbn [mget] in H. destruct (Nat.eqb_spec x a) as [->|].
    + injection H as <-. exists 0. split; [lia|]. split; [reflexivity|]. f_equal. lia.
    + destruct (IH _ _ _ Er a o H) as (k & H1 & H2 & H3). exists (S k). split; [lia|]. split; [exact H2|]. rewrite H3. f_equal. lia.
Qed.

Lemma offsets_some : forall n id active, n <= length active -> exists offs, offsets id n active = Some offs.
Proof.
  induction n as [|n IH]; intros id active H; cbn [offsets]; [eauto|]. destruct active as [|x active]; cbn [length] in H; [lia|].
  destruct (IH (S id) active ltac:(lia)) as [o E]. rewrite E. cbn [obind]. eauto.
Qed.

Lemma offsets_mget : forall n id active offs k a, offsets id n active = Some offs -> ssorted active -> k < n -> vget active k = Some a -> mget a offs = Some (a - (id + k)).
Proof.
  induction n as [|n IH]; intros id active offs k a E HS Hk Ha; [lia|]. cbn [offsets] in E.
  destruct active as [|x active]; [discriminate|]. destruct (offsets (S id) n active) as [r|] eqn:Er; [|discriminate]. cbn [obind] in E. injection E as <-.
  inversion HS as [|? ? H1 H2]; subst. rewrite Forall_forall in H2. cbn [mget]. destruct k as [|k].
  - cbn in Ha. injection Ha as ->. rewrite Nat.eqb_refl. f_equal. f_equal. lia.
  - cbn in Ha. assert (x < a) by (apply H2; eapply nth_error_In; exact Ha). destruct (Nat.eqb_spec x a); [lia|].
    rewrite (IH (S id) active r k a Er H1 ltac:(lia) Ha). f_equal. f_equal. lia.
Qed.

Lemma set_op_same : forall g, set_op g (r_op g) = g.
Proof. intros []. reflexivity. Qed.

Lemma shift_ops_spec : forall active offs n grains grains', ssorted active -> offsets 0 n active = Some offs -> shift_ops offs grains = Some grains' ->
  length grains' = length grains /\
  forall i id g, vget grains i = Some (id, g) -> exists k, k < n /\ vget active k = Some (r_op g) /\ vget grains' i = Some (id, set_op g k).
Proof.
  intros active offs n. induction grains as [|[a ga] grains IH]; intros grains' HS EO E; cbn [shift_ops] in E.
  - injection E as <-. split; [reflexivity|]. intros [|i] id g H; discriminate.
  - destruct (mget (r_op ga) offs) as [o|] eqn:Em; [|discriminate]. cbn [obind] in E.
    destruct (shift_ops offs grains) as [rest|] eqn:Er; [|discriminate]. cbn [obind] in E. injection E as <-.
    destruct (IH rest HS EO eq_refl) as [I1 I2]. split; [cbn [length]; lia|]. intros [|i] id g H; [|exact (I2 i id g H)].
    cbn in H. injection H as <- <-. destruct (offsets_spec _ _ _ _ EO _ _ Em) as (k & K1 & K2 & K3). exists k. split; [exact K1|]. split; [exact K2|].
    pose proof (ssorted_ge active 0 HS (fun x _ => Nat.le_0_l x) k _ K2) as GE. cbn [Nat.add] in *. cbn [vget nth_error]. f_equal. f_equal.
    destruct (Nat.ltb_spec 0 o); [f_equal; lia|]. replace k with (r_op ga) by lia. symmetry. apply set_op_same.
Qed.

Lemma shift_ops_some : forall offs grains, (forall id g, In (id, g) grains -> exists o, mget (r_op g) offs = Some o) -> exists grains', shift_ops offs grains = Some grains'.
Proof.
  induction grains as [|[a ga] grains IH]; intro H; cbn [shift_ops]; [eauto|]. destruct (H a ga (or_introl eq_refl)) as [o Eo]. rewrite Eo. cbn [obind].
  destruct IH as [r Er]; [intros id g Hg; apply (H id g); right; exact Hg|]. rewrite Er. cbn [obind]. eauto.
Qed.

(** ** Nearest neighbour *)
Definition shares (a b : rgrain) : Prop := r_op a = r_op b \/ r_old a = r_old b.

Lemma near_of_spec : forall gap grains b gb, let r := near_of gap grains b gb in
  ole r (r_near gb) /\
  (forall o go s t, In (o, go) grains -> o <> b -> shares gb go -> In s (r_segments gb) -> In t (r_segments go) -> ole r (Some (gap s t))) /\
  (r = r_near gb \/ exists o go s t, In (o, go) grains /\ o <> b /\ shares gb go /\ In s (r_segments gb) /\ In t (r_segments go) /\ r = Some (gap s t)).
Proof.
  intros gap grains b gb. unfold near_of.
  assert (G : forall l m, let r := fold_left (fun m p => if negb (b =? fst p) && ((r_op gb =? r_op (snd p)) || (r_old gb =? r_old (snd p)))
      then match min_pairs gap (r_segments gb) (r_segments (snd p)) with Some d => omin d m | None => m end else m) l m in
    ole r m /\
    (forall o go s t, In (o, go) l -> o <> b -> shares gb go -> In s (r_segments gb) -> In t (r_segments go) -> ole r (Some (gap s t))) /\
    (r = m \/ exists o go s t, In (o, go) l /\ o <> b /\ shares gb go /\ In s (r_segments gb) /\ In t (r_segments go) /\ r = Some (gap s t))).
  { induction l as [|[o go] l IH]; intro m; cbv zeta in *.
    - cbn [fold_left]. split; [apply ole_refl|]. split; [intros o go s t []|auto].
    - cbn [fold_left fst snd].
      set (m' := if negb (b =? o) && ((r_op gb =? r_op go) || (r_old gb =? r_old go)) then match min_pairs gap (r_segments gb) (r_segments go) with Some d => omin d m | None => m end else m).
      destruct (IH m') as (I1 & I2 & I3). destruct (min_pairs_spec gap (r_segments gb) (r_segments go)) as [M1 M2].
      assert (C : negb (b =? o) && ((r_op gb =? r_op go) || (r_old gb =? r_old go)) = true <-> o <> b /\ shares gb go).
      { unfold shares. rewrite andb_true_iff, orb_true_iff, negb_true_iff, Nat.eqb_neq, !Nat.eqb_eq. intuition. }
      assert (STEP : ole m' m /\ (o <> b -> shares gb go -> forall s t, In s (r_segments gb) -> In t (r_segments go) -> ole m' (Some (gap s t))) /\
        (m' = m \/ (o <> b /\ shares gb go /\ exists s t, In s (r_segments gb) /\ In t (r_segments go) /\ m' = Some (gap s t)))).
      { unfold m'. destruct (negb (b =? o) && ((r_op gb =? r_op go) || (r_old gb =? r_old go))).
        - destruct (proj1 C eq_refl) as [C1 C2]. destruct (min_pairs gap (r_segments gb) (r_segments go)) as [d|].
          + destruct (omin_spec d m) as (O1 & O2 & O3). split; [exact O1|]. split.
            * intros _ _ s t Hs Ht. eapply ole_trans; [exact O2|apply M1; assumption].
            * destruct O3 as [O3|O3]; [auto|]. right. split; [exact C1|]. split; [exact C2|]. destruct (M2 d eq_refl) as (s & t & Hs & Ht & ->). exists s, t. auto.
          + split; [apply ole_refl|]. split; [|auto]. intros _ _ s t Hs Ht. destruct (M1 s t Hs Ht).
        - split; [apply ole_refl|]. split; [|auto]. intros C1 C2. assert (X : false = true) by (apply C; auto). discriminate. }
      destruct STEP as (S1 & S2 & S3). split; [eapply ole_trans; eassumption|]. split.
      + intros o' go' s t [H|H] NE SH Hs Ht; [|eapply I2; eassumption]. injection H as <- <-. eapply ole_trans; [exact I1|apply S2; assumption].
      + destruct I3 as [I3|(o' & go' & s & t & H1 & H2 & H3 & H4 & H5 & H6)].
        * destruct S3 as [S3|(H2 & H3 & s & t & H4 & H5 & H6)]; [left; congruence|]. right. exists o, go, s, t. split; [left; reflexivity|]. repeat (split; [assumption|]). congruence.
        * right. exists o', go', s, t. split; [right; exact H1|auto]. }
  apply G.
Qed.

Definition with_near (g : rgrain) (m : option Q) : rgrain := mkRGrain (r_op g) (r_old g) (r_segments g) (r_radius g) m.

Lemma add_neighbours_vget : forall gap grains i id g, vget grains i = Some (id, g) -> vget (add_neighbours gap grains) i = Some (id, with_near g (near_of gap grains id g)).
Proof. intros gap grains i id g H. unfold add_neighbours, vget in *. rewrite nth_error_map, H. reflexivity. Qed.

Lemma active_ops_pointwise : forall a b, length a = length b ->
  (forall i id g, vget a i = Some (id, g) -> exists g', vget b i = Some (id, g') /\ r_op g' = r_op g) -> active_ops a = active_ops b.
Proof.
  intros a b L H. destruct (active_ops_spec a) as [A1 A2]. destruct (active_ops_spec b) as [B1 B2]. apply ssorted_ext; [assumption|assumption|].
  intro x. rewrite A2, B2. split.
  - intros (i & [id g] & E & <-). destruct (H i id g E) as (g' & E' & EO). exists i, (id, g'). auto.
  - intros (i & [id g'] & E & <-). destruct (vget_some _ a i) as [[id2 g] Ea]; [apply vget_lt in E; lia|].
    destruct (H i id2 g Ea) as (g2 & E2 & EO). exists i, (id2, g). split; [exact Ea|]. cbn [snd] in *. congruence.
Qed.

(** ** Compression *)
Lemma compact_same : forall G active n re G' act' re', ssorted active -> compact (G, active, n, re) = Some (Some (G', act', re')) ->
  length G' = length G /\
  (forall i id g, vget G i = Some (id, g) -> exists c, vget G' i = Some (id, set_op g c)) /\
  forall i j a ga b gb ga' gb', vget G i = Some (a, ga) -> vget G j = Some (b, gb) -> vget G' i = Some (a, ga') -> vget G' j = Some (b, gb') ->
    (r_op ga' = r_op gb' <-> r_op ga = r_op gb).
Proof.
  intros G active n re G' act' re' HS E. unfold compact in E. destruct (rev active) as [|last r]; [discriminate|].
  destruct (last <? n - 1); [discriminate|]. destruct (n - 1 <? last).
  - destruct (offsets 0 n active) as [offs|] eqn:EO; [|discriminate]. cbn [obind] in E.
    destruct (shift_ops offs G) as [G2|] eqn:ES; [|discriminate]. cbn [obind] in E. injection E as <- _ _.
    destruct (shift_ops_spec _ _ _ _ _ HS EO ES) as [L P]. split; [exact L|]. split.
    + intros i id g H. destruct (P i id g H) as (k & _ & _ & K). eauto.
    + intros i j a ga b gb ga' gb' Hi Hj Hi' Hj'. destruct (P i a ga Hi) as (k & _ & A1 & A2). destruct (P j b gb Hj) as (l & _ & B1 & B2).
      rewrite A2 in Hi'. rewrite B2 in Hj'. injection Hi' as <-. injection Hj' as <-. cbn [r_op set_op]. split; intro H.
      * subst l. congruence.
      * rewrite H in A1. eapply ssorted_inj; eassumption.
  - injection E as <- _ _. split; [reflexivity|]. split.
    + intros i id g H. exists (r_op g). rewrite set_op_same. exact H.
    + intros i j a ga b gb ga' gb' Hi Hj Hi' Hj'. rewrite Hi in Hi'. rewrite Hj in Hj'. injection Hi' as <-. injection Hj' as <-. reflexivity.
Qed.

Lemma compact_active : forall G re, G <> [] -> let active := active_ops G in
  exists G' re', compact (G, active, length active, re) = Some (Some (G', seq 0 (length active), re')) /\
    active_ops G' = seq 0 (length active) /\ (re' = false -> G' = G /\ re = false) /\
    ((forall x y, In x active -> y <= x -> In y active) -> G' = G /\ re' = re).
Proof.
  intros G re NE active. destruct (active_ops_spec G) as [HS IN]. fold active in HS, IN. unfold compact.
  destruct G as [|[id0 g0] G0]; [contradiction|]. set (G := (id0, g0) :: G0) in *.
  assert (AN : active <> []).
  { intro C. assert (X : In (r_op g0) active) by (apply IN; exists 0, (id0, g0); split; reflexivity). rewrite C in X. destruct X. }
  destruct (rev active) as [|last r] eqn:ER.
  { exfalso. apply AN. rewrite <- (rev_involutive active), ER. reflexivity. }
  destruct (last_max _ _ _ HS ER) as [LI LM].
  assert (LL : last >= length active - 1).
  { destruct (vget_some _ active (length active - 1)) as [x Hx]; [destruct active; [contradiction|cbn [length]; lia]|].
    pose proof (ssorted_ge active 0 HS (fun y _ => Nat.le_0_l y) _ _ Hx). assert (x <= last) by (apply LM; eapply nth_error_In; exact Hx). lia. }
  destruct (Nat.ltb_spec last (length active - 1)) as [HX|HX]; [lia|]. destruct (Nat.ltb_spec (length active - 1) last) as [GT|LE].
  - destruct (offsets_some (length active) 0 active (le_n _)) as [offs EO]. rewrite EO. cbn [obind].
    destruct (shift_ops_some offs G) as [G' ES].
    { intros id g H. apply In_nth_error in H. destruct H as [i Hi]. assert (X : In (r_op g) active) by (apply IN; exists i, (id, g); split; [exact Hi|reflexivity]).
      apply In_nth_error in X. destruct X as [k Hk]. eexists. eapply offsets_mget; [exact EO|exact HS|apply (vget_lt _ _ _ _ Hk)|exact Hk]. }
    rewrite ES. cbn [obind]. destruct (shift_ops_spec _ _ _ _ _ HS EO ES) as [L P].
    assert (AO : active_ops G' = seq 0 (length active)).
    { destruct (active_ops_spec G') as [HS' IN']. apply ssorted_ext; [exact HS'|apply seq_ssorted|]. intro x. rewrite IN', in_seq. split.
      - intros (i & [id g'] & Hi & <-). destruct (vget_some _ G i) as [[id2 g] Eg]; [apply vget_lt in Hi; lia|].
        destruct (P i id2 g Eg) as (k & K1 & _ & K3). rewrite K3 in Hi. injection Hi as <- <-. cbn [snd r_op set_op]. lia.
      - intros [_ Hx]. destruct (vget_some _ active x ltac:(lia)) as [y Hy]. assert (X : In y active) by (eapply nth_error_In; exact Hy).
        apply IN in X. destruct X as (i & [id g] & Hi & Eo). cbn [snd] in Eo. destruct (P i id g Hi) as (k & K1 & K2 & K3). rewrite Eo in K2.
        exists i, (id, set_op g k). split; [exact K3|]. cbn [snd r_op set_op]. exact (ssorted_inj active k x y HS K2 Hy). }
    exists G', true. rewrite AO. split; [reflexivity|]. split; [reflexivity|]. split; [discriminate|].
    intro DC. exfalso. assert (ND : incl (seq 0 (S last)) active).
    { intros y Hy. apply in_seq in Hy. apply (DC last y LI). lia. }
    pose proof (NoDup_incl_length (seq_NoDup _ _) ND) as X. rewrite seq_length in X. lia.
  - exists G, re.
    assert (SQ : active = seq 0 (length active)).
    { apply ssorted_seq; [exact HS|]. intros x Hx. specialize (LM x Hx). destruct active; [contradiction|cbn [length] in *; lia]. }
    rewrite <- SQ. split; [reflexivity|]. split; [reflexivity|]. split; [intros ->; auto|auto].
Qed.

(** ** Recolouring *)
Section Recolor.
Variables (gap dist : segment -> segment -> Q) (trivial : segment -> bool) (ratio fixed : Q) (grains : fmap rgrain).
Hypothesis MS : msorted grains.
Hypothesis NE : grains <> [].
Variables (order : list nat -> list nat) (colour : nat -> list (nat * nat) -> list nat).
Hypothesis OO : order_ok order.
Hypothesis CC : colour_contract colour.
Variable g : graph.
Hypothesis EG : base_loop gap dist trivial ratio fixed (numbering 0 grains) grains grains ([], []) = Some g.

Lemma graph_spec : ssorted (snd g) /\ (forall x y, In (x, y) (fst g) <-> clash gap dist trivial ratio fixed grains x y \/ clash gap dist trivial ratio fixed grains y x) /\
    (forall y, In y (snd g) <-> exists x, clash_op gap dist trivial ratio fixed grains x y).
Proof.
  destruct (base_loop_spec gap dist trivial ratio fixed grains MS) as (g' & E & S & A & B). assert (g' = g) by congruence. subst g'. auto.
Qed.

Lemma clash_lt : forall x y, clash gap dist trivial ratio fixed grains x y -> x < length grains /\ y < length grains /\ x <> y.
Proof.
  intros x y (a & ga & b & gb & Hx & Hy & L & _). split; [apply (vget_lt _ _ _ _ Hx)|]. split; [apply (vget_lt _ _ _ _ Hy)|]. intros ->. rewrite Hx in Hy. injection Hy as Hy _. lia.
Qed.

Lemma pattern_ok : forall diag, entries_ok (length grains) (pattern diag (length grains) (fst g)).
Proof.
  intros diag i j H. destruct graph_spec as (_ & A & _).
  assert (EDGE : In (i, j) (fst g) -> i < length grains /\ j < length grains).
  { intro X. apply A in X. destruct X as [X|X]; apply clash_lt in X; tauto. }
  unfold pattern in H. destruct diag; [|apply EDGE, H]. apply in_app_or in H. destruct H as [H|H]; [|apply EDGE, H].
  apply in_map_iff in H. destruct H as (k & Hk & Hs). injection Hk as <- <-. apply in_seq in Hs. lia.
Qed.

Lemma pattern_edge : forall diag i j, clash gap dist trivial ratio fixed grains i j -> In (i, j) (pattern diag (length grains) (fst g)).
Proof.
  intros diag i j H. destruct graph_spec as (_ & A & _). unfold pattern. destruct diag; [apply in_or_app; right|]; apply A; left; exact H.
Qed.

Lemma list_max0_spec : forall l, (forall x, In x l -> x <= list_max0 l) /\ (l <> [] -> In (list_max0 l) l).
Proof.
  induction l as [|a l [I1 I2]]; [split; [intros x []|contradiction]|]. cbn [list_max0 fold_right]. fold (list_max0 l). split.
  - intros x [<-|H]; [lia|]. specialize (I1 x H). lia.
  - intros _. destruct l as [|b l]; [cbn; left; lia|]. destruct (Nat.max_spec a (list_max0 (b :: l))) as [[_ ->]|[_ ->]]; [right; apply I2; discriminate|left; reflexivity].
Qed.

(** full colouring *)
Lemma full_spec : forall diag max, let sp := pattern diag (length grains) (fst g) in let colors := colour (length grains) sp in
  (max < list_max0 colors /\ full_coloring colour max sp (numbering 0 grains) grains = Some None) \/
  (list_max0 colors <= max /\ exists l ch, full_coloring colour max sp (numbering 0 grains) grains = Some (Some (l, active_ops l, length (active_ops l), ch)) /\
    recolored grains (map (fun c => c - 1) colors) l /\ (ch = false <-> l = grains)).
Proof.
  intros diag max sp colors. destruct (CC (length grains) sp (pattern_ok diag)) as (LC & _).
  assert (U : full_coloring colour max sp (numbering 0 grains) grains =
    (if max <? list_max0 colors then Some None else r <- apply_colors 1 colors (numbering 0 grains) grains ;;
        let active := active_ops (fst r) in Some (Some (fst r, active, length active, snd r)))).
  { unfold full_coloring. destruct grains; [contradiction|reflexivity]. }
  rewrite U. destruct (Nat.ltb_spec max (list_max0 colors)) as [H|H]; [left; auto|]. right. split; [exact H|].
  destruct (apply_colors_spec grains MS 1 colors LC) as (l & ch & E & R & F). rewrite E. cbn [obind fst snd]. exists l, ch. auto.
Qed.

Definition needed (force : bool) : bool := (0 <? length (snd g)) || force.

Lemma recolor_cases : forall diag max force fast,
  let sp := pattern diag (length grains) (fst g) in
  let res := recolor diag order colour max force fast g (numbering 0 grains) grains in
  (needed force = false /\ res = Some (Some (grains, active_ops grains, length (active_ops grains), false))) \/
  (needed force = true /\ res = full_coloring colour max sp (numbering 0 grains) grains) \/
  (needed force = true /\ diag = false /\ fast = true /\ exists l a n ch colors, res = Some (Some (l, a, n, ch)) /\ ssorted a /\
     recolored grains colors l /\ forall i j, In (i, j) sp -> vget colors i <> vget colors j).
Proof.
  intros diag max force fast sp res. unfold res, recolor. fold (needed force). destruct (needed force) eqn:N; [|left; auto]. right. fold sp.
  destruct fast; [|left; auto].
  destruct (fast_loop_some sp max (order (snd g)) (map (fun p => r_op (snd p)) grains) (active_ops grains) (length (active_ops grains))) as (c & a & n & p & E & Lc & Sa).
  { rewrite map_length. apply pattern_ok. }
  { intros r Hr. rewrite map_length. apply (Permutation_in _ (OO (snd g))) in Hr. destruct graph_spec as (_ & _ & B). apply B in Hr. destruct Hr as (x & (? & ? & ? & ? & _ & Hy & _)). apply (vget_lt _ _ _ _ Hy). }
  { apply active_ops_spec. }
  rewrite E. cbn [obind]. rewrite map_length in Lc. destruct p; cbn [obind]; [left; auto|].
  destruct (conflict_spec c sp) as (b & Eb & Cb); [rewrite Lc; apply pattern_ok|]. rewrite Eb. cbn [obind]. destruct b; [left; auto|].
  assert (NC : forall i j, In (i, j) sp -> vget c i <> vget c j).
  { intros i j H C. assert (X : false = true) by (apply Cb; eauto). discriminate. }
  destruct diag.
  - exfalso. destruct grains as [|q r]; [contradiction|]. apply (NC 0 0); [|reflexivity]. unfold sp, pattern. apply in_or_app. left. apply in_map_iff. exists 0. split; [reflexivity|]. apply in_seq. cbn [length]. lia.
  - right. split; [reflexivity|]. split; [reflexivity|]. split; [reflexivity|].
    destruct (apply_colors_spec grains MS 0 c Lc) as (l & ch & El & R & _). rewrite El. cbn [obind fst snd]. exists l, a, n, ch, c.
    split; [reflexivity|]. split; [exact Sa|]. split; [|exact NC].
    assert (I : map (fun c0 => c0 - 0) c = c) by (rewrite <- (map_id c) at 2; apply map_ext; intro; lia). rewrite I in R. exact R.
Qed.
End Recolor.
