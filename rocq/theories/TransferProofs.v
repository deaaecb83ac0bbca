(** Proofs for the transfer of grain ids. *)
From Coq Require Import List QArith Qabs Arith Bool Lia Lqa.
From Verif Require Import Util MapModel TransferModel TransferSpec.
Import ListNotations.
Local Open Scope nat_scope.

(** ** Order of distances *)
Lemma ole_refl : forall a, ole a a.
Proof. intros [a|]; simpl; [apply Qle_refl|exact I]. Qed.

Lemma ole_trans : forall a b c, ole a b -> ole b c -> ole a c.
Proof. intros [a|] [b|] [c|]; simpl; auto; try contradiction. apply Qle_trans. Qed.

Lemma oltb_true_ole : forall a b, oltb a b = true -> ole a b.
Proof.
  intros [a|] [b|] H; simpl in *; auto; try discriminate. apply Qlt_le_weak. apply qltb_true. exact H.
Qed.

Lemma oltb_false_ole : forall a b, oltb a b = false -> ole b a.
Proof.
  intros [a|] [b|] H; simpl in *; auto; try discriminate. apply qltb_false. exact H.
Qed.

Lemma oltb_irrefl : forall a, oltb a a = false.
Proof. intros [a|]; simpl; [apply qltb_false, Qle_refl|reflexivity]. Qed.

(** ** Distance of grains *)
Lemma omin_spec : forall c m, ole (omin c m) m /\ ole (omin c m) (Some c) /\ (omin c m = m \/ omin c m = Some c).
Proof.
  intros c [m|]; simpl.
  - destruct (qltb m c) eqn:E.
    + apply qltb_true in E. split; [apply Qle_refl|]. split; [apply Qlt_le_weak, E|auto].
    + apply qltb_false in E. split; [exact E|]. split; [apply Qle_refl|auto].
  - split; [exact I|]. split; [apply Qle_refl|auto].
Qed.

Lemma distance_inner : forall s ts m,
  let r := fold_left (fun m t => omin (dist2 (s_center s) (s_center t)) m) ts m in
  ole r m /\ (forall t, In t ts -> ole r (Some (dist2 (s_center s) (s_center t)))) /\
  (r = m \/ exists t, In t ts /\ r = Some (dist2 (s_center s) (s_center t))).
Proof.
  intro s. induction ts as [|t ts IH]; intros m r; simpl in r.
  - subst r. split; [apply ole_refl|]. split; [intros t []|auto].
  - subst r. destruct (omin_spec (dist2 (s_center s) (s_center t)) m) as (O1 & O2 & O3).
    destruct (IH (omin (dist2 (s_center s) (s_center t)) m)) as (I1 & I2 & I3).
    split; [eapply ole_trans; eassumption|]. split.
    + intros t' [<-|H]; [eapply ole_trans; eassumption|apply I2, H].
    + destruct I3 as [I3|(t' & H & I3)]; [|right; exists t'; split; [right; exact H|exact I3]].
      destruct O3 as [O3|O3]; [left|right; exists t; split; [left; reflexivity|]]; congruence.
Qed.

Lemma distance_centers_spec : forall a b, is_distance a b (distance_centers a b).
Proof.
  intros a b. unfold distance_centers, is_distance.
  assert (G : forall ss m, let r := fold_left (fun m s => fold_left (fun m t => omin (dist2 (s_center s) (s_center t)) m) (g_segments b) m) ss m in
    ole r m /\ (forall s t, In s ss -> In t (g_segments b) -> ole r (Some (dist2 (s_center s) (s_center t)))) /\
    (r = m \/ exists s t, In s ss /\ In t (g_segments b) /\ r = Some (dist2 (s_center s) (s_center t)))).
  { induction ss as [|s ss IH]; intros m r; simpl in r.
    - subst r. split; [apply ole_refl|]. split; [intros s t []|auto].
    - subst r. destruct (distance_inner s (g_segments b) m) as (D1 & D2 & D3).
      match goal with |- context [fold_left _ ss ?x] => destruct (IH x) as (I1 & I2 & I3) end.
      split; [eapply ole_trans; eassumption|]. split.
      + intros s' t [<-|H] Ht; [eapply ole_trans; [exact I1|apply D2, Ht]|apply I2; assumption].
      + destruct I3 as [I3|(s' & t & H & Ht & I3)]; [|right; exists s', t; split; [right; exact H|auto]].
        destruct D3 as [D3|(t & Ht & D3)]; [left|right; exists s, t; split; [left; reflexivity|split; [exact Ht|]]]; congruence. }
  destruct (G (g_segments a) None) as (_ & G2 & G3). split; [exact G2|].
  intros x Hx. destruct G3 as [G3|(s & t & Hs & Ht & G3)]; [congruence|].
  exists s, t. split; [exact Hs|]. split; [exact Ht|]. rewrite Hx in G3. injection G3 as ->. apply Qeq_refl.
Qed.

(** ** Boxes *)
Lemma all_le_meet : forall r1 r2 a b, length a = length b ->
  (all_le (map (fun x => x - r1)%Q a) (map (fun x => x + r2)%Q b) = true /\
   all_le (map (fun x => x - r2)%Q b) (map (fun x => x + r1)%Q a) = true <->
   Forall2 (fun x y => (Qabs (x - y) <= r1 + r2)%Q) a b).
Proof.
  intros r1 r2. induction a as [|x a IH]; intros [|y b] H; try discriminate; cbn [map all_le].
  - split; [constructor|auto].
  - injection H as H. specialize (IH b H). rewrite !andb_true_iff, !Qle_bool_iff. split.
    + intros [[A1 A2] [B1 B2]]. constructor; [|apply IH; split; assumption].
      apply Qabs_Qle_condition. split; lra.
    + intro F. inversion F as [|? ? ? ? F1 F2]; subst. apply Qabs_Qle_condition in F1. apply IH in F2.
      destruct F1, F2. repeat split; try assumption; lra.
Qed.

Lemma intersects_meet : forall s t, length (s_center s) = length (s_center t) ->
  intersects (box_around s) (box_around t) = true <-> meet s t.
Proof.
  intros s t H. unfold intersects, box_around, meet. cbn [fst snd]. rewrite andb_true_iff. apply all_le_meet. exact H.
Qed.

Lemma scan_query_ok : query_ok scan_query.
Proof.
  intros boxes b. unfold scan_query. split; [apply NoDup_filter, seq_NoDup|].
  intro i. rewrite filter_In, in_seq. split.
  - intros [_ H]. destruct (vget boxes i) as [a|] eqn:E; [|discriminate]. eauto.
  - intros (a & E & H). rewrite E. split; [|exact H]. apply vget_lt in E. lia.
Qed.

(** ** Grains per order parameter *)
Definition of_op (op : nat) (m : fmap grain) : fmap grain := filter (fun p => g_op (snd p) =? op) m.

Lemma extract_loop_spec : forall m acc, (forall id g, In (id, g) m -> g_op g < length acc) ->
  exists r, extract_loop m acc = Some r /\ length r = length acc /\
    forall op l, vget acc op = Some l -> vget r op = Some (l ++ map fst (of_op op m)).
Proof.
  induction m as [|[id g] m IH]; intros acc H; cbn [extract_loop].
  - exists acc. split; [reflexivity|]. split; [reflexivity|]. intros op l E. rewrite E. unfold of_op. simpl. rewrite app_nil_r. reflexivity.
  - pose proof (H id g (or_introl eq_refl)) as Hg. destruct (vget_some _ acc (g_op g) Hg) as [l El]. rewrite El. cbn [obind].
    destruct (vset_some _ acc (g_op g) (l ++ [id]) Hg) as [acc' Ea]. rewrite Ea. cbn [obind].
    pose proof (vset_length _ _ _ _ _ Ea) as La.
    destruct (IH acc') as (r & Er & Lr & S).
    { intros id' g' H'. rewrite La. apply (H id' g'). right. exact H'. }
    exists r. split; [exact Er|]. split; [lia|]. intros op l' E'. unfold of_op. cbn [filter snd]. fold (of_op op m).
    rewrite (Nat.eqb_sym (g_op g) op).
    destruct (Nat.eqb_spec op (g_op g)) as [->|Hn].
    + assert (l' = l) by congruence. subst l'. rewrite (S (g_op g) (l ++ [id])).
      * cbn [map fst]. rewrite <- app_assoc. reflexivity.
      * rewrite (vset_get _ _ _ _ _ _ Ea), Nat.eqb_refl. reflexivity.
    + apply S. rewrite (vset_get _ _ _ _ _ _ Ea). destruct (Nat.eqb_spec op (g_op g)); [contradiction|exact E'].
Qed.

Lemma extract_per_op_spec : forall m n, (forall id g, In (id, g) m -> g_op g < n) ->
  extract_per_op m n = Some (map (fun op => map fst (of_op op m)) (seq 0 n)).
Proof.
  intros m n H. unfold extract_per_op.
  destruct (extract_loop_spec m (repeat [] n)) as (r & E & L & S); [rewrite repeat_length; exact H|].
  rewrite E. f_equal. rewrite repeat_length in L. apply (list_ext (list nat)). intro i.
  destruct (Nat.lt_ge_cases i n) as [Hi|Hi].
  - rewrite (S i []) by (rewrite vget_repeat; destruct (Nat.ltb_spec i n); [reflexivity|lia]).
    unfold vget. rewrite nth_error_map. rewrite (nth_error_nth' (seq 0 n) 0) by (rewrite seq_length; exact Hi).
    rewrite seq_nth by exact Hi. reflexivity.
  - unfold vget. rewrite !(proj2 (nth_error_None _ _)); [reflexivity|rewrite map_length, seq_length; exact Hi|lia].
Qed.

Definition flatl (l : fmap grain) : list (nat * segment) :=
  flat_map (fun p => map (pair (fst p)) (g_segments (snd p))) l.

Lemma flatten_spec : forall old l, (forall id g, In (id, g) l -> mget id old = Some g) ->
  flatten old (map fst l) = Some (flatl l).
Proof.
  intros old. induction l as [|[id g] l IH]; intro H; [reflexivity|]. cbn [map fst flatten].
  rewrite (H id g (or_introl eq_refl)). cbn [obind]. rewrite IH by (intros; apply H; right; assumption). reflexivity.
Qed.

Lemma flat_dec : forall l i id s, vget (flatl l) i = Some (id, s) ->
  exists l1 g l2 j, l = l1 ++ (id, g) :: l2 /\ i = length (flatl l1) + j /\ vget (g_segments g) j = Some s.
Proof.
  induction l as [|[id0 g0] l IH]; intros i id s H; [destruct i; discriminate|].
  change (flatl ((id0, g0) :: l)) with (map (pair id0) (g_segments g0) ++ flatl l) in H.
  destruct (Nat.lt_ge_cases i (length (g_segments g0))) as [Hi|Hi].
  - exists [], g0, l, i. unfold vget in *. rewrite nth_error_app1 in H by (rewrite map_length; exact Hi).
    rewrite nth_error_map in H. destruct (nth_error (g_segments g0) i) as [t|] eqn:E; [|discriminate].
    injection H as -> ->. auto.
  - unfold vget in H. rewrite nth_error_app2 in H by (rewrite map_length; exact Hi). rewrite map_length in H.
    destruct (IH _ _ _ H) as (l1 & g & l2 & j & -> & E & Ej). exists ((id0, g0) :: l1), g, l2, j.
    split; [reflexivity|]. split; [|exact Ej].
    change (flatl ((id0, g0) :: l1)) with (map (pair id0) (g_segments g0) ++ flatl l1).
    rewrite app_length, map_length. lia.
Qed.

Lemma flat_in : forall l id g s, In (id, g) l -> In s (g_segments g) -> exists i, vget (flatl l) i = Some (id, s).
Proof.
  intros l id g s H1 H2. apply (In_nth_error (flatl l) (id, s)). unfold flatl. apply in_flat_map.
  exists (id, g). split; [exact H1|]. cbn [fst snd]. apply in_map. exact H2.
Qed.

Lemma work_back_block : forall A id n B j, j < n -> ~ In id A ->
  work_back (A ++ repeat id n ++ B) (length A + j) = length A.
Proof.
  intros A id n B j Hj HA.
  assert (GET : forall k, k < n -> vget (A ++ repeat id n ++ B) (length A + k) = Some id).
  { intros k Hk. unfold vget. rewrite nth_error_app2 by lia. replace (length A + k - length A) with k by lia.
    rewrite nth_error_app1 by (rewrite repeat_length; exact Hk). apply nth_error_repeat. exact Hk. }
  induction j as [|j IH].
  - rewrite Nat.add_0_r. destruct A as [|a A] using rev_ind; [reflexivity|]. clear IHA.
    pose proof (GET 0 Hj) as G0. rewrite Nat.add_0_r in G0.
    rewrite app_length in *. cbn [length] in *. rewrite Nat.add_1_r in *. cbn [work_back].
    rewrite G0. assert (E : vget ((A ++ [a]) ++ repeat id n ++ B) (length A) = Some a).
    { unfold vget. rewrite <- app_assoc. rewrite nth_error_app2 by lia. rewrite Nat.sub_diag. reflexivity. }
    rewrite E. destruct (Nat.eqb_spec a id) as [->|]; [|reflexivity].
    exfalso. apply HA. apply in_or_app. right. left. reflexivity.
  - rewrite Nat.add_succ_r. cbn [work_back]. rewrite (GET j ltac:(lia)).
    pose proof (GET (S j) Hj) as G. rewrite Nat.add_succ_r in G. rewrite G, Nat.eqb_refl. apply IH. lia.
Qed.

Lemma map_fst_flatl : forall l x, In x (map fst (flatl l)) -> In x (map fst l).
Proof.
  intros l x H. apply in_map_iff in H. destruct H as ([id s] & <- & H). unfold flatl in H. apply in_flat_map in H.
  destruct H as ([id' g] & H1 & H2). apply in_map_iff in H2. destruct H2 as (t & E & _). injection E as <- <-.
  apply in_map_iff. exists (id', g). auto.
Qed.

(** The segment found by counting back is the one of the flattened list. *)
Lemma flat_get : forall l i id s, NoDup (map fst l) -> vget (flatl l) i = Some (id, s) ->
  exists g, In (id, g) l /\ In s (g_segments g) /\ vget (g_segments g) (i - work_back (map fst (flatl l)) i) = Some s.
Proof.
  intros l i id s ND H. destruct (flat_dec _ _ _ _ H) as (l1 & g & l2 & j & -> & -> & Ej).
  exists g. split; [apply in_or_app; right; left; reflexivity|]. split; [apply (nth_error_In _ _ Ej)|].
  assert (E : map fst (flatl (l1 ++ (id, g) :: l2)) =
    map fst (flatl l1) ++ repeat id (length (g_segments g)) ++ map fst (flatl l2)).
  { unfold flatl. rewrite flat_map_app, map_app. f_equal. cbn [flat_map fst snd]. rewrite map_app. f_equal.
    rewrite map_map. cbn [fst]. clear. induction (g_segments g) as [|s ss IH]; [reflexivity|]. simpl. f_equal. exact IH. }
  rewrite E. rewrite <- (map_length fst (flatl l1)). rewrite work_back_block.
  - replace (length (map fst (flatl l1)) + j - length (map fst (flatl l1))) with j by lia. exact Ej.
  - apply (vget_lt _ _ _ _ Ej).
  - intro C. apply map_fst_flatl in C. rewrite map_app in ND. cbn [map fst] in ND.
    apply NoDup_remove_2 in ND. apply ND. apply in_or_app. left. exact C.
Qed.

Section Transfer.
Variable query : list box -> box -> list nat.
Hypothesis QOK : query_ok query.
Variables new old : fmap grain.
Variable n dim : nat.
Hypothesis NEW_S : msorted new.
Hypothesis OLD_S : msorted old.
Hypothesis NEW_D : in_space dim new.
Hypothesis OLD_D : in_space dim old.
Hypothesis NEW_N : forall id g, In (id, g) new -> g_op g < n.
Hypothesis OLD_N : forall id g, In (id, g) old -> g_op g < n.

Let flat (op : nat) := flatl (of_op op old).

Lemma of_op_in : forall op m id g, In (id, g) (of_op op m) <-> In (id, g) m /\ g_op g = op.
Proof. intros op m id g. unfold of_op. rewrite filter_In. cbn [snd]. rewrite Nat.eqb_eq. reflexivity. Qed.

Lemma of_op_keys : forall op m, NoDup (map fst m) -> NoDup (map fst (of_op op m)).
Proof.
  intros op. induction m as [|[id g] m IH]; intro H; [constructor|]. cbn [map fst] in H. inversion H as [|? ? H1 H2]; subst.
  unfold of_op. cbn [filter snd]. fold (of_op op m). destruct (g_op g =? op); [|apply IH, H2]. cbn [map fst].
  constructor; [|apply IH, H2]. intro C. apply H1. apply in_map_iff in C. destruct C as ([id' g'] & E & C). cbn in E. subst id'.
  apply of_op_in in C. apply in_map_iff. exists (id, g'). split; [reflexivity|apply C].
Qed.

(** What an entry of the flattened list is. *)
Lemma flat_entry : forall op i id t, vget (flat op) i = Some (id, t) ->
  exists g, mget id old = Some g /\ g_op g = op /\ In t (g_segments g) /\
    vget (g_segments g) (i - work_back (map fst (flat op)) i) = Some t.
Proof.
  intros op i id t H. destruct (flat_get (of_op op old) i id t) as (g & H1 & H2 & H3).
  - apply of_op_keys, msorted_nodup, OLD_S.
  - exact H.
  - apply of_op_in in H1. destruct H1 as [H1 H4]. exists g. split; [apply In_mget; assumption|]. auto.
Qed.

Lemma query_flat : forall op s i, length (s_center s) = dim ->
  (In i (query (map (fun f => box_around (snd f)) (flat op)) (box_around s)) <->
   exists id t, vget (flat op) i = Some (id, t) /\ meet t s).
Proof.
  intros op s i Hs. destruct (QOK (map (fun f => box_around (snd f)) (flat op)) (box_around s)) as [_ Q]. rewrite Q.
  unfold vget. rewrite nth_error_map. split.
  - intros (a & E & H). destruct (nth_error (flat op) i) as [[id t]|] eqn:Ei; [|discriminate].
    injection E as <-. cbn [snd] in H. exists id, t. split; [reflexivity|].
    destruct (flat_entry op i id t Ei) as (g & G1 & _ & G3 & _).
    apply intersects_meet; [|exact H]. rewrite (OLD_D id g t (mget_In _ _ _ _ G1) G3). symmetry. exact Hs.
  - intros (id & t & E & H). rewrite E. cbn [option_map snd]. exists (box_around t). split; [reflexivity|].
    destruct (flat_entry op i id t E) as (g & G1 & _ & G3 & _).
    apply intersects_meet; [|exact H]. rewrite (OLD_D id g t (mget_In _ _ _ _ G1) G3). symmetry. exact Hs.
Qed.

Lemma nearest_loop_spec : forall op center result st,
  (forall i, In i result -> exists f, vget (flat op) i = Some f) ->
  exists st', nearest_loop old (flat op) center result st = Some st' /\
    (st' = st \/ exists i id t, In i result /\ vget (flat op) i = Some (id, t) /\
       st' = (Some id, Some (dist2 (s_center t) center))) /\
    ole (snd st') (snd st) /\
    forall i id t, In i result -> vget (flat op) i = Some (id, t) -> ole (snd st') (Some (dist2 (s_center t) center)).
Proof.
  intros op center. induction result as [|i result IH]; intros st H; cbn [nearest_loop].
  - exists st. split; [reflexivity|]. split; [auto|]. split; [apply ole_refl|]. intros i id t [].
  - destruct (H i (or_introl eq_refl)) as [[id t] Ef]. rewrite Ef. cbn [obind fst].
    destruct (flat_entry op i id t Ef) as (g & G1 & _ & _ & G4). rewrite G1. cbn [obind]. rewrite G4. cbn [obind].
    set (st1 := if oltb (Some (dist2 (s_center t) center)) (snd st) then (Some id, Some (dist2 (s_center t) center)) else st).
    assert (S1 : ole (snd st1) (snd st) /\ ole (snd st1) (Some (dist2 (s_center t) center)) /\
                 (st1 = st \/ st1 = (Some id, Some (dist2 (s_center t) center)))).
    { unfold st1. destruct (oltb (Some (dist2 (s_center t) center)) (snd st)) eqn:E.
      - cbn [snd]. split; [apply oltb_true_ole, E|]. split; [apply ole_refl|auto].
      - split; [apply ole_refl|]. split; [apply oltb_false_ole, E|auto]. }
    destruct S1 as (A1 & A2 & A3).
    destruct (IH st1) as (st' & E & C & L & F); [intros k Hk; apply H; right; exact Hk|].
    exists st'. split; [exact E|]. split; [|split; [eapply ole_trans; eassumption|]].
    + destruct C as [->|(k & id' & t' & H1 & H2 & H3)]; [|right; exists k, id', t'; split; [right; exact H1|auto]].
      destruct A3 as [A3|A3]; [left; exact A3|right; exists i, id, t; split; [left; reflexivity|auto]].
    + intros k id' t' [<-|Hk] Ek; [|apply (F k id' t' Hk Ek)].
      assert (t' = t) by congruence. subst t'. eapply ole_trans; eassumption.
Qed.

(** Any candidate is an old grain of the order parameter with an overlapping
    segment. *)
Definition good (op : nat) (segs : list segment) (o : nat) : Prop :=
  exists go s t, mget o old = Some go /\ g_op go = op /\ In s segs /\ In t (g_segments go) /\ meet t s.

Lemma candidate_loop_spec : forall op segs st, (forall s, In s segs -> length (s_center s) = dim) ->
  exists c, candidate_loop query old (flat op) segs st = Some c /\
    (c = fst st \/ exists o, c = Some o /\ good op segs o) /\
    (fst st <> None -> c <> None).
Proof.
  intros op. induction segs as [|s segs IH]; intros st H; cbn [candidate_loop].
  - exists (fst st). auto.
  - pose proof (H s (or_introl eq_refl)) as Hs.
    assert (STEP : exists st', match query (map (fun f => box_around (snd f)) (flat op)) (box_around s) with
             | [] => Some st
             | i :: _ =>
                 if (1 <? length (query (map (fun f => box_around (snd f)) (flat op)) (box_around s))) || (match fst st with Some _ => true | None => false end)
                 then nearest_loop old (flat op) (s_center s) (query (map (fun f => box_around (snd f)) (flat op)) (box_around s)) st
                 else f <- vget (flat op) i ;; Some (Some (fst f), snd st)
             end = Some st' /\ (fst st' = fst st \/ exists o, fst st' = Some o /\ good op (s :: segs) o)
             /\ (fst st <> None -> fst st' <> None)).
    { pose proof (fun i => query_flat op s i Hs) as QF.
      destruct (query (map (fun f => box_around (snd f)) (flat op)) (box_around s)) as [|i r] eqn:EQ; [exists st; auto|].
      assert (GD : forall k, In k (i :: r) -> exists id t, vget (flat op) k = Some (id, t) /\ good op (s :: segs) id).
      { intros k Hk. apply QF in Hk. destruct Hk as (id & t & E & M). exists id, t. split; [exact E|].
        destruct (flat_entry op k id t E) as (g & G1 & G2 & G3 & _). exists g, s, t.
        split; [exact G1|]. split; [exact G2|]. split; [left; reflexivity|]. auto. }
      destruct ((1 <? length (i :: r)) || match fst st with Some _ => true | None => false end).
      - destruct (nearest_loop_spec op (s_center s) (i :: r) st) as (st' & E & C & _).
        { intros k Hk. destruct (GD k Hk) as (id & t & Ek & _). eauto. }
        exists st'. split; [exact E|]. destruct C as [->|(k & id & t & Hk & Ek & ->)]; [auto|].
        destruct (GD k Hk) as (id' & t' & Ek' & GG). assert (id' = id) by congruence. subst id'.
        split; [right; exists id; auto|intros _; discriminate].
      - destruct (GD i (or_introl eq_refl)) as (id & t & Ei & GG). rewrite Ei. cbn [obind fst]. eexists. split; [reflexivity|].
        cbn [fst]. split; [right; exists id; auto|intros _; discriminate]. }
    destruct STEP as (st' & E & C & NN). rewrite E. cbn [obind].
    destruct (IH st') as (c & Ec & Cc & Nc); [intros; apply H; right; assumption|].
    exists c. split; [exact Ec|]. split; [|intro X; apply Nc, NN, X].
    destruct Cc as [->|(o & -> & go & s' & t & G)].
    + destruct C as [C|(o & C & G)]; [left; exact C|right; exists o; auto].
    + right. exists o. split; [reflexivity|]. exists go, s', t. destruct G as (G1 & G2 & G3 & G4). split; [exact G1|].
      split; [exact G2|]. split; [right; exact G3|exact G4].
Qed.

(** If a segment overlaps an old one there is a candidate. *)
Lemma candidate_some : forall op segs st, (forall s, In s segs -> length (s_center s) = dim) ->
  (fst st = None -> snd st = None) ->
  (exists s o go t, In s segs /\ In (o, go) old /\ g_op go = op /\ In t (g_segments go) /\ meet t s) ->
  exists o, candidate_loop query old (flat op) segs st = Some (Some o).
Proof.
  intros op. induction segs as [|s segs IH]; intros st H HN (s0 & o & go & t & Hs & Ho & Hop & Ht & HM); [destruct Hs|].
  pose proof (H s (or_introl eq_refl)) as HL. cbn [candidate_loop].
  pose proof (fun i => query_flat op s i HL) as QF.
  assert (HR : forall s', In s' segs -> length (s_center s') = dim) by (intros; apply H; right; assumption).
  assert (KEEP : forall st', fst st' <> None -> exists o, candidate_loop query old (flat op) segs st' = Some (Some o)).
  { intros st' Hst. destruct (candidate_loop_spec op segs st' HR) as (c & Ec & _ & NN). rewrite Ec.
    destruct c as [c|]; [eauto|]. exfalso. apply (NN Hst). reflexivity. }
  destruct (query (map (fun f => box_around (snd f)) (flat op)) (box_around s)) as [|i r] eqn:EQ.
  - cbn [obind]. apply IH; try assumption. exists s0, o, go, t. split; [|auto].
    destruct Hs as [<-|Hs]; [|exact Hs]. exfalso.
    destruct (flat_in (of_op op old) o go t) as [i Ei]; [apply of_op_in; auto|exact Ht|].
    apply (proj2 (QF i)). exists o, t. auto.
  - assert (VAL : forall k, In k (i :: r) -> exists f, vget (flat op) k = Some f).
    { intros k Hk. apply QF in Hk. destruct Hk as (id & t' & Ek & _). eauto. }
    destruct ((1 <? length (i :: r)) || match fst st with Some _ => true | None => false end).
    + destruct (nearest_loop_spec op (s_center s) (i :: r) st VAL) as (st' & E & C & _ & F). rewrite E. cbn [obind].
      apply KEEP. destruct C as [->|(k & id & t' & _ & _ & ->)]; [|discriminate].
      intro N. destruct (VAL i (or_introl eq_refl)) as [[id t'] Ei]. specialize (F i id t' (or_introl eq_refl) Ei).
      rewrite (HN N) in F. exact F.
    + destruct (VAL i (or_introl eq_refl)) as [[id t'] Ei]. rewrite Ei. cbn [obind]. apply KEEP. discriminate.
Qed.

(** The candidate of a single segment is the nearest one. *)
Lemma candidate_single : forall op s, length (s_center s) = dim ->
  exists c, candidate_loop query old (flat op) [s] (None, None) = Some c /\
    match c with
    | Some o => nearest_old old op s o
    | None => forall o go t, In (o, go) old -> g_op go = op -> In t (g_segments go) -> ~ meet t s
    end.
Proof.
  intros op s Hs. cbn [candidate_loop fst]. pose proof (fun i => query_flat op s i Hs) as QF.
  assert (ALL : forall o go t, In (o, go) old -> g_op go = op -> In t (g_segments go) -> meet t s ->
    exists i, In i (query (map (fun f => box_around (snd f)) (flat op)) (box_around s)) /\ vget (flat op) i = Some (o, t)).
  { intros o go t H1 H2 H3 H4. destruct (flat_in (of_op op old) o go t) as [i Ei]; [apply of_op_in; auto|exact H3|].
    exists i. split; [|exact Ei]. apply QF. exists o, t. auto. }
  destruct (query (map (fun f => box_around (snd f)) (flat op)) (box_around s)) as [|i r] eqn:EQ.
  - exists None. split; [reflexivity|]. intros o go t H1 H2 H3 H4. destruct (ALL o go t H1 H2 H3 H4) as (i & [] & _).
  - rewrite orb_false_r. destruct (Nat.ltb_spec 1 (length (i :: r))) as [HL|HL].
    + destruct (nearest_loop_spec op (s_center s) (i :: r) (None, None)) as (st' & E & C & _ & F).
      { intros k Hk. apply QF in Hk. destruct Hk as (id & t & Ek & _). eauto. }
      rewrite E. cbn [obind candidate_loop]. exists (fst st'). split; [reflexivity|].
      destruct C as [->|(k & id & t & Hk & Ek & ->)].
      * exfalso. pose proof (proj1 (QF i) (or_introl eq_refl)) as (id & t & Ei & _).
        apply (F i id t (or_introl eq_refl) Ei).
      * cbn [fst]. destruct (flat_entry op k id t Ek) as (g & G1 & G2 & G3 & _).
        apply QF in Hk. destruct Hk as (id' & t' & Ek' & M). assert (t' = t) by congruence. subst t'.
        exists g, t. split; [apply mget_In, G1|]. split; [exact G2|]. split; [exact G3|]. split; [exact M|].
        intros o2 g2 t2 H1 H2 H3 H4. destruct (ALL o2 g2 t2 H1 H2 H3 H4) as (j & Hj & Ej). apply (F j o2 t2 Hj Ej).
    + pose proof (proj1 (QF i) (or_introl eq_refl)) as (id & t & Ei & M). rewrite Ei. cbn [obind fst candidate_loop].
      exists (Some id). split; [reflexivity|].
      destruct (flat_entry op i id t Ei) as (g & G1 & G2 & G3 & _).
      exists g, t. split; [apply mget_In, G1|]. split; [exact G2|]. split; [exact G3|]. split; [exact M|].
      intros o2 g2 t2 H1 H2 H3 H4. destruct (ALL o2 g2 t2 H1 H2 H3 H4) as (j & Hj & Ej).
      destruct r; [|cbn [length] in HL; lia]. destruct Hj as [<-|[]].
      assert (t2 = t) by congruence. subst t2. apply Qle_refl.
Qed.

(** ** The mapping *)
Definition cand (id : nat) : option nat :=
  match mget id new with
  | None => None
  | Some g => match candidate_loop query old (flat (g_op g)) (g_segments g) (None, None) with Some c => c | None => None end
  end.

Lemma cand_good : forall id o, cand id = Some o ->
  exists g, mget id new = Some g /\ good (g_op g) (g_segments g) o.
Proof.
  intros id o H. unfold cand in H. destruct (mget id new) as [g|] eqn:E; [|discriminate]. exists g. split; [reflexivity|].
  destruct (candidate_loop_spec (g_op g) (g_segments g) (None, None)) as (c & Ec & Cc & _).
  { intros s Hs. apply (NEW_D id g s); [apply mget_In, E|exact Hs]. }
  rewrite Ec in H. destruct Cc as [->|(o' & -> & G)]; [discriminate|]. congruence.
Qed.

(** Distance between old grain [o] and new grain [g] *)
Definition far (o g : nat) : option Q :=
  match mget o old, mget g new with Some a, Some b => distance_centers a b | _, _ => None end.

Record inv (K done : list nat) (st : maps) : Prop := {
  inv_keys : forall id, (exists x, mget id (fst st) = Some x) <-> In id K;
  inv_both : forall g o, mget g (fst st) = Some (Some o) <-> mget o (snd st) = Some g;
  inv_cand : forall g o, mget g (fst st) = Some (Some o) -> cand g = Some o /\ In g done;
  inv_best : forall g o, In g done -> cand g = Some o -> exists g', mget o (snd st) = Some g' /\ ole (far o g') (far o g) }.

Lemma massign_some : forall V k (v : V) m, (exists x, mget k m = Some x) -> massign k v m = Some (mput k v m).
Proof. intros V k v m [x H]. unfold massign. rewrite H. reflexivity. Qed.

Lemma enter_inv : forall K done st id o, inv K done st -> In id K -> ~ In id done -> cand id = Some o ->
  exists st', enter new old id o st = Some st' /\ inv K (id :: done) st'.
Proof.
  intros K done st id o I HK HD HC. unfold enter.
  assert (UNSET : forall o', mget id (fst st) <> Some (Some o')).
  { intros o' E. apply (inv_cand _ _ _ I) in E. apply HD, E. }
  destruct (mget o (snd st)) as [ex|] eqn:Eo.
  - pose proof (proj2 (inv_both _ _ _ I ex o) Eo) as Eex.
    destruct (inv_cand _ _ _ I _ _ Eex) as [Cex Dex].
    destruct (cand_good _ _ HC) as (gc & Gc & go & s & t & Go & _).
    destruct (cand_good _ _ Cex) as (ge & Ge & _).
    unfold override_mapping. rewrite Go, Gc, Ge. cbn [obind].
    assert (Nex : ex <> id) by (intros ->; apply HD, Dex).
    assert (FAR : far o id = distance_centers go gc /\ far o ex = distance_centers go ge).
    { unfold far. rewrite Go, Gc, Ge. auto. }
    destruct FAR as [F1 F2].
    destruct (oltb (distance_centers go gc) (distance_centers go ge)) eqn:EB.
    + rewrite massign_some by (eauto). cbn [obind].
      rewrite massign_some.
      2:{ rewrite mget_mput. destruct (ex =? id); [eauto|]. apply (inv_keys _ _ _ I). exact HK. }
      cbn [obind]. rewrite massign_some by eauto. cbn [obind]. eexists. split; [reflexivity|].
      split; cbn [fst snd].
      * intro i. rewrite !mget_mput. destruct (Nat.eqb_spec id i) as [->|].
        -- split; [intros _; exact HK|eauto].
        -- destruct (Nat.eqb_spec ex i) as [<-|].
           ++ split; [intros _; apply (inv_keys _ _ _ I); eauto|eauto].
           ++ apply (inv_keys _ _ _ I).
      * intros g o'. rewrite !mget_mput. destruct (Nat.eqb_spec id g) as [<-|Ng], (Nat.eqb_spec o o') as [<-|No].
        -- split; intros _; reflexivity.
        -- split; [intro C; congruence|]. intro C. exfalso. apply (inv_both _ _ _ I) in C. apply (UNSET o'), C.
        -- split; [|intro C; congruence]. intro C. exfalso. destruct (Nat.eqb_spec ex g) as [<-|Nx]; [discriminate|].
           apply (inv_both _ _ _ I) in C. congruence.
        -- destruct (Nat.eqb_spec ex g) as [<-|Nx]; [|apply (inv_both _ _ _ I)].
           split; [discriminate|]. intro C. exfalso. apply (inv_both _ _ _ I) in C. congruence.
      * intros g o'. rewrite !mget_mput. destruct (Nat.eqb_spec id g) as [<-|Ng].
        -- intro E. injection E as <-. split; [exact HC|left; reflexivity].
        -- destruct (Nat.eqb_spec ex g) as [<-|Nx]; [discriminate|]. intro E. apply (inv_cand _ _ _ I) in E.
           split; [apply E|right; apply E].
      * intros g o' Hg Hc. rewrite mget_mput. destruct (Nat.eqb_spec o o') as [<-|No].
        -- exists id. split; [reflexivity|]. destruct Hg as [<-|Hg]; [apply ole_refl|].
           destruct (inv_best _ _ _ I g o Hg Hc) as (g' & Eg & Lg). assert (g' = ex) by congruence. subst g'.
           eapply ole_trans; [|exact Lg]. rewrite F1, F2. apply oltb_true_ole. exact EB.
        -- destruct Hg as [<-|Hg]; [congruence|]. apply (inv_best _ _ _ I g o' Hg Hc).
    + exists st. split; [reflexivity|]. destruct I as [I1 I2 I3 I4]. split; try assumption.
      * intros g o' E. destruct (I3 g o' E) as [A B]. split; [exact A|right; exact B].
      * intros g o' [<-|Hg] Hc; [|apply I4; assumption]. assert (o' = o) by congruence. subst o'.
        exists ex. split; [exact Eo|]. rewrite F1, F2. apply oltb_false_ole. exact EB.
  - rewrite massign_some by (apply (inv_keys _ _ _ I); exact HK). cbn [obind]. unfold memplace. rewrite Eo.
    eexists. split; [reflexivity|]. split; cbn [fst snd].
    + intro i. rewrite mget_mput. destruct (Nat.eqb_spec id i) as [->|]; [|apply (inv_keys _ _ _ I)].
      split; [intros _; exact HK|eauto].
    + intros g o'. rewrite !mget_mput. destruct (Nat.eqb_spec id g) as [<-|Ng], (Nat.eqb_spec o o') as [<-|No].
      * split; intros _; reflexivity.
      * split; [intro C; congruence|]. intro C. exfalso. apply (inv_both _ _ _ I) in C. apply (UNSET o'), C.
      * split; [|intro C; congruence]. intro C. apply (inv_both _ _ _ I) in C. congruence.
      * apply (inv_both _ _ _ I).
    + intros g o'. rewrite mget_mput. destruct (Nat.eqb_spec id g) as [<-|Ng].
      * intro E. injection E as <-. split; [exact HC|left; reflexivity].
      * intro E. apply (inv_cand _ _ _ I) in E. split; [apply E|right; apply E].
    + intros g o' Hg Hc. rewrite mget_mput. destruct (Nat.eqb_spec o o') as [<-|No].
      * exists id. split; [reflexivity|]. destruct Hg as [<-|Hg]; [apply ole_refl|].
        destruct (inv_best _ _ _ I g o Hg Hc) as (g' & Eg & _). congruence.
      * destruct Hg as [<-|Hg]; [congruence|]. apply (inv_best _ _ _ I g o' Hg Hc).
Qed.

Lemma assign_inv : forall op K ids done st, inv K done st ->
  (forall id, In id ids -> In id K /\ exists g, mget id new = Some g /\ g_op g = op) ->
  NoDup ids -> (forall id, In id ids -> ~ In id done) ->
  exists st', assign_loop query new old (flat op) ids st = Some st' /\ inv K (rev ids ++ done) st'.
Proof.
  intros op K. induction ids as [|id ids IH]; intros done st I H ND HD; cbn [assign_loop].
  - exists st. auto.
  - destruct (H id (or_introl eq_refl)) as (HK & g & Eg & Eop). rewrite Eg. cbn [obind]. subst op.
    destruct (candidate_loop_spec (g_op g) (g_segments g) (None, None)) as (c & Ec & _).
    { intros s Hs. apply (NEW_D id g s); [apply mget_In, Eg|exact Hs]. }
    rewrite Ec. cbn [obind].
    assert (CC : cand id = c) by (unfold cand; rewrite Eg, Ec; reflexivity).
    inversion ND as [|? ? N1 N2]; subst.
    assert (STEP : exists st1, match cand id with None => Some st | Some o => enter new old id o st end = Some st1 /\ inv K (id :: done) st1).
    { destruct (cand id) as [o|] eqn:Eo.
      - apply (enter_inv K done); try assumption. apply HD. left. reflexivity.
      - exists st. split; [reflexivity|]. destruct I as [I1 I2 I3 I4]. split; try assumption.
        + intros a o E. destruct (I3 a o E). split; [assumption|right; assumption].
        + intros a o [<-|Ha] Hc; [congruence|apply I4; assumption]. }
    destruct STEP as (st1 & E1 & I1). rewrite E1. cbn [obind].
    destruct (IH (id :: done) st1 I1) as (st' & E' & I').
    + intros i Hi. apply H. right. exact Hi.
    + exact N2.
    + intros i Hi [<-|C]; [apply N1, Hi|]. apply (HD i); [right; exact Hi|exact C].
    + exists st'. split; [exact E'|]. cbn [rev]. rewrite <- app_assoc. exact I'.
Qed.

Lemma emplace_all : forall l m i,
  (exists x, mget i (fold_left (fun m id => memplace id None m) l m) = Some x) <-> (exists x : option nat, mget i m = Some x) \/ In i l.
Proof.
  induction l as [|a l IH]; intros m i; cbn [fold_left In]; [intuition|]. rewrite IH, mget_memplace.
  destruct (mget i m) as [x|].
  - split; [left; eauto|left; eauto].
  - destruct (Nat.eqb_spec a i) as [->|]; split.
    + intros _. auto.
    + left. eauto.
    + intros [[x E]|H]; [discriminate|auto].
    + intros [[x E]|[E|H]]; [discriminate|contradiction|auto].
Qed.

Lemma emplace_keep : forall l m i o, mget i (fold_left (fun m id => memplace id None m) l m) = Some (Some o) <-> mget i m = Some (Some o : option nat).
Proof.
  induction l as [|a l IH]; intros m i o; cbn [fold_left]; [reflexivity|]. rewrite IH, mget_memplace.
  destruct (mget i m) as [x|]; [reflexivity|]. destruct (a =? i); split; intro C; congruence.
Qed.

Lemma transfer_loop_inv : forall k op K st, inv K K st ->
  (forall id, In id K -> exists g, mget id new = Some g /\ g_op g < op) ->
  exists st', transfer_loop query new old (map (fun op => map fst (of_op op new)) (seq op k))
     (map (fun op => map fst (of_op op old)) (seq op k)) st = Some st' /\
    exists K', inv K' K' st' /\ forall id, In id K' <-> In id K \/ exists g, In (id, g) new /\ op <= g_op g < op + k.
Proof.
  induction k as [|k IH]; intros op K st I HK; cbn [seq map transfer_loop].
  - exists st. split; [reflexivity|]. exists K. split; [exact I|]. intro id. split; [auto|].
    intros [H|(g & _ & H)]; [exact H|lia].
  - rewrite flatten_spec by (intros id g H; apply of_op_in in H; apply In_mget; [exact OLD_S|apply H]). cbn [obind].
    set (ids := map fst (of_op op new)).
    assert (IDS : forall id, In id ids <-> exists g, In (id, g) new /\ g_op g = op).
    { intro id. unfold ids. rewrite in_map_iff. split.
      - intros ([i g] & <- & H). apply of_op_in in H. exists g. exact H.
      - intros (g & H). exists (id, g). split; [reflexivity|apply of_op_in, H]. }
    set (st0 := (fold_left (fun m id => memplace id None m) ids (fst st), snd st)).
    assert (I0 : inv (rev ids ++ K) K st0).
    { destruct I as [I1 I2 I3 I4]. split; unfold st0; cbn [fst snd].
      - intro id. rewrite emplace_all, in_app_iff, <- in_rev, I1. intuition.
      - intros g o. rewrite emplace_keep. apply I2.
      - intros g o. rewrite emplace_keep. apply I3.
      - exact I4. }
    destruct (assign_inv op (rev ids ++ K) ids K st0 I0) as (st1 & E1 & J1).
    { intros id H. split; [apply in_or_app; left; apply in_rev in H; exact H|].
      apply IDS in H. destruct H as (g & H1 & H2). exists g. split; [apply In_mget; assumption|exact H2]. }
    { apply of_op_keys, msorted_nodup, NEW_S. }
    { intros id H C. apply IDS in H. destruct H as (g & H1 & H2). destruct (HK id C) as (g' & G1 & G2).
      apply (In_mget _ _ _ _ NEW_S) in H1. assert (g' = g) by congruence. subst g'. lia. }
    unfold flat in E1. rewrite E1. cbn [obind].
    destruct (IH (S op) (rev ids ++ K) st1 J1) as (st' & E' & K' & I' & S').
    { intros id H. apply in_app_or in H. destruct H as [H|H].
      - apply in_rev in H. apply IDS in H. destruct H as (g & H1 & H2). exists g. split; [apply In_mget; assumption|lia].
      - destruct (HK id H) as (g & G1 & G2). exists g. split; [exact G1|lia]. }
    exists st'. split; [exact E'|]. exists K'. split; [exact I'|]. intro id. rewrite S', in_app_iff, <- in_rev, IDS. split.
    + intros [[(g & H1 & H2)|H]|(g & H1 & H2)]; [right; exists g; split; [exact H1|lia]|auto|right; exists g; split; [exact H1|lia]].
    + intros [H|(g & H1 & H2)]; [auto|]. destruct (Nat.eq_dec (g_op g) op); [left; left; eauto|right; exists g; split; [exact H1|lia]].
Qed.

Lemma transfer_inv : exists r st K, transfer query new old n = Some r /\ fst st = r /\ inv K K st /\
  forall id, In id K <-> exists g, In (id, g) new.
Proof.
  unfold transfer. rewrite (extract_per_op_spec old n OLD_N). cbn [obind]. rewrite (extract_per_op_spec new n NEW_N). cbn [obind].
  destruct (transfer_loop_inv n 0 [] ([], [])) as (st & E & K & I & S).
  - split; cbn [fst snd mget].
    + intro id. split; [intros [x C]; discriminate|intros []].
    + intros g o. split; discriminate.
    + intros g o C. discriminate.
    + intros g o [].
  - intros id [].
  - rewrite E. cbn [obind]. exists (fst st), st, K. split; [reflexivity|]. split; [reflexivity|]. split; [exact I|].
    intro id. rewrite S. split.
    + intros [[]|(g & H & _)]. eauto.
    + intros [g H]. right. exists g. split; [exact H|]. specialize (NEW_N id g H). lia.
Qed.
End Transfer.
