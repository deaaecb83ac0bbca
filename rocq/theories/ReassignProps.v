(** C23: the assignment of order parameters to grains. *)
From Coq Require Import List QArith Arith Bool Lia Lqa Sorted Permutation.
From Verif Require Import Util MapModel TransferModel TransferSpec TransferProofs TrackProofs ReassignModel ReassignSpec ReassignProofs.
Import ListNotations.
Local Open Scope nat_scope.

(** ** Vocabulary of the statements *)
(** The grains keep their ids, old order parameters, segments and radii. *)
Definition same_bodies (grains grains' : fmap rgrain) : Prop :=
  map fst grains' = map fst grains /\
  forall id g, mget id grains = Some g -> exists g', mget id grains' = Some g' /\
    r_old g' = r_old g /\ r_segments g' = r_segments g /\ r_radius g' = r_radius g.

(** Grains too close to each other have different order parameters. *)
Definition proper gap dist trivial ratio fixed (grains : fmap rgrain) : Prop :=
  forall a ga b gb, mget a grains = Some ga -> mget b grains = Some gb -> a < b ->
    too_close gap dist trivial ratio fixed ga gb -> r_op ga <> r_op gb.

(** [x] is the order parameter of some grain. *)
Definition in_use (grains : fmap rgrain) (x : nat) : Prop := exists id g, mget id grains = Some g /\ r_op g = x.

Definition same_ops (grains grains' : fmap rgrain) : Prop :=
  forall id g g', mget id grains = Some g -> mget id grains' = Some g' -> r_op g' = r_op g.

(** ** Positions and ids *)
Lemma ssorted_nodup : forall l, ssorted l -> NoDup l.
Proof.
  intros l H. induction H as [|x l H IH F]; constructor; [|exact IH]. rewrite Forall_forall in F. intro C. specialize (F x C). lia.
Qed.

Lemma pos_mget : forall (grains : fmap rgrain) i id g, msorted grains -> vget grains i = Some (id, g) -> mget id grains = Some g.
Proof. intros grains i id g MS H. apply In_mget; [exact MS|]. eapply nth_error_In; exact H. Qed.

Lemma mget_pos : forall (grains : fmap rgrain) id g, mget id grains = Some g -> exists i, vget grains i = Some (id, g).
Proof. intros grains id g H. apply mget_In in H. apply In_nth_error in H. exact H. Qed.

Lemma keys_eq : forall (a b : fmap rgrain), length b = length a -> (forall i id g, vget a i = Some (id, g) -> exists g', vget b i = Some (id, g')) -> map fst b = map fst a.
Proof.
  intros a b L H. apply list_ext. intro i. unfold vget. rewrite !nth_error_map. destruct (nth_error a i) as [[id g]|] eqn:Ea.
  - destruct (H i id g Ea) as [g' Hb]. unfold vget in Hb. rewrite Hb. reflexivity.
  - apply nth_error_None in Ea. assert (Eb : nth_error b i = None) by (apply nth_error_None; lia). rewrite Eb. reflexivity.
Qed.

Lemma keys_sorted : forall (a b : fmap rgrain), map fst b = map fst a -> msorted a -> msorted b.
Proof. intros a b E H. unfold msorted in *. rewrite E. exact H. Qed.

Lemma in_use_active : forall grains x, msorted grains -> (In x (active_ops grains) <-> in_use grains x).
Proof.
  intros grains x MS. destruct (active_ops_spec grains) as [_ A]. rewrite A. split.
  - intros (i & [id g] & H & E). exists id, g. split; [apply (pos_mget _ _ _ _ MS H)|exact E].
  - intros (id & g & H & E). destruct (mget_pos _ _ _ H) as [i Hi]. exists i, (id, g). auto.
Qed.

Section Result.
Variables (gap dist : segment -> segment -> Q) (trivial : segment -> bool) (ratio fixed : Q) (grains : fmap rgrain).
Hypothesis MS : msorted grains.

Lemma clash_iff : forall i j, clash gap dist trivial ratio fixed grains i j <->
  exists a ga b gb, vget grains i = Some (a, ga) /\ vget grains j = Some (b, gb) /\ a < b /\ too_close gap dist trivial ratio fixed ga gb.
Proof.
  intros i j. unfold clash. split; intros (a & ga & b & gb & H1 & H2 & H3 & H4); exists a, ga, b, gb; (split; [exact H1|]; split; [exact H2|]; split; [exact H3|]); apply overlaps_iff; exact H4.
Qed.

(** the final list of grains, by position *)
Definition final (ops : list nat) (grains' : fmap rgrain) : Prop :=
  length grains' = length grains /\
  (forall i id g, vget grains i = Some (id, g) -> exists m c, vget grains' i = Some (id, with_near (set_op g c) m)) /\
  forall i j a ga b gb, vget grains' i = Some (a, ga) -> vget grains' j = Some (b, gb) -> (r_op ga = r_op gb <-> vget ops i = vget ops j).

Lemma recolored_pos : forall ops l i id g', recolored grains ops l -> vget l i = Some (id, g') ->
  exists g c, vget grains i = Some (id, g) /\ vget ops i = Some c /\ g' = set_op g c.
Proof.
  intros ops l i id g' [L R] H. destruct (vget_some _ grains i) as [[id2 g] E]; [apply vget_lt in H; lia|].
  destruct (R i id2 g E) as (c & C1 & C2). rewrite C2 in H. injection H as <- <-. exists g, c. auto.
Qed.

Lemma finish : forall ops l active n re grains' act' re', recolored grains ops l -> ssorted active ->
  compact (add_neighbours gap l, active, n, re) = Some (Some (grains', act', re')) -> final ops grains'.
Proof.
  intros ops l active n re grains' act' re' R HS E. destruct (compact_same _ _ _ _ _ _ _ HS E) as (L & P & I).
  destruct R as [RL RR]. unfold add_neighbours in L at 1. rewrite map_length in L. split; [lia|]. split.
  - intros i id g H. destruct (RR i id g H) as (c & C1 & C2). destruct (P i id _ (add_neighbours_vget gap l i id _ C2)) as [c' Hc'].
    exists (near_of gap l id (set_op g c)), c'. rewrite Hc'. reflexivity.
  - intros i j a ga b gb Ha Hb.
    destruct (vget_some _ grains i) as [[a0 ga0] Ea]; [apply vget_lt in Ha; lia|]. destruct (vget_some _ grains j) as [[b0 gb0] Eb]; [apply vget_lt in Hb; lia|].
    destruct (RR _ _ _ Ea) as (ca & A1 & A2). destruct (RR _ _ _ Eb) as (cb & B1 & B2).
    pose proof (add_neighbours_vget gap l i a0 _ A2) as A3. pose proof (add_neighbours_vget gap l j b0 _ B2) as B3.
    destruct (P _ _ _ A3) as [ka Ka]. destruct (P _ _ _ B3) as [kb Kb]. assert (a0 = a) by congruence. assert (b0 = b) by congruence. subst a0 b0.
    rewrite (I i j _ _ _ _ _ _ A3 B3 Ha Hb). cbn [with_near set_op r_op]. rewrite A1, B1. split; congruence.
Qed.

(** the distance to the nearest grain with the same current or old order parameter *)
Definition nearest (id : nat) (g : rgrain) (grains' : fmap rgrain) (g' : rgrain) : Prop :=
  ole (r_near g') (r_near g) /\
  (forall o go s t, mget o grains' = Some go -> o <> id -> shares g' go -> In s (r_segments g') -> In t (r_segments go) -> ole (r_near g') (Some (gap s t))) /\
  (r_near g' = r_near g \/ exists o go s t, mget o grains' = Some go /\ o <> id /\ shares g' go /\ In s (r_segments g') /\ In t (r_segments go) /\ r_near g' = Some (gap s t)).

Lemma finish_near : forall ops l active n re grains' act' re', recolored grains ops l -> ssorted active ->
  compact (add_neighbours gap l, active, n, re) = Some (Some (grains', act', re')) ->
  forall id g g', mget id grains = Some g -> mget id grains' = Some g' -> nearest id g grains' g'.
Proof.
  intros ops l active n re grains' act' re' R HS E id g g' Hg Hg'. pose proof (finish _ _ _ _ _ _ _ _ R HS E) as (FL & FP & FO).
  destruct (compact_same _ _ _ _ _ _ _ HS E) as (L & P & I). destruct R as [RL RR].
  assert (K : map fst grains' = map fst grains).
  { apply keys_eq; [exact FL|]. intros i k h H. destruct (FP i k h H) as (m & c & X). eauto. }
  pose proof (keys_sorted _ _ K MS) as MS'.
  assert (POS : forall i k h, vget grains i = Some (k, h) -> exists c c', vget ops i = Some c /\ vget l i = Some (k, set_op h c) /\
      vget grains' i = Some (k, with_near (set_op h c') (near_of gap l k (set_op h c)))).
  { intros i k h H. destruct (RR i k h H) as (c & C1 & C2). destruct (P i k _ (add_neighbours_vget gap l i k _ C2)) as [c' Hc'].
    exists c, c'. split; [exact C1|]. split; [exact C2|]. rewrite Hc'. reflexivity. }
  destruct (mget_pos _ _ _ Hg) as [i Hi]. destruct (POS i id g Hi) as (c & c' & C1 & C2 & C3).
  rewrite (pos_mget _ _ _ _ MS' C3) in Hg'. injection Hg' as <-. set (g' := with_near (set_op g c') (near_of gap l id (set_op g c))) in *.
  destruct (near_of_spec gap l id (set_op g c)) as (N1 & N2 & N3).
  assert (SH : forall j o h d d' m, vget grains j = Some (o, h) -> vget ops j = Some d -> vget grains' j = Some (o, with_near (set_op h d') m) ->
      (shares g' (with_near (set_op h d') m) <-> shares (set_op g c) (set_op h d))).
  { intros j o h d d' m V1 V2 V3. pose proof (FO i j _ _ _ _ C3 V3) as Q. rewrite C1, V2 in Q. unfold shares, g' in *. cbn [with_near set_op r_op r_old] in *. 
    assert (X : Some c = Some d <-> c = d) by (split; congruence). rewrite X in Q. rewrite Q. reflexivity. }
  unfold nearest. change (r_near g') with (near_of gap l id (set_op g c)). split; [exact N1|]. split.
  - intros o go s t Ho NE HSH Hs Ht. destruct (mget_pos _ _ _ Ho) as [j Hj].
    destruct (vget_some _ grains j) as [[o0 h] Ej]; [apply vget_lt in Hj; lia|]. destruct (POS j o0 h Ej) as (d & d' & D1 & D2 & D3).
    rewrite D3 in Hj. injection Hj as -> <-. apply (N2 o (set_op h d) s t); [eapply nth_error_In; exact D2|exact NE|eapply SH; eassumption|exact Hs|exact Ht].
  - destruct N3 as [N3|(o & go & s & t & H1 & H2 & H3 & H4 & H5 & H6)]; [left; exact N3|right].
    apply In_nth_error in H1. destruct H1 as [j Hj]. destruct (vget_some _ grains j) as [[o0 h] Ej]; [apply vget_lt in Hj; lia|].
    destruct (POS j o0 h Ej) as (d & d' & D1 & D2 & D3). unfold vget in D2. rewrite D2 in Hj. injection Hj as -> <-.
    exists o, (with_near (set_op h d') (near_of gap l o (set_op h d))), s, t. split; [apply (pos_mget _ _ _ _ MS' D3)|]. split; [exact H2|]. split; [eapply SH; eassumption|]. auto.
Qed.

Lemma final_bodies : forall ops grains', final ops grains' -> same_bodies grains grains'.
Proof.
  intros ops grains' (L & P & _).
  assert (K : map fst grains' = map fst grains).
  { apply keys_eq; [exact L|]. intros i id g H. destruct (P i id g H) as (m & c & E). eauto. }
  split; [exact K|]. intros id g H. destruct (mget_pos _ _ _ H) as [i Hi]. destruct (P i id g Hi) as (m & c & E).
  exists (with_near (set_op g c) m). split; [|auto]. apply (pos_mget grains' i id _ (keys_sorted _ _ K MS) E).
Qed.

Lemma too_close_bodies : forall a b a' b', r_segments a' = r_segments a -> r_radius a' = r_radius a -> r_segments b' = r_segments b -> r_radius b' = r_radius b ->
  (too_close gap dist trivial ratio fixed a' b' <-> too_close gap dist trivial ratio fixed a b).
Proof. intros a b a' b' E1 E2 E3 E4. unfold too_close. rewrite E1, E2, E3, E4. reflexivity. Qed.

Lemma final_proper : forall ops grains', final ops grains' -> (forall i j, clash gap dist trivial ratio fixed grains i j -> vget ops i <> vget ops j) ->
  proper gap dist trivial ratio fixed grains'.
Proof.
  intros ops grains' (L & P & O) H a ga b gb Ha Hb LT TC EQ.
  destruct (mget_pos _ _ _ Ha) as [i Hi]. destruct (mget_pos _ _ _ Hb) as [j Hj].
  destruct (vget_some _ grains i) as [[a0 ga0] Ea]; [apply vget_lt in Hi; lia|]. destruct (vget_some _ grains j) as [[b0 gb0] Eb]; [apply vget_lt in Hj; lia|].
  destruct (P _ _ _ Ea) as (ma & ca & A). destruct (P _ _ _ Eb) as (mb & cb & B). rewrite A in Hi. rewrite B in Hj. injection Hi as -> <-. injection Hj as -> <-.
  apply (H i j); [|apply (O i j _ _ _ _ A B); exact EQ]. apply clash_iff. exists a, ga0, b, gb0.
  split; [exact Ea|]. split; [exact Eb|]. split; [exact LT|]. revert TC. apply too_close_bodies; reflexivity.
Qed.
End Result.

Section Main.
Variables (gap dist : segment -> segment -> Q) (trivial : segment -> bool) (order : list nat -> list nat) (colour : nat -> list (nat * nat) -> list nat).
Hypothesis OO : order_ok order.
Hypothesis CC : colour_contract colour.

(** The grains which share their order parameter with a close grain of smaller id. *)
Definition colliding ratio fixed (grains : fmap rgrain) (b : nat) : Prop :=
  exists a ga gb, mget a grains = Some ga /\ mget b grains = Some gb /\ a < b /\
    too_close gap dist trivial ratio fixed ga gb /\ r_op gb = r_op ga.

Lemma ops_clash : forall ratio fixed grains g, msorted grains ->
  base_loop gap dist trivial ratio fixed (numbering 0 grains) grains grains ([], []) = Some g ->
  snd g = [] -> forall i j, clash gap dist trivial ratio fixed grains i j -> vget (map (fun p => r_op (snd p)) grains) i <> vget (map (fun p => r_op (snd p)) grains) j.
Proof.
  intros ratio fixed grains g MS EG Z i j (a & ga & b & gb & Ha & Hb & LT & OV) C.
  destruct (graph_spec gap dist trivial ratio fixed grains MS g EG) as (_ & _ & B).
  assert (X : In j (snd g)).
  { apply B. exists i, a, ga, b, gb. repeat (split; [assumption|]). unfold vget in *. rewrite !nth_error_map, Ha, Hb in C. cbn in C. congruence. }
  rewrite Z in X. destruct X.
Qed.

Lemma recolored_id : forall grains, recolored grains (map (fun p => r_op (snd p)) grains) grains.
Proof.
  intro grains. split; [reflexivity|]. intros i id g H. exists (r_op g). split; [unfold vget in *; rewrite nth_error_map, H; reflexivity|]. rewrite set_op_same. exact H.
Qed.

Lemma needed_false : forall (g : graph) force, needed g force = false -> snd g = [] /\ force = false.
Proof.
  intros g force H. unfold needed in H. apply orb_false_iff in H. destruct H as [H1 H2]. split; [|exact H2]. destruct (snd g); [reflexivity|discriminate].
Qed.

Lemma colour_clash : forall diag ratio fixed grains g, msorted grains ->
  base_loop gap dist trivial ratio fixed (numbering 0 grains) grains grains ([], []) = Some g ->
  forall i j, clash gap dist trivial ratio fixed grains i j ->
    let colors := colour (length grains) (pattern diag (length grains) (fst g)) in
    vget (map (fun c => c - 1) colors) i <> vget (map (fun c => c - 1) colors) j.
Proof.
  intros diag ratio fixed grains g MS EG i j H colors C.
  destruct (CC _ _ (pattern_ok gap dist trivial ratio fixed grains MS g EG diag)) as (LC & C1 & C2). fold colors in LC, C1, C2.
  destruct (clash_lt gap dist trivial ratio fixed grains i j H) as (Hi & Hj & NE).
  specialize (C2 i j (pattern_edge gap dist trivial ratio fixed grains MS g EG diag i j H) NE).
  destruct (vget_some _ colors i ltac:(lia)) as [x Ex]. destruct (vget_some _ colors j ltac:(lia)) as [y Ey].
  unfold vget in *. rewrite !nth_error_map, Ex, Ey in C. cbn in C. assert (1 <= x) by (apply C1; eapply nth_error_In; exact Ex). assert (1 <= y) by (apply C1; eapply nth_error_In; exact Ey).
  apply C2. rewrite Ex, Ey. f_equal. injection C as C. lia.
Qed.

(** With and without fast reassignment and however the sparsity pattern treats the
    diagonal: if no exception is thrown, grains too close to each other have
    different order parameters, and apart from the order parameter (and the
    distance to the nearest neighbour) the grains are those given. *)
Theorem C23_reassignment_separates : forall diag ratio fixed max force fast grains grains' active n re,
  msorted grains -> grains <> [] ->
  reassign gap dist trivial diag order colour ratio fixed max force fast grains = Some (Some (grains', active, n, re)) ->
  proper gap dist trivial ratio fixed grains' /\ same_bodies grains grains'.
Proof.
  intros diag ratio fixed max force fast grains grains' active n re MS NE E. unfold reassign in E.
  destruct (base_loop gap dist trivial ratio fixed (numbering 0 grains) grains grains ([], [])) as [g|] eqn:EG; [|discriminate]. cbn [obind] in E.
  destruct (recolor_cases gap dist trivial ratio fixed grains MS NE order colour OO g EG diag max force fast) as [[N ER]|[[N ER]|(N & _ & _ & l & a & n' & ch & colors & ER & Sa & R & NC)]]; rewrite ER in E.
  - cbn [obind] in E. destruct (compact _) as [[[[G act] re2]|]|] eqn:EC in E; cbn [obind] in E; try discriminate. injection E as <- _ _ _.
    pose proof (finish gap grains _ _ _ _ _ _ _ _ (recolored_id grains) (proj1 (active_ops_spec grains)) EC) as F.
    split; [|eapply final_bodies; eassumption]. eapply final_proper; [exact F|]. eapply ops_clash; [exact MS|exact EG|]. apply (needed_false _ _ N).
  - destruct (full_spec gap dist trivial ratio fixed grains MS NE colour CC g EG diag max) as [[_ EF]|(_ & l & ch & EF & R & _)]; rewrite EF in E; cbn [obind] in E; [discriminate|].
    destruct (compact _) as [[[[G act] re2]|]|] eqn:EC in E; cbn [obind] in E; try discriminate. injection E as <- _ _ _.
    pose proof (finish gap grains _ _ _ _ _ _ _ _ R (proj1 (active_ops_spec l)) EC) as F.
    split; [|eapply final_bodies; eassumption]. eapply final_proper; [exact F|]. intros i j H. eapply colour_clash; eassumption.
  - cbn [obind] in E. destruct (compact _) as [[[[G act] re2]|]|] eqn:EC in E; cbn [obind] in E; try discriminate. injection E as <- _ _ _.
    pose proof (finish gap grains _ _ _ _ _ _ _ _ R Sa EC) as F.
    split; [|eapply final_bodies; eassumption]. eapply final_proper; [exact F|]. intros i j H. apply NC. eapply pattern_edge; eassumption.
Qed.

(** With the patterns of deal.II, which hold the diagonal, trying the fast
    reassignment never makes a difference: the final check of the provisional
    colours always fails. *)
Theorem C23_fast_reassignment_has_no_effect : forall ratio fixed max force grains, msorted grains -> grains <> [] ->
  reassign gap dist trivial true order colour ratio fixed max force true grains = reassign gap dist trivial true order colour ratio fixed max force false grains.
Proof.
  intros ratio fixed max force grains MS NE. unfold reassign.
  destruct (base_loop gap dist trivial ratio fixed (numbering 0 grains) grains grains ([], [])) as [g|] eqn:EG; [|reflexivity]. cbn [obind].
  assert (X : recolor true order colour max force true g (numbering 0 grains) grains = recolor true order colour max force false g (numbering 0 grains) grains).
  { destruct (recolor_cases gap dist trivial ratio fixed grains MS NE order colour OO g EG true max force true) as [[N ER]|[[N ER]|(_ & C & _)]]; [| |discriminate];
    (destruct (recolor_cases gap dist trivial ratio fixed grains MS NE order colour OO g EG true max force false) as [[N' ER']|[[N' ER']|(_ & C & _)]]; [| |discriminate]); congruence. }
  rewrite X. reflexivity.
Qed.

(** Complete description for the patterns of deal.II. *)
Theorem C23_reassignment : forall ratio fixed max force fast grains, msorted grains -> grains <> [] ->
  exists out, reassign gap dist trivial true order colour ratio fixed max force fast grains = Some out /\
  (** the exception: a colouring is needed and uses too many colours *)
  (out = None -> ((exists b, colliding ratio fixed grains b) \/ force = true) /\ exists entries,
     (forall i j, In (i, j) entries -> i <> j -> exists a ga b gb, vget grains i = Some (a, ga) /\ vget grains j = Some (b, gb) /\
        (a < b /\ too_close gap dist trivial ratio fixed ga gb \/ b < a /\ too_close gap dist trivial ratio fixed gb ga)) /\
     exists c, In c (colour (length grains) entries) /\ max < c) /\
  forall grains' active n re, out = Some (grains', active, n, re) ->
    (** order parameters 0, 1, ..., k-1, all in use *)
    (exists k, active = seq 0 k /\ forall x, x < k <-> in_use grains' x) /\
    (** their number *)
    (length active <= max \/ ((forall b, ~ colliding ratio fixed grains b) /\ force = false /\
        forall used, NoDup used -> (forall x, In x used <-> in_use grains x) -> length active = length used)) /\
    (** number of collisions *)
    (exists ids, NoDup ids /\ length ids = n /\ forall b, In b ids <-> colliding ratio fixed grains b) /\
    (** nothing reported, nothing changed *)
    (re = false -> same_ops grains grains').
Proof.
  intros ratio fixed max force fast grains MS NE. unfold reassign.
  destruct (base_loop_spec gap dist trivial ratio fixed grains MS) as (g & EG & SG & EDGES & CAND). rewrite EG. cbn [obind].
  assert (COLL : forall b, colliding ratio fixed grains b <-> exists j gb, In j (snd g) /\ vget grains j = Some (b, gb)).
  { intro b. split.
    - intros (a & ga & gb & Ha & Hb & LT & TC & EO). destruct (mget_pos _ _ _ Ha) as [i Hi]. destruct (mget_pos _ _ _ Hb) as [j Hj].
      exists j, gb. split; [|exact Hj]. apply CAND. exists i, a, ga, b, gb. repeat (split; [assumption|]). split; [apply overlaps_iff; exact TC|exact EO].
    - intros (j & gb & Hj & Vj). apply CAND in Hj. destruct Hj as (i & a & ga & b' & gb' & Ha & Hb & LT & OV & EO). rewrite Vj in Hb. injection Hb as <- <-.
      exists a, ga, gb. split; [apply (pos_mget _ _ _ _ MS Ha)|]. split; [apply (pos_mget _ _ _ _ MS Vj)|]. split; [exact LT|]. split; [apply overlaps_iff in OV; exact OV|exact EO]. }
  assert (INR : forall j, In j (snd g) -> exists b gb, vget grains j = Some (b, gb)).
  { intros j Hj. apply CAND in Hj. destruct Hj as (i & a & ga & b & gb & _ & Hb & _). eauto. }
  assert (COUNT : exists ids, NoDup ids /\ length ids = length (snd g) /\ forall b, In b ids <-> colliding ratio fixed grains b).
  { exists (map (fun j => match vget grains j with Some p => fst p | None => 0 end) (snd g)). split; [|split; [apply map_length|]].
    - pose proof (ssorted_nodup _ SG) as ND.
      apply NoDup_nth_error. intros i j Hi EQ. rewrite map_length in Hi. rewrite !nth_error_map in EQ.
      destruct (nth_error (snd g) i) as [x|] eqn:Ex; [|apply nth_error_None in Ex; lia]. destruct (nth_error (snd g) j) as [y|] eqn:Ey; [|discriminate]. cbn in EQ. injection EQ as EQ.
      destruct (INR x (nth_error_In _ _ Ex)) as (b & gb & Vx). destruct (INR y (nth_error_In _ _ Ey)) as (b' & gb' & Vy). unfold vget in *. rewrite Vx, Vy in EQ. cbn in EQ. subst b'.
      destruct (position_unique grains MS x y b gb gb' Vx Vy) as [-> _]. apply (proj1 (NoDup_nth_error (snd g)) ND); [exact Hi|congruence].
    - intro b. rewrite in_map_iff, COLL. split.
      + intros (j & E & Hj). destruct (INR j Hj) as (b' & gb & V). rewrite V in E. cbn in E. subst b'. exists j, gb. auto.
      + intros (j & gb & Hj & V). exists j. rewrite V. auto. }
  assert (NOC : snd g = [] -> forall b, ~ colliding ratio fixed grains b).
  { intros Z b C. apply COLL in C. destruct C as (j & gb & Hj & _). rewrite Z in Hj. destruct Hj. }
  assert (NEED : needed g force = true -> (exists b, colliding ratio fixed grains b) \/ force = true).
  { unfold needed. intro H. apply orb_true_iff in H. destruct H as [H|H]; [left|right; exact H]. destruct (snd g) as [|j r] eqn:ES; [discriminate|].
    destruct (INR j (or_introl eq_refl)) as (b & gb & V). exists b. apply COLL. exists j, gb. split; [left; reflexivity|exact V]. }
  (** what follows a recolouring with the order parameters of [l] extracted *)
  assert (TAIL : forall ops l re0, recolored grains ops l -> (needed g force = true -> forall x, In x (active_ops l) -> x < max) -> (needed g force = false -> l = grains) -> (re0 = false -> l = grains) ->
    exists grains' active re, compact (add_neighbours gap l, active_ops l, length (active_ops l), re0) = Some (Some (grains', active, re)) /\
      (exists k, active = seq 0 k /\ forall x, x < k <-> in_use grains' x) /\
      (length active <= max \/ ((forall b, ~ colliding ratio fixed grains b) /\ force = false /\
        forall used, NoDup used -> (forall x, In x used <-> in_use grains x) -> length active = length used)) /\
      (re = false -> same_ops grains grains')).
  { intros ops l re0 R HM HN HR. pose proof R as R'. destruct R' as [RL RR].
    assert (AE : active_ops (add_neighbours gap l) = active_ops l).
    { symmetry. apply active_ops_pointwise; [unfold add_neighbours; rewrite map_length; reflexivity|]. intros i id gr H. eexists. split; [apply add_neighbours_vget; exact H|reflexivity]. }
    assert (NL : add_neighbours gap l <> []).
    { intro C. assert (length l = 0) by (unfold add_neighbours in C; apply (f_equal (@length _)) in C; rewrite map_length in C; exact C). destruct grains; [contradiction|cbn [length] in *; lia]. }
    destruct (compact_active (add_neighbours gap l) re0 NL) as (G' & re' & EC & EA & ER & _). rewrite AE in EC, EA.
    pose proof (finish gap grains _ _ _ _ _ _ _ _ R (proj1 (active_ops_spec l)) EC) as F.
    pose proof (final_bodies grains MS _ _ F) as [FK FB].
    exists G', (seq 0 (length (active_ops l))), re'. split; [exact EC|]. split; [|split].
    - exists (length (active_ops l)). split; [reflexivity|]. intro x. rewrite <- (in_use_active G' x (keys_sorted _ _ FK MS)), EA, in_seq. lia.
    - rewrite seq_length. destruct (needed g force) eqn:N.
      + left. assert (B : incl (active_ops l) (seq 0 max)).
        { intros x Hx. specialize (HM eq_refl x Hx). apply in_seq. lia. }
        pose proof (NoDup_incl_length (ssorted_nodup _ (proj1 (active_ops_spec l))) B) as X. rewrite seq_length in X. exact X.
      + destruct (needed_false _ _ N) as [Z FF]. right. split; [apply NOC, Z|]. split; [exact FF|]. intros used UN UI. rewrite (HN eq_refl).
        apply Nat.le_antisymm; apply NoDup_incl_length; [apply ssorted_nodup, active_ops_spec| |exact UN|]; intros x Hx.
        * apply UI, in_use_active; assumption.
        * apply in_use_active; [exact MS|]. apply UI, Hx.
    - intro RF. destruct (ER RF) as [E1 E2]. specialize (HR E2). subst l. intros id gr gr' H H'. rewrite E1 in H'.
      destruct (mget_pos _ _ _ H) as [i Hi]. pose proof (add_neighbours_vget gap grains i id gr Hi) as V.
      assert (X : mget id (add_neighbours gap grains) = Some (with_near gr (near_of gap grains id gr))) by (apply (pos_mget _ i); [rewrite <- E1; apply (keys_sorted _ _ FK MS)|exact V]).
      rewrite X in H'. injection H' as <-. reflexivity. }
  destruct (recolor_cases gap dist trivial ratio fixed grains MS NE order colour OO g EG true max force fast) as [[N ER]|[[N ER]|(_ & C & _)]]; [| |discriminate]; rewrite ER.
  - cbn [obind]. destruct (TAIL _ grains false (recolored_id grains)) as (G' & act & re & EC & T1 & T2 & T3).
    + rewrite N. discriminate.
    + reflexivity.
    + reflexivity.
    + rewrite EC. cbn [obind]. eexists. split; [reflexivity|]. split; [discriminate|]. intros grains' active n re' E. injection E as <- <- <- <-. auto.
  - pose proof (full_spec gap dist trivial ratio fixed grains MS NE colour CC g EG true max) as FS. cbv zeta in FS.
    pose proof (pattern_ok gap dist trivial ratio fixed grains MS g EG true) as POK.
    destruct (CC _ _ POK) as (LC & C1 & _). destruct (list_max0_spec (colour (length grains) (pattern true (length grains) (fst g)))) as [M1 M2].
    destruct FS as [[GT EF]|(LE & l & ch & EF & R & CH)]; rewrite EF; cbn [obind].
    + exists None. split; [reflexivity|]. split; [|discriminate]. intros _. split; [apply NEED, N|]. exists (pattern true (length grains) (fst g)). split.
      * intros i j H NIJ. apply in_app_or in H. destruct H as [H|H]; [exfalso; apply in_map_iff in H; destruct H as (k & Hk & _); injection Hk as <- <-; auto|].
        apply EDGES in H. destruct H as [H|H]; apply clash_iff in H; destruct H as (a & ga & b & gb & H1 & H2 & H3 & H4).
        -- exists a, ga, b, gb. auto.
        -- exists b, gb, a, ga. auto.
      * exists (list_max0 (colour (length grains) (pattern true (length grains) (fst g)))). split; [|exact GT]. apply M2. intro Z. rewrite Z in GT. cbn in GT. lia.
    + destruct (TAIL _ l ch R) as (G' & act & re & EC & T1 & T2 & T3).
      * intros _ x Hx. apply active_ops_spec in Hx. destruct Hx as (i & [id gr] & Hi & <-). destruct (recolored_pos grains _ _ _ _ _ R Hi) as (g0 & c & _ & Vc & ->).
        cbn [snd set_op r_op]. unfold vget in Vc. rewrite nth_error_map in Vc. destruct (nth_error _ i) as [c0|] eqn:E0 in Vc; [|discriminate]. cbn in Vc. injection Vc as <-.
        apply nth_error_In in E0. specialize (C1 _ E0). specialize (M1 _ E0). lia.
      * rewrite N. discriminate.
      * apply CH.
      * rewrite EC. cbn [obind]. eexists. split; [reflexivity|]. split; [discriminate|]. intros grains' active n re' E. injection E as <- <- <- <-. auto.
Qed.

(** [distance_to_nearest_neighbor] after the assignment: the minimum of its former
    value and of the gaps to the other grains with the same new order parameter or
    the same old one. *)
Theorem C23_nearest_neighbour : forall diag ratio fixed max force fast grains grains' active n re,
  msorted grains -> grains <> [] ->
  reassign gap dist trivial diag order colour ratio fixed max force fast grains = Some (Some (grains', active, n, re)) ->
  forall id g g', mget id grains = Some g -> mget id grains' = Some g' -> nearest gap id g grains' g'.
Proof.
  intros diag ratio fixed max force fast grains grains' active n re MS NE E. unfold reassign in E.
  destruct (base_loop gap dist trivial ratio fixed (numbering 0 grains) grains grains ([], [])) as [g|] eqn:EG; [|discriminate]. cbn [obind] in E.
  destruct (recolor_cases gap dist trivial ratio fixed grains MS NE order colour OO g EG diag max force fast) as [[N ER]|[[N ER]|(N & _ & _ & l & a & n' & ch & colors & ER & Sa & R & NC)]]; rewrite ER in E.
  - cbn [obind] in E. destruct (compact _) as [[[[G act] re2]|]|] eqn:EC in E; cbn [obind] in E; try discriminate. injection E as <- _ _ _.
    exact (finish_near gap grains MS _ _ _ _ _ _ _ _ (recolored_id grains) (proj1 (active_ops_spec grains)) EC).
  - destruct (full_spec gap dist trivial ratio fixed grains MS NE colour CC g EG diag max) as [[_ EF]|(_ & l & ch & EF & R & _)]; rewrite EF in E; cbn [obind] in E; [discriminate|].
    destruct (compact _) as [[[[G act] re2]|]|] eqn:EC in E; cbn [obind] in E; try discriminate. injection E as <- _ _ _.
    exact (finish_near gap grains MS _ _ _ _ _ _ _ _ R (proj1 (active_ops_spec l)) EC).
  - cbn [obind] in E. destruct (compact _) as [[[[G act] re2]|]|] eqn:EC in E; cbn [obind] in E; try discriminate. injection E as <- _ _ _.
    exact (finish_near gap grains MS _ _ _ _ _ _ _ _ R Sa EC).
Qed.

(** Hence the zones which are moved with two grains sharing an order parameter (new
    or old) do not meet: as long as the grains, taken as spheres, are apart, the two
    transfer buffers fit into the gap. *)
Theorem C23_transfer_buffers_disjoint : forall diag ratio fixed max force fast grains grains' active n re,
  msorted grains -> grains <> [] -> (forall s t, gap s t == gap t s)%Q ->
  reassign gap dist trivial diag order colour ratio fixed max force fast grains = Some (Some (grains', active, n, re)) ->
  forall a ga b gb s t, mget a grains' = Some ga -> mget b grains' = Some gb -> a <> b -> r_op ga = r_op gb \/ r_old ga = r_old gb ->
    In s (r_segments ga) -> In t (r_segments gb) -> (0 <= gap s t)%Q ->
    exists x y, transfer_buffer ga = Some x /\ transfer_buffer gb = Some y /\ (0 <= x)%Q /\ (0 <= y)%Q /\ (x + y <= gap s t)%Q.
Proof.
  intros diag ratio fixed max force fast grains grains' active n re MS NE SYM E a ga b gb s t Ha Hb AB SH Hs Ht POS.
  pose proof (C23_reassignment_separates _ _ _ _ _ _ _ _ _ _ _ MS NE E) as [_ [K SB]].
  assert (OLD : forall id g', mget id grains' = Some g' -> exists g, mget id grains = Some g).
  { intros id g' H. apply mget_key. rewrite <- K. apply mget_key. eauto. }
  destruct (OLD _ _ Ha) as [ga0 Ha0]. destruct (OLD _ _ Hb) as [gb0 Hb0].
  destruct (C23_nearest_neighbour _ _ _ _ _ _ _ _ _ _ _ MS NE E a ga0 ga Ha0 Ha) as (_ & A & _).
  destruct (C23_nearest_neighbour _ _ _ _ _ _ _ _ _ _ _ MS NE E b gb0 gb Hb0 Hb) as (_ & B & _).
  specialize (A b gb s t Hb ltac:(congruence) SH Hs Ht).
  assert (SH' : shares gb ga) by (destruct SH as [H|H]; [left|right]; congruence).
  specialize (B a ga t s Ha AB SH' Ht Hs). unfold transfer_buffer.
  assert (HALF : forall o d, ole o (Some d) -> (0 <= d)%Q -> exists x, match o with Some z => Some (if qltb 0 (z / 2) then (z / 2)%Q else 0%Q) | None => None end = Some x /\ (0 <= x)%Q /\ (x <= d / 2)%Q).
  { intros [z|] d O D; [|destruct O]. cbn in O. eexists. split; [reflexivity|]. destruct (qltb 0 (z / 2)) eqn:Q; [apply qltb_true in Q|]; unfold Qdiv in *; change (/ 2)%Q with (1 # 2)%Q in *; split; lra. }
  pose proof (SYM s t) as SY.
  destruct (HALF _ _ A POS) as (x & X1 & X2 & X3). destruct (HALF _ _ B) as (y & Y1 & Y2 & Y3); [lra|].
  exists x, y. split; [exact X1|]. split; [exact Y1|]. split; [exact X2|]. split; [exact Y2|]. unfold Qdiv in *; change (/ 2)%Q with (1 # 2)%Q in *. lra.
Qed.
End Main.
Print Assumptions C23_reassignment_separates.
Print Assumptions C23_fast_reassignment_has_no_effect.
Print Assumptions C23_reassignment.
Print Assumptions C23_nearest_neighbour.
Print Assumptions C23_transfer_buffers_disjoint.

(** ** Example *)
(** Spheres on a line; every grain its own colour is a valid colouring. *)
Definition line_gap (s t : segment) : Q :=
  let d := (nth 0 (s_center s) 0 - nth 0 (s_center t) 0)%Q in ((if qltb d 0 then - d else d) - s_radius s - s_radius t)%Q.
Definition all_different (n : nat) (_ : list (nat * nat)) : list nat := seq 1 n.

Lemma all_different_ok : colour_contract all_different.
Proof.
  intros n entries OK. unfold all_different. split; [apply seq_length|]. split; [intros c H; apply in_seq in H; lia|].
  intros i j H NE C. destruct (OK i j H) as [Hi Hj]. unfold vget in C.
  rewrite (nth_error_nth' _ 0), (nth_error_nth' (seq 1 n) 0) in C by (rewrite seq_length; lia). rewrite !seq_nth in C by lia. injection C. lia.
Qed.

Definition ball (x : Q) (op : nat) : rgrain := mkRGrain op op [mkSegment [x] 1] 1 None.
(** ids 3, 5 and 8; 3 and 5 share the order parameter 4 and are close *)
Definition three : fmap rgrain := [(3, ball 0 4); (5, ball (21 # 10) 4); (8, ball 9 7)].

Example C23_example :
  msorted three /\ order_ok (fun l => l) /\ colour_contract all_different /\
  too_close line_gap line_gap (fun _ => true) (1 # 10) 0 (ball 0 4) (ball (21 # 10) 4) /\
  exists grains', reassign line_gap line_gap (fun _ => true) true (fun l => l) all_different (1 # 10) 0 5 false true three = Some (Some (grains', [0; 1; 2], 1, true)) /\
    map (fun p => (fst p, r_op (snd p))) grains' = [(3, 0); (5, 1); (8, 2)].
Proof.
  split; [unfold msorted; cbn; repeat constructor|]. split; [intro l; apply Permutation_refl|]. split; [apply all_different_ok|]. split.
  - split; [|left; reflexivity]. exists (mkSegment [0%Q] 1), (mkSegment [(21 # 10)%Q] 1). split; [left; reflexivity|]. split; [left; reflexivity|]. vm_compute. discriminate.
  - eexists. split; [vm_compute; reflexivity|]. reflexivity.
Qed.

(** Without a collision nothing is recoloured but the numbers are made contiguous. *)
Example C23_example_gaps :
  exists grains', reassign line_gap line_gap (fun _ => true) true (fun l => l) all_different (1 # 10) 0 5 false true [(3, ball 0 4); (8, ball 9 7)] = Some (Some (grains', [0; 1], 0, true)) /\
    map (fun p => (fst p, r_op (snd p))) grains' = [(3, 0); (8, 1)].
Proof. eexists. split; [vm_compute; reflexivity|]. reflexivity. Qed.

(** ** Where the full claim fails *)
(** The number of order parameters is compared with the maximum only when a
    colouring is made: without a collision it may be larger. *)
Theorem C23_maximum_exceeded_refuted : ~ forall grains max grains' active n re, msorted grains -> grains <> [] ->
  reassign line_gap line_gap (fun _ => true) true (fun l => l) all_different (1 # 10) 0 max false true grains = Some (Some (grains', active, n, re)) -> length active <= max.
Proof.
  intro H. assert (X : 2 <= 1); [|lia].
  refine (H [(3, ball 0 0); (8, ball 9 1)] 1 _ [0; 1] 0 false _ _ _).
  - unfold msorted; cbn; repeat constructor.
  - discriminate.
  - vm_compute. reflexivity.
Qed.
Print Assumptions C23_maximum_exceeded_refuted.

(** Without grains the last active order parameter does not exist. *)
Theorem C23_no_grains_refuted : forall gap dist trivial diag order colour ratio fixed max fast,
  reassign gap dist trivial diag order colour ratio fixed max false fast [] = None.
Proof. reflexivity. Qed.
Print Assumptions C23_no_grains_refuted.

(** ** The fast reassignment: first fit *)
(** [c] is the order parameter of a neighbour of the grain in [row]. *)
Definition neighbour_has (sp : list (nat * nat)) (colors : list nat) (row c : nat) : Prop := exists j, In (row, j) sp /\ vget colors j = Some c.

(** [colors'] is [colors] with the entry [row] replaced by [c]. *)
Definition replaced (colors : list nat) (row c : nat) (colors' : list nat) : Prop :=
  length colors' = length colors /\ vget colors' row = Some c /\ forall k, k <> row -> vget colors' k = vget colors k.

(** The candidates are taken in turn: each gets the smallest active order parameter
    none of its neighbours has at that moment, or, if all are taken, a new one;
    the attempt is given up when there would be more than [max]. *)
Inductive first_fit (sp : list (nat * nat)) (max : nat) : list nat -> list nat -> list nat -> nat -> list nat * list nat * nat * bool -> Prop :=
| ff_done : forall colors active n, first_fit sp max [] colors active n (colors, active, n, false)
| ff_reuse : forall row rows colors active n c colors' out,
    In c active -> ~ neighbour_has sp colors row c -> (forall x, In x active -> x < c -> neighbour_has sp colors row x) ->
    replaced colors row c colors' -> first_fit sp max rows colors' active n out -> first_fit sp max (row :: rows) colors active n out
| ff_new : forall row rows colors active active' n colors' out,
    (forall x, In x active -> neighbour_has sp colors row x) -> S n <= max -> (forall x, In x active' <-> x = n \/ In x active) -> ssorted active' ->
    replaced colors row n colors' -> first_fit sp max rows colors' active' (S n) out -> first_fit sp max (row :: rows) colors active n out
| ff_give_up : forall row rows colors active active' n,
    (forall x, In x active -> neighbour_has sp colors row x) -> max < S n -> (forall x, In x active' <-> x = n \/ In x active) -> ssorted active' ->
    first_fit sp max (row :: rows) colors active n (colors, active', S n, true).

Lemma serase_spec : forall x s, ssorted s -> ssorted (serase x s) /\ forall y, In y (serase x s) <-> In y s /\ y <> x.
Proof.
  intros x s H. induction H as [|y r HS IH HF]; cbn [serase].
  - split; [constructor|]. intro y. cbn [In]. tauto.
  - rewrite Forall_forall in HF. destruct (x =? y) eqn:E.
    + apply Nat.eqb_eq in E. subst. split; [exact HS|]. intro z. cbn [In]. split; [|intros [[A|A] B]; [congruence|exact A]].
      intro Hz. specialize (HF z Hz). split; [tauto|lia].
    + apply Nat.eqb_neq in E. destruct IH as [I1 I2]. split.
      * constructor; [exact I1|]. apply Forall_forall. intros z Hz. apply HF. apply I2, Hz.
      * intro z. cbn [In]. rewrite I2. split; [intros [H|H]; [subst; split; [left; reflexivity|congruence]|tauto]|tauto].
Qed.

Lemma erase_neighbours_spec : forall sp row colors available out, ssorted available -> erase_neighbours sp row colors available = Some out ->
  ssorted out /\ forall c, In c out <-> In c available /\ ~ neighbour_has sp colors row c.
Proof.
  induction sp as [|[i j] sp IH]; intros row colors available out HS E; cbn [erase_neighbours] in E.
  - injection E as <-. split; [exact HS|]. intro c. split; [|tauto]. intro H. split; [exact H|]. intros (k & [] & _).
  - destruct (i =? row) eqn:EI.
    + apply Nat.eqb_eq in EI. subst i. destruct (vget colors j) as [c0|] eqn:EC; cbn [obind] in E; [|discriminate].
      destruct (serase_spec c0 available HS) as [S1 S2]. destruct (IH _ _ _ _ S1 E) as [O1 O2]. split; [exact O1|].
      intro c. rewrite O2, S2. split.
      * intros [[A B] C]. split; [exact A|]. intros (k & [K|K] & V); [injection K as <-; congruence|]. apply C. exists k. auto.
      * intros [A B]. split; [split; [exact A|]|].
        -- intro. subst. apply B. exists j. split; [left; reflexivity|exact EC].
        -- intros (k & K & V). apply B. exists k. split; [right; exact K|exact V].
    + apply Nat.eqb_neq in EI. destruct (IH _ _ _ _ HS E) as [O1 O2]. split; [exact O1|]. intro c. rewrite O2. split; intros [A B]; (split; [exact A|]); intros (k & K & V); apply B.
      * destruct K as [K|K]; [congruence|]. exists k. auto.
      * exists k. split; [right; exact K|exact V].
Qed.

Lemma vset_replaced : forall colors row c colors', vset colors row c = Some colors' -> replaced colors row c colors'.
Proof.
  intros colors row c colors' E. split; [eapply vset_length; exact E|]. split.
  - rewrite (vset_get _ _ _ _ _ row E). rewrite Nat.eqb_refl. reflexivity.
  - intros k K. rewrite (vset_get _ _ _ _ _ k E). destruct (Nat.eqb_spec k row); [congruence|reflexivity].
Qed.

Theorem C23_fast_reassignment_is_first_fit : forall sp max rows colors active n out, ssorted active ->
  fast_loop sp max rows colors active n = Some out -> first_fit sp max rows colors active n out.
Proof.
  intros sp max rows. induction rows as [|row rows IH]; intros colors active n out HS E; cbn [fast_loop] in E.
  - injection E as <-. constructor.
  - destruct (erase_neighbours sp row colors active) as [available|] eqn:EA; cbn [obind] in E; [|discriminate].
    destruct (erase_neighbours_spec _ _ _ _ _ HS EA) as [AS AI].
    assert (DEC : forall x, In x active -> ~ In x available -> neighbour_has sp colors row x).
    { intros x Hx Hn.
      destruct (in_dec Nat.eq_dec x (map (fun p => match vget colors (snd p) with Some c => c | None => S x end) (filter (fun p => fst p =? row) sp))) as [Y|Y].
      - apply in_map_iff in Y. destruct Y as ([i j] & Y1 & Y2). apply filter_In in Y2. cbn [fst snd] in *. destruct Y2 as [Y2 Y3]. apply Nat.eqb_eq in Y3. subst i.
        destruct (vget colors j) as [c|] eqn:V; [|lia]. subst c. exists j. auto.
      - exfalso. apply Hn. apply AI. split; [exact Hx|]. intros (j & J & V). apply Y. apply in_map_iff. exists (row, j). cbn [snd fst]. rewrite V.
        split; [reflexivity|]. apply filter_In. split; [exact J|]. cbn. apply Nat.eqb_refl. }
    destruct available as [|c rest].
    + assert (SI : ssorted (sinsert n active)) by (apply sinsert_sorted; exact HS).
      destruct (max <? S n) eqn:EM.
      * injection E as <-. apply Nat.ltb_lt in EM. apply ff_give_up; auto. intro x. apply sinsert_in.
      * apply Nat.ltb_ge in EM. destruct (vset colors row n) as [colors'|] eqn:EV; cbn [obind] in E; [|discriminate].
        eapply ff_new; [auto|exact EM|intro x; apply sinsert_in|exact SI|apply vset_replaced; exact EV|]. apply IH; assumption.
    + destruct (vset colors row c) as [colors'|] eqn:EV; cbn [obind] in E; [|discriminate].
      assert (C : In c (c :: rest)) by (left; reflexivity). apply AI in C. destruct C as [C1 C2].
      eapply ff_reuse; [exact C1|exact C2| |apply vset_replaced; exact EV|apply IH; assumption].
      intros x Hx L. apply DEC; [exact Hx|]. inversion AS as [|? ? _ F]. subst. rewrite Forall_forall in F. intros [H|H]; [lia|]. specialize (F x H). lia.
Qed.

Example C23_fast_case : first_fit [(0, 1); (1, 0); (1, 2); (2, 1)] 3 [1; 2] [0; 0; 0] [0; 1; 2] 3 ([0; 1; 0], [0; 1; 2], 3, false).
Proof. apply C23_fast_reassignment_is_first_fit; [|vm_compute; reflexivity]. repeat constructor. Qed.

Example C23_fast_new_case : first_fit [(0, 1); (1, 0)] 2 [1] [0; 0] [0] 1 ([0; 1], [0; 1], 2, false).
Proof. apply C23_fast_reassignment_is_first_fit; [|vm_compute; reflexivity]. repeat constructor. Qed.
Print Assumptions C23_fast_reassignment_is_first_fit.
