(** C60: the wavefront estimate of the distances between particles. *)
From Coq Require Import List QArith Arith Bool Lia ZArith.
From Verif Require Import Util FloodModel FloodSpec FloodProofs WavefrontModel NeighborProps WavefrontProofs WaveLoopProofs.
Import ListNotations.
Local Open Scope nat_scope.

(** The hypotheses: the cells are on one of the ranks, touching cells with
    particles belong to the same particle, faces between cells of different size
    do not separate ranks, and a rank has none of its own cells as ghost cell. *)
Record wave_ok (m : mesh) (pid : nat -> option nat) (ghost : nat -> nat -> bool) (n_ranks : nat) : Prop := {
  wo_mesh : wave_mesh m;
  wo_rank : forall c, In c (active m) -> rank m c < n_ranks;
  wo_separated : forall c n p q, In c (active m) -> In n (face_cells m c) -> pid c = Some p -> pid n = Some q -> p = q;
  wo_border : forall c n e, In c (active m) -> In n (neighbors m c) -> children m n <> [] ->
    In e (subface_children m c n) -> rank m e = rank m c;
  wo_ghost : forall me g, ghost me g = true -> rank m g <> me }.

(** Length of a way between two particles in units of the finest cells: the cells
    in between, and the two end cells without one unit each. *)
Definition way_length (level : nat -> nat) (max_level : nat) (l : list nat) : Z :=
  (fold_right (fun c s => 2 ^ Z.of_nat (max_level - level c) + s) 0 l - 2)%Z.

(** The distance stored for the pair [p], [q]. *)
Definition stored (est : list (nat * nat * Z)) (p q : nat) (v : Z) : Prop :=
  assessed (Nat.min p q, Nat.max p q) est = Some v.

Section Start.
Variable m : mesh.
Variable level : nat -> nat.
Variable max_level : nat.
Variable pid : nat -> option nat.
Variable ghost : nat -> nat -> bool.
Variable n_ranks : nat.
Hypothesis OK : wave_ok m pid ghost n_ranks.

Notation wgt := (weight level max_level).
Notation idx := (idx level max_level).
Notation sumw := (sumw level max_level).
Let WM := wo_mesh m pid ghost n_ranks OK.
Let SEP := wo_separated m pid ghost n_ranks OK.

Lemma front_exposed : forall c, In c (active m) -> front m pid (rank m c) c <-> exposed m pid c.
Proof.
  intros c Hc. split.
  - intros (n & Hn & [[H1 H2]|[H1 (d & Hd & H3 & H4 & H5 & H6)]]).
    + exists n. split; [|exact H2]. unfold face_cells. apply in_flat_map. exists n. split; [exact Hn|]. rewrite H1. left. reflexivity.
    + exists d. split; [|exact H5]. unfold face_cells. apply in_flat_map. exists n. split; [exact Hn|].
      destruct (children m n) eqn:E; [contradiction|]. apply (wm_subface m WM c n d Hc Hn); [congruence|]. rewrite E. auto.
  - intros (e & He & Hv). unfold face_cells in He. apply in_flat_map in He as (n & Hn & He). exists n. split; [exact Hn|].
    destruct (children m n) as [|y ys] eqn:E.
    + destruct He as [<-|[]]. left. auto.
    + assert (CN : children m n <> []) by congruence. pose proof (wo_border m pid ghost n_ranks OK c n e Hc Hn CN He) as Hr.
      apply (wm_subface m WM c n e Hc Hn CN) in He as (H1 & H2 & H3). right. split; [exact CN|]. exists e. auto 10.
Qed.

Lemma set_zero_ok : forall cells dist, (forall c, In c cells -> c < length dist) ->
  exists dist', set_zero level max_level cells dist = Some dist' /\ length dist' = length dist /\
    forall c, vget dist' c = if in_dec Nat.eq_dec c cells then Some (wgt c - 1)%Z else vget dist c.
Proof.
  induction cells as [|x cells IH]; intros dist H; cbn [set_zero].
  - exists dist. auto.
  - destruct (vset_some _ dist x (wgt x - 1)%Z) as [d1 E1]; [apply H; left; reflexivity|]. rewrite E1. cbn [obind].
    pose proof (vset_length _ _ _ _ _ E1) as L1. destruct (IH d1) as (d2 & E2 & L2 & G2).
    { intros c Hc. rewrite L1. apply H. right. exact Hc. }
    exists d2. split; [exact E2|]. split; [lia|]. intro c. rewrite G2, (vset_get _ _ _ _ _ c E1).
    destruct (in_dec Nat.eq_dec c cells) as [Hc|Hc]; destruct (in_dec Nat.eq_dec c (x :: cells)) as [Hc'|Hc'];
      try reflexivity; destruct (Nat.eqb_spec c x) as [->|N]; try reflexivity; exfalso.
    + apply Hc'. right. exact Hc.
    + apply Hc'. right. exact Hc.
    + destruct Hc' as [->|Hc']; contradiction.
    + apply Hc'. left. reflexivity.
Qed.

Lemma inagg_concat : forall aggs c, In c (concat (concat aggs)) <-> exists r agg k, vget aggs r = Some agg /\ inagg agg k c.
Proof.
  intros aggs c. rewrite in_concat. split.
  - intros (l & Hl & Hc). apply in_concat in Hl as (agg & Ha & Hl). apply In_nth_error in Ha as [r Hr]. apply In_nth_error in Hl as [k Hk].
    exists r, agg, k. split; [exact Hr|]. exists l. split; assumption.
  - intros (r & agg & k & Hr & l & Hl & Hc). exists l. split; [|exact Hc]. apply in_concat. exists agg.
    split; eapply nth_error_In; eassumption.
Qed.

(** The state before the iterations. *)
Lemma start_ok : exists fuel0, forall fuel, fuel0 <= fuel -> exists mark aggs dist,
  prep_ranks m level max_level pid fuel (seq 0 n_ranks) (repeat None (n_cells m)) = Some (mark, aggs) /\
  set_zero level max_level (concat (concat aggs)) (repeat (-1)%Z (n_cells m)) = Some dist /\ length aggs = n_ranks /\
  good m level max_level pid (mark, dist) /\
  ranks_ok m level max_level pid (mark, dist) 0
    (map (fun e => mkRank (snd e) (ghost_cache m ghost mark (fst e)) []) (combine (seq 0 n_ranks) aggs)) /\
  (forall c p d, marked (mark, dist) c p d -> pid c = Some p) /\
  (forall r agg, vget aggs r = Some agg -> forall k c, inagg agg k c <-> k = idx c /\ mine m r c /\ exposed m pid c /\ exists p, pid c = Some p).
Proof.
  destruct (prep_ranks_ok m level max_level pid WM) as [fuel0 HP]. exists fuel0. intros fuel HF.
  destruct (HP fuel n_ranks 0 (repeat None (n_cells m)) HF (repeat_length _ _)) as (mark & aggs & E & L1 & L2 & G & A).
  { intros c Hc _. rewrite vget_repeat. pose proof (active_lt m WM c Hc). destruct (Nat.ltb_spec c (n_cells m)); [reflexivity|lia]. }
  cbn [Nat.add] in *.
  assert (AG : forall r agg, vget aggs r = Some agg -> forall k c, inagg agg k c <-> k = idx c /\ mine m r c /\ exposed m pid c /\ exists p, pid c = Some p).
  { intros r agg Hr k c. rewrite (proj2 (A r agg Hr) k c). split; intros (H1 & [H2 H3] & H4 & H5); subst k.
    - split; [reflexivity|]. split; [split; assumption|]. split; [|exact H5]. apply front_exposed; [exact H2|]. rewrite H3. exact H4.
    - split; [reflexivity|]. split; [split; assumption|]. split; [|exact H5]. rewrite <- H3. apply front_exposed; assumption. }
  assert (MK : forall c, In c (active m) -> vget mark c = Some (pid c)).
  { intros c Hc. rewrite G. pose proof (wo_rank m pid ghost n_ranks OK c Hc). cbn [Nat.leb andb].
    destruct (Nat.ltb_spec (rank m c) n_ranks); [|lia]. cbn [andb]. destruct (in_dec Nat.eq_dec c (active m)); [reflexivity|contradiction]. }
  assert (MK' : forall c p, vget mark c = Some (Some p) -> In c (active m) /\ pid c = Some p).
  { intros c p H. rewrite G in H. destruct (_ && _ && _) eqn:B.
    - apply andb_true_iff in B as [_ B]. destruct (in_dec Nat.eq_dec c (active m)); [|discriminate]. split; [assumption|congruence].
    - rewrite vget_repeat in H. destruct (c <? n_cells m); discriminate. }
  destruct (set_zero_ok (concat (concat aggs)) (repeat (-1)%Z (n_cells m))) as (dist & Ed & Ld & Gd).
  { intros c Hc. rewrite repeat_length. apply inagg_concat in Hc as (r & agg & k & Hr & Hc). apply (AG r agg Hr) in Hc as (_ & [H _] & _).
    apply (active_lt m WM), H. }
  rewrite repeat_length in Ld. exists mark, aggs, dist. split; [exact E|]. split; [exact Ed|]. split; [exact L2|].
  assert (IN : forall c p, In c (active m) -> pid c = Some p -> exposed m pid c -> vget dist c = Some (wgt c - 1)%Z).
  { intros c p Hc Hp Hx. rewrite Gd. destruct (in_dec Nat.eq_dec c (concat (concat aggs))) as [|N]; [reflexivity|]. exfalso. apply N.
    apply inagg_concat. pose proof (wo_rank m pid ghost n_ranks OK c Hc) as Hr. rewrite <- L2 in Hr. apply vget_some in Hr as [agg Ha].
    exists (rank m c), agg, (idx c). split; [exact Ha|]. apply (AG _ _ Ha). split; [reflexivity|]. split; [split; auto|]. eauto. }
  assert (GOOD : good m level max_level pid (mark, dist)).
  { split; cbn [fst snd]; auto.
    - intros c p d [H _]. apply MK' in H as [H1 H2]. auto.
    - intros c p d [H1 H2] HL. cbn [fst snd] in *. apply MK' in H1 as [H1 H3]. destruct HL as [HL|HL]; [congruence|].
      exists []. split; [apply trail_cell; assumption|]. rewrite (IN c p H1 H3 HL) in H2. inversion H2. cbn [WaveLoopProofs.sumw fold_right]. lia.
    - intros c Hc H. rewrite (MK c Hc) in H. congruence. }
  split; [exact GOOD|]. split; [|split; [intros c p d [H _]; apply (MK' c p H)|exact AG]].
  assert (GEN : forall n me (ags : list (list (list nat))), (forall r agg, vget ags r = Some agg -> vget aggs (me + r) = Some agg) ->
    ranks_ok m level max_level pid (mark, dist) me
      (map (fun e => mkRank (snd e) (ghost_cache m ghost mark (fst e)) []) (combine (seq me n) ags))).
  { induction n as [|n IH]; intros me ags Ha; [exact I|]. destruct ags as [|agg ags]; [exact I|]. cbn [seq combine map fst snd ranks_ok].
    assert (H0 : vget aggs me = Some agg). { pose proof (Ha 0 agg eq_refl) as H0. rewrite Nat.add_0_r in H0. exact H0. }
    split.
    - split; cbn [r_agg r_cache r_dist].
      + apply (A me agg H0).
      + intros k c H. apply (AG me agg H0) in H as (_ & [H1 H2] & H3 & p & H4). split; [exact H1|]. split; [exact H2|].
        split; [right; exact H3|]. exists p, (wgt c - 1)%Z. split; cbn [fst snd]; [rewrite (MK c H1), H4; reflexivity|].
        apply (IN c p H1 H4 H3).
      + intros g ls H. unfold ghost_cache in H. apply filter_In in H as [H _]. apply in_map_iff in H as (x & Ex & Hx). inversion Ex; subst g ls.
        apply filter_In in Hx as [Hx _]. split; [exact Hx|]. intros l Hl. apply filter_In in Hl as [Hl1 Hl2].
        apply andb_true_iff in Hl2 as [Hl2 Hl3]. apply (beyond_faces m WM x l Hx) in Hl1. split; [exact Hl1|].
        split; [|apply Nat.eqb_eq, Hl2]. unfold unmarked in Hl3. rewrite (MK l (face_active m WM x l Hx Hl1)) in Hl3.
        destruct (pid l); [discriminate|reflexivity].
      + intros k v [].
    - apply IH. intros r agg' Hr. replace (S me + r) with (me + S r) by lia. apply Ha. exact Hr. }
  apply GEN. intros r agg H. exact H.
Qed.

(** Merging keeps the stored distances. *)
Lemma merge_in : forall l acc k v, In (k, v) (fold_left (fun a e => assess (fst e) (snd e) a) l acc) -> In (k, v) l \/ In (k, v) acc.
Proof.
  induction l as [|[j d] l IH]; intros acc k v H; cbn [fold_left] in H; [auto|]. apply IH in H as [H|H]; [left; right; exact H|].
  cbn [fst snd] in H. apply assess_in in H as [H|[-> ->]]; [auto|]. left. left. reflexivity.
Qed.

Lemma merge_le : forall l acc k v, In (k, v) l \/ assessed k acc = Some v ->
  exists v', assessed k (fold_left (fun a e => assess (fst e) (snd e) a) l acc) = Some v' /\ (v' <= v)%Z.
Proof.
  induction l as [|[j d] l IH]; intros acc k v H; cbn [fold_left fst snd].
  - destruct H as [[]|H]. exists v. split; [exact H|lia].
  - destruct H as [[H|H]|H].
    + inversion H; subst. destruct (IH (assess k v acc) k (match assessed k acc with Some e => Z.min e v | None => v end)) as (v' & E & L).
      { right. rewrite assessed_assess, peqb_refl. reflexivity. }
      exists v'. split; [exact E|]. destruct (assessed k acc); lia.
    + apply IH. left. exact H.
    + destruct (IH (assess j d acc) k (if peqb j k then match assessed j acc with Some e => Z.min e d | None => d end else v)) as (v' & E & L).
      { right. rewrite assessed_assess. destruct (peqb j k); [reflexivity|exact H]. }
      exists v'. split; [exact E|]. destruct (peqb j k) eqn:B; [|exact L]. apply peqb_spec in B. subst j. rewrite H in L. lia.
Qed.

(** ** One rank *)
Section Serial.
Definition two_levels : Prop := forall c, In c (active m) -> idx c <= 1.

Lemma two_weight : two_levels -> forall c, In c (active m) -> wgt c = Z.of_nat (S (idx c)).
Proof.
  intros H c Hc. specialize (H c Hc). unfold weight. fold (idx c). destruct (idx c) as [|[|k]]; [reflexivity|reflexivity|lia].
Qed.

Notation fields := (list (option nat) * list Z)%type.

(** All cells around [c] are marked, and collisions are stored. *)
Definition treated (f : fields) (r : rank_state) (p : nat) (d : Z) (n : nat) : Prop :=
  exists q e, marked f n q e /\ (two_levels -> pid n = None -> (e <= d + wgt n)%Z) /\
    (p <> q -> exists v, assessed (Nat.min p q, Nat.max p q) (r_dist r) = Some v /\ (v <= d + e)%Z).

Definition processed (f : fields) (r : rank_state) (c p : nat) (d : Z) : Prop :=
  forall n, In n (face_cells m c) -> treated f r p d n.

Definition lower (r r' : rank_state) : Prop :=
  forall k v, assessed k (r_dist r) = Some v -> exists v', assessed k (r_dist r') = Some v' /\ (v' <= v)%Z.

Lemma treated_mono : forall f f' r r' p d n, extends f f' -> lower r r' -> treated f r p d n -> treated f' r' p d n.
Proof.
  intros f f' r r' p d n X L (q & e & M & H1 & H2). exists q, e. split; [apply X, M|]. split; [exact H1|].
  intro N. destruct (H2 N) as (v & E & Hv). destruct (L _ _ E) as (v' & E' & Hv'). exists v'. split; [exact E'|lia].
Qed.

Lemma marked_fun : forall f c p d q e, marked f c p d -> marked f c q e -> p = q /\ d = e.
Proof. intros f c p d q e [H1 H2] [H3 H4]. split; congruence. Qed.

(** The state in the middle of iteration [t], [F] being the cells still to be
    processed. *)
Record mid (t : nat) (F : list nat) (s : fields * rank_state) : Prop := {
  m_good : good m level max_level pid (fst s);
  m_rank : rank_ok m level max_level pid (fst s) 0 (snd s);
  m_live : forall c p d, marked (fst s) c p d -> live m pid c -> processed (fst s) (snd s) c p d \/ In c F \/
    exists k, inagg (r_agg (snd s)) k c;
  m_agg : two_levels -> forall k c p d, inagg (r_agg (snd s)) k c -> marked (fst s) c p d -> d = Z.of_nat (S t + k);
  m_cells : forall c, In c F -> In c (active m) /\ live m pid c /\ exists p d, marked (fst s) c p d;
  m_front : two_levels -> forall c p d, In c F -> marked (fst s) c p d -> d = Z.of_nat t;
  m_void : two_levels -> forall c p d, marked (fst s) c p d -> pid c = None -> (d <= Z.of_nat t + wgt c)%Z }.

Hypothesis ONE : forall c, In c (active m) -> rank m c = 0.

Lemma mid_handle : forall t F s c n p d, mid t F s -> In c F -> In c (active m) -> live m pid c -> marked (fst s) c p d ->
  In n (face_cells m c) ->
  exists s', handle_cells level max_level c n s = Some s' /\ mid t F s' /\ extends (fst s) (fst s') /\ lower (snd s) (snd s') /\
    treated (fst s') (snd s') p d n.
Proof.
  intros t F [f r] c n p d M HF Hc HL HM Hn. cbn [fst snd] in *.
  pose proof (face_active m WM c n Hc Hn) as Hna. pose proof (ONE n Hna) as Hr.
  destruct (handle_cases m level max_level pid WM SEP 0 f r c n p d (m_good _ _ _ M) (m_rank _ _ _ M) Hc HL HM Hn Hr)
    as [(agg & mark & dist & H1 & H2 & E & S1 & Mn & B & A)|[(e & He & E)|(q & e & N & He & LN & E & S1)]].
  - eexists. split; [exact E|]. pose proof (st_ext _ _ _ _ _ _ _ S1) as X. cbn [fst snd] in X.
    assert (LO : lower r (mkRank agg (r_cache r) (r_dist r))) by (intros k v H; exists v; split; [exact H|lia]).
    assert (D0 : two_levels -> d = Z.of_nat t) by (intro T; apply (m_front _ _ _ M T c p d HF HM)).
    split; [|split; [exact X|split; [exact LO|]]].
    + split; cbn [fst snd r_agg r_dist].
      * apply (st_good _ _ _ _ _ _ _ S1).
      * apply (st_rank _ _ _ _ _ _ _ S1).
      * intros x q e Hx HLx. apply B in Hx as [Hx|(-> & -> & ->)].
        -- destruct (m_live _ _ _ M x q e Hx HLx) as [P|[P|(k & P)]]; cbn [fst snd] in *.
           ++ left. intros y Hy. eapply treated_mono; [exact X|exact LO|apply P, Hy].
           ++ auto.
           ++ right. right. exists k. apply A. auto.
        -- right. right. exists (idx n). apply A. auto.
      * intros T k x q e Hk Hx. apply A in Hk as [Hk|[-> ->]].
        -- destruct (k_agg _ _ _ _ _ _ _ (m_rank _ _ _ M) k x Hk) as (_ & _ & _ & q' & e' & Hx'). cbn [fst snd] in *.
           destruct (marked_fun _ _ _ _ _ _ Hx (X _ _ _ Hx')) as [-> ->]. apply (m_agg _ _ _ M T k x q' e' Hk Hx').
        -- destruct (marked_fun _ _ _ _ _ _ Hx Mn) as [-> ->]. rewrite (D0 T), (two_weight T n Hna). lia.
      * intros x Hx. destruct (m_cells _ _ _ M x Hx) as (Q1 & Q2 & q & e & Q3). split; [exact Q1|]. split; [exact Q2|].
        exists q, e. apply X, Q3.
      * intros T x q e Hx Hm. apply B in Hm as [Hm|(-> & -> & ->)]; [apply (m_front _ _ _ M T x q e Hx Hm)|].
        exfalso. destruct (m_cells _ _ _ M n Hx) as (_ & _ & q & e & [Q3 _]). cbn [fst] in Q3. congruence.
      * intros T x q e Hx Hv. apply B in Hx as [Hx|(-> & -> & ->)]; [apply (m_void _ _ _ M T x q e Hx Hv)|]. rewrite (D0 T). lia.
    + exists p, (d + wgt n)%Z. split; [exact Mn|]. split; [intros; lia|]. intro N. contradiction.
  - exists (f, r). split; [exact E|]. split; [exact M|]. split; [apply extends_refl|]. split; [intros k v H; exists v; split; [exact H|lia]|].
    exists p, e. split; [exact He|]. split; [|intro N; contradiction]. intros T Hv. rewrite (m_front _ _ _ M T c p d HF HM).
    apply (m_void _ _ _ M T n p e He Hv).
  - eexists. split; [exact E|]. cbn [fst snd]. set (r' := mkRank _ _ _) in *.
    assert (LO : lower r r').
    { intros k v H. unfold r'. cbn [r_dist]. rewrite assessed_assess. destruct (peqb (Nat.min p q, Nat.max p q) k) eqn:EB.
      - apply peqb_spec in EB. subst k. rewrite H. eexists. split; [reflexivity|]. lia.
      - exists v. split; [exact H|lia]. }
    split; [|split; [apply extends_refl|split; [exact LO|]]].
    + split; cbn [fst snd].
      * apply (m_good _ _ _ M).
      * apply (st_rank _ _ _ _ _ _ _ S1).
      * intros x y z Hx HLx. destruct (m_live _ _ _ M x y z Hx HLx) as [P|P]; [left|auto].
        intros w Hw. eapply treated_mono; [apply extends_refl|exact LO|apply P, Hw].
      * apply (m_agg _ _ _ M).
      * apply (m_cells _ _ _ M).
      * apply (m_front _ _ _ M).
      * apply (m_void _ _ _ M).
    + exists q, e. split; [exact He|]. split.
      * intros T Hv. rewrite (m_front _ _ _ M T c p d HF HM). apply (m_void _ _ _ M T n q e He Hv).
      * intros _. unfold r'. cbn [r_dist]. rewrite assessed_assess, peqb_refl. eexists. split; [reflexivity|].
        destruct (assessed (Nat.min p q, Nat.max p q) (r_dist r)); lia.
Qed.

(** Processing one cell of the front *)
Lemma mid_grow : forall t c F s, mid t (c :: F) s -> exists s', grow m level max_level 0 c s = Some s' /\ mid t F s' /\
  r_cache (snd s') = r_cache (snd s).
Proof.
  intros t c F s M. destruct (m_cells _ _ _ M c (or_introl eq_refl)) as (Hc & HL & p & d & HM).
  assert (STEP : forall l done s, (forall n, In n l -> In n (face_cells m c)) -> mid t (c :: F) s -> marked (fst s) c p d ->
    (forall n, In n done -> treated (fst s) (snd s) p d n) ->
    exists s', each (fun n s => if rank m n =? 0 then handle_cells level max_level c n s else Some s) l s = Some s' /\
      mid t (c :: F) s' /\ marked (fst s') c p d /\ r_cache (snd s') = r_cache (snd s) /\
      forall n, In n (done ++ l) -> treated (fst s') (snd s') p d n).
  { clear M HM. clear s. induction l as [|n l IH]; intros done s Hl M HM HD; cbn [each].
    - exists s. split; [reflexivity|]. rewrite app_nil_r. auto.
    - assert (Hn : In n (face_cells m c)) by (apply Hl; left; reflexivity).
      rewrite (ONE n (face_active m WM c n Hc Hn)). cbn [Nat.eqb].
      destruct (mid_handle t (c :: F) s c n p d M (or_introl eq_refl) Hc HL HM Hn) as (s1 & E1 & M1 & X1 & L1 & T1).
      rewrite E1. cbn [obind].
      assert (C1 : r_cache (snd s1) = r_cache (snd s)).
      { destruct (handle_stepped m level max_level pid WM SEP 0 c n s p d (m_good _ _ _ M) (m_rank _ _ _ M) Hc HL HM Hn
          (ONE n (face_active m WM c n Hc Hn))) as (s1' & E1' & S1). assert (s1' = s1) by congruence. subst s1'. apply (st_cache _ _ _ _ _ _ _ S1). }
      destruct (IH (done ++ [n]) s1 (fun n Hn => Hl n (or_intror Hn)) M1 (X1 _ _ _ HM)) as (s2 & E2 & M2 & HM2 & C2 & T2).
      + intros x Hx. apply in_app_iff in Hx as [Hx|[<-|[]]]; [|exact T1]. eapply treated_mono; [exact X1|exact L1|apply HD, Hx].
      + exists s2. split; [exact E2|]. split; [exact M2|]. split; [exact HM2|]. split; [congruence|].
        intros x Hx. apply T2. rewrite <- app_assoc. exact Hx. }
  destruct (STEP (beyond m c) [] s (fun n Hn => proj1 (beyond_faces m WM c n Hc) Hn) M HM) as (s' & E & M' & HM' & C' & T').
  { intros n []. }
  exists s'. split; [exact E|]. split; [|exact C'].
  assert (P : processed (fst s') (snd s') c p d).
  { intros n Hn. apply T'. cbn [app]. apply (beyond_faces m WM c n Hc), Hn. }
  split; try apply M'.
  - intros x q e Hx HLx. destruct (m_live _ _ _ M' x q e Hx HLx) as [H|[[<-|H]|H]]; auto.
    destruct (marked_fun _ _ _ _ _ _ Hx HM') as [-> ->]. auto.
  - intros x Hx. apply (m_cells _ _ _ M'). right. exact Hx.
  - intros T x q e Hx. apply (m_front _ _ _ M' T). right. exact Hx.
Qed.

Lemma mid_front : forall t F s, mid t F s -> exists s', each (grow m level max_level 0) F s = Some s' /\ mid t [] s' /\
  r_cache (snd s') = r_cache (snd s).
Proof.
  intros t. induction F as [|c F IH]; intros s M; cbn [each].
  - exists s. auto.
  - destruct (mid_grow t c F s M) as (s1 & E1 & M1 & C1). rewrite E1. cbn [obind].
    destruct (IH s1 M1) as (s2 & E2 & M2 & C2). exists s2. split; [exact E2|]. split; [exact M2|congruence].
Qed.

(** The state before iteration [t] *)
Definition before (t : nat) (f : fields) (rs : list rank_state) : Prop := exists r, rs = [r] /\ r_cache r = [] /\
  (forall c p d, marked f c p d -> live m pid c -> processed f r c p d \/ exists k, inagg (r_agg r) k c) /\
  (two_levels -> forall k c p d, inagg (r_agg r) k c -> marked f c p d -> d = Z.of_nat (t + k)) /\
  (two_levels -> forall c p d, marked f c p d -> pid c = None -> (d <= Z.of_nat t + wgt c)%Z).

Lemma before_step : forall t f rs f' rs', good m level max_level pid f -> ranks_ok m level max_level pid f 0 rs ->
  before t f rs -> iterate_ranks m level max_level 0 f f rs = Some (f', rs') -> before (S t) f' rs'.
Proof.
  intros t f rs f' rs' G K (r & -> & C & H1 & H2 & H3) E. destruct K as [K _].
  cbn [iterate_ranks] in E. unfold iterate_rank in E. cbn [fst snd] in E.
  destruct (r_agg r) as [|fr rest] eqn:EA; [pose proof (k_len _ _ _ _ _ _ _ K) as L; rewrite EA in L; discriminate|].
  rewrite C in E. cbn [each obind fst snd] in E. set (r0 := mkRank (rest ++ [[]]) [] (r_dist r)) in *.
  assert (M : mid t fr (f, r0)).
  { split; cbn [fst snd].
    - exact G.
    - split; unfold r0; cbn [r_agg r_cache r_dist].
      + pose proof (k_len _ _ _ _ _ _ _ K) as L. rewrite EA in L. rewrite app_length. cbn [length] in *. lia.
      + intros k c H. apply (inagg_shift fr) in H. rewrite <- EA in H. apply (k_agg _ _ _ _ _ _ _ K _ _ H).
      + intros g ls [].
      + apply (k_dist _ _ _ _ _ _ _ K).
    - intros c p d Hm HL. destruct (H1 c p d Hm HL) as [P|(k & Hk)].
      + left. intros n Hn. destruct (P n Hn) as (q & e & Q1 & Q2 & Q3). exists q, e. split; [exact Q1|]. split; [exact Q2|exact Q3].
      + right. destruct k as [|k].
        * left. destruct Hk as (l & Hl & Hc). inversion Hl; subst. exact Hc.
        * right. exists k. unfold r0. cbn [r_agg]. apply (inagg_shift' fr), Hk.
    - intros T k c p d Hk Hm. unfold r0 in Hk. cbn [r_agg] in Hk. apply (inagg_shift fr) in Hk.
      replace (S t + k) with (t + S k) by lia. apply (H2 T (S k) c p d Hk Hm).
    - intros c Hc. destruct (k_agg _ _ _ _ _ _ _ K 0 c) as (Q1 & _ & Q3 & Q4); [|auto]. rewrite EA. exists fr. split; [reflexivity|exact Hc].
    - intros T c p d Hc Hm. rewrite <- (Nat.add_0_r t). apply (H2 T 0 c p d); [|exact Hm]. exists fr. split; [reflexivity|exact Hc].
    - exact H3. }
  destruct (mid_front t fr (f, r0) M) as (u & Eu & Mu & Cu). rewrite Eu in E. cbn [obind fst snd] in E. inversion E; subst f' rs'. clear E.
  eexists. split; [reflexivity|]. cbn [r_cache r_agg r_dist]. split; [reflexivity|]. split; [|split].
  - intros c p d Hm HL. destruct (m_live _ _ _ Mu c p d Hm HL) as [P|[[]|P]]; [left|auto].
    intros n Hn. destruct (P n Hn) as (q & e & Q1 & Q2 & Q3). exists q, e. split; [exact Q1|]. split; [exact Q2|exact Q3].
  - intros T k c p d. apply (m_agg _ _ _ Mu T).
  - intros T c p d Hm Hv. pose proof (m_void _ _ _ Mu T c p d Hm Hv). lia.
Qed.

(** At the end all cells that can be reached are marked. *)
Section End.
Variable f : fields.
Variable r : rank_state.
Hypothesis G : good m level max_level pid f.
Hypothesis DONE : forall c p d, marked f c p d -> live m pid c -> processed f r c p d.

Lemma trail_tail : forall p c l, trail m pid p (c :: l) -> pid c = None \/ (l = [] /\ pid c = Some p).
Proof. intros p c l T. inversion T; subst; auto. Qed.

Lemma trail_bound : forall p l, trail m pid p l -> forall c t, l = c :: t -> live m pid c ->
  exists q e, marked f c q e /\ (two_levels -> (e <= sumw l - 1)%Z) /\ (pid c = Some p -> q = p).
Proof.
  intros p l T. induction T as [x Hx Hp|x n l T IH Hn Hv]; intros c t E HL; inversion E; subst.
  - destruct (vget_some _ (fst f) c) as [mc Em]; [rewrite (g_mlen _ _ _ _ _ G); apply (active_lt m WM), Hx|].
    destruct mc as [q|]; [|rewrite (g_free _ _ _ _ _ G c Hx Em) in Hp; discriminate].
    destruct (marked_dist m level max_level pid f c q G Em) as [e He]. exists q, e. split; [exact He|].
    destruct (g_mark _ _ _ _ _ G c q e He) as [_ [Hq|Hq]]; [|congruence]. assert (q = p) by congruence. subst q.
    split; [|reflexivity]. intros _. destruct (g_trail _ _ _ _ _ G c p e He HL) as (l & Tl & ->).
    apply trail_tail in Tl as [Tl|[-> _]]; [congruence|lia].
  - assert (HLx : live m pid x) by (right; exists c; auto).
    destruct (IH x l eq_refl HLx) as (q & e & Hx & He & _). destruct (DONE x q e Hx HLx c Hn) as (q' & e' & H1 & H2 & _).
    exists q', e'. split; [exact H1|]. split; [|intro H; congruence]. intro T2. specialize (He T2). specialize (H2 T2 Hv).
    rewrite (sumw_cons level max_level c). lia.
Qed.

Lemma walk_tail : forall a l, walk m (a :: l) -> walk m l.
Proof. intros a [|b l] H; [exact I|apply H]. Qed.

Lemma walk_suffix : forall a l, walk m (a ++ l) -> walk m l.
Proof. induction a as [|x a IH]; intros l H; [exact H|]. apply IH. eapply walk_tail. exact H. Qed.

(** The rest of a passage is a way back to its end. *)
Lemma passage_suffix : forall p q l l1 s, passage m pid p q l -> l = l1 ++ s -> l1 <> [] -> s <> [] -> trail m pid q s.
Proof.
  intros p q l l1 s (a & v & b & E & Ha & Hb & HV & HA & HW) El N1 N2.
  destruct l1 as [|a' l1]; [contradiction|]. rewrite El in E. cbn [app] in E. injection E as -> E.
  assert (HA' : forall c, In c s -> In c (active m)). { intros c Hc. apply HA. rewrite El. apply in_app_iff. auto. }
  rewrite El in HW. apply walk_suffix in HW. clear El N1 HA Ha. clear l.
  revert s N2 HA' HW v E HV. induction l1 as [|x l1 IH]; intros s N2 HA HW v E HV.
  - cbn [app] in E. subst s. clear N2. induction v as [|y v IHv].
    + apply trail_cell; [apply HA; left; reflexivity|exact Hb].
    + cbn [app] in *. destruct (v ++ [b]) as [|z w] eqn:EV; [destruct v; discriminate|]. destruct HW as [HW1 HW2].
      apply trail_step.
      * apply IHv; first [exact HW2|intros c Hc; apply HA; right; exact Hc|intros c Hc; apply HV; right; exact Hc].
      * apply (face_sym m WM); [apply HA; left; reflexivity|exact HW1].
      * apply HV. left. reflexivity.
  - destruct v as [|y v].
    + cbn [app] in E. injection E as -> E. destruct l1; [destruct s; [contradiction|discriminate]|discriminate].
    + cbn [app] in E. injection E as -> E. apply (IH s N2 HA HW v E). intros c Hc. apply HV. right. exact Hc.
Qed.

Lemma passage_live : forall p q l c, passage m pid p q l -> 3 <= length l -> In c l -> live m pid c.
Proof.
  assert (HEAD : forall p q l a t, passage m pid p q l -> 3 <= length l -> l = a :: t -> exposed m pid a).
  { intros p q l a t (a' & v & b & E & Ha & Hb & HV & HA & HW) HL El. rewrite El in E. injection E as -> E.
    destruct v as [|y v]; [rewrite El, E in HL; cbn in HL; lia|]. exists y. split; [|apply HV; left; reflexivity].
    rewrite El, E in HW. apply HW. }
  intros p q l c P HL Hc. pose proof P as (a & v & b & E & Ha & Hb & HV & HA & HW). rewrite E in Hc.
  destruct Hc as [<-|Hc]; [right; eapply HEAD; eassumption|]. apply in_app_iff in Hc as [Hc|[<-|[]]]; [left; apply HV, Hc|].
  right. assert (P' : passage m pid q p (rev l)).
  { exists b, (rev v), a. split; [rewrite E; cbn [rev]; rewrite rev_app_distr; reflexivity|].
    split; [exact Hb|]. split; [exact Ha|]. split; [intros c Hc; apply in_rev in Hc; apply HV, Hc|].
    split; [intros c Hc; apply in_rev in Hc; apply HA, Hc|]. apply (walk_rev m WM); assumption. }
  eapply (HEAD q p (rev l) b (rev v ++ [a])); [exact P'|rewrite rev_length; exact HL|].
  rewrite E. cbn [rev]. rewrite rev_app_distr. reflexivity.
Qed.

(** A list whose first element has a property, and whose last one has not. *)
Lemma switch : forall (P : nat -> Prop) (dec : forall c, {P c} + {~ P c}) l a b, P a -> ~ P b ->
  exists l1 c n l2, a :: l ++ [b] = l1 ++ c :: n :: l2 /\ P c /\ ~ P n.
Proof.
  intros P dec. induction l as [|x l IH]; intros a b Ha Hb.
  - exists [], a, b, []. auto.
  - destruct (dec x) as [Hx|Hx].
    + destruct (IH x b Hx Hb) as (l1 & c & n & l2 & E & Hc & Hn). exists (a :: l1), c, n, l2. split; [cbn [app] in *; rewrite E; reflexivity|auto].
    + exists [], a, x, (l ++ [b]). auto.
Qed.

(** For each way from [p] to another particle a distance of [p] is stored that is
    not longer. *)
Lemma stored_le : forall p q l, p <> q -> passage m pid p q l -> 3 <= length l ->
  exists o v, o <> p /\ assessed (Nat.min p o, Nat.max p o) (r_dist r) = Some v /\ (two_levels -> (v <= sumw l - 2)%Z).
Proof.
  intros p q l N P HL. pose proof P as (a & v & b & E & Ha & Hb & HV & HA & HW).
  pose proof (fun c Hc => passage_live p q l c P HL Hc) as LIVE.
  destruct (passage_sym m level max_level pid WM p q l P) as (l' & P' & S').
  assert (HM : forall c, In c l -> exists o e, marked f c o e).
  { intros c Hc. destruct (in_split _ _ Hc) as (l1 & l2 & El). destruct l1 as [|x l1].
    - cbn [app] in El. rewrite El in E. injection E as -> _. destruct (trail_bound p [a]) with (c := a) (t := @nil nat) as (o & e & H & _); auto.
      + apply trail_cell; [apply HA; exact Hc|exact Ha].
      + eauto.
    - assert (T : trail m pid q (c :: l2)) by (eapply passage_suffix; [exact P|exact El|discriminate|discriminate]).
      destruct (trail_bound q (c :: l2) T c l2 eq_refl (LIVE c Hc)) as (o & e & H & _). eauto. }
  assert (Aa : In a l) by (rewrite E; left; reflexivity). assert (Ab : In b l) by (rewrite E; right; apply in_app_iff; right; left; reflexivity).
  assert (DEC : forall c, {vget (fst f) c = Some (Some p)} + {vget (fst f) c <> Some (Some p)}).
  { intro c. destruct (vget (fst f) c) as [[x|]|]; [|right; discriminate|right; discriminate].
    destruct (Nat.eq_dec x p); [left|right]; congruence. }
  destruct (switch (fun c => vget (fst f) c = Some (Some p)) DEC v a b) as (l1 & c & n & l2 & El & Hc & Hn).
  - destruct (trail_bound p [a]) with (c := a) (t := @nil nat) as (o & e & [H _] & _ & Ho); auto.
    + apply trail_cell; [apply HA, Aa|exact Ha].
    + rewrite (Ho Ha) in H. exact H.
  - destruct (trail_bound q [b]) with (c := b) (t := @nil nat) as (o & e & [H _] & _ & Ho); auto.
    + apply trail_cell; [apply HA, Ab|exact Hb].
    + rewrite (Ho Hb) in H. congruence.
  - rewrite <- E in El.
    assert (Hcl : In c l) by (rewrite El; apply in_app_iff; right; left; reflexivity).
    assert (Hnl : In n l) by (rewrite El; apply in_app_iff; right; right; left; reflexivity).
    destruct (HM c Hcl) as (p' & d & Mc). assert (p' = p) by (destruct Mc; congruence). subst p'.
    destruct (HM n Hnl) as (o & e & Mn). assert (No : o <> p) by (intros ->; apply Hn; apply Mn).
    assert (FN : In n (face_cells m c)). { rewrite El in HW. apply walk_suffix in HW. apply HW. }
    destruct (DONE c p d Mc (LIVE c Hcl) n FN) as (o' & e' & M' & _ & Q3). destruct (marked_fun _ _ _ _ _ _ Mn M') as [<- <-].
    destruct (Q3 (not_eq_sym No)) as (w & Ew & Lw). exists o, w. split; [exact No|]. split; [exact Ew|]. intro T2.
    assert (TN : trail m pid q (n :: l2)).
    { eapply (passage_suffix p q l (l1 ++ [c])); [exact P| |destruct l1; discriminate|discriminate]. rewrite <- app_assoc. exact El. }
    assert (TC : trail m pid p (c :: rev l1)).
    { assert (Pr : passage m pid q p (rev l)).
      { exists b, (rev v), a. split; [rewrite E; cbn [rev]; rewrite rev_app_distr; reflexivity|].
        split; [exact Hb|]. split; [exact Ha|]. split; [intros x Hx; apply in_rev in Hx; apply HV, Hx|].
        split; [intros x Hx; apply in_rev in Hx; apply HA, Hx|]. apply (walk_rev m WM); assumption. }
      eapply (passage_suffix q p (rev l) (rev l2 ++ [n])); [exact Pr| |destruct (rev l2); discriminate|discriminate].
      rewrite El, rev_app_distr. cbn [rev]. rewrite <- !app_assoc. reflexivity. }
    destruct (trail_bound p _ TC c (rev l1) eq_refl (LIVE c Hcl)) as (o1 & e1 & M1 & B1 & _). destruct (marked_fun _ _ _ _ _ _ Mc M1) as [<- <-].
    destruct (trail_bound q _ TN n l2 eq_refl (LIVE n Hnl)) as (o2 & e2 & M2 & B2 & _). destruct (marked_fun _ _ _ _ _ _ Mn M2) as [<- <-].
    specialize (B1 T2). specialize (B2 T2). rewrite El, sumw_app.
    rewrite (sumw_cons level max_level c), (sumw_cons level max_level n) in *. rewrite sumw_rev in B1. lia.
Qed.
End End.

Lemma start_before : n_ranks = 1 -> forall mark aggs dist, length aggs = n_ranks -> good m level max_level pid (mark, dist) ->
  (forall c p d, marked (mark, dist) c p d -> pid c = Some p) ->
  (forall r agg, vget aggs r = Some agg -> forall k c, inagg agg k c <-> k = idx c /\ mine m r c /\ exposed m pid c /\ exists p, pid c = Some p) ->
  before 0 (mark, dist) (map (fun e => mkRank (snd e) (ghost_cache m ghost mark (fst e)) []) (combine (seq 0 n_ranks) aggs)).
Proof.
  intros HR mark aggs dist LA G MP AG. rewrite HR in *. destruct aggs as [|agg [|? ?]]; try discriminate.
  eexists. split; [reflexivity|]. cbn [r_cache r_agg r_dist fst snd seq combine map].
  assert (D : forall c p d, marked (mark, dist) c p d -> live m pid c -> d = (wgt c - 1)%Z).
  { intros c p d Hm HL. destruct (g_trail _ _ _ _ _ G c p d Hm HL) as (l & T & ->). pose proof (MP c p _ Hm) as Hp.
    destruct (trail_tail p c l T) as [H|[-> _]]; [congruence|]. cbn [WaveLoopProofs.sumw fold_right]. lia. }
  split; [|split; [|split]].
  - unfold ghost_cache. replace (filter (fun g => ghost 0 g) (active m)) with (@nil nat); [reflexivity|]. symmetry.
    assert (Z0 : forall l, (forall c, In c l -> In c (active m)) -> filter (fun g => ghost 0 g) l = []).
    { induction l as [|x l IH]; intro Hl; [reflexivity|]. cbn [filter]. destruct (ghost 0 x) eqn:E.
      - exfalso. apply (wo_ghost m pid ghost n_ranks OK 0 x E). apply ONE, Hl. left. reflexivity.
      - apply IH. intros c Hc. apply Hl. right. exact Hc. }
    apply Z0. auto.
  - intros c p d Hm HL. right. exists (idx c). apply (AG 0 agg eq_refl). split; [reflexivity|].
    destruct (g_mark _ _ _ _ _ G c p d Hm) as [Hc _]. split; [split; [exact Hc|apply ONE, Hc]|].
    pose proof (MP c p d Hm) as Hp. split; [|eauto]. destruct HL as [HL|HL]; [congruence|exact HL].
  - intros T k c p d Hk Hm. apply (AG 0 agg eq_refl) in Hk as (-> & [Hc _] & Hx & _). rewrite (D c p d Hm (or_intror Hx)).
    rewrite (two_weight T c Hc). lia.
  - intros T c p d Hm Hv. rewrite (MP c p d Hm) in Hv. discriminate.
Qed.
End Serial.
End Start.

(** ** Theorems *)
Lemma depth_zero : forall agg k c, depth agg = 0 -> inagg agg k c -> False.
Proof.
  induction agg as [|l agg IH]; intros k c H (x & Hx & Hc); [destruct k; discriminate|].
  cbn [depth] in H. destruct (depth agg) eqn:E; [|discriminate]. destruct l as [|y l]; [|discriminate].
  destruct k as [|k]; [inversion Hx; subst; contradiction|]. apply (IH k c eq_refl). exists x. auto.
Qed.

Lemma assess_keys : forall k d l k', In k' (map fst (assess k d l)) <-> k' = k \/ In k' (map fst l).
Proof.
  intros k d. induction l as [|[j e] l IH]; intro k'; cbn [assess map fst In]; [intuition|].
  destruct (peqb j k) eqn:B; cbn [map fst In].
  - apply peqb_spec in B. subst j. intuition.
  - rewrite IH. intuition.
Qed.

Lemma assess_nodup : forall k d l, NoDup (map fst l) -> NoDup (map fst (assess k d l)).
Proof.
  intros k d. induction l as [|[j e] l IH]; intro H; cbn [assess map fst]; [constructor; [intros []|constructor]|].
  inversion H as [|? ? H1 H2]; subst. destruct (peqb j k) eqn:B; cbn [map fst]; constructor; auto.
  rewrite assess_keys. intros [->|H3]; [|contradiction]. rewrite peqb_refl in B. discriminate.
Qed.

Lemma merge_nodup : forall l acc, NoDup (map fst acc) -> NoDup (map fst (fold_left (fun a e => assess (fst e) (snd e) a) l acc)).
Proof. induction l as [|e l IH]; intros acc H; cbn [fold_left]; [exact H|]. apply IH, assess_nodup, H. Qed.

(** The estimate ends without access out of range.  It has one entry per pair,
    and each stored distance is the length of a way through cells without
    particle that joins the two particles -- on any number of ranks and for any
    levels of the cells. *)
Theorem C60_sound : forall m level max_level pid ghost n_ranks, wave_ok m pid ghost n_ranks ->
  exists fuel0, forall fuel, fuel0 <= fuel -> exists est,
    estimate_distances m level max_level pid fuel ghost n_ranks = Some est /\ NoDup (map fst est) /\
    forall p q v, In ((p, q), v) est -> p < q /\ exists l, passage m pid p q l /\ v = way_length level max_level l.
Proof.
  intros m level max_level pid ghost n_ranks OK. pose proof (wo_mesh _ _ _ _ OK) as WM. pose proof (wo_separated _ _ _ _ OK) as SEP.
  destruct (start_ok m level max_level pid ghost n_ranks OK) as [fuel1 ST].
  exists (fuel1 + (n_cells m * S (S max_level) + S max_level)). intros fuel HF.
  destruct (ST fuel ltac:(lia)) as (mark & aggs & dist & E1 & E2 & LA & G & K & _ & _).
  unfold estimate_distances. rewrite E1. cbn [obind fst snd]. rewrite E2. cbn [obind].
  destruct (waves_ok m level max_level pid WM SEP (fun _ _ _ => True) (fun _ _ _ _ _ _ _ _ _ => I) fuel 0 (mark, dist) _ G K I)
    as (f' & rs' & t' & E3 & G' & K' & _).
  { unfold measure. pose proof (max_depth_le m level max_level pid _ _ _ K). cbn [fst].
    pose proof (unl_le mark) as U. pose proof (g_mlen _ _ _ _ _ G) as L. cbn [fst] in L. rewrite L in U.
    assert (unl mark * S (S max_level) <= n_cells m * S (S max_level)) by (apply Nat.mul_le_mono_r; exact U). lia. }
  rewrite E3. cbn [obind snd]. eexists. split; [reflexivity|]. split; [apply merge_nodup; constructor|]. intros p q v Hs.
  unfold merge in Hs. apply merge_in in Hs as [Hs|[]]. apply in_flat_map in Hs as (r & Hr & Hs).
  assert (KD : forall rs me, ranks_ok m level max_level pid f' me rs -> forall r, In r rs -> recorded m level max_level pid (r_dist r)).
  { induction rs as [|x rs IH]; intros me HK y Hy; [destruct Hy|]. destruct HK as [H1 H2]. destruct Hy as [<-|Hy]; [apply (k_dist _ _ _ _ _ _ _ H1)|].
    apply (IH (S me) H2 y Hy). }
  destruct (KD _ _ K' r Hr _ _ Hs) as (p' & q' & w & Ek & Hlt & P & ->). inversion Ek; subst p' q'. split; [exact Hlt|].
  exists w. split; [exact P|reflexivity].
Qed.
Print Assumptions C60_sound.

Lemma stored_way : forall m level max_level pid est, wave_mesh m ->
  (forall p q v, In ((p, q), v) est -> p < q /\ exists l, passage m pid p q l /\ v = way_length level max_level l) ->
  forall p q v, stored est p q v -> p <> q /\ exists l, passage m pid p q l /\ v = way_length level max_level l.
Proof.
  intros m level max_level pid est WM H p q v Hs. apply assessed_in in Hs. apply H in Hs as (Hlt & w & P & ->).
  assert (N : p <> q) by lia. split; [exact N|]. destruct (Nat.lt_ge_cases p q) as [L|L].
  - rewrite Nat.min_l, Nat.max_r in P by lia. eauto.
  - rewrite Nat.min_r, Nat.max_l in P by lia. destruct (passage_sym m level max_level pid WM _ _ _ P) as (w' & P' & S').
    exists w'. split; [exact P'|]. unfold way_length. change (fold_right _ 0%Z w') with (sumw level max_level w'). rewrite S'. reflexivity.
Qed.

Lemma long_passage : forall m pid ghost n_ranks p q l, wave_ok m pid ghost n_ranks -> p <> q -> passage m pid p q l -> 3 <= length l.
Proof.
  intros m pid ghost n_ranks p q l OK N (a & v & b & E & Ha & Hb & _ & HA & HW). rewrite E in *. destruct v as [|x v].
  - exfalso. apply N. apply (wo_separated _ _ _ _ OK a b p q); auto; [apply HA; left; reflexivity|apply HW].
  - cbn [length]. rewrite app_length. cbn [length]. lia.
Qed.

Lemma serial : forall m level max_level pid ghost, wave_ok m pid ghost 1 ->
  exists fuel0, forall fuel, fuel0 <= fuel -> exists est,
    estimate_distances m level max_level pid fuel ghost 1 = Some est /\
    forall p q l, p <> q -> passage m pid p q l -> exists o v, o <> p /\ stored est p o v /\
      ((forall c, In c (active m) -> max_level - level c <= 1) -> (v <= way_length level max_level l)%Z).
Proof.
  intros m level max_level pid ghost OK. pose proof (wo_mesh _ _ _ _ OK) as WM. pose proof (wo_separated _ _ _ _ OK) as SEP.
  assert (ONE : forall c, In c (active m) -> rank m c = 0) by (intros c Hc; pose proof (wo_rank _ _ _ _ OK c Hc); lia).
  destruct (start_ok m level max_level pid ghost 1 OK) as [fuel1 ST].
  exists (fuel1 + (n_cells m * S (S max_level) + S max_level)). intros fuel HF.
  destruct (ST fuel ltac:(lia)) as (mark & aggs & dist & E1 & E2 & LA & G & K & MP & AG).
  unfold estimate_distances. rewrite E1. cbn [obind fst snd]. rewrite E2. cbn [obind].
  destruct (waves_ok m level max_level pid WM SEP (before m level max_level pid) (before_step m level max_level pid ghost 1 OK ONE)
    fuel 0 (mark, dist) _ G K (start_before m level max_level pid ghost 1 OK ONE eq_refl mark aggs dist LA G MP AG))
    as (f' & rs' & t' & E3 & G' & K' & (r & -> & _ & HP & _) & HD & _).
  { unfold measure. pose proof (max_depth_le m level max_level pid _ _ _ K). cbn [fst].
    pose proof (unl_le mark) as U. pose proof (g_mlen _ _ _ _ _ G) as L. cbn [fst] in L. rewrite L in U.
    assert (unl mark * S (S max_level) <= n_cells m * S (S max_level)) by (apply Nat.mul_le_mono_r; exact U). lia. }
  rewrite E3. cbn [obind snd]. eexists. split; [reflexivity|]. intros p q l N P.
  assert (D0 : depth (r_agg r) = 0) by (unfold max_depth in HD; cbn [fold_right] in HD; lia).
  destruct (stored_le m level max_level pid ghost 1 OK f' r G') with (p := p) (q := q) (l := l) as (o & v & No & Ev & Lv); auto.
  - intros c x d Hm HL. destruct (HP c x d Hm HL) as [H|(k & H)]; [exact H|]. exfalso. eapply depth_zero; eassumption.
  - eapply long_passage; eassumption.
  - unfold merge. cbn [flat_map]. rewrite app_nil_r.
    destruct (merge_le (r_dist r) [] (Nat.min p o, Nat.max p o) v) as (v' & E' & L'); [left; apply assessed_in, Ev|].
    exists o, v'. split; [exact No|]. split; [exact E'|]. intro T. specialize (Lv T). unfold way_length.
    change (fold_right _ 0%Z l) with (sumw level max_level l). lia.
Qed.

(** On one rank a distance is stored for each particle that can be reached from
    another one, whatever the levels of the cells. *)
Theorem C60_stored : forall m level max_level pid ghost, wave_ok m pid ghost 1 ->
  exists fuel0, forall fuel, fuel0 <= fuel -> exists est,
    estimate_distances m level max_level pid fuel ghost 1 = Some est /\
    forall p q l, p <> q -> passage m pid p q l -> exists o v, o <> p /\ stored est p o v.
Proof.
  intros m level max_level pid ghost OK. destruct (serial m level max_level pid ghost OK) as [fuel0 H]. exists fuel0.
  intros fuel HF. destruct (H fuel HF) as (est & E & Hs). exists est. split; [exact E|]. intros p q l N P.
  destruct (Hs p q l N P) as (o & v & H1 & H2 & _). eauto.
Qed.
Print Assumptions C60_stored.

(** If moreover the cells have the two finest levels only, then the smallest
    distance stored for a particle is exactly the length of the shortest way to
    another particle. *)
Theorem C60_nearest : forall m level max_level pid ghost, wave_ok m pid ghost 1 ->
  (forall c, In c (active m) -> max_level - level c <= 1) ->
  exists fuel0, forall fuel, fuel0 <= fuel -> exists est,
    estimate_distances m level max_level pid fuel ghost 1 = Some est /\
    forall p, (exists q l, p <> q /\ passage m pid p q l) ->
      exists o v l, o <> p /\ stored est p o v /\ passage m pid p o l /\ v = way_length level max_level l /\
        (forall o' v', stored est p o' v' -> (v <= v')%Z) /\
        forall q l', p <> q -> passage m pid p q l' -> (v <= way_length level max_level l')%Z.
Proof.
  intros m level max_level pid ghost OK T. destruct (serial m level max_level pid ghost OK) as [fuel1 HS].
  destruct (C60_sound m level max_level pid ghost 1 OK) as [fuel2 HT]. exists (fuel1 + fuel2). intros fuel HF.
  destruct (HS fuel ltac:(lia)) as (est & E & S1). destruct (HT fuel ltac:(lia)) as (est' & E' & _ & S2).
  assert (est' = est) by congruence. subst est'. pose proof (stored_way m level max_level pid est (wo_mesh _ _ _ _ OK) S2) as S3. clear S2. rename S3 into S2. exists est. split; [exact E|]. intros p (q & l & N & P).
  destruct (S1 p q l N P) as (o & v & No & Hs & _).
  assert (MIN : exists o v, stored est p o v /\ forall o' v', stored est p o' v' -> (v <= v')%Z).
  { assert (NN : forall o v, stored est p o v -> (0 <= v)%Z).
    { intros x w Hw. destruct (S2 p x w Hw) as (Nx & y & Py & ->). pose proof (long_passage _ _ _ _ _ _ _ OK Nx Py) as L.
      unfold way_length. assert (W : forall z, (Z.of_nat (length z) <= fold_right (fun c s => 2 ^ Z.of_nat (max_level - level c) + s) 0 z)%Z).
      { induction z as [|c z IH]; cbn [fold_right length]; [lia|]. pose proof (Z.pow_pos_nonneg 2 (Z.of_nat (max_level - level c))). lia. }
      specialize (W y). lia. }
    clear - Hs NN. revert o v Hs.
    assert (GEN : forall n o v, stored est p o v -> (v <= Z.of_nat n)%Z -> exists o v, stored est p o v /\ forall o' v', stored est p o' v' -> (v <= v')%Z).
    { induction n as [|n IH]; intros o v Hs Hv.
      - exists o, v. split; [exact Hs|]. intros o' v' H. pose proof (NN _ _ H). lia.
      - destruct (existsb (fun e => match assessed (fst e) est with Some w => (w <? v)%Z && ((fst (fst e) =? p) || (snd (fst e) =? p)) && (fst (fst e) <=? snd (fst e)) | None => false end) est) eqn:B.
        + apply existsb_exists in B as ([[x y] w0] & _ & B). cbn [fst snd] in B. destruct (assessed (x, y) est) as [w|] eqn:Ew; [|discriminate].
          apply andb_true_iff in B as [B B3]. apply andb_true_iff in B as [B1 B2]. apply Z.ltb_lt in B1. apply Nat.leb_le in B3.
          apply orb_true_iff in B2 as [B2|B2]; apply Nat.eqb_eq in B2; subst.
          * apply (IH y w); [|lia]. unfold stored. rewrite Nat.min_l, Nat.max_r by lia. exact Ew.
          * apply (IH x w); [|lia]. unfold stored. rewrite Nat.min_r, Nat.max_l by lia. exact Ew.
        + exists o, v. split; [exact Hs|]. intros o' v' H. destruct (Z.lt_ge_cases v' v) as [L|L]; [|exact L]. exfalso.
          assert (BT : existsb (fun e => match assessed (fst e) est with Some w => (w <? v)%Z && ((fst (fst e) =? p) || (snd (fst e) =? p)) && (fst (fst e) <=? snd (fst e)) | None => false end) est = true); [|congruence].
          apply existsb_exists. exists ((Nat.min p o', Nat.max p o'), v'). split; [apply assessed_in, H|]. cbn [fst snd].
          unfold stored in H. rewrite H. rewrite (proj2 (Z.ltb_lt _ _) L). cbn [andb]. apply andb_true_iff. split; [|apply Nat.leb_le; lia].
          apply orb_true_iff. destruct (Nat.le_ge_cases p o'); [left|right]; apply Nat.eqb_eq; lia. }
    intros o v Hs. apply (GEN (Z.to_nat v) o v Hs). pose proof (NN _ _ Hs). lia. }
  clear o v No Hs. destruct MIN as (o & v & Hs & MIN). destruct (S2 p o v Hs) as (No & w & Pw & Ew).
  exists o, v, w. split; [auto|]. split; [exact Hs|]. split; [exact Pw|]. split; [exact Ew|]. split; [exact MIN|].
  intros q' l' N' P'. destruct (S1 p q' l' N' P') as (o' & v' & No' & Hs' & L'). specialize (L' T). specialize (MIN o' v' Hs'). lia.
Qed.
Print Assumptions C60_nearest.
