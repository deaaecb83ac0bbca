(** C20, C21: transfer of grain ids. *)
From Coq Require Import List QArith Qabs Arith Bool Lia Lqa.
From Verif Require Import Util MapModel TransferModel TransferSpec TransferProofs.
Import ListNotations.
Local Open Scope nat_scope.

(** What a set of grains satisfies: a map with centers in [dim] dimensions and
    order parameters below [n]. *)
Definition grains_ok (dim n : nat) (m : fmap grain) : Prop :=
  msorted m /\ in_space dim m /\ forall id g, In (id, g) m -> g_op g < n.

(** ** C20 *)
(** Every new grain and nothing else is in the result; no old id is given to two
    new grains; an id is only handed over between grains of the same order
    parameter with overlapping segments. *)
Theorem C20_partial_injection : forall query new old n dim,
  query_ok query -> grains_ok dim n new -> grains_ok dim n old ->
  exists r, transfer query new old n = Some r /\
    (forall id, (exists g, mget id new = Some g) <-> exists x, mget id r = Some x) /\
    (forall a b o, mget a r = Some (Some o) -> mget b r = Some (Some o) -> a = b) /\
    (forall id o, mget id r = Some (Some o) -> exists g go s t,
       mget id new = Some g /\ mget o old = Some go /\ g_op g = g_op go /\
       In s (g_segments g) /\ In t (g_segments go) /\ meet t s).
Proof.
  intros query new old n dim Q (N1 & N2 & N3) (O1 & O2 & O3).
  destruct (transfer_inv query Q new old n dim N1 O1 N2 O2 N3 O3) as (r & st & K & E & <- & I & HK).
  exists (fst st). split; [exact E|]. split; [|split].
  - intro id. rewrite (inv_keys _ _ _ _ _ _ I), HK. split.
    + intros [g H]. exists g. apply mget_In. exact H.
    + intros [g H]. exists g. apply In_mget; assumption.
  - intros a b o Ha Hb. apply (inv_both _ _ _ _ _ _ I) in Ha. apply (inv_both _ _ _ _ _ _ I) in Hb. congruence.
  - intros id o H. apply (inv_cand _ _ _ _ _ _ I) in H. destruct H as [H _].
    destruct (cand_good query Q new old dim O1 N2 O2 id o H) as (g & G & go & s & t & A & B & C & D & M).
    exists g, go, s, t. auto 10.
Qed.
Print Assumptions C20_partial_injection.

(** ** C21 *)
(** Every new grain that overlaps an old grain of its order parameter has such an
    old grain [o] whose id went to a new grain not farther from [o]: every pair of
    segments of [o] and the new grain is matched by a pair of segments of [o] and
    the winner that is not farther apart. *)
Theorem C21_conflicts : forall query new old n dim id g,
  query_ok query -> grains_ok dim n new -> grains_ok dim n old ->
  mget id new = Some g ->
  (exists o go s t, mget o old = Some go /\ g_op go = g_op g /\ In s (g_segments g) /\ In t (g_segments go) /\ meet t s) ->
  exists r o go w gw, transfer query new old n = Some r /\
    mget o old = Some go /\ g_op go = g_op g /\
    (exists s t, In s (g_segments g) /\ In t (g_segments go) /\ meet t s) /\
    mget w new = Some gw /\ mget w r = Some (Some o) /\
    forall s t, In s (g_segments g) -> In t (g_segments go) ->
      exists s' t', In s' (g_segments gw) /\ In t' (g_segments go) /\
        (dist2 (s_center t') (s_center s') <= dist2 (s_center t) (s_center s))%Q.
Proof.
  intros query new old n dim id g Q (N1 & N2 & N3) (O1 & O2 & O3) Eg (o0 & go0 & s0 & t0 & H1 & H2 & H3 & H4 & H5).
  destruct (transfer_inv query Q new old n dim N1 O1 N2 O2 N3 O3) as (r & st & K & E & <- & I & HK).
  destruct (candidate_some query Q old dim O1 O2 (g_op g) (g_segments g) (None, None)) as [o Eo].
  { intros s Hs. apply (N2 id g s); [apply mget_In, Eg|exact Hs]. }
  { reflexivity. }
  { exists s0, o0, go0, t0. split; [exact H3|]. split; [apply mget_In, H1|]. auto. }
  assert (HC : cand query new old id = Some o) by (unfold cand; rewrite Eg, Eo; reflexivity).
  destruct (cand_good query Q new old dim O1 N2 O2 id o HC) as (g' & G & go & s & t & A & B & C & D & M).
  assert (g' = g) by congruence. subst g'.
  assert (HD : In id K) by (apply HK; exists g; apply mget_In, Eg).
  destruct (inv_best _ _ _ _ _ _ I id o HD HC) as (w & W1 & W2).
  pose proof (proj2 (inv_both _ _ _ _ _ _ I w o) W1) as W3.
  destruct (inv_cand _ _ _ _ _ _ I w o W3) as [CW _].
  destruct (cand_good query Q new old dim O1 N2 O2 w o CW) as (gw & Gw & _).
  exists (fst st), o, go, w, gw. split; [exact E|]. split; [exact A|]. split; [exact B|]. split; [eauto|].
  split; [exact Gw|]. split; [exact W3|].
  intros s1 t1 Hs1 Ht1. unfold far in W2. rewrite A, Gw, Eg in W2.
  destruct (distance_centers_spec go g) as [D1 _]. destruct (distance_centers_spec go gw) as [_ D2].
  pose proof (ole_trans _ _ _ W2 (D1 t1 s1 Ht1 Hs1)) as L.
  destruct (distance_centers go gw) as [x|]; [|destruct L]. cbn [ole] in L.
  destruct (D2 x eq_refl) as (t' & s' & Ht' & Hs' & Ex). exists s', t'. split; [exact Hs'|]. split; [exact Ht'|]. lra.
Qed.
Print Assumptions C21_conflicts.

(** New grains with a single segment: an id obtained is that of a nearest old
    grain, and a grain without id either overlaps nothing or has a nearest old
    grain whose id went to a new grain not farther from it. *)
Theorem C21_nearest_partial : forall query new old n dim id op s,
  query_ok query -> grains_ok dim n new -> grains_ok dim n old ->
  mget id new = Some (mkGrain op [s]) ->
  exists r, transfer query new old n = Some r /\
    ((mget id r = Some None /\ forall o go t, In (o, go) old -> g_op go = op -> In t (g_segments go) -> ~ meet t s) \/
     exists o go w gw, nearest_old old op s o /\ mget o old = Some go /\ mget w new = Some gw /\ mget w r = Some (Some o) /\
       (mget id r = Some (Some o) \/ mget id r = Some None /\ w <> id) /\
       forall t, In t (g_segments go) ->
         exists s' t', In s' (g_segments gw) /\ In t' (g_segments go) /\
           (dist2 (s_center t') (s_center s') <= dist2 (s_center t) (s_center s))%Q).
Proof.
  intros query new old n dim id op s Q (N1 & N2 & N3) (O1 & O2 & O3) Eg.
  destruct (transfer_inv query Q new old n dim N1 O1 N2 O2 N3 O3) as (r & st & K & E & <- & I & HK).
  exists (fst st). split; [exact E|].
  destruct (candidate_single query Q old dim O1 O2 op s) as (c & Ec & Cc).
  { apply (N2 id (mkGrain op [s]) s); [apply mget_In, Eg|left; reflexivity]. }
  assert (HC : cand query new old id = c) by (unfold cand; rewrite Eg; cbn [g_op g_segments]; rewrite Ec; reflexivity).
  assert (HD : In id K) by (apply HK; eexists; apply mget_In, Eg).
  destruct (proj2 (inv_keys _ _ _ _ _ _ I id) HD) as [x Ex].
  destruct c as [o|].
  - right. destruct (inv_best _ _ _ _ _ _ I id o HD HC) as (w & W1 & W2).
    pose proof (proj2 (inv_both _ _ _ _ _ _ I w o) W1) as W3.
    destruct (inv_cand _ _ _ _ _ _ I w o W3) as [CW _].
    destruct (cand_good query Q new old dim O1 N2 O2 w o CW) as (gw & Gw & _).
    destruct (cand_good query Q new old dim O1 N2 O2 id o HC) as (g' & G & go & _ & _ & A & _).
    exists o, go, w, gw. split; [exact Cc|]. split; [exact A|]. split; [exact Gw|]. split; [exact W3|]. split.
    + destruct x as [o'|].
      * left. destruct (inv_cand _ _ _ _ _ _ I id o' Ex) as [C' _]. congruence.
      * right. split; [exact Ex|]. intros ->. congruence.
    + intros t Ht. unfold far in W2. rewrite A, Gw, Eg in W2.
      destruct (distance_centers_spec go (mkGrain op [s])) as [D1 _]. destruct (distance_centers_spec go gw) as [_ D2].
      pose proof (ole_trans _ _ _ W2 (D1 t s Ht (or_introl eq_refl))) as L.
      destruct (distance_centers go gw) as [y|]; [|destruct L]. cbn [ole] in L.
      destruct (D2 y eq_refl) as (t' & s' & Ht' & Hs' & Ey). exists s', t'. split; [exact Hs'|]. split; [exact Ht'|]. lra.
  - left. split; [|exact Cc]. destruct x as [o|]; [|exact Ex]. exfalso.
    destruct (inv_cand _ _ _ _ _ _ I id o Ex) as [C' _]. congruence.
Qed.
Print Assumptions C21_nearest_partial.

(** A new grain with two segments: the first overlaps only old grain 0 and
    coincides with it, the second overlaps only old grain 1, four units away from
    it.  The new grain becomes grain 1: the distance of the first match was never
    recorded (line 170). *)
Definition seg1 (x r : Q) : segment := mkSegment [x] r.
Theorem C21_segments_refuted : exists new old g,
  grains_ok 1 1 new /\ grains_ok 1 1 old /\ mget 0 new = Some g /\
  transfer scan_query new old 1 = Some [(0, Some 1)] /\
  exists g0 g1, mget 0 old = Some g0 /\ mget 1 old = Some g1 /\
    (exists s t, In s (g_segments g) /\ In t (g_segments g0) /\ meet t s /\ (dist2 (s_center t) (s_center s) == 0)%Q) /\
    (forall s t, In s (g_segments g) -> In t (g_segments g1) -> (16 <= dist2 (s_center t) (s_center s))%Q).
Proof.
  exists [(0, mkGrain 0 [seg1 0 1; seg1 20 3])], [(0, mkGrain 0 [seg1 0 1]); (1, mkGrain 0 [seg1 24 3])], (mkGrain 0 [seg1 0 1; seg1 20 3]).
  assert (OK : forall m, msorted m -> forallb (fun p => (g_op (snd p) <? 1) && forallb (fun s => length (s_center s) =? 1) (g_segments (snd p))) m = true -> grains_ok 1 1 m).
  { intros m H1 H2. split; [exact H1|]. rewrite forallb_forall in H2. split.
    - intros id g s H3 H4. specialize (H2 _ H3). apply andb_prop in H2. destruct H2 as [_ H2].
      rewrite forallb_forall in H2. apply Nat.eqb_eq, H2, H4.
    - intros id g H3. specialize (H2 _ H3). apply andb_prop in H2. apply Nat.ltb_lt, H2. }
  split; [apply OK; [repeat constructor|reflexivity]|]. split; [apply OK; [repeat constructor|reflexivity]|].
  split; [reflexivity|]. split; [reflexivity|]. exists (mkGrain 0 [seg1 0 1]), (mkGrain 0 [seg1 24 3]).
  split; [reflexivity|]. split; [reflexivity|]. split.
  - exists (seg1 0 1), (seg1 0 1). split; [left; reflexivity|]. split; [left; reflexivity|]. split; [|reflexivity].
    constructor; [discriminate|constructor].
  - intros s t [<-|[<-|[]]] [<-|[]]; unfold Qle; simpl; lia.
Qed.
Print Assumptions C21_segments_refuted.

(** Two new grains compete for old grain 7 of order parameter 0; the nearer one
    gets it although it comes second; a third grain keeps its own. *)
Definition ex_new : fmap grain :=
  [(0, mkGrain 0 [seg1 2 1]); (1, mkGrain 0 [seg1 (1 # 2) 1]); (2, mkGrain 1 [seg1 0 1])].
Definition ex_old : fmap grain := [(7, mkGrain 0 [seg1 0 1]); (9, mkGrain 1 [seg1 1 1; seg1 5 1])].
Example C20_case : grains_ok 1 2 ex_new /\ grains_ok 1 2 ex_old /\ query_ok scan_query /\
  transfer scan_query ex_new ex_old 2 = Some [(0, None); (1, Some 7); (2, Some 9)].
Proof.
  assert (OK : forall m, msorted m -> forallb (fun p => (g_op (snd p) <? 2) && forallb (fun s => length (s_center s) =? 1) (g_segments (snd p))) m = true -> grains_ok 1 2 m).
  { intros m H1 H2. split; [exact H1|]. rewrite forallb_forall in H2. split.
    - intros id g s H3 H4. specialize (H2 _ H3). apply andb_prop in H2. destruct H2 as [_ H2].
      rewrite forallb_forall in H2. apply Nat.eqb_eq, H2, H4.
    - intros id g H3. specialize (H2 _ H3). apply andb_prop in H2. apply Nat.ltb_lt, H2. }
  split; [apply OK; [repeat constructor|reflexivity]|]. split; [apply OK; [repeat constructor|reflexivity]|].
  split; [exact scan_query_ok|]. reflexivity.
Qed.
