(** C60: distances of the particles, and cases where the estimate is not exact. *)
From Coq Require Import List QArith Arith Bool Lia ZArith.
From Verif Require Import Util FloodModel FloodSpec FloodProofs WavefrontModel NeighborProps WavefrontProofs WaveLoopProofs WavefrontProps.
Import ListNotations.
Local Open Scope nat_scope.

(** ** The map of the distances of a particle *)
Lemma pfind_pemplace : forall k d l k', pfind k' (pemplace k d l) =
  match pfind k' l with Some e => Some e | None => if peqb k k' then Some d else None end.
Proof.
  intros k d. induction l as [|[j e] l IH]; intro k'; cbn [pemplace pfind]; [reflexivity|].
  destruct (peqb j k) eqn:B; cbn [pfind].
  - apply peqb_spec in B. subst j. destruct (peqb k k') eqn:B'; [reflexivity|]. destruct (pfind k' l); reflexivity.
  - destruct (peqb j k'); [reflexivity|apply IH].
Qed.

Lemma pfind_all : forall ps l k', pfind k' (fold_left (fun l s => pemplace s 0%Z l) ps l) =
  match pfind k' l with Some e => Some e | None => if existsb (fun s => peqb s k') ps then Some 0%Z else None end.
Proof.
  induction ps as [|s ps IH]; intros l k'; cbn [fold_left existsb]; [destruct (pfind k' l); reflexivity|].
  rewrite IH, pfind_pemplace. destruct (pfind k' l); [reflexivity|]. destruct (peqb s k'); reflexivity.
Qed.

Lemma pfind_direct : forall direct own a b, let r := pfind b (fold_left (fun l e =>
    if peqb (fst e) a then fold_left (fun l s => pemplace s 0%Z l) (snd e) l else l) direct own) in
  (forall v, pfind b own = Some v -> r = Some v) /\
  (pfind b own = None -> has_in direct a b -> r = Some 0%Z) /\
  (pfind b own = None -> ~ has_in direct a b -> r = None).
Proof.
  induction direct as [|[k s] direct IH]; intros own a b; cbn [fold_left fst snd]; cbv zeta.
  - split; [auto|]. split; [intros _ (x & [] & _)|auto].
  - destruct (IH (if peqb k a then fold_left (fun l s => pemplace s 0%Z l) s own else own) a b) as (H1 & H2 & H3).
    destruct (peqb k a) eqn:B.
    + apply peqb_spec in B. subst k. assert (EX : existsb (fun x => peqb x b) s = true <-> In b s).
      { rewrite existsb_exists. split; [intros (x & Hx & E); apply peqb_spec in E; subst; exact Hx|]. intro H. exists b. split; [exact H|apply peqb_refl]. }
      split; [|split].
      * intros v E. apply H1. rewrite pfind_all, E. reflexivity.
      * intros E (x & [Hx|Hx] & Hb).
        -- inversion Hx; subst x. apply H1. rewrite pfind_all, E, (proj2 EX Hb). reflexivity.
        -- destruct (existsb (fun x => peqb x b) s) eqn:ES; [apply H1; rewrite pfind_all, E, ES; reflexivity|].
           apply H2; [rewrite pfind_all, E, ES; reflexivity|]. exists x. auto.
      * intros E N. apply H3.
        -- rewrite pfind_all, E. destruct (existsb (fun x => peqb x b) s) eqn:ES; [|reflexivity]. exfalso. apply N. exists s.
           split; [left; reflexivity|apply EX; reflexivity].
        -- intros (x & Hx & Hb). apply N. exists x. split; [right; exact Hx|exact Hb].
    + apply peqb_false in B. split; [exact H1|]. split.
      * intros E (x & [Hx|Hx] & Hb); [inversion Hx; congruence|]. apply H2; [exact E|]. exists x. auto.
      * intros E N. apply H3; [exact E|]. intros (x & Hx & Hb). apply N. exists x. split; [right; exact Hx|exact Hb].
Qed.

(** The estimate of one order parameter: one entry per pair, the smaller id first. *)
Definition estimate_ok (est : list (nat * nat * Z)) : Prop :=
  NoDup (map fst est) /\ forall p q v, In ((p, q), v) est -> p < q.

Lemma assessed_nodup : forall l k v, NoDup (map fst l) -> In (k, v) l -> assessed k l = Some v.
Proof.
  induction l as [|[j e] l IH]; intros k v ND H; [destruct H|]. cbn [map fst] in ND. inversion ND as [|? ? H1 H2]; subst. cbn [assessed].
  destruct H as [H|H]; [inversion H; subst; rewrite peqb_refl; reflexivity|]. destruct (peqb j k) eqn:B; [|apply IH; assumption].
  apply peqb_spec in B. subst j. exfalso. apply H1. apply in_map_iff. exists (k, v). auto.
Qed.

Lemma own_spec : forall op p q est acc, estimate_ok est -> p <> q -> pfind (op, q) acc = None ->
  pfind (op, q) (fold_left (fun l e =>
    let l := if fst (fst e) =? p then pemplace (op, snd (fst e)) (snd e) l else l in
    if snd (fst e) =? p then pemplace (op, fst (fst e)) (snd e) l else l) est acc) = assessed (Nat.min p q, Nat.max p q) est.
Proof.
  intros op p q. induction est as [|[[a b] v] est IH]; intros acc [ND LT] N E; [exact E|].
  cbn [fold_left fst snd assessed]. cbv zeta. cbn [map fst] in ND. inversion ND as [|? ? H1 H2]; subst.
  assert (AB : a < b) by (apply (LT a b v); left; reflexivity).
  assert (OK : estimate_ok est). { split; [exact H2|]. intros x y w H. apply (LT x y w). right. exact H. }
  set (acc' := if b =? p then _ else _).
  assert (EA : pfind (op, q) acc' = if peqb (a, b) (Nat.min p q, Nat.max p q) then Some v else None).
  { unfold acc'. assert (PE : forall x, peqb (op, x) (op, q) = (x =? q)) by (intro x; unfold peqb; cbn [fst snd]; rewrite Nat.eqb_refl; reflexivity).
    unfold peqb at 1. cbn [fst snd]. destruct (Nat.eqb_spec a p) as [Ha|Ha], (Nat.eqb_spec b p) as [Hb|Hb]; try lia.
    - rewrite pfind_pemplace, E, PE. destruct (Nat.eqb_spec b q), (Nat.eqb_spec a (Nat.min p q)), (Nat.eqb_spec b (Nat.max p q)); cbn [andb]; try reflexivity; lia.
    - rewrite pfind_pemplace, E, PE. destruct (Nat.eqb_spec a q), (Nat.eqb_spec a (Nat.min p q)), (Nat.eqb_spec b (Nat.max p q)); cbn [andb]; try reflexivity; lia.
    - rewrite E. destruct (Nat.eqb_spec a (Nat.min p q)), (Nat.eqb_spec b (Nat.max p q)); cbn [andb]; try reflexivity; lia. }
  destruct (peqb (a, b) (Nat.min p q, Nat.max p q)) eqn:B; [|apply IH; assumption].
  assert (KEEP : forall l acc, pfind (op, q) acc = Some v -> pfind (op, q) (fold_left (fun l e =>
    let l := if fst (fst e) =? p then pemplace (op, snd (fst e)) (snd e) l else l in
    if snd (fst e) =? p then pemplace (op, fst (fst e)) (snd e) l else l) l acc) = Some v).
  { clear. induction l as [|[[a b] w] l IH]; intros acc E; [exact E|]. cbn [fold_left fst snd]. cbv zeta. apply IH.
    destruct (a =? p), (b =? p); rewrite ?pfind_pemplace, ?E; reflexivity. }
  apply KEEP. exact EA.
Qed.

Lemma other_op : forall op i p q est acc, i <> op -> pfind (i, q) acc = None ->
  pfind (i, q) (fold_left (fun l e =>
    let l := if fst (fst e) =? p then pemplace (op, snd (fst e)) (snd e) l else l in
    if snd (fst e) =? p then pemplace (op, fst (fst e)) (snd e) l else l) est acc) = None.
Proof.
  intros op i p q est acc N. revert acc. induction est as [|[[a b] v] est IH]; intros acc E; [exact E|]. cbn [fold_left fst snd]. cbv zeta. apply IH.
  assert (PE : forall x, peqb (op, x) (i, q) = false) by (intro x; apply peqb_false; congruence).
  destruct (a =? p), (b =? p); rewrite ?pfind_pemplace, ?E, ?PE; reflexivity.
Qed.

Lemma distance_values : forall est direct, (forall op, estimate_ok (est op)) ->
  (forall a b, has_in direct a b -> fst a <> fst b) -> forall a b, a <> b ->
  (fst a = fst b -> wavefront_distance est direct a b = assessed (Nat.min (snd a) (snd b), Nat.max (snd a) (snd b)) (est (fst a))) /\
  (fst a <> fst b -> has_in direct a b -> wavefront_distance est direct a b = Some 0%Z) /\
  (fst a <> fst b -> ~ has_in direct a b -> wavefront_distance est direct a b = None).
Proof.
  intros est direct HE HD [i p] [j q] N. unfold wavefront_distance, particle_distances. cbn [fst snd].
  set (own := fold_left _ (est i) []).
  destruct (pfind_direct direct own (i, p) (j, q)) as (H1 & H2 & H3). split; [|split].
  - intros <-. assert (E : pfind (i, q) own = assessed (Nat.min p q, Nat.max p q) (est i)).
    { apply own_spec; [apply HE|congruence|reflexivity]. }
    destruct (pfind (i, q) own) as [v|] eqn:EO; [rewrite (H1 v eq_refl); exact E|]. rewrite (H3 eq_refl); [exact E|].
    intro H. apply HD in H. cbn in H. congruence.
  - intros Nij H. apply H2; [|exact H]. apply other_op; [auto|reflexivity].
  - intros Nij H. apply H3; [|exact H]. apply other_op; [auto|reflexivity].
Qed.

(** Every estimate is of that kind. *)
Definition keys_ok (l : list (nat * nat * Z)) : Prop := forall p q v, In ((p, q), v) l -> p < q.
Notation fields := (list (option nat) * list Z)%type.

Lemma each_keys : forall (A : Type) (f : A -> fields * rank_state -> option (fields * rank_state)),
  (forall a s t, keys_ok (r_dist (snd s)) -> f a s = Some t -> keys_ok (r_dist (snd t))) ->
  forall l s t, keys_ok (r_dist (snd s)) -> each f l s = Some t -> keys_ok (r_dist (snd t)).
Proof.
  intros A f Hf. induction l as [|a l IH]; intros s t K E; cbn [each] in E; [inversion E; subst; exact K|].
  destruct (f a s) as [s1|] eqn:E1; [|discriminate]. cbn [obind] in E. eapply IH; [|exact E]. eapply Hf; eassumption.
Qed.

Lemma handle_keys : forall level max_level c n s t, keys_ok (r_dist (snd s)) -> handle_cells level max_level c n s = Some t ->
  keys_ok (r_dist (snd t)).
Proof.
  intros level max_level c n [[mark dist] r] t K E. cbn [snd] in K. unfold handle_cells in E.
  destruct (vget mark c) as [mc|]; [|discriminate]. cbn [obind] in E. destruct (vget mark n) as [mn|]; [|discriminate]. cbn [obind] in E.
  destruct (vget dist c) as [dc|]; [|discriminate]. cbn [obind] in E. destruct mn as [q|].
  - destruct mc as [p|]; [|discriminate]. destruct (Nat.eqb_spec p q) as [->|N]; [inversion E; subst; exact K|].
    destruct (vget dist n) as [dn|]; [|discriminate]. cbn [obind] in E. inversion E; subst. cbn [snd r_dist].
    intros a b v H. apply assess_in in H as [H|[H _]]; [apply (K a b v H)|]. inversion H; subst. lia.
  - destruct (push level max_level n (r_agg r)) as [agg|]; [|discriminate]. cbn [obind] in E.
    destruct (vset dist n _) as [d'|]; [|discriminate]. cbn [obind] in E. destruct (vset mark n mc) as [m'|]; [|discriminate]. cbn [obind] in E.
    inversion E; subst. exact K.
Qed.

Lemma ghost_keys : forall level max_level p dg l s t, keys_ok (r_dist (snd s)) -> from_ghost level max_level p dg l s = Some t ->
  keys_ok (r_dist (snd t)).
Proof.
  intros level max_level p dg l [[mark dist] r] t K E. cbn [snd] in K. unfold from_ghost in E.
  destruct (vget mark l) as [[x|]|]; [| |discriminate]; cbn [obind] in E; [inversion E; subst; exact K|].
  destruct (push level max_level l (r_agg r)) as [agg|]; [|discriminate]. cbn [obind] in E.
  destruct (vset dist l _) as [d'|]; [|discriminate]. cbn [obind] in E. destruct (vset mark l _) as [m'|]; [|discriminate]. cbn [obind] in E.
  inversion E; subst. exact K.
Qed.

Lemma cache_keys : forall level max_level snap cache s u, keys_ok (r_dist (snd (fst s))) ->
  each (cache_entry level max_level snap) cache s = Some u -> keys_ok (r_dist (snd (fst u))).
Proof.
  intros level max_level snap. induction cache as [|e cache IH]; intros s u K E; cbn [each] in E; [inversion E; subst; exact K|].
  destruct (cache_entry level max_level snap e s) as [s1|] eqn:E1; [|discriminate]. cbn [obind] in E. eapply IH; [|exact E].
  unfold cache_entry in E1. destruct (vget (fst snap) (fst e)) as [[p|]|]; [| |discriminate]; cbn [obind] in E1.
  - destruct (vget (snd snap) (fst e)) as [dg|]; [|discriminate]. cbn [obind] in E1.
    destruct (each (from_ghost level max_level p dg) (snd e) (fst s)) as [t|] eqn:E2; [|discriminate]. cbn [obind] in E1. inversion E1; subst.
    cbn [fst]. eapply each_keys; [|exact K|exact E2]. intros a x y. apply ghost_keys.
  - inversion E1; subst. exact K.
Qed.

Lemma iterate_keys : forall m level max_level me snap s t, keys_ok (r_dist (snd s)) -> iterate_rank m level max_level me snap s = Some t ->
  keys_ok (r_dist (snd t)).
Proof.
  intros m level max_level me snap [f r] t K E. cbn [snd] in K. unfold iterate_rank in E. cbn [snd fst] in E. destruct (r_agg r) as [|front rest]; [discriminate|].
  destruct (each (cache_entry level max_level snap) (r_cache r) _) as [u|] eqn:E1; [|discriminate]. cbn [obind] in E.
  destruct (each (grow m level max_level me) front (fst u)) as [w|] eqn:E2; [|discriminate]. cbn [obind] in E. inversion E; subst. cbn [snd r_dist].
  eapply each_keys; [| |exact E2].
  - intros c x y Kx Ex. unfold grow in Ex. eapply each_keys; [|exact Kx|exact Ex]. intros n x' y' Kx' Ex'. cbv beta in Ex'. destruct (rank m n =? me).
    + exact (handle_keys _ _ _ _ _ _ Kx' Ex').
    + inversion Ex'; subst; exact Kx'.
  - eapply cache_keys; [|exact E1]. exact K.
Qed.

Lemma ranks_keys : forall m level max_level snap rs me f t, (forall r, In r rs -> keys_ok (r_dist r)) ->
  iterate_ranks m level max_level me snap f rs = Some t -> forall r, In r (snd t) -> keys_ok (r_dist r).
Proof.
  intros m level max_level snap. induction rs as [|r0 rs IH]; intros me f t K E; cbn [iterate_ranks] in E; [inversion E; subst; intros r []|].
  destruct (iterate_rank m level max_level me snap (f, r0)) as [s|] eqn:E1; [|discriminate]. cbn [obind] in E.
  destruct (iterate_ranks m level max_level (S me) snap (fst s) rs) as [u|] eqn:E2; [|discriminate]. cbn [obind] in E. inversion E; subst.
  cbn [snd]. intros r [<-|Hr]; [eapply iterate_keys; [|exact E1]; apply K; left; reflexivity|].
  eapply IH; [|exact E2|exact Hr]. intros x Hx. apply K. right. exact Hx.
Qed.

Lemma waves_keys : forall m level max_level fuel f rs t, (forall r, In r rs -> keys_ok (r_dist r)) ->
  waves m level max_level fuel f rs = Some t -> forall r, In r (snd t) -> keys_ok (r_dist r).
Proof.
  intros m level max_level. induction fuel as [|fuel IH]; intros f rs t K E; cbn [waves] in E; destruct (busy rs); try discriminate;
    try (inversion E; subst; exact K).
  destruct (iterate_ranks m level max_level 0 f f rs) as [s|] eqn:E1; [|discriminate]. cbn [obind] in E. eapply IH; [|exact E].
  eapply ranks_keys; eassumption.
Qed.

Lemma estimate_is_ok : forall m level max_level pid fuel ghost n_ranks est,
  estimate_distances m level max_level pid fuel ghost n_ranks = Some est -> estimate_ok est.
Proof.
  intros m level max_level pid fuel ghost n_ranks est E. unfold estimate_distances in E.
  destruct (prep_ranks m level max_level pid fuel _ _) as [s|]; [|discriminate]. cbn [obind] in E.
  destruct (set_zero level max_level _ _) as [dist|]; [|discriminate]. cbn [obind] in E.
  destruct (waves m level max_level fuel _ _) as [t|] eqn:E1; [|discriminate]. cbn [obind] in E. inversion E; subst. split.
  - apply merge_nodup. constructor.
  - intros p q v H. unfold merge in H. apply merge_in in H as [H|[]]. apply in_flat_map in H as (r & Hr & H).
    eapply (waves_keys _ _ _ _ _ _ _) in E1; [|intros x Hx|exact Hr].
    + apply (E1 p q v H).
    + apply in_map_iff in Hx as (y & <- & _). intros a b w [].
Qed.

(** The keys of the direct neighbours are all different. *)
Lemma nput_keys : forall k ps l k', In k' (map fst (nput k ps l)) <-> k' = k \/ In k' (map fst l).
Proof.
  intros k ps. induction l as [|[j s] l IH]; intro k'; cbn [nput map fst In]; [intuition|].
  destruct (peqb j k) eqn:B; cbn [map fst In].
  - apply peqb_spec in B. subst j. intuition.
  - rewrite IH. intuition.
Qed.

Lemma nput_nodup : forall k ps l, NoDup (map fst l) -> NoDup (map fst (nput k ps l)).
Proof.
  intros k ps. induction l as [|[j s] l IH]; intro H; cbn [nput map fst]; [constructor; [intros []|constructor]|].
  inversion H as [|? ? H1 H2]; subst. destruct (peqb j k) eqn:B; cbn [map fst]; constructor; auto.
  rewrite nput_keys. intros [->|H3]; [|contradiction]. rewrite peqb_refl in B. discriminate.
Qed.

Lemma unflatten_nodup : forall fuel l nb r, NoDup (map fst nb) -> unflatten fuel l nb = Some r -> NoDup (map fst r).
Proof.
  induction fuel as [|fuel IH]; intros l nb r ND E.
  - cbn in E. destruct l; inversion E; subst; exact ND.
  - cbn [unflatten] in E. destruct l as [|a [|b [|n l]]]; try discriminate; [inversion E; subst; exact ND|].
    destruct (read_pairs n l) as [x|]; [|discriminate]. cbn [obind] in E. eapply IH; [|exact E]. apply nput_nodup, ND.
Qed.

Lemma gather_nodup : forall data nb r, NoDup (map fst nb) -> gather data nb = Some r -> NoDup (map fst r).
Proof.
  induction data as [|l data IH]; intros nb r ND E; cbn [gather] in E; [inversion E; subst; exact ND|].
  destruct (unflatten (length l) l nb) as [nb1|] eqn:E1; [|discriminate]. cbn [obind] in E. eapply IH; [|exact E].
  eapply unflatten_nodup; eassumption.
Qed.

Lemma has_in_has : forall l a b, NoDup (map fst l) -> (has_in l a b <-> has l a b).
Proof.
  intros l a b ND. split.
  - intros (s & Hs & Hb). exists s. split; [|exact Hb]. revert ND Hs. induction l as [|[j t] l IH]; intros ND Hs; [destruct Hs|].
    cbn [map fst] in ND. inversion ND as [|? ? H1 H2]; subst. cbn [nget]. destruct Hs as [Hs|Hs]; [inversion Hs; subst; rewrite peqb_refl; reflexivity|].
    destruct (peqb j a) eqn:B; [|apply IH; assumption]. apply peqb_spec in B. subst j. exfalso. apply H1. apply in_map_iff. exists (a, s). auto.
  - intros (s & Hs & Hb). exists s. split; [apply nget_in, Hs|exact Hb].
Qed.

(** The distance between two particles as the tracker reports it: that of the
    estimate for particles of one order parameter, zero for particles of different
    order parameters that are direct neighbours, the largest double otherwise; and
    the same in both directions. *)
Theorem C60_distances : forall m visible pids n_blocks n_ranks levels max_level ghost fuel est direct,
  neighbors_ok m visible n_ranks ->
  (forall op, estimate_distances m levels max_level (pids op) fuel ghost n_ranks = Some (est op)) ->
  get_direct_neighbors m visible pids n_blocks n_ranks = Some direct ->
  forall a b, a <> b ->
    (fst a = fst b -> forall v, wavefront_distance est direct a b = Some v <-> stored (est (fst a)) (snd a) (snd b) v) /\
    (fst a <> fst b -> (wavefront_distance est direct a b = Some 0%Z /\ has direct a b) \/
                       (wavefront_distance est direct a b = None /\ ~ has direct a b)) /\
    wavefront_distance est direct a b = wavefront_distance est direct b a.
Proof.
  intros m visible pids n_blocks n_ranks levels max_level ghost fuel est direct NO HE HD.
  assert (EO : forall op, estimate_ok (est op)) by (intro op; eapply estimate_is_ok; apply HE).
  destruct (C59_neighbors m visible pids n_blocks n_ranks NO) as (r & E & _ & HN & HS & _). rewrite HD in E. inversion E; subst r. clear E.
  assert (ND : NoDup (map fst direct)). { unfold get_direct_neighbors in HD. eapply gather_nodup; [|exact HD]. constructor. }
  assert (DI : forall a b, has_in direct a b -> fst a <> fst b). { intros a b H. apply (has_in_has direct a b ND) in H. apply HN in H. apply H. }
  assert (DEC : forall a b, {has_in direct a b} + {~ has_in direct a b}).
  { intros a b. destruct (existsb (fun e => peqb (fst e) a && existsb (fun x => peqb x b) (snd e)) direct) eqn:B; [left|right].
    - apply existsb_exists in B as ([k s] & H1 & H2). apply andb_true_iff in H2 as [H2 H3]. apply peqb_spec in H2. cbn [fst] in H2. subst k.
      apply existsb_exists in H3 as (x & H3 & H4). apply peqb_spec in H4. subst x. exists s. auto.
    - intros (s & H1 & H2). enough (existsb (fun e => peqb (fst e) a && existsb (fun x => peqb x b) (snd e)) direct = true) by congruence.
      apply existsb_exists. exists (a, s). split; [exact H1|]. cbn [fst snd]. rewrite peqb_refl. apply existsb_exists. exists b. split; [exact H2|apply peqb_refl]. }
  intros a b N. destruct (distance_values est direct EO DI a b N) as (V1 & V2 & V3).
  destruct (distance_values est direct EO DI b a (not_eq_sym N)) as (W1 & W2 & W3). split; [|split].
  - intros Eo v. rewrite (V1 Eo). reflexivity.
  - intro No. destruct (DEC a b) as [H|H]; [left|right]; (split; [auto|]); rewrite <- (has_in_has direct a b ND); exact H.
  - destruct (Nat.eq_dec (fst a) (fst b)) as [Eo|No].
    + rewrite (V1 Eo), (W1 (eq_sym Eo)), Eo, Nat.min_comm, Nat.max_comm. reflexivity.
    + assert (SY : has_in direct a b <-> has_in direct b a). { rewrite !(has_in_has direct _ _ ND). split; apply HS. }
      destruct (DEC a b) as [H|H].
      * rewrite (V2 No H). symmetry. apply W2; [auto|]. apply SY, H.
      * rewrite (V3 No H). symmetry. apply W3; [auto|]. intro H'. apply H, SY, H'.
Qed.
Print Assumptions C60_distances.

(** ** Meshes given by tables *)
(** Cells [0 .. na-1] are active; [ch] lists the children of cell [na], [na+1]
    etc., which have smaller numbers; [nb] the neighbours of the active cells. *)
Definition table_mesh (na : nat) (ch nb : list (list nat)) (rk : nat -> nat) : mesh :=
  let chd c := if c <? na then [] else nth (c - na) ch [] in
  let nbr c := nth c nb [] in
  mkMesh na (seq 0 na) chd nbr
    (fun c n => filter (fun d => match chd d with [] => existsb (Nat.eqb c) (nbr d) | _ => false end) (chd n))
    rk (fun _ => (0%Q, [])).

Definition table_check (na : nat) (ch nb : list (list nat)) (rk : nat -> nat) (pid : nat -> option nat) (n_ranks : nat) : bool :=
  let m := table_mesh na ch nb rk in
  forallb (fun c => forallb (fun d => d <? c) (children m c) && match children m c with [] => false | _ => true end)
    (seq na (length ch)) &&
  forallb (fun c => forallb (fun n => (n <? na + length ch) && forallb (fun e => rk e =? rk c) (subface_children m c n)) (neighbors m c) &&
    forallb (fun d => existsb (Nat.eqb c) (face_cells m d) &&
      match pid c, pid d with Some p, Some q => p =? q | _, _ => true end) (face_cells m c) && (rk c <? n_ranks)) (seq 0 na).

Lemma existsb_in : forall c l, existsb (Nat.eqb c) l = true <-> In c l.
Proof.
  intros c l. rewrite existsb_exists. split; [intros (x & Hx & E); apply Nat.eqb_eq in E; subst; exact Hx|].
  intro H. exists c. split; [exact H|apply Nat.eqb_refl].
Qed.

Lemma table_ok : forall na ch nb rk pid n_ranks, table_check na ch nb rk pid n_ranks = true ->
  wave_ok (table_mesh na ch nb rk) pid (fun me g => negb (rk g =? me)) n_ranks.
Proof.
  intros na ch nb rk pid n_ranks H. unfold table_check in H. set (m := table_mesh na ch nb rk) in *.
  apply andb_true_iff in H as [H1 H2]. rewrite forallb_forall in H1, H2.
  assert (LO : forall c, c < na -> children m c = []).
  { intros c Hc. cbn [m table_mesh children]. destruct (Nat.ltb_spec c na); [reflexivity|lia]. }
  assert (HI : forall c, na + length ch <= c -> children m c = []).
  { intros c Hc. cbn [m table_mesh children]. destruct (Nat.ltb_spec c na); [reflexivity|]. apply nth_overflow. lia. }
  assert (CH : forall c d, In d (children m c) -> d < c /\ na <= c < na + length ch).
  { intros c d Hd. destruct (Nat.lt_ge_cases c na) as [L|L]; [rewrite (LO c L) in Hd; destruct Hd|].
    destruct (Nat.lt_ge_cases c (na + length ch)) as [L'|L']; [|rewrite (HI c L') in Hd; destruct Hd]. split; [|lia].
    assert (Hc : In c (seq na (length ch))) by (apply in_seq; lia). specialize (H1 c Hc). apply andb_true_iff in H1 as [H1 _].
    rewrite forallb_forall in H1. apply Nat.ltb_lt, H1, Hd. }
  assert (NE : forall c, na <= c -> c < na + length ch -> children m c <> []).
  { intros c L L' E. assert (Hc : In c (seq na (length ch))) by (apply in_seq; lia). specialize (H1 c Hc). rewrite E in H1.
    apply andb_true_iff in H1 as [_ H1]. discriminate. }
  assert (AC : forall c, In c (active m) <-> c < na) by (intro c; cbn [m table_mesh active]; rewrite in_seq; lia).
  assert (CELL : forall c, In c (active m) -> (forall n, In n (neighbors m c) -> n < na + length ch /\
      forall e, In e (subface_children m c n) -> rk e = rk c) /\ rk c < n_ranks /\
    forall d, In d (face_cells m c) -> In c (face_cells m d) /\ forall p q, pid c = Some p -> pid d = Some q -> p = q).
  { intros c Hc. specialize (H2 c Hc). apply andb_true_iff in H2 as [H2 H2c]. apply andb_true_iff in H2 as [H2a H2b].
    rewrite forallb_forall in H2a, H2b. split.
    { intros n Hn. specialize (H2a n Hn). apply andb_true_iff in H2a as [A1 A2]. split; [apply Nat.ltb_lt, A1|].
      rewrite forallb_forall in A2. intros e He. apply Nat.eqb_eq, A2, He. }
    split; [apply Nat.ltb_lt, H2c|].
    intros d Hd. specialize (H2b d Hd). apply andb_true_iff in H2b as [B1 B2].
    split; [apply existsb_in, B1|]. intros p q Ep Eq. rewrite Ep, Eq in B2. apply Nat.eqb_eq, B2. }
  assert (LEAF : forall c e, leaf m c e -> c < na + length ch -> In e (active m)).
  { intros c e L. induction L as [c Hc|c d e Hd L IH]; intro B.
    - apply AC. destruct (Nat.lt_ge_cases c na) as [|L]; [assumption|]. exfalso. apply (NE c L B Hc).
    - apply CH in Hd. apply IH. lia. }
  assert (SUB : forall c n e, In e (subface_children m c n) <-> In e (children m n) /\ children m e = [] /\ In c (neighbors m e)).
  { intros c n e. cbn [m table_mesh subface_children]. rewrite filter_In. change (nth e nb []) with (neighbors m e).
    change (if e <? na then [] else nth (e - na) ch []) with (children m e).
    change (if n <? na then [] else nth (n - na) ch []) with (children m n).
    destruct (children m e) as [|x l]; [rewrite existsb_in; tauto|]. split; [intros [_ X]; discriminate|intros (_ & X & _); discriminate]. }
  split.
  - split; [split|].
    + intros c Hc. apply AC in Hc. split; [exact Hc|apply LO, Hc].
    + intros c n e Hc Hn L. apply (LEAF n e L). apply (CELL c Hc), Hn.
    + exists (na + length ch), (fun c => Nat.min c (na + length ch)). split; [intro c; lia|]. intros c d Hd. apply CH in Hd. lia.
    + intros c n e Hc Hn CN He. apply SUB in He as (E1 & E2 & _). eapply leaf_child; [exact E1|]. apply leaf_self, E2.
    + intros c d Hc Hd. apply (CELL c Hc), Hd.
    + intros c n e Hc Hn CN. apply SUB.
  - intros c Hc. apply (CELL c Hc).
  - intros c n p q Hc Hn. apply (CELL c Hc), Hn.
  - intros c n e Hc Hn CN He. exact (proj2 (proj1 (CELL c Hc) n Hn) e He).
  - intros me g E. cbn [m table_mesh rank]. apply negb_true_iff, Nat.eqb_neq in E. exact E.
Qed.

(** ** Examples *)
(** Passages by computation *)
Definition passage_check (m : mesh) (pid : nat -> option nat) (p q : nat) (l : list nat) : bool :=
  let is c x := match pid c with Some y => y =? x | None => false end in
  match l with
  | a :: r =>
      match rev r with
      | b :: v => is a p && is b q && forallb (fun c => match pid c with None => true | _ => false end) v &&
          forallb (fun c => existsb (Nat.eqb c) (active m)) l &&
          (fix go l := match l with a :: ((b :: _) as r) => existsb (Nat.eqb b) (face_cells m a) && go r | _ => true end) l
      | [] => false
      end
  | [] => false
  end.

Lemma passage_ok : forall m pid p q l, passage_check m pid p q l = true -> passage m pid p q l.
Proof.
  intros m pid p q l H. unfold passage_check in H. destruct l as [|a r]; [discriminate|]. destruct (rev r) as [|b v] eqn:E; [discriminate|].
  repeat (apply andb_true_iff in H as [H ?H]). exists a, (rev v), b.
  assert (ER : r = rev v ++ [b]) by (rewrite <- (rev_involutive r), E; reflexivity).
  assert (IS : forall c x, match pid c with Some y => y =? x | None => false end = true -> pid c = Some x).
  { intros c x. destruct (pid c) as [y|]; [|discriminate]. intro X. apply Nat.eqb_eq in X. subst. reflexivity. }
  split; [rewrite ER; reflexivity|]. split; [apply IS; assumption|]. split; [apply IS; assumption|].
  rewrite forallb_forall in H1, H2. split; [|split].
  - intros c Hc. apply in_rev in Hc. specialize (H2 c Hc). destruct (pid c); [discriminate|reflexivity].
  - intros c Hc. apply existsb_in, H1, Hc.
  - clear - H0. revert a H0. induction r as [|x r IH]; intros a H; [exact I|]. apply andb_true_iff in H as [H1 H2].
    split; [apply existsb_in, H1|]. apply IH, H2.
Qed.

(** Five cells in a row, 0 and 4 with a particle; the cells 1 and 2 are the
    children of the refined cell 5. *)
Definition row5_ch : list (list nat) := [[1; 2]].
Definition row5_nb : list (list nat) := [[5]; [0; 2]; [1; 3]; [5; 4]; [3]].
Definition row5_level (c : nat) : nat := match c with 1 | 2 => 1 | _ => 0 end.
Definition ends (c : nat) : option nat := match c with 0 => Some 7 | 4 => Some 3 | _ => None end.

Example C60_applies : let m := table_mesh 5 row5_ch row5_nb (fun _ => 0) in
  wave_ok m ends (fun me g => negb (0 =? me)) 1 /\ (forall c, In c (active m) -> 1 - row5_level c <= 1) /\
  passage m ends 7 3 [0; 1; 2; 3; 4] /\ way_length row5_level 1 [0; 1; 2; 3; 4] = 6%Z /\
  estimate_distances m row5_level 1 ends 30 (fun me g => negb (0 =? me)) 1 = Some [((3, 7), 6%Z)].
Proof.
  cbv zeta. split; [apply (table_ok 5 row5_ch row5_nb (fun _ => 0) ends 1); reflexivity|]. split; [intros; lia|].
  split; [apply passage_ok; reflexivity|]. split; reflexivity.
Qed.

(** On two ranks, the border in the middle, the two waves meet at the border and
    nothing is stored, although there is a way between the two particles: only
    collisions inside of a rank are recorded. *)
Definition line4_nb : list (list nat) := [[1]; [0; 2]; [1; 3]; [2]].
Definition line4_ids (c : nat) : option nat := match c with 0 => Some 0 | 3 => Some 1 | _ => None end.
Definition halves (c : nat) : nat := if c <? 2 then 0 else 1.

Theorem C60_ranks_refuted : exists m level max_level pid ghost fuel l,
  wave_ok m pid ghost 2 /\ (forall c, In c (active m) -> level c = max_level) /\ passage m pid 0 1 l /\
  estimate_distances m level max_level pid fuel ghost 2 = Some [] /\
  estimate_distances (mkMesh (n_cells m) (active m) (children m) (neighbors m) (subface_children m) (fun _ => 0) (values m))
    level max_level pid fuel (fun me _ => negb (0 =? me)) 1 = Some [((0, 1), way_length level max_level l)].
Proof.
  exists (table_mesh 4 [] line4_nb halves), (fun _ => 0), 0, line4_ids, (fun me g => negb (halves g =? me)), 20, [0; 1; 2; 3].
  split; [apply table_ok; reflexivity|]. split; [reflexivity|]. split; [apply passage_ok; reflexivity|]. split; vm_compute; reflexivity.
Qed.
Print Assumptions C60_ranks_refuted.

(** With three levels of cells a wave is ahead in the coarse cells: the delay of
    a cell grows by one per level, its size by a factor of two.  A row of 13 coarse
    cells on top of a row that is refined once, and twice in the lower half. *)
Definition deep_ch : list (list nat) :=
   [[0; 1; 2; 3]; [4; 5; 6; 7]; [10; 11; 12; 13]; [14; 15; 16; 17]; [20; 21; 22; 23]; [24; 25; 26;
   27]; [30; 31; 32; 33]; [34; 35; 36; 37]; [40; 41; 42; 43]; [44; 45; 46; 47]; [50; 51; 52; 53];
   [54; 55; 56; 57]; [60; 61; 62; 63]; [64; 65; 66; 67]; [70; 71; 72; 73]; [74; 75; 76; 77]; [80;
   81; 82; 83]; [84; 85; 86; 87]; [90; 91; 92; 93]; [94; 95; 96; 97]; [100; 101; 102; 103]; [104;
   105; 106; 107]; [110; 111; 112; 113]; [114; 115; 116; 117]; [120; 121; 122; 123]; [124; 125; 126;
   127]; [143; 144; 8; 9]; [145; 146; 18; 19]; [147; 148; 28; 29]; [149; 150; 38; 39]; [151; 152;
   48; 49]; [153; 154; 58; 59]; [155; 156; 68; 69]; [157; 158; 78; 79]; [159; 160; 88; 89]; [161;
   162; 98; 99]; [163; 164; 108; 109]; [165; 166; 118; 119]; [167; 168; 128; 129]].
Definition deep_nb : list (list nat) :=
   [[1; 2]; [0; 4; 3]; [3; 0; 8]; [2; 6; 1; 8]; [1; 5; 6]; [4; 10; 7]; [3; 7; 4; 9]; [6; 12; 5; 9];
   [9; 143; 130]; [8; 18; 144; 130]; [5; 11; 12]; [10; 14; 13]; [7; 13; 10; 18]; [12; 16; 11; 18];
   [11; 15; 16]; [14; 20; 17]; [13; 17; 14; 19]; [16; 22; 15; 19]; [9; 19; 145; 131]; [18; 28; 146;
   131]; [15; 21; 22]; [20; 24; 23]; [17; 23; 20; 28]; [22; 26; 21; 28]; [21; 25; 26]; [24; 30; 27];
   [23; 27; 24; 29]; [26; 32; 25; 29]; [19; 29; 147; 132]; [28; 38; 148; 132]; [25; 31; 32]; [30;
   34; 33]; [27; 33; 30; 38]; [32; 36; 31; 38]; [31; 35; 36]; [34; 40; 37]; [33; 37; 34; 39]; [36;
   42; 35; 39]; [29; 39; 149; 133]; [38; 48; 150; 133]; [35; 41; 42]; [40; 44; 43]; [37; 43; 40;
   48]; [42; 46; 41; 48]; [41; 45; 46]; [44; 50; 47]; [43; 47; 44; 49]; [46; 52; 45; 49]; [39; 49;
   151; 134]; [48; 58; 152; 134]; [45; 51; 52]; [50; 54; 53]; [47; 53; 50; 58]; [52; 56; 51; 58];
   [51; 55; 56]; [54; 60; 57]; [53; 57; 54; 59]; [56; 62; 55; 59]; [49; 59; 153; 135]; [58; 68; 154;
   135]; [55; 61; 62]; [60; 64; 63]; [57; 63; 60; 68]; [62; 66; 61; 68]; [61; 65; 66]; [64; 70; 67];
   [63; 67; 64; 69]; [66; 72; 65; 69]; [59; 69; 155; 136]; [68; 78; 156; 136]; [65; 71; 72]; [70;
   74; 73]; [67; 73; 70; 78]; [72; 76; 71; 78]; [71; 75; 76]; [74; 80; 77]; [73; 77; 74; 79]; [76;
   82; 75; 79]; [69; 79; 157; 137]; [78; 88; 158; 137]; [75; 81; 82]; [80; 84; 83]; [77; 83; 80;
   88]; [82; 86; 81; 88]; [81; 85; 86]; [84; 90; 87]; [83; 87; 84; 89]; [86; 92; 85; 89]; [79; 89;
   159; 138]; [88; 98; 160; 138]; [85; 91; 92]; [90; 94; 93]; [87; 93; 90; 98]; [92; 96; 91; 98];
   [91; 95; 96]; [94; 100; 97]; [93; 97; 94; 99]; [96; 102; 95; 99]; [89; 99; 161; 139]; [98; 108;
   162; 139]; [95; 101; 102]; [100; 104; 103]; [97; 103; 100; 108]; [102; 106; 101; 108]; [101; 105;
   106]; [104; 110; 107]; [103; 107; 104; 109]; [106; 112; 105; 109]; [99; 109; 163; 140]; [108;
   118; 164; 140]; [105; 111; 112]; [110; 114; 113]; [107; 113; 110; 118]; [112; 116; 111; 118];
   [111; 115; 116]; [114; 120; 117]; [113; 117; 114; 119]; [116; 122; 115; 119]; [109; 119; 165;
   141]; [118; 128; 166; 141]; [115; 121; 122]; [120; 124; 123]; [117; 123; 120; 128]; [122; 126;
   121; 128]; [121; 125; 126]; [124; 127]; [123; 127; 124; 129]; [126; 125; 129]; [119; 129; 167;
   142]; [128; 168; 142]; [131; 169]; [130; 132; 170]; [131; 133; 171]; [132; 134; 172]; [133; 135;
   173]; [134; 136; 174]; [135; 137; 175]; [136; 138; 176]; [137; 139; 177]; [138; 140; 178]; [139;
   141; 179]; [140; 142; 180]; [141; 181]].
Definition deep_level (c : nat) : nat := nth c
   [2; 2; 2; 2; 2; 2; 2; 2; 1; 1; 2; 2; 2; 2; 2; 2; 2; 2; 1; 1; 2; 2; 2; 2; 2; 2; 2; 2; 1; 1; 2; 2;
   2; 2; 2; 2; 2; 2; 1; 1; 2; 2; 2; 2; 2; 2; 2; 2; 1; 1; 2; 2; 2; 2; 2; 2; 2; 2; 1; 1; 2; 2; 2; 2;
   2; 2; 2; 2; 1; 1; 2; 2; 2; 2; 2; 2; 2; 2; 1; 1; 2; 2; 2; 2; 2; 2; 2; 2; 1; 1; 2; 2; 2; 2; 2; 2;
   2; 2; 1; 1; 2; 2; 2; 2; 2; 2; 2; 2; 1; 1; 2; 2; 2; 2; 2; 2; 2; 2; 1; 1; 2; 2; 2; 2; 2; 2; 2; 2;
   1; 1; 0; 0; 0; 0; 0; 0; 0; 0; 0; 0; 0; 0; 0; 1; 1; 1; 1; 1; 1; 1; 1; 1; 1; 1; 1; 1; 1; 1; 1; 1;
   1; 1; 1; 1; 1; 1; 1; 1; 1; 0; 0; 0; 0; 0; 0; 0; 0; 0; 0; 0; 0; 0] 0.
Definition deep_ids (c : nat) : option nat :=
  if existsb (Nat.eqb c) [0; 1; 2; 3; 4; 5; 6; 7; 8; 9; 130] then Some 0 else if c =? 125 then Some 1 else None.
Definition deep_way : list nat :=
   [5; 10; 11; 14; 15; 20; 21; 24; 25; 30; 31; 34; 35; 40; 41; 44; 45; 50; 51; 54; 55; 60; 61; 64;
   65; 70; 71; 74; 75; 80; 81; 84; 85; 90; 91; 94; 95; 100; 101; 104; 105; 110; 111; 114; 115; 120;
   121; 124; 125].

Theorem C60_levels_refuted : exists m level max_level pid ghost fuel l est v,
  wave_ok m pid ghost 1 /\ passage m pid 0 1 l /\ estimate_distances m level max_level pid fuel ghost 1 = Some est /\
  stored est 0 1 v /\ (way_length level max_level l < v)%Z /\
  forall o w, stored est 0 o w -> (way_length level max_level l < w)%Z.
Proof.
  exists (table_mesh 143 deep_ch deep_nb (fun _ => 0)), deep_level, 2, deep_ids, (fun me g => negb (0 =? me)), 300, deep_way, [((0, 1), 54%Z)], 54%Z.
  split; [apply (table_ok 143 deep_ch deep_nb (fun _ => 0)); vm_compute; reflexivity|].
  split; [apply passage_ok; vm_compute; reflexivity|]. split; [vm_compute; reflexivity|]. split; [reflexivity|].
  assert (W : way_length deep_level 2 deep_way = 47%Z) by (vm_compute; reflexivity). rewrite W. split; [lia|].
  intros o w H. apply assessed_in in H as [H|[]]. inversion H. lia.
Qed.
Print Assumptions C60_levels_refuted.

(** The distances as the tracker reports them *)
Definition two_ids (op c : nat) : option nat :=
  match op, c with 0, 0 => Some 7 | 0, 4 => Some 3 | 1, 1 => Some 2 | _, _ => None end.
Definition line5 : mesh := table_mesh 5 [] [[1]; [0; 2]; [1; 3]; [2; 4]; [3]] (fun _ => 0).

Example C60_distances_applies : exists est direct,
  (forall op, estimate_distances line5 (fun _ => 0) 0 (two_ids op) 30 (fun _ _ => false) 1 = Some (est op)) /\
  get_direct_neighbors line5 (fun _ _ => true) two_ids 2 1 = Some direct /\ neighbors_ok line5 (fun _ _ => true) 1 /\
  wavefront_distance est direct (0, 3) (0, 7) = Some 3%Z /\ wavefront_distance est direct (1, 2) (0, 7) = Some 0%Z /\
  wavefront_distance est direct (1, 2) (0, 3) = None.
Proof.
  exists (fun op => match op with 0 => [((3, 7), 3%Z)] | _ => [] end). eexists. split; [|split; [vm_compute; reflexivity|]].
  - intros [|[|op]]; vm_compute; reflexivity.
  - split; [|split; [reflexivity|split; reflexivity]].
    pose proof (table_ok 5 [] [[1]; [0; 2]; [1; 3]; [2; 4]; [3]] (fun _ => 0) (two_ids 0) 1 eq_refl) as W. fold line5 in W.
    split; [apply (wm_mesh _ (wo_mesh _ _ _ _ W))|apply (wo_rank _ _ _ _ W)| |reflexivity].
    intros c n e Hc Hn He. cbn [line5 table_mesh subface_children] in He. exfalso.
    destruct (n <? 5); [destruct He|]. rewrite nth_overflow in He by (cbn; lia). destruct He.
Qed.

Example C59_unrefined_applies : neighbors_ok line5 (fun _ _ => true) 1 /\ unrefined line5 /\
  (forall i c p, two_ids i c = Some p -> In c (active line5)) /\ in_touch line5 two_ids 2 (1, 2) (0, 7).
Proof.
  assert (N : neighbors_ok line5 (fun _ _ => true) 1) by (destruct C60_distances_applies as (est & direct & _ & _ & H & _); exact H).
  split; [exact N|]. split.
  - intros c n Hc Hn. destruct (children line5 n) as [|x l] eqn:E; [reflexivity|]. exfalso.
    assert (In x (children line5 n)) as Hx by (rewrite E; left; reflexivity). cbn [line5 table_mesh children] in Hx.
    destruct (n <? 5); [destruct Hx|]. rewrite nth_overflow in Hx by (cbn; lia). destruct Hx.
  - split; [|split; [discriminate|split; [cbn; lia|split; [cbn; lia|]]]].
    + intros i c p H. cbn. destruct i as [|[|i]], c as [|[|[|[|[|c]]]]]; try discriminate H; auto 10.
    + exists 1, 0. cbn. repeat split; auto. right. left. reflexivity.
Qed.

(** ** Faces between cells of different size on the border of two ranks *)
Lemma leaf_rank : forall na ch nb rk rk' c e, leaf (table_mesh na ch nb rk) c e -> leaf (table_mesh na ch nb rk') c e.
Proof. intros na ch nb rk rk' c e L. induction L as [c Hc|c d e Hd L IH]; [apply leaf_self; exact Hc|eapply leaf_child; [exact Hd|exact IH]]. Qed.

Lemma wave_mesh_rank : forall na ch nb rk rk', wave_mesh (table_mesh na ch nb rk) -> wave_mesh (table_mesh na ch nb rk').
Proof.
  intros na ch nb rk rk' [[M1 M2 M3 M4 M5] W]. split; [split|].
  - exact M1.
  - intros c n e Hc Hn L. apply (M2 c n e Hc Hn). eapply leaf_rank, L.
  - exact M3.
  - intros c n e Hc Hn CN He. eapply leaf_rank, (M4 c n e Hc Hn CN He).
  - exact M5.
  - exact W.
Qed.

(** A coarse particle cell whose only free neighbours are smaller cells of the
    other rank is not part of the front and keeps the distance -1.  The distance
    stored is then smaller than the length of every way between the particles. *)
Definition hang_ids (c : nat) : option nat := match c with 0 => Some 0 | 3 => Some 1 | _ => None end.
Definition hang_level (c : nat) : nat := match c with 1 | 2 => 1 | _ => 0 end.
Definition hang_rank (c : nat) : nat := match c with 0 => 0 | _ => 1 end.
Definition hang_nb : list (list nat) := [[4]; [0; 2]; [1; 3]; [4]].

Theorem C60_hanging_refuted : exists m level max_level pid ghost fuel est v l,
  wave_mesh m /\ (forall c, In c (active m) -> rank m c < 2) /\
  (forall c n p q, In c (active m) -> In n (face_cells m c) -> pid c = Some p -> pid n = Some q -> p = q) /\
  (forall me g, ghost me g = true -> rank m g <> me) /\ (forall c, In c (active m) -> max_level - level c <= 1) /\
  estimate_distances m level max_level pid fuel ghost 2 = Some est /\ stored est 0 1 v /\ passage m pid 0 1 l /\
  forall l', passage m pid 0 1 l' -> (v < way_length level max_level l')%Z.
Proof.
  exists (table_mesh 4 [[1; 2]] hang_nb hang_rank), hang_level, 1, hang_ids, (fun me g => negb (hang_rank g =? me)), 30, [((0, 1), 2%Z)], 2%Z, [0; 1; 2; 3].
  pose proof (table_ok 4 [[1; 2]] hang_nb (fun _ => 0) hang_ids 2 eq_refl) as W.
  split; [apply (wave_mesh_rank 4 [[1; 2]] hang_nb (fun _ => 0)), (wo_mesh _ _ _ _ W)|].
  split; [intros [|c] _; cbn; lia|]. split; [exact (wo_separated _ _ _ _ W)|].
  split; [intros me g E; apply negb_true_iff, Nat.eqb_neq in E; exact E|]. split; [intros; lia|].
  split; [vm_compute; reflexivity|]. split; [reflexivity|]. split; [apply passage_ok; reflexivity|].
  intros l' P. pose proof P as (a & v & b & E & Ha & Hb & HV & _).
  assert (A0 : a = 0) by (destruct a as [|[|[|[|a]]]]; try discriminate Ha; reflexivity).
  assert (B3 : b = 3) by (destruct b as [|[|[|[|b]]]]; try discriminate Hb; reflexivity). subst a b.
  destruct P as (a' & v' & b' & E' & _ & _ & _ & _ & HW). rewrite E in HW.
  unfold way_length. rewrite E. cbn [fold_right]. rewrite fold_right_app. cbn [fold_right].
  change (2 ^ Z.of_nat (1 - hang_level 0))%Z with 2%Z. change (2 ^ Z.of_nat (1 - hang_level 3))%Z with 2%Z.
  destruct v as [|x v].
  - exfalso. destruct HW as [HW _]. vm_compute in HW. lia.
  - cbn [fold_right].
    assert (POS : forall w, (2 <= fold_right (fun c s => 2 ^ Z.of_nat (1 - hang_level c) + s)%Z (2 + 0)%Z w)%Z).
    { induction w as [|y w IH]; cbn [fold_right]; [lia|]. pose proof (Z.pow_pos_nonneg 2 (Z.of_nat (1 - hang_level y))). lia. }
    specialize (POS v). pose proof (Z.pow_pos_nonneg 2 (Z.of_nat (1 - hang_level x))). lia.
Qed.
Print Assumptions C60_hanging_refuted.
