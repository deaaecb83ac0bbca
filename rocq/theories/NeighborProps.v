(** C59: the direct neighbours of the particles. *)
From Coq Require Import List QArith Arith Bool Lia.
From Verif Require Import Util FloodModel FloodSpec WavefrontModel.
Import ListNotations.
Local Open Scope nat_scope.

(** ** Maps of sets *)
Lemma peqb_spec : forall a b, peqb a b = true <-> a = b.
Proof.
  intros [a b] [c d]. unfold peqb. cbn [fst snd]. rewrite andb_true_iff, !Nat.eqb_eq. split; [intros [-> ->]; reflexivity|].
  intro H. inversion H. auto.
Qed.

Lemma peqb_refl : forall a, peqb a a = true. Proof. intro a. apply peqb_spec. reflexivity. Qed.

Lemma peqb_false : forall a b, peqb a b = false <-> a <> b.
Proof. intros a b. rewrite <- peqb_spec. destruct (peqb a b); split; congruence. Qed.

Lemma sinsert_in : forall x p s, In x (sinsert p s) <-> x = p \/ In x s.
Proof.
  intros x p s. unfold sinsert. destruct (existsb (peqb p) s) eqn:E.
  - apply existsb_exists in E as (y & Hy & E). apply peqb_spec in E. subst y. split; [auto|]. intros [-> |H]; assumption.
  - rewrite in_app_iff. cbn [In]. intuition.
Qed.

Lemma sinsert_all_in : forall x ps s, In x (fold_left (fun s p => sinsert p s) ps s) <-> In x ps \/ In x s.
Proof.
  intros x. induction ps as [|p ps IH]; intro s; cbn [fold_left In]; [intuition|]. rewrite IH, sinsert_in. intuition.
Qed.

(** [p] is in the set of [k]: by looking up, and in any entry. *)
Definition has (m : nmap) (k p : particle) : Prop := exists s, nget k m = Some s /\ In p s.
Definition has_in (m : nmap) (k p : particle) : Prop := exists s, In (k, s) m /\ In p s.

Lemma has_nput : forall k ps m k' p, has (nput k ps m) k' p <-> has m k' p \/ (k' = k /\ In p ps).
Proof.
  intros k ps. induction m as [|[j s] m IH]; intros k' p; unfold has in *; cbn [nput nget].
  - destruct (peqb k k') eqn:E.
    + apply peqb_spec in E. subst k'. split.
      * intros (s & Hs & H). inversion Hs; subst. apply sinsert_all_in in H as [H|[]]. auto.
      * intros [(s & Hs & _)|[_ H]]; [discriminate|]. eexists. split; [reflexivity|]. apply sinsert_all_in. auto.
    + apply peqb_false in E. split.
      * intros (s & Hs & _). discriminate.
      * intros [(s & Hs & _)|[H _]]; [discriminate|congruence].
  - destruct (peqb j k) eqn:E; cbn [nget].
    + apply peqb_spec in E. subst j. destruct (peqb k k') eqn:E'.
      * apply peqb_spec in E'. subst k'. split.
        -- intros (t & Ht & H). inversion Ht; subst. apply sinsert_all_in in H as [H|H]; [auto|]. left. eauto.
        -- intros [(t & Ht & H)|[_ H]]; eexists; (split; [reflexivity|]); apply sinsert_all_in.
           ++ inversion Ht; subst. auto.
           ++ auto.
      * apply peqb_false in E'. split; [auto|]. intros [H|[H _]]; [exact H|congruence].
    + destruct (peqb j k') eqn:E'.
      * apply peqb_spec in E'. subst k'. split; [auto|]. intros [H|[H _]]; [exact H|]. apply peqb_false in E. congruence.
      * apply IH.
Qed.

Lemma has_in_nput : forall k ps m k' p, has_in (nput k ps m) k' p <-> has_in m k' p \/ (k' = k /\ In p ps).
Proof.
  intros k ps. induction m as [|[j s] m IH]; intros k' p; unfold has_in in *; cbn [nput].
  - split.
    + intros (s & [Hs|[]] & H). inversion Hs; subst. apply sinsert_all_in in H as [H|[]]. auto.
    + intros [(s & [] & _)|[-> H]]. eexists. split; [left; reflexivity|]. apply sinsert_all_in. auto.
  - destruct (peqb j k) eqn:E.
    + apply peqb_spec in E. subst j. split.
      * intros (t & [Ht|Ht] & H).
        -- inversion Ht; subst. apply sinsert_all_in in H as [H|H]; [auto|]. left. exists s. split; [left; reflexivity|exact H].
        -- left. exists t. split; [right; exact Ht|exact H].
      * intros [(t & [Ht|Ht] & H)|[-> H]].
        -- inversion Ht; subst. eexists. split; [left; reflexivity|]. apply sinsert_all_in. auto.
        -- exists t. split; [right; exact Ht|exact H].
        -- eexists. split; [left; reflexivity|]. apply sinsert_all_in. auto.
    + split.
      * intros (t & [Ht|Ht] & H).
        -- left. exists t. split; [left; exact Ht|exact H].
        -- destruct (proj1 (IH k' p) (ex_intro _ t (conj Ht H))) as [(u & Hu & H')|H']; [|auto].
           left. exists u. split; [right; exact Hu|exact H'].
      * intros [(t & [Ht|Ht] & H)|H].
        -- exists t. split; [left; exact Ht|exact H].
        -- destruct (proj2 (IH k' p) (or_introl (ex_intro _ t (conj Ht H)))) as (u & Hu & H'). exists u. split; [right; exact Hu|exact H'].
        -- destruct (proj2 (IH k' p) (or_intror H)) as (u & Hu & H'). exists u. split; [right; exact Hu|exact H'].
Qed.

(** All sets have elements. *)
Definition full (m : nmap) : Prop := forall k s, In (k, s) m -> exists p, In p s.

Lemma full_nput : forall k p ps m, full m -> full (nput k (p :: ps) m).
Proof.
  intros k p ps. induction m as [|[j s] m IH]; intros H k' t; cbn [nput In].
  - intros [E|[]]. inversion E; subst. exists p. apply (sinsert_all_in p (p :: ps)). left. left. reflexivity.
  - destruct (peqb j k); cbn [In]; (intros [E|E]; [inversion E; subst|]).
    + exists p. apply (sinsert_all_in p (p :: ps)). left. left. reflexivity.
    + apply (H k' t). right. exact E.
    + apply (H k' t). left. reflexivity.
    + apply (IH (fun a b Hab => H a b (or_intror Hab)) k' t E).
Qed.

Lemma nget_in : forall m k s, nget k m = Some s -> In (k, s) m.
Proof.
  induction m as [|[j t] m IH]; intros k s; cbn [nget]; [discriminate|]. destruct (peqb j k) eqn:E.
  - apply peqb_spec in E. intro H. inversion H; subst. left. reflexivity.
  - intro H. right. apply IH, H.
Qed.

(** ** The loops of one rank *)
Lemma fold_has : forall (A : Type) (f : nmap -> A -> nmap) (P : A -> particle -> particle -> Prop) l,
  (forall nb x k p, In x l -> has_in (f nb x) k p <-> has_in nb k p \/ P x k p) ->
  forall nb k p, has_in (fold_left f l nb) k p <-> has_in nb k p \/ exists x, In x l /\ P x k p.
Proof.
  intros A f P. induction l as [|x l IH]; intros H nb k p; cbn [fold_left].
  - split; [auto|]. intros [Hh|(x & [] & _)]. exact Hh.
  - rewrite IH; [|intros; apply H; right; assumption]. rewrite (H nb x k p (or_introl eq_refl)). split.
    + intros [[Hh|Hh]|(y & Hy & Hp)]; [auto|right; exists x; cbn; auto|right; exists y; cbn; auto].
    + intros [Hh|(y & [<-|Hy] & Hp)]; [auto|auto|right; eauto].
Qed.

Lemma fold_full : forall (A : Type) (f : nmap -> A -> nmap) l,
  (forall nb x, full nb -> full (f nb x)) -> forall nb, full nb -> full (fold_left f l nb).
Proof. intros A f. induction l as [|x l IH]; intros H nb Hn; cbn [fold_left]; [exact Hn|]. apply IH; [exact H|]. apply H, Hn. Qed.

(** The pair [a], [b] in this or the other order. *)
Definition either (a b k p : particle) : Prop := (k = a /\ p = b) \/ (k = b /\ p = a).

Lemma add_neighbors_has : forall nb a b k p, has_in (add_neighbors nb a b) k p <-> has_in nb k p \/ either a b k p.
Proof.
  intros nb a b k p. unfold add_neighbors, either. rewrite !has_in_nput. cbn [In]. intuition.
Qed.

(** Particle [p] of block [i] is on [c], particle [q] of a later block [j] on one
    of the cells looked at. *)
Definition noticed (m : mesh) (visible : nat -> bool) (pids : nat -> nat -> option nat) (n_blocks c : nat)
  (k k' : particle) : Prop :=
  exists i j p q d, i < j /\ j < n_blocks /\ pids i c = Some p /\ In d (looked_at m visible c) /\
    pids j d = Some q /\ either (i, p) (j, q) k k'.

Lemma cell_neighbors_has : forall m visible pids n_blocks c nb k k',
  has_in (cell_neighbors m visible pids n_blocks c nb) k k' <->
  has_in nb k k' \/ noticed m visible pids n_blocks c k k'.
Proof.
  intros m visible pids n_blocks c nb k k'. unfold cell_neighbors.
  rewrite (fold_has _ _ (fun i k k' => exists j p q d, i < j /\ j < n_blocks /\ pids i c = Some p /\
    In d (looked_at m visible c) /\ pids j d = Some q /\ either (i, p) (j, q) k k')).
  - unfold noticed. split.
    + intros [H|(i & Hi & H)]; [auto|]. right. exists i. exact H.
    + intros [H|(i & j & p & q & d & H1 & H2 & H)]; [auto|]. right. exists i. split.
      * apply in_seq. lia.
      * exists j, p, q, d. auto.
  - clear nb k k'. intros nb i k k' Hi. apply in_seq in Hi. destruct (pids i c) as [p|] eqn:Ep.
    2:{ split; [auto|]. intros [H|(j & p & q & d & _ & _ & H & _)]; [exact H|discriminate]. }
    rewrite (fold_has _ _ (fun j k k' => exists q d, In d (looked_at m visible c) /\ pids j d = Some q /\
      either (i, p) (j, q) k k')).
    + split.
      * intros [H|(j & Hj & q & d & H)]; [auto|]. apply in_seq in Hj. right. exists j, p, q, d.
        split; [lia|]. split; [lia|]. auto.
      * intros [H|(j & p' & q & d & H1 & H2 & H3 & H)]; [auto|]. inversion H3; subst p'. right. exists j. split.
        -- apply in_seq. lia.
        -- exists q, d. exact H.
    + clear nb k k'. intros nb j k k' _.
      rewrite (fold_has _ _ (fun d k k' => exists q, pids j d = Some q /\ either (i, p) (j, q) k k')).
      * split.
        -- intros [H|(d & Hd & q & H)]; [auto|]. right. exists q, d. auto.
        -- intros [H|(q & d & Hd & H)]; [auto|]. right. exists d. split; [exact Hd|]. exists q. exact H.
      * clear nb k k'. intros nb d k k' _. destruct (pids j d) as [q|].
        -- rewrite add_neighbors_has. split; [intros [H|H]; [auto|right; eauto]|].
           intros [H|(q' & E & H)]; [auto|]. inversion E; subst. auto.
        -- split; [auto|]. intros [H|(q & E & _)]; [exact H|discriminate].
Qed.

Lemma local_neighbors_has : forall m visible pids n_blocks me k k',
  has_in (local_neighbors m visible pids n_blocks me) k k' <->
  exists c, In c (active m) /\ rank m c = me /\ noticed m visible pids n_blocks c k k'.
Proof.
  intros m visible pids n_blocks me k k'. unfold local_neighbors.
  rewrite (fold_has _ _ (fun c k k' => rank m c = me /\ noticed m visible pids n_blocks c k k')).
  - split.
    + intros [(s & [] & _)|(c & H1 & H2 & H3)]. exists c. auto.
    + intros (c & H1 & H2 & H3). right. exists c. auto.
  - clear k k'. intros nb c k k' _. destruct (Nat.eqb_spec (rank m c) me) as [E|E].
    + rewrite cell_neighbors_has. intuition.
    + intuition.
Qed.

Lemma local_neighbors_full : forall m visible pids n_blocks me, full (local_neighbors m visible pids n_blocks me).
Proof.
  intros m visible pids n_blocks me. unfold local_neighbors. apply fold_full; [|intros k s []].
  intros nb c Hn. destruct (rank m c =? me); [|exact Hn]. unfold cell_neighbors. apply fold_full; [|exact Hn].
  clear nb Hn. intros nb i Hn. destruct (pids i c); [|exact Hn]. apply fold_full; [|exact Hn].
  clear nb Hn. intros nb j Hn. apply fold_full; [|exact Hn].
  clear nb Hn. intros nb d Hn. destruct (pids j d); [|exact Hn]. unfold add_neighbors. apply full_nput, full_nput, Hn.
Qed.

(** ** The exchange *)
Lemma read_pairs_flat : forall ps r, read_pairs (length ps) (flat_map (fun p => [fst p; snd p]) ps ++ r) = Some (ps, r).
Proof.
  induction ps as [|[a b] ps IH]; intro r; [destruct r; reflexivity|]. cbn [length flat_map fst snd app read_pairs].
  rewrite IH. reflexivity.
Qed.

Definition entries (nb acc : nmap) : nmap := fold_left (fun a e => nput (fst e) (snd e) a) nb acc.

Lemma unflatten_flatten : forall nb fuel acc, length (flatten nb) <= fuel ->
  unflatten fuel (flatten nb) acc = Some (entries nb acc).
Proof.
  induction nb as [|[[a b] s] nb IH]; intros fuel acc HF; [destruct fuel; reflexivity|].
  unfold flatten in *. cbn [flat_map fst snd app length] in *.
  destruct fuel as [|fuel]; [lia|]. cbn [unflatten].
  rewrite read_pairs_flat. cbn [obind fst snd]. rewrite IH; [reflexivity|]. rewrite app_length in HF. lia.
Qed.

Lemma entries_has : forall nb acc k p, has (entries nb acc) k p <-> has acc k p \/ has_in nb k p.
Proof.
  unfold entries. induction nb as [|[j s] nb IH]; intros acc k p; cbn [fold_left fst snd].
  - split; [auto|]. intros [H|(s & [] & _)]. exact H.
  - rewrite IH, has_nput. unfold has_in. cbn [In]. split.
    + intros [[H|[-> H]]|(t & Ht & H)]; [auto|right; exists s; auto|right; exists t; auto].
    + intros [H|(t & [Ht|Ht] & H)]; [auto|inversion Ht; subst; auto|right; eauto].
Qed.

Lemma entries_full : forall nb acc, full nb -> full acc -> full (entries nb acc).
Proof.
  unfold entries. induction nb as [|[j s] nb IH]; intros acc Hn Ha; cbn [fold_left fst snd]; [exact Ha|].
  apply IH; [intros k t Hk; apply (Hn k t); right; exact Hk|].
  destruct (Hn j s (or_introl eq_refl)) as [p Hp]. destruct s as [|x s]; [contradiction|]. apply full_nput, Ha.
Qed.

Lemma gather_ok : forall maps acc, Forall full maps -> full acc ->
  exists r, gather (map flatten maps) acc = Some r /\ full r /\
    forall k p, has r k p <-> has acc k p \/ exists nb, In nb maps /\ has_in nb k p.
Proof.
  induction maps as [|nb maps IH]; intros acc HF Ha; cbn [map gather].
  - exists acc. split; [reflexivity|]. split; [exact Ha|]. intros k p. split; [auto|]. intros [H|(nb & [] & _)]. exact H.
  - inversion HF as [|? ? H1 H2]; subst. rewrite unflatten_flatten by lia. cbn [obind].
    destruct (IH (entries nb acc) H2 (entries_full nb acc H1 Ha)) as (r & E & Hf & Hr). exists r.
    split; [exact E|]. split; [exact Hf|]. intros k p. rewrite Hr, entries_has. split.
    + intros [[H|H]|(x & Hx & H)]; [auto|right; exists nb; cbn; auto|right; exists x; cbn; auto].
    + intros [H|(x & [<-|Hx] & H)]; [auto|auto|right; eauto].
Qed.

(** ** C59 *)
(** The cells are on one of the ranks, the subfaces of a refined neighbour belong
    to active children of it (a deal.II mesh has at most one level of difference
    across a face), and the cells touching an owned cell are not artificial. *)
Record neighbors_ok (m : mesh) (visible : nat -> nat -> bool) (n_ranks : nat) : Prop := {
  nk_mesh : mesh_ok m;
  nk_rank : forall c, In c (active m) -> rank m c < n_ranks;
  nk_child : forall c n e, In c (active m) -> In n (neighbors m c) -> In e (subface_children m c n) ->
    In e (children m n) /\ children m e = [];
  nk_visible : forall c d, In c (active m) -> In d (face_cells m c) -> visible (rank m c) d = true }.

(** Two cells are the same or share (part of) a face. *)
Definition same_or_touching (m : mesh) (c d : nat) : Prop := c = d \/ In d (face_cells m c).

(** Particles of different order parameters that are on the same or on touching cells. *)
Definition in_touch (m : mesh) (pids : nat -> nat -> option nat) (n_blocks : nat) (a b : particle) : Prop :=
  fst a <> fst b /\ fst a < n_blocks /\ fst b < n_blocks /\
  exists c d, In c (active m) /\ In d (active m) /\ same_or_touching m c d /\
    pids (fst a) c = Some (snd a) /\ pids (fst b) d = Some (snd b).

(** The same with cells that are inside of a neighbour of the other one, possibly
    without touching it. *)
Definition nearby (m : mesh) (c d : nat) : Prop := c = d \/ exists n, In n (neighbors m c) /\ leaf m n d.
Definition near_touch (m : mesh) (pids : nat -> nat -> option nat) (n_blocks : nat) (a b : particle) : Prop :=
  fst a <> fst b /\ fst a < n_blocks /\ fst b < n_blocks /\
  exists c d, (nearby m c d \/ nearby m d c) /\ pids (fst a) c = Some (snd a) /\ pids (fst b) d = Some (snd b).

Lemma is_active_spec : forall m c, is_active m c = true <-> children m c = [].
Proof. intros m c. unfold is_active. destruct (children m c); split; congruence. Qed.

Lemma face_looked_at : forall m visible n_ranks c d, neighbors_ok m visible n_ranks -> In c (active m) ->
  same_or_touching m c d -> In d (looked_at m (visible (rank m c)) c).
Proof.
  intros m visible n_ranks c d OK Hc [<-|H]; [left; reflexivity|]. right. pose proof (nk_visible m visible n_ranks OK c d Hc H) as V.
  unfold face_cells in H. apply in_flat_map in H as (n & Hn & H). apply in_flat_map. exists n. split; [exact Hn|].
  unfold is_active. destruct (children m n) as [|x xs] eqn:E; [exact H|].
  destruct (nk_child m visible n_ranks OK c n d Hc Hn H) as [H1 H2]. rewrite E in H1. apply filter_In. split; [exact H1|].
  unfold is_active. rewrite H2. exact V.
Qed.

Lemma looked_at_nearby : forall m visible c d, In d (looked_at m visible c) -> nearby m c d.
Proof.
  intros m visible c d [<-|H]; [left; reflexivity|]. right. apply in_flat_map in H as (n & Hn & H). exists n. split; [exact Hn|].
  destruct (is_active m n) eqn:E.
  - apply is_active_spec in E. destruct H as [<-|[]]. apply leaf_self, E.
  - apply filter_In in H as [H1 H2]. apply andb_true_iff in H2 as [H2 _]. apply is_active_spec in H2.
    eapply leaf_child; [exact H1|apply leaf_self, H2].
Qed.

(** For every mesh, every partition and every number of ranks the exchange
    succeeds, particles in touch are neighbours of each other, neighbours belong
    to different order parameters and are at most in neighbouring cells, the
    relation is symmetric and only particles with neighbours have an entry. *)
Theorem C59_neighbors : forall m visible pids n_blocks n_ranks, neighbors_ok m visible n_ranks ->
  exists r, get_direct_neighbors m visible pids n_blocks n_ranks = Some r /\
    (forall a b, in_touch m pids n_blocks a b -> has r a b) /\
    (forall a b, has r a b -> near_touch m pids n_blocks a b) /\
    (forall a b, has r a b -> has r b a) /\
    (forall a s, nget a r = Some s -> exists b, In b s).
Proof.
  intros m visible pids n_blocks n_ranks OK. unfold get_direct_neighbors.
  rewrite <- (map_map (fun me => local_neighbors m (visible me) pids n_blocks me) flatten).
  destruct (gather_ok (map (fun me => local_neighbors m (visible me) pids n_blocks me) (seq 0 n_ranks)) [])
    as (r & E & HF & Hr).
  { apply Forall_forall. intros x Hx. apply in_map_iff in Hx as (me & <- & _). apply local_neighbors_full. }
  { intros k s []. }
  assert (R : forall k p, has r k p <-> exists c, In c (active m) /\ noticed m (visible (rank m c)) pids n_blocks c k p).
  { intros k p. rewrite Hr. split.
    - intros [(s & Hs & _)|(nb & Hn & H)]; [discriminate|]. apply in_map_iff in Hn as (me & <- & Hme).
      apply local_neighbors_has in H as (c & H1 & H2 & H3). exists c. rewrite H2. auto.
    - intros (c & Hc & H). right. exists (local_neighbors m (visible (rank m c)) pids n_blocks (rank m c)). split.
      + apply in_map_iff. exists (rank m c). split; [reflexivity|]. apply in_seq. pose proof (nk_rank m visible n_ranks OK c Hc). lia.
      + apply local_neighbors_has. exists c. auto. }
  exists r. split; [exact E|].
  assert (SY : forall a b, has r a b -> has r b a).
  { intros a b H. apply R in H as (c & Hc & i & j & p & q & d & H1 & H2 & H3 & H4 & H5 & H6). apply R.
    exists c. split; [exact Hc|]. exists i, j, p, q, d. repeat (split; [assumption|]). unfold either in *. tauto. }
  assert (LT : forall a b, in_touch m pids n_blocks a b -> fst a < fst b -> has r a b).
  { intros [i p] [j q] (_ & _ & Hj & c & d & Hc & Hd & ST & Hp & Hq) L. cbn [fst snd] in *. apply R. exists c.
    split; [exact Hc|]. exists i, j, p, q, d. repeat (split; [assumption|]). split; [eapply face_looked_at; eassumption|].
    split; [exact Hq|]. left. auto. }
  repeat split.
  - intros a b H. destruct (Nat.lt_total (fst a) (fst b)) as [L|[L|L]].
    + apply LT; assumption.
    + destruct H as [H _]. contradiction.
    + apply SY, LT; [|exact L]. destruct H as (N & Ha & Hb & c & d & Hc & Hd & ST & Hp & Hq).
      split; [congruence|]. split; [exact Hb|]. split; [exact Ha|]. exists d, c. split; [exact Hd|]. split; [exact Hc|].
      split; [|auto]. destruct ST as [->|ST]; [left; reflexivity|]. right. apply (ok_symmetric m (nk_mesh m visible n_ranks OK)); assumption.
  - apply R in H as (c & Hc & i & j & p & q & d & H1 & H2 & H3 & H4 & H5 & [[-> ->]|[-> ->]]); cbn [fst]; lia.
  - apply R in H as (c & Hc & i & j & p & q & d & H1 & H2 & H3 & H4 & H5 & [[-> ->]|[-> ->]]); cbn [fst]; lia.
  - apply R in H as (c & Hc & i & j & p & q & d & H1 & H2 & H3 & H4 & H5 & [[-> ->]|[-> ->]]); cbn [fst]; lia.
  - apply R in H as (c & Hc & i & j & p & q & d & H1 & H2 & H3 & H4 & H5 & [[-> ->]|[-> ->]]); cbn [fst snd].
    + exists c, d. split; [left; eapply looked_at_nearby; exact H4|auto].
    + exists d, c. split; [right; eapply looked_at_nearby; exact H4|auto].
  - exact SY.
  - intros a s H. apply nget_in in H. apply (HF a s H).
Qed.
Print Assumptions C59_neighbors.

(** Without local refinement the neighbours are exactly the particles in touch. *)
Theorem C59_unrefined : forall m visible pids n_blocks n_ranks, neighbors_ok m visible n_ranks -> unrefined m ->
  (forall i c p, pids i c = Some p -> In c (active m)) ->
  exists r, get_direct_neighbors m visible pids n_blocks n_ranks = Some r /\
    forall a b, has r a b <-> in_touch m pids n_blocks a b.
Proof.
  intros m visible pids n_blocks n_ranks OK U HP.
  destruct (C59_neighbors m visible pids n_blocks n_ranks OK) as (r & E & H1 & H2 & _). exists r. split; [exact E|].
  assert (NT : forall c d, In c (active m) -> nearby m c d -> same_or_touching m c d).
  { intros c d Hc [->|(n & Hn & L)]; [left; reflexivity|]. right. pose proof (U c n Hc Hn) as EN.
    inversion L as [x Ex|x y z Hy _]; subst.
    - unfold face_cells. apply in_flat_map. exists d. split; [exact Hn|]. rewrite EN. left. reflexivity.
    - rewrite EN in Hy. contradiction. }
  intros a b. split; [|apply H1]. intro H. destruct (H2 a b H) as (N & Ha & Hb & c & d & HN & Hc & Hd).
  split; [exact N|]. split; [exact Ha|]. split; [exact Hb|]. exists c, d.
  pose proof (HP _ _ _ Hc) as Ac. pose proof (HP _ _ _ Hd) as Ad. split; [exact Ac|]. split; [exact Ad|].
  split; [|auto]. destruct HN as [HN|HN]; [apply NT; assumption|].
  destruct (NT d c Ad HN) as [->|T]; [left; reflexivity|]. right. apply (ok_symmetric m (nk_mesh m visible n_ranks OK)); assumption.
Qed.
Print Assumptions C59_unrefined.

(** A coarse cell 0 next to a refined cell 5 with children 1, 2 (at the face) and
    3, 4 (away from it). *)
Definition row_mesh : mesh :=
  mkMesh 5 [0; 1; 2; 3; 4]
    (fun c => if c =? 5 then [1; 2; 3; 4] else [])
    (fun c => match c with 0 => [5] | 1 => [0; 2; 3] | 2 => [0; 1; 4] | 3 => [1; 4] | 4 => [2; 3] | _ => [] end)
    (fun c n => if (c =? 0) && (n =? 5) then [1; 2] else [])
    (fun c => if c =? 0 then 0 else 1)
    (fun _ => (0%Q, [])).

(** Particle 0 of order parameter 0 on the coarse cell, particle 0 of order
    parameter 1 on child 3 (resp. child 1) only. *)
Definition row_ids (k : nat) (i c : nat) : option nat :=
  match i with 0 => if c =? 0 then Some 0 else None | 1 => if c =? k then Some 0 else None | _ => None end.

Lemma row_leaf : forall c e, leaf row_mesh c e -> c = e /\ c <> 5 \/ c = 5 /\ In e [1; 2; 3; 4].
Proof.
  intros c e L. induction L as [c Hc|c d e Hd L IH]; [left; split; [reflexivity|intros ->; discriminate]|].
  unfold row_mesh in Hd. cbn [children] in Hd. destruct (Nat.eqb_spec c 5) as [->|]; [|contradiction].
  right. split; [reflexivity|]. destruct IH as [[-> _]|[-> _]]; [exact Hd|]. cbn [In] in Hd. lia.
Qed.

Lemma row_ok : neighbors_ok row_mesh (fun _ _ => true) 2.
Proof.
  assert (C5 : forall c, c < 5 -> c = 0 \/ c = 1 \/ c = 2 \/ c = 3 \/ c = 4) by lia.
  split.
  - split.
    + intros c Hc. cbn in Hc. intuition; subst; cbn; auto; lia.
    + intros c n e Hc Hn L. apply row_leaf in L as [[-> N]|[_ L]].
      * cbn in Hc. destruct Hc as [<-|[<-|[<-|[<-|[<-|[]]]]]]; cbn in Hn |- *; lia.
      * cbn [In] in L. cbn. intuition.
    + exists 1, (fun c => if c =? 5 then 1 else 0). split; [intro c; destruct (c =? 5); lia|].
      intros c d Hd. cbn [row_mesh children] in Hd. destruct (Nat.eqb_spec c 5); [|contradiction].
      cbn [In] in Hd. destruct (Nat.eqb_spec d 5); lia.
    + intros c n e Hc Hn CH He. cbn [row_mesh subface_children] in He.
      destruct (Nat.eqb_spec c 0), (Nat.eqb_spec n 5); cbn [andb] in He; try contradiction. subst.
      eapply leaf_child; [|apply leaf_self]; cbn in He |- *; [intuition|]. destruct He as [<-|[<-|[]]]; reflexivity.
    + intros c d Hc Hd. cbn in Hc. destruct Hc as [<-|[<-|[<-|[<-|[<-|[]]]]]]; cbn in Hd |- *; intuition (subst; cbn; auto).
  - intros c _. cbn [row_mesh rank]. destruct (c =? 0); lia.
  - intros c n e Hc Hn He. cbn [row_mesh subface_children] in He.
    destruct (Nat.eqb_spec c 0), (Nat.eqb_spec n 5); cbn [andb] in He; try contradiction. subst.
    cbn in He |- *. destruct He as [<-|[<-|[]]]; auto.
  - reflexivity.
Qed.

(** With local refinement particles become neighbours although they touch
    nowhere: all children of the refined neighbour are searched, not only those
    at the face. *)
Theorem C59_refined_refuted : exists m visible pids n_blocks n_ranks r a b, neighbors_ok m visible n_ranks /\
  get_direct_neighbors m visible pids n_blocks n_ranks = Some r /\ has r a b /\ ~ in_touch m pids n_blocks a b.
Proof.
  exists row_mesh, (fun _ _ => true), (row_ids 3), 2, 2. eexists. exists (0, 0), (1, 0). split; [exact row_ok|].
  split; [vm_compute; reflexivity|]. split.
  - eexists. split; [reflexivity|]. left. reflexivity.
  - intros (_ & _ & _ & c & d & _ & _ & ST & Hc & Hd). cbn [fst snd row_ids] in Hc, Hd.
    destruct (Nat.eqb_spec c 0); [|discriminate]. destruct (Nat.eqb_spec d 3); [|discriminate]. subst.
    destruct ST as [H|H]; [discriminate|]. cbn in H. lia.
Qed.
Print Assumptions C59_refined_refuted.

(** Two particles in touch across the face of a refined cell and across ranks. *)
Example C59_applies :
  neighbors_ok row_mesh (fun _ _ => true) 2 /\ in_touch row_mesh (row_ids 1) 2 (0, 0) (1, 0) /\
  get_direct_neighbors row_mesh (fun _ _ => true) (row_ids 1) 2 2 = Some [((0, 0), [(1, 0)]); ((1, 0), [(0, 0)])].
Proof.
  split; [exact row_ok|]. split; [|reflexivity]. split; [discriminate|]. split; [cbn; lia|]. split; [cbn; lia|].
  exists 0, 1. cbn. repeat split; auto. right. left. reflexivity.
Qed.
