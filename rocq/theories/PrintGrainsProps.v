(** C92: the listing of grains that is independent of their numbers. *)
From Coq Require Import List QArith Arith Bool Permutation Sorted Lia.
From Verif Require Import Util PrintGrainsModel.
From Coq Require Import Lqa.
Import ListNotations.
Local Open Scope nat_scope.

(** ** The order of points *)
Notation same_point := (Forall2 Qeq).
(** lexicographic: the first coordinate in which the points differ is smaller *)
Definition before (a b : list Q) : Prop :=
  exists p q x y a' b', a = p ++ x :: a' /\ b = q ++ y :: b' /\ same_point p q /\ (x < y)%Q.

Lemma same_refl : forall a : list Q, same_point a a.
Proof. induction a; constructor; [reflexivity|assumption]. Qed.
Lemma same_sym : forall a b, same_point a b -> same_point b a.
Proof. intros a b H. induction H; constructor; [symmetry; assumption|assumption]. Qed.

Lemma less_before : forall a b, center_less a b = true <-> before a b.
Proof.
  induction a as [|x a IH]; intros [|y b]; cbn [center_less].
  - split; [discriminate|]. intros (p & q & u & v & a' & b' & E & _). destruct p; discriminate.
  - split; [discriminate|]. intros (p & q & u & v & a' & b' & E & _). destruct p; discriminate.
  - split; [discriminate|]. intros (p & q & u & v & a' & b' & _ & E & _). destruct q; discriminate.
  - destruct (Qeq_bool x y) eqn:E.
    + apply Qeq_bool_iff in E. rewrite IH. split.
      * intros (p & q & u & v & a' & b' & -> & -> & F & H). exists (x :: p), (y :: q), u, v, a', b'.
        split; [reflexivity|]. split; [reflexivity|]. split; [constructor; assumption|exact H].
      * intros (p & q & u & v & a' & b' & Ea & Eb & F & H). destruct F as [|x' y' p q E' F].
        -- cbn [app] in *. injection Ea as -> _. injection Eb as -> _. rewrite E in H. apply Qlt_irrefl in H. destruct H.
        -- cbn [app] in *. injection Ea as _ ->. injection Eb as _ ->. exists p, q, u, v, a', b'. auto.
    + rewrite qltb_true. assert (N : ~ (x == y)%Q) by (intro X; apply Qeq_bool_iff in X; congruence). split.
      * intro H. exists [], [], x, y, a, b. split; [reflexivity|]. split; [reflexivity|]. split; [constructor|exact H].
      * intros (p & q & u & v & a' & b' & Ea & Eb & F & H). destruct F as [|x' y' p q E' F]; cbn [app] in *.
        -- injection Ea as -> _. injection Eb as -> _. exact H.
        -- injection Ea as -> _. injection Eb as -> _. contradiction.
Qed.

Lemma less_total : forall a b, length a = length b -> center_less b a = false -> same_point a b \/ center_less a b = true.
Proof.
  induction a as [|x a IH]; intros [|y b] Le H; try discriminate Le; [left; constructor|]. cbn [center_less] in *.
  injection Le as Le. destruct (Qeq_bool x y) eqn:E.
  - assert (E' : Qeq_bool y x = true) by (apply Qeq_bool_iff in E; apply Qeq_bool_iff; symmetry; exact E). rewrite E' in H.
    destruct (IH b Le H) as [X|X]; [left; constructor; [apply Qeq_bool_iff; exact E|exact X]|right; exact X].
  - right. destruct (Qeq_bool y x) eqn:E'; [apply Qeq_bool_iff in E'; symmetry in E'; apply Qeq_bool_iff in E'; congruence|].
    apply qltb_true. apply qltb_false in H. assert (N : ~ (x == y)%Q) by (intro X; apply Qeq_bool_iff in X; congruence).
    apply Qle_lteq in H. destruct H; [assumption|contradiction].
Qed.

Lemma before_trans : forall a b c, before a b -> before b c -> before a c.
Proof.
  intros a b c H K. apply less_before in H. apply less_before in K. apply less_before. revert b c H K.
  induction a as [|x a IH]; intros [|y b] [|z c] H K; cbn [center_less] in *; try discriminate.
  destruct (Qeq_bool x y) eqn:E1; destruct (Qeq_bool y z) eqn:E2.
  - assert (E3 : Qeq_bool x z = true) by (apply Qeq_bool_iff in E1; apply Qeq_bool_iff in E2; apply Qeq_bool_iff; rewrite E1; exact E2).
    rewrite E3. exact (IH b c H K).
  - apply qltb_true in K. apply Qeq_bool_iff in E1. destruct (Qeq_bool x z) eqn:E3.
    + apply Qeq_bool_iff in E3. exfalso. lra.
    + apply qltb_true. lra.
  - apply qltb_true in H. apply Qeq_bool_iff in E2. destruct (Qeq_bool x z) eqn:E3.
    + apply Qeq_bool_iff in E3. exfalso. lra.
    + apply qltb_true. lra.
  - apply qltb_true in H. apply qltb_true in K. destruct (Qeq_bool x z) eqn:E3.
    + apply Qeq_bool_iff in E3. exfalso. lra.
    + apply qltb_true. lra.
Qed.

Lemma before_same_l : forall a b c, same_point a b -> before b c -> before a c.
Proof.
  intros a b c H K. apply less_before in K. apply less_before. revert c K.
  induction H as [|x y a b E H IH]; intros c K; [exact K|]. destruct c as [|z c]; cbn [center_less] in *; [discriminate|].
  destruct (Qeq_bool y z) eqn:E1.
  - assert (E3 : Qeq_bool x z = true) by (apply Qeq_bool_iff in E1; apply Qeq_bool_iff; rewrite E; exact E1). rewrite E3. apply IH. exact K.
  - destruct (Qeq_bool x z) eqn:E3; [apply Qeq_bool_iff in E3; rewrite E in E3; apply Qeq_bool_iff in E3; congruence|].
    apply qltb_true. apply qltb_true in K. lra.
Qed.
Lemma before_irrefl : forall a b, same_point a b -> ~ before a b.
Proof.
  intros a b H K. apply less_before in K. induction H as [|x y a b E H IH]; [discriminate|]. cbn [center_less] in K.
  apply Qeq_bool_iff in E. rewrite E in K. exact (IH K).
Qed.

(** C92_order: the comparison is a strict weak ordering, as [std::sort] requires: irreflexive,
    transitive, and points are not ordered exactly if they are the same *)
Theorem C92_order : forall dim a b c, length a = dim -> length b = dim -> length c = dim ->
  center_less a a = false /\
  (center_less a b = true -> center_less b c = true -> center_less a c = true) /\
  (center_less a b = false /\ center_less b a = false <-> same_point a b) /\
  (center_less a b = true <-> before a b).
Proof.
  intros dim a b c La Lb Lc.
  assert (I : forall u v, same_point u v -> center_less u v = false).
  { intros u v H. destruct (center_less u v) eqn:E; [|reflexivity]. apply less_before in E. destruct (before_irrefl _ _ H E). }
  split; [apply I, same_refl|]. split.
  { rewrite !less_before. apply before_trans. }
  split; [|apply less_before]. split.
  - intros (A & B). destruct (less_total a b) as [X|X]; [congruence|exact B|exact X|congruence].
  - intro H. split; apply I; [exact H|apply same_sym; exact H].
Qed.
Print Assumptions C92_order.

(** ** Lists *)
Lemma sorted_unique : forall {A} (R : A -> A -> Prop) l l', (forall a b, R a b -> R b a -> False) ->
  StronglySorted R l -> StronglySorted R l' -> Permutation l l' -> l = l'.
Proof.
  intros A R l l' As H. revert l'. induction H as [|a l H IH Fa]; intros l' H' P.
  - symmetry. apply Permutation_nil. exact P.
  - destruct H' as [|b l' H' Fb]; [apply Permutation_sym, Permutation_nil in P; discriminate|].
    assert (E : a = b).
    { assert (Ia : In a (b :: l')) by (apply (Permutation_in _ P); left; reflexivity).
      assert (Ib : In b (a :: l)) by (apply (Permutation_in _ (Permutation_sym P)); left; reflexivity).
      destruct Ia as [E|Ia]; [congruence|]. destruct Ib as [E|Ib]; [congruence|].
      rewrite Forall_forall in Fa, Fb. destruct (As a b (Fa b Ib) (Fb a Ia)). }
    subst b. f_equal. apply IH; [exact H'|]. exact (Permutation_cons_inv P).
Qed.

Lemma sort_exists : forall {A} (less : A -> A -> bool) (P : A -> Prop), 
  (forall a b, P a -> P b -> less a b = true -> less b a = false) ->
  (forall a b c, P a -> P b -> P c -> less b a = false -> less c b = false -> less c a = false) ->
  forall l, Forall P l -> exists l', std_sort less l l'.
Proof.
  intros A less P As Tr. induction l as [|x l IH]; intro F; [exists []; split; constructor|].
  inversion F as [|? ? Px Fl]; subst. destruct (IH Fl) as (l' & Pm & So).
  assert (Fl' : Forall P l') by (apply (Permutation_Forall Pm); exact Fl).
  assert (K : exists m, Permutation (x :: l') m /\ StronglySorted (fun a b => less b a = false) m).
  { clear Pm IH F Fl. induction So as [|y l' So IH Fy].
    - exists [x]. split; [reflexivity|]. constructor; constructor.
    - inversion Fl' as [|? ? Py Fl]; subst. destruct (less y x) eqn:E.
      + destruct (IH Fl) as (m & Pm & Sm). exists (y :: m). split; [rewrite perm_swap; constructor; exact Pm|].
        constructor; [exact Sm|]. apply (Permutation_Forall Pm). constructor; [apply As; assumption|exact Fy].
      + exists (x :: y :: l'). split; [reflexivity|]. constructor; [constructor; assumption|].
        constructor; [exact E|]. rewrite Forall_forall in *. intros z Hz. apply (Tr x y z); auto. }
  destruct K as (m & Pm' & Sm). exists m. split; [|exact Sm]. rewrite <- Pm'. constructor. exact Pm.
Qed.

Lemma fop_perm : forall {A} (R : A -> A -> Prop) l l', (forall a b, R a b -> R b a) -> Permutation l l' -> ForallOrdPairs R l -> ForallOrdPairs R l'.
Proof.
  intros A R l l' Sy P. induction P as [|x l l' P IH|x y l|l l' l'' P1 IH1 P2 IH2]; intro H; [exact H| | |auto].
  - inversion H; subst. constructor; [apply (Permutation_Forall P); assumption|auto].
  - inversion H as [|? ? F1 H1]; subst. inversion H1 as [|? ? F2 H2]; subst. inversion F1; subst.
    constructor; [constructor; [apply Sy; assumption|assumption]|]. constructor; assumption.
Qed.
Lemma fop_app : forall {A} (R : A -> A -> Prop) l l', ForallOrdPairs R (l ++ l') ->
  ForallOrdPairs R l /\ ForallOrdPairs R l' /\ forall a b, In a l -> In b l' -> R a b.
Proof.
  intros A R. induction l as [|x l IH]; intros l' H; cbn [app] in H.
  - split; [constructor|]. split; [exact H|]. intros a b [].
  - inversion H as [|? ? F H']; subst. destruct (IH _ H') as (A1 & A2 & A3). rewrite Forall_forall in F. split.
    + constructor; [|exact A1]. apply Forall_forall. intros y Hy. apply F, in_or_app. left. exact Hy.
    + split; [exact A2|]. intros a b [<-|Ha] Hb; [apply F, in_or_app; right; exact Hb|auto].
Qed.
Lemma sorted_strict : forall {A} (R S T : A -> A -> Prop) l, (forall a b, In a l -> In b l -> R a b -> S a b -> T a b) ->
  StronglySorted R l -> ForallOrdPairs S l -> StronglySorted T l.
Proof.
  intros A R S T l H K. induction K as [|a l K IH F]; intro G; [constructor|]. inversion G as [|? ? F' G']; subst. constructor.
  - apply IH; [|exact G']. intros x y Hx Hy. apply H; right; assumption.
  - rewrite Forall_forall in *. intros y Hy. apply H; [left; reflexivity|right; exact Hy|auto|auto].
Qed.
Lemma pick : forall {A B} (P : A -> B -> Prop) l, (forall a, In a l -> exists b, P a b) -> exists m, Forall2 P l m.
Proof.
  intros A B P. induction l as [|a l IH]; intro H; [exists []; constructor|].
  destruct (H a (or_introl eq_refl)) as (b & Hb). destruct IH as (m & Hm); [intros x Hx; apply H; right; exact Hx|].
  exists (b :: m). constructor; assumption.
Qed.

Lemma f2_length : forall {A B} (R : A -> B -> Prop) l m, Forall2 R l m -> length l = length m.
Proof. intros A B R l m H. induction H; cbn; congruence. Qed.

Section Listing.
Variable L : Type.
Notation segment := (segment L).
Notation grain := (grain L).
Notation grain_map := (list (nat * grain)).

(** ** What the listing should be *)
Definition segment_before (a b : segment) : Prop := before (center L a) (center L b).
Definition first_before (p q : grain * list segment) : Prop :=
  exists s t, hd_error (snd p) = Some s /\ hd_error (snd q) = Some t /\ segment_before s t.
Definition count_of (l : list nat) (n : nat) : Prop := exists m, NoDup m /\ length m = n /\ forall x, In x m <-> In x l.
(** every grain once with every segment once, segments and grains in the order of the points *)
Definition lists (gs : grain_map) (l : listing L) : Prop :=
  count_of (map (fun kg => op_id L (snd kg)) gs) (n_ops L l) /\ n_grains L l = length gs /\
  exists ord : list (grain * list segment),
    Permutation (map snd gs) (map fst ord) /\
    (forall g S, In (g, S) ord -> Permutation (segments L g) S /\ StronglySorted segment_before S) /\
    StronglySorted first_before ord /\
    entries L l = map (fun p => (op_id L (fst p), old_op_id L (fst p), length (segments L (fst p)), map (label L) (snd p))) ord.

(** the map of grains: every grain under its number, with segments *)
Definition regular (dim : nat) (gs : grain_map) : Prop :=
  NoDup (map fst gs) /\ forall k g, In (k, g) gs ->
    grain_id L g = k /\ segments L g <> [] /\ forall s, In s (segments L g) -> length (center L s) = dim.
Definition all_segments (gs : grain_map) : list segment := flat_map (fun kg => segments L (snd kg)) gs.
(** no two segments have the same center *)
Definition apart (gs : grain_map) : Prop := ForallOrdPairs (fun s t => ~ same_point (center L s) (center L t)) (all_segments gs).

(** the same grains with other numbers and the segments in another order *)
Definition same_grain (a b : nat * grain) : Prop :=
  op_id L (snd a) = op_id L (snd b) /\ old_op_id L (snd a) = old_op_id L (snd b) /\ Permutation (segments L (snd a)) (segments L (snd b)).
Definition renumbered (gs gs' : grain_map) : Prop := exists m, Permutation gs' m /\ Forall2 same_grain gs m.

(** ** Proofs *)
Lemma find_in : forall {A} (m : list (nat * A)) k v, NoDup (map fst m) -> In (k, v) m -> find m k = Some v.
Proof.
  induction m as [|(x, w) m IH]; intros k v N H; [destruct H|]. cbn [find map fst] in *. inversion N as [|? ? Nx N']; subst.
  destruct H as [E|H]; [injection E as -> ->; rewrite Nat.eqb_refl; reflexivity|].
  destruct (Nat.eqb_spec x k) as [->|]; [|apply IH; assumption].
  destruct Nx. apply in_map_iff. exists (k, v). auto.
Qed.

Definition sorted_segments (g : grain) (S : list segment) : Prop :=
  Permutation (segments L g) S /\ StronglySorted (fun a b => center_less (center L b) (center L a) = false) S.

Lemma nth_seq : forall {A} (l : list A), map (nth_error l) (seq 0 (length l)) = map Some l.
Proof.
  intros A. induction l as [|x l IH]; [reflexivity|]. cbn [length seq map nth_error]. f_equal.
  rewrite <- seq_shift, map_map. cbn [nth_error]. exact IH.
Qed.

Lemma order_spec : forall gs os, order_segments L gs os -> NoDup (map fst gs) -> forall k g, In (k, g) gs ->
  exists o S, find os k = Some o /\ map (nth_error (segments L g)) o = map Some S /\ sorted_segments g S.
Proof.
  intros gs os H. induction H as [|(k0, g0) (k1, o1) gs os (E & Pm & So) H IH]; intros N k g I; [destruct I|].
  cbn [fst snd map] in *. subst k1. inversion N as [|? ? Nx N']; subst. cbn [find].
  destruct I as [I|I].
  - injection I as -> ->. rewrite Nat.eqb_refl. exists o1.
    pose proof (Permutation_map (nth_error (segments L g)) Pm) as Q0. rewrite nth_seq in Q0.
    destruct (Permutation_map_inv _ _ (Permutation_sym Q0)) as (S & ES & PS). exists S.
    split; [reflexivity|]. split; [exact ES|]. split; [exact PS|].
    clear - So ES. revert S ES. induction So as [|i o So IH F]; intros [|s S] ES; try discriminate ES; [constructor|].
    cbn [map] in ES. injection ES as E1 E2. constructor; [apply IH; exact E2|].
    apply Forall_forall. intros t Ht. assert (It : In (Some t) (map (nth_error (segments L g)) o)) by (rewrite E2; apply in_map; exact Ht).
    apply in_map_iff in It. destruct It as (j & Ej & Hj). rewrite Forall_forall in F. specialize (F j Hj).
    unfold segment_less in F. rewrite Ej, E1 in F. exact F.
  - destruct (Nat.eqb_spec k0 k) as [->|]; [destruct Nx; apply in_map_iff; exists (k, g); auto|]. apply IH; assumption.
Qed.

Lemma labels : forall g o S, map (nth_error (segments L g)) o = map Some S ->
  map_all (fun i => s <- nth_error (segments L g) i ;; Some (label L s)) o = Some (map (label L) S).
Proof.
  intros g. induction o as [|i o IH]; intros [|s S] E; try discriminate E; [reflexivity|]. cbn [map] in E. injection E as E1 E2.
  cbn [map_all]. rewrite E1. cbn [obind]. rewrite (IH S E2). reflexivity.
Qed.

Lemma map_all_spec : forall {A B} (f : A -> option B) l m, Forall2 (fun a b => f a = Some b) l m -> map_all f l = Some m.
Proof. intros A B f l m H. induction H as [|a b l m E H IH]; [reflexivity|]. cbn [map_all]. rewrite E, IH. reflexivity. Qed.

(** the value of everything for a grain of the map *)
Lemma grain_values : forall dim gs os, regular dim gs -> order_segments L gs os -> forall k, In k (map fst gs) ->
  exists g S s, In (k, g) gs /\ sorted_segments g S /\ hd_error S = Some s /\ In s (segments L g) /\ min_center L gs os k = Some (center L s) /\
    grain_lines L gs os k = Some (op_id L g, old_op_id L g, length (segments L g), map (label L) S).
Proof.
  intros dim gs os (N & R) H k Hk. apply in_map_iff in Hk. destruct Hk as ((k', g) & E & I). cbn in E. subst k'.
  destruct (R k g I) as (Eg & Ne & _). destruct (order_spec gs os H N k g I) as (o & S & Eo & ES & (PS & SS)).
  destruct S as [|s S]; [apply Permutation_sym, Permutation_nil in PS; congruence|].
  exists g, (s :: S), s. split; [exact I|]. split; [split; assumption|]. split; [reflexivity|].
  split; [apply (Permutation_in _ (Permutation_sym PS)); left; reflexivity|].
  unfold min_center, grain_lines. rewrite (find_in gs k g N I). cbn [obind]. rewrite Eg, Eo. cbn [obind].
  rewrite (labels g o _ ES). destruct o as [|i o]; [discriminate|]. cbn [map] in ES. injection ES as E1 _.
  cbn [nth_error obind]. rewrite E1. split; reflexivity.
Qed.

Lemma active_count : forall gs, count_of (map (fun kg => op_id L (snd kg)) gs) (active_ops L gs).
Proof.
  intros gs. unfold active_ops. eexists. split; [apply (NoDup_nodup Nat.eq_dec)|]. split; [reflexivity|]. intro x. apply nodup_In.
Qed.

Lemma apart_grains : forall gs, apart gs -> 
  (forall k g, In (k, g) gs -> ForallOrdPairs (fun s t => ~ same_point (center L s) (center L t)) (segments L g)) /\
  forall p q s t, In p gs -> In q gs -> In s (segments L (snd p)) -> In t (segments L (snd q)) -> same_point (center L s) (center L t) -> p = q.
Proof.
  unfold apart. induction gs as [|p0 gs IH]; intro H; [split; [intros ? ? []|intros ? ? ? ? []]|].
  cbn [all_segments flat_map] in H. fold (all_segments gs) in H. destruct (fop_app _ _ _ H) as (A & B & C). destruct (IH B) as (IH1 & IH2).
  assert (I : forall q t, In q gs -> In t (segments L (snd q)) -> In t (all_segments gs)).
  { intros q t Hq Ht. apply in_flat_map. exists q. auto. }
  split.
  - intros k g [->|Hg]; [exact A|exact (IH1 k g Hg)].
  - intros p q s t [<-|Hp] [<-|Hq] Hs Ht E; [reflexivity| | |exact (IH2 p q s t Hp Hq Hs Ht E)].
    + destruct (C s t Hs (I q t Hq Ht) E).
    + destruct (C t s Ht (I p s Hp Hs) (same_sym _ _ E)).
Qed.

(** C92_listing: if no two segments have the same center, the listing has every grain once and
    every segment of it once, in the order of the points *)
Theorem C92_listing : forall dim gs r, regular dim gs -> apart gs -> print_grains_invariant L gs r ->
  exists l, r = Some l /\ lists gs l.
Proof.
  intros dim gs r R A (os & HO & D). pose proof (grain_values dim gs os R HO) as V. destruct (apart_grains gs A) as (A1 & A2).
  destruct D as [(_ & (k & Hk & Ek) & _)|(_ & ord & (PO & SO) & ->)].
  { destruct (V k Hk) as (g & S & s & _ & _ & _ & _ & E & _). congruence. }
  assert (IO : forall k, In k ord -> In k (map fst gs)) by (intros k Hk; apply (Permutation_in _ (Permutation_sym PO)); exact Hk).
  destruct (pick (fun k p => In (k, fst p) gs /\ sorted_segments (fst p) (snd p) /\ (exists s, hd_error (snd p) = Some s /\ In s (segments L (fst p)) /\ min_center L gs os k = Some (center L s)) /\
    grain_lines L gs os k = Some (op_id L (fst p), old_op_id L (fst p), length (segments L (fst p)), map (label L) (snd p))) ord) as (ps & F).
  { intros k Hk. destruct (V k (IO k Hk)) as (g & S & s & H1 & H2 & H3 & H4 & H5 & H6). exists (g, S). cbn [fst snd].
    split; [exact H1|]. split; [exact H2|]. split; [exists s; auto|exact H6]. }
  assert (E : map_all (grain_lines L gs os) ord = Some (map (fun p => (op_id L (fst p), old_op_id L (fst p), length (segments L (fst p)), map (label L) (snd p))) ps)).
  { apply map_all_spec. clear - F. induction F as [|k p ord ps (_ & _ & _ & H) F IH]; constructor; assumption. }
  rewrite E. cbn [obind]. eexists. split; [reflexivity|]. split; [apply active_count|]. split; [reflexivity|]. cbn [entries].
  exists ps. 
  assert (GS : Permutation gs (combine ord (map fst ps))).
  { destruct R as (N & R). apply NoDup_Permutation_bis.
    - apply (NoDup_map_inv fst). exact N.
    - apply Permutation_length in PO. rewrite map_length in PO. rewrite combine_length, map_length, <- (f2_length _ _ _ F). lia.
    - intros (k, g) I. assert (Ik : In k ord) by (apply (Permutation_in _ PO), in_map_iff; exists (k, g); auto).
      clear - F I Ik N R. induction F as [|k0 p ord ps (H & _) F IH]; [destruct Ik|]. cbn [map combine].
      destruct (Nat.eq_dec k0 k) as [->|Hne].
      + left. f_equal. pose proof (find_in gs _ _ N H) as E1. pose proof (find_in gs _ _ N I) as E2. congruence.
      + right. apply IH. destruct Ik; [contradiction|assumption]. }
  split.
  { assert (E2 : map fst ps = map snd (combine ord (map fst ps))).
    { clear - F. induction F as [|k p ord ps _ F IH]; [reflexivity|]. cbn [map combine snd]. f_equal. exact IH. }
    rewrite E2. apply Permutation_map. exact GS. }
  assert (FP : Forall (fun p => exists k, In (k, fst p) gs /\ sorted_segments (fst p) (snd p)) ps).
  { clear - F. induction F as [|k p ord ps (H1 & H2 & _) F IH]; constructor; [exists k; auto|exact IH]. }
  split.
  { intros g S I. rewrite Forall_forall in FP. destruct (FP _ I) as (k & Hk & (PS & SS)). cbn [fst snd] in *. split; [exact PS|].
    apply (sorted_strict _ (fun s t => ~ same_point (center L s) (center L t)) _ S) with (2 := SS).
    - intros a b Ha Hb H1 H2. apply less_before. destruct (proj2 R k g Hk) as (_ & _ & Le).
      destruct (less_total (center L a) (center L b)) as [X|X]; [|exact H1|contradiction|exact X].
      rewrite !Le; [reflexivity|apply (Permutation_in _ (Permutation_sym PS)); exact Hb|apply (Permutation_in _ (Permutation_sym PS)); exact Ha].
    - apply (fop_perm _ (segments L g)); [|exact PS|exact (A1 k g Hk)]. intros a b H K. apply H, same_sym. exact K. }
  split; [|reflexivity].
  assert (ND : NoDup ord) by (apply (Permutation_NoDup PO); exact (proj1 R)).
  clear FP GS E PO IO. induction F as [|k p ord ps (H1 & _ & (s & H3 & H4 & H5) & _) F IH]; [constructor|].
  inversion SO as [|? ? SO' Fk]; subst. inversion ND as [|? ? Nk ND']; subst. constructor; [apply IH; assumption|].
  apply Forall_forall. intros q Hq.
  assert (X : exists j, In j ord /\ In (j, fst q) gs /\ exists t, hd_error (snd q) = Some t /\ In t (segments L (fst q)) /\ min_center L gs os j = Some (center L t)).
  { clear - F Hq. induction F as [|j p ord ps (H1 & _ & H3 & _) F IH]; [destruct Hq|]. destruct Hq as [<-|Hq].
    - exists j. split; [left; reflexivity|]. auto.
    - destruct (IH Hq) as (i & Hi & K). exists i. split; [right; exact Hi|exact K]. }
  destruct X as (j & Hj & K1 & t & K3 & K4 & K5). exists s, t. split; [exact H3|]. split; [exact K3|].
  unfold segment_before. apply less_before. rewrite Forall_forall in Fk. specialize (Fk j Hj). unfold grain_less in Fk. rewrite H5, K5 in Fk.
  destruct (less_total (center L s) (center L t)) as [X|X]; [|exact Fk| |exact X].
  - destruct (proj2 R _ _ H1) as (_ & _ & Le1). destruct (proj2 R _ _ K1) as (_ & _ & Le2). rewrite Le1, Le2; auto.
  - exfalso. assert (Y : (k, fst p) = (j, fst q)) by (apply (A2 (k, fst p) (j, fst q) s t); assumption). injection Y as -> _. contradiction.
Qed.

(** C92_total: there always is a result *)
Theorem C92_total : forall dim gs, regular dim gs -> exists l, print_grains_invariant L gs (Some l).
Proof.
  intros dim gs R.
  assert (OS : exists os, order_segments L gs os).
  { apply pick. intros (k, g) I. destruct (proj2 R k g I) as (_ & _ & Le).
    destruct (sort_exists (segment_less L g) (fun i => i < length (segments L g))) with (l := seq 0 (length (segments L g))) as (o & Ho).
    - intros i j Hi Hj H. unfold segment_less in *.
      destruct (nth_error (segments L g) i) as [a|] eqn:Ea; [|discriminate]. destruct (nth_error (segments L g) j) as [b|] eqn:Eb; [|reflexivity].
      destruct (C92_order dim (center L a) (center L b) (center L a)) as (I1 & I2 & _); try (apply Le; eauto using nth_error_In).
      destruct (center_less (center L b) (center L a)) eqn:E; [|reflexivity]. specialize (I2 H eq_refl). congruence.
    - intros i j h Hi Hj Hh H K. unfold segment_less in *.
      destruct (nth_error (segments L g) i) as [a|] eqn:Ea; [|apply nth_error_None in Ea; lia].
      destruct (nth_error (segments L g) j) as [b|] eqn:Eb; [|apply nth_error_None in Eb; lia].
      destruct (nth_error (segments L g) h) as [c|] eqn:Ec; [|reflexivity].
      destruct (center_less (center L c) (center L a)) eqn:E; [|reflexivity]. exfalso.
      assert (la : length (center L a) = dim) by (apply Le; exact (nth_error_In _ _ Ea)).
      assert (lb : length (center L b) = dim) by (apply Le; exact (nth_error_In _ _ Eb)).
      assert (lc : length (center L c) = dim) by (apply Le; exact (nth_error_In _ _ Ec)).
      destruct (less_total (center L a) (center L b)) as [X|X]; [congruence|exact H| |].
      + destruct (less_total (center L b) (center L c)) as [Y|Y]; [congruence|exact K| |].
        * apply less_before in E. apply same_sym in Y. apply (before_same_l _ _ _ (same_sym _ _ Y)) in E. 
          apply less_before in E. destruct (C92_order dim (center L b) (center L a) (center L a)) as (_ & _ & (_ & Z) & _); try assumption.
          destruct (Z (same_sym _ _ X)). congruence.
        * pose proof (before_same_l _ _ _ X (proj1 (less_before _ _) Y)) as Z. apply less_before in E.
          exact (before_irrefl _ _ (same_refl _) (before_trans _ _ _ Z E)).
      + apply less_before in X. apply less_before in E. destruct (less_total (center L b) (center L c)) as [Y|Y]; [congruence|exact K| |].
        * pose proof (before_trans _ _ _ E X) as Z. pose proof (before_irrefl _ _ (same_sym _ _ Y)). contradiction.
        * apply less_before in Y. exact (before_irrefl _ _ (same_refl _) (before_trans _ _ _ (before_trans _ _ _ X Y) E)).
    - apply Forall_forall. intros i Hi. apply in_seq in Hi. lia.
    - exists (k, o). split; [reflexivity|exact Ho]. }
  destruct OS as (os & HO). pose proof (grain_values dim gs os R HO) as V.
  assert (C : forall k, In k (map fst gs) -> exists c, min_center L gs os k = Some c /\ length c = dim).
  { intros k Hk. destruct (V k Hk) as (g & S & s & I & _ & _ & Is & E & _). exists (center L s). split; [exact E|].
    exact (proj2 (proj2 (proj2 R k g I)) s Is). }
  destruct (sort_exists (grain_less L gs os) (fun k => In k (map fst gs))) with (l := map fst gs) as (ord & PO & SO).
  - intros i j Hi Hj H. unfold grain_less in *. destruct (C i Hi) as (a & Ea & la). destruct (C j Hj) as (b & Eb & lb). rewrite Ea, Eb in *.
    destruct (center_less b a) eqn:E; [|reflexivity]. apply less_before in H. apply less_before in E.
    destruct (before_irrefl _ _ (same_refl _) (before_trans _ _ _ H E)).
  - intros i j h Hi Hj Hh H K. unfold grain_less in *. destruct (C i Hi) as (a & Ea & la). destruct (C j Hj) as (b & Eb & lb). destruct (C h Hh) as (c & Ec & lc).
    rewrite Ea, Eb, Ec in *. destruct (center_less c a) eqn:E; [|reflexivity]. exfalso. apply less_before in E.
    destruct (less_total a b) as [X|X]; [congruence|exact H| |]; (destruct (less_total b c) as [Y|Y]; [congruence|exact K| |]).
    + pose proof (before_same_l _ _ _ Y E) as Z. exact (before_irrefl _ _ (same_sym _ _ X) Z).
    + apply less_before in Y. pose proof (before_same_l _ _ _ X Y) as Z. exact (before_irrefl _ _ (same_refl _) (before_trans _ _ _ Z E)).
    + apply less_before in X. pose proof (before_trans _ _ _ E X) as Z. exact (before_irrefl _ _ (same_sym _ _ Y) Z).
    + apply less_before in X. apply less_before in Y. exact (before_irrefl _ _ (same_refl _) (before_trans _ _ _ (before_trans _ _ _ X Y) E)).
  - apply Forall_forall. auto.
  - destruct (pick (fun k e => grain_lines L gs os k = Some e) ord) as (es & F).
    { intros k Hk. destruct (V k) as (g & S & s & _ & _ & _ & _ & _ & E); [apply (Permutation_in _ (Permutation_sym PO)); exact Hk|]. eexists. exact E. }
    exists (mkListing L (active_ops L gs) (length gs) es). exists os. split; [exact HO|]. right. split.
    + right. intros k Hk. destruct (C k Hk) as (c & -> & _). discriminate.
    + exists ord. split; [split; assumption|]. rewrite (map_all_spec _ _ _ F). reflexivity.
Qed.

Lemma count_unique : forall l l' n n', (forall x, In x l <-> In x l') -> count_of l n -> count_of l' n' -> n = n'.
Proof.
  intros l l' n n' H (m & N & <- & I) (m' & N' & <- & I').
  apply Nat.le_antisymm; apply NoDup_incl_length; try assumption; intros x Hx; [apply I', H, I, Hx|apply I, H, I', Hx].
Qed.

(** C92_invariant: the listing depends neither on the numbers of the grains nor on the order of
    the segments, if no two segments have the same center *)
Theorem C92_invariant : forall dim gs gs' r r', regular dim gs -> regular dim gs' -> apart gs -> renumbered gs gs' ->
  print_grains_invariant L gs r -> print_grains_invariant L gs' r' -> r = r'.
Proof.
  intros dim gs gs' r r' R R' A (m & Pm & F) H H'.
  assert (A' : apart gs').
  { unfold apart in *. assert (Sy : forall a b : segment, ~ same_point (center L a) (center L b) -> ~ same_point (center L b) (center L a)).
    { intros a b X Y. apply X, same_sym, Y. }
    apply (fop_perm _ (all_segments m)); [exact Sy|apply Permutation_flat_map, Permutation_sym, Pm|].
    apply (fop_perm _ (all_segments gs)); [exact Sy| |exact A]. clear - F. unfold all_segments.
    induction F as [|a b gs m (_ & _ & P) F IH]; [constructor|]. cbn [flat_map]. apply Permutation_app; assumption. }
  destruct (C92_listing dim gs r R A H) as (l & -> & (C1 & N1 & o1 & P1 & S1 & B1 & E1)).
  destruct (C92_listing dim gs' r' R' A' H') as (l' & -> & (C2 & N2 & o2 & P2 & S2 & B2 & E2)).
  f_equal. destruct l as [c1 n1 e1]. destruct l' as [c2 n2 e2]. cbn [n_ops n_grains entries] in *. f_equal.
  - apply (count_unique _ _ _ _) with (2 := C1) (3 := C2). intro x.
    assert (Q1 : Permutation (map (fun kg => op_id L (snd kg)) gs) (map (fun kg => op_id L (snd kg)) gs')).
    { rewrite (Permutation_map _ Pm). clear - F. induction F as [|a b gs m (E & _) F IH]; [constructor|]. cbn [map]. rewrite E. constructor. exact IH. }
    split; apply Permutation_in; [exact Q1|apply Permutation_sym; exact Q1].
  - rewrite N1, N2, (Permutation_length Pm). exact (f2_length _ _ _ F).
  - assert (F1 : Forall2 (fun a b : grain => op_id L a = op_id L b /\ old_op_id L a = old_op_id L b /\ Permutation (segments L a) (segments L b)) (map snd gs) (map snd m)).
    { clear - F. induction F; constructor; assumption. }
    destruct (Permutation_Forall2 P1 F1) as (w & Pw & Fw).
    assert (Pw2 : Permutation (map fst o2) w) by (rewrite <- P2, (Permutation_map snd Pm); exact Pw).
    destruct (Permutation_map_inv _ _ (Permutation_sym Pw2)) as (o3 & E3 & P3). subst w.
    set (h := fun p : grain * list segment => (op_id L (fst p), old_op_id L (fst p), snd p)).
    assert (Eh : map h o1 = map h o3).
    { assert (S3 : forall g S, In (g, S) o3 -> Permutation (segments L g) S /\ StronglySorted segment_before S).
      { intros g S I. apply S2. first [apply (Permutation_in _ P3); exact I|apply (Permutation_in _ (Permutation_sym P3)); exact I]. }
      clear - Fw S1 S3. revert o3 Fw S3. induction o1 as [|(g, S) o1 IH]; intros [|(g', S') o3] Fw S3; try (inversion Fw; fail); [reflexivity|].
      inversion Fw as [|? ? ? ? (Ea & Eb & Pg) Fw' X1 X2]; subst. cbn [map h fst snd]. f_equal.
      - unfold h. cbn [fst snd] in *. f_equal; [f_equal; assumption|].
        destruct (S1 g S (or_introl eq_refl)) as (Q1 & T1). destruct (S3 g' S' (or_introl eq_refl)) as (Q2 & T2).
        apply (sorted_unique segment_before); [|exact T1|exact T2|rewrite <- Q1, Pg; exact Q2].
        intros a b X Y. exact (before_irrefl _ _ (same_refl _) (before_trans _ _ _ X Y)).
      - apply IH; [intros g0 S0 I; apply S1; right; exact I|exact Fw'|intros g0 S0 I; apply S3; right; exact I]. }
    assert (Ph : Permutation (map h o1) (map h o2)).
    { rewrite Eh. apply Permutation_map. first [exact P3|exact (Permutation_sym P3)]. }
    set (hb := fun p q : nat * nat * list segment => exists s t, hd_error (snd p) = Some s /\ hd_error (snd q) = Some t /\ segment_before s t).
    assert (T : forall o, StronglySorted first_before o -> StronglySorted hb (map h o)).
    { intros o K. induction K as [|p o K IH Fp]; [constructor|]. cbn [map]. constructor; [exact IH|].
      apply Forall_forall. intros q Hq. apply in_map_iff in Hq. destruct Hq as (q' & <- & Hq'). rewrite Forall_forall in Fp. exact (Fp q' Hq'). }
    assert (EE : map h o1 = map h o2).
    { apply (sorted_unique hb); [|apply T; exact B1|apply T; exact B2|exact Ph].
      intros a b (s & t & X1 & X2 & X3) (s' & t' & Y1 & Y2 & Y3). rewrite X1 in Y2. rewrite X2 in Y1. injection Y1 as <-. injection Y2 as <-.
      exact (before_irrefl _ _ (same_refl _) (before_trans _ _ _ X3 Y3)). }
    rewrite E1, E2.
    assert (G : forall o, (forall g S, In (g, S) o -> Permutation (segments L g) S /\ StronglySorted segment_before S) ->
      map (fun p => (op_id L (fst p), old_op_id L (fst p), length (segments L (fst p)), map (label L) (snd p))) o =
      map (fun x => (fst (fst x), snd (fst x), length (snd x), map (label L) (snd x))) (map h o)).
    { intros o K. rewrite map_map. apply map_ext_in. intros (g, S) I. unfold h. cbn [fst snd].
      rewrite (Permutation_length (proj1 (K g S I))). reflexivity. }
    rewrite (G o1 S1), (G o2 S2), EE. reflexivity.
Qed.

End Listing.
Print Assumptions C92_listing.
Print Assumptions C92_total.
Print Assumptions C92_invariant.

Section More.
Variable L : Type.
(** C92_empty_refuted: with two grains or more, one of them without segments, the first segment
    of it is read although there is none *)
Theorem C92_empty_refuted : forall gs r k g, NoDup (map fst gs) -> 2 <= length gs -> In (k, g) gs -> grain_id L g = k -> segments L g = [] ->
  print_grains_invariant L gs r -> r = None.
Proof.
  intros gs r k g N Le I Eg Es (os & HO & D). destruct (order_spec L gs os HO N k g I) as (o & S & Eo & ES & (PS & _)).
  rewrite Es in PS. apply Permutation_nil in PS. subst S. destruct o; [|discriminate].
  assert (X : min_center L gs os k = None).
  { unfold min_center. rewrite (find_in gs k g N I). cbn [obind]. rewrite Eg, Eo. reflexivity. }
  destruct D as [(_ & _ & E)|([H|H] & _)]; [exact E|lia|]. destruct (H k); [apply in_map_iff; exists (k, g); auto|exact X].
Qed.

(** C92_particles: with one process there is one particle for every segment, with the number of
    the grain, the radius and the order parameter in the order of the names *)
Theorem C92_particles : forall inside (gs : list (nat * grain L)), (forall k g s, In (k, g) gs -> In s (segments L g) -> inside (center L s) = true) ->
  length (output_particles L inside 1 gs) = length (all_segments L gs) /\
  forall c k r op, In (c, (k, r, op)) (output_particles L inside 1 gs) <->
    exists g s, In (k, g) gs /\ In s (segments L g) /\ c = center L s /\ r = radius L s /\ op = op_id L g.
Proof.
  intros inside gs H.
  assert (M : forall c k r op, In (c, (k, r, op)) (particles_of L gs) <->
    exists g s, In (k, g) gs /\ In s (segments L g) /\ c = center L s /\ r = radius L s /\ op = op_id L g).
  { intros c k r op. unfold particles_of. rewrite in_flat_map. split.
    - intros ((k', g) & I & J). apply in_map_iff in J. destruct J as (s & E & Js). cbn [fst snd] in *. injection E as <- <- <- <-. exists g, s. auto.
    - intros (g & s & I & Js & -> & -> & ->). exists (k, g). split; [exact I|]. apply in_map_iff. exists s. auto. }
  assert (K : output_particles L inside 1 gs = particles_of L gs).
  { unfold output_particles, insert_global_particles. cbn [seq map concat]. rewrite app_nil_r.
    assert (A : forall p, In p (particles_of L gs) -> inside (fst p) = true).
    { intros (c, ((k, r), op)) I. apply M in I. destruct I as (g & s & I & J & -> & _). exact (H k g s I J). }
    clear - A. induction (particles_of L gs) as [|p l IH]; [reflexivity|]. cbn [filter]. rewrite (A p (or_introl eq_refl)). f_equal.
    apply IH. intros q Hq. apply A. right. exact Hq. }
  rewrite K. split; [|exact M]. unfold particles_of, all_segments. clear. induction gs as [|(k, g) gs IH]; [reflexivity|].
  cbn [flat_map fst snd]. rewrite !app_length, map_length, IH. reflexivity.
Qed.

(** C92_particles_refuted: every process passes all grains, so with more processes there are
    more particles *)
Theorem C92_particles_refuted : forall inside n (gs : list (nat * grain L)), (forall k g s, In (k, g) gs -> In s (segments L g) -> inside (center L s) = true) ->
  length (output_particles L inside n gs) = n * length (all_segments L gs).
Proof.
  intros inside n gs H. rewrite <- (proj1 (C92_particles inside gs H)). unfold output_particles, insert_global_particles. cbn [seq map concat].
  rewrite app_nil_r. generalize 0 as a. induction n as [|n IH]; intro a; [reflexivity|]. cbn [seq map concat].
  rewrite filter_app, app_length, IH. reflexivity.
Qed.
End More.
Print Assumptions C92_empty_refuted.
Print Assumptions C92_particles.
Print Assumptions C92_particles_refuted.

(** C92_tie_refuted: for two grains with the same center both orders are possible *)
Definition twin (k : nat) : nat * grain nat := (k, mkGrain nat k k k [mkSegment nat [0%Q; 0%Q] 1 (7 + k)]).
Theorem C92_tie_refuted : exists gs l l', regular nat 2 gs /\ print_grains_invariant nat gs (Some l) /\ print_grains_invariant nat gs (Some l') /\
  entries nat l = [(0, 0, 1, [7]); (1, 1, 1, [8])] /\ entries nat l' = [(1, 1, 1, [8]); (0, 0, 1, [7])].
Proof.
  exists [twin 0; twin 1]. eexists. eexists.
  assert (O : order_segments nat [twin 0; twin 1] [(0, [0]); (1, [0])]).
  { constructor; [split; [reflexivity|split; [reflexivity|constructor; constructor]]|].
    constructor; [split; [reflexivity|split; [reflexivity|constructor; constructor]]|constructor]. }
  split.
  { split; [cbn; repeat constructor; cbn; intuition discriminate|].
    intros k g [E|[E|[]]]; injection E as <- <-; (split; [reflexivity|]; split; [discriminate|]; intros s [<-|[]]; reflexivity). }
  split.
  { exists [(0, [0]); (1, [0])]. split; [exact O|]. right. split.
    - right. intros k [<-|[<-|[]]]; discriminate.
    - exists [0; 1]. split; [split; [reflexivity|]|vm_compute; reflexivity].
      constructor; [constructor; constructor|constructor; [reflexivity|constructor]]. }
  split.
  { exists [(0, [0]); (1, [0])]. split; [exact O|]. right. split.
    - right. intros k [<-|[<-|[]]]; discriminate.
    - exists [1; 0]. split; [split; [apply perm_swap|]|vm_compute; reflexivity].
      constructor; [constructor; constructor|constructor; [reflexivity|constructor]]. }
  split; reflexivity.
Qed.
Print Assumptions C92_tie_refuted.

(** ** An example: two grains, the first with two segments; listed under other numbers *)
Definition ex_a : list (nat * grain nat) :=
  [(0, mkGrain nat 0 1 1 [mkSegment nat [3%Q; 0%Q] 1 10; mkSegment nat [2%Q; 5%Q] 1 11]); (4, mkGrain nat 4 0 2 [mkSegment nat [2%Q; 1%Q] 1 12])].
Definition ex_b : list (nat * grain nat) :=
  [(3, mkGrain nat 3 0 2 [mkSegment nat [2%Q; 1%Q] 1 12]); (9, mkGrain nat 9 1 1 [mkSegment nat [2%Q; 5%Q] 1 11; mkSegment nat [3%Q; 0%Q] 1 10])].
Example C92_example :
  regular nat 2 ex_a /\ regular nat 2 ex_b /\ apart nat ex_a /\ renumbered nat ex_a ex_b /\
  print_grains_invariant nat ex_a (Some (mkListing nat 2 2 [(0, 2, 1, [12]); (1, 1, 2, [11; 10])])).
Proof.
  assert (RR : forall k g, In (k, g) (ex_a ++ ex_b) -> grain_id nat g = k /\ segments nat g <> [] /\ forall s, In s (segments nat g) -> length (center nat s) = 2).
  { intros k g [E|[E|[E|[E|[]]]]]; injection E as <- <-; (split; [reflexivity|]; split; [discriminate|]; cbn; intros s H;
      repeat (destruct H as [<-|H]; [reflexivity|]); destruct H). }
  split. { split; [cbn; repeat constructor; cbn; intuition discriminate|]. intros k g I. apply RR, in_or_app. left. exact I. }
  split. { split; [cbn; repeat constructor; cbn; intuition discriminate|]. intros k g I. apply RR, in_or_app. right. exact I. }
  split.
  { unfold apart. cbn. repeat constructor; cbn; intro H; inversion H as [|? ? ? ? E H']; subst; try discriminate E; inversion H' as [|? ? ? ? E' _]; discriminate E'. }
  split.
  { exists [(9, mkGrain nat 9 1 1 [mkSegment nat [2%Q; 5%Q] 1 11; mkSegment nat [3%Q; 0%Q] 1 10]); (3, mkGrain nat 3 0 2 [mkSegment nat [2%Q; 1%Q] 1 12])].
    split; [apply perm_swap|]. constructor; [split; [reflexivity|split; [reflexivity|apply perm_swap]]|].
    constructor; [split; [reflexivity|split; reflexivity]|constructor]. }
  exists [(0, [1; 0]); (4, [0])]. split.
  { constructor; [split; [reflexivity|split; [apply perm_swap|constructor; [constructor; constructor|constructor; [reflexivity|constructor]]]]|].
    constructor; [split; [reflexivity|split; [reflexivity|constructor; constructor]]|constructor]. }
  right. split; [right; intros k [<-|[<-|[]]]; discriminate|].
  exists [4; 0]. split; [split; [apply perm_swap|]|vm_compute; reflexivity].
  constructor; [constructor; constructor|constructor; [reflexivity|constructor]].
Qed.

(** The failure with an empty grain does happen: beside any grain with one segment *)
Theorem C92_empty_reached : forall c r l,
  print_grains_invariant nat [(0, mkGrain nat 0 0 0 []); (1, mkGrain nat 1 1 1 [mkSegment nat c r l])] None.
Proof.
  intros c r l. exists [(0, []); (1, [0])]. split.
  - constructor; [split; [reflexivity|split; [reflexivity|constructor]]|].
    constructor; [split; [reflexivity|split; [reflexivity|constructor; constructor]]|constructor].
  - left. split; [cbn; repeat constructor|]. split; [|reflexivity]. exists 0. split; [now left|reflexivity].
Qed.
Print Assumptions C92_empty_reached.
