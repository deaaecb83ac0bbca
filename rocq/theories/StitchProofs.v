From Coq Require Import List Arith Bool Lia Permutation Relations.
From Verif Require Import Util StitchModel StitchSpec.
Import ListNotations.

(** ** Contacts and sorted lists *)
Lemma cltb_spec : forall a b, cltb a b = true <->
  (fst a < fst b \/ (fst a = fst b /\ snd a < snd b)).
Proof.
  intros [a1 a2] [b1 b2]. unfold cltb. simpl.
  destruct (Nat.ltb_spec a1 b1), (Nat.eqb_spec a1 b1), (Nat.ltb_spec a2 b2); simpl; intuition (try discriminate; lia).
Qed.

Lemma ceqb_spec : forall a b, ceqb a b = true <-> a = b.
Proof.
  intros [a1 a2] [b1 b2]. unfold ceqb. simpl.
  destruct (Nat.eqb_spec a1 b1), (Nat.eqb_spec a2 b2); simpl; split; intro H; try discriminate; try congruence.
Qed.

Lemma cltb_total : forall a b, cltb a b = false -> ceqb a b = false -> cltb b a = true.
Proof.
  intros a b H1 H2. apply cltb_spec.
  assert (N1 : ~ (fst a < fst b \/ (fst a = fst b /\ snd a < snd b))) by (rewrite <- cltb_spec; congruence).
  assert (N2 : a <> b) by (rewrite <- ceqb_spec; congruence).
  destruct a as [a1 a2], b as [b1 b2]. simpl in *.
  destruct (Nat.eq_dec a1 b1), (Nat.eq_dec a2 b2); subst; try lia. congruence.
Qed.

Lemma cltb_trans : forall a b c, cltb a b = true -> cltb b c = true -> cltb a c = true.
Proof. intros a b c. rewrite !cltb_spec. lia. Qed.

Lemma cltb_irrefl : forall a, cltb a a = false.
Proof.
  intro a. destruct (cltb a a) eqn:E; [|reflexivity]. apply cltb_spec in E. lia.
Qed.

Lemma sinsert_in : forall x l y, In y (sinsert x l) <-> y = x \/ In y l.
Proof.
  induction l as [|z l IH]; intro y; simpl; [intuition|].
  destruct (cltb x z); [simpl; intuition|]. destruct (ceqb x z) eqn:E.
  - apply ceqb_spec in E. subst. simpl. intuition.
  - simpl. rewrite IH. intuition.
Qed.

Lemma sinsert_sorted : forall x l, sorted l -> sorted (sinsert x l).
Proof.
  induction l as [|z l IH]; intro H; simpl; [constructor; [constructor|contradiction]|].
  inversion H as [|? ? Hl Hz]; subst.
  destruct (cltb x z) eqn:E1.
  - constructor; [assumption|]. intros y [<-|Hy]; [assumption|]. eapply cltb_trans; [eassumption|auto].
  - destruct (ceqb x z) eqn:E2; [assumption|].
    constructor; [auto|]. intros y Hy. apply sinsert_in in Hy. destruct Hy as [->|Hy]; [|auto].
    apply cltb_total; assumption.
Qed.

Lemma sort_unique_in : forall l y, In y (sort_unique l) <-> In y l.
Proof.
  induction l as [|x l IH]; intro y; simpl; [intuition|]. rewrite sinsert_in, IH. intuition.
Qed.

Lemma sort_unique_sorted : forall l, sorted (sort_unique l).
Proof. induction l as [|x l IH]; simpl; [constructor|]. apply sinsert_sorted. assumption. Qed.

Lemma sorted_NoDup : forall l, sorted l -> NoDup l.
Proof.
  induction 1 as [|x l H IH Hx]; constructor; [|assumption].
  intro C. specialize (Hx x C). rewrite cltb_irrefl in Hx. discriminate.
Qed.

(** ** Owners *)
Lemma owner_mono : forall sizes g h, g <= h -> owner sizes g <= owner sizes h.
Proof.
  induction sizes as [|n sizes IH]; intros g h H; simpl; [lia|].
  destruct (Nat.ltb_spec g n), (Nat.ltb_spec h n); try lia. apply le_n_S, IH. lia.
Qed.

(** ** Messages *)
Lemma messages_from_in : forall self l n j m, j + n = length l ->
  (In m (messages_from self l j n) <->
   exists i r id, j <= i /\ nth_error l i = Some (r, id) /\ r <> fst self /\
     m = (r, id, self :: firstn i l ++ skipn (S i) l)).
Proof.
  intros self l. induction n as [|n IH]; intros j m H; cbn [messages_from].
  - split; [contradiction|]. intros (i & r & id & H1 & H2 & _).
    assert (i < length l) by (apply nth_error_Some; congruence). lia.
  - destruct (nth_error l j) as [[r id]|] eqn:E.
    2:{ apply nth_error_None in E. lia. }
    destruct (Nat.eqb_spec r (fst self)) as [Er|Er].
    + rewrite IH by lia. split.
      * intros (i & r' & id' & H1 & H2). exists i, r', id'. split; [lia|exact H2].
      * intros (i & r' & id' & H1 & H2 & H3 & H4). exists i, r', id'.
        split; [|auto]. destruct (Nat.eq_dec i j); [|lia]. subst i. congruence.
    + simpl In. rewrite IH by lia. split.
      * intros [<-|(i & r' & id' & H1 & H2)]; [exists j, r, id; auto|].
        exists i, r', id'. split; [lia|exact H2].
      * intros (i & r' & id' & H1 & H2 & H3 & H4).
        destruct (Nat.eq_dec i j) as [->|].
        -- left. rewrite E in H2. injection H2 as <- <-. auto.
        -- right. exists i, r', id'. split; [lia|auto].
Qed.

Lemma all_messages_in : forall sizes input g m,
  In m (all_messages sizes g input) <->
  exists i l, vget input i = Some l /\ In m (messages_from (owner sizes (g + i), g + i) l 0 (length l)).
Proof.
  intros sizes. induction input as [|l input IH]; intros g m; simpl.
  - split; [contradiction|]. intros (i & l & H & _). destruct i; discriminate.
  - rewrite in_app_iff, IH. split.
    + intros [H|(i & l' & H1 & H2)].
      * exists 0, l. rewrite Nat.add_0_r. auto.
      * exists (S i), l'. rewrite Nat.add_succ_r. auto.
    + intros ([|i] & l' & H1 & H2).
      * left. injection H1 as <-. rewrite Nat.add_0_r in H2. exact H2.
      * right. exists i, l'. rewrite Nat.add_succ_r in H2. auto.
Qed.

(** A message exists for every contact on another rank, with all other contacts
    of the sender and the sender. *)
Lemma message_spec : forall sizes input r id values,
  (forall g l, vget input g = Some l -> sorted l) ->
  In (r, id, values) (all_messages sizes 0 input) ->
  exists g l, vget input g = Some l /\ In (r, id) l /\ r <> owner sizes g /\
    forall x, In x values <-> x = (owner sizes g, g) \/ (In x l /\ x <> (r, id)).
Proof.
  intros sizes input r id values HS H. apply all_messages_in in H.
  destruct H as (g & l & H1 & H2). simpl in H2. apply messages_from_in in H2; [|reflexivity].
  destruct H2 as (i & r' & id' & _ & H3 & H4 & H5). injection H5 as <- <- ->.
  exists g, l. split; [exact H1|]. split; [apply nth_error_In with i; exact H3|]. split; [exact H4|].
  assert (ND : NoDup l) by (apply sorted_NoDup, (HS g l H1)).
  assert (EL : l = firstn i l ++ (r, id) :: skipn (S i) l).
  { apply nth_error_split in H3. destruct H3 as (l1 & l2 & -> & <-).
    rewrite firstn_app, firstn_all, Nat.sub_diag, skipn_app, skipn_all2 by lia.
    replace (S (length l1) - length l1) with 1 by lia. simpl. rewrite app_nil_r. reflexivity. }
  intro x. simpl. split.
  - intros [<-|Hx]; [left; reflexivity|]. right. split.
    + rewrite EL. apply in_app_iff in Hx. apply in_app_iff. simpl. tauto.
    + intros ->. rewrite EL in ND. apply NoDup_remove_2 in ND. contradiction.
  - intros [->|[Hx Hn]]; [left; reflexivity|]. right. rewrite EL in Hx.
    apply in_app_iff in Hx. apply in_app_iff. simpl in Hx. intuition congruence.
Qed.

Lemma message_exists : forall sizes input g l r id,
  vget input g = Some l -> In (r, id) l -> r <> owner sizes g ->
  exists values, In (r, id, values) (all_messages sizes 0 input) /\
    In (owner sizes g, g) values /\ forall x, In x l -> x <> (r, id) -> In x values.
Proof.
  intros sizes input g l r id H1 H2 H3. destruct (In_nth_error _ _ H2) as [i Hi].
  exists ((owner sizes g, g) :: firstn i l ++ skipn (S i) l). split; [|split].
  - apply all_messages_in. exists g, l. split; [exact H1|]. apply messages_from_in; [reflexivity|].
    exists i, r, id. repeat split; [lia|assumption|assumption].
  - left. reflexivity.
  - intros x Hx Hn. right. apply in_app_iff.
    apply nth_error_split in Hi. destruct Hi as (l1 & l2 & -> & <-).
    rewrite firstn_app, firstn_all, Nat.sub_diag, skipn_app, skipn_all2 by lia.
    replace (S (length l1) - length l1) with 1 by lia. simpl. rewrite app_nil_r.
    apply in_app_iff in Hx. simpl in Hx. intuition congruence.
Qed.

(** ** Receiving *)
Definition addressed (sizes : list nat) (n : nat) (ms : list (nat * nat * list contact)) : Prop :=
  forall r id v, In (r, id, v) ms -> owner sizes id = r /\ id < n.

Definition total (input : list (list contact)) : nat := list_sum (map (@length contact) input).

Lemma total_vset : forall input i l l' input', vget input i = Some l -> vset input i l' = Some input' ->
  total input' + length l = total input + length l'.
Proof.
  unfold total. induction input as [|x input IH]; intros i l l' input' H1 H2; [destruct i; discriminate|].
  destruct i as [|i]; simpl in *.
  - injection H1 as ->. injection H2 as <-. simpl. lia.
  - destruct (vset input i l') as [r|] eqn:E; [|discriminate]. injection H2 as <-. simpl.
    specialize (IH i l l' r H1 E). lia.
Qed.

Lemma receive_all_spec : forall sizes ms input fin,
  (forall g l, vget input g = Some l -> sorted l) ->
  addressed sizes (length input) ms ->
  exists input' fin', receive_all sizes ms (input, fin) = Some (input', fin') /\
    length input' = length input /\
    (forall g l, vget input' g = Some l -> sorted l) /\
    (forall g l l' x, vget input g = Some l -> vget input' g = Some l' ->
       (In x l' <-> In x l \/ exists r v, In (r, g, v) ms /\ In x v)) /\
    total input <= total input' /\
    (fin' = true -> fin = true /\ forall g l l', vget input g = Some l -> vget input' g = Some l' -> incl l' l) /\
    (fin = true -> fin' = false -> total input < total input').
Proof.
  intros sizes. induction ms as [|[[r id] values] ms IH]; intros input fin HS HA.
  - exists input, fin. cbn [receive_all]. split; [reflexivity|]. split; [reflexivity|]. split; [exact HS|].
    split; [|split; [lia|split]].
    + intros g l l' x H1 H2. assert (l = l') by congruence. subst l'. split; [auto|].
      intros [Hx|(r & v & [] & _)]. exact Hx.
    + intros ->. split; [reflexivity|]. intros g l l' H1 H2. assert (l = l') by congruence. subst l'. apply incl_refl.
    + congruence.
  - cbn [receive_all]. destruct (HA r id values (or_introl eq_refl)) as [Ho Hid].
    cbn [receive]. rewrite (proj2 (Nat.eqb_eq _ _) Ho).
    destruct (vget_some _ input id Hid) as [l El]. rewrite El. cbn [obind].
    set (l1 := sort_unique (l ++ values)).
    destruct (vset_some _ input id l1 Hid) as [input1 E1]. rewrite E1. cbn [obind].
    pose proof (vset_length _ _ _ _ _ E1) as L1.
    assert (S1 : forall g l, vget input1 g = Some l -> sorted l).
    { intros g k Hg. rewrite (vset_get _ _ _ _ _ _ E1) in Hg. destruct (Nat.eqb g id).
      - injection Hg as <-. apply sort_unique_sorted.
      - eapply HS. exact Hg. }
    assert (M1 : forall x, In x l1 <-> In x l \/ In x values).
    { intro x. unfold l1. rewrite sort_unique_in, in_app_iff. reflexivity. }
    assert (LE : length l <= length l1).
    { apply NoDup_incl_length; [apply sorted_NoDup; eapply HS; exact El|]. intros x Hx. apply M1. auto. }
    pose proof (total_vset _ _ _ _ _ El E1) as T1.
    destruct (IH input1 (fin && (length l =? length l1)) S1) as
      (input' & fin' & E & L & S' & M & T & F1 & F2).
    { intros r' id' v' Hin. rewrite L1. apply (HA r' id' v'). right. exact Hin. }
    exists input', fin'. split; [exact E|]. split; [lia|]. split; [exact S'|]. split; [|split; [lia|split]].
    + intros g k k' x Hk Hk'.
      assert (Hk1 : vget input1 g = if Nat.eqb g id then Some l1 else Some k)
        by (rewrite (vset_get _ _ _ _ _ _ E1), Hk; reflexivity).
      destruct (Nat.eqb_spec g id) as [->|Ng].
      * assert (k = l) by congruence. subst k. rewrite (M id l1 k' x Hk1 Hk'), M1. split.
        -- intros [[H|H]|(r' & v' & H1 & H2)]; [left; exact H| |].
           ++ right. exists r, values. split; [left; reflexivity|exact H].
           ++ right. exists r', v'. split; [right; exact H1|exact H2].
        -- intros [H|(r' & v' & [H1|H1] & H2)]; [auto| |].
           ++ injection H1 as <- <-. auto.
           ++ right. eauto.
      * rewrite (M g k k' x Hk1 Hk'). split.
        -- intros [H|(r' & v' & H1 & H2)]; [auto|]. right. exists r', v'. split; [right; exact H1|exact H2].
        -- intros [H|(r' & v' & [H1|H1] & H2)]; [auto| |right; eauto].
           injection H1 as _ H1 _. congruence.
    + intro HF. destruct (F1 HF) as [HF1 HF2]. apply andb_true_iff in HF1. destruct HF1 as [HF1 HF3].
      split; [exact HF1|]. apply Nat.eqb_eq in HF3.
      intros g k k' Hk Hk'.
      assert (Hk1 : vget input1 g = if Nat.eqb g id then Some l1 else Some k)
        by (rewrite (vset_get _ _ _ _ _ _ E1), Hk; reflexivity).
      destruct (Nat.eqb_spec g id) as [->|Ng].
      * assert (k = l) by congruence. subst k.
        eapply incl_tran; [apply (HF2 id l1 k' Hk1 Hk')|].
        apply NoDup_length_incl; [apply sorted_NoDup; eapply HS; exact El|lia|].
        intros x Hx. apply M1. auto.
      * apply (HF2 g k k' Hk1 Hk').
    + intros HF HF'. destruct (Nat.eqb_spec (length l) (length l1)).
      * rewrite HF in F2. specialize (F2 eq_refl HF'). lia.
      * lia.
Qed.

(** ** The fixed point *)
Section Fix.
Variable sizes : list nat.
Variable input0 : list (list contact).
Hypothesis WF : well_formed sizes input0.

Notation conn := (connected sizes input0).

Lemma touch_sym : forall g h, touch sizes input0 g h -> touch sizes input0 h g.
Proof.
  intros g h (l & H1 & H2). destruct (wf_symmetric _ _ WF g l h H1 H2) as (l' & H3 & H4).
  exists l'. auto.
Qed.

Lemma conn_sym : forall g h, conn g h -> conn h g.
Proof.
  induction 1 as [g h H|g|g h k H1 IH1 H2 IH2].
  - apply rt_step, touch_sym. assumption.
  - apply rt_refl.
  - eapply rt_trans; eassumption.
Qed.

Lemma touch_lt : forall g h, touch sizes input0 g h -> h < length input0 /\ owner sizes h <> owner sizes g.
Proof.
  intros g h (l & H1 & H2). destruct (wf_contact _ _ WF g l _ _ H1 H2) as (A & B & C). auto.
Qed.

Lemma conn_lt : forall g h, conn g h -> g < length input0 -> h < length input0.
Proof.
  induction 1 as [g h H|g|g h k H1 IH1 H2 IH2]; intro HL; auto.
  apply (touch_lt g h H).
Qed.

(** State of the iteration: between the initial contacts and the component. *)
Record between (input : list (list contact)) : Prop := {
  b_length : length input = length input0;
  b_sorted : forall g l, vget input g = Some l -> sorted l;
  b_lower : forall g l0 l, vget input0 g = Some l0 -> vget input g = Some l -> incl l0 l;
  b_upper : forall g l r id, vget input g = Some l -> In (r, id) l ->
    r = owner sizes id /\ id < length input0 /\ id <> g /\ conn g id }.

Lemma between_start : between input0.
Proof.
  constructor.
  - reflexivity.
  - apply (wf_sorted _ _ WF).
  - intros g l0 l H1 H2. assert (l0 = l) by congruence. subst. apply incl_refl.
  - intros g l r id H1 H2. destruct (wf_contact _ _ WF g l r id H1 H2) as (A & B & C). subst r.
    split; [reflexivity|]. split; [exact A|]. split.
    + intros ->. apply C. reflexivity.
    + apply rt_step. exists l. auto.
Qed.

Lemma between_total : forall input, between input -> total input <= length input0 * length input0.
Proof.
  intros input B.
  assert (G : forall ls, (forall l, In l ls -> length l <= length input0) -> total ls <= length ls * length input0).
  { unfold total. induction ls as [|l ls IH]; intro H; simpl; [lia|].
    assert (length l <= length input0) by (apply H; left; reflexivity).
    assert (list_sum (map (@length contact) ls) <= length ls * length input0)
      by (apply IH; intros; apply H; right; assumption). lia. }
  rewrite <- (b_length _ B) at 1. apply G. intros l Hl.
  destruct (In_nth_error _ _ Hl) as [g Hg].
  rewrite <- (seq_length (length input0) 0), <- (map_length (fun h => (owner sizes h, h))).
  apply NoDup_incl_length; [apply sorted_NoDup, (b_sorted _ B g l Hg)|].
  intros [r id] Hx. destruct (b_upper _ B g l r id Hg Hx) as (-> & Hid & _).
  apply in_map_iff. exists id. split; [reflexivity|]. apply in_seq. lia.
Qed.

Lemma round_ok : forall input ms, between input ->
  Permutation ms (all_messages sizes 0 input) ->
  exists input' fin, receive_all sizes ms (input, true) = Some (input', fin) /\ between input' /\
    (fin = false -> total input < total input') /\
    (fin = true ->
       (forall g l, vget input' g = Some l -> forall x, In x l <-> exists l0, vget input g = Some l0 /\ In x l0) /\
       forall g l id l', vget input' g = Some l -> In (owner sizes id, id) l ->
         owner sizes id <> owner sizes g -> vget input' id = Some l' ->
         In (owner sizes g, g) l' /\ forall x, In x l -> x <> (owner sizes id, id) -> In x l').
Proof.
  intros input ms B PM.
  assert (MS : forall r id v, In (r, id, v) ms <-> In (r, id, v) (all_messages sizes 0 input)).
  { intros r id v. split; apply Permutation_in; [|apply Permutation_sym]; exact PM. }
  assert (HA : addressed sizes (length input) ms).
  { intros r id v Hm. apply MS in Hm. apply message_spec in Hm; [|apply (b_sorted _ B)].
    destruct Hm as (g & l & H1 & H2 & _). destruct (b_upper _ B g l r id H1 H2) as (A1 & A2 & _).
    rewrite (b_length _ B). auto. }
  destruct (receive_all_spec sizes ms input true (b_sorted _ B) HA) as
    (input' & fin & E & L & SS & M & T & F1 & F2).
  assert (OLD : forall g l, vget input' g = Some l -> exists l0, vget input g = Some l0).
  { intros g l Hg. apply vget_some. rewrite <- L. eapply vget_lt. exact Hg. }
  exists input', fin. split; [exact E|]. split; [|split; [intro Hf; apply F2; [reflexivity|exact Hf]|]].
  - constructor.
    + rewrite L. apply (b_length _ B).
    + exact SS.
    + intros g l0 l H1 H2 x Hx. destruct (OLD g l H2) as [k Hk].
      apply (M g k l x Hk H2). left. apply (b_lower _ B g l0 k H1 Hk). exact Hx.
    + intros g l r id Hg Hx. destruct (OLD g l Hg) as [k Hk].
      apply (M g k l (r, id) Hk Hg) in Hx. destruct Hx as [Hx|(r' & v & Hm & Hv)].
      * apply (b_upper _ B g k r id Hk Hx).
      * apply MS in Hm. apply message_spec in Hm; [|apply (b_sorted _ B)].
        destruct Hm as (s & ls & Hs & Hin & Hne & Hval).
        destruct (b_upper _ B s ls r' g Hs Hin) as (B1 & B2 & B3 & B4).
        apply Hval in Hv. destruct Hv as [Hv|[Hv Hn]].
        -- injection Hv as -> ->. repeat split.
           ++ apply vget_lt in Hs. rewrite (b_length _ B) in Hs. exact Hs.
           ++ congruence.
           ++ apply conn_sym. exact B4.
        -- destruct (b_upper _ B s ls r id Hs Hv) as (C1 & C2 & C3 & C4).
           repeat split; auto.
           ++ intros ->. apply Hn. congruence.
           ++ eapply rt_trans; [apply conn_sym; exact B4|exact C4].
  - intro HF. destruct (F1 HF) as [_ F3].
    assert (EQ : forall g l, vget input' g = Some l -> forall x, In x l <-> exists l0, vget input g = Some l0 /\ In x l0).
    { intros g l Hg x. destruct (OLD g l Hg) as [k Hk]. split.
      - intro Hx. exists k. split; [exact Hk|]. apply (F3 g k l Hk Hg). exact Hx.
      - intros (l0 & H1 & H2). assert (l0 = k) by congruence. subst.
        apply (M g k l x Hk Hg). auto. }
    split; [exact EQ|].
    intros g l id l' Hg Hin Hne Hid.
    apply EQ with (1 := Hg) in Hin. destruct Hin as (k & Hk & Hin).
    destruct (message_exists sizes input g k _ _ Hk Hin Hne) as (v & Hm & Hself & Hrest).
    apply MS in Hm. destruct (OLD id l' Hid) as [k' Hk'].
    split.
    + apply (M id k' l' _ Hk' Hid). right. eauto.
    + intros x Hx Hn. apply EQ with (1 := Hg) in Hx. destruct Hx as (k2 & Hk2 & Hx).
      assert (k2 = k) by congruence. subst k2.
      apply (M id k' l' _ Hk' Hid). right. exists (owner sizes id), v. auto.
Qed.

(** Result of the iteration: the list of a particle is its component without
    the particle itself. *)
Definition solved (input : list (list contact)) : Prop :=
  length input = length input0 /\
  forall g l, vget input g = Some l -> sorted l /\
    forall r id, In (r, id) l <-> (r = owner sizes id /\ id <> g /\ conn g id).

Lemma fixed_solved : forall input, between input ->
  (forall g l id l', vget input g = Some l -> In (owner sizes id, id) l ->
     owner sizes id <> owner sizes g -> vget input id = Some l' ->
     In (owner sizes g, g) l' /\ forall x, In x l -> x <> (owner sizes id, id) -> In x l') ->
  solved input.
Proof.
  intros input B CL. split; [apply (b_length _ B)|]. intros g l Hg. split; [apply (b_sorted _ B g l Hg)|].
  intros r id. split.
  - intro Hx. destruct (b_upper _ B g l r id Hg Hx) as (A1 & A2 & A3 & A4). auto.
  - intros (-> & Hn & Hc). apply clos_rt_rt1n in Hc. revert l Hg Hn.
    induction Hc as [g|g h k Ht Hc IH]; intros l Hg Hn; [congruence|].
    pose proof (touch_lt _ _ Ht) as [Hh Ho]. destruct (touch_sym _ _ Ht) as (l0 & H1 & H2).
    destruct (vget_some _ input h) as [lh Hlh]; [rewrite (b_length _ B); exact Hh|].
    pose proof (b_lower _ B h l0 lh H1 Hlh _ H2) as Hgh.
    destruct (CL h lh g l Hlh Hgh ltac:(congruence) Hg) as [C1 C2].
    destruct (Nat.eq_dec k h) as [->|Nk]; [exact C1|].
    apply C2; [apply IH; assumption|]. intro E. injection E as _ E. congruence.
Qed.

Lemma stitch_loop_ok : forall deliver, any_order deliver -> forall fuel k input, between input ->
  length input0 * length input0 < fuel + total input ->
  exists input', stitch_loop fuel k sizes deliver input = Some (Some input') /\ solved input'.
Proof.
  intros deliver HD. induction fuel as [|fuel IH]; intros k input B HF.
  - pose proof (between_total input B). simpl in HF. lia.
  - cbn [stitch_loop].
    destruct (round_ok input (deliver k (all_messages sizes 0 input)) B (HD _ _)) as
      (input' & fin & E & B' & F1 & F2).
    rewrite E. cbn [obind fst snd]. destruct fin.
    + exists input'. split; [reflexivity|]. apply fixed_solved; [exact B'|]. apply F2. reflexivity.
    + apply IH; [exact B'|]. specialize (F1 eq_refl). lia.
Qed.

(** ** Cliques *)
Definition is_min (g : nat) : Prop := g < length input0 /\ forall h, conn g h -> g <= h.

Definition clique_of (c : list contact) (g : nat) : Prop :=
  forall r id, In (r, id) c <-> (r = owner sizes id /\ conn g id).

(** The cliques are those of the smallest particles, in increasing order. *)
Lemma cliques_spec : forall input g,
  (forall i l, vget input i = Some l -> g + i < length input0 /\ sorted l /\
     forall r id, In (r, id) l <-> (r = owner sizes id /\ id <> g + i /\ conn (g + i) id)) ->
  exists mins, Forall2 clique_of (cliques sizes g input) mins /\
    (forall m, In m mins <-> g <= m < g + length input /\ is_min m) /\
    (forall i j a b, vget mins i = Some a -> vget mins j = Some b -> i < j -> a < b).
Proof.
  induction input as [|l input IH]; intros g H.
  - exists []. simpl. split; [constructor|]. split; [intros; split; [contradiction|lia]|].
    intros i j a b Hi. destruct i; discriminate.
  - destruct (H 0 l eq_refl) as (Hg & HS & HL). rewrite Nat.add_0_r in Hg, HL.
    destruct (IH (S g)) as (mins & F & I & O).
    { intros i k Hk. destruct (H (S i) k Hk) as (A & B & C). rewrite Nat.add_succ_r in A, C.
      simpl. auto. }
    assert (CL : clique_of ((owner sizes g, g) :: l) g).
    { intros r id. simpl. split.
      - intros [E|Hin]; [injection E as <- <-; split; [reflexivity|apply rt_refl]|].
        apply HL in Hin. tauto.
      - intros (-> & Hc). destruct (Nat.eq_dec id g) as [->|]; [left; reflexivity|]. right.
        apply HL. auto. }
    assert (DEC : (is_min g /\ cliques sizes g (l :: input) = ((owner sizes g, g) :: l) :: cliques sizes (S g) input)
       \/ (~ is_min g /\ cliques sizes g (l :: input) = cliques sizes (S g) input)).
    { cbn [cliques]. destruct l as [|[r0 id0] l'].
      - left. split; [|reflexivity]. split; [exact Hg|]. intros h Hh.
        destruct (Nat.eq_dec h g); [lia|].
        assert (In (owner sizes h, h) []) by (apply HL; auto). contradiction.
      - cbn [fst].
        assert (H0 : r0 = owner sizes id0 /\ id0 <> g /\ conn g id0) by (apply HL; left; reflexivity).
        destruct H0 as (Er & Ni & Ci).
        destruct (Nat.ltb_spec g id0) as [Lt|Ge].
        + assert (owner sizes g <= r0) by (rewrite Er; apply owner_mono; lia).
          destruct (Nat.leb_spec (owner sizes g) r0); [|lia]. cbn [andb]. left. split; [|reflexivity].
          split; [exact Hg|]. intros h Hh. destruct (Nat.eq_dec h g); [lia|].
          assert (Hin : In (owner sizes h, h) ((r0, id0) :: l')) by (apply HL; auto).
          inversion HS as [|? ? HS' Hhd]; subst. destruct Hin as [E|Hin].
          * injection E as _ <-. lia.
          * apply Hhd in Hin. apply cltb_spec in Hin. simpl in Hin.
            destruct (Nat.le_gt_cases id0 h) as [|Hlt]; [lia|].
            pose proof (owner_mono sizes h id0 ltac:(lia)). lia.
        + rewrite andb_false_r. right. split; [|reflexivity]. intros [_ C]. specialize (C id0 Ci). lia. }
    destruct DEC as [[Hm E]|[Hm E]]; rewrite E.
    + exists (g :: mins). split; [constructor; assumption|]. split.
      * intro m. cbn [In length]. rewrite I. split.
        -- intros [<-|[A B]]; [split; [lia|assumption]|]. split; [lia|assumption].
        -- intros [A B]. destruct (Nat.eq_dec g m); [left; assumption|]. right. split; [lia|assumption].
      * intros [|i] [|j] a b Ha Hb Hij; try lia.
        -- cbn in Ha. injection Ha as <-. cbn in Hb. apply nth_error_In in Hb. apply I in Hb. lia.
        -- cbn in Ha, Hb. apply (O i j a b); [assumption|assumption|lia].
    + exists mins. split; [assumption|]. split; [|assumption].
      intro m. rewrite I. cbn [length]. split; intros [A B]; split; try assumption; [lia|].
      destruct (Nat.eq_dec g m); [subst; contradiction|]. lia.
Qed.

Lemma notify_spec : forall k members result, length result = length input0 ->
  (forall r id, In (r, id) members -> owner sizes id = r /\ id < length input0) ->
  exists result', notify sizes k members result = Some result' /\ length result' = length input0 /\
    forall v, vget result' v = (if existsb (fun c => snd c =? v) members then Some (Some k) else vget result v).
Proof.
  induction members as [|[r id] members IH]; intros result L H; simpl.
  - exists result. auto.
  - destruct (H r id (or_introl eq_refl)) as [Ho Hid]. rewrite Ho, Nat.eqb_refl.
    destruct (vset_some _ result id (Some k) ltac:(lia)) as [r1 E1]. rewrite E1. cbn [obind].
    pose proof (vset_length _ _ _ _ _ E1) as L1.
    destruct (IH r1 ltac:(lia)) as (r2 & E2 & L2 & G2); [intros; apply H; right; assumption|].
    exists r2. split; [exact E2|]. split; [exact L2|]. intro v. rewrite G2.
    rewrite (vset_get _ _ _ _ _ _ E1), (Nat.eqb_sym id v).
    destruct (Nat.eqb v id); simpl; [destruct (existsb _ members); reflexivity|reflexivity].
Qed.

Lemma existsb_clique : forall c m v, clique_of c m ->
  (existsb (fun c => snd c =? v) c = true <-> conn m v).
Proof.
  intros c m v H. rewrite existsb_exists. split.
  - intros ([r id] & Hin & E). simpl in E. apply Nat.eqb_eq in E. subst. apply H in Hin. tauto.
  - intro Hc. exists (owner sizes v, v). split; [apply H; auto|]. simpl. apply Nat.eqb_refl.
Qed.

Lemma notify_all_spec : forall cs mins k result, length result = length input0 ->
  Forall2 clique_of cs mins -> (forall m, In m mins -> m < length input0) ->
  exists result', notify_all sizes k cs result = Some result' /\ length result' = length input0 /\
    forall v, (exists i m, vget mins i = Some m /\ conn m v /\ vget result' v = Some (Some (k + i))) \/
              ((forall m, In m mins -> ~ conn m v) /\ vget result' v = vget result v).
Proof.
  intros cs mins k result L F. revert k result L. induction F as [|c m cs mins Hc F IH]; intros k result L HM.
  - exists result. simpl. split; [reflexivity|]. split; [assumption|]. intro v. right.
    split; [intros m []|reflexivity].
  - cbn [notify_all].
    destruct (notify_spec k c result L) as (r1 & E1 & L1 & G1).
    { intros r id Hin. apply Hc in Hin. destruct Hin as [-> Hcn]. split; [reflexivity|].
      eapply conn_lt; [exact Hcn|]. apply HM. left. reflexivity. }
    rewrite E1. cbn [obind].
    destruct (IH (S k) r1 L1) as (r2 & E2 & L2 & G2); [intros; apply HM; right; assumption|].
    exists r2. split; [exact E2|]. split; [exact L2|]. intro v.
    destruct (G2 v) as [(i & m' & H1 & H2 & H3)|[H1 H2]].
    + left. exists (S i), m'. split; [exact H1|]. split; [exact H2|].
      rewrite H3. f_equal. f_equal. lia.
    + rewrite G1 in H2. destruct (existsb (fun c => snd c =? v) c) eqn:E.
      * left. exists 0, m. split; [reflexivity|]. split; [apply (existsb_clique c m v Hc); exact E|].
        rewrite H2, Nat.add_0_r. reflexivity.
      * right. split; [|exact H2]. intros m' [<-|Hin]; [|apply H1; exact Hin].
        intro C. apply (existsb_clique c m v Hc) in C. congruence.
Qed.

(** Every particle is connected with a smallest one. *)
Lemma min_exists : forall input, solved input -> forall g, g < length input0 ->
  exists m, is_min m /\ conn m g.
Proof.
  intros input [SL SI] g. induction g as [g IH] using lt_wf_ind. intro Hg.
  destruct (vget_some _ input g ltac:(lia)) as [l Hl]. destruct (SI g l Hl) as [_ HL].
  destruct (existsb (fun c => snd c <? g) l) eqn:E.
  - apply existsb_exists in E. destruct E as ([r id] & Hin & Hlt). simpl in Hlt.
    apply Nat.ltb_lt in Hlt. apply HL in Hin. destruct Hin as (_ & _ & Hc).
    destruct (IH id Hlt ltac:(lia)) as (m & Hm & Hmc). exists m. split; [exact Hm|].
    eapply rt_trans; [exact Hmc|]. apply conn_sym. exact Hc.
  - exists g. split; [|apply rt_refl]. split; [exact Hg|]. intros h Hh.
    destruct (Nat.le_gt_cases g h) as [|Hlt]; [assumption|exfalso].
    assert (Hin : In (owner sizes h, h) l) by (apply HL; repeat split; [lia|exact Hh]).
    assert (C : existsb (fun c => snd c <? g) l = true).
    { apply existsb_exists. exists (owner sizes h, h). split; [exact Hin|]. simpl. apply Nat.ltb_lt. exact Hlt. }
    congruence.
Qed.

(** The result of the whole algorithm: the number of a particle is the position
    of the smallest particle of its component. *)
Lemma stitch_ok : forall deliver fuel, any_order deliver ->
  length input0 * length input0 < fuel ->
  exists ids mins,
    stitch fuel sizes deliver input0 = Some (Some (map Some ids)) /\ length ids = length input0 /\
    (forall m, In m mins <-> is_min m) /\
    (forall i j a b, vget mins i = Some a -> vget mins j = Some b -> i < j -> a < b) /\
    (forall g k, vget ids g = Some k -> exists m, vget mins k = Some m /\ conn m g).
Proof.
  intros deliver fuel HD HF. unfold stitch.
  destruct (stitch_loop_ok deliver HD fuel 0 input0 between_start) as (input' & E & SV).
  { assert (0 <= total input0) by lia. lia. }
  rewrite E. cbn [obind]. pose proof SV as [SL SI].
  destruct (cliques_spec input' 0) as (mins & F & I & O).
  { intros i l Hl. destruct (SI i l Hl) as [A B]. split; [|split; assumption].
    apply vget_lt in Hl. simpl. lia. }
  assert (HM : forall m, In m mins <-> is_min m).
  { intro m. rewrite I. split; [tauto|]. intros [A B]. split; [simpl; lia|split; assumption]. }
  destruct (notify_all_spec (cliques sizes 0 input') mins 0 (repeat None (length input'))) as (res & ER & LR & G).
  - rewrite repeat_length. exact SL.
  - exact F.
  - intros m Hm. apply HM in Hm. apply Hm.
  - rewrite ER. cbn [obind].
    assert (ALL : forall g, g < length input0 -> exists k m, vget res g = Some (Some k) /\ vget mins k = Some m /\ conn m g).
    { intros g Hg. destruct (G g) as [(i & m & H1 & H2 & H3)|[H1 H2]].
      - exists i, m. auto.
      - exfalso. destruct (min_exists input' SV g Hg) as (m & Hm & Hc).
        apply (H1 m); [apply HM; exact Hm|exact Hc]. }
    assert (IDS : exists ids, res = map Some ids).
    { clear -ALL LR. assert (A : forall o, In o res -> exists k, o = Some k).
      { intros o Ho. destruct (In_nth_error _ _ Ho) as [g Hg]. pose proof (vget_lt _ _ _ _ Hg) as Hlt.
        rewrite LR in Hlt. destruct (ALL g Hlt) as (k & m & Hk & _). unfold vget in Hk. exists k. congruence. }
      clear ALL LR. induction res as [|o res IH]; [exists []; reflexivity|].
      destruct (A o (or_introl eq_refl)) as [k ->].
      destruct IH as [ids ->]; [intros; apply A; right; assumption|]. exists (k :: ids). reflexivity. }
    destruct IDS as [ids ->]. rewrite map_length in LR.
    exists ids, mins. split; [reflexivity|]. split; [exact LR|]. split; [exact HM|]. split; [exact O|].
    intros g k Hk. pose proof (vget_lt _ _ _ _ Hk) as Hlt. rewrite LR in Hlt.
    destruct (ALL g Hlt) as (k' & m & H1 & H2 & H3). exists m.
    unfold vget in H1. rewrite nth_error_map in H1. unfold vget in Hk. rewrite Hk in H1.
    simpl in H1. injection H1 as ->. auto.
Qed.

End Fix.

(** ** Numberings in the order of first occurrence *)
Lemma numbering_unique : forall a b, length a = length b ->
  first_occurrence a -> first_occurrence b ->
  (forall u v, u < length a -> v < length a -> (vget a u = vget a v <-> vget b u = vget b v)) ->
  a = b.
Proof.
  intros a b HL FA FB H. apply list_ext. intro v. induction v as [v IH] using lt_wf_ind.
  destruct (Nat.lt_ge_cases v (length a)) as [Hv|Hv]; [|rewrite !vget_none by lia; reflexivity].
  destruct (vget_some _ a v Hv) as [ka Ha]. destruct (vget_some _ b v ltac:(lia)) as [kb Hb].
  rewrite Ha, Hb. f_equal.
  destruct (lt_eq_lt_dec ka kb) as [[L|E]|L]; [|exact E|].
  - destruct (FB v kb Hb ka L) as (u & Hu & Eu). rewrite <- (IH u Hu) in Eu.
    assert (E : vget a u = vget a v) by congruence.
    apply H in E; [|lia|lia]. rewrite <- (IH u Hu) in E. congruence.
  - destruct (FA v ka Ha kb L) as (u & Hu & Eu). rewrite (IH u Hu) in Eu.
    assert (E : vget b u = vget b v) by congruence.
    apply H in E; [|lia|lia]. rewrite (IH u Hu) in E. congruence.
Qed.

Lemma max_in : forall l k, In k l -> k <= fold_right Nat.max 0 l.
Proof.
  induction l as [|x l IH]; intros k H; [contradiction|]. destruct H as [->|H]; simpl; [lia|].
  specialize (IH k H). lia.
Qed.

Lemma max_attained : forall l, l <> [] -> In (fold_right Nat.max 0 l) l.
Proof.
  induction l as [|x l IH]; intro H; [congruence|]. simpl. destruct l as [|y l]; [simpl; left; lia|].
  destruct (Nat.max_spec x (fold_right Nat.max 0 (y :: l))) as [[_ ->]|[_ ->]]; [right; apply IH; discriminate|left; reflexivity].
Qed.

Lemma gather_edges_in : forall input g a b, In (a, b) (gather_edges g input) <->
  exists i l r, vget input i = Some l /\ a = g + i /\ In (r, b) l.
Proof.
  induction input as [|l input IH]; intros g a b; simpl.
  - split; [contradiction|]. intros (i & l & r & H & _). destruct i; discriminate.
  - rewrite in_app_iff, in_map_iff, IH. split.
    + intros [([r id] & E & H)|(i & k & r & H1 & H2 & H3)].
      * injection E as <- <-. exists 0, l, r. rewrite Nat.add_0_r. auto.
      * exists (S i), k, r. rewrite Nat.add_succ_r. auto.
    + intros ([|i] & k & r & H1 & H2 & H3).
      * left. injection H1 as <-. exists (r, b). simpl. split; [f_equal; lia|assumption].
      * right. exists i, k, r. split; [exact H1|]. split; [lia|assumption].
Qed.
