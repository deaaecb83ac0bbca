From Coq Require Import List QArith Arith Bool Lia Lqa Relations Permutation.
From Verif Require Import Util StitchModel StitchSpec StitchProofs FloodModel FloodSpec.
Import ListNotations.
Local Open Scope nat_scope.

(** ** Maximum of the values of a cell *)
Lemma qmax_spec : forall a b, (a <= qmax a b)%Q /\ (b <= qmax a b)%Q /\ (qmax a b = a \/ qmax a b = b).
Proof.
  intros a b. unfold qmax. destruct (qltb a b) eqn:E.
  - apply qltb_true in E. repeat split; [lra|lra|auto].
  - apply qltb_false in E. repeat split; [lra|lra|auto].
Qed.

Lemma fold_qmax : forall l a, (forall v, In v (a :: l) -> (v <= fold_left qmax l a)%Q) /\ In (fold_left qmax l a) (a :: l).
Proof.
  induction l as [|x l IH]; intro a.
  - cbn [fold_left]. split; [|left; reflexivity]. intros v [->|[]]. lra.
  - cbn [fold_left]. destruct (IH (qmax a x)) as [I1 I2]. destruct (qmax_spec a x) as (Q1 & Q2 & Q3). split.
    + intros v [->|[->|H]].
      * eapply Qle_trans; [exact Q1|]. apply I1. left. reflexivity.
      * eapply Qle_trans; [exact Q2|]. apply I1. left. reflexivity.
      * apply I1. right. exact H.
    + destruct I2 as [I2|I2]; [|right; right; exact I2]. rewrite <- I2.
      destruct Q3 as [->| ->]; [left|right; left]; reflexivity.
Qed.

Lemma has_particle_max : forall m thr c,
  has_particle m thr c <-> In c (active m) /\ qltb thr (cell_max m c) = true.
Proof.
  intros m thr c. unfold has_particle, cell_max.
  destruct (fold_qmax (snd (values m c)) (fst (values m c))) as [F1 F2]. split.
  - intros [H (v & Hv & Hlt)]. split; [exact H|]. apply qltb_true. specialize (F1 v Hv). lra.
  - intros [H E]. split; [exact H|]. apply qltb_true in E. eexists. split; [exact F2|exact E].
Qed.

(** ** Unlabelled cells *)
Definition unl (l : list (option nat)) : nat :=
  length (filter (fun o => match o with None => true | Some _ => false end) l).

Lemma unl_vset : forall l c id l', vget l c = Some None -> vset l c (Some id) = Some l' -> unl l = S (unl l').
Proof.
  unfold unl. induction l as [|x l IH]; intros c id l' H1 H2; [destruct c; discriminate|].
  destruct c as [|c]; cbn in H1, H2.
  - injection H1 as ->. injection H2 as <-. reflexivity.
  - destruct (vset l c (Some id)) as [r|] eqn:E; [|discriminate]. injection H2 as <-.
    specialize (IH c id r H1 E). cbn [filter]. destruct x; cbn [length]; lia.
Qed.

Lemma unl_le : forall l, unl l <= length l.
Proof. intro l. unfold unl. induction l as [|[x|] l IH]; simpl; lia. Qed.

Section Rank.
Variable m : mesh.
Variable me : nat.
Variable thr : Q.
Hypothesis OK : mesh_ok m.

Definition elig (c : nat) : Prop := has_particle m thr c /\ rank m c = me.
Definition V (c d : nat) : Prop := elig c /\ elig d /\ exists n, In n (neighbors m c) /\ leaf m n d.
Notation Vs := (clos_refl_trans nat V).

Definition fresh_in (ids ids' : list (option nat)) (d k : nat) : Prop :=
  vget ids d = Some None /\ vget ids' d = Some (Some k).

Record post (id : nat) (roots : list nat) (ids : list (option nat)) (mx : option Q)
  (ids' : list (option nat)) (mx' : option Q) (n : nat) : Prop := {
  p_len : length ids' = length ids;
  p_old : forall d k, vget ids d = Some (Some k) -> vget ids' d = Some (Some k);
  p_new : forall d k, fresh_in ids ids' d k -> k = id /\ elig d /\
    exists root r0, In root roots /\ leaf m root r0 /\ elig r0 /\ Vs r0 d;
  p_roots : forall root r0, In root roots -> leaf m root r0 -> elig r0 -> exists k, vget ids' r0 = Some (Some k);
  p_closed : forall d e k, fresh_in ids ids' d k -> V d e -> exists k', vget ids' e = Some (Some k');
  p_count : unl ids = unl ids' + n;
  p_upper : forall d k, fresh_in ids ids' d k -> exists q, mx' = Some q /\ (cell_max m d <= q)%Q;
  p_upper_old : forall a, mx = Some a -> exists q, mx' = Some q /\ (a <= q)%Q;
  p_attained : mx' = mx \/ exists d k, fresh_in ids ids' d k /\ mx' = Some (cell_max m d) }.

Lemma post_nothing : forall id roots ids mx,
  (forall root r0, In root roots -> leaf m root r0 -> elig r0 -> exists k, vget ids r0 = Some (Some k)) ->
  post id roots ids mx ids mx 0.
Proof.
  intros id roots ids mx H. constructor; auto.
  - intros d k [A B]. congruence.
  - intros d e k [A B]. congruence.
  - intros d k [A B]. congruence.
  - intros a ->. exists a. split; [reflexivity|lra].
Qed.

Lemma fresh_split : forall id r1 ids mx ids1 mx1 n1 ids2 d k,
  post id r1 ids mx ids1 mx1 n1 -> fresh_in ids ids2 d k ->
  (exists k1, fresh_in ids ids1 d k1) \/ fresh_in ids1 ids2 d k.
Proof.
  intros id r1 ids mx ids1 mx1 n1 ids2 d k P [A B].
  pose proof (vget_lt _ _ _ _ A) as Hl. rewrite <- (p_len _ _ _ _ _ _ _ P) in Hl.
  destruct (vget_some _ ids1 d Hl) as [[k1|] E1].
  - left. exists k1. split; assumption.
  - right. split; assumption.
Qed.

Lemma post_trans : forall id r1 r2 ids mx ids1 mx1 n1 ids2 mx2 n2,
  post id r1 ids mx ids1 mx1 n1 -> post id r2 ids1 mx1 ids2 mx2 n2 ->
  post id (r1 ++ r2) ids mx ids2 mx2 (n1 + n2).
Proof.
  intros id r1 r2 ids mx ids1 mx1 n1 ids2 mx2 n2 P1 P2.
  assert (BACK : forall d k, fresh_in ids1 ids2 d k -> fresh_in ids ids2 d k).
  { intros d k [A B]. split; [|exact B].
    pose proof (vget_lt _ _ _ _ A) as Hl. rewrite (p_len _ _ _ _ _ _ _ P1) in Hl.
    destruct (vget_some _ ids d Hl) as [[k1|] E1]; [|exact E1].
    apply (p_old _ _ _ _ _ _ _ P1) in E1. congruence. }
  assert (FWD : forall d k1, fresh_in ids ids1 d k1 -> fresh_in ids ids2 d k1).
  { intros d k1 [A B]. split; [exact A|]. apply (p_old _ _ _ _ _ _ _ P2). exact B. }
  constructor.
  - rewrite (p_len _ _ _ _ _ _ _ P2). apply (p_len _ _ _ _ _ _ _ P1).
  - intros d k H. apply (p_old _ _ _ _ _ _ _ P2), (p_old _ _ _ _ _ _ _ P1), H.
  - intros d k H. destruct (fresh_split _ _ _ _ _ _ _ _ _ _ P1 H) as [[k1 H1]|H1].
    + destruct (p_new _ _ _ _ _ _ _ P1 d k1 H1) as (E & El & root & r0 & R1 & R2).
      pose proof (FWD d k1 H1) as [_ B1]. destruct H as [_ B]. assert (k = k1) by congruence. subst k. 
      split; [exact E|]. split; [exact El|]. exists root, r0. split; [apply in_app_iff; auto|exact R2].
    + destruct (p_new _ _ _ _ _ _ _ P2 d k H1) as (E & El & root & r0 & R1 & R2).
      split; [exact E|]. split; [exact El|]. exists root, r0. split; [apply in_app_iff; auto|exact R2].
  - intros root r0 Hr Hl He. apply in_app_iff in Hr. destruct Hr as [Hr|Hr].
    + destruct (p_roots _ _ _ _ _ _ _ P1 root r0 Hr Hl He) as [k Hk]. exists k.
      apply (p_old _ _ _ _ _ _ _ P2), Hk.
    + apply (p_roots _ _ _ _ _ _ _ P2 root r0 Hr Hl He).
  - intros d e k H HV. destruct (fresh_split _ _ _ _ _ _ _ _ _ _ P1 H) as [[k1 H1]|H1].
    + destruct (p_closed _ _ _ _ _ _ _ P1 d e k1 H1 HV) as [k' Hk']. exists k'.
      apply (p_old _ _ _ _ _ _ _ P2), Hk'.
    + apply (p_closed _ _ _ _ _ _ _ P2 d e k H1 HV).
  - rewrite (p_count _ _ _ _ _ _ _ P1), (p_count _ _ _ _ _ _ _ P2). lia.
  - intros d k H. destruct (fresh_split _ _ _ _ _ _ _ _ _ _ P1 H) as [[k1 H1]|H1].
    + destruct (p_upper _ _ _ _ _ _ _ P1 d k1 H1) as (q & Eq & Hq).
      destruct (p_upper_old _ _ _ _ _ _ _ P2 q Eq) as (q' & Eq' & Hq'). exists q'. split; [exact Eq'|lra].
    + apply (p_upper _ _ _ _ _ _ _ P2 d k H1).
  - intros a Ha. destruct (p_upper_old _ _ _ _ _ _ _ P1 a Ha) as (q & Eq & Hq).
    destruct (p_upper_old _ _ _ _ _ _ _ P2 q Eq) as (q' & Eq' & Hq'). exists q'. split; [exact Eq'|lra].
  - destruct (p_attained _ _ _ _ _ _ _ P2) as [E2|(d & k & H2 & E2)].
    + destruct (p_attained _ _ _ _ _ _ _ P1) as [E1|(d & k & H1 & E1)].
      * left. congruence.
      * right. exists d, k. split; [apply FWD, H1|congruence].
    + right. exists d, k. split; [apply BACK, H2|exact E2].
Qed.

(** From the children of a cell to the cell. *)
Lemma post_children : forall id c ids mx ids' mx' n, children m c <> [] ->
  post id (children m c) ids mx ids' mx' n -> post id [c] ids mx ids' mx' n.
Proof.
  intros id c ids mx ids' mx' n Hc P. destruct P as [P1 P2 P3 P4 P5 P6 P7 P8 P9]. constructor; auto.
  - intros d k H. destruct (P3 d k H) as (A & B & root & r0 & R1 & R2 & R3).
    split; [exact A|]. split; [exact B|]. exists c, r0. split; [left; reflexivity|].
    split; [eapply leaf_child; eassumption|exact R3].
  - intros root r0 [<-|[]] Hl He. inversion Hl as [? E|? d ? Hd Hl']; subst; [contradiction|].
    apply (P4 d r0 Hd Hl' He).
Qed.

(** Labelling one cell and continuing with its neighbours. *)
Lemma post_cell : forall id c ids mx ids1 ids' mx' n,
  elig c -> vget ids c = Some None -> vset ids c (Some id) = Some ids1 ->
  post id (neighbors m c) ids1 (omax mx (cell_max m c)) ids' mx' n ->
  post id [c] ids mx ids' mx' (S n).
Proof.
  intros id c ids mx ids1 ids' mx' n He Hc H1 P.
  assert (G : forall d, vget ids1 d = if Nat.eqb d c then Some (Some id) else vget ids d)
    by (intro d; apply (vset_get _ _ _ _ _ _ H1)).
  assert (SPL : forall d k, fresh_in ids ids' d k -> (d = c /\ k = id) \/ fresh_in ids1 ids' d k).
  { intros d k [A B]. destruct (Nat.eq_dec d c) as [->|Hn].
    - left. split; [reflexivity|]. assert (E : vget ids1 c = Some (Some id)) by (rewrite G, Nat.eqb_refl; reflexivity).
      apply (p_old _ _ _ _ _ _ _ P) in E. congruence.
    - right. split; [|exact B]. rewrite G. destruct (Nat.eqb_spec d c); [contradiction|exact A]. }
  assert (CC : vget ids' c = Some (Some id)).
  { apply (p_old _ _ _ _ _ _ _ P). rewrite G, Nat.eqb_refl. reflexivity. }
  assert (BACK : forall d k, fresh_in ids1 ids' d k -> fresh_in ids ids' d k).
  { intros d k [A B]. split; [|exact B]. rewrite G in A. destruct (Nat.eqb d c); [discriminate|exact A]. }
  assert (LC : leaf m c c).
  { apply leaf_self. destruct He as [[Ha _] _]. apply (ok_active m OK c Ha). }
  destruct (qmax_spec (match mx with None => cell_max m c | Some a => a end) (cell_max m c)) as (QA & QB & QC).
  constructor.
  - rewrite (p_len _ _ _ _ _ _ _ P). apply (vset_length _ _ _ _ _ H1).
  - intros d k H. apply (p_old _ _ _ _ _ _ _ P). rewrite G. destruct (Nat.eqb_spec d c); [congruence|exact H].
  - intros d k H. destruct (SPL d k H) as [[-> ->]|H'].
    + split; [reflexivity|]. split; [exact He|]. exists c, c. split; [left; reflexivity|].
      split; [exact LC|]. split; [exact He|apply rt_refl].
    + destruct (p_new _ _ _ _ _ _ _ P d k H') as (A & B & root & r0 & R1 & R2 & R3 & R4).
      split; [exact A|]. split; [exact B|]. exists c, c. split; [left; reflexivity|]. split; [exact LC|].
      split; [exact He|]. eapply rt_trans; [|exact R4]. apply rt_step. split; [exact He|].
      split; [exact R3|]. exists root. auto.
  - intros root r0 [<-|[]] Hl _. inversion Hl as [? E|? d ? Hd _]; subst; [exists id; exact CC|].
    destruct He as [[Ha _] _]. rewrite (proj2 (ok_active m OK c Ha)) in Hd. contradiction.
  - intros d e k H HV. destruct (SPL d k H) as [[-> ->]|H'].
    + destruct HV as (_ & He' & nn & Hn & Hl). apply (p_roots _ _ _ _ _ _ _ P nn e Hn Hl He').
    + apply (p_closed _ _ _ _ _ _ _ P d e k H' HV).
  - rewrite (unl_vset _ _ _ _ Hc H1), (p_count _ _ _ _ _ _ _ P). lia.
  - intros d k H. destruct (SPL d k H) as [[-> ->]|H'].
    + destruct mx as [a|].
      * destruct (p_upper_old _ _ _ _ _ _ _ P _ eq_refl) as (q & Eq & Hq). exists q. split; [exact Eq|].
        eapply Qle_trans; [exact QB|exact Hq].
      * apply (p_upper_old _ _ _ _ _ _ _ P _ eq_refl).
    + apply (p_upper _ _ _ _ _ _ _ P d k H').
  - intros a ->. destruct (p_upper_old _ _ _ _ _ _ _ P _ eq_refl) as (q & Eq & Hq). exists q. split; [exact Eq|].
    eapply Qle_trans; [exact QA|exact Hq].
  - destruct (p_attained _ _ _ _ _ _ _ P) as [E|(d & k & H & E)].
    + rewrite E. destruct mx as [a|]; cbn [omax].
      * destruct QC as [->| ->]; [left; reflexivity|]. right. exists c, id. split; [split; assumption|reflexivity].
      * right. exists c, id. split; [split; assumption|reflexivity].
    + right. exists d, k. split; [apply BACK, H|exact E].
Qed.

Section Height.
Variable D : nat.
Variable h : nat -> nat.
Hypothesis HD : forall c, h c <= D.
Hypothesis HC : forall c d, In d (children m c) -> h d < h c.

Lemma flood_list_ok : forall id f roots,
  (forall c s, In c roots -> length (fst s) = n_cells m -> exists s' n, f c s = Some (s', n) /\ post id [c] (fst s) (snd s) (fst s') (snd s') n) ->
  forall s, length (fst s) = n_cells m ->
  exists s' n, flood_list f roots s = Some (s', n) /\ post id roots (fst s) (snd s) (fst s') (snd s') n.
Proof.
  intros id f. induction roots as [|c roots IH]; intros H s Hs.
  - exists s, 0. split; [reflexivity|]. apply post_nothing. intros root r0 [].
  - cbn [flood_list]. destruct (H c s (or_introl eq_refl) Hs) as (s1 & n1 & E1 & P1). rewrite E1. cbn [obind fst].
    destruct (IH (fun c s Hc => H c s (or_intror Hc)) s1) as (s2 & n2 & E2 & P2).
    { rewrite (p_len _ _ _ _ _ _ _ P1). exact Hs. }
    rewrite E2. cbn [obind fst snd]. exists s2, (n1 + n2). split; [reflexivity|].
    change (c :: roots) with ([c] ++ roots). eapply post_trans; eassumption.
Qed.

(** The same with a bound for the unlabelled cells. *)
Lemma flood_list_bounded : forall id f roots u,
  (forall c s, In c roots -> length (fst s) = n_cells m -> unl (fst s) <= u ->
     exists s' n, f c s = Some (s', n) /\ post id [c] (fst s) (snd s) (fst s') (snd s') n) ->
  forall s, length (fst s) = n_cells m -> unl (fst s) <= u ->
  exists s' n, flood_list f roots s = Some (s', n) /\ post id roots (fst s) (snd s) (fst s') (snd s') n.
Proof.
  intros id f roots u. induction roots as [|c roots IH]; intros H s Hs Hu.
  - exists s, 0. split; [reflexivity|]. apply post_nothing. intros root r0 [].
  - cbn [flood_list]. destruct (H c s (or_introl eq_refl) Hs Hu) as (s1 & n1 & E1 & P1). rewrite E1. cbn [obind fst].
    destruct (IH (fun c s Hc => H c s (or_intror Hc)) s1) as (s2 & n2 & E2 & P2).
    { rewrite (p_len _ _ _ _ _ _ _ P1). exact Hs. }
    { pose proof (p_count _ _ _ _ _ _ _ P1). lia. }
    rewrite E2. cbn [obind fst snd]. exists s2, (n1 + n2). split; [reflexivity|].
    change (c :: roots) with ([c] ++ roots). eapply post_trans; eassumption.
Qed.

Definition good_root (c : nat) : Prop := forall e, leaf m c e -> In e (active m).

Lemma flood_ok : forall fuel id c s, good_root c -> length (fst s) = n_cells m ->
  unl (fst s) * S D + h c < fuel ->
  exists s' n, flood fuel m me thr id c s = Some (s', n) /\ post id [c] (fst s) (snd s) (fst s') (snd s') n.
Proof.
  induction fuel as [|fuel IH]; intros id c s HG HL HF; [lia|]. cbn [flood].
  destruct (children m c) as [|x xs] eqn:EC.
  - assert (Ha : In c (active m)) by (apply HG, leaf_self, EC).
    assert (LEAF : forall r0, leaf m c r0 -> r0 = c).
    { intros r0 Hl. inversion Hl as [? E|? d ? Hd _]; subst; [reflexivity|]. rewrite EC in Hd. contradiction. }
    destruct (Nat.eqb_spec (rank m c) me) as [Er|Er]; cbn [negb].
    2:{ exists s, 0. split; [reflexivity|]. apply post_nothing. intros root r0 [<-|[]] Hl [_ He].
        rewrite (LEAF r0 Hl) in He. contradiction. }
    destruct (vget_some _ (fst s) c) as [v Ev]; [rewrite HL; apply (ok_active m OK c Ha)|]. rewrite Ev. cbn [obind].
    destruct v as [k|].
    { exists s, 0. split; [reflexivity|]. apply post_nothing. intros root r0 [<-|[]] Hl _.
      rewrite (LEAF r0 Hl). exists k. exact Ev. }
    destruct (qltb thr (cell_max m c)) eqn:Et; cbn [negb].
    2:{ exists s, 0. split; [reflexivity|]. apply post_nothing. intros root r0 [<-|[]] Hl [He _].
        rewrite (LEAF r0 Hl) in He. apply has_particle_max in He. destruct He. congruence. }
    assert (He : elig c) by (split; [apply has_particle_max; auto|exact Er]).
    destruct (vset_some _ (fst s) c (Some id)) as [ids1 E1]; [eapply vget_lt; exact Ev|]. rewrite E1. cbn [obind].
    pose proof (unl_vset _ _ _ _ Ev E1) as Hu.
    destruct (flood_list_bounded id (flood fuel m me thr id) (neighbors m c) (unl ids1)
                ltac:(intros c' s' Hc' Hs' Hu'; apply IH;
                  [intros e Hl; apply (ok_neighbors m OK c c' e Ha Hc' Hl)|exact Hs'|
                   pose proof (HD c'); assert (unl (fst s') * S D <= unl ids1 * S D) by (apply Nat.mul_le_mono_r; exact Hu');
                   rewrite Hu in HF; cbn [Nat.mul] in HF; lia])
                (ids1, omax (snd s) (cell_max m c))) as (s2 & n2 & E2 & P2).
    + cbn [fst]. rewrite (vset_length _ _ _ _ _ E1). exact HL.
    + cbn [fst]. lia.
    + rewrite E2. cbn [obind fst snd]. exists s2, (S n2). split; [reflexivity|].
      eapply post_cell; [exact He|exact Ev|exact E1|exact P2].
  - assert (CH : children m c <> []) by congruence. rewrite <- EC.
    destruct (flood_list_bounded id (flood fuel m me thr id) (children m c) (unl (fst s))
                ltac:(intros c' s' Hc' Hs' Hu'; apply IH;
                  [intros e Hl; apply HG; eapply leaf_child; eassumption|exact Hs'|
                   pose proof (HC c c' Hc'); assert (unl (fst s') * S D <= unl (fst s) * S D) by (apply Nat.mul_le_mono_r; exact Hu');
                   lia])
                s HL (Nat.le_refl _)) as (s2 & n2 & E2 & P2).
    exists s2, n2. split; [exact E2|]. apply post_children; assumption.
Qed.

(** ** The loop over all cells *)
Record loop_inv (done : list nat) (ids : list (option nat)) (counter : nat) (maxs : list (option Q)) : Prop := {
  l_len : length ids = n_cells m;
  l_lab : forall d k, vget ids d = Some (Some k) -> k < counter /\ elig d;
  l_done : forall d, In d done -> elig d -> exists k, vget ids d = Some (Some k);
  l_seed : forall k, k < counter -> exists c, vget ids c = Some (Some k) /\
    forall d, vget ids d = Some (Some k) -> Vs c d;
  l_closed : forall d e k, vget ids d = Some (Some k) -> V d e -> exists k', vget ids e = Some (Some k') /\ k' <= k;
  l_maxs : length maxs = counter;
  l_max : forall k, k < counter -> exists q, vget maxs k = Some (Some q) /\
    (forall d, vget ids d = Some (Some k) -> (cell_max m d <= q)%Q) /\
    exists d, vget ids d = Some (Some k) /\ q = cell_max m d }.

Lemma loop_start : loop_inv [] (repeat None (n_cells m)) 0 [].
Proof.
  constructor.
  - apply repeat_length.
  - intros d k H. rewrite vget_repeat in H. destruct (d <? n_cells m); discriminate.
  - intros d [].
  - intros k Hk. lia.
  - intros d e k H. rewrite vget_repeat in H. destruct (d <? n_cells m); discriminate.
  - reflexivity.
  - intros k Hk. lia.
Qed.

Lemma detect_loop_ok : forall fuel cells dn ids counter maxs,
  n_cells m * S D + D < fuel ->
  (forall c, In c cells -> In c (active m)) ->
  loop_inv dn ids counter maxs ->
  exists ids' counter' maxs',
    detect_loop fuel m me thr cells (ids, None) counter maxs = Some (ids', counter', maxs') /\
    loop_inv (dn ++ cells) ids' counter' maxs'.
Proof.
  intros fuel. induction cells as [|c cells IH]; intros dn ids counter maxs HF HA INV.
  - exists ids, counter, maxs. rewrite app_nil_r. split; [reflexivity|exact INV].
  - cbn [detect_loop].
    assert (Hc : In c (active m)) by (apply HA; left; reflexivity).
    destruct (flood_ok fuel counter c (ids, None)) as ([ids1 mx1] & n & E & P).
    { intros e Hl. inversion Hl as [? E|? d ? Hd _]; subst; [exact Hc|].
      rewrite (proj2 (ok_active m OK c Hc)) in Hd. contradiction. }
    { apply (l_len _ _ _ _ INV). }
    { cbn [fst]. pose proof (unl_le ids). rewrite (l_len _ _ _ _ INV) in H. pose proof (HD c).
      assert (unl ids * S D <= n_cells m * S D) by (apply Nat.mul_le_mono_r; exact H). lia. }
    rewrite E. cbn [obind fst snd]. cbn [fst snd] in P.
    assert (LC : leaf m c c) by (apply leaf_self; apply (ok_active m OK c Hc)).
    assert (OLD : forall d k, vget ids1 d = Some (Some k) -> vget ids d = Some (Some k) \/ fresh_in ids ids1 d k).
    { intros d k H. pose proof (vget_lt _ _ _ _ H) as Hl. rewrite (p_len _ _ _ _ _ _ _ P) in Hl.
      destruct (vget_some _ ids d Hl) as [[k'|] Ek].
      - left. rewrite (p_old _ _ _ _ _ _ _ P d k' Ek) in H. congruence.
      - right. split; assumption. }
    assert (DONE : forall d, In d (dn ++ [c]) -> elig d -> exists k, vget ids1 d = Some (Some k)).
    { intros d Hd He. apply in_app_iff in Hd. destruct Hd as [Hd|[<-|[]]].
      - destruct (l_done _ _ _ _ INV d Hd He) as [k Hk]. exists k. apply (p_old _ _ _ _ _ _ _ P), Hk.
      - apply (p_roots _ _ _ _ _ _ _ P c c (or_introl eq_refl) LC He). }
    replace (dn ++ c :: cells) with ((dn ++ [c]) ++ cells) by (rewrite <- app_assoc; reflexivity).
    destruct (Nat.ltb_spec 0 n) as [Hn|Hn].
    + (* a new particle *)
      assert (SEED : exists k, fresh_in ids ids1 c k).
      { assert (EX : exists d k, fresh_in ids ids1 d k).
        { pose proof (p_count _ _ _ _ _ _ _ P) as Cn. pose proof (p_len _ _ _ _ _ _ _ P) as Ln.
          assert (Cl : unl ids1 < unl ids) by lia. clear -Cl Ln. rename Cl into Cn. unfold unl in Cn. revert ids1 Cn Ln. induction ids as [|x ids IH]; intros ids1 Cn Ln.
          - simpl in *. lia.
          - destruct ids1 as [|y ids1]; [discriminate|]. cbn [length] in Ln. cbn [filter] in Cn.
            destruct x as [x|], y as [y|]; cbn [length] in Cn.
            + destruct (IH ids1) as (d & k & A & B); [lia|lia|]. exists (S d), k. split; assumption.
            + destruct (IH ids1) as (d & k & A & B); [lia|lia|]. exists (S d), k. split; assumption.
            + exists 0, y. split; reflexivity.
            + destruct (IH ids1) as (d & k & A & B); [lia|lia|]. exists (S d), k. split; assumption. }
        destruct EX as (d & k & H). destruct (p_new _ _ _ _ _ _ _ P d k H) as (_ & _ & root & r0 & [<-|[]] & Hl & He & _).
        assert (r0 = c).
        { inversion Hl as [? E0|? d0 ? Hd0 _]; subst; [reflexivity|].
          rewrite (proj2 (ok_active m OK c Hc)) in Hd0. contradiction. }
        subst r0.
        destruct (p_roots _ _ _ _ _ _ _ P c c (or_introl eq_refl) LC He) as [kc Hkc].
        destruct (OLD c kc Hkc) as [HO|HO]; [|exists kc; exact HO].
        (* if [c] was labelled before, nothing new is reached *)
        exfalso. destruct fuel as [|fuel']; [discriminate|]. cbn [flood] in E.
        rewrite (proj2 (ok_active m OK c Hc)) in E.
        destruct (negb (rank m c =? me)); [injection E as _ _ E; lia|].
        cbn [fst] in E. rewrite HO in E. cbn [obind] in E. injection E as _ _ E. lia. }
      destruct SEED as [kc SEED].
      assert (kc = counter) by (apply (p_new _ _ _ _ _ _ _ P c kc SEED)). subst kc.
      assert (NEWK : forall d, vget ids1 d = Some (Some counter) -> fresh_in ids ids1 d counter).
      { intros d H. destruct (OLD d counter H) as [HO|HO]; [|exact HO].
        apply (l_lab _ _ _ _ INV) in HO. lia. }
      assert (INV' : loop_inv (dn ++ [c]) ids1 (S counter) (maxs ++ [mx1])).
      { constructor.
        - rewrite (p_len _ _ _ _ _ _ _ P). apply (l_len _ _ _ _ INV).
        - intros d k H. destruct (OLD d k H) as [HO|HO].
          + apply (l_lab _ _ _ _ INV) in HO. split; [lia|apply HO].
          + destruct (p_new _ _ _ _ _ _ _ P d k HO) as (-> & He & _). split; [lia|exact He].
        - exact DONE.
        - intros k Hk. destruct (Nat.eq_dec k counter) as [->|Nk].
          + exists c. split; [apply SEED|]. intros d Hd.
            destruct (p_new _ _ _ _ _ _ _ P d counter (NEWK d Hd)) as (_ & _ & root & r0 & [<-|[]] & Hl & _ & Hv).
            inversion Hl as [? E0|? d0 ? Hd0 _]; subst; [exact Hv|].
            rewrite (proj2 (ok_active m OK c Hc)) in Hd0. contradiction.
          + destruct (l_seed _ _ _ _ INV k ltac:(lia)) as (s & Hs & Hd). exists s.
            split; [apply (p_old _ _ _ _ _ _ _ P), Hs|]. intros d H. apply Hd.
            destruct (OLD d k H) as [HO|HO]; [exact HO|]. apply (p_new _ _ _ _ _ _ _ P) in HO. destruct HO. lia.
        - intros d e k H HV. destruct (OLD d k H) as [HO|HO].
          + destruct (l_closed _ _ _ _ INV d e k HO HV) as (k' & Hk' & Hle). exists k'.
            split; [apply (p_old _ _ _ _ _ _ _ P), Hk'|exact Hle].
          + destruct (p_closed _ _ _ _ _ _ _ P d e k HO HV) as [k' Hk']. exists k'. split; [exact Hk'|].
            destruct (p_new _ _ _ _ _ _ _ P d k HO) as (-> & _ & _).
            destruct (OLD e k' Hk') as [HO'|HO'].
            * apply (l_lab _ _ _ _ INV) in HO'. lia.
            * destruct (p_new _ _ _ _ _ _ _ P e k' HO') as (-> & _ & _). lia.
        - rewrite app_length, (l_maxs _ _ _ _ INV). simpl. lia.
        - intros k Hk. rewrite vget_app, (l_maxs _ _ _ _ INV).
          destruct (Nat.ltb_spec k counter) as [Lk|Lk].
          + destruct (l_max _ _ _ _ INV k Lk) as (q & Eq & Hq & d & Hd & Hm). exists q. split; [exact Eq|]. split.
            * intros d' H'. apply Hq. destruct (OLD d' k H') as [HO|HO]; [exact HO|].
              apply (p_new _ _ _ _ _ _ _ P) in HO. destruct HO. lia.
            * exists d. split; [apply (p_old _ _ _ _ _ _ _ P), Hd|exact Hm].
          + assert (k = counter) by lia. subst k. rewrite Nat.sub_diag. cbn [vget nth_error].
            destruct (p_attained _ _ _ _ _ _ _ P) as [E0|(d & k & Hd & E0)].
            * destruct (p_upper _ _ _ _ _ _ _ P c counter SEED) as (q & Eq & _). congruence.
            * exists (cell_max m d). split; [congruence|]. split.
              -- intros d' H'. destruct (p_upper _ _ _ _ _ _ _ P d' counter (NEWK d' H')) as (q & Eq & Hq).
                 assert (q = cell_max m d) by congruence. subst q. exact Hq.
              -- exists d. destruct (p_new _ _ _ _ _ _ _ P d k Hd) as (-> & _ & _). split; [apply Hd|reflexivity]. }
      destruct (IH (dn ++ [c]) ids1 (S counter) (maxs ++ [mx1]) HF
                  (fun x Hx => HA x (or_intror Hx)) INV') as (ids' & counter' & maxs' & E' & INV'').
      exists ids', counter', maxs'. split; [exact E'|exact INV''].
    + (* nothing new *)
      assert (n = 0) by lia. subst n.
      assert (SAME : ids1 = ids /\ mx1 = None).
      { assert (NF : forall d k, ~ fresh_in ids ids1 d k).
        { pose proof (p_count _ _ _ _ _ _ _ P) as Cn. pose proof (p_len _ _ _ _ _ _ _ P) as Ln.
          pose proof (p_old _ _ _ _ _ _ _ P) as Po. clear -Cn Ln Po. rewrite Nat.add_0_r in Cn. unfold unl in Cn.
          revert ids1 Cn Ln Po.
          assert (LE : forall ids ids1, length ids1 = length ids ->
            (forall d k, vget ids d = Some (Some k) -> vget ids1 d = Some (Some k)) -> unl ids1 <= unl ids).
          { unfold unl. induction ids0 as [|x ids0 IH0]; intros ids1 Ln Po; destruct ids1 as [|y ids1]; try discriminate; [simpl; lia|].
            cbn [length] in Ln. specialize (IH0 ids1 ltac:(lia) (fun d k => Po (S d) k)).
            cbn [filter]. destruct x as [x|].
            - specialize (Po 0 x eq_refl). cbn in Po. injection Po as ->. exact IH0.
            - destruct y; cbn [length]; lia. }
          induction ids as [|x ids IH]; intros ids1 Cn Ln Po d k [A B]; [destruct d; discriminate|].
          destruct ids1 as [|y ids1]; [discriminate|]. cbn [length] in Ln. cbn [filter] in Cn.
          assert (Po' : forall d k, vget ids d = Some (Some k) -> vget ids1 d = Some (Some k)) by (intros d0 k0; apply (Po (S d0) k0)).
          pose proof (LE ids ids1 ltac:(lia) Po') as LE'. unfold unl in LE'.
          destruct d as [|d].
          - cbn in A, B. injection A as ->. injection B as ->. cbn [length] in Cn. lia.
          - cbn in A, B. apply (IH ids1) with (d := d) (k := k); [|lia|exact Po'|split; assumption].
            destruct x as [x|].
            + specialize (Po 0 x eq_refl). cbn in Po. injection Po as ->. exact Cn.
            + destruct y; cbn [length] in Cn; lia. }
        split.
        - apply list_ext. intro d.
          destruct (vget ids d) as [[k|]|] eqn:Ed.
          + apply (p_old _ _ _ _ _ _ _ P), Ed.
          + pose proof (vget_lt _ _ _ _ Ed) as Hl. rewrite <- (p_len _ _ _ _ _ _ _ P) in Hl.
            destruct (vget_some _ ids1 d Hl) as [[k|] Ek]; [|exact Ek]. exfalso. apply (NF d k). split; assumption.
          + apply vget_none. rewrite (p_len _ _ _ _ _ _ _ P). apply nth_error_None. exact Ed.
        - destruct (p_attained _ _ _ _ _ _ _ P) as [E0|(d & k & Hd & _)]; [exact E0|]. exfalso. apply (NF d k Hd). }
      destruct SAME as [-> ->].
      assert (INV' : loop_inv (dn ++ [c]) ids counter maxs) by (destruct INV; constructor; auto).
      destruct (IH (dn ++ [c]) ids counter maxs HF (fun x Hx => HA x (or_intror Hx)) INV') as (ids' & counter' & maxs' & E' & INV'').
      exists ids', counter', maxs'. split; [exact E'|exact INV''].
Qed.

End Height.

(** ** The labels of one rank *)
Record labels (ids : list (option nat)) (counter : nat) (maxs : list (option Q)) : Prop := {
  b_len : length ids = n_cells m;
  b_lab : forall d k, vget ids d = Some (Some k) -> k < counter /\ elig d;
  b_all : forall d, elig d -> exists k, vget ids d = Some (Some k);
  b_seed : forall k, k < counter -> exists c, vget ids c = Some (Some k) /\
    forall d, vget ids d = Some (Some k) -> Vs c d;
  b_touch : forall c d, touching_on m thr me c d -> vget ids c = vget ids d;
  b_maxs : length maxs = counter;
  b_max : forall k, k < counter -> exists q, vget maxs k = Some (Some q) /\
    (forall d, vget ids d = Some (Some k) -> (cell_max m d <= q)%Q) /\
    exists d, vget ids d = Some (Some k) /\ q = cell_max m d }.

Lemma face_visits : forall c d, In c (active m) -> In d (face_cells m c) ->
  exists n, In n (neighbors m c) /\ leaf m n d.
Proof.
  intros c d Ha H. unfold face_cells in H. apply in_flat_map in H. destruct H as (n & Hn & Hd). exists n.
  split; [exact Hn|]. destruct (children m n) as [|x xs] eqn:E.
  - destruct Hd as [<-|[]]. apply leaf_self, E.
  - apply (ok_subface m OK c n d Ha Hn); [congruence|exact Hd].
Qed.

Lemma detect_local_height : forall D h, (forall c, h c <= D) ->
  (forall c d, In d (children m c) -> h d < h c) -> forall fuel, n_cells m * S D + D < fuel ->
  exists ids counter maxs, detect_local fuel m me thr = Some (ids, counter, maxs) /\ labels ids counter maxs.
Proof.
  intros D h HD HC fuel HF.
  destruct (detect_loop_ok D h HD HC fuel (active m) [] (repeat None (n_cells m)) 0 [] HF
              (fun c Hc => Hc) loop_start) as (ids & counter & maxs & E & INV).
  exists ids, counter, maxs. split; [exact E|]. cbn [app] in INV. destruct INV as [L1 L2 L3 L4 L5 L6 L7].
  constructor; auto.
  - intros d He. apply L3; [apply He|exact He].
  - intros c d ((Hc & Hd & Hf) & Rc & Rd).
    assert (Ec : elig c) by (split; assumption). assert (Ed : elig d) by (split; assumption).
    destruct (L3 c ltac:(apply Hc) Ec) as [kc Kc]. destruct (L3 d ltac:(apply Hd) Ed) as [kd Kd].
    assert (Vcd : V c d).
    { split; [exact Ec|]. split; [exact Ed|]. apply face_visits; [apply Hc|exact Hf]. }
    assert (Vdc : V d c).
    { split; [exact Ed|]. split; [exact Ec|]. apply face_visits; [apply Hd|].
      apply (ok_symmetric m OK); [apply Hc|exact Hf]. }
    destruct (L5 c d kc Kc Vcd) as (k1 & K1 & Hle1). destruct (L5 d c kd Kd Vdc) as (k2 & K2 & Hle2).
    rewrite Kc, Kd. f_equal. f_equal. assert (k1 = kd) by congruence. assert (k2 = kc) by congruence. lia.
Qed.

End Rank.

Lemma detect_local_ok : forall m thr, mesh_ok m -> exists fuel0, forall me fuel, fuel0 <= fuel ->
  exists ids counter maxs, detect_local fuel m me thr = Some (ids, counter, maxs) /\ labels m me thr ids counter maxs.
Proof.
  intros m thr OK. destruct (ok_height m OK) as (D & h & HD & HC). exists (S (n_cells m * S D + D)).
  intros me fuel HF. apply (detect_local_height m me thr OK D h HD HC). lia.
Qed.

(** ** Offsets *)
Lemma owner_offset : forall sizes r k n, vget sizes r = Some n -> k < n ->
  owner sizes (list_sum (firstn r sizes) + k) = r.
Proof.
  induction sizes as [|s sizes IH]; intros r k n H Hk; [destruct r; discriminate|].
  destruct r as [|r].
  - cbn in H. injection H as ->. cbn [firstn list_sum fold_right owner Nat.add].
    change (list_sum []) with 0. cbn [Nat.add]. destruct (Nat.ltb_spec k n); [reflexivity|lia].
  - cbn in H. cbn [firstn owner]. change (list_sum (s :: firstn r sizes)) with (s + list_sum (firstn r sizes)).
    destruct (Nat.ltb_spec (s + list_sum (firstn r sizes) + k) s); [lia|]. f_equal.
    replace (s + list_sum (firstn r sizes) + k - s) with (list_sum (firstn r sizes) + k) by lia.
    apply (IH r k n); assumption.
Qed.

Lemma offset_total : forall sizes r k n, vget sizes r = Some n -> k < n ->
  list_sum (firstn r sizes) + k < list_sum sizes.
Proof.
  induction sizes as [|s sizes IH]; intros r k n H Hk; [destruct r; discriminate|].
  change (list_sum (s :: sizes)) with (s + list_sum sizes).
  destruct r as [|r].
  - cbn in H. injection H as ->. change (list_sum (firstn 0 (n :: sizes))) with 0. lia.
  - cbn in H. cbn [firstn]. change (list_sum (s :: firstn r sizes)) with (s + list_sum (firstn r sizes)).
    specialize (IH r k n H Hk). lia.
Qed.

Lemma offset_split : forall sizes p, p < list_sum sizes ->
  exists r k n, vget sizes r = Some n /\ k < n /\ p = list_sum (firstn r sizes) + k.
Proof.
  induction sizes as [|s sizes IH]; intros p H; [cbn in H; lia|].
  change (list_sum (s :: sizes)) with (s + list_sum sizes) in H.
  destruct (Nat.ltb_spec p s) as [Hl|Hl].
  - exists 0, p, s. split; [reflexivity|]. split; [exact Hl|]. reflexivity.
  - destruct (IH (p - s)) as (r & k & n & H1 & H2 & H3); [lia|]. exists (S r), k, n.
    split; [exact H1|]. split; [exact H2|]. cbn [firstn].
    change (list_sum (s :: firstn r sizes)) with (s + list_sum (firstn r sizes)). lia.
Qed.

Lemma concat_get : forall (A : Type) (ls : list (list A)) r k l, vget ls r = Some l -> k < length l ->
  vget (concat ls) (list_sum (firstn r (map (@length A) ls)) + k) = vget l k.
Proof.
  intros A. induction ls as [|x ls IH]; intros r k l H Hk; [destruct r; discriminate|].
  cbn [concat map]. destruct r as [|r].
  - cbn in H. injection H as ->. change (list_sum (firstn 0 (length l :: map (@length A) ls))) with 0.
    cbn [Nat.add]. rewrite vget_app. destruct (Nat.ltb_spec k (length l)); [reflexivity|lia].
  - cbn in H. cbn [firstn].
    change (list_sum (length x :: firstn r (map (@length A) ls))) with (length x + list_sum (firstn r (map (@length A) ls))).
    rewrite vget_app. destruct (Nat.ltb_spec (length x + list_sum (firstn r (map (@length A) ls)) + k) (length x)); [lia|].
    replace (length x + list_sum (firstn r (map (@length A) ls)) + k - length x)
      with (list_sum (firstn r (map (@length A) ls)) + k) by lia.
    apply (IH r k l H Hk).
Qed.

(** ** Contacts of one rank *)
Section Contacts.
Variable m : mesh.
Variable res : list (list (option nat) * nat).
Variables me n_local : nat.
Hypothesis RANGE : forall c p, rank m c = me -> particle_id m res c = Some p ->
  exists l, p = offset res me + l /\ l < n_local.

Definition contact_of (pairs : list (nat * nat)) (l : nat) (x : contact) : Prop :=
  exists ghost loc, In (ghost, loc) pairs /\ rank m loc = me /\
    particle_id m res loc = Some (offset res me + l) /\
    exists g, particle_id m res ghost = Some g /\ x = (rank m ghost, g).

Definition conn_inv (pairs : list (nat * nat)) (conn : option (list (list contact))) : Prop :=
  exists c, conn = Some c /\ length c = n_local /\
    forall l k, vget c l = Some k -> sorted k /\ forall x, In x k <-> contact_of pairs l x.

Lemma contact_snoc : forall pairs ghost loc l x,
  contact_of (pairs ++ [(ghost, loc)]) l x <->
  contact_of pairs l x \/ (rank m loc = me /\ particle_id m res loc = Some (offset res me + l) /\
    exists g, particle_id m res ghost = Some g /\ x = (rank m ghost, g)).
Proof.
  intros. unfold contact_of. split.
  - intros (gh & lo & Hin & R & P & G). apply in_app_iff in Hin. destruct Hin as [Hin|[E|[]]].
    + left. exists gh, lo. auto.
    + injection E as <- <-. right. auto.
  - intros [(gh & lo & Hin & R & P & G)|(R & P & G)].
    + exists gh, lo. split; [apply in_app_iff; auto|auto].
    + exists ghost, loc. split; [apply in_app_iff; right; left; reflexivity|auto].
Qed.

Lemma add_contact_ok : forall pairs ghost loc conn, conn_inv pairs conn ->
  conn_inv (pairs ++ [(ghost, loc)]) (add_contact m res me ghost conn loc).
Proof.
  intros pairs ghost loc conn (c & -> & HL & HC). unfold add_contact. cbn [obind].
  destruct (Nat.eqb_spec (rank m loc) me) as [Er|Er]; cbn [negb].
  2:{ exists c. split; [reflexivity|]. split; [exact HL|]. intros l k Hk. destruct (HC l k Hk) as [HS HI].
      split; [exact HS|]. intro x. rewrite HI, contact_snoc. tauto. }
  destruct (particle_id m res ghost) as [g|] eqn:Eg.
  2:{ exists c. split; [reflexivity|]. split; [exact HL|]. intros l k Hk. destruct (HC l k Hk) as [HS HI].
      split; [exact HS|]. intro x. rewrite HI, contact_snoc. split; [auto|].
      intros [H|(_ & _ & g & H & _)]; [exact H|congruence]. }
  destruct (particle_id m res loc) as [lid|] eqn:El.
  2:{ exists c. split; [reflexivity|]. split; [exact HL|]. intros l k Hk. destruct (HC l k Hk) as [HS HI].
      split; [exact HS|]. intro x. rewrite HI, contact_snoc. split; [auto|].
      intros [H|(_ & H & _)]; [exact H|congruence]. }
  destruct (RANGE loc lid Er El) as (l0 & -> & Hl0).
  replace (offset res me + l0 - offset res me) with l0 by lia.
  destruct (vget_some _ c l0 ltac:(lia)) as [temp Et]. rewrite Et. cbn [obind].
  destruct (vset_some _ c l0 (sort_unique (temp ++ [(rank m ghost, g)])) ltac:(lia)) as [c' Ec]. rewrite Ec.
  exists c'. split; [reflexivity|]. split; [rewrite (vset_length _ _ _ _ _ Ec); exact HL|].
  intros l k Hk. rewrite (vset_get _ _ _ _ _ _ Ec) in Hk.
  destruct (Nat.eqb_spec l l0) as [->|Hn].
  - injection Hk as <-. split; [apply sort_unique_sorted|]. intro x.
    rewrite sort_unique_in, in_app_iff, contact_snoc. rewrite (proj2 (HC l0 temp Et) x). simpl. split.
    + intros [H|[<-|[]]]; [auto|]. right. split; [exact Er|]. split; [exact El|]. exists g. auto.
    + intros [H|(_ & _ & g' & E1 & E2)]; [auto|]. right. left. congruence.
  - destruct (HC l k Hk) as [HS HI]. split; [exact HS|]. intro x. rewrite HI, contact_snoc. split; [auto|].
    intros [H|(_ & H & _)]; [exact H|]. rewrite El in H. injection H as H. lia.
Qed.

Lemma fold_contacts : forall cells pairs ghost conn, conn_inv pairs conn ->
  conn_inv (pairs ++ map (fun l => (ghost, l)) cells) (fold_left (add_contact m res me ghost) cells conn).
Proof.
  induction cells as [|x cells IH]; intros pairs ghost conn H; cbn [fold_left map].
  - rewrite app_nil_r. exact H.
  - replace (pairs ++ (ghost, x) :: map (fun l => (ghost, l)) cells)
      with ((pairs ++ [(ghost, x)]) ++ map (fun l => (ghost, l)) cells) by (rewrite <- app_assoc; reflexivity).
    apply IH. apply add_contact_ok. exact H.
Qed.

Lemma local_connectivity_ok : exists c, local_connectivity m res me n_local = Some c /\ length c = n_local /\
  forall l k, vget c l = Some k -> sorted k /\
    forall x, In x k <-> exists ghost loc g, In ghost (active m) /\ rank m ghost <> me /\ In loc (face_cells m ghost) /\
      rank m loc = me /\ particle_id m res loc = Some (offset res me + l) /\
      particle_id m res ghost = Some g /\ x = (rank m ghost, g).
Proof.
  assert (H : forall cells pairs conn, conn_inv pairs conn -> exists pairs',
    conn_inv pairs' (fold_left (fun conn ghost => if rank m ghost =? me then conn
       else fold_left (add_contact m res me ghost) (face_cells m ghost) conn) cells conn) /\
    forall gh lo, In (gh, lo) pairs' <-> In (gh, lo) pairs \/ (In gh cells /\ rank m gh <> me /\ In lo (face_cells m gh))).
  { induction cells as [|gh cells IH]; intros pairs conn HI; cbn [fold_left].
    - exists pairs. split; [exact HI|]. intros. split; [auto|]. intros [H|[[] _]]. exact H.
    - destruct (Nat.eqb_spec (rank m gh) me) as [Er|Er].
      + destruct (IH pairs conn HI) as (pairs' & H1 & H2). exists pairs'. split; [exact H1|].
        intros g l. rewrite H2. split.
        * intros [H|(A & B & C)]; [auto|]. right. split; [right; exact A|auto].
        * intros [H|([<-|A] & B & C)]; [auto|contradiction|]. auto.
      + destruct (IH (pairs ++ map (fun l => (gh, l)) (face_cells m gh)) (fold_left (add_contact m res me gh) (face_cells m gh) conn)) as (pairs' & H1 & H2).
        { apply fold_contacts. exact HI. }
        exists pairs'. split; [exact H1|]. intros g l. rewrite H2, in_app_iff, in_map_iff. split.
        * intros [[H|(y & E & Hy)]|(A & B & C)]; [auto| |].
          -- injection E as <- <-. right. split; [left; reflexivity|auto].
          -- right. split; [right; exact A|auto].
        * intros [H|([<-|A] & B & C)]; [auto| |].
          -- left. right. exists l. auto.
          -- right. auto. }
  destruct (H (active m) [] (Some (repeat [] n_local))) as (pairs' & (c & E & HL & HC) & HP).
  { exists (repeat [] n_local). split; [reflexivity|]. split; [apply repeat_length|].
    intros l k Hk. rewrite vget_repeat in Hk. destruct (l <? n_local); [|discriminate]. injection Hk as <-.
    split; [constructor|]. intro x. split; [contradiction|]. intros (gh & lo & [] & _). }
  exists c. split; [exact E|]. split; [exact HL|]. intros l k Hk. destruct (HC l k Hk) as [HS HI].
  split; [exact HS|]. intro x. rewrite HI. unfold contact_of. split.
  - intros (gh & lo & Hin & R & P & g & G & X). apply HP in Hin. destruct Hin as [[]|(A & B & C)].
    exists gh, lo, g. auto 10.
  - intros (gh & lo & g & A & B & C & R & P & G & X). exists gh, lo. split; [apply HP; right; auto|].
    split; [exact R|]. split; [exact P|]. exists g. auto.
Qed.

End Contacts.
