(** Proofs about the growth of the wavefronts. *)
From Coq Require Import List QArith Arith Bool Lia ZArith.
From Verif Require Import Util FloodModel FloodSpec FloodProofs WavefrontModel NeighborProps WavefrontProofs.
Import ListNotations.
Local Open Scope nat_scope.

(** ** Ways through the cells *)
(** Each cell shares a face with the next one. *)
Fixpoint walk (m : mesh) (l : list nat) : Prop :=
  match l with
  | a :: ((b :: _) as r) => In b (face_cells m a) /\ walk m r
  | _ => True
  end.

(** A way from a cell of particle [p] through cells without particle to a cell
    of particle [q]. *)
Definition passage (m : mesh) (pid : nat -> option nat) (p q : nat) (l : list nat) : Prop :=
  exists a v b, l = a :: v ++ [b] /\ pid a = Some p /\ pid b = Some q /\
    (forall c, In c v -> pid c = None) /\ (forall c, In c l -> In c (active m)) /\ walk m l.

Section Waves.
Variable m : mesh.
Variable level : nat -> nat.
Variable max_level : nat.
Variable pid : nat -> option nat.
Hypothesis WM : wave_mesh m.
(** Touching cells with particles belong to the same particle. *)
Hypothesis SEP : forall c n p q, In c (active m) -> In n (face_cells m c) -> pid c = Some p -> pid n = Some q -> p = q.

Notation wgt := (weight level max_level).
Notation idx := (idx level max_level).
Notation fields := (list (option nat) * list Z)%type.

(** Sum of the weights of the cells. *)
Definition sumw (l : list nat) : Z := fold_right (fun c s => (wgt c + s)%Z) 0%Z l.

Lemma sumw_app : forall a b, sumw (a ++ b) = (sumw a + sumw b)%Z.
Proof. induction a as [|x a IH]; intro b; cbn [app sumw fold_right]; [reflexivity|]. fold (sumw (a ++ b)) (sumw a). rewrite IH. lia. Qed.

Lemma sumw_rev : forall a, sumw (rev a) = sumw a.
Proof. induction a as [|x a IH]; [reflexivity|]. cbn [rev]. rewrite sumw_app, IH. cbn [sumw fold_right]. fold (sumw a). lia. Qed.

Lemma sumw_cons : forall c l, sumw (c :: l) = (wgt c + sumw l)%Z. Proof. reflexivity. Qed.

(** The way back from a cell to the particle. *)
Inductive trail (p : nat) : list nat -> Prop :=
| trail_cell : forall c, In c (active m) -> pid c = Some p -> trail p [c]
| trail_step : forall c n l, trail p (c :: l) -> In n (face_cells m c) -> pid n = None -> trail p (n :: c :: l).

Lemma trail_active : forall p l c, trail p l -> In c l -> In c (active m).
Proof.
  intros p l c T. revert c. induction T as [x Hx _|x n l T IH Hn _]; intros c Hc.
  - destruct Hc as [<-|[]]. exact Hx.
  - destruct Hc as [<-|Hc]; [|apply IH, Hc]. apply (face_active m WM x n); [apply IH; left; reflexivity|exact Hn].
Qed.

Lemma trail_shape : forall p l, trail p l -> exists v b, l = v ++ [b] /\ pid b = Some p /\
  (forall c, In c v -> pid c = None) /\ walk m l.
Proof.
  intros p l T. induction T as [x Hx Hp|x n l T IH Hn Hv].
  - exists [], x. repeat split; [exact Hp|]. intros c [].
  - destruct IH as (v & b & E & Hb & HV & HW). exists (n :: v), b. split; [cbn [app]; rewrite <- E; reflexivity|].
    split; [exact Hb|]. split; [intros c [<-|Hc]; [exact Hv|apply HV, Hc]|].
    split; [|exact HW]. apply (face_sym m WM); [|exact Hn]. apply (trail_active p (x :: l)); [exact T|left; reflexivity].
Qed.

Lemma walk_app : forall l c n r, walk m (l ++ [c]) -> walk m (n :: r) -> In n (face_cells m c) -> walk m (l ++ c :: n :: r).
Proof.
  induction l as [|x l IH]; intros c n r H1 H2 H3; [cbn [app]; split; assumption|].
  destruct l as [|y l]; cbn [app] in *.
  - destruct H1 as [H1 _]. split; [exact H1|]. split; assumption.
  - destruct H1 as [H1 H1']. split; [exact H1|]. apply (IH c n r H1' H2 H3).
Qed.

Lemma walk_rev : forall l, (forall c, In c l -> In c (active m)) -> walk m l -> walk m (rev l).
Proof.
  induction l as [|x l IH]; intros HA HW; [exact I|]. destruct l as [|y l]; [exact I|].
  destruct HW as [H1 H2]. cbn [rev]. rewrite <- app_assoc. cbn [app]. apply walk_app; [|exact I|].
  - apply IH; [intros c Hc; apply HA; right; exact Hc|exact H2].
  - apply (face_sym m WM); [apply HA; left; reflexivity|exact H1].
Qed.

(** Two trails that meet form a passage. *)
Lemma trails_meet : forall p q c n l1 l2, trail p (c :: l1) -> trail q (n :: l2) -> In n (face_cells m c) ->
  exists l, passage m pid p q l /\ sumw l = (sumw (c :: l1) + sumw (n :: l2))%Z.
Proof.
  intros p q c n l1 l2 T1 T2 H. exists (rev (c :: l1) ++ n :: l2). split.
  - destruct (trail_shape p (c :: l1) T1) as (v1 & a & E1 & Ha & HV1 & HW1).
    destruct (trail_shape q (n :: l2) T2) as (v2 & b & E2 & Hb & HV2 & HW2).
    exists a, (rev v1 ++ v2), b. split.
    { rewrite E1, E2, rev_app_distr. cbn [rev app]. rewrite app_assoc. reflexivity. }
    split; [exact Ha|]. split; [exact Hb|]. split.
    { intros x Hx. apply in_app_iff in Hx as [Hx|Hx]; [apply in_rev in Hx; apply HV1, Hx|apply HV2, Hx]. }
    split.
    { intros x Hx. apply in_app_iff in Hx as [Hx|Hx].
      - apply in_rev in Hx. apply (trail_active p (c :: l1) x T1 Hx).
      - apply (trail_active q (n :: l2) x T2 Hx). }
    cbn [rev]. rewrite <- app_assoc. cbn [app]. apply walk_app; [|exact HW2|exact H].
    change (walk m (rev (c :: l1))). apply walk_rev; [|exact HW1]. intros x Hx. apply (trail_active p (c :: l1) x T1 Hx).
  - rewrite sumw_app, sumw_rev. reflexivity.
Qed.

Lemma passage_sym : forall p q l, passage m pid p q l -> exists l', passage m pid q p l' /\ sumw l' = sumw l.
Proof.
  intros p q l (a & v & b & E & Ha & Hb & HV & HA & HW). exists (rev l). split; [|apply sumw_rev].
  exists b, (rev v), a. split; [rewrite E; cbn [rev]; rewrite rev_app_distr; reflexivity|].
  split; [exact Hb|]. split; [exact Ha|]. split; [intros c Hc; apply in_rev in Hc; apply HV, Hc|].
  split; [intros c Hc; apply in_rev in Hc; apply HA, Hc|]. apply walk_rev; assumption.
Qed.

(** ** Marked cells *)
Definition exposed (c : nat) : Prop := exists n, In n (face_cells m c) /\ pid n = None.
Definition live (c : nat) : Prop := pid c = None \/ exposed c.

Definition marked (f : fields) (c p : nat) (d : Z) : Prop := vget (fst f) c = Some (Some p) /\ vget (snd f) c = Some d.

Record good (f : fields) : Prop := {
  g_mlen : length (fst f) = n_cells m;
  g_dlen : length (snd f) = n_cells m;
  g_mark : forall c p d, marked f c p d -> In c (active m) /\ (pid c = Some p \/ pid c = None);
  g_trail : forall c p d, marked f c p d -> live c -> exists l, trail p (c :: l) /\ d = (sumw (c :: l) - 1)%Z;
  g_free : forall c, In c (active m) -> vget (fst f) c = Some None -> pid c = None }.

Definition extends (f f' : fields) : Prop := forall c p d, marked f c p d -> marked f' c p d.

Lemma extends_refl : forall f, extends f f. Proof. intros f c p d H. exact H. Qed.
Lemma extends_trans : forall a b c, extends a b -> extends b c -> extends a c.
Proof. intros a b c H1 H2 x p d H. apply H2, H1, H. Qed.

(** A cell without marker is coloured. *)
Lemma colour_ok : forall f n p l, good f -> trail p (n :: l) -> pid n = None -> vget (fst f) n = Some None ->
  exists mark dist, vset (snd f) n (sumw (n :: l) - 1)%Z = Some dist /\ vset (fst f) n (Some p) = Some mark /\
    good (mark, dist) /\ extends f (mark, dist) /\ marked (mark, dist) n p (sumw (n :: l) - 1)%Z /\
    unl (fst f) = S (unl mark) /\
    (forall c q d, marked (mark, dist) c q d -> marked f c q d \/ (c = n /\ q = p /\ d = (sumw (n :: l) - 1)%Z)).
Proof.
  intros f n p l G T Hv Hn. pose proof (vget_lt _ _ _ _ Hn) as Hlt.
  assert (HA : In n (active m)) by (apply (trail_active p (n :: l) n T); left; reflexivity).
  destruct (vset_some _ (fst f) n (Some p) Hlt) as [mark Em].
  destruct (vset_some _ (snd f) n (sumw (n :: l) - 1)%Z) as [dist Ed]; [rewrite (g_dlen f G), <- (g_mlen f G); exact Hlt|].
  exists mark, dist. split; [exact Ed|]. split; [exact Em|].
  assert (B : forall c q d, marked (mark, dist) c q d -> marked f c q d \/ (c = n /\ q = p /\ d = (sumw (n :: l) - 1)%Z)).
  { intros c q d [H1 H2]. cbn [fst snd] in *. rewrite (vset_get _ _ _ _ _ c Em) in H1. rewrite (vset_get _ _ _ _ _ c Ed) in H2.
    destruct (Nat.eqb_spec c n) as [->|]; [|left; split; assumption]. right. repeat split; congruence. }
  split; [split; cbn [fst snd]|split; [|split; [|split]]].
  - rewrite (vset_length _ _ _ _ _ Em). apply (g_mlen f G).
  - rewrite (vset_length _ _ _ _ _ Ed). apply (g_dlen f G).
  - intros c q d H. apply B in H as [H|(-> & -> & ->)]; [apply (g_mark f G c q d H)|auto].
  - intros c q d H HL. apply B in H as [H|(-> & -> & ->)]; [apply (g_trail f G c q d H HL)|eauto].
  - intros c Hc H. rewrite (vset_get _ _ _ _ _ c Em) in H. destruct (Nat.eqb_spec c n); [discriminate|]. apply (g_free f G c Hc H).
  - intros c q d [H1 H2]. split; cbn [fst snd].
    + rewrite (vset_get _ _ _ _ _ c Em). destruct (Nat.eqb_spec c n) as [->|]; [congruence|exact H1].
    + rewrite (vset_get _ _ _ _ _ c Ed). destruct (Nat.eqb_spec c n) as [->|]; [congruence|exact H2].
  - split; cbn [fst snd]; [rewrite (vset_get _ _ _ _ _ n Em)|rewrite (vset_get _ _ _ _ _ n Ed)]; rewrite Nat.eqb_refl; reflexivity.
  - eapply unl_vset; eassumption.
  - exact B.
Qed.

Lemma marked_dist : forall f c p, good f -> vget (fst f) c = Some (Some p) -> exists d, marked f c p d.
Proof.
  intros f c p G H. pose proof (vget_lt _ _ _ _ H) as L. rewrite (g_mlen f G), <- (g_dlen f G) in L.
  apply vget_some in L as [d Hd]. exists d. split; assumption.
Qed.

(** ** Recorded distances *)
Lemma assessed_assess : forall k d l k', assessed k' (assess k d l) =
  if peqb k k' then Some (match assessed k l with Some e => Z.min e d | None => d end) else assessed k' l.
Proof.
  intros k d. induction l as [|[j e] l IH]; intro k'; cbn [assess assessed].
  - reflexivity.
  - destruct (peqb j k) eqn:E; cbn [assessed].
    + apply peqb_spec in E. subst j. destruct (peqb k k'); reflexivity.
    + rewrite IH. destruct (peqb j k') eqn:E'; [|reflexivity]. apply peqb_spec in E'. subst j.
      destruct (peqb k k') eqn:E''; [|reflexivity]. apply peqb_spec in E''. subst. rewrite peqb_refl in E. discriminate.
Qed.

Lemma assess_in : forall k d l k' v, In (k', v) (assess k d l) -> In (k', v) l \/ (k' = k /\ v = d).
Proof.
  intros k d. induction l as [|[j e] l IH]; intros k' v; cbn [assess].
  - intros [E|[]]. inversion E. auto.
  - destruct (peqb j k) eqn:E; cbn [In].
    + apply peqb_spec in E. subst j. intros [H|H]; [|auto]. inversion H; subst.
      destruct (Z.min_spec e d) as [[_ ->]|[_ ->]]; auto.
    + intros [H|H]; [auto|]. apply IH in H as [H|H]; auto.
Qed.

Lemma assessed_in : forall k l v, assessed k l = Some v -> In (k, v) l.
Proof.
  intros k. induction l as [|[j e] l IH]; intros v; cbn [assessed]; [discriminate|]. destruct (peqb j k) eqn:E.
  - apply peqb_spec in E. subst. intro H. inversion H. left. reflexivity.
  - intro H. right. apply IH, H.
Qed.

Definition recorded (l : list (nat * nat * Z)) : Prop := forall k v, In (k, v) l ->
  exists p q w, k = (p, q) /\ p < q /\ passage m pid p q w /\ v = (sumw w - 2)%Z.

(** ** One rank *)
Record rank_ok (f : fields) (me : nat) (r : rank_state) : Prop := {
  k_len : length (r_agg r) = S max_level;
  k_agg : forall k c, inagg (r_agg r) k c -> In c (active m) /\ rank m c = me /\ live c /\ exists p d, marked f c p d;
  k_cache : forall g ls, In (g, ls) (r_cache r) -> In g (active m) /\
    forall l, In l ls -> In l (face_cells m g) /\ pid l = None /\ rank m l = me;
  k_dist : recorded (r_dist r) }.

Lemma rank_ok_extends : forall f f' me r, rank_ok f me r -> extends f f' -> rank_ok f' me r.
Proof.
  intros f f' me r K E. split; try apply K. intros k c H. destruct (k_agg f me r K k c H) as (H1 & H2 & H3 & p & d & H4).
  repeat (split; [assumption|]). exists p, d. apply E, H4.
Qed.

(** What a step of a rank does. *)
Record stepped (me : nat) (s s' : fields * rank_state) : Prop := {
  st_good : good (fst s');
  st_rank : rank_ok (fst s') me (snd s');
  st_ext : extends (fst s) (fst s');
  st_cache : r_cache (snd s') = r_cache (snd s);
  st_unl : unl (fst (fst s')) <= unl (fst (fst s));
  st_same : unl (fst (fst s')) = unl (fst (fst s)) -> r_agg (snd s') = r_agg (snd s);
  st_mine : forall c, rank m c <> me -> vget (fst (fst s')) c = vget (fst (fst s)) c }.

Lemma stepped_refl : forall me s, good (fst s) -> rank_ok (fst s) me (snd s) -> stepped me s s.
Proof. intros me s G K. split; auto. apply extends_refl. Qed.

Lemma stepped_trans : forall me a b c, stepped me a b -> stepped me b c -> stepped me a c.
Proof.
  intros me a b c A B. split; try apply B.
  - eapply extends_trans; [apply A|apply B].
  - rewrite (st_cache _ _ _ B). apply (st_cache _ _ _ A).
  - pose proof (st_unl _ _ _ A). pose proof (st_unl _ _ _ B). lia.
  - intro E. pose proof (st_unl _ _ _ A). pose proof (st_unl _ _ _ B). rewrite (st_same _ _ _ B) by lia. apply (st_same _ _ _ A). lia.
  - intros x Hx. rewrite (st_mine _ _ _ B x Hx). apply (st_mine _ _ _ A x Hx).
Qed.

Lemma each_stepped : forall (A : Type) me (f : A -> fields * rank_state -> option (fields * rank_state)) l,
  (forall s0 a s, In a l -> good (fst s) -> rank_ok (fst s) me (snd s) -> stepped me s0 s ->
     exists s', f a s = Some s' /\ stepped me s s') ->
  forall s, good (fst s) -> rank_ok (fst s) me (snd s) -> exists s', each f l s = Some s' /\ stepped me s s'.
Proof.
  intros A me f. induction l as [|a l IH]; intros H s G K; cbn [each].
  - exists s. split; [reflexivity|]. apply stepped_refl; assumption.
  - destruct (H s a s (or_introl eq_refl) G K (stepped_refl me s G K)) as (s1 & E1 & S1). rewrite E1. cbn [obind].
    destruct (IH (fun s0 a s Ha => H s0 a s (or_intror Ha)) s1 (st_good _ _ _ S1) (st_rank _ _ _ S1)) as (s2 & E2 & S2).
    exists s2. split; [exact E2|]. eapply stepped_trans; eassumption.
Qed.

(** A cell coloured by rank [me]. *)
Lemma colour_stepped : forall me f r n p l, good f -> rank_ok f me r -> trail p (n :: l) -> pid n = None -> rank m n = me ->
  vget (fst f) n = Some None ->
  exists agg mark dist, push level max_level n (r_agg r) = Some agg /\
    vset (snd f) n (sumw (n :: l) - 1)%Z = Some dist /\ vset (fst f) n (Some p) = Some mark /\
    stepped me (f, r) ((mark, dist), mkRank agg (r_cache r) (r_dist r)) /\
    marked (mark, dist) n p (sumw (n :: l) - 1)%Z /\
    (forall c q d, marked (mark, dist) c q d -> marked f c q d \/ (c = n /\ q = p /\ d = (sumw (n :: l) - 1)%Z)) /\
    (forall k x, inagg agg k x <-> inagg (r_agg r) k x \/ (k = idx n /\ x = n)).
Proof.
  intros me f r n p l G K T Hv Hr Hn.
  destruct (push_spec level max_level n (r_agg r) (k_len f me r K)) as (agg & Ea & La & Ha).
  destruct (colour_ok f n p l G T Hv Hn) as (mark & dist & Ed & Em & G' & X & M & U & B).
  exists agg, mark, dist. split; [exact Ea|]. split; [exact Ed|]. split; [exact Em|]. split; [|auto].
  assert (HA : In n (active m)) by (apply (trail_active p (n :: l) n T); left; reflexivity).
  split; cbn [fst snd r_cache r_agg]; auto.
  - split; cbn [r_agg r_cache r_dist]; auto.
    + intros k c H. apply Ha in H as [H|[-> ->]].
      * destruct (k_agg f me r K k c H) as (H1 & H2 & H3 & q & d & H4). repeat (split; [assumption|]). exists q, d. apply X, H4.
      * split; [exact HA|]. split; [exact Hr|]. split; [left; exact Hv|]. eauto.
    + apply (k_cache f me r K).
    + apply (k_dist f me r K).
  - lia.
  - intro E. lia.
  - intros c Hc. rewrite (vset_get _ _ _ _ _ c Em). destruct (Nat.eqb_spec c n) as [->|]; [contradiction|reflexivity].
Qed.

(** The three cases of [handle_cells]. *)
Lemma handle_cases : forall me f r c n p d, good f -> rank_ok f me r -> In c (active m) -> live c -> marked f c p d ->
  In n (face_cells m c) -> rank m n = me ->
  (exists agg mark dist, vget (fst f) n = Some None /\ pid n = None /\
     handle_cells level max_level c n (f, r) = Some ((mark, dist), mkRank agg (r_cache r) (r_dist r)) /\
     stepped me (f, r) ((mark, dist), mkRank agg (r_cache r) (r_dist r)) /\
     marked (mark, dist) n p (d + wgt n)%Z /\
     (forall x q e, marked (mark, dist) x q e -> marked f x q e \/ (x = n /\ q = p /\ e = (d + wgt n)%Z)) /\
     (forall k x, inagg agg k x <-> inagg (r_agg r) k x \/ (k = idx n /\ x = n))) \/
  (exists e, marked f n p e /\ handle_cells level max_level c n (f, r) = Some (f, r)) \/
  (exists q e, p <> q /\ marked f n q e /\ live n /\
     let r' := mkRank (r_agg r) (r_cache r) (assess (Nat.min p q, Nat.max p q) (d + e)%Z (r_dist r)) in
     handle_cells level max_level c n (f, r) = Some (f, r') /\ stepped me (f, r) (f, r')).
Proof.
  intros me f r c n p d G K Hc HL HM Hn Hr. destruct (g_trail f G c p d HM HL) as (l & T & Ed).
  pose proof (face_active m WM c n Hc Hn) as Hna. pose proof (active_lt m WM n Hna) as Hlt.
  destruct (vget_some _ (fst f) n) as [mn Emn]; [rewrite (g_mlen f G); exact Hlt|].
  destruct f as [mark dist] eqn:EF. rewrite <- EF in *. destruct HM as [M1 M2].
  assert (HH : handle_cells level max_level c n (f, r) =
    match mn with
    | None => agg <- push level max_level n (r_agg r) ;; dist <- vset (snd f) n (d + wgt n)%Z ;;
              mark <- vset (fst f) n (Some p) ;; Some ((mark, dist), mkRank agg (r_cache r) (r_dist r))
    | Some q => if p =? q then Some (f, r) else dn <- vget (snd f) n ;;
              Some (f, mkRank (r_agg r) (r_cache r) (assess (Nat.min p q, Nat.max p q) (d + dn)%Z (r_dist r)))
    end).
  { rewrite EF in *. unfold handle_cells. cbn [fst snd] in *. rewrite M1, Emn, M2. cbn [obind]. destruct mn; reflexivity. }
  destruct mn as [q|].
  - destruct (marked_dist f n q G Emn) as [e He]. destruct (Nat.eqb_spec p q) as [<-|N].
    + right. left. exists e. split; [exact He|exact HH].
    + right. right. exists q, e. split; [exact N|]. split; [exact He|].
      assert (LN : live n).
      { destruct (g_mark f G n q e He) as [_ [Hp|Hp]]; [|left; exact Hp]. right. exists c.
        split; [apply (face_sym m WM); assumption|]. destruct (pid c) as [pc|] eqn:Epc; [|reflexivity]. exfalso.
        pose proof (SEP c n pc q Hc Hn Epc Hp). subst pc. destruct (g_mark f G c p d (conj M1 M2)) as [_ [Hq|Hq]]; congruence. }
      split; [exact LN|]. cbv zeta. destruct He as [He1 He2]. rewrite He2 in HH. cbn [obind] in HH. split; [exact HH|].
      split; cbn [fst snd r_cache r_agg]; auto.
      * split; cbn [r_agg r_cache r_dist]; try apply K. intros k v Hkv. apply assess_in in Hkv as [Hkv|[-> ->]]; [apply (k_dist f me r K k v Hkv)|].
        destruct (g_trail f G n q e (conj He1 He2) LN) as (l2 & T2 & E2).
        destruct (trails_meet p q c n l l2 T T2 Hn) as (w & Pw & Sw).
        destruct (Nat.lt_total p q) as [L|[L|L]]; [|contradiction|].
        -- exists p, q, w. rewrite Nat.min_l, Nat.max_r by lia. repeat split; [exact L|exact Pw|lia].
        -- destruct (passage_sym p q w Pw) as (w' & Pw' & Sw'). exists q, p, w'. rewrite Nat.min_r, Nat.max_l by lia.
           repeat split; [exact L|exact Pw'|lia].
      * apply extends_refl.
  - left. pose proof (g_free f G n Hna Emn) as Hv.
    assert (TN : trail p (n :: c :: l)) by (apply trail_step; assumption).
    assert (EQ : (sumw (n :: c :: l) - 1 = d + wgt n)%Z) by (rewrite (sumw_cons n); lia).
    destruct (colour_stepped me f r n p (c :: l) G K TN Hv Hr Emn) as (agg & mark' & dist' & E1 & E2 & E3 & S1 & M' & B & A).
    rewrite EQ in *. exists agg, mark', dist'. split; [exact Emn|]. split; [exact Hv|].
    rewrite E1 in HH. cbn [obind] in HH. rewrite E2 in HH. cbn [obind] in HH. rewrite E3 in HH. cbn [obind] in HH.
    split; [exact HH|]. auto.
Qed.

Lemma handle_stepped : forall me c n s p d, good (fst s) -> rank_ok (fst s) me (snd s) -> In c (active m) -> live c ->
  marked (fst s) c p d -> In n (face_cells m c) -> rank m n = me ->
  exists s', handle_cells level max_level c n s = Some s' /\ stepped me s s'.
Proof.
  intros me c n [f r] p d G K Hc HL HM Hn Hr. cbn [fst snd] in *.
  destruct (handle_cases me f r c n p d G K Hc HL HM Hn Hr) as [(agg & mark & dist & _ & _ & E & S1 & _)|[(e & _ & E)|(q & e & _ & _ & _ & E & S1)]].
  - eauto.
  - exists (f, r). split; [exact E|]. apply stepped_refl; assumption.
  - eauto.
Qed.

Lemma grow_stepped : forall me c s, In c (active m) -> live c -> (exists p d, marked (fst s) c p d) ->
  good (fst s) -> rank_ok (fst s) me (snd s) -> exists s', grow m level max_level me c s = Some s' /\ stepped me s s'.
Proof.
  intros me c s Hc HL (p & d & HM) G K. unfold grow.
  assert (forall l, (forall n, In n l -> In n (face_cells m c)) -> forall s, good (fst s) -> rank_ok (fst s) me (snd s) ->
    marked (fst s) c p d -> exists s', each (fun n s => if rank m n =? me then handle_cells level max_level c n s else Some s) l s = Some s' /\ stepped me s s') as H.
  { clear s HM G K. induction l as [|n l IH]; intros Hl s G K HM; cbn [each].
    - exists s. split; [reflexivity|]. apply stepped_refl; assumption.
    - assert (exists s1, (if rank m n =? me then handle_cells level max_level c n s else Some s) = Some s1 /\ stepped me s s1) as (s1 & E1 & S1).
      { destruct (Nat.eqb_spec (rank m n) me) as [Er|].
        - eapply handle_stepped; try eassumption. apply Hl. left. reflexivity.
        - exists s. split; [reflexivity|]. apply stepped_refl; assumption. }
      rewrite E1. cbn [obind]. destruct (IH (fun n Hn => Hl n (or_intror Hn)) s1 (st_good _ _ _ S1) (st_rank _ _ _ S1) (st_ext _ _ _ S1 _ _ _ HM)) as (s2 & E2 & S2).
      exists s2. split; [exact E2|]. eapply stepped_trans; eassumption. }
  apply H; try assumption. intros n Hn. apply (beyond_faces m WM c n Hc), Hn.
Qed.

(** Cells reached from the ghost cells. *)
Lemma from_ghost_stepped : forall me p dg g l s, good (fst s) -> rank_ok (fst s) me (snd s) ->
  In g (active m) -> In l (face_cells m g) -> pid l = None -> rank m l = me ->
  (exists t, trail p (g :: t) /\ dg = (sumw (g :: t) - 1)%Z) ->
  exists s', from_ghost level max_level p dg l s = Some s' /\ stepped me s s'.
Proof.
  intros me p dg g l [f r] G K Hg Hl Hv Hr (t & T & Ed). cbn [fst snd] in *.
  pose proof (face_active m WM g l Hg Hl) as Hla. pose proof (active_lt m WM l Hla) as Hlt.
  destruct (vget_some _ (fst f) l) as [ml Eml]; [rewrite (g_mlen f G); exact Hlt|]. destruct f as [mark dist] eqn:EF.
  unfold from_ghost. cbn [fst snd] in Eml. rewrite Eml. cbn [obind]. rewrite <- EF in *. destruct ml as [q|].
  - exists (f, r). split; [reflexivity|]. apply stepped_refl; assumption.
  - assert (TN : trail p (l :: g :: t)) by (apply trail_step; assumption).
    assert (EQ : (sumw (l :: g :: t) - 1 = dg + wgt l)%Z) by (rewrite (sumw_cons l); lia).
    assert (Eml' : vget (fst f) l = Some None) by (rewrite EF; exact Eml).
    destruct (colour_stepped me f r l p (g :: t) G K TN Hv Hr Eml') as (agg & mark' & dist' & E1 & E2 & E3 & S1 & M' & B & A).
    rewrite EQ in *. rewrite E1. cbn [obind]. rewrite EF in E2, E3. cbn [fst snd] in E2, E3. rewrite E2. cbn [obind]. rewrite E3. cbn [obind].
    eauto.
Qed.

Lemma cache_stepped : forall me snap cache s, good snap ->
  (forall g ls, In (g, ls) cache -> In g (active m) /\
    forall l, In l ls -> In l (face_cells m g) /\ pid l = None /\ rank m l = me) ->
  good (fst (fst s)) -> rank_ok (fst (fst s)) me (snd (fst s)) ->
  exists s', each (cache_entry level max_level snap) cache s = Some s' /\ stepped me (fst s) (fst s') /\
    forall e, In e (snd s') -> In e (snd s) \/ In e cache.
Proof.
  intros me snap cache. induction cache as [|[g ls] cache IH]; intros s GS HC G K; cbn [each].
  - exists s. split; [reflexivity|]. split; [apply stepped_refl; assumption|auto].
  - destruct (HC g ls (or_introl eq_refl)) as [Hg Hls]. unfold cache_entry at 1. cbn [fst snd].
    destruct (vget_some _ (fst snap) g) as [mg Emg]; [rewrite (g_mlen snap GS); apply (active_lt m WM), Hg|].
    rewrite Emg. cbn [obind]. destruct mg as [p|].
    + destruct (marked_dist snap g p GS Emg) as [dg Hdg]. pose proof Hdg as [_ Hdg2]. rewrite Hdg2. cbn [obind].
      assert (exists t, each (from_ghost level max_level p dg) ls (fst s) = Some t /\ stepped me (fst s) t) as (t & Et & St).
      { destruct ls as [|l0 ls0]; [exists (fst s); split; [reflexivity|apply stepped_refl; assumption]|].
        assert (LG : live g).
        { right. exists l0. destruct (Hls l0 (or_introl eq_refl)) as (H1 & H2 & _). split; assumption. }
        pose proof (g_trail snap GS g p dg Hdg LG) as TR.
        apply each_stepped; try assumption. intros s0 l s1 Hl G1 K1 _. destruct (Hls l Hl) as (H1 & H2 & H3).
        eapply from_ghost_stepped; eassumption. }
      rewrite Et. cbn [obind].
      destruct (IH (t, snd s) GS (fun g ls H => HC g ls (or_intror H)) (st_good _ _ _ St) (st_rank _ _ _ St)) as (s' & E' & S' & C').
      exists s'. split; [exact E'|]. split; [eapply stepped_trans; [exact St|exact S']|]. intros e He. apply C' in He as [He|He]; [auto|right; right; exact He].
    + cbn [obind]. destruct (IH (fst s, snd s ++ [(g, ls)]) GS (fun g ls H => HC g ls (or_intror H)) G K) as (s' & E' & S' & C').
      exists s'. split; [exact E'|]. split; [exact S'|]. intros e He. apply C' in He as [He|He]; [|right; right; exact He].
      cbn [snd] in He. apply in_app_iff in He as [He|[<-|[]]]; [auto|right; left; reflexivity].
Qed.

Lemma inagg_shift : forall front rest k c, inagg (rest ++ [[]]) k c -> inagg (front :: rest) (S k) c.
Proof.
  intros front rest k c (l & Hl & Hc). exists l. split; [|exact Hc]. unfold vget in *. cbn [nth_error].
  destruct (Nat.lt_ge_cases k (length rest)) as [L|L].
  - rewrite nth_error_app1 in Hl by exact L. exact Hl.
  - rewrite nth_error_app2 in Hl by exact L. destruct (k - length rest) as [|j]; cbn [nth_error] in Hl.
    + inversion Hl; subst. contradiction.
    + destruct j; discriminate.
Qed.

Lemma inagg_shift' : forall front rest k c, inagg (front :: rest) (S k) c -> inagg (rest ++ [[]]) k c.
Proof.
  intros front rest k c (l & Hl & Hc). exists l. split; [|exact Hc]. unfold vget in *. cbn [nth_error] in Hl.
  rewrite nth_error_app1; [exact Hl|]. apply nth_error_Some. congruence.
Qed.

(** One iteration of a rank. *)
Record iterated (me : nat) (s s' : fields * rank_state) : Prop := {
  it_good : good (fst s');
  it_rank : rank_ok (fst s') me (snd s');
  it_ext : extends (fst s) (fst s');
  it_unl : unl (fst (fst s')) <= unl (fst (fst s));
  it_same : unl (fst (fst s')) = unl (fst (fst s)) -> r_agg (snd s') = tl (r_agg (snd s)) ++ [[]];
  it_mine : forall c, rank m c <> me -> vget (fst (fst s')) c = vget (fst (fst s)) c }.

Lemma iterate_rank_ok : forall me snap s, good snap -> good (fst s) -> rank_ok (fst s) me (snd s) ->
  exists s', iterate_rank m level max_level me snap s = Some s' /\ iterated me s s'.
Proof.
  intros me snap [f r] GS G K. cbn [fst snd] in *. unfold iterate_rank. cbn [fst snd].
  destruct (r_agg r) as [|fr rest] eqn:EA; [pose proof (k_len f me r K) as L; rewrite EA in L; discriminate|].
  set (r0 := mkRank (rest ++ [[]]) [] (r_dist r)).
  assert (K0 : rank_ok f me r0).
  { split; unfold r0; cbn [r_agg r_cache r_dist].
    - pose proof (k_len f me r K) as L. rewrite EA in L. rewrite app_length. cbn [length] in *. lia.
    - intros k c H. apply (inagg_shift fr) in H. rewrite <- EA in H. apply (k_agg f me r K _ _ H).
    - intros g ls [].
    - apply (k_dist f me r K). }
  destruct (cache_stepped me snap (r_cache r) ((f, r0), []) GS (k_cache f me r K) G K0) as (t & Et & St & Ct). cbn [fst snd] in *.
  rewrite Et. cbn [obind].
  assert (exists u, each (grow m level max_level me) fr (fst t) = Some u /\ stepped me (fst t) u) as (u & Eu & Su).
  { assert (HF : forall c, In c fr -> In c (active m) /\ live c /\ exists p d, marked f c p d).
    { intros c Hc. destruct (k_agg f me r K 0 c) as (H1 & _ & H3 & H4); [|auto]. exists fr. rewrite EA. split; [reflexivity|exact Hc]. }
    assert (X : extends f (fst (fst t))) by apply (st_ext _ _ _ St).
    pose proof (st_good _ _ _ St) as Gt. pose proof (st_rank _ _ _ St) as Kt. clear - HF X Gt Kt WM SEP.
    revert HF X Gt Kt. generalize (fst t). clear t. induction fr as [|c fr IH]; intros s HF X Gt Kt; cbn [each].
    - exists s. split; [reflexivity|]. apply stepped_refl; assumption.
    - destruct (HF c (or_introl eq_refl)) as (H1 & H2 & p & d & H3).
      destruct (grow_stepped me c s H1 H2) as (s1 & E1 & S1); [exists p, d; apply X, H3|assumption|assumption|].
      rewrite E1. cbn [obind]. destruct (IH s1) as (s2 & E2 & S2).
      + intros x Hx. apply HF. right. exact Hx.
      + eapply extends_trans; [exact X|apply (st_ext _ _ _ S1)].
      + apply (st_good _ _ _ S1).
      + apply (st_rank _ _ _ S1).
      + exists s2. split; [exact E2|]. eapply stepped_trans; eassumption. }
  rewrite Eu. cbn [obind]. eexists. split; [reflexivity|]. pose proof (stepped_trans _ _ _ _ St Su) as SS.
  split; cbn [fst snd r_agg].
  - apply (st_good _ _ _ SS).
  - pose proof (st_rank _ _ _ SS) as KK. split; cbn [r_agg r_cache r_dist]; try apply KK.
    intros g ls H. apply Ct in H as [[]|H]. apply (k_cache f me r K g ls H).
  - apply (st_ext _ _ _ SS).
  - apply (st_unl _ _ _ SS).
  - intro E. rewrite (st_same _ _ _ SS E). rewrite EA. reflexivity.
  - apply (st_mine _ _ _ SS).
Qed.

(** ** All ranks *)
Fixpoint ranks_ok (f : fields) (me : nat) (rs : list rank_state) : Prop :=
  match rs with [] => True | r :: rest => rank_ok f me r /\ ranks_ok f (S me) rest end.

Lemma ranks_ok_extends : forall f f' rs me, ranks_ok f me rs -> extends f f' -> ranks_ok f' me rs.
Proof.
  intros f f'. induction rs as [|r rs IH]; intros me H X; [exact I|]. destruct H as [H1 H2].
  split; [eapply rank_ok_extends; eassumption|apply IH; assumption].
Qed.

Fixpoint depth (agg : list (list nat)) : nat :=
  match agg with
  | [] => 0
  | l :: r => match depth r with O => match l with [] => 0 | _ => 1 end | S k => S (S k) end
  end.

Definition max_depth (rs : list rank_state) : nat := fold_right (fun r d => Nat.max (depth (r_agg r)) d) 0 rs.

Lemma depth_le : forall agg, depth agg <= length agg.
Proof. induction agg as [|l r IH]; cbn [depth length]; [lia|]. destruct (depth r); [destruct l; lia|lia]. Qed.

Lemma depth_pop : forall agg, depth (tl agg ++ [[]]) = pred (depth agg).
Proof.
  assert (S0 : forall r, depth (r ++ [[]]) = depth r).
  { induction r as [|l r IH]; [reflexivity|]. cbn [app depth]. rewrite IH. reflexivity. }
  intros [|l r]; [reflexivity|]. cbn [tl]. rewrite S0. cbn [depth]. destruct (depth r); [destruct l; reflexivity|reflexivity].
Qed.

Lemma busy_depth : forall rs, busy rs = true <-> max_depth rs <> 0.
Proof.
  assert (D0 : forall agg, existsb (fun l : list nat => match l with [] => false | _ => true end) agg = true <-> depth agg <> 0).
  { induction agg as [|l r IH]; cbn [existsb depth]; [split; [discriminate|lia]|]. rewrite orb_true_iff, IH.
    destruct (depth r) as [|k].
    - destruct l; [|split; auto]. split; [intros [H|H]; [discriminate|exact H]|lia].
    - split; [lia|]. intros _. right. lia. }
  induction rs as [|r rs IH]; [split; [discriminate|intro H; contradiction]|].
  unfold busy, max_depth in *. cbn [existsb fold_right]. rewrite orb_true_iff, IH, D0. lia.
Qed.

Lemma iterate_ranks_ok : forall snap, good snap -> forall rs me f, good f -> ranks_ok f me rs ->
  exists f' rs', iterate_ranks m level max_level me snap f rs = Some (f', rs') /\ good f' /\ ranks_ok f' me rs' /\
    extends f f' /\ unl (fst f') <= unl (fst f) /\ length rs' = length rs /\
    (unl (fst f') = unl (fst f) -> max_depth rs' = pred (max_depth rs)).
Proof.
  intros snap GS. induction rs as [|r rs IH]; intros me f G K; cbn [iterate_ranks].
  - exists f, []. split; [reflexivity|]. split; [exact G|]. split; [exact I|]. split; [apply extends_refl|]. auto.
  - destruct K as [K1 K2]. destruct (iterate_rank_ok me snap (f, r) GS G K1) as ((f1 & r1) & E1 & I1). rewrite E1. cbn [obind fst snd].
    pose proof (it_ext _ _ _ I1) as X1. cbn [fst snd] in X1.
    destruct (IH (S me) f1 (it_good _ _ _ I1) (ranks_ok_extends f f1 rs (S me) K2 X1)) as (f2 & rs2 & E2 & G2 & R2 & X2 & U2 & L2 & D2).
    rewrite E2. cbn [obind fst snd]. exists f2, (r1 :: rs2). split; [reflexivity|]. split; [exact G2|].
    split; [split; [eapply rank_ok_extends; [apply (it_rank _ _ _ I1)|exact X2]|exact R2]|].
    split; [eapply extends_trans; eassumption|]. pose proof (it_unl _ _ _ I1) as U1. cbn [fst snd] in U1.
    split; [lia|]. split; [cbn [length]; lia|]. intro E. pose proof (it_same _ _ _ I1) as S1. cbn [fst snd] in S1.
    cbn [max_depth fold_right]. fold (max_depth rs2) (max_depth rs). rewrite (D2 ltac:(lia)), (S1 ltac:(lia)), depth_pop. lia.
Qed.

(** The loop ends, and keeps what is kept by all iterations. *)
Definition measure (f : fields) (rs : list rank_state) : nat := unl (fst f) * S (S max_level) + max_depth rs.

Lemma max_depth_le : forall f rs me, ranks_ok f me rs -> max_depth rs <= S max_level.
Proof.
  intros f. induction rs as [|r rs IH]; intros me K; cbn [max_depth fold_right]; [lia|]. destruct K as [K1 K2].
  fold (max_depth rs). specialize (IH (S me) K2). pose proof (depth_le (r_agg r)). rewrite (k_len f me r K1) in H. lia.
Qed.

Lemma waves_ok : forall (J : nat -> fields -> list rank_state -> Prop),
  (forall t f rs f' rs', good f -> ranks_ok f 0 rs -> J t f rs -> iterate_ranks m level max_level 0 f f rs = Some (f', rs') -> J (S t) f' rs') ->
  forall fuel t f rs, good f -> ranks_ok f 0 rs -> J t f rs -> measure f rs <= fuel ->
  exists f' rs' t', waves m level max_level fuel f rs = Some (f', rs') /\ good f' /\ ranks_ok f' 0 rs' /\ J t' f' rs' /\
    max_depth rs' = 0 /\ length rs' = length rs /\ extends f f'.
Proof.
  intros J HJ. induction fuel as [|fuel IH]; intros t f rs G K HJ0 HM; cbn [waves]; destruct (busy rs) eqn:B.
  - apply busy_depth in B. unfold measure in HM. lia.
  - exists f, rs, t. split; [reflexivity|]. repeat (split; [assumption|]). split; [|split; [reflexivity|apply extends_refl]].
    destruct (max_depth rs) eqn:E; [reflexivity|]. assert (busy rs = true) by (apply busy_depth; lia). congruence.
  - destruct (iterate_ranks_ok f G rs 0 f G K) as (f1 & rs1 & E1 & G1 & K1 & X1 & U1 & L1 & D1). rewrite E1. cbn [obind fst snd].
    apply busy_depth in B.
    destruct (IH (S t) f1 rs1 G1 K1 (HJ t f rs f1 rs1 G K HJ0 E1)) as (f2 & rs2 & t2 & E2 & G2 & K2 & J2 & D2 & L2 & X2).
    + unfold measure in *. destruct (Nat.eq_dec (unl (fst f1)) (unl (fst f))) as [E|N].
      * rewrite (D1 E), E. lia.
      * pose proof (max_depth_le f1 rs1 0 K1). assert (S (unl (fst f1)) * S (S max_level) <= unl (fst f) * S (S max_level)) by (apply Nat.mul_le_mono_r; lia).
        cbn [Nat.mul] in H0. lia.
    + exists f2, rs2, t2. split; [exact E2|]. repeat (split; [assumption|]). split; [lia|]. eapply extends_trans; eassumption.
  - exists f, rs, t. split; [reflexivity|]. repeat (split; [assumption|]). split; [|split; [reflexivity|apply extends_refl]].
    destruct (max_depth rs) eqn:E; [reflexivity|]. assert (busy rs = true) by (apply busy_depth; lia). congruence.
Qed.
End Waves.
