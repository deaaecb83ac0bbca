(** C54: creation of grains from particles. *)
From Coq Require Import List QArith Arith Bool Lia Lqa Relations.
From Verif Require Import Util MapModel StitchModel StitchSpec StitchProps FloodModel FloodProofs TransferModel DetectModel DetectProofs.
Import ListNotations.
Local Open Scope nat_scope.

Definition total (l : list Q) : Q := fold_right Qplus 0%Q l.
Definition greatest (x : Q) (l : list Q) : Prop := In x l /\ forall y, In y l -> (y <= x)%Q.

(** The measure of a grain is the sum over its segments, its maximum the greatest
    one, its radius the greatest one (at least 0). *)
Lemma fold_measure : forall ps g, (t_measure (fold_left add_segment ps g) == t_measure g + total (map p_measure ps))%Q.
Proof.
  induction ps as [|p ps IH]; intro g; cbn [fold_left map total fold_right]; [ring|].
  rewrite IH. unfold add_segment. cbn [t_measure]. unfold total. ring.
Qed.

Lemma fold_max : forall ps g x, t_max g = Some x ->
  exists y, t_max (fold_left add_segment ps g) = Some y /\ greatest y (x :: map p_max ps).
Proof.
  induction ps as [|p ps IH]; intros g x H; cbn [fold_left map].
  - exists x. split; [exact H|]. split; [left; reflexivity|]. intros y [<-|[]]. apply Qle_refl.
  - destruct (IH (add_segment g p) (qmax x (p_max p))) as (y & E & G1 & G2).
    { unfold add_segment. cbn [t_max]. rewrite H. reflexivity. }
    exists y. split; [exact E|]. destruct (qmax_spec x (p_max p)) as (Q1 & Q2 & Q3).
    pose proof (G2 _ (or_introl eq_refl)) as G3. split.
    + destruct G1 as [<-|G1]; [|right; right; exact G1]. destruct Q3 as [-> | ->]; [left|right; left]; reflexivity.
    + intros z [<-|[<-|Hz]]; [lra|lra|]. apply G2. right. exact Hz.
Qed.

Lemma fold_radius : forall ps g, greatest (t_radius (fold_left add_segment ps g)) (t_radius g :: map (fun p => s_radius (p_segment p)) ps).
Proof.
  induction ps as [|p ps IH]; intro g; cbn [fold_left map].
  - split; [left; reflexivity|]. intros y [<-|[]]. apply Qle_refl.
  - destruct (IH (add_segment g p)) as [G1 G2]. set (r := t_radius (fold_left add_segment ps (add_segment g p))) in *.
    change (t_radius (add_segment g p)) with (qmax (t_radius g) (s_radius (p_segment p))) in G1, G2.
    destruct (qmax_spec (t_radius g) (s_radius (p_segment p))) as (Q1 & Q2 & Q3).
    pose proof (G2 _ (or_introl eq_refl)) as G3. split.
    + destruct G1 as [G1|G1]; [|right; right; exact G1]. destruct Q3 as [Q3|Q3]; [left|right; left]; congruence.
    + intros z [<-|[<-|Hz]]; [lra|lra|]. apply G2. right. exact Hz.
Qed.

(** Particle [i] of order parameter [op] is segment [snd gs] of grain [fst gs]. *)
Definition located (maps : list (list (nat * nat))) (op i : nat) (gs : nat * nat) : Prop :=
  exists m, vget maps op = Some m /\ vget m i = Some gs.

Definition particle_of (ops : list (list particle * list (nat * nat))) (op i : nat) (p : particle) : Prop :=
  exists parts conns, vget ops op = Some (parts, conns) /\ vget parts i = Some p.

(** ** Periodicity groups *)
Theorem C54_groups : forall components n conns, components_contract components ->
  (forall a b, In (a, b) conns -> a < n /\ b < n) ->
  exists groups k, particle_groups components n conns = Some (groups, k) /\ length groups = n /\
    (forall p, p < n -> (vget groups p = Some None <-> forall q, ~ In (p, q) conns /\ ~ In (q, p) conns)) /\
    (forall c, c < k <-> exists p, vget groups p = Some (Some c)) /\
    (forall p q c, vget groups p = Some (Some c) -> (vget groups q = Some (Some c) <->
       clos_refl_trans nat (fun a b => In (a, b) conns \/ In (b, a) conns) p q)).
Proof.
  intros components n conns HC HR. destruct (particle_groups_spec components n conns HC HR) as (groups & k & E & L & G1 & G2 & G3 & G4).
  exists groups, k. split; [exact E|]. split; [exact L|]. split; [|split; [|exact G4]].
  - intros p Hp. rewrite (G1 p Hp). unfold occurs. split.
    + intros H q. split; intro C; apply H; eauto.
    + intros H (q & [C|C]); destruct (H q); contradiction.
  - intro c. split; [apply G3|]. intros [p H]. apply (G2 p c H).
Qed.
Print Assumptions C54_groups.

(** ** Grains *)
(** The check at the end of [detect_grains] never fails; the ids are 0..N-1; every
    particle is a segment of a grain of its order parameter, every segment of every
    grain is a particle, distinct particles are distinct segments, and two particles
    are segments of the same grain exactly if they are of the same order parameter
    and connected through the periodic boundaries. *)
Theorem C54_detection : forall components ops, components_contract components -> conns_ok ops ->
  exists grains maps, detect_grains components ops = Some (Some (grains, maps)) /\ msorted grains /\
    (forall gid, (exists g, mget gid grains = Some g) <-> gid < length grains) /\
    length maps = length ops /\
    (forall op i p, particle_of ops op i p -> exists gid sid g, located maps op i (gid, sid) /\
       mget gid grains = Some g /\ g_op (t_grain g) = op /\ vget (g_segments (t_grain g)) sid = Some (p_segment p)) /\
    (forall gid g sid s, mget gid grains = Some g -> vget (g_segments (t_grain g)) sid = Some s ->
       exists op i p, located maps op i (gid, sid) /\ particle_of ops op i p /\ s = p_segment p) /\
    (forall op i op' i' gs, located maps op i gs -> located maps op' i' gs -> op = op' /\ i = i') /\
    (forall op i gid sid op' i' gid' sid', located maps op i (gid, sid) -> located maps op' i' (gid', sid') ->
       (gid = gid' <-> op = op' /\ exists parts conns, vget ops op = Some (parts, conns) /\
          clos_refl_trans nat (fun a b => In (a, b) conns \/ In (b, a) conns) i i')).
Proof.
  intros components ops HC HO. unfold detect_grains.
  destruct (detect_ops_spec components HC ops 0 0 [] HO) as (grains & maps & num & E & _ & MS & KU & _ & LM & SRJ & OPS).
  { constructor. } { intro gid. split; [intros [g H]; discriminate|lia]. }
  rewrite E. cbn [obind]. pose proof (map_fst_unique_keys _ grains num MS KU) as LEN.
  rewrite LEN, Nat.eqb_refl. exists grains, maps. rewrite LEN. split; [reflexivity|]. split; [exact MS|]. split; [exact KU|].
  split; [exact LM|].
  assert (INFO : forall op i gid sid, located maps op i (gid, sid) -> exists parts conns p g is ps m,
    vget ops op = Some (parts, conns) /\ vget parts i = Some p /\ vget maps op = Some m /\ vget m i = Some (gid, sid) /\
    mget gid grains = Some g /\ g_op (t_grain g) = op /\ g_segments (t_grain g) = map p_segment ps /\
    parts_at parts is ps /\ (forall s j, vget is s = Some j <-> vget m j = Some (gid, s)) /\
    (forall j gj sj, vget m j = Some (gj, sj) -> (gid = gj <-> linked conns i j))).
  { intros op i gid sid (m & Hm & Hi). pose proof (vget_lt _ _ _ _ Hm) as Hl. rewrite LM in Hl.
    destruct (vget_some _ ops op Hl) as [[parts conns] Eo]. destruct (OPS op parts conns Eo) as (m' & n1 & n2 & Em & R1 & R2 & R3 & R4 & R5).
    assert (m' = m) by congruence. subst m'. cbn [Nat.add] in *.
    destruct (vget_some _ parts i) as [p Ep]; [rewrite <- R1; apply (vget_lt _ _ _ _ Hi)|].
    destruct (R5 gid (R2 i gid sid Hi)) as (g & is & ps & Eg & NE & P & F & S).
    exists parts, conns, p, g, is, ps, m. split; [exact Eo|]. split; [exact Ep|]. split; [exact Hm|]. split; [exact Hi|]. split; [exact Eg|].
    split; [rewrite F, op_fold; reflexivity|]. split; [rewrite F, segments_fold; reflexivity|]. split; [exact P|].
    split; [exact S|]. intros j gj sj Hj. apply (R4 i j gid sid gj sj Hi Hj). }
  assert (SEG : forall parts is ps sid i p, parts_at parts is ps -> vget is sid = Some i -> vget parts i = Some p -> vget (map p_segment ps) sid = Some (p_segment p)).
  { intros parts is ps sid i p P. revert sid. induction P as [|j q is ps H P IH]; intros [|sid] H1 H2; try discriminate.
    - cbn in *. congruence.
    - cbn. apply IH; assumption. }
  split; [|split; [|split]].
  - intros op i p (parts & conns & Eo & Ep). destruct (OPS op parts conns Eo) as (m & n1 & n2 & Em & R1 & _).
    destruct (vget_some _ m i) as [[gid sid] Ei]; [rewrite R1; apply (vget_lt _ _ _ _ Ep)|].
    assert (L : located maps op i (gid, sid)) by (exists m; auto).
    destruct (INFO op i gid sid L) as (parts' & conns' & p' & g & is & ps & m' & E1 & E2 & E3 & E4 & E5 & E6 & E7 & E8 & E9 & _).
    assert (p' = p) by congruence. subst p'. exists gid, sid, g. split; [exact L|]. split; [exact E5|]. split; [exact E6|].
    rewrite E7. apply (SEG parts' is ps sid i p E8); [apply E9; congruence|exact E2].
  - intros gid g sid s Eg Es. assert (Hg : gid < num) by (apply KU; eauto).
    destruct (SRJ gid ltac:(lia)) as (op & m & i0 & sid0 & Em & Ei0).
    destruct (INFO op i0 gid sid0) as (parts & conns & p & g' & is & ps & m' & E1 & E2 & E3 & E4 & E5 & E6 & E7 & E8 & E9 & _).
    { exists m. auto. }
    assert (g' = g) by congruence. subst g'. assert (m' = m) by congruence. subst m'. rewrite E7 in Es.
    assert (Hs : sid < length is).
    { pose proof (vget_lt _ _ _ _ Es) as X. rewrite map_length, <- (parts_at_length _ _ _ E8) in X. exact X. }
    destruct (vget_some _ is sid Hs) as [i Ei]. pose proof (proj1 (E9 sid i) Ei) as Mi.
    destruct (INFO op i gid sid) as (parts2 & conns2 & p2 & _ & _ & _ & _ & F1 & F2 & _); [exists m; auto|].
    assert (parts2 = parts) by congruence. subst parts2.
    exists op, i, p2. split; [exists m; auto|]. split; [exists parts, conns2; auto|].
    pose proof (SEG parts is ps sid i p2 E8 Ei F2). congruence.
  - intros op i op' i' [gid sid] L1 L2.
    destruct (INFO _ _ _ _ L1) as (? & ? & ? & g & is & ps & m & _ & _ & E3 & E4 & E5 & E6 & _ & _ & E9 & _).
    destruct (INFO _ _ _ _ L2) as (? & ? & ? & g' & is' & ps' & m' & _ & _ & F3 & F4 & F5 & F6 & _ & _ & F9 & _).
    assert (OP : op = op') by congruence. clear E6 F6. subst op'. split; [reflexivity|]. assert (m' = m) by congruence. subst m'.
    apply E9 in E4. apply E9 in F4. congruence.
  - intros op i gid sid op' i' gid' sid' L1 L2.
    destruct (INFO _ _ _ _ L1) as (parts & conns & ? & g & is & ps & m & E1 & _ & E3 & E4 & E5 & E6 & _ & _ & _ & E10).
    destruct (INFO _ _ _ _ L2) as (? & ? & ? & g' & is' & ps' & m' & F1 & _ & F3 & F4 & F5 & F6 & _).
    split.
    + intros <-. assert (OP : op = op') by congruence. clear E6 F6. subst op'. split; [reflexivity|]. exists parts, conns. split; [exact E1|].
      assert (m' = m) by congruence. subst m'. apply (E10 i' gid sid' F4). reflexivity.
    + intros [<- (parts' & conns' & G1 & G2)]. assert (m' = m) by congruence. subst m'. assert (conns' = conns) by congruence. subst conns'.
      apply (E10 i' gid' sid' F4). exact G2.
Qed.
Print Assumptions C54_detection.

(** The measure, the maximum and the radius of a grain are the sum and the greatest
    values over the particles which are its segments. *)
Theorem C54_values : forall components ops grains maps gid g, components_contract components -> conns_ok ops ->
  detect_grains components ops = Some (Some (grains, maps)) -> mget gid grains = Some g ->
  exists op parts conns m is ps, vget ops op = Some (parts, conns) /\ vget maps op = Some m /\ is <> [] /\
    (forall sid i, vget is sid = Some i <-> vget m i = Some (gid, sid)) /\
    Forall2 (fun i p => vget parts i = Some p) is ps /\
    (t_measure g == total (map p_measure ps))%Q /\
    (exists x, t_max g = Some x /\ greatest x (map p_max ps)) /\
    greatest (t_radius g) (0%Q :: map (fun p => s_radius (p_segment p)) ps).
Proof.
  intros components ops grains maps gid g HC HO E Eg. unfold detect_grains in E.
  destruct (detect_ops_spec components HC ops 0 0 [] HO) as (grains' & maps' & num & E' & _ & MS & KU & _ & LM & SRJ & OPS).
  { constructor. } { intro k. split; [intros [x H]; discriminate|lia]. }
  rewrite E' in E. cbn [obind] in E. destruct (num =? length grains'); [|discriminate]. injection E as -> ->.
  assert (Hg : gid < num) by (apply KU; eauto).
  destruct (SRJ gid ltac:(lia)) as (op & m & i0 & sid0 & Em & Ei0).
  pose proof (vget_lt _ _ _ _ Em) as Hl. rewrite LM in Hl.
  destruct (vget_some _ ops op Hl) as [[parts conns] Eo]. destruct (OPS op parts conns Eo) as (m' & n1 & n2 & Em' & R1 & R2 & R3 & R4 & R5).
  assert (m' = m) by congruence. subst m'. destruct (R5 gid (R2 i0 gid sid0 Ei0)) as (g' & is & ps & Eg' & NE & P & F & S).
  rewrite Eg in Eg'. injection Eg' as E2. rewrite <- E2 in F. exists op, parts, conns, m, is, ps. split; [exact Eo|]. split; [exact Em|]. split; [exact NE|].
  split; [exact S|]. split; [exact P|]. rewrite F. split; [|split].
  - rewrite fold_measure. cbn [empty_grain t_measure]. ring.
  - destruct ps as [|p ps]; [inversion P; subst; contradiction|]. cbn [fold_left map].
    apply (fold_max ps (add_segment (empty_grain (0 + op)) p) (p_max p)). reflexivity.
  - apply (fold_radius ps (empty_grain (0 + op))).
Qed.
Print Assumptions C54_values.

(** Two order parameters; in the first one particles 0 and 2 are connected through
    a periodic boundary. *)
Definition ex_ops : list (list particle * list (nat * nat)) :=
  [ ([mkParticle (mkSegment [0%Q] 1%Q) (9#10)%Q 2%Q; mkParticle (mkSegment [5%Q] 2%Q) 1%Q 4%Q; mkParticle (mkSegment [10%Q] (3#2)%Q) (8#10)%Q 3%Q], [(2, 0); (0, 2)]);
    ([mkParticle (mkSegment [3%Q] 1%Q) 1%Q 2%Q], []) ].

Example C54_case : components_contract some_components /\ conns_ok ex_ops /\
  exists grains, detect_grains some_components ex_ops = Some (Some (grains, [[(0, 0); (1, 0); (0, 1)]; [(2, 0)]])) /\
    map fst grains = [0; 1; 2] /\ exists g, mget 0 grains = Some g /\ (t_measure g == 5)%Q /\ t_max g = Some (9#10)%Q /\ (t_radius g == 3#2)%Q.
Proof.
  split; [exact C17_contract_satisfiable|]. split.
  - intros parts conns a b [E|[E|[]]] H; injection E as <- <-; cbn in H; [|destruct H].
    destruct H as [H|[H|[]]]; injection H as <- <-; cbn; lia.
  - eexists. split; [vm_compute; reflexivity|]. split; [reflexivity|]. eexists. split; [reflexivity|]. repeat split; reflexivity.
Qed.
