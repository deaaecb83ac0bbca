(** C22: numbering of the grains after tracking. *)
From Coq Require Import List QArith Arith Bool Lia.
From Verif Require Import Util MapModel StitchSpec StitchProps FloodModel TransferModel TransferSpec TransferProofs TransferProps DetectModel DetectProofs DetectProps TrackModel TrackProofs.
Import ListNotations.
Local Open Scope nat_scope.

(** The grains as seen by the transfer. *)
Definition old_shapes (old : fmap tracked) : fmap grain := map (fun p => (fst p, t_grain (fst (snd p)))) old.

Lemma old_shapes_eq : forall old, shapes (map (fun p => (fst p, fst (snd p))) old) = old_shapes old.
Proof. intro old. unfold shapes, old_shapes. rewrite map_map. apply map_ext. reflexivity. Qed.

(** What is assumed of the particles of a configuration: [n] order parameters,
    centers in [dim] dimensions, connections between existing particles. *)
Definition config_ok (dim n : nat) (ops : list (list particle * list (nat * nat))) : Prop :=
  length ops = n /\ conns_ok ops /\
  forall parts conns p, In (parts, conns) ops -> In p parts -> length (s_center (p_segment p)) = dim.

(** A grain that matches no old one and is above the threshold. *)
Definition unmatched_above (new : fmap tgrain) (r : fmap (option nat)) (thr : Q) (c : nat) : Prop :=
  exists g v, mget c new = Some g /\ mget c r = Some None /\ t_max g = Some v /\ (thr < v)%Q.

Lemma exceeds_true : forall g thr, exceeds g thr = true <-> exists v, t_max g = Some v /\ (thr < v)%Q.
Proof.
  intros g thr. unfold exceeds. destruct (t_max g) as [v|].
  - split.
    + intro H. apply qltb_true in H. eauto.
    + intros (w & E & H). injection E as <-. apply qltb_true. exact H.
  - split; [discriminate|]. intros (v & E & _). discriminate.
Qed.

(** The detected grains [new] are given the ids [f]: an id handed over by the
    transfer, a number larger than all old ids for unmatched ones above the
    threshold, none for the others.  Valid ids are distinct.  The resulting grains
    are exactly the detected ones with a valid id, and each entry of the map from
    particles to grains is renamed by [f].  The exceptions of [track] are thrown
    exactly if an unmatched grain is above the threshold and new grains are not
    allowed. *)
Theorem C22_track : forall components query thr allow ops old n dim,
  components_contract components -> query_ok query -> config_ok dim n ops -> grains_ok dim n (old_shapes old) ->
  exists new maps r, detect_grains components ops = Some (Some (new, maps)) /\
    transfer query (shapes new) (old_shapes old) n = Some r /\
    (track query thr allow new maps old n = Some None /\ allow = false /\ (exists c, unmatched_above new r thr c) \/
     ~ (allow = false /\ exists c, unmatched_above new r thr c) /\
     exists grains pm f, track query thr allow new maps old n = Some (Some (grains, pm)) /\ msorted grains /\
       (forall c o, mget c r = Some (Some o) -> f c = Some o) /\
       (forall c, mget c r = Some None -> unmatched_above new r thr c -> exists k, f c = Some k /\ forall o og, mget o old = Some og -> o < k) /\
       (forall c, mget c r = Some None -> ~ unmatched_above new r thr c -> f c = None) /\
       (forall a b ga gb k, mget a new = Some ga -> mget b new = Some gb -> f a = Some k -> f b = Some k -> a = b) /\
       (forall k g, (exists d, mget k grains = Some (g, d)) <-> exists c, f c = Some k /\ mget c new = Some g) /\
       (forall c o g og, mget c new = Some g -> mget c r = Some (Some o) -> mget o old = Some og ->
          exists d, mget o grains = Some (g, d) /\ (d = DGrowing /\ (t_measure (fst og) < t_measure g)%Q \/ d = DShrinking /\ (t_measure g <= t_measure (fst og))%Q)) /\
       length pm = length maps /\
       (forall op i, (forall c s, located maps op i (c, s) -> exists m, vget pm op = Some m /\ vget m i = Some (f c, s)) /\
                     (forall m x, vget pm op = Some m -> vget m i = Some x -> exists c s, located maps op i (c, s) /\ x = (f c, s)))).
Proof.
  intros components query thr allow ops old n dim HC HQ (CL & CO & CD) HOLD.
  destruct (C54_detection components ops HC CO) as (new & maps & ED & MS & KEYS & LM & A1 & A2 & A3 & A4).
  assert (LOC : forall op m c s, vget maps op = Some m -> In (c, s) m -> exists g, mget c new = Some g /\ g_op (t_grain g) = op).
  { intros op m c s Hm Hin. apply In_nth_error in Hin. destruct Hin as [i Hi].
    pose proof (vget_lt _ _ _ _ Hm) as Hl. rewrite LM in Hl. destruct (vget_some _ ops op Hl) as [[parts conns] Eo].
    unfold detect_grains in ED. destruct (detect_ops_spec components HC ops 0 0 [] CO) as (g' & maps' & num & E' & _ & _ & _ & _ & _ & _ & OPS).
    { constructor. } { intro k. split; [intros [x H]; discriminate|lia]. }
    rewrite E' in ED. cbn [obind] in ED. destruct (num =? length g'); [|discriminate]. injection ED as -> ->.
    destruct (OPS op parts conns Eo) as (m' & n1 & n2 & Em & R1 & R2 & R3 & R4 & R5). assert (m' = m) by congruence. subst m'.
    destruct (R5 c (R2 i c s Hi)) as (g & is & ps & Eg & _ & _ & F & _). exists g. split; [exact Eg|]. rewrite F, op_fold. reflexivity. }
  assert (OPN : forall c g, mget c new = Some g -> exists op i p, located maps op i (c, 0) /\ particle_of ops op i p /\ g_op (t_grain g) = op /\ op < n).
  { intros c g Eg. destruct (C54_values components ops new maps c g HC CO ED Eg) as (op & parts & conns & m & is & ps & Eo & Em & NE & S & P & _).
    destruct is as [|i is]; [contradiction|]. inversion P as [|? p ? ps' H1 H2]; subst.
    pose proof (proj1 (S 0 i) eq_refl) as Hi. exists op, i, p. split; [exists m; auto|]. split; [exists parts, conns; auto|].
    split; [|apply (vget_lt _ _ _ _ Eo)]. destruct (LOC op m c 0 Em) as (g' & E1 & E2); [eapply nth_error_In; exact Hi|]. congruence. }
  assert (NEWOK : grains_ok dim n (shapes new)).
  { split; [unfold msorted, shapes; rewrite map_keys; exact MS|]. split.
    - intros id g s Hin Hs. unfold shapes in Hin. apply in_map_iff in Hin. destruct Hin as ([c tg] & E & Hin). cbn [fst snd] in E. injection E as -> <-.
      apply (In_mget _ _ _ _ MS) in Hin. apply In_nth_error in Hs. destruct Hs as [sid Hs].
      destruct (A2 id tg sid s Hin Hs) as (op & i & p & _ & (parts & conns & P1 & P2) & ->).
      apply (CD parts conns); [eapply nth_error_In; exact P1|eapply nth_error_In; exact P2].
    - intros id g Hin. unfold shapes in Hin. apply in_map_iff in Hin. destruct Hin as ([c tg] & E & Hin). cbn [fst snd] in E. injection E as -> <-.
      apply (In_mget _ _ _ _ MS) in Hin. destruct (OPN id tg Hin) as (op & _ & _ & _ & _ & -> & H). exact H. }
  destruct (C20_partial_injection query (shapes new) (old_shapes old) n dim HQ NEWOK HOLD) as (r & ER & RK & RI & RO).
  assert (SH : forall c, mget c (shapes new) = option_map t_grain (mget c new)) by (intro c; apply mget_map).
  assert (SO : forall c, mget c (old_shapes old) = option_map (fun x => t_grain (fst x)) (mget c old)) by (intro c; apply (mget_map _ _ (fun x : tracked => t_grain (fst x)))).
  assert (OS : msorted old).
  { destruct HOLD as [H _]. unfold msorted, old_shapes in H. rewrite (map_keys _ _ (fun x : tracked => t_grain (fst x))) in H. exact H. }
  destruct (first_free_spec _ old OS) as [FF _].
  assert (RKEYS : forall c g, mget c new = Some g -> exists x, mget c r = Some x).
  { intros c g Eg. apply RK. exists (t_grain g). rewrite SH, Eg. reflexivity. }
  assert (ROLD : forall c o g, mget c new = Some g -> mget c r = Some (Some o) -> exists og, mget o old = Some og /\ g_op (t_grain (fst og)) = g_op (t_grain g)).
  { intros c o g Eg Er. destruct (RO c o Er) as (sg & sgo & s & t & B1 & B2 & B3 & _). rewrite SH, Eg in B1. injection B1 as <-.
    rewrite SO in B2. destruct (mget o old) as [og|]; [|discriminate]. injection B2 as <-. exists og. auto. }
  assert (RNEW : forall c x, mget c r = Some x -> exists g, mget c new = Some g).
  { intros c x E. destruct (proj2 (RK c) (ex_intro _ x E)) as [sg Esg]. rewrite SH in Esg. destruct (mget c new) as [g|]; [eauto|discriminate]. }
  exists new, maps, r. split; [exact ED|]. split; [exact ER|].
  unfold track. rewrite old_shapes_eq, ER. cbn [obind].
  destruct (track_loop_spec old thr allow r new maps (first_free old) RKEYS RI ROLD FF LOC) with (rest := new) (done := @nil nat) (f := fun c : nat => Some c)
    (st := mkTState [] (first_free old) 0 0 (map (map (fun x : nat * nat => (Some (fst x), snd x))) maps) (map (fun m : list (nat * nat) => repeat false (length m)) maps))
    as (st & done & f & EL & I & LD & DONE).
  { intros c g Eg. destruct (OPN c g Eg) as (op & _ & _ & _ & _ & -> & H). lia. }
  { split; cbn [ts_grains ts_numberer ts_invalid ts_skipped ts_pm ts_changed].
    - lia.
    - intros c [].
    - reflexivity.
    - intros a b k [].
    - constructor.
    - intros k g d. split; [discriminate|]. intros (c & [] & _).
    - intros k H. lia.
    - reflexivity.
    - split; [intros _ c []|reflexivity].
    - reflexivity.
    - apply map_ext. intro m. induction m as [|[c s] m IH]; cbn [length repeat flags map fst]; [reflexivity|].
      cbn [same_id]. rewrite Nat.eqb_refl. cbn [negb]. f_equal. exact IH. }
  { intros c g Hin. split; [apply In_mget; assumption|intros []]. }
  { apply msorted_nodup, MS. }
  rewrite EL. cbn [obind].
  assert (DN : forall c, In c done <-> exists g, mget c new = Some g).
  { intro c. rewrite DONE, <- mget_key. cbn [In]. tauto. }
  pose proof I as [T1 T2 T3 T4 T5 T6 T7 T8 T9 T10 T11].
  assert (REJ : (exists c, In c done /\ rejected thr allow r new c) <-> allow = false /\ exists c, unmatched_above new r thr c).
  { split.
    - intros (c & _ & g & R1 & R2 & R3 & R4). split; [exact R4|]. apply exceeds_true in R3. destruct R3 as (v & V1 & V2). exists c, g, v. auto.
    - intros (R4 & c & g & v & R1 & R2 & V1 & V2). exists c. split; [apply DN; eauto|]. exists g. split; [exact R1|]. split; [exact R2|].
      split; [apply exceeds_true; eauto|exact R4]. }
  destruct (Nat.eqb_spec (ts_invalid st) 0) as [EI|NI]; cbn [negb].
  - assert (LEN : length new = length (ts_grains st) + ts_skipped st) by (cbn [length] in LD; lia).
    rewrite LEN, Nat.eqb_refl. cbn [negb]. right. split.
    { intro C. apply REJ in C. destruct C as (c & C1 & C2). apply (proj1 T9 EI c C1 C2). }
    exists (ts_grains st), (ts_pm st), f. split; [reflexivity|]. split; [exact T5|].
    assert (NREJ : forall c, In c done -> ~ rejected thr allow r new c) by (apply T9, EI).
    split; [|split; [|split; [|split; [|split; [|split; [|split]]]]]].
    + intros c o Er. destruct (RNEW c _ Er) as [g Eg]. destruct (T2 c (proj2 (DN c) (ex_intro _ g Eg))) as (g' & _ & [(o' & F1 & F2)|[(F1 & _)|(F1 & _)]]); congruence.
    + intros c Er (g & v & U1 & U2 & U3 & U4). assert (EX : exceeds g thr = true) by (apply exceeds_true; eauto).
      assert (Hd : In c done) by (apply DN; eauto).
      destruct (T2 c Hd) as (g' & E' & [(o' & F1 & F2)|[(F1 & F2 & F3 & k & F4 & F5)|(F1 & F2 & F3)]]); [congruence| |].
      * exists k. split; [exact F4|]. intros o og Ho. apply FF in Ho. lia.
      * exfalso. apply (NREJ c Hd). exists g. split; [exact U1|]. split; [exact U2|]. split; [exact EX|].
        assert (g' = g) by congruence. subst g'. destruct F2; congruence.
    + intros c Er NU. destruct (RNEW c _ Er) as [g Eg]. destruct (T2 c (proj2 (DN c) (ex_intro _ g Eg))) as (g' & E' & [(o' & F1 & F2)|[(F1 & F2 & F3 & k & F4 & F5)|(F1 & F2 & F3)]]); [congruence| |exact F3].
      exfalso. apply NU. apply exceeds_true in F2. destruct F2 as (v & V1 & V2). exists g', v. auto.
    + intros a b ga gb k Ha Hb. apply T4; apply DN; eauto.
    + intros k g. split.
      * intros [d H]. apply T6 in H. destruct H as (c & _ & H1 & H2 & _). eauto.
      * intros (c & H1 & H2). assert (Hd : In c done) by (apply DN; eauto).
        assert (X : exists d, motion old r c g d).
        { unfold motion. destruct (RKEYS c g H2) as [[o|] Ex]; rewrite Ex; [|eauto]. destruct (ROLD c o g H2 Ex) as (og & Eo & _).
          eexists. exists og. split; [exact Eo|reflexivity]. }
        destruct X as [d Hd']. exists d. apply T6. exists c. auto.
    + intros c o g og Eg Er Eo. assert (Hd : In c done) by (apply DN; eauto).
      assert (FC : f c = Some o) by (destruct (T2 c Hd) as (g' & _ & [(o' & F1 & F2)|[(F1 & _)|(F1 & _)]]); congruence).
      destruct (qltb (t_measure (fst og)) (t_measure g)) eqn:EQ.
      * exists DGrowing. split; [|left; split; [reflexivity|apply qltb_true, EQ]]. apply T6. exists c. split; [exact Hd|]. split; [exact FC|]. split; [exact Eg|].
        unfold motion. rewrite Er. exists og. rewrite EQ. auto.
      * exists DShrinking. split; [|right; split; [reflexivity|apply qltb_false, EQ]]. apply T6. exists c. split; [exact Hd|]. split; [exact FC|]. split; [exact Eg|].
        unfold motion. rewrite Er. exists og. rewrite EQ. auto.
    + rewrite T10, map_length. reflexivity.
    + intros op i. rewrite T10. unfold vget. split.
      * intros c s (m & M1 & M2). exists (renamed f m). unfold vget in *. rewrite nth_error_map, M1. split; [reflexivity|].
        unfold renamed. rewrite nth_error_map, M2. reflexivity.
      * intros m x M1 M2. rewrite nth_error_map in M1. destruct (nth_error maps op) as [m'|] eqn:Em; [|discriminate]. injection M1 as <-.
        unfold renamed in M2. rewrite nth_error_map in M2. destruct (nth_error m' i) as [[c s]|] eqn:Ei; [|discriminate]. injection M2 as <-.
        exists c, s. split; [exists m'; auto|reflexivity].
  - left. split; [reflexivity|]. apply REJ.
    destruct (existsb (fun c => match mget c new, mget c r with Some g, Some None => exceeds g thr && negb allow | _, _ => false end) done) eqn:EB.
    + apply existsb_exists in EB. destruct EB as (c & C1 & C2). exists c. split; [exact C1|].
      destruct (mget c new) as [g|] eqn:E1; [|discriminate]. destruct (mget c r) as [[o|]|] eqn:E2; try discriminate.
      apply andb_prop in C2. destruct C2 as [C2 C3]. exists g. split; [exact E1|]. split; [exact E2|]. split; [exact C2|]. destruct allow; [discriminate|reflexivity].
    + exfalso. apply NI, T9. intros c C1 (g & R1 & R2 & R3 & R4).
      assert (X : existsb (fun c => match mget c new, mget c r with Some g, Some None => exceeds g thr && negb allow | _, _ => false end) done = true).
      { apply existsb_exists. exists c. split; [exact C1|]. rewrite R1, R2, R3, R4. reflexivity. }
      congruence.
Qed.
Print Assumptions C22_track.

(** The lookup after tracking: a particle whose entry is valid is the segment it
    refers to, of the grain with this id. *)
Theorem C22_lookup : forall components query thr allow ops old n dim new maps grains pm,
  components_contract components -> query_ok query -> config_ok dim n ops -> grains_ok dim n (old_shapes old) ->
  detect_grains components ops = Some (Some (new, maps)) ->
  track query thr allow new maps old n = Some (Some (grains, pm)) ->
  (forall op i p, particle_of ops op i p -> exists m id sid, vget pm op = Some m /\ vget m i = Some (id, sid) /\
     forall k, id = Some k -> exists g d, mget k grains = Some (g, d) /\ g_op (t_grain g) = op /\
       vget (g_segments (t_grain g)) sid = Some (p_segment p)) /\
  (forall op m i op' m' i' k sid, vget pm op = Some m -> vget m i = Some (Some k, sid) -> vget pm op' = Some m' -> vget m' i' = Some (Some k, sid) ->
     op = op' /\ i = i').
Proof.
  intros components query thr allow ops old n dim new maps grains pm HC HQ HCFG HOLD ED ET.
  destruct (C22_track components query thr allow ops old n dim HC HQ HCFG HOLD) as (new' & maps' & r & ED' & ER & HT).
  rewrite ED in ED'. injection ED' as <- <-. pose proof HCFG as (_ & CO & _).
  destruct (C54_detection components ops HC CO) as (new' & maps' & ED' & MS & KEYS & LM & A1 & A2 & A3 & A4).
  rewrite ED in ED'. injection ED' as <- <-.
  destruct HT as [(HT & _)|(_ & grains' & pm' & f & HT & _ & _ & _ & _ & INJ & GR & _ & _ & PM)]; [congruence|].
  rewrite ET in HT. injection HT as <- <-. split.
  - intros op i p HP. destruct (A1 op i p HP) as (gid & sid & g & L & Eg & Op & Seg).
    destruct (proj1 (PM op i) gid sid L) as (m & M1 & M2). exists m, (f gid), sid. split; [exact M1|]. split; [exact M2|].
    intros k Hk. destruct (proj2 (GR k g)) as [d Hd]; [exists gid; auto|]. exists g, d. auto.
  - intros op m i op' m' i' k sid M1 M2 M1' M2'.
    destruct (proj2 (PM op i) m _ M1 M2) as (c & s & L & E). injection E as E1 <-.
    destruct (proj2 (PM op' i') m' _ M1' M2') as (c' & s' & L' & E'). injection E' as E1' <-.
    assert (KEY : forall op i c s, located maps op i (c, s) -> exists g, mget c new = Some g).
    { intros o j c0 s0 L0. pose proof L0 as (m0 & H0 & Hj).
      assert (Hl : o < length ops) by (rewrite <- LM; apply (vget_lt _ _ _ _ H0)).
      destruct (proj2 (PM o j) (map (fun x => (f (fst x), snd x)) m0) (f c0, s0)) as (c1 & s1 & _).
      - destruct (proj1 (PM o j) c0 s0 L0) as (m1 & X1 & X2). rewrite X1. f_equal. apply list_ext. intro y. unfold vget in *. rewrite nth_error_map.
        destruct (nth_error m0 y) as [[c2 s2]|] eqn:Ey.
        + destruct (proj1 (PM o y) c2 s2) as (m2 & Y1 & Y2); [exists m0; auto|]. unfold vget in *. assert (m2 = m1) by congruence. subst m2. exact Y2.
        + destruct (nth_error m1 y) as [x|] eqn:Ex; [|reflexivity]. destruct (proj2 (PM o y) m1 x X1 Ex) as (c2 & s2 & (m2 & Y1 & Y2) & _).
          unfold vget in *. assert (m2 = m0) by congruence. subst m2. congruence.
      - unfold vget in *. rewrite nth_error_map, Hj. reflexivity.
      - destruct (vget_some _ ops o Hl) as [[parts conns] Eo].
        destruct (detect_ops_spec components HC ops 0 0 [] CO) as (g' & mp & num & E' & _ & _ & KU & _ & _ & _ & OPS).
        { constructor. } { intro q. split; [intros [x H]; discriminate|lia]. }
        unfold detect_grains in ED. rewrite E' in ED. cbn [obind] in ED. destruct (num =? length g'); [|discriminate]. injection ED as -> ->.
        destruct (OPS o parts conns Eo) as (mm & n1 & n2 & Em & _ & R2 & _ & _ & R5). assert (mm = m0) by congruence. subst mm.
        destruct (R5 c0 (R2 j c0 s0 Hj)) as (g & _ & _ & Eg & _). eauto. }
    destruct (KEY _ _ _ _ L) as [g Eg]. destruct (KEY _ _ _ _ L') as [g' Eg'].
    assert (c = c') by (apply (INJ c c' g g' k Eg Eg'); congruence). subst c'. apply (A3 op i op' i' (c, sid) L L').
Qed.
Print Assumptions C22_lookup.

(** Reuse of ids: an id which no old grain carries but which is below the id of some
    old grain is not given to a new grain.  The full claim (never reused) fails, see
    below. *)
Theorem C22_reuse_partial : forall components query thr allow ops old n dim new maps grains pm k j og,
  components_contract components -> query_ok query -> config_ok dim n ops -> grains_ok dim n (old_shapes old) ->
  detect_grains components ops = Some (Some (new, maps)) ->
  track query thr allow new maps old n = Some (Some (grains, pm)) ->
  mget k old = None -> mget j old = Some og -> k < j -> mget k grains = None.
Proof.
  intros components query thr allow ops old n dim new maps grains pm k j og HC HQ HCFG HOLD ED ET Hk Hj Lt.
  destruct (C22_track components query thr allow ops old n dim HC HQ HCFG HOLD) as (new' & maps' & r & ED' & ER & HT).
  rewrite ED in ED'. injection ED' as <- <-.
  destruct HT as [(HT & _)|(_ & grains' & pm' & f & HT & _ & F1 & F2 & F3 & INJ & GR & _ & _ & PM)]; [congruence|].
  rewrite ET in HT. injection HT as <- <-. destruct (mget k grains) as [[g d]|] eqn:E; [|reflexivity]. exfalso.
  destruct (proj1 (GR k g) (ex_intro _ d E)) as (c & C1 & C2).
  assert (X : exists x, mget c r = Some x).
  { pose proof HCFG as (CL & CO & CD).
    destruct (mget c r) as [x|] eqn:Er; [eauto|exfalso].
    unfold track in ET. rewrite old_shapes_eq, ER in ET. cbn [obind] in ET.
    revert ET. generalize (mkTState [] (first_free old) 0 0 (map (map (fun x : nat * nat => (Some (fst x), snd x))) maps) (map (fun m : list (nat * nat) => repeat false (length m)) maps)).
    intros st ET. assert (L : forall l s, In c (map fst l) -> forall s', track_loop old thr allow r l s <> Some (Some s')).
    { induction l as [|[a g'] l IH]; intros s Hin s' H; [destruct Hin|]. cbn [track_loop] in H. cbn [map fst] in Hin.
      destruct (Nat.eq_dec a c) as [->|N]; [rewrite Er in H; discriminate|].
      destruct (mget a r) as [y|]; [|discriminate]. cbn [obind] in H.
      destruct (decide old thr allow g' y s) as [[[[id dd] s1]|]|]; cbn [obind] in H; try discriminate.
      destruct (insert_grain a g' id dd s1) as [s2|]; [|discriminate]. cbn [obind] in H.
      destruct Hin as [Hin|Hin]; [contradiction|]. apply (IH s2 Hin s' H). }
    destruct (track_loop old thr allow r new st) as [[s'|]|] eqn:EL; [|discriminate|discriminate].
    apply (L new st) in EL; [exact EL|]. apply mget_key. eauto. }
  destruct X as [[o|] Er].
  - assert (o = k) by (pose proof (F1 c o Er); congruence). subst o.
    destruct (proj1 (GR k g) (ex_intro _ d E)) as (c' & C1' & C2').
    pose proof HCFG as HCFG'. destruct (C20_partial_injection query (shapes new) (old_shapes old) n dim HQ) as (r' & ER' & _ & _ & RO).
    + (* the detected grains are in order *)
      destruct HCFG' as (CL & CO & CD). destruct (C54_detection components ops HC CO) as (new' & maps' & ED' & MS & _ & LM & A1 & A2 & _).
      rewrite ED in ED'. injection ED' as <- <-. split; [unfold msorted, shapes; rewrite map_keys; exact MS|]. split.
      * intros id g0 s Hin Hs. unfold shapes in Hin. apply in_map_iff in Hin. destruct Hin as ([c0 tg] & E0 & Hin). cbn [fst snd] in E0. injection E0 as -> <-.
        apply (In_mget _ _ _ _ MS) in Hin. apply In_nth_error in Hs. destruct Hs as [sid Hs].
        destruct (A2 id tg sid s Hin Hs) as (op & i & p & _ & (parts & conns & P1 & P2) & ->).
        apply (CD parts conns); [eapply nth_error_In; exact P1|eapply nth_error_In; exact P2].
      * intros id g0 Hin. unfold shapes in Hin. apply in_map_iff in Hin. destruct Hin as ([c0 tg] & E0 & Hin). cbn [fst snd] in E0. injection E0 as -> <-.
        apply (In_mget _ _ _ _ MS) in Hin.
        destruct (C54_values components ops new maps id tg HC CO ED Hin) as (op & parts & conns & m & is & ps & Eo & Em & NE & S & P & _).
        destruct is as [|i is]; [contradiction|]. inversion P as [|? p ? ps' H1 H2]; subst.
        destruct (A1 op i p) as (gid & sid & g1 & (m1 & M1 & M2) & G1 & G2 & _); [exists parts, conns; auto|].
        pose proof (proj1 (S 0 i) eq_refl) as Hi. assert (m1 = m) by congruence. subst m1. assert (gid = id) by congruence. subst gid.
        assert (g1 = tg) by congruence. subst g1. rewrite G2. apply (vget_lt _ _ _ _ Eo).
    + exact HOLD.
    + rewrite ER in ER'. injection ER' as <-. destruct (RO c k Er) as (sg & sgo & _ & _ & _ & B & _).
      unfold old_shapes in B. rewrite (mget_map _ _ (fun x : tracked => t_grain (fst x))) in B. rewrite Hk in B. discriminate.
  - assert (U : unmatched_above new r thr c \/ ~ unmatched_above new r thr c).
    { destruct (exceeds g thr) eqn:EX.
      - left. apply exceeds_true in EX. destruct EX as (v & V1 & V2). exists g, v. auto.
      - right. intros (g' & v & U1 & _ & U3 & U4). assert (g' = g) by congruence. subst g'.
        assert (exceeds g thr = true) by (apply exceeds_true; eauto). congruence. }
    destruct U as [U|U].
    + destruct (F2 c Er U) as (k' & K1 & K2). assert (k' = k) by congruence. subst k'. specialize (K2 j og Hj). lia.
    + pose proof (F3 c Er U). congruence.
Qed.
Print Assumptions C22_reuse_partial.

(** ** A history in which the id of a vanished grain is given to another one *)
Definition ball (x : Q) : particle := mkParticle (mkSegment [x] 1%Q) 1%Q 2%Q.
Definition one_op (xs : list Q) : list (list particle * list (nat * nat)) := [(map ball xs, [])].

(** detection followed by tracking *)
Definition track_config (old : fmap tracked) (xs : list Q) : option (fmap tracked * list (list (option nat * nat))) :=
  match detect_grains some_components (one_op xs) with
  | Some (Some (new, maps)) =>
      match track scan_query (1#2) true new maps old 1 with Some (Some x) => Some x | _ => None end
  | _ => None
  end.

Definition history (configs : list (list Q)) : option (list (list (nat * list Q))) :=
  let view := fun m : fmap tracked => map (fun p => (fst p, concat (map s_center (g_segments (t_grain (fst (snd p))))))) m in
  (fix go (old : fmap tracked) (l : list (list Q)) : option (list (list (nat * list Q))) :=
    match l with
    | [] => Some []
    | c :: l => match track_config old c with
                | None => None
                | Some (g, _) => match go g l with None => None | Some r => Some (view g :: r) end
                end
    end) [] configs.

(** The grain at 10 has id 1; it vanishes; a grain appears at 50 and is given id 1. *)
Theorem C22_reuse_refuted : ~ (forall c1 c2 c3 h1 h2 h3 k, history [c1; c2; c3] = Some [h1; h2; h3] ->
  In k (map fst h1) -> ~ In k (map fst h2) -> ~ In k (map fst h3)).
Proof.
  intro H. refine (H [0; 10]%Q [0%Q] [0; 50]%Q [(0, [0%Q]); (1, [10%Q])] [(0, [0%Q])] [(0, [0%Q]); (1, [50%Q])] 1 _ _ _ _).
  - vm_compute. reflexivity.
  - cbn. auto.
  - cbn. intuition discriminate.
  - cbn. auto.
Qed.
Print Assumptions C22_reuse_refuted.

(** ** Numbering of the segments *)
Lemma oeqb_true : forall a b, oeqb a b = true <-> a = b.
Proof.
  intros [a|] [b|]; cbn; try (split; [discriminate|congruence]); [|tauto]. rewrite Nat.eqb_eq. split; congruence.
Qed.

Lemma segment_index_cons : forall k j n m, segment_index k ((j, n) :: m) = if oeqb (fst j) (fst k) && (snd j =? snd k) then Some n else segment_index k m.
Proof. reflexivity. Qed.

Lemma number_list_spec : forall pm n acc, fst (number_list pm n acc) = n + length pm /\
  (forall k, (forall i x, vget pm i = Some x -> x <> k) -> segment_index k (snd (number_list pm n acc)) = segment_index k acc) /\
  (forall k i, vget pm i = Some k -> (forall j, vget pm j = Some k -> j = i) -> segment_index k (snd (number_list pm n acc)) = Some (n + i)).
Proof.
  induction pm as [|x pm IH]; intros n acc; cbn [number_list].
  - cbn. split; [lia|]. split; [reflexivity|]. intros k [|i]; discriminate.
  - destruct (IH (S n) ((x, n) :: acc)) as (I1 & I2 & I3). split; [rewrite I1; cbn [length]; lia|]. split.
    + intros k H. rewrite I2; [|intros i y Hy; apply (H (S i) y Hy)]. rewrite segment_index_cons.
      destruct (oeqb (fst x) (fst k) && (snd x =? snd k)) eqn:E; [|reflexivity]. exfalso. apply andb_prop in E. destruct E as [E1 E2].
      apply oeqb_true in E1. apply Nat.eqb_eq in E2. apply (H 0 x eq_refl). destruct x, k. cbn in *. congruence.
    + intros k i Hi Hu. destruct i as [|i].
      * cbn in Hi. injection Hi as ->. rewrite I2.
        -- rewrite segment_index_cons. replace (oeqb (fst k) (fst k)) with true by (symmetry; apply oeqb_true; reflexivity).
           rewrite Nat.eqb_refl. cbn [andb]. f_equal. lia.
        -- intros j y Hy ->. specialize (Hu (S j) Hy). discriminate.
      * rewrite (I3 k i Hi); [f_equal; lia|]. intros j Hj. specialize (Hu (S j) Hj). lia.
Qed.

(** position of entry [i] of list [op] in the concatenation *)
Definition flat_index (pms : list (list (option nat * nat))) (op i : nat) : nat := length (concat (firstn op pms)) + i.

Lemma number_lists_spec : forall pms n acc, fst (number_lists pms n acc) = n + length (concat pms) /\
  (forall k, (forall op m i x, vget pms op = Some m -> vget m i = Some x -> x <> k) -> segment_index k (snd (number_lists pms n acc)) = segment_index k acc) /\
  (forall k op m i, vget pms op = Some m -> vget m i = Some k ->
     (forall op' m' i', vget pms op' = Some m' -> vget m' i' = Some k -> op' = op /\ i' = i) ->
     segment_index k (snd (number_lists pms n acc)) = Some (n + flat_index pms op i)).
Proof.
  induction pms as [|pm pms IH]; intros n acc; cbn [number_lists].
  - cbn. split; [lia|]. split; [reflexivity|]. intros k [|op]; discriminate.
  - destruct (number_list_spec pm n acc) as (N1 & N2 & N3). destruct (IH (fst (number_list pm n acc)) (snd (number_list pm n acc))) as (I1 & I2 & I3).
    split; [rewrite I1, N1; cbn [concat]; rewrite app_length; lia|]. split.
    + intros k H. rewrite I2; [apply N2; intros i x Hx; apply (H 0 pm i x eq_refl Hx)|]. intros op m i x Hm Hx. apply (H (S op) m i x Hm Hx).
    + intros k op m i Hm Hi Hu. destruct op as [|op].
      * cbn in Hm. injection Hm as ->. rewrite I2.
        -- rewrite (N3 k i Hi); [reflexivity|]. intros j Hj. apply (Hu 0 m j eq_refl Hj).
        -- intros op' m' i' x Hm' Hx ->. destruct (Hu (S op') m' i' Hm' Hx). discriminate.
      * cbn in Hm. rewrite (I3 k op m i Hm Hi).
        -- rewrite N1. unfold flat_index. cbn [firstn concat]. rewrite app_length. f_equal. lia.
        -- intros op' m' i' Hm' Hx. destruct (Hu (S op') m' i' Hm' Hx). split; [lia|assumption].
Qed.

Lemma flat_index_lt : forall pms op m i x, vget pms op = Some m -> vget m i = Some x -> flat_index pms op i < length (concat pms).
Proof.
  unfold flat_index. induction pms as [|pm pms IH]; intros [|op] m i x Hm Hi; try discriminate.
  - cbn in Hm. injection Hm as ->. cbn [firstn concat length]. rewrite app_length. apply vget_lt in Hi. lia.
  - cbn in Hm. cbn [firstn concat]. rewrite !app_length. specialize (IH op m i x Hm Hi). lia.
Qed.

Lemma flat_index_inj : forall pms op m i x op' m' i' x', vget pms op = Some m -> vget m i = Some x -> vget pms op' = Some m' -> vget m' i' = Some x' ->
  flat_index pms op i = flat_index pms op' i' -> op = op' /\ i = i'.
Proof.
  unfold flat_index. induction pms as [|pm pms IH]; intros [|op] m i x [|op'] m' i' x' Hm Hi Hm' Hi' E; try discriminate; cbn in Hm, Hm'; cbn [firstn concat] in E.
  - cbn in E. auto.
  - injection Hm as ->. apply vget_lt in Hi. rewrite app_length in E. cbn in E. lia.
  - injection Hm' as ->. apply vget_lt in Hi'. rewrite app_length in E. cbn in E. lia.
  - rewrite !app_length in E. destruct (IH op m i x op' m' i' x' Hm Hi Hm' Hi'); [lia|]. split; congruence.
Qed.

(** After tracking every particle with a valid grain id has its own number below
    the number of particles. *)
Theorem C22_segment_numbers : forall components query thr allow ops old n dim new maps grains pm,
  components_contract components -> query_ok query -> config_ok dim n ops -> grains_ok dim n (old_shapes old) ->
  detect_grains components ops = Some (Some (new, maps)) ->
  track query thr allow new maps old n = Some (Some (grains, pm)) ->
  let numbering := build_inverse_mapping pm in
  fst numbering = length (concat pm) /\
  (forall op m i k sid, vget pm op = Some m -> vget m i = Some (Some k, sid) ->
     exists j, segment_index (Some k, sid) (snd numbering) = Some j /\ j < fst numbering) /\
  (forall k sid k' sid' j, (exists op m i, vget pm op = Some m /\ vget m i = Some (Some k, sid)) ->
     (exists op m i, vget pm op = Some m /\ vget m i = Some (Some k', sid')) ->
     segment_index (Some k, sid) (snd numbering) = Some j -> segment_index (Some k', sid') (snd numbering) = Some j -> k = k' /\ sid = sid').
Proof.
  intros components query thr allow ops old n dim new maps grains pm HC HQ HCFG HOLD ED ET numbering.
  destruct (C22_lookup components query thr allow ops old n dim new maps grains pm HC HQ HCFG HOLD ED ET) as [_ U].
  destruct (number_lists_spec pm 0 []) as (N1 & _ & N3). cbn [Nat.add] in N1. subst numbering. unfold build_inverse_mapping.
  assert (IDX : forall op m i k sid, vget pm op = Some m -> vget m i = Some (Some k, sid) ->
    segment_index (Some k, sid) (snd (number_lists pm 0 [])) = Some (flat_index pm op i)).
  { intros op m i k sid Hm Hi. apply (N3 (Some k, sid) op m i Hm Hi). intros op' m' i' Hm' Hi'. apply (U op' m' i' op m i k sid); assumption. }
  split; [exact N1|]. split.
  - intros op m i k sid Hm Hi. exists (flat_index pm op i). split; [apply (IDX op m i k sid Hm Hi)|]. rewrite N1. apply (flat_index_lt pm op m i _ Hm Hi).
  - intros k sid k' sid' j (op & m & i & Hm & Hi) (op' & m' & i' & Hm' & Hi') E E'.
    rewrite (IDX op m i k sid Hm Hi) in E. rewrite (IDX op' m' i' k' sid' Hm' Hi') in E'.
    destruct (flat_index_inj pm op m i _ op' m' i' _ Hm Hi Hm' Hi') as [<- <-]; [congruence|].
    assert (m' = m) by congruence. subst m'. rewrite Hi in Hi'. injection Hi' as <- <-. auto.
Qed.
Print Assumptions C22_segment_numbers.

(** A configuration meeting the hypotheses: two old grains with ids 3 and 7; the
    grains found at 0 and 10 keep them in another order, a new one appears at 20 and
    one below the threshold at 30. *)
Definition ex_old_grains : fmap tracked :=
  [ (3, (mkTGrain (mkGrain 0 [mkSegment [10%Q] 1%Q]) 1%Q (Some 1%Q) 3%Q, DNone)); (7, (mkTGrain (mkGrain 0 [mkSegment [0%Q] 1%Q]) 1%Q (Some 1%Q) 1%Q, DNone)) ].
Definition ex_config : list (list particle * list (nat * nat)) :=
  [([ball 0%Q; ball 10%Q; ball 20%Q; mkParticle (mkSegment [30%Q] 1%Q) (1#10)%Q 2%Q], [])].

Example C22_case : components_contract some_components /\ query_ok scan_query /\ config_ok 1 1 ex_config /\ grains_ok 1 1 (old_shapes ex_old_grains) /\
  exists new maps grains, detect_grains some_components ex_config = Some (Some (new, maps)) /\
    track scan_query (1#2) true new maps ex_old_grains 1 = Some (Some (grains, [[(Some 7, 0); (Some 3, 0); (Some 8, 0); (None, 0)]])) /\
    map (fun p => (fst p, snd (snd p))) grains = [(3, DShrinking); (7, DGrowing); (8, DNone)].
Proof.
  split; [exact C17_contract_satisfiable|]. split; [exact scan_query_ok|]. split; [|split].
  - split; [reflexivity|]. split.
    + intros parts conns a b [E|[]] H. injection E as <- <-. destruct H.
    + intros parts conns p [E|[]] H. injection E as <- <-. cbn in H. repeat (destruct H as [<-|H]; [reflexivity|]). destruct H.
  - split; [repeat constructor|]. split.
    + intros id g s H Hs. cbn in H. repeat (destruct H as [E|H]; [injection E as <- <-; cbn in Hs; destruct Hs as [<-|[]]; reflexivity|]). destruct H.
    + intros id g H. cbn in H. repeat (destruct H as [E|H]; [injection E as <- <-; cbn; lia|]). destruct H.
  - eexists _, _, _. split; [vm_compute; reflexivity|]. split; vm_compute; reflexivity.
Qed.
