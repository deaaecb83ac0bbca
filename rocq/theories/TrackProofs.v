(** Proofs for the numbering of the grains in [track]. *)
From Coq Require Import List QArith Arith Bool Lia Sorted.
From Verif Require Import Util MapModel FloodModel TransferModel TransferSpec TransferProofs TransferProps DetectModel TrackModel.
Import ListNotations.
Local Open Scope nat_scope.

Lemma mput_length : forall V k (v : V) m, mget k m = None -> length (mput k v m) = S (length m).
Proof.
  intros V k v. induction m as [|[a w] m IH]; intro H; cbn [mput mget] in *; [reflexivity|].
  destruct (Nat.eqb_spec a k); [discriminate|]. destruct (k <? a); cbn [length]; [reflexivity|]. rewrite (IH H). reflexivity.
Qed.

Lemma mget_map : forall V W (f : V -> W) (m : fmap V) k, mget k (map (fun p => (fst p, f (snd p))) m) = option_map f (mget k m).
Proof.
  intros V W f m k. induction m as [|[a w] m IH]; cbn [map mget fst snd]; [reflexivity|]. destruct (a =? k); [reflexivity|exact IH].
Qed.

Lemma map_keys : forall V W (f : V -> W) (m : fmap V), map fst (map (fun p => (fst p, f (snd p))) m) = map fst m.
Proof. intros. rewrite map_map. apply map_ext. reflexivity. Qed.

Lemma first_free_spec : forall V (m : fmap V), msorted m ->
  (forall k v, mget k m = Some v -> k < first_free m) /\ (m = [] /\ first_free m = 0 \/ exists k v, mget k m = Some v /\ first_free m = S k).
Proof.
  intros V m MS. unfold first_free. destruct (rev m) as [|[k v] l] eqn:E.
  - assert (m = []) as -> by (rewrite <- (rev_involutive m), E; reflexivity). split; [intros k v H; discriminate|auto].
  - assert (M : m = rev l ++ [(k, v)]) by (rewrite <- (rev_involutive m), E; reflexivity).
    split; [|right; exists k, v; split; [apply In_mget; [exact MS|]; rewrite M; apply in_or_app; right; left; reflexivity|reflexivity]].
    intros j w H. apply mget_In in H. rewrite M in H. apply in_app_or in H. destruct H as [H|[H|[]]]; [|injection H as <- _; lia].
    unfold msorted in MS. rewrite M, map_app in MS. cbn [map fst] in MS.
    assert (G : forall l1 x, StronglySorted lt (l1 ++ [x]) -> forall y, In y l1 -> y < x).
    { induction l1 as [|a l1 IH]; intros x HS y Hy; [destruct Hy|]. cbn [app] in HS. inversion HS as [|? ? S1 S2]; subst.
      destruct Hy as [<-|Hy]; [|apply (IH x S1 y Hy)]. rewrite Forall_forall in S2. apply S2, in_or_app. right. left. reflexivity. }
    specialize (G _ _ MS j). assert (j < k); [|lia]. apply G. apply in_map_iff. exists (j, w). auto.
Qed.

(** ** Renaming *)
Definition renamed (f : nat -> option nat) (m : list (nat * nat)) : list (option nat * nat) := map (fun x => (f (fst x), snd x)) m.
Definition flags (f : nat -> option nat) (m : list (nat * nat)) : list bool := map (fun x => negb (same_id (f (fst x)) (fst x))) m.
Definition upd (f : nat -> option nat) (c : nat) (id : option nat) (x : nat) : option nat := if x =? c then id else f x.

Lemma same_id_true : forall a b, same_id a b = true <-> a = Some b.
Proof.
  intros [a|] b; cbn; [|split; discriminate]. rewrite Nat.eqb_eq. split; [intros ->; reflexivity|]. intro E. injection E as ->. reflexivity.
Qed.

Lemma rename_spec : forall cid id f m, f cid = Some cid -> id <> Some cid ->
  rename cid id (renamed f m) (flags f m) = Some (renamed (upd f cid id) m, flags (upd f cid id) m).
Proof.
  intros cid id f m Hf Hid. induction m as [|[c s] m IH]; cbn [renamed flags map rename fst snd]; [reflexivity|].
  fold (renamed f m). fold (flags f m). fold (renamed (upd f cid id) m). fold (flags (upd f cid id) m).
  rewrite IH. cbn [obind fst snd]. rewrite negb_involutive.
  assert (U : upd f cid id c = if c =? cid then id else f c) by reflexivity. rewrite U. destruct (Nat.eqb_spec c cid) as [->|N].
  - rewrite Hf. cbn [same_id]. rewrite Nat.eqb_refl. cbn [andb].
    assert (E : same_id id cid = false) by (destruct (same_id id cid) eqn:E; [apply same_id_true in E; contradiction|reflexivity]).
    rewrite E. reflexivity.
  - destruct (same_id (f c) c) eqn:E1; cbn [andb]; [|reflexivity].
    apply same_id_true in E1. rewrite E1. cbn [same_id]. destruct (Nat.eqb_spec c cid); [contradiction|]. reflexivity.
Qed.

Lemma upd_away : forall f cid id m, (forall s, ~ In (cid, s) m) -> renamed (upd f cid id) m = renamed f m /\ flags (upd f cid id) m = flags f m.
Proof.
  intros f cid id m H. assert (E : forall x, In x m -> upd f cid id (fst x) = f (fst x)).
  { intros [c s] Hx. unfold upd. cbn [fst]. destruct (Nat.eqb_spec c cid) as [->|]; [|reflexivity]. exfalso. apply (H s Hx). }
  split; apply map_ext_in; intros x Hx; rewrite (E x Hx); reflexivity.
Qed.

Section Track.
Variables (old : fmap tracked) (thr : Q) (allow : bool) (r : fmap (option nat)) (new : fmap tgrain) (maps : list (list (nat * nat))) (base : nat).
Hypothesis new_sorted : msorted new.
Hypothesis r_keys : forall c g, mget c new = Some g -> exists x, mget c r = Some x.
Hypothesis r_inj : forall a b o, mget a r = Some (Some o) -> mget b r = Some (Some o) -> a = b.
Hypothesis r_old : forall c o g, mget c new = Some g -> mget c r = Some (Some o) ->
  exists og, mget o old = Some og /\ g_op (t_grain (fst og)) = g_op (t_grain g).
Hypothesis old_lt : forall o og, mget o old = Some og -> o < base.
Hypothesis maps_ok : forall op m c s, vget maps op = Some m -> In (c, s) m -> exists g, mget c new = Some g /\ g_op (t_grain g) = op.
Hypothesis ops_ok : forall c g, mget c new = Some g -> g_op (t_grain g) < length maps.

Definition rejected (c : nat) : Prop := exists g, mget c new = Some g /\ mget c r = Some None /\ exceeds g thr = true /\ allow = false.

(** dynamics of a detected grain *)
Definition motion (c : nat) (g : tgrain) (d : dynamics) : Prop :=
  match mget c r with
  | Some (Some o) => exists og, mget o old = Some og /\ d = if qltb (t_measure (fst og)) (t_measure g) then DGrowing else DShrinking
  | _ => d = DNone
  end.

Definition fate (numberer : nat) (f : nat -> option nat) (c : nat) : Prop :=
  exists g, mget c new = Some g /\
  ((exists o, mget c r = Some (Some o) /\ f c = Some o) \/
   (mget c r = Some None /\ exceeds g thr = true /\ allow = true /\ exists k, f c = Some k /\ base <= k < numberer) \/
   (mget c r = Some None /\ (exceeds g thr = false \/ allow = false) /\ f c = None)).

Record tinv (done : list nat) (f : nat -> option nat) (st : tstate) : Prop := {
  ti_base : base <= ts_numberer st;
  ti_fate : forall c, In c done -> fate (ts_numberer st) f c;
  ti_rest : forall c, ~ In c done -> f c = Some c;
  ti_inj : forall a b k, In a done -> In b done -> f a = Some k -> f b = Some k -> a = b;
  ti_sorted : msorted (ts_grains st);
  ti_grains : forall k g d, mget k (ts_grains st) = Some (g, d) <-> exists c, In c done /\ f c = Some k /\ mget c new = Some g /\ motion c g d;
  ti_fresh : forall k, base <= k < ts_numberer st -> exists c, In c done /\ f c = Some k;
  ti_count : length (ts_grains st) + ts_skipped st + ts_invalid st = length done;
  ti_invalid : ts_invalid st = 0 <-> forall c, In c done -> ~ rejected c;
  ti_pm : ts_pm st = map (renamed f) maps;
  ti_changed : ts_changed st = map (flags f) maps }.

Lemma motion_unique : forall c g d d', motion c g d -> motion c g d' -> d = d'.
Proof.
  unfold motion. intros c g d d'. destruct (mget c r) as [[o|]|]; [|congruence|congruence].
  intros (og & E & ->) (og' & E' & ->). assert (og' = og) by congruence. subst. reflexivity.
Qed.

Lemma vset_map : forall A B (F F' : A -> B) l i a, vget l i = Some a -> (forall j b, vget l j = Some b -> j <> i -> F' b = F b) ->
  vset (map F l) i (F' a) = Some (map F' l).
Proof.
  intros A B F F' l i a Hi Hj.
  assert (Hl : i < length (map F l)) by (rewrite map_length; apply (vget_lt _ _ _ _ Hi)).
  destruct (vset_some _ (map F l) i (F' a) Hl) as [v Ev]. rewrite Ev. f_equal. apply list_ext. intro j.
  rewrite (vset_get _ _ _ _ _ _ Ev). unfold vget in *. destruct (Nat.eqb_spec j i) as [->|N].
  - rewrite nth_error_map, Hi. reflexivity.
  - rewrite !nth_error_map. destruct (nth_error l j) as [b|] eqn:Eb; [|reflexivity]. cbn. rewrite (Hj j b Eb N). reflexivity.
Qed.

Lemma insert_spec : forall f cid g id d grains num inv skip, mget cid new = Some g -> f cid = Some cid ->
  insert_grain cid g id d (mkTState grains num inv skip (map (renamed f) maps) (map (flags f) maps)) =
  Some (mkTState (match id with Some k => memplace k (g, d) grains | None => grains end) num inv skip
          (map (renamed (upd f cid id)) maps) (map (flags (upd f cid id)) maps)).
Proof.
  intros f cid g id d grains num inv skip Eg Ef. unfold insert_grain. cbn [ts_grains ts_numberer ts_invalid ts_skipped ts_pm ts_changed].
  destruct (same_id id cid) eqn:ES.
  - apply same_id_true in ES. subst id.
    assert (EX : forall x, upd f cid (Some cid) x = f x).
    { intro x. unfold upd. destruct (Nat.eqb_spec x cid) as [->|]; congruence. }
    do 2 f_equal; apply map_ext; intro m; apply map_ext; intro x; rewrite EX; reflexivity.
  - assert (NE : id <> Some cid) by (intro C; apply same_id_true in C; congruence).
    destruct (vget_some _ maps (g_op (t_grain g)) (ops_ok cid g Eg)) as [m Em].
    assert (AWAY : forall j b, vget maps j = Some b -> j <> g_op (t_grain g) -> forall s, ~ In (cid, s) b).
    { intros j b Hj N s C. destruct (maps_ok j b cid s Hj C) as (g' & E1 & E2). assert (g' = g) by congruence. subst g'. congruence. }
    unfold vget at 1 2. rewrite !nth_error_map. unfold vget in Em. rewrite Em. cbn [option_map obind].
    rewrite (rename_spec cid id f m Ef NE). cbn [obind fst snd].
    rewrite (vset_map _ _ (renamed f) (renamed (upd f cid id)) maps (g_op (t_grain g)) m Em).
    2:{ intros j b Hj N. apply upd_away. apply (AWAY j b Hj N). }
    cbn [obind]. rewrite (vset_map _ _ (flags f) (flags (upd f cid id)) maps (g_op (t_grain g)) m Em).
    2:{ intros j b Hj N. apply upd_away. apply (AWAY j b Hj N). }
    reflexivity.
Qed.

(** Inserting with a valid id. *)
Lemma step_valid : forall done f st cid g k d num, tinv done f st -> mget cid new = Some g -> ~ In cid done ->
  ts_numberer st <= num -> (forall c, In c done -> f c <> Some k) -> motion cid g d ->
  ((mget cid r = Some (Some k) /\ num = ts_numberer st) \/
   (mget cid r = Some None /\ exceeds g thr = true /\ allow = true /\ k = ts_numberer st /\ num = S k)) ->
  exists st', insert_grain cid g (Some k) d (mkTState (ts_grains st) num (ts_invalid st) (ts_skipped st) (ts_pm st) (ts_changed st)) = Some st' /\
    tinv (cid :: done) (upd f cid (Some k)) st'.
Proof.
  intros done f st cid g k d num I Eg ND Hn Hk Hm Hc. pose proof I as [T1 T2 T3 T4 T5 T6 T7 T8 T9 T10 T11].
  rewrite T10, T11. rewrite (insert_spec f cid g (Some k) d _ _ _ _ Eg (T3 cid ND)). eexists. split; [reflexivity|].
  assert (U1 : upd f cid (Some k) cid = Some k) by (unfold upd; rewrite Nat.eqb_refl; reflexivity).
  assert (U2 : forall c, c <> cid -> upd f cid (Some k) c = f c) by (intros c N; unfold upd; destruct (Nat.eqb_spec c cid); [contradiction|reflexivity]).
  assert (U3 : forall c, In c done -> upd f cid (Some k) c = f c) by (intros c N; apply U2; congruence).
  assert (NG : mget k (ts_grains st) = None).
  { destruct (mget k (ts_grains st)) as [[g' d']|] eqn:E; [|reflexivity]. apply T6 in E. destruct E as (c & C1 & C2 & _). exfalso. apply (Hk c C1 C2). }
  split; cbn [ts_grains ts_numberer ts_invalid ts_skipped ts_pm ts_changed].
  - lia.
  - intros c [<-|Hin].
    + exists g. split; [exact Eg|]. destruct Hc as [[Hc _]|(Hc & H1 & H2 & -> & ->)].
      * left. exists k. auto.
      * right. left. split; [exact Hc|]. split; [exact H1|]. split; [exact H2|]. exists (ts_numberer st). split; [exact U1|lia].
    + destruct (T2 c Hin) as (g' & E' & F). exists g'. split; [exact E'|]. rewrite (U3 c Hin).
      destruct F as [F|[(F1 & F2 & F3 & k' & F4 & F5)|F]]; [left; exact F|right; left|right; right; exact F].
      split; [exact F1|]. split; [exact F2|]. split; [exact F3|]. exists k'. split; [exact F4|lia].
  - intros c N. rewrite U2; [apply T3; intro C; apply N; right; exact C|]. intros ->. apply N. left. reflexivity.
  - intros a b k' [<-|Ha] [<-|Hb]; [reflexivity| | |].
    + rewrite U1, (U3 b Hb). intros E1 E2. exfalso. injection E1 as <-. apply (Hk b Hb E2).
    + rewrite U1, (U3 a Ha). intros E1 E2. exfalso. injection E2 as <-. apply (Hk a Ha E1).
    + rewrite (U3 a Ha), (U3 b Hb). apply T4; assumption.
  - apply memplace_sorted, T5.
  - intros k' g' d'. rewrite mget_memplace. destruct (Nat.eqb_spec k k') as [<-|N].
    + unfold tracked in NG. rewrite NG. split.
      * intro E. injection E as <- <-. exists cid. split; [left; reflexivity|]. auto.
      * intros (c & [<-|C1] & C2 & C3 & C4).
        -- assert (g' = g) by congruence. subst g'. rewrite (motion_unique _ _ _ _ C4 Hm). reflexivity.
        -- exfalso. rewrite (U3 c C1) in C2. apply (Hk c C1 C2).
    + assert (EQ : forall o : option tracked, match o with Some w => Some w | None => None end = o) by (intros []; reflexivity).
      unfold tracked in EQ. rewrite EQ. fold tracked. rewrite T6. split.
      * intros (c & C1 & C2). exists c. split; [right; exact C1|]. rewrite (U3 c C1). exact C2.
      * intros (c & [<-|C1] & C2 & C3); [rewrite U1 in C2; congruence|]. exists c. rewrite (U3 c C1) in C2. auto.
  - intros k' Hk'. assert (X : base <= k' < ts_numberer st \/ k' = k).
    { destruct Hc as [[_ ->]|(_ & _ & _ & -> & ->)]; [left; exact Hk'|]. destruct (Nat.eq_dec k' (ts_numberer st)); [right; assumption|left; lia]. }
    destruct X as [X| ->].
    + destruct (T7 k' X) as (c & C1 & C2). exists c. split; [right; exact C1|]. rewrite (U3 c C1). exact C2.
    + exists cid. split; [left; reflexivity|exact U1].
  - unfold memplace, tracked in *. rewrite NG, mput_length by exact NG. cbn [length]. lia.
  - rewrite T9. split.
    + intros H c [<-|Hin]; [|apply H, Hin]. intros (g' & _ & R2 & _ & R4).
      destruct Hc as [[Hc _]|(_ & _ & Hc & _)]; congruence.
    + intros H c Hin. apply H. right. exact Hin.
  - reflexivity.
  - reflexivity.
Qed.

(** Without id. *)
Lemma step_none : forall done f st cid g inv skip, tinv done f st -> mget cid new = Some g -> ~ In cid done ->
  mget cid r = Some None ->
  ((exceeds g thr = false /\ inv = ts_invalid st /\ skip = S (ts_skipped st)) \/
   (exceeds g thr = true /\ allow = false /\ inv = S (ts_invalid st) /\ skip = ts_skipped st)) ->
  exists st', insert_grain cid g None DNone (mkTState (ts_grains st) (ts_numberer st) inv skip (ts_pm st) (ts_changed st)) = Some st' /\
    tinv (cid :: done) (upd f cid None) st'.
Proof.
  intros done f st cid g inv skip I Eg ND Hr Hc. pose proof I as [T1 T2 T3 T4 T5 T6 T7 T8 T9 T10 T11].
  rewrite T10, T11. rewrite (insert_spec f cid g None DNone _ _ _ _ Eg (T3 cid ND)). eexists. split; [reflexivity|].
  assert (U1 : upd f cid None cid = None) by (unfold upd; rewrite Nat.eqb_refl; reflexivity).
  assert (U2 : forall c, c <> cid -> upd f cid None c = f c) by (intros c N; unfold upd; destruct (Nat.eqb_spec c cid); [contradiction|reflexivity]).
  assert (U3 : forall c, In c done -> upd f cid None c = f c) by (intros c N; apply U2; congruence).
  split; cbn [ts_grains ts_numberer ts_invalid ts_skipped ts_pm ts_changed].
  - exact T1.
  - intros c [<-|Hin].
    + exists g. split; [exact Eg|]. right. right. split; [exact Hr|]. split; [|exact U1]. destruct Hc as [(H & _)|(_ & H & _)]; auto.
    + destruct (T2 c Hin) as (g' & E' & F). exists g'. split; [exact E'|]. rewrite (U3 c Hin). exact F.
  - intros c N. rewrite U2; [apply T3; intro C; apply N; right; exact C|]. intros ->. apply N. left. reflexivity.
  - intros a b k' [<-|Ha] [<-|Hb]; [reflexivity| | |].
    + rewrite U1. discriminate.
    + rewrite U1. discriminate.
    + rewrite (U3 a Ha), (U3 b Hb). apply T4; assumption.
  - exact T5.
  - intros k' g' d'. rewrite T6. split.
    + intros (c & C1 & C2). exists c. split; [right; exact C1|]. rewrite (U3 c C1). exact C2.
    + intros (c & [<-|C1] & C2 & C3); [congruence|]. exists c. rewrite (U3 c C1) in C2. auto.
  - intros k' Hk'. destruct (T7 k' Hk') as (c & C1 & C2). exists c. split; [right; exact C1|]. rewrite (U3 c C1). exact C2.
  - cbn [length]. destruct Hc as [(_ & -> & ->)|(_ & _ & -> & ->)]; lia.
  - destruct Hc as [(H & -> & _)|(H1 & H2 & -> & _)].
    + rewrite T9. split.
      * intros X c [<-|Hin]; [|apply X, Hin]. intros (g' & R1 & _ & R3 & _). congruence.
      * intros X c Hin. apply X. right. exact Hin.
    + split; [discriminate|]. intro X. exfalso. apply (X cid (or_introl eq_refl)). exists g. auto.
  - reflexivity.
  - reflexivity.
Qed.

Lemma track_loop_spec : forall rest done f st, tinv done f st ->
  (forall c g, In (c, g) rest -> mget c new = Some g /\ ~ In c done) -> NoDup (map fst rest) ->
  exists st' done' f', track_loop old thr allow r rest st = Some (Some st') /\ tinv done' f' st' /\
    length done' = length done + length rest /\ (forall c, In c done' <-> In c done \/ In c (map fst rest)).
Proof.
  induction rest as [|[cid g] rest IH]; intros done f st I HR ND; cbn [track_loop].
  - exists st, done, f. split; [reflexivity|]. split; [exact I|]. split; [cbn; lia|]. intro c. cbn. tauto.
  - destruct (HR cid g (or_introl eq_refl)) as [Eg Nd]. destruct (r_keys cid g Eg) as [x Ex]. rewrite Ex. cbn [obind].
    cbn [map fst] in ND. inversion ND as [|? ? N1 N2]; subst.
    assert (STEP : exists id d st0 st1 f1, decide old thr allow g x st = Some (Some (id, d, st0)) /\
      insert_grain cid g id d st0 = Some st1 /\ tinv (cid :: done) f1 st1).
    { destruct x as [o|]; unfold decide.
      - destruct (r_old cid o g Eg Ex) as (og & Eo & Op). rewrite Eo. cbn [obind]. rewrite Op, Nat.eqb_refl.
        destruct (step_valid done f st cid g o (if qltb (t_measure (fst og)) (t_measure g) then DGrowing else DShrinking) (ts_numberer st) I Eg Nd) as (st1 & E1 & I1).
        + lia.
        + intros c Hc C. destruct (ti_fate _ _ _ I c Hc) as (g' & _ & [(o' & F1 & F2)|[(F1 & F2 & F3 & k & F4 & F5)|(F1 & F2 & F3)]]).
          * assert (o' = o) by congruence. subst o'. assert (c = cid) by (apply (r_inj c cid o); assumption). congruence.
          * assert (k = o) by congruence. subst k. apply old_lt in Eo. lia.
          * congruence.
        + unfold motion. rewrite Ex. exists og. auto.
        + left. auto.
        + eexists _, _, _, st1, _. split; [reflexivity|]. split; [|exact I1]. destruct st. exact E1.
      - destruct (exceeds g thr) eqn:EX; [destruct allow eqn:EA|].
        + destruct (step_valid done f st cid g (ts_numberer st) DNone (S (ts_numberer st)) I Eg Nd) as (st1 & E1 & I1).
          * lia.
          * intros c Hc C. destruct (ti_fate _ _ _ I c Hc) as (g' & E' & [(o' & F1 & F2)|[(F1 & F2 & F3 & k & F4 & F5)|(F1 & F2 & F3)]]).
            -- assert (o' = ts_numberer st) by congruence. subst o'. destruct (r_old c _ g' E' F1) as (og & Eo & _). apply old_lt in Eo.
               pose proof (ti_base _ _ _ I). lia.
            -- assert (k = ts_numberer st) by congruence. lia.
            -- congruence.
          * unfold motion. rewrite Ex. reflexivity.
          * right. auto.
          * eexists _, _, _, st1, _. split; [reflexivity|]. split; [exact E1|exact I1].
        + destruct (step_none done f st cid g (S (ts_invalid st)) (ts_skipped st) I Eg Nd Ex) as (st1 & E1 & I1).
          { right. auto. }
          eexists _, _, _, st1, _. split; [reflexivity|]. split; [exact E1|exact I1].
        + destruct (step_none done f st cid g (ts_invalid st) (S (ts_skipped st)) I Eg Nd Ex) as (st1 & E1 & I1).
          { left. auto. }
          eexists _, _, _, st1, _. split; [reflexivity|]. split; [exact E1|exact I1]. }
    destruct STEP as (id & d & st0 & st1 & f1 & E0 & E1 & I1). rewrite E0. cbn [obind]. rewrite E1. cbn [obind].
    destruct (IH (cid :: done) f1 st1 I1) as (st' & done' & f' & E' & I' & L' & S'); [|exact N2|].
    + intros c g' Hin. destruct (HR c g' (or_intror Hin)) as [A B]. split; [exact A|]. intros [<-|C]; [|contradiction].
      apply N1. apply in_map_iff. exists (cid, g'). auto.
    + exists st', done', f'. split; [exact E'|]. split; [exact I'|]. split; [cbn [length] in *; lia|].
      intro c. rewrite S'. cbn [map fst In]. tauto.
Qed.
End Track.
