(** Proofs for the creation of grains from particles. *)
From Coq Require Import List QArith Arith Bool Lia Relations.
From Verif Require Import Util MapModel StitchModel StitchSpec StitchProps FloodModel TransferModel DetectModel.
Import ListNotations.
Local Open Scope nat_scope.

(** ** Periodicity graph *)
Definition occurs (cs : list (nat * nat)) (p : nat) : Prop := exists q, In (p, q) cs \/ In (q, p) cs.
Definition linked (cs : list (nat * nat)) : nat -> nat -> Prop :=
  clos_refl_trans nat (fun a b => In (a, b) cs \/ In (b, a) cs).

Record graph_inv (cs : list (nat * nat)) (g : pgraph) : Prop := {
  gi_sorted : msorted (fst (fst g));
  gi_occurs : forall p, (exists v, mget p (fst (fst g)) = Some v) <-> occurs cs p;
  gi_lt : forall p v, mget p (fst (fst g)) = Some v -> v < snd (fst g);
  gi_inj : forall p q v, mget p (fst (fst g)) = Some v -> mget q (fst (fst g)) = Some v -> p = q;
  gi_surj : forall v, v < snd (fst g) -> exists p, mget p (fst (fst g)) = Some v;
  gi_edges : forall x y, In (x, y) (snd g) <-> exists a b, In (a, b) cs /\ mget a (fst (fst g)) = Some x /\ mget b (fst (fst g)) = Some y }.

(** Vertices only: the same for a set [P] of particles. *)
Definition verts (P : nat -> Prop) (vm : fmap nat * nat) : Prop :=
  msorted (fst vm) /\ (forall p, (exists v, mget p (fst vm) = Some v) <-> P p) /\
  (forall p v, mget p (fst vm) = Some v -> v < snd vm) /\
  (forall p q v, mget p (fst vm) = Some v -> mget q (fst vm) = Some v -> p = q) /\
  (forall v, v < snd vm -> exists p, mget p (fst vm) = Some v).

Lemma add_vertex_spec : forall P vm p, verts P vm ->
  verts (fun q => q = p \/ P q) (add_vertex p vm) /\
  forall q v, mget q (fst vm) = Some v -> mget q (fst (add_vertex p vm)) = Some v.
Proof.
  intros P [vm n] p (V1 & V2 & V3 & V4 & V5). unfold add_vertex. cbn [fst snd] in *.
  destruct (mget p vm) as [v|] eqn:E.
  - split; [|auto]. repeat split; cbn [fst snd]; auto.
    + intros H. right. apply V2, H.
    + intros [->|H]; [eauto|apply V2, H].
  - unfold memplace. rewrite E. split.
    + repeat split; cbn [fst snd].
      * apply mput_sorted, V1.
      * intros [w H]. rewrite mget_mput in H. destruct (Nat.eqb_spec p p0); [auto|]. right. apply V2. eauto.
      * intros H. rewrite mget_mput. destruct (Nat.eqb_spec p p0); [eauto|]. destruct H as [H|H]; [congruence|]. apply V2, H.
      * intros q w. rewrite mget_mput. destruct (Nat.eqb_spec p q); intro H; [injection H as <-; lia|]. apply V3 in H. lia.
      * intros q q' w. rewrite !mget_mput. destruct (Nat.eqb_spec p q), (Nat.eqb_spec p q'); intros H H'; try congruence.
        -- injection H as <-. apply V3 in H'. lia.
        -- injection H' as <-. apply V3 in H. lia.
        -- apply (V4 q q' w H H').
      * intros w Hw. destruct (Nat.eq_dec w n) as [->|].
        -- exists p. rewrite mget_mput, Nat.eqb_refl. reflexivity.
        -- destruct (V5 w ltac:(lia)) as [q Hq]. exists q. rewrite mget_mput. destruct (Nat.eqb_spec p q); [congruence|exact Hq].
    + intros q w H. cbn [fst]. rewrite mget_mput. destruct (Nat.eqb_spec p q); [congruence|exact H].
Qed.

Lemma add_connection_inv : forall cs g c, graph_inv cs g ->
  exists g', add_connection g c = Some g' /\ graph_inv (cs ++ [c]) g'.
Proof.
  intros cs [[vm n] edges] [a b] [G1 G2 G3 G4 G5 G6]. cbn [fst snd] in *. unfold add_connection. cbn [fst snd].
  assert (V0 : verts (occurs cs) (vm, n)) by (repeat split; cbn [fst snd]; auto; apply G2).
  destruct (add_vertex_spec _ _ a V0) as [V1 K1]. destruct (add_vertex_spec _ _ b V1) as [V2 K2].
  set (vm2 := add_vertex b (add_vertex a (vm, n))) in *. destruct V2 as (W1 & W2 & W3 & W4 & W5).
  destruct (proj2 (W2 a) (or_intror (or_introl eq_refl))) as [va Ea].
  destruct (proj2 (W2 b) (or_introl eq_refl)) as [vb Eb].
  rewrite Ea, Eb. cbn [obind]. eexists. split; [reflexivity|]. split; cbn [fst snd]; auto.
  - intro p. rewrite W2. unfold occurs. split.
    + intros [->|[->|(q & H)]].
      * exists a. right. apply in_or_app. right. left. reflexivity.
      * exists b. left. apply in_or_app. right. left. reflexivity.
      * exists q. destruct H as [H|H]; [left|right]; apply in_or_app; left; exact H.
    + intros (q & [H|H]); apply in_app_or in H; destruct H as [H|[E|[]]].
      * right. right. exists q. auto.
      * injection E as -> ->. auto.
      * right. right. exists q. auto.
      * injection E as -> ->. auto.
  - intros x y. rewrite in_app_iff. split.
    + intros [H|[E|[]]].
      * apply G6 in H. destruct H as (a' & b' & H & A & B). exists a', b'. split; [apply in_or_app; auto|].
        split; apply K2, K1; assumption.
      * injection E as <- <-. exists a, b. split; [apply in_or_app; right; left; reflexivity|auto].
    + intros (a' & b' & H & A & B). apply in_app_or in H. destruct H as [H|[E|[]]].
      * left. apply G6. exists a', b'. split; [exact H|].
        destruct (proj2 (G2 a') (ex_intro _ b' (or_introl H))) as [x' Ex].
        destruct (proj2 (G2 b') (ex_intro _ a' (or_intror H))) as [y' Ey].
        pose proof (K2 _ _ (K1 _ _ Ex)). pose proof (K2 _ _ (K1 _ _ Ey)). split; congruence.
      * right. left. injection E as -> ->. congruence.
Qed.

Lemma add_connections_inv : forall more cs g, graph_inv cs g ->
  exists g', add_connections g more = Some g' /\ graph_inv (cs ++ more) g'.
Proof.
  induction more as [|c more IH]; intros cs g I; cbn [add_connections].
  - exists g. rewrite app_nil_r. auto.
  - destruct (add_connection_inv cs g c I) as (g1 & E1 & I1). rewrite E1. cbn [obind].
    destruct (IH _ _ I1) as (g' & E' & I'). exists g'. split; [exact E'|]. rewrite <- app_assoc in I'. exact I'.
Qed.

Lemma write_groups_spec : forall comps vm groups, NoDup (map fst vm) ->
  (forall p v, In (p, v) vm -> p < length groups /\ v < length comps) ->
  exists r, write_groups comps vm groups = Some r /\ length r = length groups /\
    (forall p v, In (p, v) vm -> exists c, vget comps v = Some c /\ vget r p = Some (Some c)) /\
    (forall p, ~ In p (map fst vm) -> vget r p = vget groups p).
Proof.
  intros comps. induction vm as [|[p v] vm IH]; intros groups ND H; cbn [write_groups].
  - exists groups. repeat split; auto; intros p v [].
  - cbn [map fst] in ND. inversion ND as [|? ? N1 N2]; subst.
    destruct (H p v (or_introl eq_refl)) as [Hp Hv].
    destruct (vget_some _ comps v Hv) as [c Ec]. rewrite Ec. cbn [obind].
    destruct (vset_some _ groups p (Some c) Hp) as [g1 E1]. rewrite E1. cbn [obind].
    pose proof (vset_length _ _ _ _ _ E1) as L1.
    destruct (IH g1 N2) as (r & Er & Lr & S1 & S2).
    { intros q w Hq. rewrite L1. apply H. right. exact Hq. }
    exists r. split; [exact Er|]. split; [lia|]. split.
    + intros q w [E|Hq]; [|apply S1, Hq]. injection E as <- <-. exists c. split; [exact Ec|].
      rewrite (S2 p N1), (vset_get _ _ _ _ _ _ E1), Nat.eqb_refl. reflexivity.
    + intros q Hq. cbn [map fst In] in Hq. rewrite S2 by tauto. rewrite (vset_get _ _ _ _ _ _ E1).
      destruct (Nat.eqb_spec q p) as [->|]; [tauto|reflexivity].
Qed.

(** Connected vertices correspond to connected particles. *)
Lemma linked_vertices : forall cs g, graph_inv cs g -> forall p q x y,
  mget p (fst (fst g)) = Some x -> mget q (fst (fst g)) = Some y ->
  (clos_refl_trans nat (fun x y => In (x, y) (snd g) \/ In (y, x) (snd g)) x y <-> linked cs p q).
Proof.
  intros cs g [G1 G2 G3 G4 G5 G6] p q x y Ep Eq. split.
  - intro H. apply clos_rt_rt1n in H. revert p Ep. induction H as [|x z y Hxz Hrest IH]; intros p Ep.
    + rewrite (G4 p q x Ep Eq). apply rt_refl.
    + assert (Z : exists r, mget r (fst (fst g)) = Some z /\ (In (p, r) cs \/ In (r, p) cs)).
      { destruct Hxz as [H|H]; apply G6 in H; destruct H as (a & b & H & A & B).
        - exists b. rewrite (G4 p a x Ep A). auto.
        - exists a. rewrite (G4 p b x Ep B). auto. }
      destruct Z as (r & Er & Hr). eapply rt_trans; [apply rt_step; exact Hr|]. apply (IH Eq r Er).
  - intro H. apply clos_rt_rt1n in H. revert x Ep. induction H as [p|p r q Hpr Hrest IH]; intros x Ep.
    + assert (x = y) by congruence. subst y. apply rt_refl.
    + destruct (proj2 (G2 r)) as [z Ez]; [exists p; tauto|].
      eapply rt_trans; [apply rt_step|apply (IH Eq z Ez)].
      destruct Hpr as [H|H]; [left|right]; apply G6; [exists p, r|exists r, p]; auto.
Qed.

Lemma linked_occurs : forall cs p q, linked cs p q -> p = q \/ occurs cs p /\ occurs cs q.
Proof.
  intros cs p q H. induction H as [a b [H|H]|a|a b c H1 IH1 H2 IH2].
  - right. split; [exists b|exists a]; auto.
  - right. split; [exists b|exists a]; auto.
  - auto.
  - destruct IH1 as [->|[A B]]; [exact IH2|]. destruct IH2 as [<-|[C D]]; auto.
Qed.

(** Particles without connection have no group, others share a group exactly if
    they are linked; the groups are numbered 0..n-1 and none is empty. *)
Lemma particle_groups_spec : forall components n cs, components_contract components ->
  (forall a b, In (a, b) cs -> a < n /\ b < n) ->
  exists groups k, particle_groups components n cs = Some (groups, k) /\ length groups = n /\
    (forall p, p < n -> (vget groups p = Some None <-> ~ occurs cs p)) /\
    (forall p c, vget groups p = Some (Some c) -> c < k) /\
    (forall c, c < k -> exists p, vget groups p = Some (Some c)) /\
    (forall p q c, vget groups p = Some (Some c) -> (vget groups q = Some (Some c) <-> linked cs p q)).
Proof.
  intros components n cs HC HR. unfold particle_groups.
  destruct (add_connections_inv cs [] ([], 0, [])) as (g & E & I).
  { split; cbn [fst snd mget].
    - constructor.
    - intro p. split; [intros [v H]; discriminate|intros (q & [[]|[]])].
    - intros p v H. discriminate.
    - intros p q v H. discriminate.
    - intros v H. lia.
    - intros x y. split; [intros []|]. intros (a & b & [] & _). }
  rewrite E. cbn [obind app] in *. pose proof I as [G1 G2 G3 G4 G5 G6].
  pose proof (linked_vertices cs g I) as LV. clear E I. destruct g as [[vm m] edges]. cbn [fst snd build_groups] in *.
  destruct (Nat.eqb_spec m 0) as [->|Hm].
  - eexists _, _. split; [reflexivity|]. split; [apply repeat_length|].
    assert (NO : forall p, ~ occurs cs p).
    { intros p H. apply G2 in H. destruct H as [v H]. apply G3 in H. lia. }
    assert (GN : forall p c, vget (repeat (@None nat) n) p <> Some (Some c)).
    { intros p c. rewrite vget_repeat. destruct (p <? n); discriminate. }
    split; [|split; [|split]].
    + intros p Hp. rewrite vget_repeat. destruct (Nat.ltb_spec p n); [|lia]. split; [intros _; apply NO|reflexivity].
    + intros p c H. exfalso. apply (GN p c H).
    + intros c H. lia.
    + intros p q c H. exfalso. apply (GN p c H).
  - assert (EDGE : forall a b, In (a, b) edges -> a < m /\ b < m).
    { intros x y H. apply G6 in H. destruct H as (a & b & _ & A & B). split; [apply (G3 _ _ A)|apply (G3 _ _ B)]. }
    destruct (HC m edges EDGE) as (LC & FO & CC). set (comps := components m edges) in *.
    assert (OCC : forall p, occurs cs p -> p < n).
    { intros p (q & [H|H]); apply HR in H; apply H. }
    destruct (write_groups_spec comps vm (repeat None n)) as (groups & Eg & Lg & S1 & S2).
    + apply msorted_nodup, G1.
    + intros p v H. apply (In_mget _ _ _ _ G1) in H. rewrite repeat_length, LC. split; [|apply (G3 p), H].
      apply OCC, G2. eauto.
    + rewrite Eg. cbn [obind]. eexists _, _. split; [reflexivity|]. rewrite repeat_length in Lg. split; [exact Lg|].
      assert (SOME : forall p c, vget groups p = Some (Some c) -> exists v, mget p vm = Some v /\ vget comps v = Some c).
      { intros p c H. destruct (mget p vm) as [v|] eqn:Ev.
        - exists v. split; [reflexivity|]. destruct (S1 p v (mget_In _ _ _ _ Ev)) as (c' & A & B). congruence.
        - exfalso. apply mget_none in Ev. rewrite (S2 p Ev), vget_repeat in H. destruct (p <? n); discriminate. }
      split; [|split; [|split]].
      * intros p Hp. split.
        -- intros H O. apply G2 in O. destruct O as [v O]. destruct (S1 p v (mget_In _ _ _ _ O)) as (c' & A & B). congruence.
        -- intro NO. rewrite S2; [rewrite vget_repeat; destruct (Nat.ltb_spec p n); [reflexivity|lia]|].
           intro H. apply mget_key in H. apply NO, G2, H.
      * intros p c H. destruct (SOME p c H) as (v & _ & Hv). apply numbers_contiguous; [exact FO|]. eapply nth_error_In. exact Hv.
      * intros c H. apply numbers_contiguous in H; [|exact FO]. apply In_nth_error in H. destruct H as [v Hv].
        assert (Hl : v < m) by (rewrite <- LC; apply (vget_lt _ _ _ _ Hv)).
        destruct (G5 v Hl) as [p Hp]. exists p. destruct (S1 p v (mget_In _ _ _ _ Hp)) as (c' & A & B).
        unfold vget in *. congruence.
      * intros p q c H. destruct (SOME p c H) as (v & Ev & Cv). split.
        -- intro H'. destruct (SOME q c H') as (w & Ew & Cw). apply (LV p q v w Ev Ew).
           apply CC; [apply (G3 _ _ Ev)|apply (G3 _ _ Ew)|congruence].
        -- intro L. destruct (linked_occurs _ _ _ L) as [<-|[_ OQ]]; [exact H|].
           apply G2 in OQ. destruct OQ as [w Ew]. destruct (S1 q w (mget_In _ _ _ _ Ew)) as (c' & A & B).
           apply (LV p q v w Ev Ew) in L. apply CC in L; [|apply (G3 _ _ Ev)|apply (G3 _ _ Ew)]. congruence.
Qed.

(** ** Grains *)
Definition parts_at (parts : list particle) (is : list nat) (ps : list particle) : Prop :=
  Forall2 (fun i p => vget parts i = Some p) is ps.

Lemma parts_at_length : forall parts is ps, parts_at parts is ps -> length is = length ps.
Proof. intros parts is ps H. induction H; cbn [length]; [reflexivity|congruence]. Qed.

Section Append.
Variables (op num : nat) (parts : list particle) (grains0 : fmap tgrain).

Record ainv (done : list (nat * nat)) (st : dstate) : Prop := {
  ai_sorted : msorted (fst st);
  ai_len : length (snd st) = length parts;
  ai_low : forall gid, gid < num -> mget gid (fst st) = mget gid grains0;
  ai_nodup : NoDup (map fst done);
  ai_done : forall i gid, In (i, gid) done -> num <= gid /\ (exists sid, vget (snd st) i = Some (gid, sid)) /\ exists g, mget gid (fst st) = Some g;
  ai_grain : forall gid g, num <= gid -> mget gid (fst st) = Some g -> exists is ps, is <> [] /\ parts_at parts is ps /\
     g = fold_left add_segment ps (empty_grain op) /\
     forall sid i, vget is sid = Some i <-> In (i, gid) done /\ vget (snd st) i = Some (gid, sid) }.

Lemma segments_fold : forall ps g, g_segments (t_grain (fold_left add_segment ps g)) = g_segments (t_grain g) ++ map p_segment ps.
Proof.
  induction ps as [|p ps IH]; intro g; cbn [fold_left map]; [rewrite app_nil_r; reflexivity|].
  rewrite IH. unfold add_segment. cbn [t_grain g_segments]. rewrite <- app_assoc. reflexivity.
Qed.

Lemma op_fold : forall ps g, g_op (t_grain (fold_left add_segment ps g)) = g_op (t_grain g).
Proof. induction ps as [|p ps IH]; intro g; cbn [fold_left]; [reflexivity|]. rewrite IH. reflexivity. Qed.

Lemma append_inv : forall done st i gid, ainv done st -> i < length parts -> ~ In i (map fst done) -> num <= gid ->
  exists st', append_segment op parts st i gid = Some st' /\ ainv ((i, gid) :: done) st'.
Proof.
  intros done [new pm] i gid [A1 A2 A3 A4 A5 A6] Hi Hd Hg. cbn [fst snd] in *. unfold append_segment. cbn [fst snd].
  set (new1 := memplace gid (empty_grain op) new).
  assert (G1 : exists g is ps, mget gid new1 = Some g /\ parts_at parts is ps /\ g = fold_left add_segment ps (empty_grain op) /\
     forall sid j, vget is sid = Some j <-> In (j, gid) done /\ vget pm j = Some (gid, sid)).
  { unfold new1. rewrite mget_memplace, Nat.eqb_refl. destruct (mget gid new) as [g|] eqn:E.
    - destruct (A6 gid g Hg E) as (is & ps & _ & P & F & S). exists g, is, ps. auto.
    - exists (empty_grain op), [], []. split; [reflexivity|]. split; [constructor|]. split; [reflexivity|].
      intros sid j. split; [destruct sid; discriminate|]. intros [H _]. apply A5 in H. destruct H as (_ & _ & g & H). congruence. }
  destruct G1 as (g & is & ps & Eg & P & F & S). rewrite Eg. cbn [obind].
  destruct (vget_some _ parts i Hi) as [p Ep]. rewrite Ep. cbn [obind]. unfold massign. rewrite Eg. cbn [obind].
  assert (LEN : length (g_segments (t_grain (add_segment g p))) - 1 = length is).
  { unfold add_segment. cbn [t_grain g_segments]. rewrite F, segments_fold. cbn [empty_grain t_grain g_segments app].
    rewrite app_length, map_length. cbn [length]. rewrite (parts_at_length _ _ _ P). lia. }
  rewrite LEN. destruct (vset_some _ pm i (gid, length is) ltac:(lia)) as [pm' Epm]. rewrite Epm. cbn [obind].
  eexists. split; [reflexivity|].
  assert (PM : forall j, vget pm' j = if j =? i then Some (gid, length is) else vget pm j) by (intro j; apply (vset_get _ _ _ _ _ _ Epm)).
  assert (NEW : forall k, mget k (mput gid (add_segment g p) new1) = if gid =? k then Some (add_segment g p) else mget k new).
  { intro k. rewrite mget_mput. destruct (Nat.eqb_spec gid k); [reflexivity|]. unfold new1. rewrite mget_memplace.
    destruct (Nat.eqb_spec gid k); [contradiction|]. destruct (mget k new); reflexivity. }
  split; cbn [fst snd].
  - apply mput_sorted, memplace_sorted, A1.
  - rewrite (vset_length _ _ _ _ _ Epm). exact A2.
  - intros k Hk. rewrite NEW. destruct (Nat.eqb_spec gid k); [lia|apply A3, Hk].
  - cbn [map fst]. constructor; assumption.
  - intros j k [E|H].
    + injection E as <- <-. split; [exact Hg|]. split; [exists (length is); rewrite PM, Nat.eqb_refl; reflexivity|].
      exists (add_segment g p). rewrite NEW, Nat.eqb_refl. reflexivity.
    + destruct (A5 j k H) as (H1 & (sid & H2) & g' & H3). split; [exact H1|]. split.
      * exists sid. rewrite PM. destruct (Nat.eqb_spec j i) as [->|]; [|exact H2].
        exfalso. apply Hd. apply in_map_iff. exists (i, k). auto.
      * rewrite NEW. destruct (gid =? k); eauto.
  - intros k g' Hk. rewrite NEW. destruct (Nat.eqb_spec gid k) as [<-|Nk].
    + intro E. injection E as <-. exists (is ++ [i]), (ps ++ [p]). split; [destruct is; discriminate|].
      split; [apply Forall2_app; [exact P|constructor; [exact Ep|constructor]]|].
      split; [rewrite fold_left_app, <- F; reflexivity|].
      intros sid j. rewrite vget_app. split.
      * destruct (Nat.ltb_spec sid (length is)).
        -- intro H1. apply S in H1. destruct H1 as [H1 H2]. split; [right; exact H1|]. rewrite PM.
           destruct (Nat.eqb_spec j i) as [->|]; [|exact H2]. exfalso. apply Hd, in_map_iff. exists (i, gid). auto.
        -- intro H1. assert (sid = length is /\ j = i) as [-> ->].
           { destruct (sid - length is) as [|d] eqn:Ed; cbn in H1; [|destruct d; discriminate]. split; [lia|congruence]. }
           split; [left; reflexivity|]. rewrite PM, Nat.eqb_refl. reflexivity.
      * intros [[E|H1] H2].
        -- injection E as <-. rewrite PM, Nat.eqb_refl in H2. injection H2 as <-.
           rewrite Nat.ltb_irrefl, Nat.sub_diag. reflexivity.
        -- rewrite PM in H2. destruct (Nat.eqb_spec j i) as [->|].
           { exfalso. apply Hd, in_map_iff. exists (i, gid). auto. }
           assert (H3 : vget is sid = Some j) by (apply S; auto).
           destruct (Nat.ltb_spec sid (length is)); [exact H3|]. apply vget_lt in H3. lia.
    + intro E. destruct (A6 k g' Hk E) as (is' & ps' & NE & P' & F' & S'). exists is', ps'. split; [exact NE|].
      split; [exact P'|]. split; [exact F'|]. intros sid j. rewrite S', PM. split.
      * intros [H1 H2]. split; [right; exact H1|]. destruct (Nat.eqb_spec j i) as [->|]; [|exact H2].
        exfalso. apply Hd, in_map_iff. exists (i, k). auto.
      * intros [[E'|H1] H2]; [congruence|]. split; [exact H1|].
        destruct (Nat.eqb_spec j i) as [->|]; [|exact H2]. exfalso. apply Hd, in_map_iff. exists (i, k). auto.
Qed.

Lemma group_loop_inv : forall groups i st done, ainv done st ->
  i + length groups <= length parts -> (forall j, In j (map fst done) -> j < i) ->
  exists st' done', group_loop op parts num i groups st = Some st' /\ ainv done' st' /\
    (forall j gid, In (j, gid) done' <-> In (j, gid) done \/ (i <= j /\ num <= gid /\ vget groups (j - i) = Some (Some (gid - num)))).
Proof.
  induction groups as [|[k|] groups IH]; intros i st done I Hl Hd; cbn [group_loop length] in *.
  - exists st, done. split; [reflexivity|]. split; [exact I|]. intros j gid. split; [auto|].
    intros [H|(_ & _ & H)]; [exact H|]. destruct (j - i); discriminate.
  - destruct (append_inv done st i (k + num) I) as (st1 & E1 & I1); [lia| |lia|].
    { intro C. apply Hd in C. lia. }
    rewrite E1. cbn [obind]. destruct (IH (S i) st1 _ I1) as (st' & done' & E & I' & S); [lia| |].
    { intros j [<-|H]; [cbn; lia|]. apply Hd in H. lia. }
    exists st', done'. split; [exact E|]. split; [exact I'|]. intros j gid. rewrite S. split.
    + intros [[E2|H]|(H1 & H2 & H3)]; [|auto|].
      * injection E2 as <- <-. right. split; [lia|]. split; [lia|]. rewrite Nat.sub_diag. cbn. do 2 f_equal. lia.
      * right. split; [lia|]. split; [lia|]. replace (j - i) with (Datatypes.S (j - Datatypes.S i)) by lia. exact H3.
    + intros [H|(H1 & H2 & H3)]; [left; right; exact H|]. destruct (Nat.eq_dec j i) as [->|].
      * left. left. rewrite Nat.sub_diag in H3. cbn in H3. injection H3 as H4. f_equal. lia.
      * right. split; [lia|]. split; [lia|]. replace (j - i) with (Datatypes.S (j - Datatypes.S i)) in H3 by lia. exact H3.
  - destruct (IH (S i) st done I) as (st' & done' & E & I' & S); [lia| |].
    { intros j H. apply Hd in H. lia. }
    exists st', done'. split; [exact E|]. split; [exact I'|]. intros j gid. rewrite S. split.
    + intros [H|(H1 & H2 & H3)]; [auto|]. right. split; [lia|]. split; [lia|].
      replace (j - i) with (Datatypes.S (j - Datatypes.S i)) by lia. exact H3.
    + intros [H|(H1 & H2 & H3)]; [auto|]. destruct (Nat.eq_dec j i) as [->|].
      * rewrite Nat.sub_diag in H3. discriminate.
      * right. split; [lia|]. split; [lia|]. replace (j - i) with (Datatypes.S (j - Datatypes.S i)) in H3 by lia. exact H3.
Qed.

Lemma free_loop_inv : forall groups i n1 st done, ainv done st -> num <= n1 ->
  i + length groups <= length parts ->
  (forall j gid, In (j, gid) done -> j < i \/ exists c, vget groups (j - i) = Some (Some c)) ->
  (forall j gid, In (j, gid) done -> gid < n1) ->
  exists st' done' n2, free_loop op parts n1 i groups st = Some (st', n2) /\ ainv done' st' /\ n1 <= n2 /\
    (forall j gid, In (j, gid) done -> In (j, gid) done') /\
    (forall j gid, In (j, gid) done' -> In (j, gid) done \/ (i <= j /\ vget groups (j - i) = Some None /\ n1 <= gid < n2)) /\
    (forall j, i <= j -> vget groups (j - i) = Some None -> exists gid, In (j, gid) done') /\
    (forall gid, n1 <= gid < n2 -> exists j, i <= j /\ In (j, gid) done') /\
    (forall j j' gid, n1 <= gid -> In (j, gid) done' -> In (j', gid) done' -> j = j').
Proof.
  induction groups as [|[k|] groups IH]; intros i n1 st done I Hn Hl Hd Hg; cbn [free_loop length] in *.
  - exists st, done, n1. split; [reflexivity|]. split; [exact I|]. split; [lia|]. split; [auto|]. split; [auto|].
    split; [intros j Hj H; destruct (j - i); discriminate|]. split; [intros; lia|].
    intros j j' gid H1 H2. apply Hg in H2. lia.
  - assert (SH : forall j, S i <= j -> forall x, vget (Some k :: groups) (j - i) = x <-> vget groups (j - S i) = x).
    { intros j Hj x. replace (j - i) with (S (j - S i)) by lia. reflexivity. }
    destruct (IH (S i) n1 st done I) as (st' & done' & n2 & E & I' & L & S1 & S2 & S3 & S4 & S5); [lia|lia| |exact Hg|].
    { intros j gid H. destruct (Hd j gid H) as [?|(c & Hc)]; [left; lia|]. destruct (Nat.le_gt_cases (S i) j); [|left; lia].
      right. exists c. apply SH; assumption. }
    exists st', done', n2. split; [exact E|]. split; [exact I'|]. split; [exact L|]. split; [exact S1|]. split; [|split; [|split]].
    + intros j gid H. destruct (S2 j gid H) as [H'|(H1 & H2 & H3)]; [auto|]. right. split; [lia|]. split; [|exact H3]. apply SH; assumption.
    + intros j Hj H. destruct (Nat.eq_dec j i) as [->|]; [rewrite Nat.sub_diag in H; discriminate|].
      apply S3; [lia|]. apply SH; [lia|exact H].
    + intros gid H. destruct (S4 gid H) as (j & Hj & Hin). exists j. split; [lia|exact Hin].
    + exact S5.
  - assert (SH : forall j, S i <= j -> forall x, vget (None :: groups) (j - i) = x <-> vget groups (j - S i) = x).
    { intros j Hj x. replace (j - i) with (S (j - S i)) by lia. reflexivity. }
    assert (NI : ~ In i (map fst done)).
    { intro C. apply in_map_iff in C. destruct C as ([j gid] & E & H). cbn in E. subst j.
      destruct (Hd i gid H) as [?|(c & Hc)]; [lia|]. rewrite Nat.sub_diag in Hc. discriminate. }
    destruct (append_inv done st i n1 I) as (st1 & E1 & I1); [lia|exact NI|lia|]. rewrite E1. cbn [obind].
    destruct (IH (S i) (S n1) st1 _ I1) as (st' & done' & n2 & E & I' & L & S1 & S2 & S3 & S4 & S5); [lia|lia| | |].
    { intros j gid [E|H]; [injection E as <- <-; left; lia|]. destruct (Hd j gid H) as [?|(c & Hc)]; [left; lia|].
      destruct (Nat.eq_dec j i) as [->|]; [left; lia|]. destruct (Nat.le_gt_cases (S i) j); [|left; lia].
      right. exists c. apply SH; assumption. }
    { intros j gid [E|H]; [injection E as <- <-; lia|]. apply Hg in H. lia. }
    exists st', done', n2. split; [exact E|]. split; [exact I'|]. split; [lia|].
    split; [intros; apply S1; right; assumption|]. split; [|split; [|split]].
    + intros j gid H. destruct (S2 j gid H) as [[E2|H']|(H1 & H2 & H3)]; [|auto|].
      * injection E2 as <- <-. right. split; [lia|]. rewrite Nat.sub_diag. split; [reflexivity|lia].
      * right. split; [lia|]. split; [apply SH; assumption|lia].
    + intros j Hj H. destruct (Nat.eq_dec j i) as [->|]; [exists n1; apply S1; left; reflexivity|].
      apply S3; [lia|]. apply SH; [lia|exact H].
    + intros gid H. destruct (Nat.eq_dec gid n1) as [->|]; [exists i; split; [lia|apply S1; left; reflexivity]|].
      destruct (S4 gid ltac:(lia)) as (j & Hj & Hin). exists j. split; [lia|exact Hin].
    + intros j j' gid H H1 H2. destruct (Nat.eq_dec gid n1) as [->|]; [|apply (S5 j j' gid); [lia|exact H1|exact H2]].
      assert (ONE : forall x, In (x, n1) done' -> x = i).
      { intros x Hx. destruct (S2 x n1 Hx) as [[E2|H']|(_ & _ & H3)]; [congruence|apply Hg in H'; lia|lia]. }
      rewrite (ONE j H1), (ONE j' H2). reflexivity.
Qed.
End Append.

Definition keys_upto (grains : fmap tgrain) (n : nat) : Prop :=
  forall gid, (exists g, mget gid grains = Some g) <-> gid < n.

Definition conns_ok (ops : list (list particle * list (nat * nat))) : Prop :=
  forall parts conns a b, In (parts, conns) ops -> In (a, b) conns -> a < length parts /\ b < length parts.

(** What is known of one order parameter: its map [m] from particles to grains. *)
Definition op_result (op : nat) (parts : list particle) (conns : list (nat * nat)) (grains : fmap tgrain)
  (n1 n2 : nat) (m : list (nat * nat)) : Prop :=
  length m = length parts /\
  (forall i gid sid, vget m i = Some (gid, sid) -> n1 <= gid < n2) /\
  (forall gid, n1 <= gid < n2 -> exists i sid, vget m i = Some (gid, sid)) /\
  (forall i j gi si gj sj, vget m i = Some (gi, si) -> vget m j = Some (gj, sj) -> (gi = gj <-> linked conns i j)) /\
  (forall gid, n1 <= gid < n2 -> exists g is ps, mget gid grains = Some g /\ is <> [] /\ parts_at parts is ps /\
     g = fold_left add_segment ps (empty_grain op) /\
     forall sid i, vget is sid = Some i <-> vget m i = Some (gid, sid)).

Lemma detect_op : forall components op num parts conns grains, components_contract components ->
  (forall a b, In (a, b) conns -> a < length parts /\ b < length parts) ->
  msorted grains -> keys_upto grains num ->
  exists gn st sn, particle_groups components (length parts) conns = Some gn /\
    group_loop op parts num 0 (fst gn) (grains, repeat (0, 0) (length parts)) = Some st /\
    free_loop op parts (num + snd gn) 0 (fst gn) st = Some sn /\
    num <= snd sn /\ msorted (fst (fst sn)) /\ keys_upto (fst (fst sn)) (snd sn) /\
    (forall gid, gid < num -> mget gid (fst (fst sn)) = mget gid grains) /\
    op_result op parts conns (fst (fst sn)) num (snd sn) (snd (fst sn)).
Proof.
  intros components op num parts conns grains HC HR MS KU.
  destruct (particle_groups_spec components (length parts) conns HC HR) as (groups & k & E & LG & G1 & G2 & G3 & G4).
  exists (groups, k). cbn [fst snd].
  assert (I0 : ainv op num parts grains [] (grains, repeat (0, 0) (length parts))).
  { split; cbn [fst snd].
    - exact MS.
    - apply repeat_length.
    - reflexivity.
    - constructor.
    - intros i gid [].
    - intros gid g Hg H. exfalso. assert (gid < num) by (apply KU; eauto). lia. }
  destruct (group_loop_inv op num parts grains groups 0 _ _ I0) as (st & d1 & E1 & I1 & S1).
  { lia. } { intros j []. }
  assert (D1 : forall j gid, In (j, gid) d1 <-> num <= gid /\ vget groups j = Some (Some (gid - num))).
  { intros j gid. rewrite S1, Nat.sub_0_r. split; [intros [[]|(_ & A & B)]; auto|intros [A B]; right; split; [lia|auto]]. }
  destruct (free_loop_inv op num parts grains groups 0 (num + k) st d1 I1) as (st2 & d2 & n2 & E2 & I2 & L2 & T1 & T2 & T3 & T4 & T5).
  { lia. } { lia. }
  { intros j gid H. apply D1 in H. right. rewrite Nat.sub_0_r. exists (gid - num). apply H. }
  { intros j gid H. apply D1 in H. destruct H as [H1 H2]. apply G2 in H2. lia. }
  exists st, (st2, n2). cbn [fst snd]. split; [exact E|]. split; [exact E1|]. split; [exact E2|]. split; [lia|].
  destruct I2 as [A1 A2 A3 A4 A5 A6]. split; [exact A1|].
  (* every particle is placed, in one grain *)
  assert (ALL : forall j, j < length parts -> exists gid, In (j, gid) d2).
  { intros j Hj. destruct (vget_some _ groups j ltac:(lia)) as [[c|] Ec].
    - exists (c + num). apply T1, D1. split; [lia|]. rewrite Ec. do 2 f_equal. lia.
    - apply T3; [lia|]. rewrite Nat.sub_0_r. exact Ec. }
  assert (UNI : forall j g1 g2, In (j, g1) d2 -> In (j, g2) d2 -> g1 = g2).
  { intros j g1 g2 H1 H2. destruct (A5 j g1 H1) as (_ & (s1 & X1) & _). destruct (A5 j g2 H2) as (_ & (s2 & X2) & _). congruence. }
  assert (PMD : forall j gid sid, vget (snd st2) j = Some (gid, sid) -> In (j, gid) d2).
  { intros j gid sid H. assert (Hj : j < length parts) by (rewrite <- A2; apply (vget_lt _ _ _ _ H)).
    destruct (ALL j Hj) as [g' Hg']. destruct (A5 j g' Hg') as (_ & (s' & X) & _). assert (g' = gid) by congruence. subst g'. exact Hg'. }
  assert (RNG : forall j gid, In (j, gid) d2 -> num <= gid < n2).
  { intros j gid H. destruct (T2 j gid H) as [H'|(_ & _ & H')]; [|lia]. apply D1 in H'. destruct H' as [H1 H2]. apply G2 in H2. lia. }
  assert (SRJ : forall gid, num <= gid < n2 -> exists j, In (j, gid) d2).
  { intros gid H. destruct (Nat.lt_ge_cases gid (num + k)) as [Hk|Hk].
    - destruct (G3 (gid - num) ltac:(lia)) as [p Hp]. exists p. apply T1, D1. split; [lia|exact Hp].
    - destruct (T4 gid ltac:(lia)) as (j & _ & Hj). exists j. exact Hj. }
  split; [|split].
  - intro gid. split.
    + intros [g Hg]. destruct (Nat.lt_ge_cases gid num) as [H|H]; [lia|].
      destruct (A6 gid g H Hg) as (is & ps & NE & _ & _ & S). destruct is as [|i is]; [contradiction|].
      destruct (proj1 (S 0 i) eq_refl) as [H1 _]. apply RNG in H1. lia.
    + intro H. destruct (Nat.lt_ge_cases gid num) as [H'|H'].
      * rewrite (A3 gid H'). apply KU. exact H'.
      * destruct (SRJ gid ltac:(lia)) as [j Hj]. destruct (A5 j gid Hj) as (_ & _ & X). exact X.
  - exact A3.
  - split; [exact A2|]. split; [intros i gid sid H; apply (RNG i), (PMD i gid sid H)|]. split; [|split].
    + intros gid H. destruct (SRJ gid H) as [j Hj]. destruct (A5 j gid Hj) as (_ & (sid & X) & _). eauto.
    + intros i j gi si gj sj Hi Hj. pose proof (PMD _ _ _ Hi) as Di. pose proof (PMD _ _ _ Hj) as Dj.
      assert (Li : i < length parts) by (rewrite <- A2; apply (vget_lt _ _ _ _ Hi)).
      assert (Lj : j < length parts) by (rewrite <- A2; apply (vget_lt _ _ _ _ Hj)).
      destruct (T2 i gi Di) as [Di'|(_ & Ni & Ri)]; destruct (T2 j gj Dj) as [Dj'|(_ & Nj & Rj)]; rewrite ?Nat.sub_0_r in *.
      * apply D1 in Di'. apply D1 in Dj'. destruct Di' as [X1 X2], Dj' as [Y1 Y2].
        rewrite <- (G4 i j _ X2). rewrite Y2. split; [intros ->; reflexivity|]. intro Q. injection Q as Q. lia.
      * apply D1 in Di'. destruct Di' as [X1 X2]. split.
        -- intro Q. apply G2 in X2. lia.
        -- intro Q. apply (G4 i j _ X2) in Q. congruence.
      * apply D1 in Dj'. destruct Dj' as [Y1 Y2]. split.
        -- intro Q. apply G2 in Y2. lia.
        -- intro Q. exfalso. destruct (linked_occurs _ _ _ Q) as [->|[Q1 _]]; [congruence|].
           apply (G1 i Li) in Ni. contradiction.
      * split.
        -- intros ->. rewrite (T5 i j gj ltac:(lia) Di Dj). apply rt_refl.
        -- intro Q. destruct (linked_occurs _ _ _ Q) as [<-|[Q1 _]]; [apply (UNI i); assumption|].
           apply (G1 i Li) in Ni. contradiction.
    + intros gid H. destruct (SRJ gid H) as [j Hj]. destruct (A5 j gid Hj) as (Hn & _ & g & Eg).
      destruct (A6 gid g Hn Eg) as (is & ps & NE & P & F & S). exists g, is, ps. split; [exact Eg|]. split; [exact NE|].
      split; [exact P|]. split; [exact F|]. intros sid i. rewrite S. split; [intros [_ X]; exact X|].
      intro X. split; [apply (PMD i gid sid X)|exact X].
Qed.

Lemma detect_ops_spec : forall components, components_contract components ->
  forall ops op num grains, conns_ok ops -> msorted grains -> keys_upto grains num ->
  exists grains' maps num', detect_ops components op num ops grains = Some (grains', maps, num') /\
    num <= num' /\ msorted grains' /\ keys_upto grains' num' /\ (forall gid, gid < num -> mget gid grains' = mget gid grains) /\
    length maps = length ops /\
    (forall gid, num <= gid < num' -> exists k m i sid, vget maps k = Some m /\ vget m i = Some (gid, sid)) /\
    forall k parts conns, vget ops k = Some (parts, conns) -> exists m n1 n2, vget maps k = Some m /\
      op_result (op + k) parts conns grains' n1 n2 m.
Proof.
  intros components HC. induction ops as [|[parts conns] ops IH]; intros op num grains HO MS KU; cbn [detect_ops].
  - exists grains, [], num. split; [reflexivity|]. split; [lia|]. split; [exact MS|]. split; [exact KU|]. split; [reflexivity|].
    split; [reflexivity|]. split; [intros; lia|]. intros [|k]; discriminate.
  - destruct (detect_op components op num parts conns grains HC) as (gn & st & sn & E1 & E2 & E3 & L & MS1 & KU1 & LOW & RES).
    { intros a b H. apply (HO parts conns a b); [left; reflexivity|exact H]. } { exact MS. } { exact KU. }
    rewrite E1. cbn [obind]. rewrite E2. cbn [obind]. rewrite E3. cbn [obind].
    destruct (IH (S op) (snd sn) (fst (fst sn))) as (g' & maps & n' & E & L' & MS' & KU' & LOW' & LM & SRJ & OPS).
    { intros p c a b H. apply HO. right. exact H. } { exact MS1. } { exact KU1. }
    rewrite E. cbn [obind]. exists g', (snd (fst sn) :: maps), n'. split; [reflexivity|]. split; [lia|]. split; [exact MS'|].
    split; [exact KU'|]. split; [intros gid H; rewrite LOW' by lia; apply LOW, H|]. split; [cbn; lia|]. split.
    + intros gid H. destruct (Nat.lt_ge_cases gid (snd sn)).
      * destruct RES as (_ & _ & R3 & _). destruct (R3 gid ltac:(lia)) as (i & sid & X). exists 0, (snd (fst sn)), i, sid. auto.
      * destruct (SRJ gid ltac:(lia)) as (k & m & i & sid & X & Y). exists (S k), m, i, sid. auto.
    + intros [|k] parts' conns' H.
      * cbn in H. injection H as <- <-. exists (snd (fst sn)), num, (snd sn). split; [reflexivity|]. rewrite Nat.add_0_r.
        destruct RES as (R1 & R2 & R3 & R4 & R5). split; [exact R1|]. split; [exact R2|]. split; [exact R3|]. split; [exact R4|].
        intros gid Hg. destruct (R5 gid Hg) as (g & is & ps & X & Y). exists g, is, ps. split; [|exact Y]. rewrite LOW' by lia. exact X.
      * cbn in H. destruct (OPS k parts' conns' H) as (m & n1 & n2 & X & Y). exists m, n1, n2. split; [exact X|].
        rewrite Nat.add_succ_r. exact Y.
Qed.

Lemma map_fst_unique_keys : forall V (m : fmap V) n, msorted m -> (forall k, (exists v, mget k m = Some v) <-> k < n) -> length m = n.
Proof.
  intros V m n MS H. rewrite <- (map_length fst m). rewrite <- (seq_length n 0). apply Nat.le_antisymm.
  - apply NoDup_incl_length; [apply msorted_nodup, MS|]. intros k Hk. apply mget_key in Hk. apply H in Hk. apply in_seq. lia.
  - apply NoDup_incl_length; [apply seq_NoDup|]. intros k Hk. apply in_seq in Hk. apply mget_key. apply H. lia.
Qed.
