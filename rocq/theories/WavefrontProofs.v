(** Proofs about the wavefronts. *)
From Coq Require Import List QArith Arith Bool Lia ZArith.
From Verif Require Import Util FloodModel FloodSpec FloodProofs WavefrontModel NeighborProps.
Import ListNotations.
Local Open Scope nat_scope.

(** What is used of the mesh: the subfaces of the face between [c] and a refined
    neighbour belong to the active children that have [c] as neighbour. *)
Record wave_mesh (m : mesh) : Prop := {
  wm_mesh : mesh_ok m;
  wm_subface : forall c n e, In c (active m) -> In n (neighbors m c) -> children m n <> [] ->
    (In e (subface_children m c n) <-> In e (children m n) /\ children m e = [] /\ In c (neighbors m e)) }.

Section Wave.
Variable m : mesh.
Variable level : nat -> nat.
Variable max_level : nat.
Variable pid : nat -> option nat.
Hypothesis WM : wave_mesh m.

Notation wgt := (weight level max_level).
Definition idx (c : nat) : nat := max_level - level c.

Lemma touches_spec : forall c d, touches m c d = true <-> In c (neighbors m d).
Proof.
  intros c d. unfold touches. rewrite existsb_exists. split.
  - intros (x & Hx & E). apply Nat.eqb_eq in E. subst. exact Hx.
  - intro H. exists c. split; [exact H|apply Nat.eqb_refl].
Qed.

Lemma beyond_faces : forall c n, In c (active m) -> In n (beyond m c) <-> In n (face_cells m c).
Proof.
  intros c n Hc. unfold beyond, face_cells. rewrite !in_flat_map. split; intros (x & Hx & H); exists x; (split; [exact Hx|]).
  - destruct (is_active m x) eqn:E.
    + apply is_active_spec in E. rewrite E. exact H.
    + destruct (children m x) as [|y ys] eqn:EC; [apply is_active_spec in EC; congruence|].
      apply filter_In in H as [H1 H2]. apply andb_true_iff in H2 as [H2 H3]. apply is_active_spec in H2. apply touches_spec in H3.
      apply (wm_subface m WM c x n Hc Hx); [congruence|]. rewrite EC. auto.
  - destruct (children m x) as [|y ys] eqn:EC.
    + apply is_active_spec in EC. rewrite EC. exact H.
    + destruct (is_active m x) eqn:E; [apply is_active_spec in E; congruence|].
      apply (wm_subface m WM c x n Hc Hx) in H; [|congruence]. destruct H as (H1 & H2 & H3). rewrite EC in H1.
      apply filter_In. split; [exact H1|]. apply andb_true_iff. split; [apply is_active_spec, H2|apply touches_spec, H3].
Qed.

Lemma face_active : forall c n, In c (active m) -> In n (face_cells m c) -> In n (active m).
Proof.
  intros c n Hc H. unfold face_cells in H. apply in_flat_map in H as (x & Hx & H).
  destruct (children m x) as [|y ys] eqn:EC.
  - destruct H as [<-|[]]. apply (ok_neighbors m (wm_mesh m WM) c x x Hc Hx). apply leaf_self, EC.
  - apply (ok_neighbors m (wm_mesh m WM) c x n Hc Hx). apply (ok_subface m (wm_mesh m WM) c x n Hc Hx); [congruence|exact H].
Qed.

Lemma face_sym : forall c n, In c (active m) -> In n (face_cells m c) -> In c (face_cells m n).
Proof. intros c n. apply (ok_symmetric m (wm_mesh m WM)). Qed.

Lemma active_lt : forall c, In c (active m) -> c < n_cells m.
Proof. intros c H. apply (ok_active m (wm_mesh m WM) c H). Qed.

(** ** Agglomerations *)
Definition inagg (agg : list (list nat)) (k c : nat) : Prop := exists l, vget agg k = Some l /\ In c l.

Lemma push_spec : forall c agg, length agg = S max_level ->
  exists agg', push level max_level c agg = Some agg' /\ length agg' = S max_level /\
    forall k x, inagg agg' k x <-> inagg agg k x \/ (k = idx c /\ x = c).
Proof.
  intros c agg HL. unfold push. assert (HI : idx c < length agg) by (unfold idx; lia). fold (idx c).
  destruct (vget_some _ agg (idx c) HI) as [l El]. rewrite El. cbn [obind].
  destruct (vset_some _ agg (idx c) (l ++ [c]) HI) as [agg' E]. exists agg'. split; [exact E|].
  split; [rewrite (vset_length _ _ _ _ _ E); exact HL|]. intros k x. unfold inagg.
  rewrite (vset_get _ _ _ _ _ k E). destruct (Nat.eqb_spec k (idx c)) as [->|N].
  - rewrite El. split.
    + intros (l' & H1 & H2). inversion H1; subst. apply in_app_iff in H2 as [H2|[<-|[]]]; [left; eauto|auto].
    + intros [(l' & H1 & H2)|[_ ->]]; eexists; (split; [reflexivity|]); apply in_app_iff; [|right; left; reflexivity].
      inversion H1; subst. auto.
  - split; [auto|]. intros [H|[H _]]; [exact H|contradiction].
Qed.

Lemma push_times_spec : forall n c agg, length agg = S max_level ->
  exists agg', push_times level max_level n c agg = Some agg' /\ length agg' = S max_level /\
    forall k x, inagg agg' k x <-> inagg agg k x \/ (n <> 0 /\ k = idx c /\ x = c).
Proof.
  induction n as [|n IH]; intros c agg HL; cbn [push_times].
  - exists agg. split; [reflexivity|]. split; [exact HL|]. intros k x. intuition.
  - destruct (push_spec c agg HL) as (a1 & E1 & L1 & H1). rewrite E1. cbn [obind].
    destruct (IH c a1 L1) as (a2 & E2 & L2 & H2). exists a2. split; [exact E2|]. split; [exact L2|].
    intros k x. rewrite H2, H1. intuition.
Qed.

(** ** The first fronts *)
Section Prep.
Variable me : nat.

(** A neighbour of [c] without particle, as noticed on rank [me]. *)
Definition open_to (c n : nat) : Prop :=
  (children m n = [] /\ pid n = None) \/
  (children m n <> [] /\ exists d, In d (children m n) /\ children m d = [] /\ rank m d = me /\ pid d = None /\
     In c (neighbors m d)).

Definition front (c : nat) : Prop := exists n, In n (neighbors m c) /\ open_to c n.

Definition mine (c : nat) : Prop := In c (active m) /\ rank m c = me.

Record pp (s s' : list (option nat) * list (list nat)) : Prop := {
  pp_len : length (fst s') = length (fst s);
  pp_agg_len : length (snd s') = S max_level;
  pp_old : forall c p, vget (fst s) c = Some (Some p) -> vget (fst s') c = Some (Some p);
  pp_new : forall c p, vget (fst s') c = Some (Some p) ->
    vget (fst s) c = Some (Some p) \/ (vget (fst s) c = Some None /\ mine c /\ pid c = Some p);
  pp_agg : forall k c, inagg (snd s) k c -> inagg (snd s') k c;
  pp_agg_new : forall k c, inagg (snd s') k c ->
    inagg (snd s) k c \/ (k = idx c /\ mine c /\ front c /\ exists p, pid c = Some p);
  pp_done : forall c p, vget (fst s) c = Some None -> vget (fst s') c = Some (Some p) -> front c -> inagg (snd s') (idx c) c;
  pp_unl : unl (fst s') <= unl (fst s) }.

Lemma pp_refl : forall s, length (snd s) = S max_level -> pp s s.
Proof. intros s H. split; auto. intros c p H1 H2. congruence. Qed.

Lemma pp_trans : forall s s' s'', pp s s' -> pp s' s'' -> pp s s''.
Proof.
  intros s s' s'' A B. split.
  - rewrite (pp_len _ _ B). apply (pp_len _ _ A).
  - apply (pp_agg_len _ _ B).
  - intros c p H. apply (pp_old _ _ B), (pp_old _ _ A), H.
  - intros c p H. destruct (pp_new _ _ B c p H) as [H1|(H1 & H2 & H3)].
    + apply (pp_new _ _ A c p H1).
    + destruct (vget (fst s) c) as [[q|]|] eqn:E.
      * apply (pp_old _ _ A) in E. congruence.
      * auto.
      * apply vget_lt in H1. rewrite (pp_len _ _ A) in H1. apply vget_some in H1 as [x Hx]. congruence.
  - intros k c H. apply (pp_agg _ _ B), (pp_agg _ _ A), H.
  - intros k c H. destruct (pp_agg_new _ _ B k c H) as [H1|H1]; [|auto]. apply (pp_agg_new _ _ A k c H1).
  - intros c p H1 H2 HF. destruct (vget (fst s') c) as [[q|]|] eqn:E.
    + apply (pp_agg _ _ B). apply (pp_done _ _ A c q H1 E HF).
    + apply (pp_done _ _ B c p E H2 HF).
    + apply vget_lt in H1. rewrite <- (pp_len _ _ A) in H1. apply vget_some in H1 as [x Hx]. congruence.
  - pose proof (pp_unl _ _ A). pose proof (pp_unl _ _ B). lia.
Qed.

(** All cells of the list are treated by steps of this kind. *)
Lemma prep_list_pp : forall f l (P : nat -> list (option nat) * list (list nat) -> Prop) u,
  (forall c s s', P c s -> pp s s' -> P c s') ->
  (forall c s, In c l -> length (fst s) = n_cells m -> length (snd s) = S max_level -> unl (fst s) <= u ->
     exists s', f c s = Some s' /\ pp s s' /\ P c s') ->
  forall s, length (fst s) = n_cells m -> length (snd s) = S max_level -> unl (fst s) <= u ->
  exists s', prep_list f l s = Some s' /\ pp s s' /\ forall c, In c l -> P c s'.
Proof.
  intros f l P u HM. induction l as [|c l IH]; intros H s H1 H2 H3; cbn [prep_list].
  - exists s. split; [reflexivity|]. split; [apply pp_refl, H2|]. intros c [].
  - destruct (H c s (or_introl eq_refl) H1 H2 H3) as (s1 & E1 & P1 & Q1). rewrite E1. cbn [obind].
    destruct (IH (fun c s Hc => H c s (or_intror Hc)) s1) as (s2 & E2 & P2 & Q2).
    + rewrite (pp_len _ _ P1). exact H1.
    + apply (pp_agg_len _ _ P1).
    + pose proof (pp_unl _ _ P1). lia.
    + exists s2. split; [exact E2|]. split; [eapply pp_trans; eassumption|].
      intros x [<-|Hx]; [eapply HM; eassumption|apply Q2, Hx].
Qed.

Section Height.
Variable D : nat.
Variable h : nat -> nat.
Hypothesis HD : forall c, h c <= D.
Hypothesis HC : forall c d, In d (children m c) -> h d < h c.

Definition visited (c : nat) (s : list (option nat) * list (list nat)) : Prop :=
  mine c -> children m c = [] -> forall p, pid c = Some p -> exists q, vget (fst s) c = Some (Some q).

Lemma visited_pp : forall c s s', visited c s -> pp s s' -> visited c s'.
Proof. intros c s s' H P H1 H2 p H3. destruct (H H1 H2 p H3) as [q Hq]. exists q. apply (pp_old _ _ P), Hq. Qed.

Lemma prep_ok : forall fuel c s, good_root m c -> length (fst s) = n_cells m -> length (snd s) = S max_level ->
  unl (fst s) * S D + h c < fuel ->
  exists s', prep m level max_level pid fuel me c s = Some s' /\ pp s s' /\ visited c s'.
Proof.
  induction fuel as [|fuel IH]; intros c s HG HL HA HF; [lia|]. cbn [prep].
  destruct (is_active m c) eqn:EA; cbn [negb].
  2:{ destruct (prep_list_pp (prep m level max_level pid fuel me) (children m c) (fun _ _ => True) (unl (fst s)))
        with (s := s) as (s' & E & P & _); auto.
      - intros d t Hd H1 H2 H3. destruct (IH d t) as (t' & E & P & _); auto.
        + intros e L. apply HG. eapply leaf_child; eassumption.
        + pose proof (HC c d Hd). assert (unl (fst t) * S D <= unl (fst s) * S D) by (apply Nat.mul_le_mono_r, H3). lia.
        + exists t'. auto.
      - exists s'. split; [exact E|]. split; [exact P|]. intros _ H. apply is_active_spec in H. congruence. }
  apply is_active_spec in EA. assert (Ha : In c (active m)) by (apply HG, leaf_self, EA).
  destruct (Nat.eqb_spec (rank m c) me) as [Er|Er]; cbn [negb].
  2:{ exists s. split; [reflexivity|]. split; [apply pp_refl, HA|]. intros [_ H]. contradiction. }
  destruct (pid c) as [p|] eqn:Ep.
  2:{ exists s. split; [reflexivity|]. split; [apply pp_refl, HA|]. intros _ _ p H. congruence. }
  destruct (vget_some _ (fst s) c) as [v Ev]; [rewrite HL; apply active_lt, Ha|]. rewrite Ev. cbn [obind].
  destruct v as [q|].
  { exists s. split; [reflexivity|]. split; [apply pp_refl, HA|]. intros _ _ p' _. exists q. exact Ev. }
  destruct (vset_some _ (fst s) c (Some p)) as [mark E1]; [eapply vget_lt; exact Ev|]. rewrite E1. cbn [obind].
  pose proof (unl_vset _ _ _ _ Ev E1) as HU. assert (HL1 : length mark = n_cells m) by (rewrite (vset_length _ _ _ _ _ E1); exact HL).
  assert (FU : forall n t, unl t <= unl mark -> unl t * S D + h n < fuel).
  { intros n t Ht. pose proof (HD n). assert (unl t * S D <= unl mark * S D) by (apply Nat.mul_le_mono_r, Ht).
    rewrite HU in HF. cbn [Nat.mul] in HF. lia. }
  match goal with |- context [prep_list ?f _ _] => set (F := f) end.
  destruct (prep_list_pp F (neighbors m c) (fun n s => open_to c n -> inagg (snd s) (idx c) c) (unl mark))
    with (s := (mark, snd s)) as (s' & E & P & Q1); cbn [fst snd]; auto.
  - intros n t t' H1 H2 H3. apply (pp_agg _ _ H2), H1, H3.
  - intros n t Hn H1 H2 H3. unfold F.
    assert (GN : good_root m n) by (intros e L; apply (ok_neighbors m (wm_mesh m WM) c n e Ha Hn L)).
    assert (PUSH : forall agg', length agg' = S max_level -> front c ->
              (forall k x, inagg agg' k x <-> inagg (snd t) k x \/ (k = idx c /\ x = c)) -> pp t (fst t, agg')).
    { intros agg' L1 HFr HI. split; cbn [fst snd]; auto.
      - intros k x H. apply HI. auto.
      - intros k x H. apply HI in H as [H|[-> ->]]; [auto|]. right. split; [reflexivity|]. split; [split; assumption|].
        split; [exact HFr|]. exists p. exact Ep.
      - intros x y Hx Hy. congruence. }
    destruct (is_active m n) eqn:EN.
    + destruct (pid n) as [pn|] eqn:Epn.
      * destruct (IH n t GN H1 H2 (FU n (fst t) H3)) as (t' & Et & Pt & _). exists t'. split; [exact Et|]. split; [exact Pt|].
        apply is_active_spec in EN. intros [[_ H]|[H _]]; congruence.
      * destruct (push_spec c (snd t) H2) as (agg' & Ep' & L' & HI). rewrite Ep'. cbn [obind]. exists (fst t, agg').
        split; [reflexivity|]. split; [|intros _; apply HI; auto]. apply PUSH; auto.
        exists n. split; [exact Hn|]. left. split; [apply is_active_spec, EN|exact Epn].
    + match goal with |- context [push_times _ _ ?k _ _] => set (K := k) end.
      destruct (push_times_spec K c (snd t) H2) as (agg' & Ep' & L' & HI). rewrite Ep'. cbn [obind].
      assert (CN : children m n <> []) by (intro H; apply is_active_spec in H; congruence).
      assert (KO : K <> 0 <-> open_to c n).
      { unfold K. split.
        - intro H. destruct (filter _ (children m n)) as [|d ds] eqn:EF; [contradiction|].
          assert (Hd : In d (d :: ds)) by (left; reflexivity). rewrite <- EF in Hd. apply filter_In in Hd as [Hd B].
          apply andb_true_iff in B as [B B4]. apply andb_true_iff in B as [B B3]. apply andb_true_iff in B as [B1 B2].
          right. split; [exact CN|]. exists d. split; [exact Hd|]. split; [apply is_active_spec, B1|].
          split; [apply Nat.eqb_eq, B2|]. split; [destruct (pid d); [discriminate|reflexivity]|]. apply touches_spec, B4.
        - intros [[H _]|[_ (d & Hd & B1 & B2 & B3 & B4)]]; [contradiction|].
          destruct (filter _ (children m n)) as [|x xs] eqn:EF; [|discriminate].
          assert (Hin : In d []). { rewrite <- EF. apply filter_In. split; [exact Hd|]. rewrite !andb_true_iff.
            repeat split; [apply is_active_spec, B1|apply Nat.eqb_eq, B2|rewrite B3; reflexivity|apply touches_spec, B4]. }
          contradiction. }
      assert (P1 : pp t (fst t, agg')).
      { split; cbn [fst snd]; auto.
        - intros k x H. apply HI. auto.
        - intros k x H. apply HI in H as [H|(HK & -> & ->)]; [auto|]. right. split; [reflexivity|]. split; [split; assumption|].
          split; [exists n; split; [exact Hn|apply KO, HK]|]. exists p. exact Ep.
        - intros x y Hx Hy. congruence. }
      destruct (IH n (fst t, agg') GN H1 L' (FU n (fst t) H3)) as (t' & Et & Pt & _). exists t'. split; [exact Et|].
      split; [eapply pp_trans; eassumption|]. intro HO. apply (pp_agg _ _ Pt). cbn [snd]. apply HI. right.
      split; [apply KO, HO|auto].
  - exists s'. split; [exact E|].
    assert (MC : vget (fst s') c = Some (Some p)).
    { apply (pp_old _ _ P). cbn [fst]. rewrite (vset_get _ _ _ _ _ c E1), Nat.eqb_refl. reflexivity. }
    split; [|intros _ _ p' _; exists p; exact MC]. split.
    + rewrite (pp_len _ _ P). cbn [fst]. rewrite (vset_length _ _ _ _ _ E1). reflexivity.
    + apply (pp_agg_len _ _ P).
    + intros x q Hx. apply (pp_old _ _ P). cbn [fst]. rewrite (vset_get _ _ _ _ _ x E1).
      destruct (Nat.eqb_spec x c) as [->|]; congruence.
    + intros x q Hx. destruct (pp_new _ _ P x q Hx) as [H|(H & H')]; cbn [fst] in H;
        rewrite (vset_get _ _ _ _ _ x E1) in H; destruct (Nat.eqb_spec x c) as [->|].
      * inversion H; subst. right. split; [exact Ev|]. split; [split; assumption|exact Ep].
      * auto.
      * discriminate.
      * auto.
    + intros k x Hx. apply (pp_agg _ _ P). exact Hx.
    + intros k x Hx. apply (pp_agg_new _ _ P k x Hx).
    + intros x q Hx Hq HFr. destruct (Nat.eq_dec x c) as [->|N].
      * destruct HFr as (n & Hn & HO). apply (Q1 n Hn HO).
      * apply (pp_done _ _ P x q); [|exact Hq|exact HFr]. cbn [fst]. rewrite (vset_get _ _ _ _ _ x E1).
        destruct (Nat.eqb_spec x c); [contradiction|exact Hx].
    + pose proof (pp_unl _ _ P) as U. cbn [fst] in U. lia.
Qed.
End Height.
End Prep.

(** One rank *)
Lemma prep_rank_ok : exists fuel0, forall fuel me mark, fuel0 <= fuel -> length mark = n_cells m ->
  (forall c, mine me c -> vget mark c = Some None) ->
  exists s, prep_rank m level max_level pid fuel me mark = Some s /\ length (fst s) = n_cells m /\
    length (snd s) = S max_level /\
    (forall c, vget (fst s) c = if (rank m c =? me) && (if in_dec Nat.eq_dec c (active m) then true else false)
                                then Some (pid c) else vget mark c) /\
    forall k c, inagg (snd s) k c <-> (k = idx c /\ mine me c /\ front me c /\ exists p, pid c = Some p).
Proof.
  destruct (ok_height m (wm_mesh m WM)) as (D & h & HD & HC). exists (S (n_cells m * S D + D)).
  intros fuel me mark HF HL HM. unfold prep_rank.
  destruct (prep_list_pp me (fun c s => if rank m c =? me then prep m level max_level pid fuel me c s else Some s)
              (active m) (visited me) (unl mark)) with (s := (mark, repeat (@nil nat) (S max_level)))
    as (s & E & P & V0); cbn [fst snd].
  - apply visited_pp.
  - intros c s Hc H1 H2 H3. destruct (Nat.eqb_spec (rank m c) me) as [Er|Er].
    + destruct (prep_ok me D h HD HC fuel c s) as (s' & E & P & V0); auto.
      * intros e L. destruct (ok_active m (wm_mesh m WM) c Hc) as [_ CH]. inversion L as [|? y ? Hy _]; subst; [exact Hc|].
        rewrite CH in Hy. contradiction.
      * pose proof (HD c). pose proof (unl_le mark). assert (unl (fst s) * S D <= n_cells m * S D) by (apply Nat.mul_le_mono_r; lia). lia.
      * exists s'. auto.
    + exists s. split; [reflexivity|]. split; [apply pp_refl, H2|]. intros [_ H]. contradiction.
  - exact HL.
  - apply repeat_length.
  - lia.
  - exists s. split; [exact E|]. split; [rewrite (pp_len _ _ _ P); exact HL|]. split; [apply (pp_agg_len _ _ _ P)|].
    assert (LEN : length (fst s) = length mark) by (apply (pp_len _ _ _ P)).
    assert (EMPTY : forall k c, ~ inagg (repeat (@nil nat) (S max_level)) k c).
    { intros k c (l & Hl & Hc). rewrite vget_repeat in Hl. destruct (k <? S max_level); [|discriminate].
      inversion Hl; subst. contradiction. }
    assert (GET : forall c, vget (fst s) c = if (rank m c =? me) && (if in_dec Nat.eq_dec c (active m) then true else false)
                                then Some (pid c) else vget mark c).
    { intro c. destruct (vget (fst s) c) as [[q|]|] eqn:Ec.
      - destruct (pp_new _ _ _ P c q Ec) as [H|(H1 & [H2 H3] & H4)]; cbn [fst] in *.
        + destruct (Nat.eqb_spec (rank m c) me) as [Er|]; cbn [andb]; [|auto].
          destruct (in_dec Nat.eq_dec c (active m)) as [Hc|]; [|auto]. rewrite (HM c) in H; [discriminate|]. split; assumption.
        + rewrite H3, Nat.eqb_refl. cbn [andb]. destruct (in_dec Nat.eq_dec c (active m)); [congruence|contradiction].
      - destruct (Nat.eqb_spec (rank m c) me) as [Er|N]; cbn [andb].
        + destruct (in_dec Nat.eq_dec c (active m)) as [Hc|N'].
          * destruct (pid c) as [p|] eqn:Ep; [|reflexivity].
            destruct (V0 c Hc (conj Hc Er) (proj2 (ok_active m (wm_mesh m WM) c Hc)) p Ep) as [q Hq]. congruence.
          * destruct (vget mark c) as [[q|]|] eqn:Em; auto.
            -- apply (pp_old _ _ _ P) in Em. congruence.
            -- apply vget_lt in Ec. rewrite LEN in Ec. apply vget_some in Ec as [x Hx]. congruence.
        + destruct (vget mark c) as [[q|]|] eqn:Em; auto.
          -- apply (pp_old _ _ _ P) in Em. congruence.
          -- apply vget_lt in Ec. rewrite LEN in Ec. apply vget_some in Ec as [x Hx]. congruence.
      - assert (Hc : ~ c < n_cells m). { intro H. rewrite <- HL, <- LEN in H. apply vget_some in H as [x Hx]. congruence. }
        destruct ((rank m c =? me) && _) eqn:B.
        + apply andb_true_iff in B as [_ B]. destruct (in_dec Nat.eq_dec c (active m)) as [Hi|]; [|discriminate].
          apply active_lt in Hi. contradiction.
        + symmetry. apply vget_none. lia. }
    split; [exact GET|]. intros k c. split.
    + intro H. destruct (pp_agg_new _ _ _ P k c H) as [H'|H']; [apply EMPTY in H'; contradiction|exact H'].
    + intros (-> & Hm & HFr & p & Hp). apply (pp_done _ _ _ P c p); [apply HM, Hm| |exact HFr].
      rewrite GET. destruct Hm as [H1 H2]. rewrite H2, Nat.eqb_refl. cbn [andb].
      destruct (in_dec Nat.eq_dec c (active m)); [congruence|contradiction].
Qed.

(** All ranks from [me] on *)
Lemma prep_ranks_ok : exists fuel0, forall fuel n me mark, fuel0 <= fuel -> length mark = n_cells m ->
  (forall c, In c (active m) -> me <= rank m c -> vget mark c = Some None) ->
  exists mark' aggs, prep_ranks m level max_level pid fuel (seq me n) mark = Some (mark', aggs) /\
    length mark' = n_cells m /\ length aggs = n /\
    (forall c, vget mark' c = if (me <=? rank m c) && (rank m c <? me + n) && (if in_dec Nat.eq_dec c (active m) then true else false)
                              then Some (pid c) else vget mark c) /\
    forall r agg, vget aggs r = Some agg -> length agg = S max_level /\
      forall k c, inagg agg k c <-> (k = idx c /\ mine (me + r) c /\ front (me + r) c /\ exists p, pid c = Some p).
Proof.
  destruct prep_rank_ok as [fuel0 H0]. exists fuel0. intros fuel. induction n as [|n IH]; intros me mark HF HL HM.
  - exists mark, []. split; [reflexivity|]. split; [exact HL|]. split; [reflexivity|]. split.
    + intro c. destruct (Nat.leb_spec me (rank m c)), (Nat.ltb_spec (rank m c) (me + 0)); try lia; reflexivity.
    + intros r agg H. destruct r; discriminate.
  - cbn [seq prep_ranks]. destruct (H0 fuel me mark HF HL) as (s & E & L1 & L2 & G & A).
    { intros c [H1 H2]. apply HM; [exact H1|lia]. }
    rewrite E. cbn [obind]. destruct (IH (S me) (fst s) HF L1) as (mark' & aggs & E' & L1' & L2' & G' & A').
    { intros c Hc Hr. rewrite G. destruct (Nat.eqb_spec (rank m c) me); [lia|]. cbn [andb]. apply HM; [exact Hc|lia]. }
    rewrite E'. cbn [obind fst snd]. exists mark', (snd s :: aggs). split; [reflexivity|]. split; [exact L1'|].
    split; [cbn [length]; lia|]. split.
    + intro c. rewrite G', G.
      destruct (Nat.leb_spec (S me) (rank m c)), (Nat.ltb_spec (rank m c) (S me + n)), (Nat.leb_spec me (rank m c)),
        (Nat.ltb_spec (rank m c) (me + S n)), (Nat.eqb_spec (rank m c) me), (in_dec Nat.eq_dec c (active m)); cbn [andb]; try lia; reflexivity.
    + intros r agg H. destruct r as [|r].
      * injection H as <-. rewrite Nat.add_0_r. auto.
      * replace (me + S r) with (S me + r) by lia. apply (A' r agg H).
Qed.
End Wave.
