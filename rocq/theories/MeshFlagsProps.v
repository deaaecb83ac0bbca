(** C44: adaptation of the mesh respects the level limits. *)
From Coq Require Import List QArith NArith ZArith Bool Lia Lqa.
From Verif Require Import Util MeshFlagsModel.
Import ListNotations.
Local Open Scope N_scope.

(** ** Vocabulary *)
(** At most one flag per cell. *)
Definition exclusive (c : cell) : Prop := ~ (refine c = true /\ coarsen c = true).

(** The same cell but for its flags. *)
Definition same_cell (c c' : cell) : Prop := level c' = level c /\ owned c' = owned c /\ values c' = values c.

Definition total (l : list Q) : Q := fold_right Qplus 0%Q l.

(** An interface passes the cell: some block has a value strictly between the bounds, or
    the mean of its values is there. *)
Definition at_interface (lo hi : Q) (c : cell) : Prop :=
  exists vs, In vs (values c) /\
    ((exists v, In v vs /\ (lo < v /\ v < hi)%Q) \/
     exists mean, (mean * inject_Z (Z.of_nat (length vs)) == total vs)%Q /\ vs <> [] /\ (lo < mean /\ mean < hi)%Q).

Section Marking.
Variables (lo hi : Q).

Lemma inside_iff : forall v, inside lo hi v = true <-> (lo < v /\ v < hi)%Q.
Proof. intro v. unfold inside. rewrite andb_true_iff, !qltb_true. reflexivity. Qed.

(** result of marking: refined if [P], otherwise unchanged *)
Definition marked (c c' : cell) (P : Prop) : Prop :=
  same_cell c c' /\ (P -> refine c' = true /\ coarsen c' = false) /\ (~ P -> c' = c).

Lemma refine_now : forall c, set_refine (clear_coarsen c) = Some (mkCell (level c) (owned c) true false (values c)).
Proof. reflexivity. Qed.

Lemma scan_spec : forall vs sum c, refine c = false ->
  exists s c', scan lo hi vs sum c = Some (s, c') /\
    ((exists v, In v vs /\ inside lo hi v = true) /\ c' = mkCell (level c) (owned c) true false (values c)
     \/ (forall v, In v vs -> inside lo hi v = false) /\ c' = c /\ (s == sum + total vs)%Q).
Proof.
  induction vs as [|v vs IH]; intros sum c R; cbn [scan].
  - exists sum, c. split; [reflexivity|]. right. split; [intros v []|]. split; [reflexivity|]. cbn. lra.
  - destruct (inside lo hi v) eqn:E.
    + rewrite refine_now. cbn [obind]. eexists _, _. split; [reflexivity|]. left. split; [|reflexivity]. exists v. split; [left; reflexivity|exact E].
    + destruct (IH (sum + v)%Q c R) as (s & c' & E1 & [[(w & W1 & W2) E2]|(N & E2 & E3)]); rewrite E1; exists s, c'; (split; [reflexivity|]).
      * left. split; [|exact E2]. exists w. split; [right; exact W1|exact W2].
      * right. split; [|split; [exact E2|]].
        -- intros w [<-|W]; auto.
        -- rewrite E3. cbn [total fold_right]. fold (total vs). ring.
Qed.

Lemma mean_exists : forall vs s, (s == total vs)%Q ->
  match qdiv s (inject_Z (Z.of_nat (length vs))) with
  | Some m => vs <> [] /\ (m * inject_Z (Z.of_nat (length vs)) == total vs)%Q
  | None => vs = []
  end.
Proof.
  intros vs s E. destruct vs as [|v vs]; [reflexivity|].
  assert (NZ : ~ (inject_Z (Z.of_nat (length (v :: vs))) == 0)%Q) by (unfold Qeq; cbn [inject_Z Qnum Qden length]; lia).
  rewrite (qdiv_some _ _ NZ). split; [discriminate|]. rewrite <- E. field. exact NZ.
Qed.

Definition block_at_interface (vs : list Q) : Prop :=
  (exists v, In v vs /\ (lo < v /\ v < hi)%Q) \/
  exists mean, (mean * inject_Z (Z.of_nat (length vs)) == total vs)%Q /\ vs <> [] /\ (lo < mean /\ mean < hi)%Q.

Lemma block_loop_spec : forall blocks c, refine c = false -> exists c', block_loop lo hi blocks c = Some c' /\
  ((exists vs, In vs blocks /\ block_at_interface vs) /\ c' = mkCell (level c) (owned c) true false (values c)
   \/ (forall vs, In vs blocks -> ~ block_at_interface vs) /\ c' = c).
Proof.
  induction blocks as [|vs blocks IH]; intros c R; cbn [block_loop].
  - exists c. split; [reflexivity|]. right. split; [intros vs []|reflexivity].
  - destruct (scan_spec vs 0 c R) as (s & c1 & E1 & [[(v & V1 & V2) E2]|(N & E2 & E3)]); rewrite E1; cbn [obind fst snd].
    + unfold check_average. rewrite E2. cbn [refine obind]. eexists. split; [reflexivity|]. left. split; [|reflexivity].
      exists vs. split; [left; reflexivity|]. left. exists v. split; [exact V1|]. apply inside_iff. exact V2.
    + subst c1. unfold check_average. rewrite R. assert (E4 : (s == total vs)%Q) by (rewrite E3; ring).
      pose proof (mean_exists vs s E4) as M.
      assert (NV : ~ exists v, In v vs /\ (lo < v /\ v < hi)%Q).
      { intros (v & V1 & V2). apply inside_iff in V2. rewrite (N v V1) in V2. discriminate. }
      assert (REC : (~ block_at_interface vs) -> exists c', (if refine c then Some c else block_loop lo hi blocks c) = Some c' /\
        ((exists w, In w (vs :: blocks) /\ block_at_interface w) /\ c' = mkCell (level c) (owned c) true false (values c)
         \/ (forall w, In w (vs :: blocks) -> ~ block_at_interface w) /\ c' = c)).
      { intro NB. rewrite R. destruct (IH c R) as (c' & E5 & [[(w & W1 & W2) E6]|[W E6]]); exists c'; (split; [exact E5|]).
        - left. split; [|exact E6]. exists w. split; [right; exact W1|exact W2].
        - right. split; [|exact E6]. intros w [<-|Hw]; [exact NB|apply W; exact Hw]. }
      destruct (qdiv s (inject_Z (Z.of_nat (length vs)))) as [m|].
      * destruct (inside lo hi m) eqn:EI.
        -- rewrite refine_now. cbn [obind refine]. eexists. split; [reflexivity|]. left. split; [|reflexivity].
           exists vs. split; [left; reflexivity|]. right. exists m. split; [apply M|]. split; [apply M|]. apply inside_iff. exact EI.
        -- cbn [obind]. apply REC. intros [B|(m' & B1 & B2 & B3)]; [exact (NV B)|]. destruct M as [M1 M2].
           assert (EQ : (m' == m)%Q).
           { apply (Qmult_inj_r m' m (inject_Z (Z.of_nat (length vs)))); [|rewrite B1, M2; reflexivity].
             destruct vs; [contradiction|]. unfold Qeq. cbn [inject_Z Qnum Qden length]. lia. }
           rewrite EQ in B3. apply inside_iff in B3. congruence.
      * cbn [obind]. apply REC. subst vs. intros [B|(m' & _ & B2 & _)]; [exact (NV B)|apply B2; reflexivity].
Qed.

Lemma mark_interface_spec : forall c, exclusive c -> exists c', mark_interface lo hi c = Some c' /\ same_cell c c' /\ exclusive c' /\
  (refine c' = true <-> refine c = true \/ owned c = true /\ at_interface lo hi c) /\
  (coarsen c' = true <-> coarsen c = true /\ ~ (owned c = true /\ at_interface lo hi c)).
Proof.
  intros c X. unfold mark_interface. destruct (owned c) eqn:O; cbn [negb orb].
  2:{ exists c. split; [reflexivity|]. split; [repeat split|]. split; [exact X|]. split; intuition congruence. }
  destruct (refine c) eqn:R.
  { exists c. split; [reflexivity|]. split; [repeat split|]. split; [exact X|]. rewrite R. split; [tauto|].
    split; [intro C; exfalso; apply X; auto|tauto]. }
  destruct (block_loop_spec (values c) c R) as (c' & E & [[(vs & V1 & V2) E2]|[N E2]]); exists c'; (split; [exact E|]); subst c'.
  - assert (AI : at_interface lo hi c) by (exists vs; split; [exact V1|exact V2]).
    split; [repeat split|]. unfold exclusive. cbn [refine coarsen]. split; [intros [_ D]; discriminate|]. split; [tauto|]. split; [discriminate|tauto].
  - assert (AI : ~ at_interface lo hi c) by (intros (vs & V1 & V2); exact (N vs V1 V2)).
    split; [repeat split|]. split; [exact X|]. rewrite R. split; [split; [discriminate|intros [D|[_ D]]; [discriminate|tauto]]|tauto].
Qed.

Lemma limit_levels_spec : forall mn mx c, exclusive c -> mn <= mx -> exists c', limit_levels mn mx c = Some c' /\ same_cell c c' /\ exclusive c' /\
  (refine c' = true <-> refine c = true /\ level c < mx) /\
  (coarsen c' = true <-> mx < level c \/ coarsen c = true /\ level c <> mn).
Proof.
  intros mn mx [l o r k v] X L. unfold exclusive in X. cbn [refine coarsen] in X. unfold limit_levels. cbn [refine coarsen level].
  destruct (N.ltb_spec mx l) as [H1|H1].
  - destruct (N.eqb_spec l mx) as [|_]; [lia|]. destruct (N.eqb_spec l mn) as [|_]; [lia|]. rewrite !andb_false_r. cbn [level]. rewrite (proj2 (N.ltb_lt _ _) H1).
    destruct r; cbn [refine clear_refine set_coarsen level owned values]; (eexists; split; [reflexivity|]); (split; [repeat split|]); unfold exclusive; cbn [refine coarsen level];
      intuition (try discriminate; try lia).
  - assert (F : (mx <? l) = false) by (apply N.ltb_ge; lia).
    destruct (N.eqb_spec l mx) as [H2|H2]; destruct (N.eqb_spec l mn) as [H3|H3]; destruct r, k; cbn [andb clear_refine clear_coarsen level refine coarsen owned values]; rewrite F;
      try (exfalso; apply X; split; reflexivity);
      (eexists; split; [reflexivity|]); (split; [repeat split|]); unfold exclusive; cbn [refine coarsen level]; intuition (try discriminate; try congruence; try lia).
Qed.

Lemma map_cells_spec : forall (f : cell -> option cell) (P : cell -> Prop) (R : cell -> cell -> Prop) l,
  (forall c, P c -> exists c', f c = Some c' /\ R c c') -> Forall P l -> exists l', map_cells f l = Some l' /\ Forall2 R l l'.
Proof.
  intros f P R l H. induction l as [|c l IH]; intro F; cbn [map_cells]; [exists []; split; [reflexivity|constructor]|].
  inversion F as [|? ? F1 F2]; subst. destruct (H c F1) as (c' & E & RC). destruct (IH F2) as (l' & E' & RL). rewrite E. cbn [obind]. rewrite E'. cbn [obind].
  eexists. split; [reflexivity|]. constructor; assumption.
Qed.

(** The complete effect of the marking. No flag is set beside the other one (an assertion
    of deal.II otherwise). *)
Definition marking (mn mx : N) (c c' : cell) : Prop :=
  same_cell c c' /\ exclusive c' /\
  (refine c' = true <-> (refine c = true \/ owned c = true /\ at_interface lo hi c) /\ level c < mx) /\
  (coarsen c' = true <-> mx < level c \/ (coarsen c = true /\ ~ (owned c = true /\ at_interface lo hi c)) /\ level c <> mn).

Theorem C44_marking : forall mn mx cells, Forall exclusive cells -> mn <= mx ->
  exists cells', mark_cells lo hi mn mx cells = Some cells' /\ Forall2 (marking mn mx) cells cells'.
Proof.
  intros mn mx cells X L. unfold mark_cells.
  destruct (map_cells_spec (mark_interface lo hi) exclusive (fun c c' => same_cell c c' /\ exclusive c' /\
    (refine c' = true <-> refine c = true \/ owned c = true /\ at_interface lo hi c) /\
    (coarsen c' = true <-> coarsen c = true /\ ~ (owned c = true /\ at_interface lo hi c))) cells mark_interface_spec X) as (l1 & E1 & R1).
  rewrite E1. cbn [obind].
  assert (X1 : Forall exclusive l1) by (clear - R1; induction R1; constructor; [tauto|assumption]).
  destruct (map_cells_spec (limit_levels mn mx) exclusive (fun c c' => same_cell c c' /\ exclusive c' /\
    (refine c' = true <-> refine c = true /\ level c < mx) /\
    (coarsen c' = true <-> mx < level c \/ coarsen c = true /\ level c <> mn)) l1 (fun c XC => limit_levels_spec mn mx c XC L) X1) as (l2 & E2 & R2).
  rewrite E2. eexists. split; [reflexivity|]. clear E1 E2 X1 X. revert l2 R2.
  induction R1 as [|c c1 cs l1 (S1 & _ & A1 & B1) R1 IH]; intros l2 R2; inversion R2 as [|? c2 ? l2' (S2 & X2 & A2 & B2) R2']; subst; constructor; [|apply IH; assumption].
  destruct S1 as (S1a & S1b & S1c), S2 as (S2a & S2b & S2c). unfold marking. split; [repeat split; congruence|]. split; [exact X2|].
  rewrite A2, A1, B2, B1, S1a. split; reflexivity.
Qed.

(** The property: limits respected. *)
Theorem C44_limits : forall mn mx cells cells', Forall exclusive cells -> mn <= mx -> mark_cells lo hi mn mx cells = Some cells' ->
  forall c, In c cells' -> (level c = mx -> refine c = false) /\ (level c = mn -> coarsen c = false) /\
    (mx < level c -> refine c = false /\ coarsen c = true).
Proof.
  intros mn mx cells cells' X L E c Hc. destruct (C44_marking mn mx cells X L) as (l & E' & R). rewrite E in E'. injection E' as <-.
  clear E X. induction R as [|c0 c1 cs l1 (S1 & X1 & A & B) R IH]; [contradiction|]. destruct Hc as [<-|Hc]; [|apply IH; exact Hc].
  destruct S1 as (SL & _). rewrite SL. split; [|split]; intro H; [| |split]; try (apply not_true_is_false; intro C).
  - apply A in C. lia.
  - apply B in C. destruct C as [C|[_ C]]; [lia|contradiction].
  - apply A in C. lia.
  - apply B. left. exact H.
Qed.
End Marking.
Print Assumptions C44_marking.
Print Assumptions C44_limits.

(** ** Repeated adaptation *)
(** What deal.II does after the marking: the smoothing keeps cells, sets no coarsen
    flag, and sets a refine flag only where a cell would become coarser by two levels than
    another one; the execution replaces a cell marked for refinement by cells one level
    finer, and a cell marked for coarsening may be replaced by its parent. *)
Definition smoothing (cells cells' : list cell) : Prop :=
  Forall2 (fun c c' => level c' = level c /\ (coarsen c' = true -> coarsen c = true) /\
    (refine c' = true -> refine c = true \/
       exists d, In d cells' /\ (level c + 2 <= level d \/ level c + 1 <= level d /\ refine d = true))) cells cells'.

Definition executed (cells cells' : list cell) : Prop :=
  forall c', In c' cells' -> exists c, In c cells /\
    (level c' = level c \/ refine c = true /\ level c' = level c + 1 \/ coarsen c = true /\ level c' + 1 = level c).

(** One adaptation: arbitrary exclusive flags and values, marking, smoothing, execution. *)
Definition adapted (lo hi : Q) (mn mx : N) (before after : list N) : Prop :=
  exists cells marked smoothed cells', map level cells = before /\ Forall exclusive cells /\
    mark_cells lo hi mn mx cells = Some marked /\ smoothing marked smoothed /\ executed smoothed cells' /\ map level cells' = after.

Lemma marked_levels : forall lo hi mn mx cells cells', Forall exclusive cells -> mn <= mx -> mark_cells lo hi mn mx cells = Some cells' -> map level cells' = map level cells.
Proof.
  intros lo hi mn mx cells cells' X L E. destruct (C44_marking lo hi mn mx cells X L) as (l & E' & R). rewrite E in E'. injection E' as <-. clear E X.
  induction R as [|c c' cs cs' ((H & _) & _)]; [reflexivity|]. cbn [map]. f_equal; assumption.
Qed.

Lemma adapted_levels : forall lo hi mn mx before after, mn <= mx -> adapted lo hi mn mx before after ->
  (forall M, mx <= M -> (forall l, In l before -> l <= M) -> forall l, In l after -> l <= M) /\
  ((forall l, In l before -> mn <= l) -> forall l, In l after -> mn <= l).
Proof.
  intros lo hi mn mx before after L (cells & mk & sm & cells' & EB & X & EM & HS & EX & EA).
  pose proof (C44_limits lo hi mn mx cells mk X L EM) as LIM. pose proof (marked_levels lo hi mn mx cells mk X L EM) as ML.
  assert (SL : map level sm = before).
  { rewrite <- EB, <- ML. clear - HS. unfold smoothing in HS. remember sm as sm' in HS at 1. clear Heqsm'. induction HS as [|? ? ? ? (H & _)]; [reflexivity|]. cbn [map]. f_equal; assumption. }
  assert (SIN : forall c, In c sm -> In (level c) before) by (intros c Hc; rewrite <- SL; apply in_map; exact Hc).
  assert (SMK : forall c, In c sm -> exists d, In d mk /\ level c = level d /\ (coarsen c = true -> coarsen d = true) /\
     (refine c = true -> refine d = true \/ exists e, In e sm /\ (level c + 2 <= level e \/ level c + 1 <= level e /\ refine e = true))).
  { assert (G : forall all, Forall2 (fun c c' => level c' = level c /\ (coarsen c' = true -> coarsen c = true) /\
      (refine c' = true -> refine c = true \/ exists d, In d all /\ (level c + 2 <= level d \/ level c + 1 <= level d /\ refine d = true))) mk sm ->
      forall c, In c sm -> exists d, In d mk /\ level c = level d /\ (coarsen c = true -> coarsen d = true) /\
      (refine c = true -> refine d = true \/ exists e, In e all /\ (level c + 2 <= level e \/ level c + 1 <= level e /\ refine e = true))).
    { intros all HS'. clear - HS'. induction HS' as [|d c ds cs (H1 & H2 & H3) HS' IH]; intros x Hx; [contradiction|]. destruct Hx as [<-|Hx].
      - exists d. split; [left; reflexivity|]. split; [exact H1|]. split; [exact H2|]. rewrite H1. exact H3.
      - destruct (IH x Hx) as (e & E1 & E2). exists e. split; [right; exact E1|exact E2]. }
    apply (G sm). exact HS. }
  split.
  - intros M HM HB l Hl. rewrite <- EA in Hl. apply in_map_iff in Hl. destruct Hl as (c' & <- & Hc'). destruct (EX c' Hc') as (c & Hc & CASES).
    pose proof (HB _ (SIN c Hc)) as LM. destruct CASES as [E|[[R E]|[_ E]]]; [lia| |lia].
    destruct (SMK c Hc) as (d & D1 & D2 & _ & D4). destruct (D4 R) as [RD|(e & E1 & E2)].
    + destruct (LIM d D1) as (A & _ & C). assert (level d <> mx) by (intro H; rewrite (A H) in RD; discriminate).
      assert (~ mx < level d) by (intro H'; destruct (C H') as [C1 _]; congruence). lia.
    + pose proof (HB _ (SIN e E1)). lia.
  - intros HB l Hl. rewrite <- EA in Hl. apply in_map_iff in Hl. destruct Hl as (c' & <- & Hc'). destruct (EX c' Hc') as (c & Hc & CASES).
    pose proof (HB _ (SIN c Hc)) as LM. destruct CASES as [E|[[_ E]|[K E]]]; [lia|lia|].
    destruct (SMK c Hc) as (d & D1 & D2 & D3 & _). destruct (LIM d D1) as (_ & B & _). specialize (D3 K).
    assert (level d <> mn) by (intro H; rewrite (B H) in D3; discriminate). lia.
Qed.

(** Any number of adaptations with the same minimum and possibly different maxima. *)
Inductive adaptations (lo hi : Q) (mn M : N) : list N -> list N -> Prop :=
| ad_none : forall l, adaptations lo hi mn M l l
| ad_step : forall mx l1 l2 l3, mn <= mx -> mx <= M -> adapted lo hi mn mx l1 l2 -> adaptations lo hi mn M l2 l3 -> adaptations lo hi mn M l1 l3.

Theorem C44_levels_stay_within_limits : forall lo hi mn M before after, adaptations lo hi mn M before after ->
  ((forall l, In l before -> l <= M) -> forall l, In l after -> l <= M) /\
  ((forall l, In l before -> mn <= l) -> forall l, In l after -> mn <= l).
Proof.
  intros lo hi mn M before after H. induction H as [|mx l1 l2 l3 H1 H2 A H [I1 I2]]; [auto|].
  destruct (adapted_levels lo hi mn mx l1 l2 H1 A) as [B1 B2]. split; intros HB.
  - apply I1. apply (B1 M H2 HB).
  - apply I2. apply B2. exact HB.
Qed.
Print Assumptions C44_levels_stay_within_limits.

(** ** The limits computed by the driver *)
Lemma u32_small : forall x, x < 2 ^ 32 -> u32 x = x.
Proof. intros x H. unfold u32. apply N.mod_small. exact H. Qed.

Lemma u32_sub_small : forall a b, b <= a -> a < 2 ^ 32 -> u32_sub a b = a - b.
Proof.
  intros a b H1 H2. unfold u32_sub. rewrite (u32_small b) by lia. unfold u32. replace (a + 2 ^ 32 - b) with (a - b + 1 * 2 ^ 32) by lia.
  rewrite N.mod_add by discriminate. apply N.mod_small. lia.
Qed.

(** The level of the mesh without extra refinement lies between both limits. *)
Theorem C44_driver_limits : forall n0 depth min_depth, 1 <= n0 -> n0 + depth <= 2 ^ 32 ->
  min_allowed_level n0 min_depth <= n0 - 1 <= max_allowed_level n0 depth /\
  max_allowed_level n0 depth = n0 - 1 + depth /\
  (min_depth <= n0 - 1 -> min_allowed_level n0 min_depth + min_depth = n0 - 1) /\
  (n0 - 1 <= min_depth -> min_allowed_level n0 min_depth = 0).
Proof.
  intros n0 depth min_depth H1 H2. unfold min_allowed_level, max_allowed_level.
  destruct (N.eq_dec depth 0) as [->|D].
  - destruct (N.eq_dec n0 (2 ^ 32)) as [->|].
    + assert (E : u32_sub (2 ^ 32) 1 = 2 ^ 32 - 1) by reflexivity. rewrite E. rewrite (u32_sub_small (2 ^ 32 - 1)) by lia. rewrite u32_small by lia.
      repeat split; try lia.
    + rewrite !(u32_sub_small n0) by lia. rewrite u32_sub_small by lia. rewrite u32_small by lia. repeat split; lia.
  - rewrite !(u32_sub_small n0) by lia. rewrite u32_sub_small by lia. rewrite u32_small by lia. repeat split; lia.
Qed.
Print Assumptions C44_driver_limits.

(** After the initial refinement the finest allowed level can be reached. *)
Theorem C44_initial_refinements_suffice : forall n0 n_levels min_depth max_depth, 1 <= n_levels -> n_levels <= n0 -> n0 + max_depth < 2 ^ 32 ->
  max_allowed_level n0 max_depth <= (n_levels - 1) + n_init_refinements n0 n_levels min_depth max_depth.
Proof.
  intros n0 nl mind maxd H1 H2 H3. destruct (C44_driver_limits n0 maxd mind ltac:(lia) ltac:(lia)) as (_ & -> & _).
  unfold n_init_refinements. rewrite (u32_sub_small n0 nl) by lia. rewrite (u32_small (n0 - nl + maxd)) by lia. lia.
Qed.
Print Assumptions C44_initial_refinements_suffice.

(** No refinement is lost between the two stages of mesh creation. *)
Theorem C44_initial_refines_complete : forall r base interface, base + interface < 2 ^ 32 ->
  fst (make_initial_refines r base interface) + snd (make_initial_refines r base interface) = base + interface.
Proof. intros [] base interface H; cbn [make_initial_refines fst snd]; rewrite ?u32_small by assumption; lia. Qed.
Print Assumptions C44_initial_refines_complete.

(** ** Where the property fails *)
(** With [max_refinement_depth] 0 the extra coarsening steps to 2^32 - 1: the maximum falls
    below the minimum (or, for a mesh of one level, is no limit), and cells on the minimum
    level are marked for coarsening. *)
Theorem C44_extra_coarsening_refuted :
  (forall n0, 2 <= n0 -> n0 < 2 ^ 32 ->
    let mx := max_allowed_level n0 (reduce_depth true false true 0 0) in
    let mn := min_allowed_level n0 0 in
    mx < mn /\ forall c, exclusive c -> level c = mn ->
      exists c', mark_cells 0 1 mn mx [c] = Some [c'] /\ level c' = mn /\ coarsen c' = true) /\
  max_allowed_level 1 (reduce_depth true false true 0 0) = 2 ^ 32 - 1.
Proof.
  split; [|reflexivity]. intros n0 H1 H2. cbn zeta.
  assert (E1 : reduce_depth true false true 0 0 = 2 ^ 32 - 1) by reflexivity. rewrite E1.
  assert (E2 : max_allowed_level n0 (2 ^ 32 - 1) = n0 - 2).
  { unfold max_allowed_level. rewrite u32_sub_small by lia. unfold u32. replace (n0 - 1 + (2 ^ 32 - 1)) with (n0 - 2 + 1 * 2 ^ 32) by lia.
    rewrite N.mod_add by discriminate. apply N.mod_small. lia. }
  assert (E3 : min_allowed_level n0 0 = n0 - 1).
  { destruct (C44_driver_limits n0 0 0 ltac:(lia) ltac:(lia)) as (_ & _ & E & _). specialize (E ltac:(lia)). lia. }
  rewrite E2, E3. split; [lia|]. intros c X LC. unfold mark_cells. cbn [map_cells].
  destruct (mark_interface_spec 0 1 c X) as (c1 & M1 & (L1 & _) & X1 & _). rewrite M1. cbn [obind map_cells].
  unfold limit_levels. assert (N1 : (level c1 =? n0 - 2) = false) by (apply N.eqb_neq; lia). rewrite N1, andb_false_r.
  destruct c1 as [l o r k v]. cbn [level] in *. subst l.
  destruct (coarsen _ && _); cbn [clear_coarsen level refine coarsen owned values];
    (assert (N2 : (n0 - 2 <? level c) = true) by (apply N.ltb_lt; lia)); rewrite N2;
    destruct r; cbn [refine clear_refine set_coarsen obind level coarsen owned values]; eexists; (split; [reflexivity|]); cbn [level coarsen]; auto.
Qed.
Print Assumptions C44_extra_coarsening_refuted.

(** Cells below the minimum level are not protected. *)
Theorem C44_below_minimum_refuted : ~ forall lo hi mn mx cells cells', Forall exclusive cells -> mn <= mx -> mark_cells lo hi mn mx cells = Some cells' ->
  forall c, In c cells' -> level c <= mn -> coarsen c = false.
Proof.
  intro H. specialize (H 0%Q 1%Q 2 4 [mkCell 1 true false true []] [mkCell 1 true false true []]).
  assert (X : true = false); [|discriminate]. refine (H _ _ _ (mkCell 1 true false true []) _ _).
  - constructor; [|constructor]. intros [A _]. discriminate.
  - lia.
  - reflexivity.
  - left. reflexivity.
  - cbn. lia.
Qed.
Print Assumptions C44_below_minimum_refuted.

(** ** Cases *)
Example C44_case :
  let cells := [mkCell 3 true false true [[0; 0]; [0; 1 # 2]]%Q; mkCell 3 true false true [[0; 0]; [0; 0]]%Q; mkCell 5 true true false [];
                mkCell 2 true false true []; mkCell 6 false true false []; mkCell 4 true false true [[0; 1]]%Q] in
  Forall exclusive cells /\
  mark_cells (1 # 20) (19 # 20) 2 5 cells =
    Some [mkCell 3 true true false [[0; 0]; [0; 1 # 2]]%Q; mkCell 3 true false true [[0; 0]; [0; 0]]%Q; mkCell 5 true false false [];
          mkCell 2 true false false []; mkCell 6 false false true []; mkCell 4 true true false [[0; 1]]%Q].
Proof.
  split; [|vm_compute; reflexivity]. repeat constructor; intros [A B]; discriminate.
Qed.

Example C44_adaptation_case : adaptations (1 # 20) (19 # 20) 1 3 [2; 3] [3; 3; 3; 3; 3].
Proof.
  eapply (ad_step _ _ _ _ 3); [lia|lia| |apply ad_none].
  exists [mkCell 2 true false true [[0; 1]]%Q; mkCell 3 true true false []], [mkCell 2 true true false [[0; 1]]%Q; mkCell 3 true false false []],
    [mkCell 2 true true false [[0; 1]]%Q; mkCell 3 true false false []], (repeat (mkCell 3 true false false []) 5).
  split; [reflexivity|]. split; [repeat constructor; intros [A B]; discriminate|]. split; [vm_compute; reflexivity|]. split.
  - repeat constructor; cbn; auto.
  - split; [|reflexivity]. intros c' H. apply repeat_spec in H. subst c'. exists (mkCell 2 true true false [[0; 1]]%Q). split; [left; reflexivity|]. right. left. split; reflexivity.
Qed.

Example C44_driver_case : min_allowed_level 4 2 = 1 /\ max_allowed_level 4 3 = 6 /\ n_init_refinements 4 2 1 3 = 5 /\ make_initial_refines Base 3 2 = (3, 2).
Proof. repeat split. Qed.
