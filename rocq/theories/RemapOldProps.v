(** C104: moving whole grains to other order parameters (tracker.h 651-1010
    [remap_old]). *)
From Coq Require Import QArith Qabs Qminmax List Arith Bool Lia Permutation Lqa.
From Verif Require Import Util MapModel RemapModel RemapProofs RemapOldModel RemapOldProofs.
Import ListNotations.
Local Open Scope nat_scope.

Section Statements.
Variables (Point : Type) (dist : Point -> Point -> Q).
Variable seg_dist : segment Point -> segment Point -> Q.
Notation grain := (grain Point).

(** Half of the distance to the nearest neighbour. *)
Definition margin (g : grain) : Q := Qmax 0 (g_nearest Point g / 2).

(** A degree of freedom of a cell in the zone of the grain. *)
Definition reaches (cells : list (ocell Point)) (g : grain) (d : nat) : Prop :=
  exists c s, In c cells /\ In d (oc_dofs Point c) /\ In s (g_segments Point g) /\
    (dist (oc_center Point c) (sg_center Point s) < sg_radius Point s + margin g)%Q.

(** The code notices that two grains may disturb each other. *)
Definition noticed (a b : grain) : Prop :=
  exists s t, In s (g_segments Point a) /\ In t (g_segments Point b) /\ (seg_dist s t < margin a + margin b)%Q.

Definition changed (g : grain) : Prop := g_new Point g <> g_old Point g.

(** A grain that does not exist any more. *)
Definition lost (old gs : list grain) (g : grain) : Prop := In g old /\ forall h, In h gs -> g_id Point h <> g_id Point g.
End Statements.

Lemma buffer_margin : forall Point (g : grain Point), (transfer_buffer Point g == margin Point g)%Q.
Proof.
  intros Point g. unfold transfer_buffer, margin. cbv zeta. destruct (qltb 0 (g_nearest Point g / 2)) eqn:E.
  - apply qltb_true in E. rewrite Q.max_r; [reflexivity|apply Qlt_le_weak, E].
  - apply qltb_false in E. rewrite Q.max_l; [reflexivity|exact E].
Qed.

Lemma touch_reaches : forall Point dist cells (g : grain Point) d, touch Point dist g cells d = true <-> reaches Point dist cells g d.
Proof.
  intros Point dist cells g d. unfold touch, reaches. rewrite existsb_exists. split.
  - intros (c & Hc & H). apply andb_true_iff in H. destruct H as [Z M]. apply memb_in in M. unfold in_zone in Z. apply existsb_exists in Z. destruct Z as (s & Hs & L).
    apply qltb_true in L. exists c, s. rewrite buffer_margin in L. auto.
  - intros (c & s & Hc & Hd & Hs & L). exists c. split; [exact Hc|]. apply andb_true_iff. split; [|apply memb_in, Hd].
    unfold in_zone. apply existsb_exists. exists s. split; [exact Hs|]. apply qltb_true. rewrite buffer_margin. exact L.
Qed.

Lemma noticed_overlap : forall Point dmax seg_dist (a b : grain Point), noticed Point seg_dist a b -> has_overlap Point dmax seg_dist a b = true.
Proof.
  intros Point dmax seg_dist a b (s & t & Hs & Ht & L). unfold has_overlap. apply qltb_true. rewrite !buffer_margin.
  pose proof (grain_distance_le Point dmax seg_dist a b s t Hs Ht). lra.
Qed.

Lemma gone_lost : forall Point (old gs : list (grain Point)) g, In g (gone Point old gs) <-> lost Point old gs g.
Proof.
  intros Point old gs g. unfold gone, lost. rewrite filter_In. split; intros [I H]; (split; [exact I|]).
  - intros h Hh C. apply negb_true_iff in H. assert (X : existsb (fun h => g_id Point h =? g_id Point g) gs = true); [|congruence].
    apply existsb_exists. exists h. split; [exact Hh|apply Nat.eqb_eq, C].
  - apply negb_true_iff. destruct (existsb (fun h => g_id Point h =? g_id Point g) gs) eqn:E; [|reflexivity].
    apply existsb_exists in E. destruct E as (h & Hh & X). apply Nat.eqb_eq in X. exfalso. exact (H h Hh X).
Qed.

(** The moves are executed in this way: every changed grain once, some of them
    over temporary storage, each of which is part of a circle; a grain is only
    moved to an order parameter after the noticed grains there have been moved
    away. *)
Theorem C104_plan : forall Point dmax seg_dist out_order in_order (gs : list (grain Point)),
  (forall v l, Permutation (out_order v l) l) -> (forall v l, Permutation (in_order v l) l) -> NoDup (map (g_id Point) gs) ->
  exists cyc rest,
    plan Point dmax seg_dist out_order in_order gs (moves_of Point gs) =
      Some (map (fun e => (mkStep (m_grain e) (Some (m_from e)) None, mkStep (m_grain e) None (Some (m_to e)))) cyc, rest) /\
    NoDup (map m_grain (cyc ++ rest)) /\
    (forall r, In r (cyc ++ rest) <-> exists g, In g gs /\ changed Point g /\ r = mkRemap (g_id Point g) (g_old Point g) (g_new Point g)) /\
    (forall e, In e cyc -> leads (cyc ++ rest) (m_to e) (m_from e)) /\
    (forall p r1 q r2 s g h, rest = p ++ r1 :: q ++ r2 :: s -> In g gs -> In h gs -> g_id Point g = m_grain r1 -> g_id Point h = m_grain r2 ->
       noticed Point seg_dist g h -> m_to r1 <> m_from r2).
Proof.
  intros Point dmax seg_dist out_order in_order gs OO IO ND. set (l := moves_of Point gs).
  assert (LI : NoDup (map m_grain l)) by (apply moves_ids, ND).
  assert (LK : known Point gs l). { intros r Hr. apply moves_in in Hr. destruct Hr as (g & Hg & _ & ->). exists g. apply grain_at_in; assumption. }
  destruct (plan_spec Point dmax seg_dist out_order in_order OO IO gs l LK (ids_distinct_nodup l LI) (NoDup_map_inv m_grain l LI)) as (cyc & rest & EP & PM & OR & LE).
  { intros r Hr. apply moves_in in Hr. destruct Hr as (g & Hg & M & ->). cbn [m_from m_to]. intro C. apply M. symmetry. exact C. }
  exists cyc, rest. split; [exact EP|]. split; [apply (Permutation_NoDup (Permutation_map m_grain PM)), LI|]. split; [|split].
  - intro r. unfold changed. rewrite <- (moves_in Point gs r). fold l. split; intro H; [apply (Permutation_in r (Permutation_sym PM)), H|apply (Permutation_in r PM), H].
  - intros e He. apply (leads_mono l); [intros x Hx; apply (Permutation_in x PM), Hx|apply LE, He].
  - intros p r1 q r2 s g h E Hg Hh G1 G2 NO. apply (OR p r1 q r2 s E). unfold dep_old. rewrite <- G1, <- G2, !grain_at_in by assumption. apply noticed_overlap, NO.
Qed.
Print Assumptions C104_plan.

(** At every degree of freedom at which the changed grains that reach it have
    different order parameters before, different ones after, and are noticed
    where one goes to the order parameter of the other, all grains are moved at
    the same time; grains that are gone have been cleared before.  Nothing is
    said about other degrees of freedom.  The returned number counts the changed
    grains. *)
Theorem C104_remap : forall Point dist dmax seg_dist out_order in_order V zero n_blocks offset (old gs : list (grain Point)) cells (u : bvector V),
  (forall v l, Permutation (out_order v l) l) -> (forall v l, Permutation (in_order v l) l) -> NoDup (map (g_id Point) gs) ->
  (forall g, In g gs -> changed Point g -> g_old Point g + offset < n_blocks /\ g_new Point g + offset < n_blocks) ->
  (forall g, lost Point old gs g -> g_new Point g + offset < n_blocks) ->
  exists u', remap_old Point dist dmax seg_dist out_order in_order V zero n_blocks offset old gs cells u =
      Some (u', length (filter (fun g => negb (g_new Point g =? g_old Point g)) gs)) /\
    forall d,
      (forall g h, In g gs -> In h gs -> g <> h -> changed Point g -> changed Point h ->
         reaches Point dist cells g d -> reaches Point dist cells h d ->
         g_old Point g <> g_old Point h /\ g_new Point g <> g_new Point h /\ (g_new Point g = g_old Point h -> noticed Point seg_dist g h)) ->
      let cleared b := exists g, lost Point old gs g /\ reaches Point dist cells g d /\ b = g_new Point g + offset in
      let before b v := (cleared b /\ v = zero) \/ (~ cleared b /\ v = u b d) in
      (forall g, In g gs -> changed Point g -> reaches Point dist cells g d ->
         before (g_old Point g + offset) (u' (g_new Point g + offset) d)) /\
      (forall b, (forall g, In g gs -> changed Point g -> reaches Point dist cells g d -> b <> g_new Point g + offset) ->
         (forall g, In g gs -> changed Point g -> reaches Point dist cells g d -> b = g_old Point g + offset -> u' b d = zero) /\
         ((forall g, In g gs -> changed Point g -> reaches Point dist cells g d -> b <> g_old Point g + offset) -> before b (u' b d))).
Proof.
  intros Point dist dmax seg_dist out_order in_order V zero n_blocks offset old gs cells u OO IO ND R RG.
  destruct (remap_old_spec Point dist dmax seg_dist out_order in_order OO IO V zero n_blocks offset old gs cells u ND R) as (u' & E & SP).
  { intros g Hg. apply RG, gone_lost, Hg. }
  exists u'. split; [exact E|]. intros d SEP cleared before.
  destruct (SP d) as [S1 S2].
  { intros g h Hg Hh NE Mg Mh Tg Th. apply touch_reaches in Tg. apply touch_reaches in Th. destruct (SEP g h Hg Hh NE Mg Mh Tg Th) as (X & Y & Z).
    split; [exact X|]. split; [exact Y|]. intro W. apply noticed_overlap, Z, W. }
  assert (BE : forall b, before b (if existsb (fun g => (b =? g_new Point g + offset) && touch Point dist g cells d) (gone Point old gs) then zero else u b d)).
  { intro b. unfold before. destruct (existsb (fun g => (b =? g_new Point g + offset) && touch Point dist g cells d) (gone Point old gs)) eqn:X.
    - left. split; [|reflexivity]. apply existsb_exists in X. destruct X as (g & Hg & Y). apply andb_true_iff in Y. destruct Y as [Y1 Y2]. apply Nat.eqb_eq in Y1.
      exists g. split; [apply gone_lost, Hg|]. split; [apply touch_reaches, Y2|exact Y1].
    - right. split; [|reflexivity]. intros (g & Hg & T & B). apply gone_lost in Hg. apply touch_reaches in T.
      assert (Y : existsb (fun g => (b =? g_new Point g + offset) && touch Point dist g cells d) (gone Point old gs) = true); [|congruence].
      apply existsb_exists. exists g. split; [exact Hg|]. rewrite T, B, Nat.eqb_refl. reflexivity. }
  split.
  - intros g Hg M T. rewrite (S1 g Hg M (proj2 (touch_reaches Point dist cells g d) T)). apply BE.
  - intros b B. destruct (S2 b) as [S3 S4]; [intros g Hg M T; apply B; [exact Hg|exact M|apply touch_reaches, T]|]. split.
    + intros g Hg M T EB. apply S4. exists g. split; [exact Hg|]. split; [exact M|]. split; [apply touch_reaches, T|exact EB].
    + intro BF. rewrite S3; [apply BE|]. intros g Hg M T. apply BF; [exact Hg|exact M|apply touch_reaches, T].
Qed.
Print Assumptions C104_remap.

(** Two grains whose zones have a cell in common are noticed if the distance of
    two segments is at most that of their spheres. *)
Theorem C104_common_cell : forall Point dist seg_dist (a b : grain Point) (c : ocell Point) s t,
  (forall x y, dist x y == dist y x)%Q -> (forall x y z, dist x z <= dist x y + dist y z)%Q ->
  (forall s t, seg_dist s t <= dist (sg_center Point s) (sg_center Point t) - sg_radius Point s - sg_radius Point t)%Q ->
  In s (g_segments Point a) -> In t (g_segments Point b) ->
  (dist (oc_center Point c) (sg_center Point s) < sg_radius Point s + margin Point a)%Q ->
  (dist (oc_center Point c) (sg_center Point t) < sg_radius Point t + margin Point b)%Q ->
  noticed Point seg_dist a b.
Proof.
  intros Point dist seg_dist a b c s t SY TR SD Hs Ht A B. exists s, t. split; [exact Hs|]. split; [exact Ht|].
  pose proof (SD s t). pose proof (TR (sg_center Point s) (oc_center Point c) (sg_center Point t)). pose proof (SY (sg_center Point s) (oc_center Point c)). lra.
Qed.
Print Assumptions C104_common_cell.

(** ** A line of cells of length 1 with a degree of freedom at each end *)
Definition line_dist (x y : Q) : Q := Qabs (x - y).
Definition sphere_dist (s t : segment Q) : Q := (line_dist (sg_center Q s) (sg_center Q t) - sg_radius Q s - sg_radius Q t)%Q.
Definition line_cells : list (ocell Q) := map (fun k => mkOCell Q (inject_Z (Z.of_nat k) + (1 # 2))%Q [k; S k]) (seq 0 8).
Definition same_order (v : nat) (l : list remapping) := l.
Definition run_line sd old gs u := remap_old Q line_dist 1000%Q sd same_order same_order Q 0%Q 5 2 old gs line_cells u.
(** Block [b] has the values [100 b + d]. *)
Definition start_values : bvector Q := fun b d => inject_Z (Z.of_nat (100 * b + d)).

(** The grains 1 to 3 change in a circle and overlap; grain 0 is gone. *)
Definition ring : list (grain Q) :=
  [mkGrain Q 1 0 1 [mkSeg Q 1%Q 1%Q 0] (1 # 2)%Q; mkGrain Q 2 1 2 [mkSeg Q 3%Q 1%Q 0] (1 # 2)%Q; mkGrain Q 3 2 0 [mkSeg Q 2%Q 1%Q 0] (1 # 2)%Q].
Definition ring_before : list (grain Q) := mkGrain Q 0 0 0 [mkSeg Q 7%Q 1%Q 0] 0%Q :: ring.

Example C104_applies :
  NoDup (map (g_id Q) ring) /\
  match run_line sphere_dist ring_before ring start_values with
  | Some (u', n) => n = 3 /\ u' 3 1 = start_values 2 1 /\ u' 2 1 = start_values 4 1 /\ u' 4 3 = start_values 3 3 /\ u' 2 7 = 0%Q /\ u' 0 1 = start_values 0 1
  | None => False
  end /\ reaches Q line_dist line_cells (mkGrain Q 1 0 1 [mkSeg Q 1%Q 1%Q 0] (1 # 2)%Q) 1 /\
  noticed Q sphere_dist (mkGrain Q 1 0 1 [mkSeg Q 1%Q 1%Q 0] (1 # 2)%Q) (mkGrain Q 3 2 0 [mkSeg Q 2%Q 1%Q 0] (1 # 2)%Q).
Proof.
  split; [cbn; repeat constructor; cbn; lia|]. split; [vm_compute; repeat split|]. split.
  - exists (mkOCell Q (0 + (1 # 2))%Q [0; 1]), (mkSeg Q 1%Q 1%Q 0). split; [left; reflexivity|]. split; [right; left; reflexivity|]. split; [left; reflexivity|]. vm_compute. reflexivity.
  - exists (mkSeg Q 1%Q 1%Q 0), (mkSeg Q 2%Q 1%Q 0). split; [left; reflexivity|]. split; [left; reflexivity|]. vm_compute. reflexivity.
Qed.

(** Zones without a common cell may share the degrees of freedom between their
    cells: grain 1 goes to the order parameter of grain 2, this is not noticed,
    and what belongs to grain 1 arrives in the new order parameter of grain 2
    while the value of grain 2 there is lost. *)
Theorem C104_neighbours_refuted : exists gs d u' n,
  NoDup (map (g_id Q) gs) /\
  run_line sphere_dist gs gs start_values = Some (u', n) /\
  (exists g h, In g gs /\ In h gs /\ g_new Q g = g_old Q h /\ changed Q g /\ changed Q h /\ g_new Q g <> g_new Q h /\
     reaches Q line_dist line_cells g d /\ reaches Q line_dist line_cells h d /\
     (forall c, In c line_cells -> ~ (in_zone Q line_dist g c = true /\ in_zone Q line_dist h c = true)) /\
     u' (g_new Q h + 2) d = start_values (g_old Q g + 2) d /\ ~ Qeq (u' (g_new Q h + 2) d) (start_values (g_old Q h + 2) d) /\
     u' (g_new Q g + 2) d = 0%Q).
Proof.
  set (g := mkGrain Q 1 0 1 [mkSeg Q 1%Q 1%Q 0] 0%Q). set (h := mkGrain Q 2 1 2 [mkSeg Q (16 # 5)%Q 1%Q 0] 0%Q).
  remember (run_line sphere_dist [g; h] [g; h] start_values) as res eqn:E. destruct res as [[u' n]|]; [|vm_compute in E; discriminate].
  exists [g; h], 2, u', n. split; [cbn; repeat constructor; cbn; lia|]. split; [symmetry; exact E|].
  exists g, h. split; [left; reflexivity|]. split; [right; left; reflexivity|]. split; [reflexivity|]. split; [discriminate|]. split; [discriminate|]. split; [discriminate|].
  split; [|split; [|split]].
  - exists (mkOCell Q (1 + (1 # 2))%Q [1; 2]), (mkSeg Q 1%Q 1%Q 0). split; [right; left; reflexivity|]. split; [right; left; reflexivity|]. split; [left; reflexivity|]. vm_compute. reflexivity.
  - exists (mkOCell Q (2 + (1 # 2))%Q [2; 3]), (mkSeg Q (16 # 5)%Q 1%Q 0). split; [right; right; left; reflexivity|]. split; [left; reflexivity|]. split; [left; reflexivity|]. vm_compute. reflexivity.
  - intros c Hc. assert (X : forallb (fun c => negb (in_zone Q line_dist g c && in_zone Q line_dist h c)) line_cells = true) by (vm_compute; reflexivity).
    rewrite forallb_forall in X. specialize (X c Hc). apply negb_true_iff in X. intros [A B]. rewrite A, B in X. discriminate.
  - inversion E as [[E1 E2]]. split; [vm_compute; reflexivity|]. split; [vm_compute; discriminate|vm_compute; reflexivity].
Qed.
Print Assumptions C104_neighbours_refuted.

(** With representations other than spheres the distance may be larger than that
    of the spheres: then not even a common cell is noticed. *)
Theorem C104_shapes_refuted : exists sd gs d u' n,
  (forall s t, (sphere_dist s t <= sd s t)%Q) /\ NoDup (map (g_id Q) gs) /\
  run_line sd gs gs start_values = Some (u', n) /\
  (exists g h c, In g gs /\ In h gs /\ g_new Q g = g_old Q h /\ changed Q g /\ changed Q h /\ g_new Q g <> g_new Q h /\
     In c line_cells /\ In d (oc_dofs Q c) /\ in_zone Q line_dist g c = true /\ in_zone Q line_dist h c = true /\
     u' (g_new Q h + 2) d = start_values (g_old Q g + 2) d /\ ~ Qeq (u' (g_new Q h + 2) d) (start_values (g_old Q h + 2) d)).
Proof.
  set (g := mkGrain Q 1 0 1 [mkSeg Q 1%Q 2%Q 0] 0%Q). set (h := mkGrain Q 2 1 2 [mkSeg Q 3%Q 2%Q 0] 0%Q).
  set (sd := fun s t => (sphere_dist s t + 3)%Q).
  remember (run_line sd [g; h] [g; h] start_values) as res eqn:E. destruct res as [[u' n]|]; [|vm_compute in E; discriminate].
  exists sd, [g; h], 2, u', n. split; [intros s t; unfold sd; lra|]. split; [cbn; repeat constructor; cbn; lia|]. split; [symmetry; exact E|].
  exists g, h, (mkOCell Q (1 + (1 # 2))%Q [1; 2]). split; [left; reflexivity|]. split; [right; left; reflexivity|]. split; [reflexivity|]. split; [discriminate|]. split; [discriminate|]. split; [discriminate|].
  split; [right; left; reflexivity|]. split; [right; left; reflexivity|]. split; [vm_compute; reflexivity|]. split; [vm_compute; reflexivity|].
  inversion E as [[E1 E2]]. split; [vm_compute; reflexivity|vm_compute; discriminate].
Qed.
Print Assumptions C104_shapes_refuted.

(** A grain whose zone covers all cells takes along everything there is in its
    order parameter.  This is so for a grain without neighbour, whose distance
    to the nearest neighbour is the largest number (grain.h 362). *)
Theorem C104_alone_takes_all : forall Point dist dmax seg_dist out_order in_order V zero n_blocks offset (g : grain Point) cells (u : bvector V),
  (forall v l, Permutation (out_order v l) l) -> (forall v l, Permutation (in_order v l) l) ->
  changed Point g -> g_old Point g + offset < n_blocks -> g_new Point g + offset < n_blocks ->
  (forall c, In c cells -> exists s, In s (g_segments Point g) /\ (dist (oc_center Point c) (sg_center Point s) < sg_radius Point s + g_nearest Point g / 2)%Q) ->
  exists u', remap_old Point dist dmax seg_dist out_order in_order V zero n_blocks offset [g] [g] cells u = Some (u', 1) /\
    forall c d, In c cells -> In d (oc_dofs Point c) -> u' (g_new Point g + offset) d = u (g_old Point g + offset) d /\ u' (g_old Point g + offset) d = zero.
Proof.
  intros Point dist dmax seg_dist out_order in_order V zero n_blocks offset g cells u OO IO M R1 R2 AL.
  destruct (C104_remap Point dist dmax seg_dist out_order in_order V zero n_blocks offset [g] [g] cells u OO IO) as (u' & E & SP).
  { cbn. repeat constructor. intros []. }
  { intros h [<-|[]] _. auto. }
  { intros h [[<-|[]] L]. exfalso. apply (L g); [left; reflexivity|reflexivity]. }
  exists u'. split; [rewrite E; cbn [filter]; destruct (Nat.eqb_spec (g_new Point g) (g_old Point g)); [contradiction|reflexivity]|].
  intros c d Hc Hd. assert (RE : reaches Point dist cells g d).
  { destruct (AL c Hc) as (s & Hs & L). exists c, s. split; [exact Hc|]. split; [exact Hd|]. split; [exact Hs|]. eapply Qlt_le_trans; [exact L|]. apply Qplus_le_r, Q.le_max_r. }
  destruct (SP d) as [S1 S2]; [intros x y [<-|[]] [<-|[]] NE; contradiction|]. split.
  - destruct (S1 g (or_introl eq_refl) M RE) as [[(h & [[<-|[]] L] & _) _]|[_ X]]; [exfalso; apply (L g); [left; reflexivity|reflexivity]|exact X].
  - destruct (S2 (g_old Point g + offset)) as [S3 _]; [intros h [<-|[]] _ _ C; apply M; lia|]. apply (S3 g); [left; reflexivity|exact M|exact RE|reflexivity].
Qed.
Print Assumptions C104_alone_takes_all.

Example C104_alone_applies :
  match run_line sphere_dist [mkGrain Q 1 0 1 [mkSeg Q 1%Q 1%Q 0] 1000%Q] [mkGrain Q 1 0 1 [mkSeg Q 1%Q 1%Q 0] 1000%Q] start_values with
  | Some (u', n) => n = 1 /\ u' 3 8 = start_values 2 8 /\ u' 2 8 = 0%Q
  | None => False
  end.
Proof. vm_compute. repeat split. Qed.
