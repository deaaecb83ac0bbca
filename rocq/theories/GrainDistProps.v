(** C46: distances between grains, overlap and transfer buffers. *)
From Coq Require Import Reals List Lra Lia Psatz Bool Arith.
From Verif Require Import Util MobilityModel MobilityProofs VecGeom GrainDistModel.
Import ListNotations.
Local Open Scope R_scope.

(** ** Vocabulary *)
Definition ele (a b : ext) : Prop := match a, b with _, Max => True | Max, Fin _ => False | Fin x, Fin y => x <= y end.

Lemma ele_refl : forall a, ele a a.
Proof. intros [x|]; cbn; [lra|exact I]. Qed.
Lemma ele_trans : forall a b c, ele a b -> ele b c -> ele a c.
Proof. intros [x|] [y|] [z|]; cbn; try tauto; lra. Qed.
Lemma ele_antisym : forall a b, ele a b -> ele b a -> a = b.
Proof. intros [x|] [y|]; cbn; try tauto. intros. f_equal. lra. Qed.
Lemma emin_l : forall a b, ele (emin a b) a.
Proof. intros [x|] [y|]; cbn; try exact I; [apply Rmin_l|lra]. Qed.
Lemma emin_r : forall a b, ele (emin a b) b.
Proof. intros [x|] [y|]; cbn; try exact I; [apply Rmin_r|lra]. Qed.
Lemma emin_cases : forall a b, emin a b = a \/ emin a b = b.
Proof. intros [x|] [y|]; cbn; auto. unfold Rmin. destruct (Rle_dec x y); auto. Qed.

Section Grains.
Variables (dim : nat) (ellipsoid : Type) (edist : ellipsoid -> ellipsoid -> R).
Notation segment := (segment ellipsoid).
Notation grain := (grain ellipsoid).

(** Points of a segment taken as a ball, points of a grain. *)
Definition in_segment (s : segment) (p : vec) : Prop := vdist dim (s_center s) p <= s_radius s.
Definition in_grain (g : grain) (p : vec) : Prop := exists s, In s (g_segments g) /\ in_segment s p.

(** [m] is the minimum of the distances of all pairs of segments, [Max] if there is none. *)
Definition minimum_over (d : segment -> segment -> ext) (g h : list segment) (m : ext) : Prop :=
  (forall s t, In s g -> In t h -> ele m (d s t)) /\ (m = Max \/ exists s t, In s g /\ In t h /\ m = d s t).

Lemma minimum_unique : forall d g h m m', minimum_over d g h m -> minimum_over d g h m' -> m = m'.
Proof.
  intros d g h m m' [L A] [L' A']. apply ele_antisym.
  - destruct A' as [->|(s & t & Hs & Ht & ->)]; [destruct m; exact I|auto].
  - destruct A as [->|(s & t & Hs & Ht & ->)]; [destruct m'; exact I|auto].
Qed.

Lemma minimum_swap : forall d d' g h m, (forall s t, d s t = d' t s) -> minimum_over d g h m -> minimum_over d' h g m.
Proof.
  intros d d' g h m E [L A]. split.
  - intros s t Hs Ht. rewrite <- E. auto.
  - destruct A as [A|(s & t & Hs & Ht & A)]; [auto|]. right. exists t, s. rewrite <- E. auto.
Qed.

Lemma min_inner_spec : forall (d : segment -> segment -> option ext) (e : segment -> segment -> ext) s l m,
  (forall t, In t l -> d s t = Some (e s t)) ->
  exists x, min_inner ellipsoid d s l m = Some x /\ ele x m /\ (forall t, In t l -> ele x (e s t)) /\ (x = m \/ exists t, In t l /\ x = e s t).
Proof.
  intros d e s. induction l as [|t l IH]; intros m H; cbn [min_inner].
  - exists m. repeat split; [apply ele_refl|intros t []|auto].
  - rewrite (H t) by (left; reflexivity). cbn [obind].
    destruct (IH (emin (e s t) m) (fun u Hu => H u (or_intror Hu))) as (x & E & X1 & X2 & X3). exists x. split; [exact E|]. split; [|split].
    + eapply ele_trans; [exact X1|apply emin_r].
    + intros u [<-|Hu]; [|auto]. eapply ele_trans; [exact X1|apply emin_l].
    + destruct X3 as [->|(u & Hu & ->)]; [|right; exists u; split; [right; exact Hu|reflexivity]].
      destruct (emin_cases (e s t) m) as [->| ->]; [right; exists t; split; [left; reflexivity|reflexivity]|left; reflexivity].
Qed.

Lemma min_outer_spec : forall (d : segment -> segment -> option ext) (e : segment -> segment -> ext) h g m,
  (forall s t, In s g -> In t h -> d s t = Some (e s t)) ->
  exists x, min_outer ellipsoid d g h m = Some x /\ ele x m /\ (forall s t, In s g -> In t h -> ele x (e s t)) /\
    (x = m \/ exists s t, In s g /\ In t h /\ x = e s t).
Proof.
  intros d e h. induction g as [|s g IH]; intros m H; cbn [min_outer].
  - exists m. repeat split; [apply ele_refl|intros s t []|auto].
  - destruct (min_inner_spec d e s h m (fun t Ht => H s t (or_introl eq_refl) Ht)) as (y & E & Y1 & Y2 & Y3). rewrite E. cbn [obind].
    destruct (IH y (fun u t Hu Ht => H u t (or_intror Hu) Ht)) as (x & E' & X1 & X2 & X3). exists x. split; [exact E'|]. split; [|split].
    + eapply ele_trans; eassumption.
    + intros u t [<-|Hu] Ht; [|auto]. eapply ele_trans; [exact X1|auto].
    + destruct X3 as [->|(u & t & Hu & Ht & ->)]; [|right; exists u, t; auto using in_cons].
      destruct Y3 as [->|(t & Ht & ->)]; [auto|]. right. exists s, t. split; [left; reflexivity|auto].
Qed.

Lemma min_outer_minimum : forall d e g h, (forall s t, In s g -> In t h -> d s t = Some (e s t)) ->
  exists x, min_outer ellipsoid d g h Max = Some x /\ minimum_over e g h x.
Proof.
  intros d e g h H. destruct (min_outer_spec d e h g Max H) as (x & E & _ & X2 & X3). exists x. split; [exact E|]. split; assumption.
Qed.

(** What both sphere based functions and the centre based one compute. *)
Definition gap (s t : segment) : R := vdist dim (s_center s) (s_center t) - (s_radius s + s_radius t).

Lemma lower_bound_spec : forall g h, exists x, distance_lower_bound dim ellipsoid g h = Some x /\ minimum_over (fun s t => Fin (gap s t)) (g_segments g) (g_segments h) x.
Proof. intros g h. apply min_outer_minimum. reflexivity. Qed.

Lemma gap_sym : forall s t, gap s t = gap t s.
Proof. intros s t. unfold gap. rewrite vdist_sym. ring. Qed.

(** ** The distances *)
(** The lower bound is the minimum over all pairs of segments. *)
Theorem C46_lower_bound_is_minimum : forall g h, g_segments g <> [] -> g_segments h <> [] ->
  exists m, distance_lower_bound dim ellipsoid g h = Some (Fin m) /\
    (forall s t, In s (g_segments g) -> In t (g_segments h) -> m <= vdist dim (s_center s) (s_center t) - (s_radius s + s_radius t)) /\
    exists s t, In s (g_segments g) /\ In t (g_segments h) /\ m = vdist dim (s_center s) (s_center t) - (s_radius s + s_radius t).
Proof.
  intros g h G H. destruct (lower_bound_spec g h) as ([m|] & E & L & A).
  - exists m. split; [exact E|]. split; [exact L|]. destruct A as [A|(s & t & Hs & Ht & A)]; [discriminate|]. injection A as ->. exists s, t. auto.
  - destruct (g_segments g) as [|s gs]; [contradiction|]. destruct (g_segments h) as [|t hs]; [contradiction|].
    exfalso. exact (L s t (or_introl eq_refl) (or_introl eq_refl)).
Qed.

Theorem C46_centers_is_minimum : forall g h, g_segments g <> [] -> g_segments h <> [] ->
  exists m, distance_centers dim ellipsoid g h = Some (Fin m) /\
    (forall s t, In s (g_segments g) -> In t (g_segments h) -> m <= vdist dim (s_center s) (s_center t)) /\
    exists s t, In s (g_segments g) /\ In t (g_segments h) /\ m = vdist dim (s_center s) (s_center t).
Proof.
  intros g h G H.
  destruct (min_outer_minimum (fun s t => Some (Fin (vdist dim (s_center s) (s_center t)))) (fun s t => Fin (vdist dim (s_center s) (s_center t))) (g_segments g) (g_segments h)
    (fun _ _ _ _ => eq_refl)) as ([m|] & E & L & A).
  - exists m. split; [exact E|]. split; [exact L|]. destruct A as [A|(s & t & Hs & Ht & A)]; [discriminate|]. injection A as ->. exists s, t. auto.
  - destruct (g_segments g) as [|s gs]; [contradiction|]. destruct (g_segments h) as [|t hs]; [contradiction|].
    exfalso. exact (L s t (or_introl eq_refl) (or_introl eq_refl)).
Qed.

Theorem C46_symmetric : forall g h, distance_lower_bound dim ellipsoid g h = distance_lower_bound dim ellipsoid h g.
Proof.
  intros g h. destruct (lower_bound_spec g h) as (x & -> & X). destruct (lower_bound_spec h g) as (y & -> & Y).
  f_equal. eapply minimum_unique; [exact X|]. eapply minimum_swap; [|exact Y]. intros. cbn. rewrite gap_sym. reflexivity.
Qed.

(** Segments represented by their own sphere. *)
Definition spherical (g : grain) : Prop := forall s, In s (g_segments g) -> s_rep s = Some (Spherical (s_center s) (s_radius s)).

(** For spherical grains the distance is the lower bound; in particular symmetric. *)
Theorem C46_spherical_distance : forall g h, spherical g -> spherical h ->
  distance dim ellipsoid edist g h = distance_lower_bound dim ellipsoid g h /\ distance dim ellipsoid edist g h = distance dim ellipsoid edist h g.
Proof.
  assert (X : forall g h, spherical g -> spherical h -> distance dim ellipsoid edist g h = distance_lower_bound dim ellipsoid g h).
  { intros g h G H. destruct (lower_bound_spec g h) as (x & -> & X). unfold distance.
    destruct (min_outer_minimum (segment_distance dim ellipsoid edist) (fun s t => Fin (gap s t)) (g_segments g) (g_segments h)) as (y & -> & Y).
    - intros s t Hs Ht. unfold segment_distance. rewrite (G s Hs), (H t Ht). reflexivity.
    - f_equal. eapply minimum_unique; eassumption. }
  intros g h G H. split; [auto|]. rewrite (X g h G H), (X h g H G). apply C46_symmetric.
Qed.

(** Grains with other representations: symmetric if the distance of ellipsoids is. *)
Theorem C46_elliptical_distance_symmetric : (forall a b, edist a b = edist b a) -> forall g h,
  (forall s, In s (g_segments g) -> exists e, s_rep s = Some (Elliptical e)) -> (forall s, In s (g_segments h) -> exists e, s_rep s = Some (Elliptical e)) ->
  exists m, distance dim ellipsoid edist g h = Some m /\ distance dim ellipsoid edist h g = Some m.
Proof.
  intros SYM g h G H.
  set (e := fun s t : segment => match s_rep s, s_rep t with Some (Elliptical a), Some (Elliptical b) => Fin (edist a b) | _, _ => Max end).
  assert (D : forall g h : grain, (forall s, In s (g_segments g) -> exists e, s_rep s = Some (Elliptical e)) -> (forall s, In s (g_segments h) -> exists e, s_rep s = Some (Elliptical e)) ->
    forall s t, In s (g_segments g) -> In t (g_segments h) -> segment_distance dim ellipsoid edist s t = Some (e s t)).
  { clear g h G H. intros g h G H s t Hs Ht. destruct (G s Hs) as [a Ea], (H t Ht) as [b Eb]. unfold segment_distance, e. rewrite Ea, Eb. reflexivity. }
  destruct (min_outer_minimum _ e (g_segments g) (g_segments h) (D g h G H)) as (x & E1 & X). destruct (min_outer_minimum _ e (g_segments h) (g_segments g) (D h g H G)) as (y & E2 & Y).
  exists x. split; [exact E1|]. unfold distance. rewrite E2. f_equal. eapply minimum_unique; [exact Y|]. eapply minimum_swap; [|exact X].
  intros s t. unfold e. destruct (s_rep s) as [[]|], (s_rep t) as [[]|]; auto. rewrite SYM. reflexivity.
Qed.

(** ** The true gap *)
Lemma ball_gap : forall (s t : segment) p q, in_segment s p -> in_segment t q -> gap s t <= vdist dim p q.
Proof.
  intros s t p q P Q. unfold in_segment in *. unfold gap.
  pose proof (vdist_triangle dim (s_center s) p (s_center t)) as T1. pose proof (vdist_triangle dim p q (s_center t)) as T2.
  rewrite (vdist_sym dim q) in T2. lra.
Qed.

Theorem C46_never_larger_than_gap : forall g h m p q, distance_lower_bound dim ellipsoid g h = Some (Fin m) -> in_grain g p -> in_grain h q -> m <= vdist dim p q.
Proof.
  intros g h m p q E (s & Hs & P) (t & Ht & Q). destruct (lower_bound_spec g h) as (x & E' & L & _). rewrite E in E'. injection E' as <-.
  specialize (L s t Hs Ht). cbn in L. pose proof (ball_gap s t p q P Q). lra.
Qed.

Lemma line_from : forall c c' t, vdist dim c (fun d => c d + t * (c' d - c d)) = Rabs t * vdist dim c c'.
Proof.
  intros c c' t. unfold vdist. rewrite (norm_ext dim _ (fun d => t * (c d - c' d))) by (intro; ring). apply norm_scale.
Qed.

Lemma line_to : forall c c' t, vdist dim c' (fun d => c d + t * (c' d - c d)) = Rabs (1 - t) * vdist dim c c'.
Proof.
  intros c c' t. unfold vdist. rewrite (norm_ext dim _ (fun d => (1 - t) * (- (c d - c' d)))) by (intro; ring). rewrite norm_scale, norm_opp. reflexivity.
Qed.

(** closest points of two balls *)
Lemma ball_points : forall (s t : segment), 0 <= s_radius s -> 0 <= s_radius t ->
  exists p q, in_segment s p /\ in_segment t q /\ vdist dim p q = Rmax 0 (gap s t).
Proof.
  intros s t Rs Rt. unfold in_segment, gap. set (c := s_center s). set (c' := s_center t). set (D := vdist dim c c').
  pose proof (vdist_nonneg dim c c') as DP. fold D in DP.
  destruct (Rle_dec (s_radius s + s_radius t) D) as [H|H].
  - destruct (Req_dec D 0) as [Z|Z].
    + exists c, c'. rewrite !vdist_refl. fold D. repeat split; try lra. rewrite Rmax_right by lra. lra.
    + set (a := s_radius s / D). set (b := 1 - s_radius t / D). assert (DP' : 0 < D) by lra.
      assert (A : a * D = s_radius s) by (unfold a; field; lra). assert (B : b * D = D - s_radius t) by (unfold b; field; lra).
      assert (AP : 0 <= a) by (apply Rmult_le_pos; [lra|left; apply Rinv_0_lt_compat; lra]).
      assert (BP : 0 <= 1 - b) by (replace (1 - b) with (s_radius t / D) by (unfold b; ring); apply Rmult_le_pos; [lra|left; apply Rinv_0_lt_compat; lra]).
      assert (AB : a <= b) by nra.
      exists (fun d => c d + a * (c' d - c d)), (fun d => c d + b * (c' d - c d)). repeat split.
      * rewrite line_from, Rabs_pos_eq by lra. fold D. lra.
      * rewrite line_to, Rabs_pos_eq by lra. fold D. nra.
      * unfold vdist. rewrite (norm_ext dim _ (fun d => (b - a) * (c d - c' d))) by (intro; ring). rewrite norm_scale, Rabs_pos_eq by lra. fold (vdist dim c c'). fold D.
        rewrite Rmax_right by lra. nra.
  - assert (SP : 0 < s_radius s + s_radius t) by lra. set (a := s_radius s / (s_radius s + s_radius t)).
    assert (A : a * (s_radius s + s_radius t) = s_radius s) by (unfold a; field; lra).
    assert (AP : 0 <= a) by (apply Rmult_le_pos; [lra|left; apply Rinv_0_lt_compat; lra]).
    assert (A1 : a <= 1) by nra.
    exists (fun d => c d + a * (c' d - c d)), (fun d => c d + a * (c' d - c d)). repeat split.
    + rewrite line_from, Rabs_pos_eq by lra. fold D. nra.
    + rewrite line_to, Rabs_pos_eq by lra. fold D. nra.
    + rewrite vdist_refl. rewrite Rmax_left by lra. reflexivity.
Qed.

Definition radii_ok (g : grain) : Prop := forall s, In s (g_segments g) -> 0 <= s_radius s.

(** The lower bound is the exact gap of the grains taken as unions of balls; when they
    intersect it is negative or zero. *)
Theorem C46_gap_is_attained : forall g h m, radii_ok g -> radii_ok h -> distance_lower_bound dim ellipsoid g h = Some (Fin m) ->
  exists p q, in_grain g p /\ in_grain h q /\ vdist dim p q = Rmax 0 m.
Proof.
  intros g h m RG RH E. destruct (lower_bound_spec g h) as (x & E' & _ & A). rewrite E in E'. injection E' as <-.
  destruct A as [A|(s & t & Hs & Ht & A)]; [discriminate|]. injection A as ->.
  destruct (ball_points s t (RG s Hs) (RH t Ht)) as (p & q & P & Q & V). exists p, q. split; [exists s; auto|]. split; [exists t; auto|]. exact V.
Qed.

(** ** Overlap *)
Definition all_trivial (g : grain) : Prop := forall s, In s (g_segments g) -> trivial ellipsoid s = true.

Lemma trivial_none : forall g : grain, all_trivial g -> existsb (fun s => negb (trivial ellipsoid s)) (g_segments g) = false.
Proof.
  intros g H. apply not_true_is_false. intro C. apply existsb_exists in C. destruct C as (s & Hs & C). rewrite (H s Hs) in C. discriminate.
Qed.

(** For grains of spheres: they overlap iff some of their points are not further apart
    than the buffer. *)
Theorem C46_overlap : forall g h ratio fixed, all_trivial g -> all_trivial h -> radii_ok g -> radii_ok h -> g_segments g <> [] -> g_segments h <> [] ->
  let buffer := ratio * g_max_radius g + ratio * g_max_radius h + fixed in 0 <= buffer ->
  exists b, overlaps dim ellipsoid edist g h ratio fixed = Some b /\ overlaps dim ellipsoid edist h g ratio fixed = Some b /\
    (b = true <-> exists p q, in_grain g p /\ in_grain h q /\ vdist dim p q <= buffer).
Proof.
  intros g h ratio fixed TG TH RG RH NG NH buffer BP. destruct (C46_lower_bound_is_minimum g h NG NH) as (m & E & L & A).
  unfold overlaps. rewrite (C46_symmetric h g), E, !trivial_none by assumption. cbn [obind orb egt].
  replace (ratio * g_max_radius h + ratio * g_max_radius g + fixed) with buffer by (unfold buffer; ring). fold buffer.
  destruct (Rlt_dec buffer m) as [H|H].
  - exists false. repeat split; try discriminate. intros (p & q & P & Q & V). pose proof (C46_never_larger_than_gap g h m p q E P Q). lra.
  - exists true. split; [reflexivity|]. split; [reflexivity|]. split; [|reflexivity]. intros _.
    destruct (C46_gap_is_attained g h m RG RH E) as (p & q & P & Q & V). exists p, q. split; [exact P|]. split; [exact Q|]. rewrite V. apply Rmax_lub; lra.
Qed.

(** For any representation: grains without overlap by the lower bound are far apart, and
    otherwise the distance by the representation decides. *)
Theorem C46_overlap_any : forall g h ratio fixed b, overlaps dim ellipsoid edist g h ratio fixed = Some b ->
  let buffer := ratio * g_max_radius g + ratio * g_max_radius h + fixed in
  (forall p q, in_grain g p -> in_grain h q -> buffer < vdist dim p q) /\ b = false
  \/ (all_trivial g /\ all_trivial h /\ b = true)
  \/ exists d, distance dim ellipsoid edist g h = Some d /\ (b = true <-> exists x, d = Fin x /\ x < buffer).
Proof.
  intros g h ratio fixed b E buffer. unfold overlaps in E. destruct (lower_bound_spec g h) as (m & E1 & L & A). rewrite E1 in E. cbn [obind] in E. fold buffer in E.
  destruct (egt m buffer) eqn:EG.
  - injection E as <-. left. split; [|reflexivity]. intros p q (s & Hs & P) (t & Ht & Q). specialize (L s t Hs Ht).
    pose proof (ball_gap s t p q P Q). destruct m as [m|]; [|contradiction]. cbn in L, EG. destruct (Rlt_dec buffer m); [lra|discriminate].
  - right. destruct (_ || _) eqn:EN in E.
    + right. destruct (distance dim ellipsoid edist g h) as [d|]; cbn [obind] in E; [|discriminate]. injection E as <-. exists d. split; [reflexivity|].
      destruct d as [x|]; cbn [elt]; [destruct (Rlt_dec x buffer)|].
      * split; [intros _; exists x; auto|reflexivity].
      * split; [discriminate|]. intros (y & Ey & Y). injection Ey as <-. contradiction.
      * split; [discriminate|]. intros (y & Ey & Y). discriminate.
    + left. injection E as <-. apply orb_false_iff in EN. destruct EN as [N1 N2].
      assert (X : forall l : list segment, existsb (fun s => negb (trivial ellipsoid s)) l = false -> forall s, In s l -> trivial ellipsoid s = true).
      { intros l N s Hs. destruct (trivial ellipsoid s) eqn:T; [reflexivity|]. exfalso.
        assert (Y : existsb (fun s => negb (trivial ellipsoid s)) l = true) by (apply existsb_exists; exists s; rewrite T; auto). congruence. }
      split; [exact (X _ N1)|]. split; [exact (X _ N2)|reflexivity].
Qed.

(** ** Grains built from segments *)
Definition build (op old : nat) (l : list segment) : grain := fold_left (add_segment ellipsoid) l (new_grain ellipsoid op old).

Theorem C46_built_grain : forall op old l, let g := build op old l in
  g_segments g = l /\ g_op g = op /\ g_old g = old /\
  (forall s, In s l -> s_radius s <= g_max_radius g) /\ 0 <= g_max_radius g /\ (g_max_radius g = 0 \/ exists s, In s l /\ g_max_radius g = s_radius s) /\
  g_measure g = fold_right Rplus 0 (map s_measure l) /\
  (l <> [] -> exists v, g_max_value g = Some v /\ (forall s, In s l -> s_max s <= v) /\ exists s, In s l /\ v = s_max s).
Proof.
  intros op old l. unfold build. induction l as [|s l IH] using rev_ind.
  - cbn. split; [reflexivity|]. split; [reflexivity|]. split; [reflexivity|]. split; [intros s []|]. split; [lra|]. split; [left; reflexivity|]. split; [reflexivity|]. intro H. exfalso. apply H. reflexivity.
  - rewrite fold_left_app. cbn [fold_left]. destruct IH as (I1 & I2 & I3 & I4 & I5 & I6 & I7 & I8). set (g := fold_left (add_segment ellipsoid) l (new_grain ellipsoid op old)) in *.
    cbn [add_segment g_segments g_op g_old g_max_radius g_measure g_max_value]. rewrite I1. repeat split; auto.
    + intros t Ht. apply in_app_or in Ht. destruct Ht as [Ht|[<-|[]]]; [|apply Rmax_r]. eapply Rle_trans; [apply I4; exact Ht|apply Rmax_l].
    + eapply Rle_trans; [exact I5|apply Rmax_l].
    + unfold Rmax. destruct (Rle_dec _ _).
      * right. exists s. split; [apply in_or_app; right; left; reflexivity|reflexivity].
      * destruct I6 as [->|(t & Ht & ->)]; [auto|]. right. exists t. split; [apply in_or_app; auto|reflexivity].
    + rewrite I7, map_app, fold_right_app. cbn [map fold_right]. clear. induction l as [|t l IH]; cbn [map fold_right]; lra.
    + intros _. destruct l as [|t l'].
      * replace (g_max_value g) with (@None R) by reflexivity. eexists. split; [reflexivity|]. split.
        -- intros u [<-|[]]. lra.
        -- exists s. split; [left; reflexivity|reflexivity].
      * destruct I8 as (v & V1 & V2 & u & U1 & U2); [discriminate|]. rewrite V1. eexists. split; [reflexivity|]. split.
        -- intros w Hw. apply in_app_or in Hw. destruct Hw as [Hw|[<-|[]]]; [|apply Rmax_r]. eapply Rle_trans; [apply V2; exact Hw|apply Rmax_l].
        -- unfold Rmax. destruct (Rle_dec v (s_max s)); [exists s|exists u]; (split; [apply in_or_app; auto using in_eq|auto]).
Qed.

(** ** Transfer buffers *)
Fixpoint add_neighbors (g : grain) (l : list grain) : option grain :=
  match l with [] => Some g | h :: r => g <- add_neighbor dim ellipsoid g h ;; add_neighbors g r end.

Lemma add_neighbors_spec : forall l g g', add_neighbors g l = Some g' -> g_segments g' = g_segments g /\ ele (g_near g') (g_near g) /\
  (forall h, In h l -> exists x, distance_lower_bound dim ellipsoid g h = Some x /\ ele (g_near g') x) /\
  (g_near g' = g_near g \/ exists h, In h l /\ distance_lower_bound dim ellipsoid g h = Some (g_near g')).
Proof.
  induction l as [|h l IH]; intros g g' E; cbn [add_neighbors] in E.
  - injection E as <-. repeat split; [apply ele_refl|intros h []|auto].
  - unfold add_neighbor in E. destruct (_ || _); cbn [obind] in E; [|discriminate]. destruct (lower_bound_spec g h) as (x & EX & _). rewrite EX in E. cbn [obind] in E.
    destruct (IH _ _ E) as (I1 & I2 & I3 & I4). cbn [g_segments g_near] in *. split; [exact I1|]. split; [eapply ele_trans; [exact I2|apply emin_l]|].
    assert (EQ : forall k, distance_lower_bound dim ellipsoid (mkGrain (g_op g) (g_old g) (g_segments g) (g_max_radius g) (emin (g_near g) x) (g_max_value g) (g_measure g)) k = distance_lower_bound dim ellipsoid g k) by reflexivity.
    split.
    + intros k [<-|Hk].
      * exists x. split; [exact EX|]. eapply ele_trans; [exact I2|apply emin_r].
      * destruct (I3 k Hk) as (y & Y1 & Y2). rewrite EQ in Y1. exists y. auto.
    + destruct I4 as [->|(k & Hk & K)].
      * destruct (emin_cases (g_near g) x) as [->| ->]; [auto|]. right. exists h. split; [left; reflexivity|exact EX].
      * right. exists k. rewrite EQ in K. split; [right; exact Hk|exact K].
Qed.

(** Points moved together with the grain (tracker.h 681-689). *)
Definition buffered (g : grain) (p : vec) : Prop :=
  exists s x, In s (g_segments g) /\ transfer_buffer ellipsoid g = Fin x /\ vdist dim p (s_center s) < s_radius s + x.

(** The buffer of a grain with neighbours is half the distance to the nearest, at least 0. *)
Theorem C46_transfer_buffer : forall g l g', g_near g = Max -> add_neighbors g l = Some g' -> (exists h, In h l /\ g_segments h <> []) -> g_segments g <> [] ->
  exists near, transfer_buffer ellipsoid g' = Fin (Rmax 0 (near / 2)) /\
    (forall h s t, In h l -> In s (g_segments g) -> In t (g_segments h) -> near <= vdist dim (s_center s) (s_center t) - (s_radius s + s_radius t)) /\
    exists h s t, In h l /\ In s (g_segments g) /\ In t (g_segments h) /\ near = vdist dim (s_center s) (s_center t) - (s_radius s + s_radius t).
Proof.
  intros g l g' NM E (h & Hh & NH) NG. destruct (add_neighbors_spec l g g' E) as (I1 & I2 & I3 & I4).
  destruct (I3 h Hh) as (x & X1 & X2). destruct (C46_lower_bound_is_minimum g h NG NH) as (m & M1 & _). rewrite M1 in X1. injection X1 as <-.
  destruct (g_near g') as [near|] eqn:EN; [|contradiction]. exists near. split; [unfold transfer_buffer; rewrite EN; reflexivity|]. split.
  - intros k s t Hk Hs Ht. destruct (I3 k Hk) as (y & Y1 & Y2). destruct (lower_bound_spec g k) as (z & Z1 & Z2 & _). rewrite Y1 in Z1. injection Z1 as <-.
    pose proof (ele_trans _ _ _ Y2 (Z2 s t Hs Ht)) as T. exact T.
  - destruct I4 as [I4|(k & Hk & K)]; [congruence|]. destruct (lower_bound_spec g k) as (z & Z1 & _ & Z3). rewrite K in Z1. injection Z1 as <-.
    destruct Z3 as [Z3|(s & t & Hs & Ht & Z3)]; [discriminate|]. injection Z3 as ->. exists k, s, t. auto.
Qed.

(** Two grains which know each other as neighbours and do not intersect have disjoint
    buffered regions. *)
Theorem C46_buffered_regions_disjoint : forall g h lg lh g' h' m, add_neighbors g lg = Some g' -> add_neighbors h lh = Some h' -> In h lg -> In g lh ->
  distance_lower_bound dim ellipsoid g h = Some (Fin m) -> 0 <= m -> forall p, buffered g' p -> ~ buffered h' p.
Proof.
  intros g h lg lh g' h' m EG EH HG HH EM MP p (s & x & Hs & Bs & Vs) (t & y & Ht & Bt & Vt).
  destruct (add_neighbors_spec lg g g' EG) as (G1 & _ & G3 & _). destruct (add_neighbors_spec lh h h' EH) as (H1 & _ & H3 & _).
  destruct (G3 h HG) as (a & A1 & A2). rewrite EM in A1. injection A1 as <-. destruct (H3 g HH) as (b & B1 & B2). rewrite C46_symmetric, EM in B1. injection B1 as <-.
  unfold transfer_buffer in Bs, Bt. destruct (g_near g') as [u|]; [|discriminate]. destruct (g_near h') as [v|]; [|discriminate]. injection Bs as <-. injection Bt as <-. cbn in A2, B2.
  rewrite G1 in Hs. rewrite H1 in Ht. destruct (lower_bound_spec g h) as (z & Z1 & Z2 & _). rewrite EM in Z1. injection Z1 as <-. specialize (Z2 s t Hs Ht). cbn in Z2. unfold gap in Z2.
  pose proof (vdist_triangle dim (s_center s) p (s_center t)) as T. rewrite (vdist_sym dim (s_center s) p) in T.
  assert (U : Rmax 0 (u / 2) <= m / 2) by (apply Rmax_lub; lra). assert (V : Rmax 0 (v / 2) <= m / 2) by (apply Rmax_lub; lra). lra.
Qed.
End Grains.
Print Assumptions C46_lower_bound_is_minimum.
Print Assumptions C46_centers_is_minimum.
Print Assumptions C46_symmetric.
Print Assumptions C46_spherical_distance.
Print Assumptions C46_elliptical_distance_symmetric.
Print Assumptions C46_never_larger_than_gap.
Print Assumptions C46_gap_is_attained.
Print Assumptions C46_overlap.
Print Assumptions C46_overlap_any.
Print Assumptions C46_built_grain.
Print Assumptions C46_transfer_buffer.
Print Assumptions C46_buffered_regions_disjoint.

(** ** Where symmetry fails *)
(** Wavefront representations look the other segment up in their own map; a segment
    unknown to one side only is at the largest distance from there. *)
Theorem C46_wavefront_symmetric_refuted : ~ forall dim (edist : unit -> unit -> R) g h,
  distance dim unit edist g h = distance dim unit edist h g.
Proof.
  intro H.
  set (s := mkSegment (fun _ => 0) 1 1 1 (Some (Wavefront 0 0 [(0%nat, 1%nat, 5)])) : segment unit).
  set (t := mkSegment (fun _ => 9) 1 1 1 (Some (Wavefront 0 1 [])) : segment unit).
  specialize (H 1%nat (fun _ _ => 0) (build unit 0 0 [s]) (build unit 0 0 [t])). cbn in H. discriminate.
Qed.
Print Assumptions C46_wavefront_symmetric_refuted.

(** Two kinds of representation cannot be compared (a failed assertion in debug mode). *)
Theorem C46_mixed_representations_refuted : ~ forall dim (edist : unit -> unit -> R) g h, distance dim unit edist g h <> None.
Proof.
  intro H. apply (H 1%nat (fun _ _ => 0) (add_sphere unit (new_grain unit 0 0) (fun _ => 0) 1 1 1)
    (build unit 0 0 [mkSegment (fun _ => 9) 1 1 1 (Some (Elliptical tt))])). reflexivity.
Qed.
Print Assumptions C46_mixed_representations_refuted.

(** ** Cases: two grains on a line, one with two segments *)
Definition on_line (x : R) : vec := fun _ => x.
Definition grain_a : grain unit := add_sphere unit (new_grain unit 2 2) (on_line 0) 1 1 1.
Definition grain_b : grain unit := add_sphere unit (add_sphere unit (new_grain unit 2 2) (on_line 20) 2 1 1) (on_line 6) 2 1 1.

Lemma on_line_dist : forall x y, vdist 1 (on_line x) (on_line y) = Rabs (x - y).
Proof.
  intros x y. unfold vdist, on_line. apply norm_unique; [apply Rabs_pos|]. cbn [dot]. rewrite <- Rabs_mult. rewrite Rabs_pos_eq by (apply Rle_0_sqr). ring.
Qed.

Example C46_case : distance_lower_bound 1 unit grain_a grain_b = Some (Fin 3) /\ distance 1 unit (fun _ _ => 0) grain_a grain_b = Some (Fin 3) /\
  spherical unit grain_a /\ spherical unit grain_b /\ radii_ok unit grain_b /\ all_trivial unit grain_b.
Proof.
  assert (SA : spherical unit grain_a) by (intros s [<-|[]]; reflexivity).
  assert (SB : spherical unit grain_b) by (intros s [<-|[<-|[]]]; reflexivity).
  assert (L : distance_lower_bound 1 unit grain_a grain_b = Some (Fin 3)).
  { destruct (C46_lower_bound_is_minimum 1 unit grain_a grain_b) as (m & E & L & (s & t & Hs & Ht & EM)); [discriminate|discriminate|]. rewrite E. f_equal. f_equal.
    apply Rle_antisym.
    - specialize (L (mkSegment (on_line 0) 1 1 1 (Some (Spherical (on_line 0) 1))) (mkSegment (on_line 6) 2 1 1 (Some (Spherical (on_line 6) 2))) (or_introl eq_refl) (or_intror (or_introl eq_refl))).
      cbn [s_center s_radius] in L. rewrite on_line_dist in L. rewrite Rabs_left in L by lra. lra.
    - destruct Hs as [<-|[]]. destruct Ht as [<-|[<-|[]]]; cbn [s_center s_radius] in EM; rewrite on_line_dist in EM; rewrite Rabs_left in EM by lra; lra. }
  split; [exact L|]. split; [rewrite (proj1 (C46_spherical_distance 1 unit (fun _ _ => 0) _ _ SA SB)); exact L|]. split; [exact SA|]. split; [exact SB|]. split.
  - intros s [<-|[<-|[]]]; cbn; lra.
  - intros s [<-|[<-|[]]]; reflexivity.
Qed.

Example C46_buffer_case : exists g' h', add_neighbors 1 unit grain_a [grain_b] = Some g' /\ add_neighbors 1 unit grain_b [grain_a] = Some h' /\
  transfer_buffer unit g' = Fin (Rmax 0 (3 / 2)) /\ buffered 1 unit g' (on_line 2) /\ ~ buffered 1 unit h' (on_line 2).
Proof.
  destruct C46_case as (L & _). assert (L' : distance_lower_bound 1 unit grain_b grain_a = Some (Fin 3)) by (rewrite C46_symmetric; exact L).
  eexists _, _. assert (E1 : add_neighbors 1 unit grain_a [grain_b] = Some (mkGrain 2 2 (g_segments grain_a) (g_max_radius grain_a) (Fin 3) (g_max_value grain_a) (g_measure grain_a))).
  { cbn [add_neighbors]. unfold add_neighbor. cbn [Nat.eqb orb grain_a grain_b add_sphere add_segment g_op]. fold grain_a. unfold grain_a, grain_b in L. 
    match goal with |- context [distance_lower_bound 1 unit ?x ?y] => change (distance_lower_bound 1 unit x y) with (distance_lower_bound 1 unit grain_a grain_b) end.
    fold grain_a grain_b in L. rewrite L. reflexivity. }
  assert (E2 : add_neighbors 1 unit grain_b [grain_a] = Some (mkGrain 2 2 (g_segments grain_b) (g_max_radius grain_b) (Fin 3) (g_max_value grain_b) (g_measure grain_b))).
  { cbn [add_neighbors]. unfold add_neighbor. cbn [Nat.eqb orb grain_a grain_b add_sphere add_segment g_op]. 
    match goal with |- context [distance_lower_bound 1 unit ?x ?y] => change (distance_lower_bound 1 unit x y) with (distance_lower_bound 1 unit grain_b grain_a) end.
    rewrite L'. reflexivity. }
  split; [exact E1|]. split; [exact E2|]. split; [reflexivity|].
  assert (B : buffered 1 unit (mkGrain 2 2 (g_segments grain_a) (g_max_radius grain_a) (Fin 3) (g_max_value grain_a) (g_measure grain_a)) (on_line 2)).
  { eexists _, _. split; [left; reflexivity|]. split; [reflexivity|]. cbn [s_center s_radius]. rewrite on_line_dist, Rabs_pos_eq by lra. rewrite Rmax_right by lra. lra. }
  split; [exact B|]. eapply C46_buffered_regions_disjoint; [exact E1|exact E2|left; reflexivity|left; reflexivity|exact L|lra|exact B].
Qed.
